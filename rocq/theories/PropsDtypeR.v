(** * C67 over the reals: what integer arrays lose *)
From Coq Require Import Reals ZArith QArith Lra Lia Bool List.
From Verif Require Import NP NPReal KeplerModel ConvModel Lists ConvCols ArraySpec PropsArray Spec RealBase KepReal CartReal
  CartInv PropsCart PropsEquiCart DtypeModel PropsDtype.
Import ListNotations.
Local Open Scope R_scope.

(** storing a float into an integer array drops the fraction (C cast); NaN and infinities become the
    smallest integer *)
Definition Rtrunc (x : R) : R := if Rle_dec 0 x then IZR (Int_part x) else - IZR (Int_part (- x)).
Definition ntrunc (x : num) : num :=
  match x with Fin x => Fin (Rtrunc x) | _ => Fin (IZR (-9223372036854775808)) end.
Lemma trunc_eq n x : (0 <= n)%Z -> IZR n <= x < IZR n + 1 -> ntrunc (Fin x) = Fin (IZR n).
Proof.
  intros Hn Hx. cbn [ntrunc]. unfold Rtrunc. apply IZR_le in Hn. destruct (Rle_dec 0 x); [|lra].
  do 2 f_equal. destruct (base_Int_part x) as [A B].
  assert (IZR (Int_part x) < IZR (n + 1)) by (rewrite plus_IZR; lra). assert (IZR n < IZR (Int_part x + 1)) by (rewrite plus_IZR; lra).
  assert (Int_part x < n + 1)%Z by now apply lt_IZR. assert (n < Int_part x + 1)%Z by now apply lt_IZR. lia.
Qed.
Lemma trunc_0 x : 0 <= x < 1 -> ntrunc (Fin x) = Fin 0.
Proof. intros. apply (trunc_eq 0); [lia|cbn; lra]. Qed.
Lemma ntrunc_integer x : exists z, ntrunc x = Fin (IZR z).
Proof.
  destruct x as [x| | |]; cbn [ntrunc]; eauto. unfold Rtrunc. destruct (Rle_dec 0 x); [eauto|].
  exists (- Int_part (- x))%Z. now rewrite opp_IZR.
Qed.
Definition int6 (z : six Z) : six R := map6 IZR z.
(** the results are arrays of integers *)
Theorem C67_integers : forall g g' x mu deg y,
  snd (cart_to_kep_d ntrunc DInt g x mu deg) = Ok y \/ snd (kep_to_cart_d ntrunc DInt g' x mu deg) = Ok y ->
  Forall (fun k => exists z, k = fin6 (int6 z)) (cols_of y).
Proof.
  intros g g' x mu deg y Hy. destruct (C67_truncated ntrunc) as [A B].
  assert (S : Forall (stored6 ntrunc) (cols_of y)) by (destruct Hy as [Hy|Hy]; [exact (A _ _ _ _ _ Hy)|exact (B _ _ _ _ _ Hy)]).
  revert S. apply Forall_impl. intros [k0 k1 k2 k3 k4 k5].
  unfold stored6, stored. cbn [s0 s1 s2 s3 s4 s5]. intros [[a ->] [[b ->] [[c ->] [[d ->] [[e ->] [f ->]]]]]].
  destruct (ntrunc_integer a) as [z0 ->], (ntrunc_integer b) as [z1 ->], (ntrunc_integer c) as [z2 ->],
    (ntrunc_integer d) as [z3 ->], (ntrunc_integer e) as [z4 ->], (ntrunc_integer f) as [z5 ->].
  now exists (mk6 z0 z1 z2 z3 z4 z5).
Qed.

(** every elliptic orbit given as an integer array of positions and velocities is returned as a
    circular orbit whose semi-major axis is rounded down *)
Theorem C67_cart_to_kep_refuted : forall g mu z deg, let x := int6 z in
  0 < mu -> ang_mom x <> (0,0,0) -> energy mu x < 0 ->
  let a := mu / (- 2 * energy mu x) in
  exists y w, snd (cart_to_kep g (KVec (fin6 x)) (MuS (Fin mu)) deg) = Ok (KVec y)
  /\ snd (cart_to_kep_d ntrunc DInt g (KVec (fin6 x)) (MuS (Fin mu)) deg) = Ok (KVec w)
  /\ s0 y = Fin a /\ s1 y = Fin (norm (ecc_vec mu x))
  /\ s0 w = Fin (IZR (Int_part a)) /\ s1 w = Fin 0 /\ s3 w = Fin 0.
Proof.
  intros g mu z deg x Hmu Hh He a. unfold cart_to_kep, cart_to_kep_d. cbn [mu_bcast repeat].
  rewrite cart_to_kep_cols_map, cart_to_kep_cols_d_map by reflexivity. cbn [map2 snd].
  do 2 eexists. split; [reflexivity|]. split; [reflexivity|].
  pose proof (c2k_real mu x Hmu Hh) as C.
  assert (Ha : 0 < a) by (unfold a; apply Rdiv_lt_0_compat; lra).
  assert (A : R_a mu x = Fin a).
  { rewrite R_a_val by (auto; lra). f_equal. unfold a.
    replace (mu / (2 * energy mu x)) with (- (mu / (-2 * energy mu x))) by (field; lra). rewrite Rabs_Ropp. apply Rabs_pos_eq. fold a. lra. }
  pose proof (elliptic_elements mu x Hmu Hh He) as E1. assert (E0 : 0 <= norm (ecc_vec mu x)) by apply sqrt_pos.
  assert (S0 : forall d, s0 (c2k_col d (fin6 x) (Fin mu)) = Fin a).
  { intros d. transitivity (s0 (c2k_col false (fin6 x) (Fin mu))); [reflexivity|]. rewrite C. exact A. }
  assert (S1 : forall d, s1 (c2k_col d (fin6 x) (Fin mu)) = Fin (norm (ecc_vec mu x))).
  { intros d. transitivity (s1 (c2k_col false (fin6 x) (Fin mu))); [reflexivity|]. rewrite C. reflexivity. }
  split; [apply S0|]. split; [apply S1|].
  assert (D1 : s1 (c2k_col_d (store ntrunc DInt) deg (fin6 x) (Fin mu)) = Fin 0).
  { transitivity (ntrunc (s1 (c2k_col deg (fin6 x) (Fin mu)))); [reflexivity|]. rewrite S1. apply trunc_0. lra. }
  split; [|split; [exact D1|]].
  - specialize (S0 deg). specialize (S1 deg). unfold c2k_col in S0, S1. unfold c2k_col_d in *. cbv zeta in *. cbn [s0 s1] in *. rewrite D1.
    rewrite S1 in S0. num. rewrite Rleb_false by lra. num in S0. rewrite Rleb_false in S0 by lra.
    cbn [store]. rewrite S0. cbn [ntrunc]. unfold Rtrunc. destruct (Rle_dec 0 a); [easy|lra].
  - unfold c2k_col_d in *. cbv zeta in *. cbn [s1 s3] in *. rewrite D1.
    assert (L : ltb e_lim (Fin 0) = false) by (unfold e_lim; num; apply Rltb_false; lra). rewrite L.
    cbn [store]. num. destruct deg; rewrite trunc_0 by lra; auto. num. rewrite Rmult_0_l. apply trunc_0. lra.
Qed.

(** angles in degrees below 45: kep_to_cart overwrites the angles in the caller's integer array with 0
    (radians are stored into it and converted back) and returns the position for zero angles *)
Lemma angle_erased z : (0 <= z < 45)%Z -> ntrunc (radians (Fin (IZR z))) = Fin 0 /\ ntrunc (degrees (Fin 0)) = Fin 0.
Proof.
  intros [A B]. apply IZR_le in A. apply IZR_lt in B. pose proof PI_RGT_0. pose proof PI_4. num. split; apply trunc_0.
  - split; [apply Rmult_le_pos; [auto|]; apply Rlt_le, Rdiv_lt_0_compat; lra|].
    apply Rlt_le_trans with (45 * (PI / 180)); [apply Rmult_lt_compat_r; [lra|exact B]|lra].
  - lra.
Qed.
Theorem C67_kep_to_cart_refuted : forall g mu a i om Om nu, 0 < mu -> (0 < a)%Z ->
  (0 <= i < 45)%Z -> (0 <= om < 45)%Z -> (0 <= Om < 45)%Z -> (0 <= nu < 45)%Z ->
  let k := fin6 (int6 (mk6 a 0 i om Om nu)%Z) in
  fst (kep_to_cart g (KVec k) (MuS (Fin mu)) true) = KVec k
  /\ fst (kep_to_cart_d ntrunc DInt g (KVec k) (MuS (Fin mu)) true) = KVec (fin6 (int6 (mk6 a 0 0 0 0 0)%Z))
  /\ exists w, snd (kep_to_cart_d ntrunc DInt g (KVec k) (MuS (Fin mu)) true) = Ok (KVec w)
     /\ s1 w = Fin 0 /\ s2 w = Fin 0.
Proof.
  intros g mu a i om Om nu Hmu Ha Hi Hom HOm Hnu k. pose proof PI_RGT_0 as HP.
  destruct (angle_erased i Hi) as [Ei _], (angle_erased om Hom) as [Eo _], (angle_erased Om HOm) as [EO _], (angle_erased nu Hnu) as [En Z].
  assert (NL : ltb (lit 1) (Fin (IZR 0)) = false) by (num; apply Rltb_false; cbn; lra).
  split; [|].
  { unfold kep_to_cart. cbn [mu_mask repeat]. rewrite kep_edit_map. cbn [map]. rewrite kep_to_cart_cols_map by reflexivity.
    cbn [map2]. unfold kep_restore. cbn [map fst]. f_equal. unfold edit_col, k, fin6, int6, ang6, map6. cbn [s0 s1 s2 s3 s4 s5].
    rewrite NL. num. do 2 f_equal; field; lra. }
  unfold kep_to_cart_d. cbn [mu_mask repeat]. rewrite kep_edit_d_map. cbn [map].
  rewrite kep_to_cart_cols_d_map by reflexivity. cbn [map2]. unfold kep_restore_d. cbn [map fst snd].
  assert (EE : edit_col_d (store ntrunc DInt) true k = fin6 (mk6 (IZR a) 0 0 0 0 0)).
  { unfold edit_col_d, k, fin6, int6, ang6, map6. cbn [s0 s1 s2 s3 s4 s5 store]. rewrite NL, Ei, Eo, EO, En. reflexivity. }
  rewrite EE. split.
  { unfold ang6, fin6, map6, int6. cbn [map6 s0 s1 s2 s3 s4 s5 store]. now rewrite Z. }
  eexists. split; [reflexivity|]. apply IZR_lt in Ha.
  unfold k2c_col_d. cbv zeta. cbn [map6 fin6 s0 s1 s2 s3 s4 s5 store].
  assert (NE : eqb (Fin 0) (lit 1) = false) by (num; destruct (Reqb_spec 0 1); [lra|auto]). rewrite NE.
  assert (Hh : exists h, ntrunc (orbit_total_angular_momentum (Fin (IZR a)) (Fin 0) (Fin mu)) = Fin h).
  { destruct (ntrunc_integer (orbit_total_angular_momentum (Fin (IZR a)) (Fin 0) (Fin mu))) as [w ->]. eauto. }
  destruct Hh as [h ->].
  assert (Hr : exists rn, orbital_distance (Fin h) (Fin mu) (Fin 0) (Fin 0) false = Fin rn).
  { unfold orbital_distance. num. rewrite Fin_div by lra. eauto. }
  destruct Hr as [rn ->].
  unfold euler_rotation_matrix, m10, m11, m20, m21. cbn [fst snd]. num. rewrite cos_0, sin_0.
  split; rewrite trunc_0 by lra; apply trunc_0; lra.
Qed.

(** anomalies in radians: eccentric_to_mean and mean_to_eccentric return integers *)
Theorem C67_eccentric_to_mean_refuted : forall g, exists M,
  eccentric_to_mean g (fresh [1%nat] [Fin 1]) (Sc (Fin (1/2))) false = Ok (fresh [1%nat] [Fin M]) /\ 1/2 <= M < 1
  /\ eccentric_to_mean_d ntrunc g (fresh [1%nat] [Fin (IZR 1)], DInt) (Sc (Fin (1/2)), DFloat) false = Ok (fresh [1%nat] [Fin 0], DInt).
Proof.
  intros g. exists (1 - 1 / 2 * sin 1).
  assert (S : 0 < sin 1 <= 1). { split; [|apply SIN_bound]. pose proof PI2_1 as P. unfold PI2 in P. apply sin_gt_0; lra. }
  assert (B : 0 <= 1 - 1 / 2 * sin 1 < 1) by lra.
  assert (M1 : ltb (lit 1) (Fin (1/2)) = false) by (num; apply Rltb_false; lra).
  assert (M2 : eqb (Fin (1/2)) (lit 1) = false) by (num; destruct (Reqb_spec (1/2) 1); [lra|auto]).
  assert (M3 : ltb (Fin (1/2)) (lit 1) = true) by (num; apply Rltb_true; lra).
  unfold eccentric_to_mean, eccentric_to_mean_d, by_masks_d, by_masks, fresh.
  cbn [fst in_rad broadcast rbind out_deg length seq map np_empty buf snd store]. unfold hyp_of, per_of, eli_of. cbn [map]. rewrite M1, M2, M3.
  cbn [mget mset map2]. unfold e2m_eli. num. split; [reflexivity|]. split; [lra|]. now rewrite trunc_0.
Qed.

(** r = (2, 0, 0), v = (0, 1, 0), mu = 3: a = 3/2 and e = 1/3 become a = 1 and e = 0 *)
Example C67_cart_example : forall g, let z := (mk6 2 0 0 0 1 0)%Z in exists y w,
  snd (cart_to_kep g (KVec (fin6 (int6 z))) (MuS (Fin 3)) false) = Ok (KVec y)
  /\ snd (cart_to_kep_d ntrunc DInt g (KVec (fin6 (int6 z))) (MuS (Fin 3)) false) = Ok (KVec w)
  /\ s0 y = Fin (3 / 2) /\ s1 y = Fin (1 / 3) /\ s0 w = Fin 1 /\ s1 w = Fin 0.
Proof.
  intros g z.
  assert (N : norm (2, 0, 0) = 2) by (unfold norm; vunf; replace (2 * 2 + 0 * 0 + 0 * 0) with (2 * 2) by ring; apply sqrt_square; lra).
  assert (En : energy 3 (int6 z) = - 1).
  { unfold energy, int6, z. change (pos _) with (2, 0, 0). change (vel _) with (0, 1, 0). rewrite N. vunf. field. }
  assert (Hh : ang_mom (int6 z) <> (0, 0, 0)).
  { unfold ang_mom, int6, z. change (pos _) with (2, 0, 0). change (vel _) with (0, 1, 0). vunf. injection. lra. }
  destruct (C67_cart_to_kep_refuted g 3 z false ltac:(lra) Hh ltac:(lra)) as [y [w [Y [W [A [B [C [D _]]]]]]]].
  exists y, w. split; [exact Y|]. split; [exact W|]. rewrite En in A, C.
  split; [rewrite A; f_equal; field|]. split.
  - rewrite B. f_equal. unfold ecc_vec, ang_mom, int6, z. change (pos _) with (2, 0, 0). change (vel _) with (0, 1, 0).
    rewrite N. unfold norm. vunf. match goal with |- sqrt ?a = _ => replace a with (1 / 3 * (1 / 3)) by field end. apply sqrt_square. lra.
  - split; [|exact D]. rewrite C. pose proof (trunc_eq 1 (3 / (-2 * -1)) ltac:(lia) ltac:(lra)) as T. cbn [ntrunc] in T.
    unfold Rtrunc in T. destruct (Rle_dec 0 (3 / (-2 * -1))); [exact T|lra].
Qed.
(** k = (7, 0, 40, 30, 20, 10) degrees: the angles in the caller's array become 0 *)
Example C67_kep_example : forall g,
  fst (kep_to_cart_d ntrunc DInt g (KVec (fin6 (int6 (mk6 7 0 40 30 20 10)%Z))) (MuS (Fin 1)) true)
  = KVec (fin6 (int6 (mk6 7 0 0 0 0 0)%Z)).
Proof. intros g. apply C67_kep_to_cart_refuted; lra || lia. Qed.
