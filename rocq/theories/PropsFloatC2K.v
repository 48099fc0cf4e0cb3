(** * C83: accuracy of cart_to_kep in floating point *)
From Coq Require Import Reals QArith Qreals ZArith Lra Lia Psatz Bool List.
From Verif Require Import NP NPReal NPFloat FloatBase KeplerModel ConvModel Lists ConvCols Spec RealBase KepReal CartReal PropsKep CartInv LagTrig LagRobust.
From Verif Require Import FloatAcc FloatVec PropsFloat PropsFloatAcc FloatC2K FloatC2KCol FloatC2KAcc.
From Flocq Require Core.
Import ListNotations.
Local Open Scope R_scope.

(** unit roundoff of the binary format with [p] digits *)
Definition ulp1 (p : Z) : R := Core.Raux.bpow Core.Zaux.radix2 (- p).
(** the arccosine of the mathematics library is accurate to four units *)
Definition acos_acc (p : Z) (L : libm) : Prop :=
  forall q, -1 <= q <= 1 -> Rabs (rnd p (l_acos L q) - acos q) <= 4 * ulp1 p.
(** an inclined ellipse, far enough from the circular, parabolic and equatorial cases for the precision at hand *)
Definition regular_kep (u : R) (k : six R) : Prop :=
  0 < k_e k < 1 /\ 0 < k_i k < PI /\
  u / (k_e k * (1 - k_e k) * sin (k_i k)) <= / 100000000 /\
  100 * (u / (1 - k_e k)) <= sin (k_i k) * sin (k_i k) /\ / 100000000 <= sin (k_i k) /\ 2 / 1000000000 <= k_e k.
(** [k'] approximates [k]: [angle_within d t' t] says that the cosines differ by at most d, the sines by at most 3 sqrt d,
    and by at most 3 d / |sin t| *)
Definition elements_within (u : R) (k' k : six R) : Prop :=
  Rabs (k_a k' - k_a k) <= 100 * (u / (1 - k_e k)) * k_a k /\
  Rabs (k_e k' - k_e k) <= 290 * u /\
  angle_within (100 * (u / (1 - k_e k))) (k_i k') (k_i k) /\
  angle_within (1010 * (u / (k_e k * (1 - k_e k) * sin (k_i k)))) (k_om k') (k_om k) /\
  angle_within (110 * (u / ((1 - k_e k) * sin (k_i k)))) (k_Om k') (k_Om k) /\
  angle_within (1460 * (u / k_e k)) (k_nu k') (k_nu k).

Lemma units_le p k : 0 < k_e k < 1 -> 0 < k_i k < PI -> let u := ulp1 p in
  0 < u /\ u <= u / (1 - k_e k) /\ u / (1 - k_e k) <= u / ((1 - k_e k) * sin (k_i k)) /\
  u / ((1 - k_e k) * sin (k_i k)) <= u / (k_e k * (1 - k_e k) * sin (k_i k)) /\ u <= u / k_e k /\
  u / k_e k <= u / (k_e k * (1 - k_e k) * sin (k_i k)).
Proof. intros He Hi u. split; [apply Core.Raux.bpow_gt_0|]. exact (FloatC2KAcc.Hww p k He Hi). Qed.
(** a further error in the angle *)
Lemma within_shift d h t'' t' t : angle_within d t' t -> 0 <= d -> 0 <= h -> d + h <= / 100 -> Rabs (t'' - t') <= h -> angle_within (d + h) t'' t.
Proof.
  intros (A & B & C) Hd Hh Hdh Ht. pose proof (cos_lip t'' t') as LC. pose proof (sin_lip t'' t') as LS.
  assert (S : Rabs (sin t'' - sin t) <= Rabs (sin t' - sin t) + h).
  { replace (sin t'' - sin t) with ((sin t' - sin t) + (sin t'' - sin t')) by ring. apply abs_add_le; lra. }
  assert (ST : Rabs (sin t) <= 1) by (apply Rabs_le, SIN_bound). pose proof (Rabs_pos (sin t)).
  split; [|split].
  - replace (cos t'' - cos t) with ((cos t' - cos t) + (cos t'' - cos t')) by ring. apply abs_add_le; lra.
  - pose proof (sqrt_pos d) as P1. pose proof (sqrt_pos (d + h)) as P2. pose proof (sqrt_sqrt d Hd) as Q1. pose proof (sqrt_sqrt (d + h) ltac:(lra)) as Q2.
    assert (sqrt (d + h) <= 1) by nra. assert (sqrt d <= sqrt (d + h)) by (apply sqrt_le_1; lra). nra.
  - assert (Rabs (sin t) * Rabs (sin t'' - sin t) <= Rabs (sin t) * (Rabs (sin t' - sin t) + h)) by (apply Rmult_le_compat_l; auto). nra.
Qed.
(** the column: radians, and the angles before a conversion to degrees *)
Lemma column p L mu k : (1 < p)%Z -> acos_ok p L -> acos_acc p L -> valid_kep mu k -> regular_kep (ulp1 p) k ->
  exists k', @c2k_col num (NP_rd (rnd p) L) false (fin6 (peri_state mu k)) (Fin mu) = fin6 k' /\ elements_within (ulp1 p) k' k /\
    (Rabs (k_a k' - k_a k) <= 100 * (ulp1 p / (1 - k_e k)) * k_a k /\ Rabs (k_e k' - k_e k) <= 290 * ulp1 p /\
     forall h t1 t2 t3 t4, h <= 60 * ulp1 p -> Rabs (t1 - k_i k') <= h -> Rabs (t2 - k_om k') <= h -> Rabs (t3 - k_Om k') <= h -> Rabs (t4 - k_nu k') <= h ->
       elements_within (ulp1 p) (mk6 (k_a k') (k_e k') t1 t2 t3 t4) k) /\
    Rabs (k_i k') <= 9 /\ Rabs (k_om k') <= 9 /\ Rabs (k_Om k') <= 9 /\ Rabs (k_nu k') <= 9.
Proof.
  intros Hp HL HA Hv (He & Hi & Hw & Hinc & Hlim & Hel).
  destruct (col_acc p Hp L HL HA mu k Hv He Hi Hw Hinc Hlim Hel) as [E (A1 & A2 & A3 & A4 & A5 & A6)].
  pose proof (col_range p Hp L HA mu k Hv He Hi Hw) as Rg.
  destruct (units_le p k He Hi) as (U & W1 & W2 & W3 & W4 & W5). change (Raux.bpow Zaux.radix2 (- p)) with (ulp1 p) in *.
  set (k' := mk6 _ _ _ _ _ _) in *.
  assert (Sh : forall h t1 t2 t3 t4, h <= 60 * ulp1 p -> Rabs (t1 - k_i k') <= h -> Rabs (t2 - k_om k') <= h -> Rabs (t3 - k_Om k') <= h -> Rabs (t4 - k_nu k') <= h ->
       elements_within (ulp1 p) (mk6 (k_a k') (k_e k') t1 t2 t3 t4) k).
  { intros h t1 t2 t3 t4 Hh B1 B2 B3 B4. assert (H0 : 0 <= h) by (pose proof (Rabs_pos (t1 - k_i k')); lra).
    split; [exact A1|]. split; [exact A2|]. cbn [k_i k_om k_Om k_nu s2 s3 s4 s5].
    split; [|split; [|split]].
    - eapply within_weak; [apply (within_shift _ h _ _ _ A3); auto; lra|lra].
    - eapply within_weak; [apply (within_shift _ h _ _ _ A4); auto; lra|lra].
    - eapply within_weak; [apply (within_shift _ h _ _ _ A5); auto; lra|lra].
    - eapply within_weak; [apply (within_shift _ h _ _ _ A6); auto; lra|lra]. }
  exists k'. split; [exact E|]. split.
  { assert (Z : forall t, Rabs (t - t) <= 0) by (intros; rewrite Rminus_diag_eq, Rabs_R0; lra).
    exact (Sh 0 _ _ _ _ ltac:(lra) (Z _) (Z _) (Z _) (Z _)). }
  split; [|exact Rg]. split; [exact A1|]. split; [exact A2|exact Sh].
Qed.

(** ** One state *)
Theorem C83_cart_to_kep : forall p L mu k x g, (1 < p)%Z -> acos_ok p L -> acos_acc p L ->
  valid_kep mu k -> regular_kep (ulp1 p) k -> state_of mu k x ->
  exists k', snd (@cart_to_kep num (NP_rd (rnd p) L) g (KVec (fin6 x)) (MuS (Fin mu)) false) = Ok (KVec (fin6 k')) /\
    elements_within (ulp1 p) k' k.
Proof.
  intros p L mu k x g Hp HL HA Hv Hk Sx. rewrite (state_of_inv mu k x Hv Sx).
  destruct (column p L mu k Hp HL HA Hv Hk) as (k' & E & C & _).
  exists k'. split; [|exact C]. unfold cart_to_kep, mu_bcast. cbn [repeat]. rewrite cart_to_kep_cols_map by reflexivity.
  cbn [snd map2]. do 2 f_equal. exact E.
Qed.
(** an array: every column *)
Theorem C83_array : forall p L g ks xs mus, (1 < p)%Z -> acos_ok p L -> acos_acc p L ->
  length xs = length mus -> length ks = length mus ->
  (forall j k x mu, nth_error ks j = Some k -> nth_error xs j = Some x -> nth_error mus j = Some mu ->
     valid_kep mu k /\ regular_kep (ulp1 p) k /\ state_of mu k x) ->
  exists ks', snd (@cart_to_kep num (NP_rd (rnd p) L) g (KMat (map fin6 xs)) (MuV (map Fin mus)) false) = Ok (KMat (map fin6 ks')) /\
    length ks' = length xs /\
    forall j k k', nth_error ks j = Some k -> nth_error ks' j = Some k' -> elements_within (ulp1 p) k' k.
Proof.
  intros p L g ks xs mus Hp HL HA Hx Hk Hall.
  unfold cart_to_kep, mu_bcast. rewrite !map_length, Hx, Nat.eqb_refl, cart_to_kep_cols_map by now rewrite !map_length.
  cbn [snd]. rewrite map2_map_l, map2_map_r.
  enough (G : exists ks', map2 (fun x m => @c2k_col num (NP_rd (rnd p) L) false (fin6 x) (Fin m)) xs mus = map fin6 ks' /\
    length ks' = length mus /\ forall j k k', nth_error ks j = Some k -> nth_error ks' j = Some k' -> elements_within (ulp1 p) k' k).
  { destruct G as (ks' & G1 & G2 & G3). exists ks'. rewrite G1. auto. }
  clear g. revert xs ks Hx Hk Hall. induction mus as [|mu mus IH]; intros [|x xs] [|k ks] Hx Hk Hall; try discriminate.
  - exists []. split; [reflexivity|]. split; [reflexivity|]. intros [|]; discriminate.
  - destruct (Hall 0%nat k x mu eq_refl eq_refl eq_refl) as (Hv & Hk0 & Sx).
    destruct (column p L mu k Hp HL HA Hv Hk0) as (k' & E & C & _). rewrite <- (state_of_inv mu k x Hv Sx) in E.
    destruct (IH xs ks) as (ks' & E1 & E2 & E3); [now injection Hx|now injection Hk|intros j; apply (Hall (S j))|].
    exists (k' :: ks'). cbn [map2 map length]. rewrite <- E1, E2, E. split; [reflexivity|]. split; auto.
    intros [|j] k1 k2; cbn [nth_error]; [|apply E3]. intros [= <-] [= <-]. exact C.
Qed.

(** degrees *)
Theorem C83_degrees : forall p L mu k x g, (1 < p)%Z -> acos_ok p L -> acos_acc p L ->
  valid_kep mu k -> regular_kep (ulp1 p) k -> state_of mu k x ->
  exists k', snd (@cart_to_kep num (NP_rd (rnd p) L) g (KVec (fin6 x)) (MuS (Fin mu)) true) = Ok (KVec (fin6 k')) /\
    elements_within (ulp1 p) (rad6 k') k.
Proof.
  intros p L mu k x g Hp HL HA Hv Hk Sx. rewrite (state_of_inv mu k x Hv Sx).
  destruct (column p L mu k Hp HL HA Hv Hk) as (k' & E & _ & (_ & _ & Sh) & R1 & R2 & R3 & R4).
  destruct Hk as (He & Hi & Hw & _). destruct (units_le p k He Hi) as (U & W1 & W2 & W3 & _). 
  set (u := ulp1 p) in *. pose proof (binary_rounding p Hp) as Hrd. fold (ulp1 p) in Hrd. fold u in Hrd.
  assert (U4 : u <= / 10000) by lra. pose proof (Rle_refl u) as R0. pose proof PI_RGT_0 as P0.
  set (D := fun t => rnd p (t * rnd p (rnd p (Q2R 180) / rnd p PI))).
  assert (HD : forall t, Rabs t <= 9 -> Rabs (D t * (PI / 180) - t) <= 60 * u).
  { intros t Ht.
    assert (B : forall y, rel u (rnd p y) y 1) by (intros y; unfold rel; rewrite Rmult_1_l; apply Hrd).
    destruct (rel_div (rnd p) u Hrd u R0 U4 _ _ _ _ _ _ (B (Q2R 180)) (B PI) ltac:(lra) ltac:(lra) ltac:(lra)) as [_ Q].
    pose proof (rel_mul (rnd p) u Hrd u R0 U4 t t _ _ 0 _ (rel_refl u t) Q ltac:(lra) ltac:(lra)) as M. fold (D t) in M.
    unfold rel in M. replace (Q2R 180) with 180 in M by (unfold Q2R; cbn; lra).
    replace (D t * (PI / 180) - t) with ((D t - t * (180 / PI)) * (PI / 180)) by (field; lra).
    rewrite Rabs_mult, (Rabs_pos_eq (PI / 180)) by lra.
    apply Rle_trans with ((0 + (1 + 1 + 2) + 2) * u * Rabs (t * (180 / PI)) * (PI / 180)); [apply Rmult_le_compat_r; lra|].
    rewrite Rabs_mult, (Rabs_pos_eq (180 / PI)) by (apply Rlt_le, Rdiv_lt_0_compat; lra).
    replace ((0 + (1 + 1 + 2) + 2) * u * (Rabs t * (180 / PI)) * (PI / 180)) with (6 * u * Rabs t) by (field; lra). nra. }
  exists (mk6 (k_a k') (k_e k') (D (k_i k')) (D (k_om k')) (D (k_Om k')) (D (k_nu k'))). split.
  - unfold cart_to_kep, mu_bcast. cbn [repeat]. rewrite cart_to_kep_cols_map by reflexivity.
    cbn [snd map2]. do 2 f_equal. rewrite c2k_deg, E. unfold fin6, map6. cbn [s0 s1 s2 s3 s4 s5].
    assert (G : forall t, @degrees num (NP_rd (rnd p) L) (Fin t) = Fin (D t)).
    { intros t. unfold degrees. change (NP_rd (rnd p) L) with (NPf p L). change (@npi num (NPf p L)) with (Fin (rnd p PI)).
      rewrite f_lit, (f_div p L); [reflexivity|]. pose proof (rpi_pos p Hp). lra. }
    now rewrite !G.
  - apply (Sh (60 * u)); [lra| | | |]; cbn [k_i k_om k_Om k_nu s2 s3 s4 s5]; apply HD; auto.
Qed.

(** ** In terms of the angles themselves *)
Lemma within_angle d t' t : d <= / 100 -> angle_within d t' t -> exists n, cong2pi n t' /\ Rabs (n - t) <= 4 * sqrt d.
Proof.
  intros Hd (C & S & _). assert (D0 : 0 <= d) by (pose proof (Rabs_pos (cos t' - cos t)); lra).
  pose proof (sqrt_pos d) as P. pose proof (sqrt_sqrt d D0) as Q. pose proof PI_RGT_0 as P0. pose proof PI_4 as P4.
  destruct (Rmod_2pi (t' - t + PI)) as [B Cg]. set (th := Rmod (t' - t + PI) (2 * PI) - PI). unfold in_circle in B.
  assert (Ht : - PI <= th < PI) by (unfold th; lra).
  assert (Cg2 : cong2pi th (t' - t)).
  { destruct Cg as [m Em]. exists m. unfold th. rewrite Em. ring. }
  exists (t + th). split.
  { destruct Cg2 as [m Em]. exists m. rewrite Em. ring. }
  replace (t + th - t) with th by ring.
  pose proof (cong_cos _ _ Cg2) as K. rewrite cos_minus in K. pose proof (sc1 t) as T. pose proof (sc1 t') as T'.
  assert (H2 : cos th = 1 - 2 * sin (th / 2) * sin (th / 2)) by (replace th with (2 * (th / 2)) at 1 by field; apply cos_2a_sin).
  apply abs_in in C, S.
  assert (Sq : 4 * (sin (th / 2) * sin (th / 2)) <= 10 * d).
  { assert (W : forall a b, - b <= a <= b -> a * a <= b * b) by (clear; intros; nra).
    pose proof (W _ _ C) as C2. pose proof (W _ _ S) as S2.
    replace (3 * sqrt d * (3 * sqrt d)) with (9 * (sqrt d * sqrt d)) in S2 by ring. rewrite Q in S2.
    assert (d * d <= d) by (clear - D0 Hd; nra). lra. }
  assert (M : forall y, 0 <= y <= PI / 2 -> 4 * (sin y * sin y) <= 10 * d -> y <= 2 * sqrt d).
  { intros y Hy Hs. pose proof (sin_ge y ltac:(lra)) as G. assert (S0 : 0 <= sin y) by (apply sin_ge_0; lra).
    assert (S1 : sin y <= 16 / 10 * sqrt d) by nra. assert (sqrt d <= / 10) by nra.
    assert (y <= 165 / 100) by (pose proof LagRobust.PI_b; lra).
    assert (Y2 : y * y <= 273 / 100) by nra.
    assert (G2 : y * (1 - y * y / 6) <= sin y) by lra.
    assert (Y3 : y * (54 / 100) <= sin y) by nra. assert (Y4 : y <= 30 / 100) by lra.
    assert (Y5 : y * y <= 9 / 100) by (clear - Hy Y4; nra). assert (Y6 : y * (98 / 100) <= sin y) by nra. lra. }
  unfold Rabs. destruct Rcase_abs.
  - assert (- th / 2 <= 2 * sqrt d); [|lra]. apply M; [lra|]. replace (- th / 2) with (- (th / 2)) by field. rewrite sin_neg. lra.
  - assert (th / 2 <= 2 * sqrt d); [|lra]. apply M; [lra|auto].
Qed.
Theorem C83_angles : forall p L mu k x g, (1 < p)%Z -> acos_ok p L -> acos_acc p L ->
  valid_kep mu k -> regular_kep (ulp1 p) k -> state_of mu k x ->
  exists k', snd (@cart_to_kep num (NP_rd (rnd p) L) g (KVec (fin6 x)) (MuS (Fin mu)) false) = Ok (KVec (fin6 k')) /\
    forall t t', In (t, t') [(k_i k, k_i k'); (k_om k, k_om k'); (k_Om k, k_Om k'); (k_nu k, k_nu k')] ->
      exists n, cong2pi n t' /\ Rabs (n - t) <= 155 * sqrt (ulp1 p / (k_e k * (1 - k_e k) * sin (k_i k))).
Proof.
  intros p L mu k x g Hp HL HA Hv Hk Sx. destruct (C83_cart_to_kep p L mu k x g Hp HL HA Hv Hk Sx) as (k' & E & _ & _ & A1 & A2 & A3 & A4).
  exists k'. split; [exact E|]. destruct Hk as (He & Hi & Hw & _). 
  assert (S : 0 < sin (k_i k) <= 1) by (split; [apply sin_gt_0; lra|apply SIN_bound]).
  pose proof (FloatC2KAcc.Hww p k He Hi) as (W1 & W2 & W3 & W4 & W5). fold (ulp1 p) in W1, W2, W3, W4, W5.
  assert (U : 0 < ulp1 p) by apply Core.Raux.bpow_gt_0.
  set (w := ulp1 p / (k_e k * (1 - k_e k) * sin (k_i k))) in *. 
  assert (W0 : 0 <= w) by lra.
  assert (G : forall d t' t, d <= 1460 * w -> angle_within d t' t -> exists n, cong2pi n t' /\ Rabs (n - t) <= 155 * sqrt w).
  { intros d t' t Hd A. destruct (within_angle (1460 * w) t' t ltac:(lra) (within_weak _ _ _ _ A Hd)) as (n & N1 & N2).
    exists n. split; auto. eapply Rle_trans; [exact N2|]. rewrite sqrt_mult by lra. pose proof (sqrt_pos w).
    assert (sqrt 1460 <= 3825 / 100); [|nra]. rewrite <- (sqrt_square (3825 / 100)) by lra. apply sqrt_le_1; lra. }
  intros t t' Hin. cbn [In] in Hin. destruct Hin as [E1|[E1|[E1|[E1|[]]]]]; injection E1 as <- <-.
  - eapply G; [|exact A1]; lra. - eapply G; [|exact A2]; lra. - eapply G; [|exact A3]; lra. - eapply G; [|exact A4]; lra.
Qed.

(** ** Half of the digits can be lost: an angle that comes from an arccosine is not accurate to a fixed number of units *)
Lemma FLX_valid p : (1 < p)%Z -> Core.Generic_fmt.Valid_exp (Core.FLX.FLX_exp p).
Proof. intros Hp. apply Core.FLX.FLX_exp_valid. unfold Core.FLX.Prec_gt_0. lia. Qed.
Lemma rnd_above1 p t : (1 < p)%Z -> 0 <= t < Core.Raux.bpow Core.Zaux.radix2 (- p) -> rnd p (1 + t) = 1.
Proof.
  intros Hp [H1 H2]. assert (F1 := fmt_1 p Hp). apply Rle_antisym.
  - apply Core.Ulp.round_N_le_midp; [apply (FLX_valid p Hp)|exact F1|].
    rewrite Core.Ulp.succ_eq_pos by lra.
    assert (P : Core.Ulp.ulp Core.Zaux.radix2 (Core.FLX.FLX_exp p) 1 = 2 * Core.Raux.bpow Core.Zaux.radix2 (- p)).
    { change 1 with (Core.Raux.bpow Core.Zaux.radix2 0) at 1. rewrite Core.Ulp.ulp_bpow. unfold Core.FLX.FLX_exp.
      replace (0 + 1 - p)%Z with (1 + - p)%Z by ring. rewrite Core.Raux.bpow_plus. reflexivity. }
    rewrite P. lra.
  - apply Rle_trans with (rnd p 1); [rewrite rnd_1 by auto; lra|apply rnd_le; [auto|lra]].
Qed.
(** the state (1, 0, -d, 0, 1, 1) with central parameter 3/2: the node is at the angle atan d *)
Section Lost.
Context (d : R) (Hd : 0 < d <= / 100000).
Definition lost_x : six R := mk6 1 0 (- d) 0 1 1.
Let mu := 3 / 2.
Local Lemma lost_h : ang_mom lost_x = (d, -1, 1).
Proof. unfold ang_mom, lost_x, cross, pos, vel. cbn [s0 s1 s2 s3 s4 s5]. apply vec_eq; unfold vx, vy, vz; cbn [fst snd]; ring. Qed.
Local Lemma lost_n : norm (pos lost_x) * norm (pos lost_x) = 1 + d * d.
Proof. rewrite norm_sq. unfold lost_x, pos, dot, vx, vy, vz. cbn [s0 s1 s2 fst snd]. ring. Qed.
Local Lemma lost_r : 1 <= norm (pos lost_x) <= 1 + d * d.
Proof. pose proof lost_n. pose proof (norm_pos (pos lost_x)). split; nra. Qed.
Local Lemma lost_en : - (1 / 2) <= energy mu lost_x <= - (4999 / 10000).
Proof.
  unfold energy, mu. replace (dot (vel lost_x) (vel lost_x)) with 2 by (unfold lost_x, vel, dot, vx, vy, vz; cbn [s3 s4 s5 fst snd]; ring).
  pose proof lost_r as [A B]. assert (D : d * d <= / 100000) by nra.
  assert (I : / norm (pos lost_x) <= 1) by (rewrite <- Rinv_1; apply Rinv_le_contravar; lra).
  assert (J : 1 - d * d <= / norm (pos lost_x)).
  { apply Rmult_le_reg_r with (norm (pos lost_x)); [lra|]. rewrite Rinv_l by lra. nra. }
  unfold Rdiv. lra.
Qed.
Local Lemma lost_hh : norm (ang_mom lost_x) * norm (ang_mom lost_x) = 2 + d * d.
Proof. rewrite norm_sq, lost_h. unfold dot, vx, vy, vz. cbn [fst snd]. ring. Qed.
Local Lemma lost_ecc : / 4 <= norm (ecc_vec mu lost_x) <= / 2.
Proof.
  assert (Hh : ang_mom lost_x <> (0, 0, 0)) by (rewrite lost_h; intros E; injection E; intros; lra).
  assert (Hmu : 0 < mu) by (unfold mu; lra).
  pose proof (ecc_energy mu lost_x Hmu Hh) as E. rewrite lost_hh in E. pose proof lost_en as [A B].
  assert (D : 0 <= d * d <= / 10000000000) by nra. pose proof (norm_pos (ecc_vec mu lost_x)) as P.
  set (e := norm (ecc_vec mu lost_x)) in *. set (E0 := energy mu lost_x) in *.
  assert (F : e * e - 1 = 8 / 9 * (E0 * (2 + d * d))) by (rewrite E; unfold mu; field).
  assert (- (100001 / 100000) <= E0 * (2 + d * d) <= - (9998 / 10000)) by nra. split; nra.
Qed.
Lemma lost_k : exists k, valid_kep mu k /\ peri_state mu k = lost_x /\ / 4 <= k_e k <= / 2 /\ 0 < k_i k < PI /\ 7 / 10 <= sin (k_i k) /\
  d / 2 <= sin (k_Om k).
Proof.
  assert (Hh : ang_mom lost_x <> (0, 0, 0)) by (rewrite lost_h; intros E; injection E; intros; lra).
  assert (Hmu : 0 < mu) by (unfold mu; lra). pose proof lost_en as He.
  destruct (state_surj mu lost_x Hmu Hh ltac:(lra)) as (k & Hv & _ & Hi & _ & _ & _ & E).
  exists k. split; [exact Hv|]. split; [exact E|].
  pose proof (peri_en mu k Hv) as EN. rewrite E in EN. pose proof lost_ecc as EC. rewrite EN in EC. split; [exact EC|].
  pose proof (peri_h mu k Hv) as H. rewrite E, lost_h in H.
  pose proof (peri_hn mu k Hv) as HN. rewrite E in HN. pose proof lost_hh as HH. rewrite HN in HH. cbn zeta in HH.
  set (h := sqrt (mu * semi_latus (k_a k) (k_e k))) in *. assert (h0 : 0 <= h) by apply sqrt_pos.
  unfold W_axis, scal3 in H. unfold vx, vy, vz in H. cbn [fst snd] in H. injection H as H1 H2 H3.
  assert (S0 : 0 <= sin (k_i k)) by (apply sin_ge_0; lra).
  pose proof (sc1 (k_Om k)) as T. pose proof (sc1 (k_i k)) as T2.
  assert (D : 0 <= d * d <= / 10000000000) by nra.
  assert (NN : (h * sin (k_i k)) * (h * sin (k_i k)) = 1 + d * d).
  { replace (1 + d * d) with ((h * (sin (k_i k) * sin (k_Om k))) * (h * (sin (k_i k) * sin (k_Om k))) + (h * - (sin (k_i k) * cos (k_Om k))) * (h * - (sin (k_i k) * cos (k_Om k)))) by (rewrite <- H1, <- H2; ring).
    replace (h * (sin (k_i k) * sin (k_Om k)) * (h * (sin (k_i k) * sin (k_Om k))) + h * - (sin (k_i k) * cos (k_Om k)) * (h * - (sin (k_i k) * cos (k_Om k))))
      with ((h * sin (k_i k)) * (h * sin (k_i k)) * (sin (k_Om k) * sin (k_Om k) + cos (k_Om k) * cos (k_Om k))) by ring. rewrite T. ring. }
  assert (N0 : 0 <= h * sin (k_i k)) by nra.
  assert (N1 : 1 <= h * sin (k_i k) <= 2) by nra.
  assert (SI : 7 / 10 <= sin (k_i k)). { assert (h <= 142 / 100) by nra. assert (1 < h * (71 / 100) * 10) by nra. nra. }
  split; [|split; [exact SI|]].
  - destruct Hi as [[I1|I1] [I2|I2]]; [lra| | |]; exfalso; rewrite ?I2, <- ?I1, ?sin_PI, ?sin_0 in SI; lra.
  - assert (Q : d = (h * sin (k_i k)) * sin (k_Om k)) by (rewrite H1 at 1; ring). nra.
Qed.
End Lost.
Lemma libm0_acos p : (1 < p)%Z -> acos_acc p libm0.
Proof.
  intros Hp q Hq. cbn [libm0 l_acos]. eapply Rle_trans; [apply (rr_err _ _ (binary_rounding p Hp))|].
  pose proof (acos_bound q). pose proof PI_4. rewrite Rabs_pos_eq by lra. fold (ulp1 p).
  assert (0 < ulp1 p) by apply Core.Raux.bpow_gt_0. nra.
Qed.
Lemma fmt_bpow p z : (1 < p)%Z -> fmt p (Core.Raux.bpow Core.Zaux.radix2 z).
Proof.
  intros Hp. replace (Core.Raux.bpow Core.Zaux.radix2 z) with (IZR 1 * Core.Raux.bpow Core.Zaux.radix2 z) by ring.
  apply fmt_scale; auto. change (Z.abs 1) with (2 ^ 0)%Z. apply Z.pow_lt_mono_r; lia.
Qed.
Lemma lost_Om p L z : (1 < p)%Z -> acos_ok p L -> (2 * z < - p)%Z -> f_Om p L (lost_x (Core.Raux.bpow Core.Zaux.radix2 z)) = 0.
Proof.
  intros Hp (HL & _) Hz. set (d := Core.Raux.bpow Core.Zaux.radix2 z). assert (D0 : 0 < d) by apply Core.Raux.bpow_gt_0.
  assert (Hx : f_hx p (lost_x d) = d).
  { unfold f_hx, lost_x, pos, vel, vx, vy, vz. cbn [s0 s1 s2 s3 s4 s5 fst snd]. replace (0 * 1) with 0 by ring. rewrite rnd_0, Rmult_1_r.
    rewrite (rnd_fmt p (- d)) by (apply fmt_opp, fmt_bpow; auto). replace (0 - - d) with d by ring. apply rnd_fmt, fmt_bpow; auto. }
  assert (Hy : f_hy p (lost_x d) = -1).
  { unfold f_hy, lost_x, pos, vel, vx, vy, vz. cbn [s0 s1 s2 s3 s4 s5 fst snd]. rewrite Rmult_0_r, rnd_0, Rmult_1_r, rnd_1 by auto.
    replace (0 - 1) with (- (1)) by ring. rewrite rnd_fmt by (apply fmt_opp, fmt_1; auto). lra. }
  assert (Hn : f_nn p (lost_x d) = 1).
  { unfold f_nn. rewrite Hx, Hy. unfold rnorm, vx, vy, vz. cbn [fst snd].
    replace (- (-1) * - (-1)) with 1 by ring. rewrite rnd_1, Rmult_0_r, rnd_0 by auto.
    assert (DD : d * d = Core.Raux.bpow Core.Zaux.radix2 (2 * z)).
    { unfold d. rewrite <- Core.Raux.bpow_plus. f_equal. lia. }
    rewrite (rnd_fmt p (d * d)) by (rewrite DD; apply fmt_bpow; auto).
    rewrite rnd_above1; auto.
    - rewrite Rplus_0_r, rnd_1, sqrt_1, rnd_1; auto.
    - rewrite DD. split; [apply Rlt_le, Core.Raux.bpow_gt_0|now apply Core.Raux.bpow_lt]. }
  assert (Hq : f_qO p (lost_x d) = 1).
  { unfold f_qO. rewrite Hn, Hy. replace (- (-1) / 1) with 1 by field. now apply rnd_1. }
  unfold f_Om, flipF. rewrite Hx, Hq. rewrite Rltb_false by lra. exact HL.
Qed.
Theorem C83_exact_refuted : ~ exists C, forall p L mu k x g k', (1 < p)%Z -> acos_ok p L -> acos_acc p L ->
  valid_kep mu k -> regular_kep (ulp1 p) k -> state_of mu k x -> fmt p mu ->
  fmt p (s0 x) -> fmt p (s1 x) -> fmt p (s2 x) -> fmt p (s3 x) -> fmt p (s4 x) -> fmt p (s5 x) ->
  snd (@cart_to_kep num (NP_rd (rnd p) L) g (KVec (fin6 x)) (MuS (Fin mu)) false) = Ok (KVec (fin6 k')) ->
  Rabs (sin (k_Om k') - sin (k_Om k)) <= C * (ulp1 p / (k_e k * (1 - k_e k) * sin (k_i k))).
Proof.
  intros [C0 HC0].
  set (C := Rmax C0 1). assert (C1 : 1 <= C) by apply Rmax_r. assert (C2 : C0 <= C) by apply Rmax_l.
  set (m := (up (100 * C) + 17)%Z). assert (Um : 100 * C < IZR m - 17) by (unfold m; rewrite plus_IZR; pose proof (archimed (100 * C)); lra).
  assert (Zm : (17 < m)%Z) by (apply lt_IZR; lra).
  set (p := (2 * m)%Z). assert (Hp : (1 < p)%Z) by (unfold p; lia).
  set (d := Core.Raux.bpow Core.Zaux.radix2 (- m - 1)).
  assert (P0 : 0 < d) by apply Core.Raux.bpow_gt_0.
  assert (Pd : d <= / 100000).
  { apply Rle_trans with (Core.Raux.bpow Core.Zaux.radix2 (-18)); [apply Core.Raux.bpow_le; lia|]. cbn. lra. }
  assert (Pu : ulp1 p = 4 * (d * d)).
  { unfold ulp1, p, d. rewrite <- Core.Raux.bpow_plus. replace (- (2 * m))%Z with (2 + (- m - 1 + (- m - 1)))%Z by ring. rewrite Core.Raux.bpow_plus. cbn. lra. }
  assert (Big : 100 * C * d < 1 / 2).
  { assert (E : d * Core.Raux.bpow Core.Zaux.radix2 m = / 2).
    { unfold d. rewrite <- Core.Raux.bpow_plus. replace (- m - 1 + m)%Z with (-1)%Z by ring. reflexivity. }
    assert (G : IZR m < Core.Raux.bpow Core.Zaux.radix2 m).
    { rewrite <- Core.Raux.IZR_Zpower by lia. apply IZR_lt. apply (Z.pow_gt_lin_r 2 m); lia. }
    nra. }
  destruct (lost_k d (conj P0 Pd)) as (k & Hv & Ek & He & Hi & Hs & HO).
  assert (S1 : sin (k_i k) <= 1) by apply SIN_bound.
  assert (Den : / 20 <= k_e k * (1 - k_e k) * sin (k_i k)) by (assert (/ 8 <= k_e k * (1 - k_e k)) by nra; nra).
  assert (U8 : ulp1 p <= 2 / 10000000000) by (rewrite Pu; apply Rle_trans with (4 * (d * / 100000)); [nra|];
    assert (d <= / 250000) by (apply Rle_trans with (Core.Raux.bpow Core.Zaux.radix2 (-18)); [apply Core.Raux.bpow_le; lia|cbn; lra]); lra).
  assert (U0 : 0 < ulp1 p) by apply Core.Raux.bpow_gt_0.
  assert (W : ulp1 p / (k_e k * (1 - k_e k) * sin (k_i k)) <= 20 * ulp1 p).
  { apply Rmult_le_reg_r with (k_e k * (1 - k_e k) * sin (k_i k)); [lra|]. unfold Rdiv. rewrite Rmult_assoc, Rinv_l by lra. nra. }
  assert (W1 : ulp1 p / (1 - k_e k) <= 2 * ulp1 p).
  { apply Rmult_le_reg_r with (1 - k_e k); [lra|]. unfold Rdiv. rewrite Rmult_assoc, Rinv_l by lra. nra. }
  assert (R1 : 0 < k_e k < 1) by lra. assert (R2 : 0 < k_i k < PI) by lra.
  assert (R3 : ulp1 p / (k_e k * (1 - k_e k) * sin (k_i k)) <= / 100000000) by lra.
  assert (R4 : 100 * (ulp1 p / (1 - k_e k)) <= sin (k_i k) * sin (k_i k)) by nra.
  assert (R5 : / 100000000 <= sin (k_i k)) by lra. assert (R6 : 2 / 1000000000 <= k_e k) by lra.
  destruct (col_acc p Hp libm0 (libm0_ok p Hp) (libm0_acos p Hp) (3 / 2) k Hv R1 R2 R3 R4 R5 R6) as [E _].
  set (k' := mk6 _ _ _ _ _ _) in E.
  assert (Ex : snd (@cart_to_kep num (NP_rd (rnd p) libm0) (fun _ _ => NaN) (KVec (fin6 (lost_x d))) (MuS (Fin (3 / 2))) false) = Ok (KVec (fin6 k'))).
  { unfold cart_to_kep, mu_bcast. cbn [repeat]. rewrite cart_to_kep_cols_map by reflexivity. cbn [snd map2]. do 2 f_equal. rewrite <- Ek. exact E. }
  assert (Sx : state_of (3 / 2) k (lost_x d)) by (rewrite <- Ek; now apply state_of_peri).
  assert (F1 := fmt_1 p Hp). assert (F0 := fmt_0 p).
  assert (Fm : fmt p (3 / 2)).
  { replace (3 / 2) with (IZR 3 * Core.Raux.bpow Core.Zaux.radix2 (-1)) by (cbn; lra). apply fmt_scale; auto. change (Z.abs 3) with 3%Z.
    apply Z.lt_le_trans with (2 ^ 2)%Z; [lia|apply Z.pow_le_mono_r; lia]. }
  assert (Fd : fmt p (- d)) by (apply fmt_opp, fmt_bpow; auto).
  pose proof (HC0 p libm0 (3 / 2) k (lost_x d) (fun _ _ => NaN) k' Hp (libm0_ok p Hp) (libm0_acos p Hp) Hv (conj R1 (conj R2 (conj R3 (conj R4 (conj R5 R6))))) Sx Fm F1 F0 Fd F0 F1 F1 Ex) as Bad.
  assert (K : k_Om k' = 0).
  { unfold k', k_Om. cbn [s4]. rewrite Ek. apply (lost_Om p libm0 (- m - 1) Hp (libm0_ok p Hp)). unfold p. lia. }
  rewrite K, sin_0, Rminus_0_l, Rabs_Ropp, Rabs_pos_eq in Bad by lra.
  assert (Bad2 : d / 2 <= C * (20 * (4 * (d * d)))).
  { rewrite <- Pu. apply Rle_trans with (1 := HO), Rle_trans with (1 := Bad).
    assert (0 <= ulp1 p / (k_e k * (1 - k_e k) * sin (k_i k))) by (apply Rlt_le, Rdiv_lt_0_compat; lra). nra. }
  nra.
Qed.
(** binary64 *)
Definition c83_k : six R := mk6 7000 (/ 2) 1 1 1 2.
Example C83_example : forall g, exists x k', state_of 398600 c83_k x /\
  snd (@cart_to_kep num (NP_rd (rnd 53) libm0) g (KVec (fin6 x)) (MuS (Fin 398600)) false) = Ok (KVec (fin6 k')) /\
  Rabs (k_a k' - 7000) <= 1400000 * ulp1 53 /\ Rabs (k_e k' - / 2) <= 290 * ulp1 53 /\ Rabs (cos (k_nu k') - cos 2) <= 2920 * ulp1 53.
Proof.
  intros g. assert (Hv : valid_kep 398600 c83_k).
  { unfold valid_kep, c83_k. cbn. pose proof (COS_bound 2). repeat split; lra. }
  assert (S : 8 / 10 <= sin 1) by (pose proof (sin_ge 1 ltac:(lra)); lra). 
  assert (T : ulp1 53 <= / 10000000000) by (unfold ulp1; cbn; lra).
  assert (U0 : 0 < ulp1 53) by apply Core.Raux.bpow_gt_0.
  assert (Rk : regular_kep (ulp1 53) c83_k).
  { unfold regular_kep. change (k_e c83_k) with (/ 2). change (k_i c83_k) with 1. pose proof PI_b.
    assert (W : ulp1 53 / (/ 2 * (1 - / 2) * sin 1) <= 5 * ulp1 53).
    { apply Rmult_le_reg_r with (/ 2 * (1 - / 2) * sin 1); [lra|]. unfold Rdiv. rewrite Rmult_assoc, Rinv_l by lra. nra. }
    replace (ulp1 53 / (1 - / 2)) with (2 * ulp1 53) by field.
    split; [lra|]. split; [lra|]. split; [lra|]. split; [nra|]. split; lra. }
  destruct (C83_cart_to_kep 53 libm0 398600 c83_k _ g ltac:(lia) (libm0_ok 53 ltac:(lia)) (libm0_acos 53 ltac:(lia)) Hv Rk (state_of_peri _ _ Hv)) as (k' & E & A1 & A2 & _ & _ & _ & A3).
  exists (peri_state 398600 c83_k), k'. split; [now apply state_of_peri|]. split; [exact E|].
  change (k_e c83_k) with (/ 2) in *. change (k_a c83_k) with 7000 in *. change (k_nu c83_k) with 2 in *. split; [|split; [exact A2|]].
  - eapply Rle_trans; [exact A1|]. apply Req_le. field.
  - destruct A3 as [A3 _]. eapply Rle_trans; [exact A3|]. apply Req_le. field.
Qed.
