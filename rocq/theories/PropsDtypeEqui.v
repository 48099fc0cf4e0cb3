(** * C67: integer arrays as arguments of cart_to_equi and equi_to_cart *)
From Coq Require Import Reals ZArith QArith Lra Lia Bool List.
From Verif Require Import NP NPReal KeplerModel ConvModel Lists ConvCols ArraySpec PropsArray Spec RealBase KepReal CartReal
  CartInv PropsCart PropsEquiCart DtypeModel PropsDtype PropsDtypeR.
Import ListNotations.

Section Generic.
Context {F : Type} `{NP F}.
Variable tr : F -> F.
Lemma buf_ff (x e : arg F) deg : buf deg (x, DFloat) (e, DFloat) = DFloat.
Proof. destruct deg, x, e; reflexivity. Qed.
Lemma drad_f deg (x : arg F) : drad deg (x, DFloat) = (in_rad deg x, DFloat).
Proof. now destruct deg. Qed.
Lemma true_to_mean_f g1 g2 (x e : arg F) deg :
  data (true_to_mean_d tr g1 g2 (x, DFloat) (e, DFloat) deg) = true_to_mean g1 g2 x e deg.
Proof.
  unfold true_to_mean_d, true_to_mean. rewrite drad_f.
  destruct (float_anomaly_buf tr (in_rad deg x, DFloat) (e, DFloat) false (buf_ff _ _ _)) as [Q _]. specialize (Q g1). cbn [fst] in Q.
  rewrite <- Q. unfold data at 1 2.
  destruct (true_to_eccentric_d tr g1 (in_rad deg x, DFloat) (e, DFloat) false) as [[E de]|] eqn:EE; [|reflexivity]. cbn [rbind fst].
  assert (de = DFloat) as -> by (unfold true_to_eccentric_d in EE; destruct (broadcast _ _); [|discriminate]; cbn [rbind] in EE; congruence).
  destruct (float_anomaly_buf tr (E, DFloat) (e, DFloat) false (buf_ff _ _ _)) as [_ [_ [Q2 _]]]. specialize (Q2 g2). cbn [fst] in Q2.
  rewrite <- Q2. unfold data. destruct (eccentric_to_mean_d _ _ _ _ _); reflexivity.
Qed.
Lemma mean_to_true_f g (x e : arg F) o deg :
  data (mean_to_true_d tr g (x, DFloat) (e, DFloat) o deg) = mean_to_true g x e o deg.
Proof.
  unfold mean_to_true_d, mean_to_true. rewrite drad_f.
  destruct (float_anomaly_buf tr (in_rad deg x, DFloat) (e, DFloat) false (buf_ff _ _ _)) as [_ [_ [_ Q]]]. specialize (Q o). cbn [fst] in Q.
  rewrite <- Q. unfold data at 1 2.
  destruct (mean_to_eccentric_d tr (in_rad deg x, DFloat) (e, DFloat) o false) as [[E de]|] eqn:EE; [|reflexivity]. cbn [rbind fst].
  assert (de = DFloat) as ->.
  { unfold mean_to_eccentric_d in EE. rewrite buf_ff in EE. cbn [fst snd] in EE. destruct (broadcast _ _) as [[|]|]; [| |discriminate]; cbn [rbind] in EE.
    - destruct (eqb _ _); congruence.
    - destruct (Nat.eqb _ _); congruence. }
  destruct (float_anomaly_buf tr (E, DFloat) (e, DFloat) false (buf_ff _ _ _)) as [_ [Q2 _]]. specialize (Q2 g). cbn [fst] in Q2.
  rewrite <- Q2. unfold data. destruct (eccentric_to_true_d _ _ _ _ _); reflexivity.
Qed.
Lemma set_nu_f (f : targ F -> targ F -> res (targ F)) (f' : arg F -> arg F -> res (arg F)) l :
  (forall x e, data (f (x, DFloat) (e, DFloat)) = f' x e) -> set_nu_masked_d tr DFloat f l = set_nu_masked f' l.
Proof.
  intros Hf. unfold set_nu_masked_d, set_nu_masked. rewrite <- Hf. unfold data.
  destruct (f _ _) as [[x d]|]; [|reflexivity]. cbn [rbind fst]. f_equal. f_equal. f_equal. cbn [store]. apply map_id.
Qed.
Lemma on_cols_ext (f f' : list (six F) -> res (list (six F))) x : (forall l, f l = f' l) -> on_cols f x = on_cols f' x.
Proof. intros Hf. destruct x; cbn [on_cols]; auto; now rewrite Hf. Qed.
(** float64 arrays: the functions of the main model *)
Theorem C67_float_equinoctial :
  (forall g g1 g2 x mu deg, cart_to_equi_d tr DFloat g g1 g2 x mu deg = cart_to_equi g g1 g2 x mu deg)
  /\ (forall g g1 g2 x mu o deg, equi_to_cart_d tr DFloat g g1 g2 x mu o deg = equi_to_cart g g1 g2 x mu o deg).
Proof.
  destruct (C67_float tr) as (A & B & C & D). split; intros.
  - unfold cart_to_equi_d, cart_to_equi. rewrite A. destruct (cart_to_kep g x mu deg) as [c [k|]]; [|reflexivity]. cbn [rbind]. f_equal.
    rewrite (on_cols_ext _ (set_nu_masked (fun nu e => true_to_mean g1 g2 nu e deg))) by (intros; apply set_nu_f; intros; apply true_to_mean_f).
    destruct (on_cols _ k); [|reflexivity]. cbn [rbind]. apply C.
  - unfold equi_to_cart_d, equi_to_cart. rewrite D. destruct (equi_to_kep g x deg) as [k|]; [|reflexivity]. cbn [rbind].
    rewrite (on_cols_ext _ (set_nu_masked (fun nu e => mean_to_true g1 nu e o deg))) by (intros; apply set_nu_f; intros; apply mean_to_true_f).
    destruct (on_cols _ k); [|reflexivity]. cbn [rbind]. now rewrite B.
Qed.
Lemma zip6_Forall (P : six F -> Prop) l0 l1 l2 l3 l4 l5 : (forall a b c d e f, In a l0 -> In b l1 -> In c l2 -> In d l3 -> In e l4 -> In f l5 -> P (mk6 a b c d e f)) ->
  Forall P (zip6 l0 l1 l2 l3 l4 l5).
Proof.
  revert l1 l2 l3 l4 l5. induction l0 as [|a l0 IH]; intros [|b l1] [|c l2] [|d l3] [|e l4] [|f l5] Hp; cbn; auto.
  constructor; [apply Hp; cbn; auto|]. apply IH. intros. apply Hp; cbn; auto.
Qed.
(** every entry of the result for an integer array has been truncated *)
Theorem C67_truncated_equinoctial :
  (forall g g1 g2 x mu deg y, snd (cart_to_equi_d tr DInt g g1 g2 x mu deg) = Ok y -> Forall (stored6 tr) (cols_of y))
  /\ (forall g g1 g2 x mu o deg y, equi_to_cart_d tr DInt g g1 g2 x mu o deg = Ok y -> Forall (stored6 tr) (cols_of y)).
Proof.
  split; intros g g1 g2 x mu.
  - intros deg y. unfold cart_to_equi_d. destruct (cart_to_kep_d tr DInt g x mu deg) as [c [k|]]; [|discriminate]. cbn [rbind snd].
    destruct (on_cols _ k) as [k'|]; [|discriminate]. cbn [rbind]. unfold kep_to_equi_d.
    assert (Q : forall l, Forall (stored6 tr) (kep_to_equi_cols_d (store tr DInt) deg l)).
    { intros l. unfold kep_to_equi_cols_d. apply zip6_Forall. intros a b c' d e f. rewrite !in_map_iff.
      assert (M2 : forall (h : F -> F -> F) l l' v, In v (map2 (fun x y => tr (h x y)) l l') -> stored tr v).
      { intros h. induction l0 as [|u l0 IH]; intros [|w l'] v; cbn; try tauto. intros [<-|Hv]; [apply stored_tr|eauto]. }
      intros [k0 [<- _]] Hb Hc Hd He [l0 [<- _]]. unfold stored6. cbn [s0 s1 s2 s3 s4 s5 store] in *.
      repeat split; try apply stored_tr.
      - exact (M2 (fun e o => _) _ _ _ Hb).
      - exact (M2 (fun e o => _) _ _ _ Hc).
      - exact (M2 (fun e o => _) _ _ _ Hd).
      - exact (M2 (fun e o => _) _ _ _ He). }
    destruct k' as [| | |c0|l]; cbn [on_cols rbind]; try discriminate.
    + specialize (Q [c0]). destruct (kep_to_equi_cols_d _ _ _) as [|y0 [|]]; try discriminate. intros E. assert (y = KVec y0) as -> by congruence. exact Q.
    + intros E. assert (y = KMat (kep_to_equi_cols_d (store tr DInt) deg l)) as -> by congruence. apply Q.
  - intros o deg y. unfold equi_to_cart_d. destruct (equi_to_kep_d tr DInt g x deg) as [k|]; [|discriminate]. cbn [rbind].
    destruct (on_cols _ k) as [k'|]; [|discriminate]. cbn [rbind]. apply (C67_truncated tr).
Qed.
End Generic.

Local Open Scope R_scope.
Lemma trunc_int n : ntrunc (Fin (IZR n)) = Fin (IZR n).
Proof.
  assert (I : forall m, Int_part (IZR m) = m) by (intros m; pose proof (base_Int_part (IZR m)) as [A B]; apply le_IZR in A;
    assert (IZR m < IZR (Int_part (IZR m) + 1)) as C by (rewrite plus_IZR; lra); apply lt_IZR in C; lia).
  cbn [ntrunc]. f_equal. unfold Rtrunc. destruct (Rle_dec 0 (IZR n)); [now rewrite I|]. replace (- IZR n) with (IZR (- n)) by apply opp_IZR. rewrite I, opp_IZR. apply Ropp_involutive.
Qed.
(** no orbit with an eccentricity above the limit: the anomalies are left alone *)
Lemma set_nu_none {F} `{NP F} (tr : F -> F) d f (w : six F) : ltb e_lim (s1 w) = false -> (exists r, f (fresh [0%nat] [], d) (fresh [0%nat] [], d) = Ok r) ->
  set_nu_masked_d tr d f [w] = Ok [w].
Proof.
  intros E [r Hr]. unfold set_nu_masked_d. cbn [map]. rewrite E. cbn [mget length]. rewrite Hr. cbn [rbind].
  assert (forall l, mset [false] l [s5 w] = [s5 w]) as -> by (intros [|]; reflexivity). cbn [map2]. now destruct w.
Qed.
Lemma t2m_empty tr d g1 g2 deg : exists r, @true_to_mean_d num _ tr g1 g2 (fresh [0%nat] [], d) (fresh [0%nat] [], d) deg = Ok r.
Proof. destruct deg; eexists; reflexivity. Qed.
Lemma m2t_empty tr d g o deg : exists r, @mean_to_true_d num _ tr g (fresh [0%nat] [], d) (fresh [0%nat] [], d) o deg = Ok r.
Proof. destruct deg; eexists; reflexivity. Qed.
Lemma elim_0 : ltb e_lim (Fin 0) = false.
Proof. unfold e_lim. num. apply Rltb_false. lra. Qed.

(** cart_to_equi: every elliptic orbit given as an integer array of positions and velocities loses its eccentricity *)
Theorem C67_cart_to_equi_refuted : forall g g1 g2 mu z deg, let x := int6 z in
  0 < mu -> ang_mom x <> (0,0,0) -> energy mu x < 0 ->
  exists q, snd (cart_to_equi_d ntrunc DInt g g1 g2 (KVec (fin6 x)) (MuS (Fin mu)) deg) = Ok (KVec q)
  /\ s0 q = Fin (IZR (Int_part (mu / (- 2 * energy mu x)))) /\ s1 q = Fin 0 /\ s2 q = Fin 0.
Proof.
  intros g g1 g2 mu z deg x Hmu Hh He.
  destruct (C67_cart_to_kep_refuted g mu z deg Hmu Hh He) as (y & w & _ & Ew & _ & _ & W0 & W1 & W3).
  pose proof (C67_integers g (fun _ => NaN) _ _ _ _ (or_introl Ew)) as Q. cbn [cols_of] in Q. apply Forall_inv in Q. destruct Q as [k Ek].
  fold x in Ew. unfold cart_to_equi_d. destruct (cart_to_kep_d ntrunc DInt g (KVec (fin6 x)) (MuS (Fin mu)) deg) as [c r]. cbn [snd] in Ew. subst r. cbn [rbind snd on_cols].
  rewrite set_nu_none; [|rewrite W1; apply elim_0|apply t2m_empty]. cbn [rbind]. unfold kep_to_equi_d, kep_to_equi_cols_d. cbn [on_cols map map2].
  assert (S4 : s4 w = Fin (IZR (s4 k))) by (rewrite Ek; reflexivity).
  set (ob := if deg then _ else _). assert (Eo : exists t, ob = [Fin t]).
  { unfold ob. rewrite W3, S4. destruct deg; cbn [map]; num; eauto. }
  destruct Eo as [t ->]. rewrite W1. destruct deg; cbn [map map2 zip6 rbind]; eexists; (split; [reflexivity|]); cbn [s0 s1 s2]; cbn [store];
    (split; [rewrite W0; apply trunc_int|]); num; rewrite !Rmult_0_l; rewrite trunc_0 by lra; auto.
Qed.
(** equi_to_cart: the returned integer state of a circular orbit cannot have the speed of that orbit *)
Theorem C67_equi_to_cart_refuted : forall g g1 g2 mu z o deg, s1 z = 0%Z -> s2 z = 0%Z -> (forall n, mu <> IZR n * IZR (s0 z)) ->
  exists y, equi_to_cart_d ntrunc DInt g g1 g2 (KVec (fin6 (int6 z))) (MuS (Fin mu)) o deg = Ok (KVec (fin6 (int6 y)))
  /\ norm (vel (int6 y)) * norm (vel (int6 y)) * IZR (s0 z) <> mu.
Proof.
  intros g g1 g2 mu z o deg Z1 Z2 Hn.
  assert (E : exists y, equi_to_cart_d ntrunc DInt g g1 g2 (KVec (fin6 (int6 z))) (MuS (Fin mu)) o deg = Ok (KVec y)).
  { unfold equi_to_cart_d, equi_to_kep_d, on_cols at 1.
    set (cols := equi_to_kep_cols_d _ _ _ _). assert (Ec : exists w, cols = [w] /\ s1 w = Fin 0).
    { unfold cols, equi_to_kep_cols_d. destruct z as [z0 z1 z2 z3 z4 z5]. cbn [s1 s2] in Z1, Z2. subst z1 z2.
      unfold int6, fin6, map6. cbn [s0 s1 s2 s3 s4 s5 map map2 length np_empty seq].
      assert (Q : ntrunc (nsqrt (add (sq (Fin (IZR 0))) (sq (Fin (IZR 0))))) = Fin 0).
      { unfold sq. num. rewrite Rmult_0_r, Rplus_0_r. unfold nsqrt, NP_num, num_sqrt. destruct (Rlt_dec 0 0) as [Hl|_]; [lra|]. rewrite sqrt_0. apply trunc_0. lra. }
      cbn [store]. rewrite Q. rewrite elim_0. cbn [mnot map negb mget mset_s mset map2 zip6].
      destruct deg; cbn [map]; eexists; split; reflexivity. }
    destruct Ec as (w & -> & W1). cbn [rbind on_cols]. rewrite set_nu_none; [|rewrite W1; apply elim_0|apply m2t_empty].
    cbn [rbind]. unfold kep_to_cart_d. cbn [mu_mask repeat]. rewrite kep_edit_d_map. cbn [map].
    rewrite kep_to_cart_cols_d_map by reflexivity. cbn [map2]. unfold kep_restore_d. destruct deg; cbn [map snd]; eauto. }
  destruct E as [y E]. pose proof (proj2 (C67_truncated_equinoctial ntrunc) _ _ _ _ _ _ _ _ E) as S. cbn [cols_of] in S. apply Forall_inv in S.
  destruct y as [k0 k1 k2 k3 k4 k5]. unfold stored6, stored in S. cbn [s0 s1 s2 s3 s4 s5] in S. destruct S as [[a Ha] [[b Hb] [[c Hc] [[d Hd] [[e He] [f Hf]]]]]].
  destruct (ntrunc_integer a) as [z0 Q0], (ntrunc_integer b) as [z1 Q1], (ntrunc_integer c) as [z2 Q2],
    (ntrunc_integer d) as [z3 Q3], (ntrunc_integer e) as [z4 Q4], (ntrunc_integer f) as [z5 Q5].
  exists (mk6 z0 z1 z2 z3 z4 z5). split.
  - rewrite E. unfold fin6, int6, map6. cbn [s0 s1 s2 s3 s4 s5]. congruence.
  - rewrite norm_sq. unfold vel, int6, map6, dot, vx, vy, vz. cbn [s3 s4 s5 fst snd]. intros Hm. apply (Hn (z3 * z3 + z4 * z4 + z5 * z5)%Z).
    rewrite !plus_IZR, !mult_IZR. lra.
Qed.
(** r = (2, 0, 0), v = (0, 1, 0), mu = 3 has e = 1/3; a circular orbit with a = 2, mu = 3 has the speed sqrt(3/2) *)
Example C67_equi_example : forall g g1 g2, (let x := int6 (mk6 2 0 0 0 1 0)%Z in norm (ecc_vec 3 x) = 1 / 3 /\
  exists q, snd (cart_to_equi_d ntrunc DInt g g1 g2 (KVec (fin6 x)) (MuS (Fin 3)) false) = Ok (KVec q) /\ s1 q = Fin 0 /\ s2 q = Fin 0)
  /\ exists y, equi_to_cart_d ntrunc DInt g g1 g2 (KVec (fin6 (int6 (mk6 2 0 0 1 1 4)%Z))) (MuS (Fin 3)) default_options false = Ok (KVec (fin6 (int6 y)))
     /\ norm (vel (int6 y)) * norm (vel (int6 y)) * 2 <> 3.
Proof.
  intros g g1 g2. split.
  - cbv zeta. set (x := int6 _).
    assert (Ex : x = mk6 2 0 0 0 1 0) by reflexivity.
    assert (Nr : norm (pos x) = 2).
    { rewrite Ex. unfold norm, pos, dot, vx, vy, vz. cbn [s0 s1 s2 fst snd]. replace (2 * 2 + 0 * 0 + 0 * 0) with (2 * 2) by ring. apply sqrt_square. lra. }
    assert (Ev : ecc_vec 3 x = (- (1 / 3), 0, 0)).
    { unfold ecc_vec. rewrite Nr, Ex. unfold ang_mom, pos, vel, cross, scal3, plus3, minus3, vx, vy, vz. cbn [s0 s1 s2 s3 s4 s5 fst snd].
      repeat apply f_equal2; field. }
    split.
    + rewrite Ev. unfold norm, dot, vx, vy, vz. cbn [fst snd]. replace (- (1 / 3) * - (1 / 3) + 0 * 0 + 0 * 0) with (1 / 3 * (1 / 3)) by ring. apply sqrt_square. lra.
    + destruct (C67_cart_to_equi_refuted g g1 g2 3 (mk6 2 0 0 0 1 0)%Z false) as (q & E & _ & Q); try lra.
      * fold x. rewrite Ex. unfold ang_mom, cross, pos, vel, vx, vy, vz. cbn [s0 s1 s2 s3 s4 s5 fst snd]. intros Hc. injection Hc. lra.
      * fold x. unfold energy. rewrite Nr, Ex. unfold dot, vel, vx, vy, vz. cbn [s3 s4 s5 fst snd]. lra.
      * eauto.
  - destruct (C67_equi_to_cart_refuted g g1 g2 3 (mk6 2 0 0 1 1 4)%Z default_options false eq_refl eq_refl) as (y & E & Hy); [|eauto].
    intros n. cbn [s0]. rewrite <- mult_IZR. intros Hn. apply eq_IZR in Hn. lia.
Qed.
