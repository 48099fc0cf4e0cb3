(** * C34 at the pole of the equinoctial elements: exactly retrograde planar orbits *)
From Coq Require Import Reals QArith Qreals ZArith Lra Lia Bool List Arith.
From Verif Require Import NP NPReal Spec RealBase KeplerModel ConvModel Lists ConvCols ArraySpec
  EllState KepReal CartReal CartInv PropsKep PropsCart AnomReal PropsAnomaly PropsAnomalyR PropsSolver PropsArray PropsDegrees PropsEqui PropsEquiCart.
Import ListNotations.
Local Open Scope R_scope.

Lemma tan_pole : num_tan (Fin (PI / 2)) = PInf.
Proof. unfold num_tan. rewrite cos_PI2. destruct (Req_EM_T 0 0); [reflexivity|lra]. Qed.
(** In exact arithmetic tan(i/2) is infinite at i = pi and the longitude of the node is set to 0, so that
    p = inf * 0 is nan; the state that [equi_to_cart] makes of these elements has a nan coordinate. (In
    floating point np.pi/2 is below the pole and np.tan returns about 1.6e16.) *)
Theorem C34_pole_refuted : forall mu x o, 0 < mu -> ang_mom x <> (0,0,0) -> energy mu x < 0 ->
  angle_between (ang_mom x) (0,0,1) PI -> forall g g1 g2,
  exists q y, snd (cart_to_equi g g1 g2 (KVec (fin6 x)) (MuS (Fin mu)) false) = Ok (KVec q)
  /\ equi_to_cart g g1 g2 (KVec q) (MuS (Fin mu)) o false = Ok (KVec y) /\ s3 q = NaN /\ s2 y = NaN.
Proof.
  intros mu x o Hmu Hh Hen Hi g g1 g2.
  destruct (state_surj mu x Hmu Hh ltac:(lra)) as [k [Hv [He1 [Hir [_ [_ [_ Ex]]]]]]].
  pose proof (state_of_peri mu k Hv) as S. rewrite Ex in S.
  assert (Ki : k_i k = PI).
  { destruct (C06_elements mu x Hmu Hh) as (a' & e' & i' & om' & Om' & nu' & El' & _ & _ & Hi' & _).
    pose proof (peri_elements mu k Hv He1 Hir) as Ep. rewrite Ex in Ep.
    pose proof (elements_of_fun _ _ _ _ El' Ep) as EQ. unfold fin6, map6 in EQ. injection EQ as _ _ E3 _ _ _.
    apply (angle_between_unique (ang_mom x) (0,0,1)); auto.
    - now apply norm_pos_iff.
    - apply norm_pos_iff. intros E. injection E. lra.
    - congruence. }
  destruct (C08_canonical mu k x Hv He1 S) as (om & Om & nu & El & _ & _ & _ & HO & _); [left; now right|].
  specialize (HO (or_intror Ki)). subst Om. rewrite Ki in El. set (ke := mk6 (k_a k) (k_e k) PI om 0 nu) in *.
  destruct (c2q_vec mu x ke El g g1 g2) as (kM & Av & Eq).
  assert (KM : exists z, kM = mk6 (Fin (k_a k)) (Fin (k_e k)) (Fin PI) (Fin om) (Fin 0) z).
  { unfold anomaly_via in Av. destruct (ltb e_lim (s1 (fin6 ke))); [destruct Av as (z & _ & ->); exists z; reflexivity|].
    rewrite Av. exists (Fin nu). reflexivity. }
  destruct KM as [z ->]. set (q := k2q_col false (mk6 (Fin (k_a k)) (Fin (k_e k)) (Fin PI) (Fin om) (Fin 0) z)).
  assert (Eq' : snd (cart_to_equi g g1 g2 (KVec (fin6 x)) (MuS (Fin mu)) false) = Ok (KVec q)).
  { rewrite Eq. unfold kep_to_equi, on_cols. rewrite kep_to_equi_cols_map. reflexivity. }
  assert (Q3 : s3 q = NaN).
  { unfold q, k2q_col. cbn [s0 s1 s2 s3 s4 s5]. assert (mul (lit 0.5) (Fin PI) = Fin (PI / 2)) as -> by (num; f_equal; lra).
    change (ntan (Fin (PI / 2))) with (num_tan (Fin (PI / 2))). rewrite tan_pole.
    change (nsin (Fin 0)) with (Fin (sin 0)). rewrite sin_0. cbn. unfold num_sign. destruct (Rlt_dec 0 0); [lra|]. destruct (Req_EM_T 0 0); reflexivity || lra. }
  assert (Q1 : exists h, s1 q = Fin h) by (eexists; unfold q, k2q_col; cbn [s0 s1 s2 s3 s4 s5]; rewrite Fin_add; reflexivity).
  assert (Q2 : exists h, s2 q = Fin h) by (eexists; unfold q, k2q_col; cbn [s0 s1 s2 s3 s4 s5]; rewrite Fin_add; reflexivity).
  destruct Q1 as [h Q1]. destruct Q2 as [h' Q2]. set (kk := q2k_col false q).
  assert (K1 : exists e, s1 kk = Fin e).
  { unfold kk, q2k_col. cbn [s1]. rewrite Q1, Q2. exists (sqrt (h * h + h' * h')). unfold sq. num.
    apply Fin_sqrt. nra. }
  destruct K1 as [e K1].
  assert (K2 : s2 kk = NaN) by (unfold kk, q2k_col; cbn [s2]; rewrite Q3; unfold sq; now num).
  destruct (C34_route g g1 g2 (MuS (Fin mu)) false) as [_ A].
  destruct (A (KVec q) o (KVec kk)) as [k' [C E]].
  { unfold equi_to_kep, on_cols. rewrite equi_to_kep_cols_map. reflexivity. }
  { intros c ->. pose proof (sane_fin (mk6 0 e 0 0 0 0)) as Q. unfold sane_e in *. rewrite K1. exact Q. }
  destruct k' as [| |sh|c|l]; try contradiction. cbn [columns] in C.
  assert (C2 : s2 c = NaN).
  { unfold anomaly_via in C. destruct (ltb e_lim (s1 kk)); [destruct C as (w & _ & ->); exact K2|]. now rewrite C. }
  destruct (kep_to_cart_vec g2 c (MuS (Fin mu)) false [Fin mu] eq_refl) as [mm [Emm Ev]]. injection Emm as <-.
  exists q, (k2c_col (edit_col false c) (Fin mu)). split; [exact Eq'|]. split; [rewrite E, Ev; reflexivity|]. split; [exact Q3|].
  unfold k2c_col. cbn [s2]. unfold euler_rotation_matrix. destruct c as [b0 b1 b2 b3 b4 b5]. cbn [s2] in C2. subst b2.
  cbn. reflexivity.
Qed.
(** a circular orbit of radius 1 run through clockwise, mu = 1 *)
Example C34_pole_example : let x := mk6 1 0 0 0 (-1) 0 in
  ang_mom x <> (0,0,0) /\ energy 1 x < 0 /\ angle_between (ang_mom x) (0,0,1) PI.
Proof.
  cbv zeta. set (x := mk6 1 0 0 0 (-1) 0).
  assert (P : norm (pos x) = 1) by (apply norm_eq; [lra|]; unfold dot, pos, x, vx, vy, vz; cbn; ring).
  assert (Hh : ang_mom x = (0, 0, -1)) by (unfold ang_mom, cross, pos, vel, x, vx, vy, vz; cbn; f_equal; [f_equal|]; ring).
  rewrite Hh. split; [intros E; injection E; lra|]. split.
  - unfold energy. rewrite P. unfold dot, vel, x, vx, vy, vz. cbn. lra.
  - split; [pose proof PI_RGT_0; lra|]. rewrite cos_PI.
    assert (norm (0,0,-1) = 1) as -> by (apply norm_eq; [lra|]; unfold dot, vx, vy, vz; cbn; ring).
    assert (norm (0,0,1) = 1) as -> by (apply norm_eq; [lra|]; unfold dot, vx, vy, vz; cbn; ring).
    unfold dot, vx, vy, vz. cbn. ring.
Qed.
