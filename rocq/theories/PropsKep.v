(** * C01-C05: the state returned by kep_to_cart (exact arithmetic) *)
From Coq Require Import Reals QArith Lra Lia Bool List Nsatz.
From Verif Require Import NP NPReal KeplerModel ConvModel Lists ConvCols ArraySpec PropsArray Spec RealBase KepReal.
Import ListNotations.
Local Open Scope R_scope.

(** [x] is the state returned for the elements [k] *)
Definition state_of (mu : R) (k x : six R) : Prop :=
  forall g, snd (kep_to_cart g (KVec (fin6 k)) (MuS (Fin mu)) false) = Ok (KVec (fin6 x)).
Lemma state_of_peri mu k : valid_kep mu k -> state_of mu k (peri_state mu k).
Proof. intros H g. now apply kep_to_cart_real. Qed.
Lemma fin6_inj x y : fin6 x = fin6 y -> x = y.
Proof. destruct x, y. unfold fin6, map6. cbn. congruence. Qed.
Lemma state_of_inv mu k x : valid_kep mu k -> state_of mu k x -> x = peri_state mu k.
Proof.
  intros H S. specialize (S (fun _ => NaN)). rewrite kep_to_cart_real in S by auto.
  apply fin6_inj. congruence.
Qed.

Section Inv.
Variables (mu : R) (k : six R).
Hypothesis (Hv : valid_kep mu k).
Let p := semi_latus (k_a k) (k_e k).
Let x := peri_state mu k.
Let nu := k_nu k.
Let e := k_e k.
Lemma peri_p_pos : 0 < p.
Proof. destruct Hv as [? [? [? ?]]]. now apply semi_latus_pos. Qed.
Lemma peri_norm : norm (pos x) = p / (1 + e * cos nu).
Proof.
  pose proof peri_p_pos. destruct Hv as [? [? [? Hn]]]. fold e nu in Hn.
  apply norm_eq.
  - apply Rlt_le, Rdiv_lt_0_compat; auto.
  - unfold x. rewrite peri_pos. rewrite dot_scal_l, dot_scal_r, !dot_plus_l, !dot_plus_r, !dot_scal_l, !dot_scal_r.
    rewrite (dot_comm (Q_axis k) (P_axis k)), PP, QQ, PQ. unfold peri_r. fold p e nu.
    set (rr := p / _). pose proof (sc1 nu). nsatz.
Qed.
Lemma peri_s_sq : peri_s mu k * peri_s mu k = mu / p.
Proof.
  pose proof peri_p_pos. destruct Hv as [? [? [? Hn]]].
  apply sqrt_sqrt. apply Rlt_le, Rdiv_lt_0_compat; auto.
Qed.
Lemma peri_s_pos : 0 < peri_s mu k.
Proof.
  pose proof peri_p_pos. destruct Hv as [? [? [? Hn]]].
  apply sqrt_lt_R0, Rdiv_lt_0_compat; auto.
Qed.
Lemma peri_vv : dot (vel x) (vel x) = mu / p * (1 + 2 * e * cos nu + e * e).
Proof.
  unfold x. rewrite peri_vel, dot_scal_l, dot_scal_r, !dot_plus_l, !dot_plus_r, !dot_scal_l, !dot_scal_r.
  rewrite (dot_comm (Q_axis k) (P_axis k)), PP, QQ, PQ. fold nu e.
  rewrite <- peri_s_sq. pose proof (sc1 nu). nsatz.
Qed.
Lemma peri_energy : energy mu x = mu * (e * e - 1) / (2 * p).
Proof.
  pose proof peri_p_pos. unfold energy. rewrite peri_vv, peri_norm.
  destruct Hv as [? [? [? Hn]]]. fold e nu in Hn. field. lra.
Qed.
Lemma peri_h : ang_mom x = scal3 (sqrt (mu * p)) (W_axis k).
Proof.
  pose proof peri_p_pos. unfold ang_mom, x. rewrite peri_pos, peri_vel.
  rewrite cross_scal_l, cross_scal_r, !cross_plus_l, !cross_plus_r, !cross_scal_l, !cross_scal_r.
  rewrite !cross_self, PxQ, (cross_anti (Q_axis k) (P_axis k)), PxQ.
  destruct Hv as [Hmu [? [? Hn]]]. fold e nu in Hn.
  assert (E : peri_r mu k * peri_s mu k * (1 + e * cos nu) = sqrt (mu * p)).
  { unfold peri_r, peri_s. fold p e nu.
    rewrite sqrt_mult, sqrt_div by lra.
    assert (sqrt p <> 0) by (apply Rgt_not_eq, sqrt_lt_R0; lra).
    rewrite <- (sqrt_sqrt p) at 1 by lra. field. lra. }
  rewrite <- E. pose proof (sc1 nu). apply vec_eq; vunf; fold e nu; nsatz.
Qed.
Lemma peri_ecc : ecc_vec mu x = scal3 e (P_axis k).
Proof.
  pose proof peri_p_pos. unfold ecc_vec. rewrite peri_h, peri_norm. unfold x. rewrite peri_pos, peri_vel.
  rewrite cross_scal_l, cross_scal_r, !cross_plus_l, !cross_scal_l, QxW.
  rewrite (cross_anti (P_axis k) (W_axis k)), WxP.
  destruct Hv as [Hmu [? [? Hn]]]. fold e nu in Hn.
  assert (E : / mu * (peri_s mu k * sqrt (mu * p)) = 1).
  { unfold peri_s. fold p. rewrite <- sqrt_mult.
    - replace (mu / p * (mu * p)) with (mu * mu) by (field; lra). rewrite sqrt_square by lra. field. lra.
    - apply Rlt_le, Rdiv_lt_0_compat; lra.
    - nra. }
  assert (E2 : / (p / (1 + e * cos nu)) * peri_r mu k = 1).
  { unfold peri_r. fold p e nu. field. lra. }
  set (A := / mu) in *. set (B := / (p / (1 + e * cos nu))) in *.
  set (C := peri_s mu k) in *. set (D := sqrt (mu * p)) in *. set (G := peri_r mu k) in *.
  apply vec_eq; vunf; fold e nu; nsatz.
Qed.
End Inv.

(** ** C01 *)
Theorem C01_conic : forall mu k, valid_kep mu k -> exists x, state_of mu k x /\
  norm (pos x) = semi_latus (k_a k) (k_e k) / (1 + k_e k * cos (k_nu k)).
Proof. intros mu k H. eexists. split; [now apply state_of_peri|now apply peri_norm]. Qed.

(** ** C02 *)
Theorem C02_energy : forall mu k x, valid_kep mu k -> state_of mu k x ->
  (k_e k < 1 -> energy mu x = - mu / (2 * k_a k))
  /\ (1 < k_e k -> energy mu x = mu / (2 * k_a k))
  /\ (k_e k = 1 -> energy mu x = 0).
Proof.
  intros mu k x H S. rewrite (state_of_inv mu k x H S), peri_energy by auto.
  destruct H as [? [? [? ?]]]. unfold semi_latus.
  split; [|split]; intros He.
  - destruct (Rlt_dec (k_e k) 1); [|lra]. field. nra.
  - destruct (Rlt_dec (k_e k) 1); [lra|]. destruct (Rlt_dec 1 (k_e k)); [|lra]. field. nra.
  - rewrite He. destruct (Rlt_dec 1 1); [lra|]. field. lra.
Qed.

(** ** C03 *)
Theorem C03_angular_momentum : forall mu k x, valid_kep mu k -> state_of mu k x ->
  ang_mom x = scal3 (sqrt (mu * semi_latus (k_a k) (k_e k)))
                    (sin (k_i k) * sin (k_Om k), - (sin (k_i k) * cos (k_Om k)), cos (k_i k))
  /\ norm (ang_mom x) = sqrt (mu * semi_latus (k_a k) (k_e k))
  /\ dot (pos x) (W_axis k) = 0 /\ dot (vel x) (W_axis k) = 0.
Proof.
  intros mu k x H S. rewrite (state_of_inv mu k x H S).
  rewrite peri_h by auto. repeat split.
  - apply norm_eq; [apply sqrt_pos|]. rewrite dot_scal_l, dot_scal_r, WW. ring.
  - rewrite peri_pos, dot_scal_l, dot_plus_l, !dot_scal_l, PW, QW. ring.
  - rewrite peri_vel, dot_scal_l, dot_plus_l, !dot_scal_l, PW, QW. ring.
Qed.

(** ** C04 *)
Theorem C04_eccentricity_vector : forall mu k x, valid_kep mu k -> state_of mu k x ->
  ecc_vec mu x = scal3 (k_e k) (P_axis k)
  /\ norm (ecc_vec mu x) = k_e k
  /\ pos x = scal3 (norm (pos x))
       (plus3 (scal3 (cos (k_nu k)) (P_axis k)) (scal3 (sin (k_nu k)) (cross (W_axis k) (P_axis k))))
  /\ dot (ecc_vec mu x) (pos x) = k_e k * norm (pos x) * cos (k_nu k)
  /\ dot (cross (ang_mom x) (ecc_vec mu x)) (pos x)
     = norm (ang_mom x) * k_e k * norm (pos x) * sin (k_nu k).
Proof.
  intros mu k x H S.
  destruct (C03_angular_momentum mu k x H S) as [_ [Hh _]].
  revert Hh. rewrite (state_of_inv mu k x H S).
  rewrite peri_ecc, peri_norm by auto.
  rewrite peri_h by auto. intros Hh. rewrite Hh. repeat split.
  - apply norm_eq; [now destruct H as [? [? [? ?]]]|]. rewrite dot_scal_l, dot_scal_r, PP. ring.
  - rewrite peri_pos, dot_scal_l, dot_scal_r, dot_plus_r, !dot_scal_r, PP, PQ. unfold peri_r. ring.
  - rewrite cross_scal_l, cross_scal_r, WxP, peri_pos, !dot_scal_l, dot_scal_r, dot_plus_r, !dot_scal_r, QQ.
    rewrite (dot_comm (Q_axis k)), PQ. unfold peri_r. ring.
Qed.

(** ** C05 *)
Lemma six_eq (x y : six R) : pos x = pos y -> vel x = vel y -> x = y.
Proof. destruct x, y; unfold pos, vel; cbn. congruence. Qed.
Lemma rot_state_pos f x : pos (rot_state f x) = f (pos x).
Proof. unfold rot_state, pos at 1; cbn. now destruct (f (pos x)) as [[? ?] ?]. Qed.
Lemma rot_state_vel f x : vel (rot_state f x) = f (vel x).
Proof. unfold rot_state, vel at 1; cbn. now destruct (f (vel x)) as [[? ?] ?]. Qed.

Ltac peri5 mu k :=
  apply six_eq; rewrite ?rot_state_pos, ?rot_state_vel, ?peri_pos, ?peri_vel;
  unfold peri_r, peri_s; rewrite ?Q_axis_eq; unfold P_axis, W_axis, with_i, with_om, with_Om, rotz, rotx, rot_about;
  unfold k_a, k_e, k_i, k_om, k_Om, k_nu; cbn [s0 s1 s2 s3 s4 s5].

Lemma valid_with_i mu k t : valid_kep mu k <-> valid_kep mu (with_i k t). Proof. reflexivity. Qed.
Lemma valid_with_om mu k t : valid_kep mu k <-> valid_kep mu (with_om k t). Proof. reflexivity. Qed.
Lemma valid_with_Om mu k t : valid_kep mu k <-> valid_kep mu (with_Om k t). Proof. reflexivity. Qed.

(** raising Omega by d rotates the state about z by d (+x to +y) *)
Theorem C05_Omega : forall mu k d x y, valid_kep mu k ->
  state_of mu k x -> state_of mu (with_Om k (k_Om k + d)) y -> y = rot_state (rotz d) x.
Proof.
  intros mu k d x y H Sx Sy. rewrite (state_of_inv _ _ _ H Sx), (state_of_inv mu _ y (H : valid_kep mu (with_Om k (k_Om k + d))) Sy).
  peri5 mu k; rewrite cos_plus, sin_plus; vring.
Qed.
(** with the node on the x axis, raising i by d rotates the state about x by d (+y to +z);
    in general about the node line *)
Theorem C05_inclination : forall mu k d x y, valid_kep mu k ->
  state_of mu k x -> state_of mu (with_i k (k_i k + d)) y ->
  (k_Om k = 0 -> y = rot_state (rotx d) x)
  /\ y = rot_state (rot_about (cos (k_Om k), sin (k_Om k), 0) d) x.
Proof.
  intros mu k d x y H Sx Sy. rewrite (state_of_inv _ _ _ H Sx), (state_of_inv mu _ y (H : valid_kep mu (with_i k (k_i k + d))) Sy).
  split; [intros HO; unfold k_Om in HO|].
  - peri5 mu k; rewrite HO, cos_plus, sin_plus, cos_0, sin_0; vring.
  - pose proof (sc1 (s4 k)). peri5 mu k; rewrite cos_plus, sin_plus; apply vec_eq; vunf; nsatz.
Qed.
(** changing omega by d rotates position and velocity in the orbital plane, about the angular
    momentum, i.e. in the direction of motion *)
Theorem C05_omega : forall mu k d x y, valid_kep mu k ->
  state_of mu k x -> state_of mu (with_om k (k_om k + d)) y ->
  y = rot_state (rot_about (scal3 (/ norm (ang_mom x)) (ang_mom x)) d) x.
Proof.
  intros mu k d x y H Sx Sy.
  destruct (C03_angular_momentum mu k x H Sx) as [E1 [E2 _]].
  assert (EW : scal3 (/ norm (ang_mom x)) (ang_mom x) = W_axis k).
  { rewrite E2, E1. set (h := sqrt _). assert (h <> 0).
    { apply Rgt_not_eq, sqrt_lt_R0. pose proof (peri_p_pos mu k H). destruct H as [? _]. nra. }
    unfold W_axis. apply vec_eq; vunf; field; auto. }
  rewrite EW. rewrite (state_of_inv _ _ _ H Sx), (state_of_inv mu _ y (H : valid_kep mu (with_om k (k_om k + d))) Sy).
  pose proof (sc1 (s4 k)). pose proof (sc1 (s2 k)).
  peri5 mu k; rewrite cos_plus, sin_plus; apply vec_eq; vunf; nsatz.
Qed.
(** i = 0: the orbit lies in the x-y plane and is run through counter-clockwise
    (angular momentum along +z); for omega = Omega = 0 the periapsis (nu = 0) is on the +x
    axis, the velocity there points to +y *)
Theorem C05_planar : forall mu k x, valid_kep mu k -> state_of mu k x -> k_i k = 0 ->
  vz (pos x) = 0 /\ vz (vel x) = 0 /\ 0 < vz (ang_mom x)
  /\ (k_om k = 0 -> k_Om k = 0 -> k_nu k = 0 ->
      exists r v, 0 < r /\ 0 < v /\ pos x = (r, 0, 0) /\ vel x = (0, v, 0)).
Proof.
  intros mu k x H S Hi.
  destruct (C03_angular_momentum mu k x H S) as [E1 _]. rewrite E1.
  pose proof (peri_p_pos mu k H) as Hp. pose proof (peri_s_pos mu k H) as Hs.
  rewrite (state_of_inv _ _ _ H S), peri_pos, peri_vel, Q_axis_eq. unfold P_axis.
  rewrite Hi, cos_0, sin_0. vunf. repeat split; try ring.
  - rewrite Rmult_1_r. apply sqrt_lt_R0. destruct H; nra.
  - intros -> -> Hn. rewrite Hn, cos_0, sin_0.
    exists (peri_r mu k), (peri_s mu k * (k_e k + 1)).
    destruct H as [? [? [? Hd]]]. rewrite Hn, cos_0 in Hd.
    repeat split.
    + unfold peri_r. rewrite Hn, cos_0. apply Rdiv_lt_0_compat; auto.
    + apply Rmult_lt_0_compat; lra.
    + apply vec_eq; vunf; ring.
    + apply vec_eq; vunf; ring.
Qed.

(** ** Concrete element sets satisfying the hypotheses: an inclined ellipse, a parabola and a
    hyperbola on the incoming leg *)
Lemma valid_ellipse : valid_kep 4 (mk6 2 (1/2) 1 2 3 (PI/2)).
Proof. unfold valid_kep, k_a, k_e, k_nu; cbn [s0 s1 s2 s3 s4 s5]. rewrite cos_PI2. lra. Qed.
Lemma valid_parabola : valid_kep 4 (mk6 2 1 1 2 3 (PI/3)).
Proof. unfold valid_kep, k_a, k_e, k_nu; cbn [s0 s1 s2 s3 s4 s5]. rewrite cos_PI3. lra. Qed.
Lemma valid_hyperbola : valid_kep 4 (mk6 2 3 1 2 3 (-(PI/2))).
Proof. unfold valid_kep, k_a, k_e, k_nu; cbn [s0 s1 s2 s3 s4 s5]. rewrite cos_neg, cos_PI2. lra. Qed.
Example C01_example : exists x, state_of 4 (mk6 2 3 1 2 3 (-(PI/2))) x /\ norm (pos x) = 16.
Proof.
  destruct (C01_conic _ _ valid_hyperbola) as [x [S E]]. exists x. split; auto. rewrite E.
  unfold semi_latus, k_a, k_e, k_nu; cbn [s0 s1 s5]. rewrite cos_neg, cos_PI2.
  destruct (Rlt_dec 3 1); [lra|]. destruct (Rlt_dec 1 3); lra.
Qed.
Example C02_example : exists x, state_of 4 (mk6 2 (1/2) 1 2 3 (PI/2)) x /\ energy 4 x = -1.
Proof.
  exists (peri_state 4 (mk6 2 (1/2) 1 2 3 (PI/2))). pose proof (state_of_peri _ _ valid_ellipse) as S.
  split; auto. destruct (C02_energy _ _ _ valid_ellipse S) as [E _].
  rewrite E; unfold k_a, k_e; cbn [s0 s1]; lra.
Qed.
Example C03_example : exists x, state_of 4 (mk6 2 (1/2) 1 2 3 (PI/2)) x /\ dot (ang_mom x) (ang_mom x) = 6.
Proof.
  exists (peri_state 4 (mk6 2 (1/2) 1 2 3 (PI/2))). pose proof (state_of_peri _ _ valid_ellipse) as S.
  split; auto. destruct (C03_angular_momentum _ _ _ valid_ellipse S) as [_ [E _]].
  unfold norm in E. rewrite <- (sqrt_sqrt (dot _ _)) by apply dot_pos. rewrite E, sqrt_sqrt;
    unfold semi_latus, k_a, k_e; cbn [s0 s1]; destruct (Rlt_dec (1/2) 1); lra.
Qed.
Example C04_example : exists x, state_of 4 (mk6 2 3 1 2 3 (-(PI/2))) x
  /\ norm (ecc_vec 4 x) = 3 /\ dot (ecc_vec 4 x) (pos x) = 0.
Proof.
  exists (peri_state 4 (mk6 2 3 1 2 3 (-(PI/2)))). pose proof (state_of_peri _ _ valid_hyperbola) as S.
  split; auto. destruct (C04_eccentricity_vector _ _ _ valid_hyperbola S) as [_ [E [_ [D _]]]].
  split; [exact E|]. rewrite D. unfold k_nu; cbn [s5]. rewrite cos_neg, cos_PI2. ring.
Qed.
Example C05_example : exists x, state_of 4 (mk6 2 (1/2) 0 0 0 0) x /\ valid_kep 4 (mk6 2 (1/2) 0 0 0 0).
Proof.
  assert (V : valid_kep 4 (mk6 2 (1/2) 0 0 0 0)).
  { unfold valid_kep, k_a, k_e, k_nu; cbn [s0 s1 s2 s3 s4 s5]. rewrite cos_0. lra. }
  eexists. split; [apply state_of_peri|]; exact V.
Qed.

