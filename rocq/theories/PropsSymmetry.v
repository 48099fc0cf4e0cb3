(** * C73: cart_to_kep follows rotations about the polar axis and the reversal of motion (exact arithmetic) *)
From Coq Require Import Reals Lra Lia List Bool ZArith Nsatz.
From Verif Require Import NP KeplerModel ConvModel NPReal RealBase Spec AnomReal KepReal PropsKep CartReal CartInv PropsCart.
Import ListNotations.
Local Open Scope R_scope.

(** ** Specification *)
(** the same position, the opposite velocity *)
Definition turned_back (x : six R) : six R := mk6 (s0 x) (s1 x) (s2 x) (- s3 x) (- s4 x) (- s5 x).

(** ** Proof *)
Lemma state_elements mu x i : 0 < mu -> ang_mom x <> (0,0,0) -> energy mu x <> 0 -> angle_between (ang_mom x) (0,0,1) i ->
  exists k, valid_kep mu k /\ k_e k <> 1 /\ k_i k = i /\ k_e k = norm (ecc_vec mu x) /\ peri_state mu k = x.
Proof.
  intros Hmu Hh Hen Hi. destruct (state_surj mu x Hmu Hh Hen) as [k [Hv [He1 [Hir [Hom [HOm [Hnu Ex]]]]]]].
  exists k. split; [auto|]. split; [auto|]. split; [|split; [rewrite <- Ex; symmetry; now apply peri_en|auto]].
  symmetry. apply (angle_between_unique (ang_mom x) (0,0,1)); auto.
  - now apply norm_pos_iff.
  - apply norm_pos_iff. intros E. injection E. lra.
  - split; auto. rewrite <- Ex, peri_hn, peri_h by auto.
    assert (norm (0,0,1) = 1) as -> by (apply norm_eq; [|vunf]; lra).
    rewrite dot_scal_l. unfold W_axis. vunf. ring.
Qed.
Definition back_kep (k : six R) : six R := mk6 (k_a k) (k_e k) (PI - k_i k) (PI - k_om k) (k_Om k + PI) (- k_nu k).
Lemma peri_back mu k : peri_state mu (back_kep k) = turned_back (peri_state mu k).
Proof.
  assert (C : forall t, cos (PI - t) = - cos t) by (intros t; rewrite cos_minus, cos_PI, sin_PI; ring).
  assert (S : forall t, sin (PI - t) = sin t) by (intros t; rewrite sin_minus, cos_PI, sin_PI; ring).
  apply six_eq.
  - transitivity (pos (peri_state mu k)); [|reflexivity]. rewrite !peri_pos. unfold peri_r. rewrite !Q_axis_eq.
    unfold P_axis, back_kep, k_a, k_e, k_i, k_om, k_Om, k_nu; cbn [s0 s1 s2 s3 s4 s5].
    rewrite !C, !S, neg_cos, neg_sin, cos_neg, sin_neg. f_equal. vring.
  - transitivity (scal3 (-1) (vel (peri_state mu k))).
    + rewrite !peri_vel. unfold peri_s. rewrite !Q_axis_eq.
      unfold P_axis, back_kep, k_a, k_e, k_i, k_om, k_Om, k_nu; cbn [s0 s1 s2 s3 s4 s5].
      rewrite !C, !S, neg_cos, neg_sin, cos_neg, sin_neg. vring.
    + unfold turned_back, vel. cbn [s0 s1 s2 s3 s4 s5]. unfold scal3, vx, vy, vz. cbn [fst snd]. f_equal; [f_equal|]; ring.
Qed.
Lemma valid_back mu k : valid_kep mu k -> valid_kep mu (back_kep k).
Proof. unfold valid_kep, back_kep, k_a, k_e, k_nu. cbn [s0 s1 s5]. now rewrite cos_neg. Qed.

(** Rotating a state about the z axis by [d] shifts the longitude of the ascending node by [d] and changes
    nothing else; where the node is undefined (planar) the shift goes into omega, and for circular planar
    orbits into nu, with the sign of the motion. *)
Theorem C73_rotation : forall mu x i d, 0 < mu -> ang_mom x <> (0,0,0) -> energy mu x <> 0 ->
  angle_between (ang_mom x) (0,0,1) i -> planar_orbit i \/ inclined_orbit i ->
  let ecc := eccentric_orbit (norm (ecc_vec mu x)) in
  exists a e om Om nu om' Om' nu', elements_of mu x (fin6 (mk6 a e i om Om nu))
  /\ elements_of mu (rot_state (rotz d) x) (fin6 (mk6 a e i om' Om' nu'))
  /\ (inclined_orbit i -> cong2pi Om' (Om + d) /\ cong2pi om' om /\ cong2pi nu' nu)
  /\ (i = 0 -> Om' = Om /\ (ecc -> cong2pi om' (om + d) /\ cong2pi nu' nu) /\ (~ ecc -> om' = om /\ cong2pi nu' (nu + d)))
  /\ (i = PI -> Om' = Om /\ (ecc -> cong2pi om' (om - d) /\ cong2pi nu' nu) /\ (~ ecc -> om' = om /\ cong2pi nu' (nu - d))).
Proof.
  intros mu x i d Hmu Hh Hen Hi Hin. destruct (state_elements mu x i Hmu Hh Hen Hi) as [k [Hv [He1 [Ei [Ee Ex]]]]].
  rewrite <- Ee. cbv zeta.
  pose proof (state_of_peri mu k Hv) as S. rewrite Ex in S. set (k' := with_Om k (k_Om k + d)).
  assert (Hv' : valid_kep mu k') by exact Hv.
  pose proof (state_of_peri mu k' Hv') as S'. pose proof (C05_Omega mu k d x _ Hv S S') as Er. rewrite Er in S'.
  rewrite <- Ei in Hin. destruct (C08_canonical mu k x Hv He1 S Hin) as [om [Om [nu [El [_ [_ [_ [H1 [H2 [H3 H4]]]]]]]]]].
  destruct (C08_canonical mu k' _ Hv' He1 S' Hin) as [om' [Om' [nu' [El' [_ [_ [_ [H1' [H2' [H3' H4']]]]]]]]]].
  rewrite <- Ei. exists (k_a k), (k_e k), om, Om, nu, om', Om', nu'.
  change (k_e k') with (k_e k) in *. change (k_i k') with (k_i k) in *. change (k_om k') with (k_om k) in *.
  change (k_nu k') with (k_nu k) in *. change (k_Om k') with (k_Om k + d) in *. change (k_a k') with (k_a k) in *.
  split; [auto|]. split; [auto|].
  assert (T : forall a b c dd, cong2pi a c -> cong2pi b (c + dd) -> cong2pi b (a + dd)).
  { intros a b c dd A B. apply (cong_trans _ _ _ B). apply cong_add; [now apply cong_sym|apply cong_refl]. }
  assert (T0 : forall a b c, cong2pi a c -> cong2pi b c -> cong2pi b a).
  { intros a b c A B. apply (cong_trans _ _ _ B). now apply cong_sym. }
  assert (D : eccentric_orbit (k_e k) \/ ~ eccentric_orbit (k_e k)) by (unfold eccentric_orbit; lra).
  split; [|split].
  - intros I. split; [eapply T; eauto|]. destruct D as [D|D].
    + destruct (H3 D) as [A [_ [_ B]]]. destruct (H3' D) as [A' [_ [_ B']]]. split; eapply T0; eauto.
    + destruct (H4 D) as [-> [_ [_ B]]]. destruct (H4' D) as [-> [_ [_ B']]]. split; [apply cong_refl|]. eapply T0; eauto.
  - intros I. assert (P : planar_orbit (k_i k)) by now left. rewrite (H1 P), (H1' P). split; [reflexivity|]. split; intros D'.
    + destruct (H3 D') as [A [B [_ _]]]. destruct (H3' D') as [A' [B' [_ _]]]. split; [|eapply T0; eauto].
      apply (T _ _ _ _ (B I)). rewrite Rplus_assoc. auto.
    + destruct (H4 D') as [-> [B [_ _]]]. destruct (H4' D') as [-> [B' [_ _]]]. split; [auto|].
      apply (T _ _ _ _ (B I)). rewrite Rplus_assoc. auto.
  - intros I. assert (P : planar_orbit (k_i k)) by now right. rewrite (H1 P), (H1' P). split; [reflexivity|]. split; intros D'.
    + destruct (H3 D') as [A [_ [B _]]]. destruct (H3' D') as [A' [_ [B' _]]]. split; [|eapply T0; eauto].
      apply (T _ _ _ (- d) (B I)). replace (k_om k - k_Om k + - d) with (k_om k - (k_Om k + d)) by ring. auto.
    + destruct (H4 D') as [-> [_ [B _]]]. destruct (H4' D') as [-> [_ [B' _]]]. split; [auto|].
      apply (T _ _ _ (- d) (B I)). replace (k_om k + k_nu k - k_Om k + - d) with (k_om k + k_nu k - (k_Om k + d)) by ring. auto.
Qed.

(** Reversing the velocity keeps a and e, turns the inclination into its supplement, exchanges the nodes and
    mirrors the argument of periapsis and the anomaly. *)
Theorem C73_reversal : forall mu x i, 0 < mu -> ang_mom x <> (0,0,0) -> energy mu x <> 0 ->
  angle_between (ang_mom x) (0,0,1) i -> planar_orbit i \/ inclined_orbit i ->
  let ecc := eccentric_orbit (norm (ecc_vec mu x)) in
  exists a e om Om nu om' Om' nu', elements_of mu x (fin6 (mk6 a e i om Om nu))
  /\ elements_of mu (turned_back x) (fin6 (mk6 a e (PI - i) om' Om' nu'))
  /\ (inclined_orbit i -> cong2pi Om' (Om + PI)
       /\ (ecc -> cong2pi om' (PI - om) /\ cong2pi nu' (- nu)) /\ (~ ecc -> om' = om /\ cong2pi nu' (PI - nu)))
  /\ (planar_orbit i -> Om' = Om
       /\ (ecc -> cong2pi om' (- om) /\ cong2pi nu' (- nu)) /\ (~ ecc -> om' = om /\ cong2pi nu' (- nu))).
Proof.
  intros mu x i Hmu Hh Hen Hi Hin. destruct (state_elements mu x i Hmu Hh Hen Hi) as [k [Hv [He1 [Ei [Ee Ex]]]]].
  rewrite <- Ee. cbv zeta.
  pose proof (state_of_peri mu k Hv) as S. rewrite Ex in S. set (k' := back_kep k).
  pose proof (valid_back mu k Hv : valid_kep mu k') as Hv'.
  pose proof (state_of_peri mu k' Hv') as S'. unfold k' in S' at 2. rewrite peri_back, Ex in S'.
  rewrite <- Ei in Hin.
  assert (PL : planar_orbit (k_i k) -> planar_orbit (k_i k')).
  { change (k_i k') with (PI - k_i k). unfold planar_orbit. intros [Q|Q]; rewrite Q; [right|left]; ring. }
  assert (IN : inclined_orbit (k_i k) -> inclined_orbit (k_i k')).
  { change (k_i k') with (PI - k_i k). unfold inclined_orbit. lra. }
  assert (Hin' : planar_orbit (k_i k') \/ inclined_orbit (k_i k')) by tauto.
  destruct (C08_canonical mu k x Hv He1 S Hin) as [om [Om [nu [El [_ [_ [_ [H1 [H2 [H3 H4]]]]]]]]]].
  destruct (C08_canonical mu k' _ Hv' He1 S' Hin') as [om' [Om' [nu' [El' [_ [_ [_ [H1' [H2' [H3' H4']]]]]]]]]].
  rewrite <- Ei. exists (k_a k), (k_e k), om, Om, nu, om', Om', nu'.
  change (k_e k') with (k_e k) in *. change (k_i k') with (PI - k_i k) in *. change (k_om k') with (PI - k_om k) in *.
  change (k_nu k') with (- k_nu k) in *. change (k_Om k') with (k_Om k + PI) in *. change (k_a k') with (k_a k) in *.
  split; [auto|]. split; [auto|].
  assert (T : forall a b c dd, cong2pi a c -> cong2pi b (dd - c) -> cong2pi b (dd - a)).
  { intros a b c dd A B. apply (cong_trans _ _ _ B). apply cong_sub; [apply cong_refl|now apply cong_sym]. }
  assert (T0 : forall a b c, cong2pi a c -> cong2pi b (- c) -> cong2pi b (- a)).
  { intros a b c A B. apply (cong_trans _ _ _ B). apply cong_opp. now apply cong_sym. }
  assert (T1 : forall a b c z, cong2pi a c -> cong2pi b z -> z = - c \/ z = - c + 2 * PI -> cong2pi b (- a)).
  { intros a b c z A B [-> | ->]; eapply T0; eauto. eapply cong_trans; [exact B|apply cong_2pi]. }
  split.
  - intros I. pose proof (IN I) as I'. split.
    { apply (cong_trans _ _ _ (H2' I')). apply cong_add; [apply cong_sym; auto|apply cong_refl]. }
    split; intros D.
    + destruct (H3 D) as [A [_ [_ B]]]. destruct (H3' D) as [A' [_ [_ B']]]. split; [eapply T|eapply T0]; eauto.
    + destruct (H4 D) as [-> [_ [_ B]]]. destruct (H4' D) as [-> [_ [_ B']]]. split; [auto|]. apply (T _ _ _ _ (B I)).
      replace (PI - (k_om k + k_nu k)) with (PI - k_om k + - k_nu k) by ring. auto.
  - intros P. pose proof (PL P) as P'. rewrite (H1 P), (H1' P'). split; [reflexivity|].
    split; intros D.
    + destruct (H3 D) as [A [B1 [B2 _]]]. destruct (H3' D) as [A' [B1' [B2' _]]]. split; [|eapply T0; eauto].
      destruct P as [I|I].
      * apply (T1 _ _ _ _ (B1 I) (B2' ltac:(lra))). left. ring.
      * apply (T1 _ _ _ _ (B2 I) (B1' ltac:(lra))). right. ring.
    + destruct (H4 D) as [-> [B1 [B2 _]]]. destruct (H4' D) as [-> [B1' [B2' _]]]. split; [auto|].
      destruct P as [I|I].
      * apply (T1 _ _ _ _ (B1 I) (B2' ltac:(lra))). left. ring.
      * apply (T1 _ _ _ _ (B2 I) (B1' ltac:(lra))). right. ring.
Qed.
(** the state (1,0,0; 0,2,0), mu = 1 *)
Example C73_example : 0 < 1 /\ ang_mom ex_state <> (0,0,0) /\ energy 1 ex_state <> 0 /\ angle_between (ang_mom ex_state) (0,0,1) 0
  /\ planar_orbit 0 /\ eccentric_orbit (norm (ecc_vec 1 ex_state)).
Proof.
  assert (N : norm (pos ex_state) = 1) by (apply norm_eq; [lra|unfold ex_state; vunf; lra]).
  split; [lra|]. split; [rewrite ex_h; intros E; injection E; lra|].
  split; [unfold energy; rewrite N; unfold ex_state; vunf; lra|].
  split; [rewrite ex_h; split; [pose proof PI_RGT_0; lra|]; rewrite cos_0, (norm_eq (0,0,2) 2), (norm_eq (0,0,1) 1); vunf; lra|].
  split; [now left|]. rewrite ex_ecc, (norm_eq (3,0,0) 3); [unfold eccentric_orbit; lra|lra|vunf; lra].
Qed.
(** an inclined one: (1,0,0; 0,2,2), inclination pi/4 *)
Example C73_example_inclined : let x := mk6 1 0 0 0 2 2 in ang_mom x <> (0,0,0) /\ energy 1 x <> 0
  /\ angle_between (ang_mom x) (0,0,1) (PI/4) /\ inclined_orbit (PI/4).
Proof.
  cbv zeta. set (x := mk6 1 0 0 0 2 2).
  assert (Hh : ang_mom x = (0,-2,2)) by (unfold x, ang_mom; vring).
  assert (N : norm (pos x) = 1) by (apply norm_eq; [lra|unfold x; vunf; lra]).
  pose proof PI_RGT_0. pose proof Rlt_sqrt2_0 as P2. pose proof (sqrt_sqrt 2 ltac:(lra)) as Q2.
  split; [rewrite Hh; intros E; injection E; lra|].
  split; [unfold energy; rewrite N; unfold x; vunf; lra|].
  split; [|unfold inclined_orbit; lra].
  assert (E2 : 1 / sqrt 2 = sqrt 2 / 2) by (apply (Rmult_eq_reg_r (sqrt 2)); [field_simplify; lra|lra]).
  rewrite Hh. split; [lra|]. rewrite cos_PI4, E2, (norm_eq (0,-2,2) (2 * sqrt 2)), (norm_eq (0,0,1) 1).
  all: try lra; vunf; try nra.
Qed.
