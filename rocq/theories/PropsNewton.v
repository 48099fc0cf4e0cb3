(** * C56: the states returned for a body following Kepler's equation obey Newton's law *)
From Coq Require Import Reals Lra Lia Nsatz.
From Coquelicot Require Import Coquelicot.
From Verif Require Import NP NPReal Spec RealBase KepReal PropsKep AnomReal PropsAnomalyR EllState.
Local Open Scope R_scope.

(** ** Specification *)
(** the curve [f] has the derivative [v] at time [t] *)
Definition deriv3 (f : R -> vec) (t : R) (v : vec) : Prop :=
  derivable_pt_lim (fun u => vx (f u)) t (vx v) /\ derivable_pt_lim (fun u => vy (f u)) t (vy v)
  /\ derivable_pt_lim (fun u => vz (f u)) t (vz v).
(** the state moves: velocity is the derivative of position, and Newton's law of gravitation holds *)
Definition newton (mu : R) (X : R -> six R) : Prop := forall t,
  deriv3 (fun u => pos (X u)) t (vel (X t))
  /\ deriv3 (fun u => vel (X u)) t
       (scal3 (- mu / (norm (pos (X t)) * norm (pos (X t)) * norm (pos (X t)))) (pos (X t))).
Definition anomalies (e nu E : R) : Prop :=
  if Rlt_dec e 1 then anomalies_ell e nu E else if Rlt_dec 1 e then anomalies_hyp e nu E else anomalies_par nu E.
(** rate of the mean anomaly: sqrt(mu/a^3), for parabolas sqrt(mu/(2 q^3)) *)
Definition mean_rate (mu a e : R) : R :=
  if Rlt_dec e 1 then sqrt (mu / (a * a * a)) else if Rlt_dec 1 e then sqrt (mu / (a * a * a))
  else sqrt (mu / (2 * (a * a * a))).
(** two anomalies of one place on the orbit: a full turn is none on an ellipse *)
Definition same_mean (e M M' : R) : Prop := if Rlt_dec e 1 then cong2pi M M' else M = M'.
(** [X t] is the state kep_to_cart returns for the elements k at mean anomaly M0 + n t *)
Definition follows (mu : R) (k : six R) (M0 : R) (X : R -> six R) : Prop := forall t, exists nu E,
  anomalies (k_e k) nu E /\ same_mean (k_e k) (kepler_M (k_e k) E) (M0 + mean_rate mu (k_a k) (k_e k) * t)
  /\ state_of mu (with_nu k nu) (X t).

(** ** States in terms of the eccentric anomaly, all conics *)
Definition cP (a e E : R) : R :=
  if Rlt_dec e 1 then a * (cos E - e) else if Rlt_dec 1 e then a * (e - cosh E) else a * (1 - E * E).
Definition cQ (a e E : R) : R :=
  if Rlt_dec e 1 then a * sqrt (1 - e * e) * sin E else if Rlt_dec 1 e then a * sqrt (e * e - 1) * sinh E else a * (2 * E).
Definition dP (a e E : R) : R :=
  if Rlt_dec e 1 then - (a * sin E) else if Rlt_dec 1 e then - (a * sinh E) else - (a * (2 * E)).
Definition dQ (a e E : R) : R :=
  if Rlt_dec e 1 then a * sqrt (1 - e * e) * cos E else if Rlt_dec 1 e then a * sqrt (e * e - 1) * cosh E else a * 2.
Definition kap (e : R) : R := if Rlt_dec e 1 then 1 else if Rlt_dec 1 e then 1 else 2.
Lemma d_cP a e E : is_derive (cP a e) E (dP a e E).
Proof.
  unfold cP, dP. destruct (Rlt_dec e 1); [|destruct (Rlt_dec 1 e)]; unfold sinh, cosh; auto_derive; auto; field.
Qed.
Lemma d_cQ a e E : is_derive (cQ a e) E (dQ a e E).
Proof.
  unfold cQ, dQ. destruct (Rlt_dec e 1); [|destruct (Rlt_dec 1 e)]; unfold sinh, cosh; auto_derive; auto; field.
Qed.
Lemma d_dM e E : is_derive (kepler_dM e) E
  (if Rlt_dec e 1 then e * sin E else if Rlt_dec 1 e then e * sinh E else 2 * E).
Proof.
  unfold kepler_dM. destruct (Rlt_dec e 1); [|destruct (Rlt_dec 1 e)]; unfold sinh, cosh; auto_derive; auto; field.
Qed.
Lemma d_dP a e E : is_derive (dP a e) E
  (if Rlt_dec e 1 then - (a * cos E) else if Rlt_dec 1 e then - (a * cosh E) else - (a * 2)).
Proof.
  unfold dP. destruct (Rlt_dec e 1); [|destruct (Rlt_dec 1 e)]; unfold sinh, cosh; auto_derive; auto; field.
Qed.
Lemma d_dQ a e E : is_derive (dQ a e) E
  (if Rlt_dec e 1 then - (a * sqrt (1 - e * e) * sin E) else if Rlt_dec 1 e then a * sqrt (e * e - 1) * sinh E else 0).
Proof.
  unfold dQ. destruct (Rlt_dec e 1); [|destruct (Rlt_dec 1 e)]; unfold sinh, cosh; auto_derive; auto; field.
Qed.
Lemma quot_eq d x y : d <> 0 -> x = y -> x / d ^ 2 = y / (d * d).
Proof. intros Hd ->. field. auto. Qed.
Lemma d_vP a e E : 0 <= e -> is_derive (fun E => dP a e E / kepler_dM e E) E (- kap e * cP a e E / (kepler_dM e E * kepler_dM e E)).
Proof.
  intros He. pose proof (kepler_dM_pos e E He) as D.
  evar_last; [apply is_derive_div; [apply d_dP|apply d_dM|lra]|].
  unfold dP, cP, kap, kepler_dM in *. pose proof (sc1 E). pose proof (cosh_sq E).
  destruct (Rlt_dec e 1); [|destruct (Rlt_dec 1 e)]; (apply quot_eq; [lra|]).
  - nsatz.
  - nsatz.
  - ring.
Qed.
Lemma d_vQ a e E : 0 <= e -> is_derive (fun E => dQ a e E / kepler_dM e E) E (- kap e * cQ a e E / (kepler_dM e E * kepler_dM e E)).
Proof.
  intros He. pose proof (kepler_dM_pos e E He) as D.
  evar_last; [apply is_derive_div; [apply d_dQ|apply d_dM|lra]|].
  unfold dQ, cQ, kap, kepler_dM in *. pose proof (sc1 E). pose proof (cosh_sq E).
  destruct (Rlt_dec e 1); [|destruct (Rlt_dec 1 e)]; (apply quot_eq; [lra|]).
  - nsatz.
  - nsatz.
  - ring.
Qed.
Lemma rate_sq mu a e : 0 < mu -> 0 < a ->
  mean_rate mu a e * mean_rate mu a e * kap e = mu / (a * a * a) /\ 0 < mean_rate mu a e.
Proof.
  intros Hm Ha. assert (H3 : 0 < a * a * a) by (repeat apply Rmult_lt_0_compat; lra).
  assert (H1 : 0 < mu / (a * a * a)) by (apply Rdiv_lt_0_compat; lra).
  assert (H2 : 0 < mu / (2 * (a * a * a))) by (apply Rdiv_lt_0_compat; lra).
  unfold mean_rate, kap. destruct (Rlt_dec e 1); [|destruct (Rlt_dec 1 e)];
    (split; [rewrite sqrt_sqrt by lra; field; lra|now apply sqrt_lt_R0]).
Qed.
Lemma anom_valid mu k nu E : 0 < mu -> 0 < k_a k -> 0 <= k_e k -> anomalies (k_e k) nu E -> valid_kep mu (with_nu k nu).
Proof.
  intros Hm Ha He A. unfold valid_kep. change (k_a (with_nu k nu)) with (k_a k).
  change (k_e (with_nu k nu)) with (k_e k). change (k_nu (with_nu k nu)) with nu. repeat split; auto.
  unfold anomalies in A. destruct (Rlt_dec (k_e k) 1); [|destruct (Rlt_dec 1 (k_e k))].
  - pose proof (COS_bound nu). nra.
  - now apply (hyp_inv (k_e k)) in A.
  - destruct A as [A _]. assert (k_e k = 1) as -> by lra. rewrite A. assert (0 < 1 + E * E) by nra.
    replace (1 + 1 * ((1 - E * E) / (1 + E * E))) with (2 / (1 + E * E)) by (field; lra). apply Rdiv_lt_0_compat; lra.
Qed.
Lemma conic_state mu k nu E : 0 < mu -> 0 < k_a k -> 0 <= k_e k -> anomalies (k_e k) nu E ->
  let x := peri_state mu (with_nu k nu) in let a := k_a k in let e := k_e k in
  pos x = plus3 (scal3 (cP a e E) (P_axis k)) (scal3 (cQ a e E) (Q_axis k))
  /\ vel x = plus3 (scal3 (mean_rate mu a e * (dP a e E / kepler_dM e E)) (P_axis k))
                   (scal3 (mean_rate mu a e * (dQ a e E / kepler_dM e E)) (Q_axis k))
  /\ norm (pos x) = a * kepler_dM e E.
Proof.
  intros Hm Ha He A x a e. pose proof (anom_valid mu k nu E Hm Ha He A) as V.
  pose proof (rate_sq mu a e Hm Ha) as [N1 N2]. pose proof (kepler_dM_pos e E He) as D.
  assert (S : peri_s mu (with_nu k nu) = sqrt (mu / semi_latus a e)) by reflexivity.
  assert (Pr : peri_r mu (with_nu k nu) = semi_latus a e / (1 + e * cos nu)) by reflexivity.
  assert (R : norm (pos x) = semi_latus a e / (1 + e * cos nu)) by now apply peri_norm.
  rewrite R. unfold x. rewrite peri_pos, peri_vel, S, Pr.
  change (P_axis (with_nu k nu)) with (P_axis k). change (Q_axis (with_nu k nu)) with (Q_axis k).
  change (k_nu (with_nu k nu)) with nu. change (k_e (with_nu k nu)) with e.
  assert (Ps : 0 < semi_latus a e) by (apply semi_latus_pos; auto).
  assert (Hq : 0 < mu / semi_latus a e) by (apply Rdiv_lt_0_compat; lra).
  assert (SQ : sqrt (mu / semi_latus a e) * sqrt (mu / semi_latus a e) = mu / semi_latus a e) by (apply sqrt_sqrt; lra).
  assert (S0 : 0 < sqrt (mu / semi_latus a e)) by now apply sqrt_lt_R0.
  set (s := sqrt (mu / semi_latus a e)) in *. set (n := mean_rate mu a e) in *. fold a e in A.
  assert (V4 : 0 < 1 + e * cos nu) by apply V. change (0 < a) in Ha. change (0 <= e) in He.
  assert (G : exists z, 0 < z /\ s * z = n * a /\ semi_latus a e / (1 + e * cos nu) = a * kepler_dM e E
    /\ a * kepler_dM e E * cos nu = cP a e E /\ a * kepler_dM e E * sin nu = cQ a e E
    /\ a * (- sin nu) * kepler_dM e E = dP a e E * z /\ a * (e + cos nu) * kepler_dM e E = dQ a e E * z).
  2:{ destruct G as [z [Hz [G1 [G2 [G3 [G4 [G5 G6]]]]]]]. rewrite G2.
      assert (K1 : s * (- sin nu) = n * (dP a e E / kepler_dM e E)).
      { apply (Rmult_eq_reg_r (z * kepler_dM e E)); [|apply Rgt_not_eq; apply Rmult_lt_0_compat; auto].
        transitivity (s * z * (- sin nu) * kepler_dM e E); [ring|]. rewrite G1.
        transitivity (n * (a * (- sin nu) * kepler_dM e E)); [ring|]. rewrite G5. field. lra. }
      assert (K2 : s * (e + cos nu) = n * (dQ a e E / kepler_dM e E)).
      { apply (Rmult_eq_reg_r (z * kepler_dM e E)); [|apply Rgt_not_eq; apply Rmult_lt_0_compat; auto].
        transitivity (s * z * (e + cos nu) * kepler_dM e E); [ring|]. rewrite G1.
        transitivity (n * (a * (e + cos nu) * kepler_dM e E)); [ring|]. rewrite G6. field. lra. }
      rewrite <- G3, <- G4, <- K1, <- K2. generalize (P_axis k) (Q_axis k). intros P Q.
      split; [|split; [|reflexivity]]; apply vec_eq; vunf; ring. }
  clear R V Pr S x Hq.
  unfold anomalies, semi_latus, cP, cQ, dP, dQ, kap, kepler_dM in *.
  destruct (Rlt_dec e 1) as [L|L]; [|destruct (Rlt_dec 1 e) as [L1|L1]].
  - destruct A as [C Sn]. assert (He' : 0 <= e < 1) by lra. destruct (ell_w e He') as [W1 W2].
    set (w := sqrt (1 - e * e)) in *. exists w. split; [auto|]. split.
    { apply Rsqr_inj; [nra|nra|]. unfold Rsqr. replace (s * w * (s * w)) with (s * s * (w * w)) by ring.
      rewrite SQ, W1. replace (n * a * (n * a)) with (n * n * 1 * a * a) by ring. rewrite N1. field. nra. }
    replace (1 + e * cos nu) with (w * w / (1 - e * cos E)) by (rewrite C, W1; field; lra).
    split; [rewrite <- W1; field; split; lra|]. rewrite C, Sn. split; [field; lra|]. split; [field; lra|].
    split; [field; lra|]. replace (e + (cos E - e) / (1 - e * cos E)) with (w * w * cos E / (1 - e * cos E)).
    { field. lra. } rewrite W1. field. lra.
  - destruct A as [C Sn]. destruct (hyp_w e L1) as [W1 W2].
    set (w := sqrt (e * e - 1)) in *. exists w. split; [auto|]. split.
    { apply Rsqr_inj; [nra|nra|]. unfold Rsqr. replace (s * w * (s * w)) with (s * s * (w * w)) by ring.
      rewrite SQ, W1. replace (n * a * (n * a)) with (n * n * 1 * a * a) by ring. rewrite N1. field. nra. }
    replace (1 + e * cos nu) with (w * w / (e * cosh E - 1)) by (rewrite C, W1; field; lra).
    split; [rewrite <- W1; field; split; lra|]. rewrite C, Sn. split; [field; lra|]. split; [field; lra|].
    split; [field; lra|]. replace (e + (e - cosh E) / (e * cosh E - 1)) with (w * w * cosh E / (e * cosh E - 1)).
    { field. lra. } rewrite W1. field. lra.
  - assert (e = 1) as E1 by lra. destruct A as [C Sn]. exists 1. split; [lra|]. split.
    { apply Rsqr_inj; [nra|nra|]. unfold Rsqr. replace (s * 1 * (s * 1)) with (s * s) by ring.
      rewrite SQ. replace (n * a * (n * a)) with (n * n * 2 * a * a / 2) by field. rewrite N1. field. lra. }
    rewrite E1, Rmult_1_l. replace (1 + cos nu) with (2 / (1 + E * E)) by (rewrite C; field; lra).
    split; [field; lra|]. rewrite C, Sn. split; [field; lra|]. split; [field; lra|].
    split; [field; lra|]. field; lra.
Qed.
(** ** Kepler's equation is solved by a differentiable function of time *)
Lemma inverse_derive (f g : R -> R) c n t l L : is_derive f (g t) l -> 0 < l -> n <> 0 -> 0 < L ->
  (forall x y, Rabs (x - y) <= L * Rabs (f x - f y)) -> (forall u, f (g u) = c + n * u) ->
  is_derive g t (n / l).
Proof.
  intros Hf Hl Hn HL Lip Eq. apply is_derive_Reals in Hf. apply is_derive_Reals.
  intros eps He. assert (N : 0 < Rabs n) by now apply Rabs_pos_lt.
  destruct (Hf (eps * l / (L * Rabs n))) as [d Hd].
  { apply Rdiv_lt_0_compat; [nra|]. now apply Rmult_lt_0_compat. }
  assert (D0 : 0 < d / (L * Rabs n)) by (apply Rdiv_lt_0_compat; [apply cond_pos|now apply Rmult_lt_0_compat]).
  exists (mkposreal _ D0). intros h Hh0 Hh. cbn [pos] in Hh. simpl in Hh.
  set (D := g (t + h) - g t). assert (F : f (g t + D) - f (g t) = n * h).
  { replace (g t + D) with (g (t + h)) by (unfold D; ring). rewrite !Eq. ring. }
  assert (LD : Rabs D <= L * Rabs n * Rabs h).
  { unfold D. rewrite Rmult_assoc, <- Rabs_mult. replace (n * h) with (f (g (t + h)) - f (g t)) by (rewrite !Eq; ring). apply Lip. }
  assert (DN : D <> 0).
  { intros Z. rewrite Z, Rplus_0_r in F. apply (Rmult_integral_contrapositive_currified n h Hn Hh0). lra. }
  assert (DS : Rabs D < d).
  { apply Rle_lt_trans with (1 := LD). assert (P : 0 < L * Rabs n) by now apply Rmult_lt_0_compat.
    apply (Rmult_lt_compat_l _ _ _ P) in Hh. replace (L * Rabs n * (d / (L * Rabs n))) with (d : R) in Hh by (field; lra). lra. }
  specialize (Hd D DN DS). rewrite F in Hd.
  replace (D / h - n / l) with ((n * h / D - l) * (- (D / (h * l)))) by (field; repeat split; auto; lra).
  rewrite Rabs_mult, Rabs_Ropp.
  assert (Q : Rabs (D / (h * l)) <= L * Rabs n / l).
  { unfold Rdiv at 1. rewrite Rabs_mult, Rabs_inv, Rabs_mult, (Rabs_pos_eq l) by lra.
    assert (Ph : 0 < Rabs h) by now apply Rabs_pos_lt.
    apply Rmult_le_reg_r with (Rabs h * l); [now apply Rmult_lt_0_compat|].
    replace (Rabs D * / (Rabs h * l) * (Rabs h * l)) with (Rabs D) by (field; lra).
    replace (L * Rabs n / l * (Rabs h * l)) with (L * Rabs n * Rabs h) by (field; lra). exact LD. }
  assert (Q0 : 0 < Rabs (D / (h * l))).
  { apply Rabs_pos_lt. apply Rmult_integral_contrapositive_currified; auto. apply Rinv_neq_0_compat.
    apply Rmult_integral_contrapositive_currified; auto. lra. }
  apply Rlt_le_trans with (eps * l / (L * Rabs n) * Rabs (D / (h * l))); [now apply Rmult_lt_compat_r|].
  apply Rle_trans with (eps * l / (L * Rabs n) * (L * Rabs n / l)).
  - apply Rmult_le_compat_l; [|exact Q]. apply Rlt_le, Rdiv_lt_0_compat; [nra|]. now apply Rmult_lt_0_compat.
  - right. field. repeat split; lra.
Qed.
Lemma kepler_lip_all e : 0 <= e -> exists L, 0 < L /\ forall x y, Rabs (x - y) <= L * Rabs (kepler_M e x - kepler_M e y).
Proof.
  intros He. assert (B : exists m, 0 < m /\ forall E, m <= kepler_dM e E).
  { unfold kepler_dM. destruct (Rlt_dec e 1); [|destruct (Rlt_dec 1 e)].
    - exists (1 - e). split; [lra|]. intros E. pose proof (COS_bound E). nra.
    - exists (e - 1). split; [lra|]. intros E. pose proof (cosh_ge_1 E). nra.
    - exists 1. split; [lra|]. intros E. nra. }
  destruct B as [m [Hm B]]. exists (/ m). split; [now apply Rinv_0_lt_compat|]. intros x y.
  destruct (MVT_gen (kepler_M e) y x (kepler_dM e)) as [c [_ E]].
  - intros. apply kepler_derive.
  - intros. apply kepler_cont.
  - rewrite E, Rabs_mult. specialize (B c). rewrite (Rabs_pos_eq (kepler_dM e c)) by lra.
    apply Rmult_le_reg_l with m; [auto|].
    replace (m * (/ m * (kepler_dM e c * Rabs (x - y)))) with (kepler_dM e c * Rabs (x - y)) by (field; lra).
    apply Rmult_le_compat_r; [apply Rabs_pos|auto].
Qed.
(** the solution of Kepler's equation *)
Definition kepler_inv (e M : R) : R := iota (fun E : R => kepler_M e E = M).
Lemma kepler_inv_eq e M : 0 <= e -> kepler_M e (kepler_inv e M) = M.
Proof.
  intros He. apply (iota_correct (fun E : R => kepler_M e E = M)). destruct (kepler_onto e M He) as [E HE].
  exists E. split; [auto|]. intros E' HE'. destruct (Rtotal_order E E') as [L|[->|L]]; auto;
    pose proof (kepler_incr e _ _ He L); lra.
Qed.
Lemma deriv3_PQ f g t a b P Q : is_derive f t a -> is_derive g t b ->
  deriv3 (fun u => plus3 (scal3 (f u) P) (scal3 (g u) Q)) t (plus3 (scal3 a P) (scal3 b Q)).
Proof.
  intros Hf Hg. destruct P as [[p1 p2] p3], Q as [[q1 q2] q3]. vunf.
  assert (C : forall p q, derivable_pt_lim (fun u => f u * p + g u * q) t (a * p + b * q)).
  { intros p q. apply is_derive_Reals. apply (is_derive_plus (fun u => f u * p) (fun u => g u * q));
      [apply (is_derive_scal_l f t a p Hf)|apply (is_derive_scal_l g t b q Hg)]. }
  repeat split; apply C.
Qed.
Lemma derive_comp (f g : R -> R) t df dg : is_derive f (g t) df -> is_derive g t dg -> is_derive (fun u => f (g u)) t (dg * df).
Proof. intros Hf Hg. exact (is_derive_comp f g t df dg Hf Hg). Qed.
Lemma deriv3_ext f g t v : (forall u, f u = g u) -> deriv3 f t v -> deriv3 g t v.
Proof.
  intros E [H1 [H2 H3]]. repeat split; (eapply derivable_pt_lim_ext; cycle 1; [eassumption|]); intros u; cbv beta; now rewrite E.
Qed.
(** the same place: pos and vel depend on the mean anomaly modulo a turn for ellipses *)
Lemma conic_same e a E E' : 0 <= e -> same_mean e (kepler_M e E) (kepler_M e E') ->
  cP a e E = cP a e E' /\ cQ a e E = cQ a e E' /\ dP a e E = dP a e E' /\ dQ a e E = dQ a e E'
  /\ kepler_dM e E = kepler_dM e E'.
Proof.
  intros He S. unfold same_mean in S. destruct (Rlt_dec e 1) as [L|L].
  - assert (C : cong2pi E E').
    { destruct S as [z Hz]. exists z. destruct (Rtotal_order E (E' + 2 * PI * IZR z)) as [Q|[Q|Q]]; auto; exfalso;
      apply (kepler_incr e _ _ He) in Q; unfold kepler_M in *; destruct (Rlt_dec e 1); try lra;
      assert (X : sin (E' + 2 * PI * IZR z) = sin E') by (apply cong_sin; now exists z); rewrite X in Q; lra. }
    unfold cP, cQ, dP, dQ, kepler_dM. destruct (Rlt_dec e 1); [|lra]. rewrite (cong_cos _ _ C), (cong_sin _ _ C). auto.
  - assert (E = E') as ->; [|auto].
    destruct (Rtotal_order E E') as [Q|[Q|Q]]; auto; exfalso; apply (kepler_incr e _ _ He) in Q; lra.
Qed.
Theorem C56_newton : forall mu k M0 X, 0 < mu -> 0 < k_a k -> 0 <= k_e k -> follows mu k M0 X -> newton mu X.
Proof.
  intros mu k M0 X Hm Ha He Fo t. set (a := k_a k) in *. set (e := k_e k) in *. set (n := mean_rate mu a e).
  destruct (rate_sq mu a e Hm Ha) as [N1 N2]. fold n in N1, N2.
  destruct (kepler_lip_all e He) as [L [HL Lip]].
  assert (G : exists g, forall u, kepler_M e (g u) = M0 + n * u).
  { exists (fun u => kepler_inv e (M0 + n * u)). intros u. now apply kepler_inv_eq. }
  destruct G as [g Hg].
  assert (Dg : forall u, is_derive g u (n / kepler_dM e (g u))).
  { intros u. apply (inverse_derive (kepler_M e) g M0 n u (kepler_dM e (g u)) L); auto; [apply kepler_derive|now apply kepler_dM_pos|lra]. }
  assert (XX : forall u, pos (X u) = plus3 (scal3 (cP a e (g u)) (P_axis k)) (scal3 (cQ a e (g u)) (Q_axis k))
    /\ vel (X u) = plus3 (scal3 (n * (dP a e (g u) / kepler_dM e (g u))) (P_axis k))
                         (scal3 (n * (dQ a e (g u) / kepler_dM e (g u))) (Q_axis k))
    /\ norm (pos (X u)) = a * kepler_dM e (g u)).
  { intros u. destruct (Fo u) as [nu [E [A [S St]]]]. rewrite (state_of_inv mu _ (X u) (anom_valid mu k nu E Hm Ha He A) St).
    destruct (conic_state mu k nu E Hm Ha He A) as [Q1 [Q2 Q3]]. fold a e n in Q1, Q2, Q3, S. rewrite Q1, Q2, <- Q1, Q3, Q1.
    rewrite <- Hg in S. destruct (conic_same e a E (g u) He S) as [-> [-> [-> [-> ->]]]]. auto. }
  pose proof (kepler_dM_pos e (g t) He) as D. destruct (XX t) as [P1 [P2 P3]].
  split.
  - apply (deriv3_ext (fun u => plus3 (scal3 (cP a e (g u)) (P_axis k)) (scal3 (cQ a e (g u)) (Q_axis k)))).
    { intros u. symmetry. apply XX. }
    rewrite P2. replace (n * (dP a e (g t) / kepler_dM e (g t))) with (n / kepler_dM e (g t) * dP a e (g t)) by (field; lra).
    replace (n * (dQ a e (g t) / kepler_dM e (g t))) with (n / kepler_dM e (g t) * dQ a e (g t)) by (field; lra).
    apply deriv3_PQ; [apply (derive_comp (cP a e) g)|apply (derive_comp (cQ a e) g)]; auto; [apply d_cP|apply d_cQ].
  - rewrite P3, P1. 
    apply (deriv3_ext (fun u => plus3 (scal3 (n * (dP a e (g u) / kepler_dM e (g u))) (P_axis k))
                         (scal3 (n * (dQ a e (g u) / kepler_dM e (g u))) (Q_axis k)))).
    { intros u. symmetry. apply XX. }
    assert (K : forall c, n * (n / kepler_dM e (g t) * (- kap e * c / (kepler_dM e (g t) * kepler_dM e (g t))))
      = - mu / (a * kepler_dM e (g t) * (a * kepler_dM e (g t)) * (a * kepler_dM e (g t))) * c).
    { intros c. assert (M : mu = n * n * kap e * (a * a * a)) by (rewrite N1; field; lra). rewrite M. field. split; lra. }
    assert (K3 : forall x, scal3 x (plus3 (scal3 (cP a e (g t)) (P_axis k)) (scal3 (cQ a e (g t)) (Q_axis k)))
       = plus3 (scal3 (x * cP a e (g t)) (P_axis k)) (scal3 (x * cQ a e (g t)) (Q_axis k))).
    { intros x. generalize (P_axis k) (Q_axis k). intros P Q. apply vec_eq; vunf; ring. }
    rewrite K3, <- !K. apply deriv3_PQ; (apply (is_derive_scal _ t n));
      [apply (derive_comp (fun E => dP a e E / kepler_dM e E) g)|apply (derive_comp (fun E => dQ a e E / kepler_dM e E) g)];
      auto; [now apply d_vP|now apply d_vQ].
Qed.
(** Every element set of every conic has such a trajectory. *)
Lemma anomalies_turn e nu nu' E : cong2pi nu nu' -> anomalies e nu E -> anomalies e nu' E.
Proof.
  intros C. unfold anomalies, anomalies_ell, anomalies_hyp, anomalies_par.
  now rewrite (cong_cos _ _ C), (cong_sin _ _ C).
Qed.
Lemma anomalies_ex e E : 0 <= e -> exists! nu, in_circle nu /\ anomalies e nu E.
Proof.
  intros He. assert (X : exists nu, anomalies e nu E).
  { unfold anomalies. destruct (Rlt_dec e 1); [|destruct (Rlt_dec 1 e)].
    - destruct (C15_ellipse e) as [_ [B _]]; [lra|]. destruct (B E) as [nu H]. exists nu. apply H.
    - destruct (e2t_hyp_real e r E) as [nu H]. exists nu. apply H.
    - destruct C16_parabola_partial as [A _]. destruct (A E) as [nu H]. exists nu. apply H. }
  destruct X as [nu H]. exists (Rmod nu (2 * PI)). destruct (Rmod_2pi nu) as [R1 R2].
  assert (H' : anomalies e (Rmod nu (2 * PI)) E) by (apply (anomalies_turn e nu); [now apply cong_sym|auto]).
  split; [auto|]. intros nu' [I' A']. apply in_circle_unique; auto.
  unfold anomalies, anomalies_ell, anomalies_hyp, anomalies_par in *.
  destruct (Rlt_dec e 1); [|destruct (Rlt_dec 1 e)]; destruct H' as [Y1 Y2], A' as [Y3 Y4]; apply cos_sin_cong; congruence.
Qed.
Theorem C56_trajectory : forall mu k M0, 0 < mu -> 0 < k_a k -> 0 <= k_e k ->
  exists X, follows mu k M0 X /\ newton mu X.
Proof.
  intros mu k M0 Hm Ha He. set (e := k_e k) in *. set (n := mean_rate mu (k_a k) e).
  pose (E := fun t => kepler_inv e (M0 + n * t)).
  pose (nu := fun t => iota (fun nu : R => in_circle nu /\ anomalies e nu (E t))).
  assert (Hnu : forall t, anomalies e (nu t) (E t)).
  { intros t. apply (iota_correct (fun nu : R => in_circle nu /\ anomalies e nu (E t))). now apply anomalies_ex. }
  assert (HX : follows mu k M0 (fun t => peri_state mu (with_nu k (nu t)))).
  { intros t. exists (nu t), (E t). fold e n. split; [apply Hnu|].
    split; [|apply state_of_peri; apply (anom_valid mu k (nu t) (E t)); auto; apply Hnu].
    unfold same_mean, E. rewrite kepler_inv_eq by auto. destruct (Rlt_dec e 1); [apply cong_refl|reflexivity]. }
  eexists. split; [exact HX|]. now apply (C56_newton mu k M0).
Qed.
(** an ellipse, a parabola and a hyperbola; mu = 4 *)
Example C56_example : (exists X, follows 4 (mk6 2 (1/2) 1 2 3 0) 5 X /\ newton 4 X)
  /\ (exists X, follows 4 (mk6 2 1 1 2 3 0) (-7) X /\ newton 4 X)
  /\ (exists X, follows 4 (mk6 2 3 1 2 3 0) 5 X /\ newton 4 X).
Proof. repeat split; apply C56_trajectory; unfold k_a, k_e; cbn [s0 s1]; lra. Qed.
(** a circular orbit of radius 1 with mu = 1 written out: X t = (cos t, sin t, 0, - sin t, cos t, 0) *)
Example C56_circle : follows 1 (mk6 1 0 0 0 0 0) 0 (fun t => mk6 (cos t) (sin t) 0 (- sin t) (cos t) 0).
Proof.
  intros t. exists t, t. unfold k_e, k_a. cbn [s0 s1]. assert (M : mean_rate 1 1 0 = 1).
  { unfold mean_rate. destruct (Rlt_dec 0 1); [|lra]. replace (1 / (1 * 1 * 1)) with 1 by field. apply sqrt_1. }
  rewrite M. unfold anomalies, same_mean, kepler_M. destruct (Rlt_dec 0 1); [|lra].
  split; [|split].
  - unfold anomalies_ell. replace (1 - 0 * 0) with 1 by ring. rewrite sqrt_1. split; field.
  - exists 0%Z. ring.
  - assert (V : valid_kep 1 (with_nu (mk6 1 0 0 0 0 0) t)).
    { unfold valid_kep, k_a, k_e, k_nu. cbn [with_nu s0 s1 s5]. lra. }
    pose proof (state_of_peri 1 _ V) as S.
    replace (mk6 (cos t) (sin t) 0 (- sin t) (cos t) 0) with (peri_state 1 (with_nu (mk6 1 0 0 0 0 0) t)); [exact S|].
    unfold peri_state, peri_r, peri_s, Q_axis, P_axis, W_axis, k_a, k_e, k_i, k_om, k_Om, k_nu, semi_latus.
    cbn [with_nu s0 s1 s2 s3 s4 s5]. destruct (Rlt_dec 0 1); [|lra]. rewrite sin_0, cos_0.
    replace (1 / (1 * (1 - 0 * 0))) with 1 by field. rewrite sqrt_1. vunf. f_equal; field; lra.
Qed.
