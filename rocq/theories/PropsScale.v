(** * C37: the results do not depend on the unit system (exact arithmetic) *)
From Coq Require Import String Reals QArith Lra Lia Bool List Nsatz.
From Verif Require Import NP NPReal KeplerModel ConvModel UnitModel Lists ConvCols ArraySpec PropsArray Spec RealBase KepReal
  PropsKep CartReal CartInv PropsCart PropsAnomalyR PropsScalar PropsUnit.
Import ListNotations.
Local Open Scope R_scope.

(** numbers expressed in units that are [l] metres and [t] seconds long *)
Definition in_units (l t : R) (x : six R) : six R :=
  mk6 (s0 x / l) (s1 x / l) (s2 x / l) (s3 x * t / l) (s4 x * t / l) (s5 x * t / l).
Definition kep_in_units (l : R) (k : six R) : six R := mk6 (k_a k / l) (k_e k) (k_i k) (k_om k) (k_Om k) (k_nu k).

Section Scale.
Variables (l t mu : R).
Hypotheses (Hl : 0 < l) (Ht : 0 < t) (Hmu : 0 < mu).
Let mu' := mu * (t * t) / (l * l * l).
Let a := / l.
Let b := t / l.
Lemma sc_a : 0 < a. Proof. now apply Rinv_0_lt_compat. Qed.
Lemma sc_b : 0 < b. Proof. now apply Rdiv_lt_0_compat. Qed.
Lemma sc_mu : mu' = mu * a * b * b.
Proof. unfold mu', a, b. field. lra. Qed.
Lemma sc_mu_pos : 0 < mu'.
Proof. rewrite sc_mu. pose proof sc_a. pose proof sc_b. repeat apply Rmult_lt_0_compat; auto. Qed.
Lemma sc_pos x : pos (in_units l t x) = scal3 a (pos x).
Proof. unfold in_units, a. apply vec_eq; vunf; field; lra. Qed.
Lemma sc_vel x : vel (in_units l t x) = scal3 b (vel x).
Proof. unfold in_units, b. apply vec_eq; vunf; field; lra. Qed.
Lemma norm_scal k v : 0 < k -> norm (scal3 k v) = k * norm v.
Proof.
  intros. apply norm_eq; [pose proof (norm_pos v); nra|].
  rewrite dot_scal_l, dot_scal_r. replace (k * norm v * (k * norm v)) with (k * (k * (norm v * norm v))) by ring.
  now rewrite norm_sq.
Qed.
Lemma sc_h x : ang_mom (in_units l t x) = scal3 (a * b) (ang_mom x).
Proof. unfold ang_mom. rewrite sc_pos, sc_vel, cross_scal_l, cross_scal_r. vring. Qed.
Lemma sc_semi k e : semi_latus (k / l) e = semi_latus k e * a.
Proof. unfold semi_latus, a. destruct (Rlt_dec e 1); [|destruct (Rlt_dec 1 e)]; field; lra. Qed.
Lemma sc_valid k : valid_kep mu k -> valid_kep mu' (kep_in_units l k).
Proof.
  intros [_ [H1 [H2 H3]]]. repeat split; auto using sc_mu_pos.
  unfold k_a, kep_in_units. cbn. now apply Rdiv_lt_0_compat.
Qed.
Lemma sc_peri k : valid_kep mu k -> peri_state mu' (kep_in_units l k) = in_units l t (peri_state mu k).
Proof.
  intros H. pose proof (peri_p_pos mu k H) as Hp. pose proof sc_a as Pa. pose proof sc_b as Pb.
  assert (E1 : peri_r mu' (kep_in_units l k) = a * peri_r mu k).
  { unfold peri_r. unfold kep_in_units, k_a, k_e, k_nu. cbn. rewrite sc_semi. destruct H as [? [? [? ?]]]. 
    unfold k_e, k_nu, k_a in *. field. lra. }
  assert (E2 : peri_s mu' (kep_in_units l k) = b * peri_s mu k).
  { unfold peri_s. unfold kep_in_units, k_a, k_e in *. cbn. rewrite sc_semi, sc_mu.
    replace (mu * a * b * b / (semi_latus (s0 k) (s1 k) * a)) with (b * b * (mu / semi_latus (s0 k) (s1 k)))
      by (field; split; lra).
    rewrite sqrt_mult; [|nra|apply Rlt_le, Rdiv_lt_0_compat; auto]. now rewrite sqrt_square by lra. }
  assert (EP : P_axis (kep_in_units l k) = P_axis k) by reflexivity.
  assert (EQ : Q_axis (kep_in_units l k) = Q_axis k) by reflexivity.
  unfold peri_state. rewrite E1, E2, EP, EQ.
  unfold in_units. cbn [s0 s1 s2 s3 s4 s5].
  change (k_nu (kep_in_units l k)) with (k_nu k). change (k_e (kep_in_units l k)) with (k_e k).
  unfold a, b. f_equal; vunf; field; lra.
Qed.

Variable x : six R.
Hypothesis Hh : ang_mom x <> (0,0,0).
Let x' := in_units l t x.
Lemma sc_ab : 0 < a * b. Proof. pose proof sc_a. pose proof sc_b. nra. Qed.
Lemma sc_h_nz : ang_mom x' <> (0,0,0).
Proof.
  apply norm_pos_iff. unfold x'. rewrite sc_h, norm_scal by apply sc_ab.
  apply Rmult_lt_0_compat; [apply sc_ab|]. now apply norm_pos_iff.
Qed.
Lemma sc_ecc : ecc_vec mu' x' = ecc_vec mu x.
Proof.
  pose proof sc_a. pose proof sc_b. pose proof (rn_pos x Hh). unfold ecc_vec, x'.
  rewrite sc_h, sc_pos, sc_vel, norm_scal by apply sc_a. rewrite sc_mu.
  apply vec_eq; vunf; field; repeat split; lra.
Qed.
Lemma sc_Ri : R_i x' = R_i x.
Proof.
  unfold R_i, x'. rewrite sc_h, norm_scal by apply sc_ab. pose proof sc_ab. pose proof (hn_pos x Hh).
  f_equal. change (vz (scal3 (a * b) (ang_mom x))) with (a * b * vz (ang_mom x)). field.
  pose proof sc_a. pose proof sc_b. repeat split; lra.
Qed.
Lemma sc_eg : R_eg mu' x' = R_eg mu x.
Proof. unfold R_eg. now rewrite sc_ecc. Qed.
Lemma sc_ig : R_ig x' = R_ig x.
Proof. unfold R_ig. now rewrite sc_Ri. Qed.
Lemma sc_node : nodev x' = scal3 (a * b) (nodev x).
Proof. unfold nodev, x'. rewrite sc_h. apply vec_eq; vunf; ring. Qed.
Lemma Rltb_scale k u : 0 < k -> Rltb (k * u) 0 = Rltb u 0.
Proof. intros. destruct (Rltb_spec u 0), (Rltb_spec (k * u) 0); auto; nra. Qed.
Lemma Rleb_scale k u : 0 < k -> Rleb 0 (k * u) = Rleb 0 u.
Proof. intros. destruct (Rleb_spec 0 u), (Rleb_spec 0 (k * u)); auto; nra. Qed.
Lemma sc_Om : R_Om x' = R_Om x.
Proof.
  unfold R_Om. rewrite sc_ig. destruct (R_ig x) eqn:I; auto. pose proof (node_pos x Hh I) as Hn.
  rewrite sc_node, norm_scal by apply sc_ab.
  change (vy (scal3 (a * b) (nodev x))) with (a * b * vy (nodev x)).
  change (vx (scal3 (a * b) (nodev x))) with (a * b * vx (nodev x)).
  rewrite Rltb_scale by apply sc_ab. do 2 f_equal. pose proof sc_a. pose proof sc_b. field. repeat split; lra.
Qed.
Lemma sc_om : R_om mu' x' = R_om mu x.
Proof.
  unfold R_om. rewrite sc_ig, sc_eg, sc_ecc, sc_Ri. destruct (R_eg mu x) eqn:G; auto.
  destruct (R_ig x) eqn:I; auto. pose proof (node_pos x Hh I) as Hn.
  assert (He : 0 < norm (ecc_vec mu x)).
  { unfold R_eg in G. destruct (Rltb_spec elimR (norm (ecc_vec mu x))); [|discriminate]. unfold elimR in *. lra. }
  rewrite sc_node, norm_scal by apply sc_ab. rewrite dot_scal_l.
  do 3 f_equal. pose proof sc_a. pose proof sc_b. field. repeat split; lra.
Qed.
Lemma sc_nu : R_nu mu' x' = R_nu mu x.
Proof.
  unfold R_nu. rewrite sc_ig, sc_eg, sc_ecc, sc_Ri. pose proof sc_a as Pa. pose proof sc_b as Pb.
  pose proof (rn_pos x Hh) as Hr.
  assert (E1 : pos x' = scal3 a (pos x)) by apply sc_pos. assert (E2 : vel x' = scal3 b (vel x)) by apply sc_vel.
  rewrite E1, E2. rewrite (norm_scal a) by auto.
  change (vx (scal3 a (pos x))) with (a * vx (pos x)).
  change (vy (scal3 a (pos x))) with (a * vy (pos x)).
  change (vz (scal3 a (pos x))) with (a * vz (pos x)).
  rewrite !dot_scal_l, !dot_scal_r.
  destruct (R_eg mu x) eqn:G.
  - assert (He : 0 < norm (ecc_vec mu x)).
    { unfold R_eg in G. destruct (Rltb_spec elimR (norm (ecc_vec mu x))); [|discriminate]. unfold elimR in *. lra. }
    replace (a * (b * dot (pos x) (vel x)) / (a * norm (pos x))) with (b * (dot (pos x) (vel x) / norm (pos x)))
      by (field; split; lra).
    rewrite Rltb_scale by auto. do 3 f_equal. field. repeat split; lra.
  - destruct (R_ig x) eqn:I.
    + pose proof (node_pos x Hh I) as Hn. rewrite Rltb_scale by auto.
      rewrite sc_node, norm_scal, dot_scal_l by apply sc_ab. do 3 f_equal. field. repeat split; lra.
    + rewrite Rltb_scale, Rleb_scale by auto.
      replace (a * vx (pos x) / (a * norm (pos x))) with (vx (pos x) / norm (pos x)) by (field; split; lra).
      reflexivity.
Qed.
Lemma sc_energy : energy mu' x' = b * b * energy mu x.
Proof.
  unfold energy. assert (E1 : pos x' = scal3 a (pos x)) by apply sc_pos.
  assert (E2 : vel x' = scal3 b (vel x)) by apply sc_vel. rewrite E1, E2, norm_scal, dot_scal_l, dot_scal_r by apply sc_a.
  pose proof (rn_pos x Hh). pose proof sc_a. rewrite sc_mu. field. split; lra.
Qed.
Lemma sc_Ra : R_a mu' x' = div (R_a mu x) (Fin l).
Proof.
  unfold R_a. rewrite sc_energy, sc_ecc. pose proof sc_a as Pa. pose proof sc_b as Pb.
  cbn [num_div div NP_num].
  destruct (Req_EM_T (2 * energy mu x) 0) as [E|E].
  - destruct (Req_EM_T (2 * (b * b * energy mu x)) 0) as [E'|E']; [|exfalso; apply E'; nra].
    pose proof sc_mu_pos. unfold num_sign. repeat destruct (Rlt_dec _ _); try lra.
    destruct (Rleb 1 _); cbn; destruct (Rlt_dec l 0); try lra; reflexivity.
  - assert (E' : 2 * (b * b * energy mu x) <> 0).
    { intros Z. assert (b * b * (2 * energy mu x) = 0) by lra. apply Rmult_integral in H. destruct H; [nra|contradiction]. }
    destruct (Req_EM_T (2 * (b * b * energy mu x)) 0); [contradiction|].
    assert (Ev : - mu' / (2 * (b * b * energy mu x)) = - mu / (2 * energy mu x) / l).
    { rewrite sc_mu. unfold a. field. repeat split; lra. }
    rewrite Ev. destruct (Rleb 1 _); cbn; destruct (Req_EM_T l 0); try lra; f_equal. field. split; lra.
Qed.
End Scale.

(** The conversions commute with the change of units. *)
Theorem C37_conversions : forall l t mu, 0 < l -> 0 < t -> 0 < mu ->
  let mu' := mu * (t * t) / (l * l * l) in
  (forall k x, valid_kep mu k -> state_of mu k x -> state_of mu' (kep_in_units l k) (in_units l t x))
  /\ (forall x a e i om Om nu, ang_mom x <> (0,0,0) -> elements_of mu x (mk6 a e i om Om nu) ->
        elements_of mu' (in_units l t x) (mk6 (div a (Fin l)) e i om Om nu)).
Proof.
  intros l t mu Hl Ht Hm mu'. split.
  - intros k x V S. rewrite (state_of_inv mu k x V S). unfold mu'. rewrite <- sc_peri by auto.
    apply state_of_peri. now apply sc_valid.
  - intros x a e i om Om nu Hh S.
    pose proof (elements_of_col mu x) as E1. rewrite (c2k_real mu x Hm Hh) in E1.
    pose proof (elements_of_col mu' (in_units l t x)) as E2.
    rewrite (c2k_real mu' (in_units l t x)) in E2;
      [|now apply sc_mu_pos|now apply sc_h_nz].
    pose proof (elements_of_fun _ _ _ _ S E1) as Q. injection Q as -> -> -> -> -> ->.
    unfold mu' in *. rewrite sc_Ra, sc_ecc, sc_Ri, sc_om, sc_Om, sc_nu in E2; auto.
Qed.
Theorem C37_period_speed : forall l t mu a r, 0 < l -> 0 < t -> 0 < mu -> 0 < r ->
  let mu' := mu * (t * t) / (l * l * l) in
  (0 < a -> exists P, orbital_period (Fin a) (Fin mu) = Fin P /\ orbital_period (Fin (a / l)) (Fin mu') = Fin (P / t))
  /\ (a <> 0 -> forall v, orbital_speed (Fin r) (Fin a) (Fin mu) = Fin v ->
        orbital_speed (Fin (r / l)) (Fin (a / l)) (Fin mu') = Fin (v * t / l)).
Proof.
  intros l t mu a r Hl Ht Hm Hr mu'.
  assert (Hm' : 0 < mu') by (now apply sc_mu_pos).
  split.
  - intros Ha. exists (2 * PI * sqrt (a * a * a / mu)). unfold orbital_period. num.
    assert (0 < a * a * a) by (apply Rmult_lt_0_compat; nra).
    assert (Q : 0 < a * a * a / mu) by (apply Rdiv_lt_0_compat; auto).
    rewrite !Fin_div by lra. rewrite Fin_sqrt by lra. num. split; auto.
    assert (E : a / l * (a / l) * (a / l) / mu' = a * a * a / mu * (/ t * / t)).
    { unfold mu'. field. repeat split; lra. }
    assert (0 < / t) by (now apply Rinv_0_lt_compat).
    rewrite E, Fin_sqrt by nra. num. f_equal. rewrite sqrt_mult by nra. rewrite sqrt_square by lra. field. lra.
  - intros Ha v. unfold orbital_speed. num.
    assert (Na : a / l <> 0) by (intros Z; apply Ha; replace a with (a / l * l) by (field; lra); rewrite Z; ring).
    assert (Nr : r / l <> 0) by (apply Rgt_not_eq, Rdiv_lt_0_compat; lra).
    assert (Nr' : r <> 0) by lra.
    rewrite !Fin_div by assumption. num.
    assert (E : mu' * (2 / (r / l) - 1 / (a / l)) = mu * (2 / r - 1 / a) * (t / l * (t / l))).
    { unfold mu'. field. repeat split; lra. }
    assert (B : 0 < t / l) by (now apply Rdiv_lt_0_compat).
    rewrite E. set (w := mu * (2 / r - 1 / a)). cbn [nsqrt NP_num num_sqrt].
    destruct (Rlt_dec w 0); [discriminate|]. intros X. injection X as <-.
    assert (0 <= w * (t / l * (t / l))) by (apply Rmult_le_pos; nra).
    destruct (Rlt_dec (w * (t / l * (t / l))) 0); [lra|]. f_equal.
    rewrite sqrt_mult by nra. rewrite sqrt_square by lra. field. lra.
Qed.
(** [mu'] is what the library's own G gives: with [get_G] for units of [l] metres, [m]
    kilograms and [t] seconds, the gravitational parameter of a body of [M] kilograms. *)
Theorem C37_get_G : forall L Ma T l m t M,
  unit_is [] length_table L (Fin l) -> unit_is mass_seps mass_table Ma (Fin m) -> unit_is [] time_table T (Fin t) ->
  0 < l -> 0 < m -> 0 < t ->
  exists G', get_G L Ma T = Ok (Fin G')
    /\ G' * (M / m) = (6.6743e-11 * M) * (t * t) / (l * l * l).
Proof.
  intros L Ma T l m t M HL HM HT Pl Pm Pt. eexists. split; [apply C36_values; eauto; lra|].
  field. split; lra.
Qed.
(** kilometres and hours *)
Example C37_example : unit_is [] length_table (UStr "KM"%string) (Fin 1000) /\ unit_is [] time_table (UStr "h"%string) (Fin 3600)
  /\ ang_mom (mk6 1000 0 0 0 2 0) <> (0,0,0)
  /\ in_units 1000 3600 (mk6 1000 0 0 0 2 0) = mk6 1 0 0 0 7.2 0.
Proof.
  repeat split.
  - apply (proj1 (C36_length (UStr "KM"%string))). transitivity (Ok (lit (F := num) 1e3)); [reflexivity|].
    f_equal. unfold lit, NP_num. f_equal. unfold Q2R. cbn. lra.
  - apply (proj1 (C36_time (UStr "h"%string))). transitivity (Ok (lit (F := num) 3600)); [reflexivity|].
    f_equal. unfold lit, NP_num. f_equal. unfold Q2R. cbn. lra.
  - unfold ang_mom. vunf. intros E. injection E. lra.
  - unfold in_units. cbn. f_equal; lra.
Qed.
