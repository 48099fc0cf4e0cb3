(** * Anomaly conversions over the reals: C15, C16, C17, C21 *)
From Coq Require Import Reals QArith Qreals ZArith Lra Lia Bool List.
From Coquelicot Require Import Coquelicot.
From Verif Require Import NP NPReal Spec RealBase KeplerModel AnomReal.
Local Open Scope R_scope.

(** ** C15 *)
(** results lie in [0,2pi), satisfy the anomaly relation, and undo each other *)
Theorem C15_ellipse : forall e, 0 <= e < 1 ->
  (forall nu, exists E, t2e nu e (Fin E) /\ in_circle E /\ anomalies_ell e nu E)
  /\ (forall E, exists nu, e2t E e (Fin nu) /\ in_circle nu /\ anomalies_ell e nu E)
  /\ (forall nu E, in_circle nu -> t2e nu e (Fin E) -> e2t E e (Fin nu))
  /\ (forall nu E, in_circle E -> e2t E e (Fin nu) -> t2e nu e (Fin E)).
Proof.
  intros e He.
  assert (A : forall nu, exists E, t2e nu e (Fin E) /\ in_circle E /\ anomalies_ell e nu E).
  { intros nu. destruct (t2e_eli_real e He nu) as [E0 [H1 [_ H3]]].
    destruct (wrap_fin E0) as [E [W1 [W2 W3]]]. exists E.
    pose proof (t2e_is nu e) as T. rewrite by_cases_ell, H1, W1 in T by lra. split; auto. split; auto.
    exact (ell_compat e nu nu E0 E (cong_refl _) (cong_sym _ _ W3) H3). }
  assert (B : forall E, exists nu, e2t E e (Fin nu) /\ in_circle nu /\ anomalies_ell e nu E).
  { intros E. destruct (e2t_eli_real e He E) as [nu0 [H1 [_ H3]]].
    destruct (wrap_fin nu0) as [nu [W1 [W2 W3]]]. exists nu.
    pose proof (e2t_is E e) as T. rewrite by_cases_ell, H1, W1 in T by lra. split; auto. split; auto.
    exact (ell_compat e nu0 nu E E (cong_sym _ _ W3) (cong_refl _) H3). }
  repeat split; auto.
  - intros nu E Hn T. destruct (A nu) as [E1 [T1 [C1 R1]]].
    pose proof (t2e_fun _ _ _ _ T T1) as X. injection X as ->.
    destruct (B E1) as [nu1 [T2 [C2 R2]]].
    rewrite (in_circle_unique nu nu1); auto. eapply ell_cong_l; eauto.
  - intros nu E Hn T. destruct (B E) as [nu1 [T1 [C1 R1]]].
    pose proof (e2t_fun _ _ _ _ T T1) as X. injection X as ->.
    destruct (A nu1) as [E1 [T2 [C2 R2]]].
    rewrite (in_circle_unique E E1); auto. eapply ell_cong_r; eauto.
Qed.
(** e = 1/2, E = pi/2 *)
Example C15_example : exists nu, e2t (PI/2) (1/2) (Fin nu) /\ t2e nu (1/2) (Fin (PI/2)) /\ cos nu = - (1/2).
Proof.
  pose proof PI_RGT_0. destruct (C15_ellipse (1/2)) as [_ [B [_ D]]]; [lra|].
  destruct (B (PI/2)) as [nu [T [C [R _]]]]. exists nu. repeat split; auto.
  - apply D; auto. split; lra.
  - rewrite R, cos_PI2. lra.
Qed.

(** ** C16 *)
Section Hyp.
Variable e : R.
Hypothesis He : 1 < e.
Let w := sqrt (e * e - 1).
Lemma hyp_w : w * w = e * e - 1 /\ 0 < w.
Proof. unfold w. assert (0 < e * e - 1) by nra. split; [apply sqrt_sqrt; lra|now apply sqrt_lt_R0]. Qed.
Lemma hyp_den E : 0 < e * cosh E - 1.
Proof. pose proof (cosh_ge_1 E). nra. Qed.
Lemma hyp_ratio : 0 < (e - 1) / (e + 1) /\ 0 < (e + 1) / (e - 1).
Proof. split; apply Rdiv_lt_0_compat; lra. Qed.
Lemma hyp_sqrt1 : sqrt ((e - 1) / (e + 1)) = w / (e + 1).
Proof.
  destruct hyp_w as [W1 W2]. apply sqrt_lem_1; [apply Rlt_le, hyp_ratio|apply Rlt_le, Rdiv_lt_0_compat; lra|].
  replace (w / (e + 1) * (w / (e + 1))) with (w * w / ((e + 1) * (e + 1))) by (field; lra).
  rewrite W1. field. lra.
Qed.
Lemma hyp_sqrt2 : sqrt ((e + 1) / (e - 1)) = w / (e - 1).
Proof.
  destruct hyp_w as [W1 W2]. apply sqrt_lem_1; [apply Rlt_le, hyp_ratio|apply Rlt_le, Rdiv_lt_0_compat; lra|].
  replace (w / (e - 1) * (w / (e - 1))) with (w * w / ((e - 1) * (e - 1))) by (field; lra).
  rewrite W1. field. lra.
Qed.
(** tan of half the true anomaly determines both *)
Lemma hyp_rel nu E : cos (nu / 2) <> 0 -> w * tan (nu / 2) = (e + 1) * tanh (E / 2) -> anomalies_hyp e nu E.
Proof.
  intros Hc Ht. destruct hyp_w as [W1 W2]. pose proof (hyp_den E) as D.
  destruct (cos_sin_half nu) as [C1 [C2 C3]]. cbv zeta in *.
  set (c := cos (nu / 2)) in *. set (s := sin (nu / 2)) in *.
  assert (X1 : cosh E = cosh (E / 2) * cosh (E / 2) + sinh (E / 2) * sinh (E / 2)) by (rewrite <- cosh_2; f_equal; field).
  assert (X2 : sinh E = 2 * sinh (E / 2) * cosh (E / 2)) by (rewrite <- sinh_2; f_equal; field).
  pose proof (cosh_sq (E / 2)) as X3. pose proof (cosh_pos (E / 2)) as X4.
  unfold anomalies_hyp. fold w. rewrite X1, X2 in *.
  set (C := cosh (E / 2)) in *. set (S := sinh (E / 2)) in *.
  assert (K : w * s * C = (e + 1) * S * c).
  { unfold tan, tanh in Ht. fold c s C S in Ht.
    apply (f_equal (fun x => x * (c * C))) in Ht.
    replace (w * (s / c) * (c * C)) with (w * s * C) in Ht by (field; auto).
    replace ((e + 1) * (S / C) * (c * C)) with ((e + 1) * S * c) in Ht by (field; lra). exact Ht. }
  clearbody c s C S w. clear Ht X1 X2. 
  assert (K3 : (e - 1) * (s * s) * (C * C) = (e + 1) * (S * S) * (c * c)).
  { apply (Rmult_eq_reg_l (e + 1)); [|lra].
    replace ((e + 1) * ((e - 1) * (s * s) * (C * C))) with (w * w * (s * s) * (C * C)) by (rewrite W1; ring).
    replace (w * w * (s * s) * (C * C)) with ((w * s * C) * (w * s * C)) by ring. rewrite K. ring. }
  set (D' := e * (C * C + S * S) - 1) in *.
  assert (C4 : C * C = 1 + S * S) by lra. assert (S4 : s * s = 1 - c * c) by lra.
  assert (K4 : c * c * D' = (e - 1) * (C * C)) by (unfold D'; rewrite C4 in *; rewrite S4 in *; nra).
  split; apply (Rmult_eq_reg_r D'); try lra;
    (unfold Rdiv; rewrite Rmult_assoc, Rinv_l, Rmult_1_r by lra).
  - rewrite C2, Rmult_minus_distr_r, S4, Rmult_minus_distr_r, K4. unfold D'. rewrite C4. ring.
  - rewrite C3. apply (Rmult_eq_reg_r (c * (e + 1))); [|apply Rmult_integral_contrapositive_currified; lra].
    replace (2 * s * c * D' * (c * (e + 1))) with (2 * s * (e + 1) * (c * c * D')) by ring. rewrite K4.
    replace (w * (2 * S * C) * (c * (e + 1))) with (2 * w * C * ((e + 1) * S * c)) by ring. rewrite <- K.
    replace (2 * w * C * (w * s * C)) with (2 * (w * w) * s * (C * C)) by ring. rewrite W1. ring.
Qed.
Lemma hyp_inv nu E : anomalies_hyp e nu E -> 0 < 1 + e * cos nu /\
  cosh E = (e + cos nu) / (1 + e * cos nu) /\ w * sinh E * (1 + e * cos nu) = (e * e - 1) * sin nu.
Proof.
  intros [H1 H2]. destruct hyp_w as [W1 W2]. pose proof (hyp_den E) as D. fold w in H2.
  assert (X : 1 + e * cos nu = w * w / (e * cosh E - 1)) by (rewrite H1, W1; field; lra).
  assert (0 < w * w) by nra.
  assert (P : 0 < 1 + e * cos nu) by (rewrite X; apply Rdiv_lt_0_compat; lra).
  split; [exact P|]. split.
  - rewrite X, H1, W1. field. repeat split; try lra; rewrite <- W1; lra.
  - rewrite X, H2, <- W1. field. lra.
Qed.
Lemma t2e_hyp_real nu : 0 < 1 + e * cos nu ->
  exists E, t2e_hyp (Fin nu) (Fin e) = Fin E /\ anomalies_hyp e nu E
  /\ w * tan (nu / 2) = (e + 1) * tanh (E / 2).
Proof.
  intros Hn. destruct hyp_w as [W1 W2].
  destruct (cos_sin_half nu) as [C1 [C2 C3]]. cbv zeta in *.
  assert (Hc : cos (nu / 2) <> 0).
  { intros Ec. rewrite Ec in *. assert (sin (nu/2) * sin (nu/2) = 1) by lra. nra. }
  unfold t2e_hyp. num. rewrite Fin_div by lra. rewrite Fin_sqrt by (apply Rlt_le, hyp_ratio).
  rewrite hyp_sqrt1. change (nu * / 2) with (nu / 2). rewrite Fin_tan by auto. rewrite Fin_mul.
  assert (B : -1 < w / (e + 1) * tan (nu / 2) < 1).
  { unfold tan. set (c := cos (nu / 2)) in *. set (s := sin (nu / 2)) in *.
    assert (w / (e + 1) * (s / c) * (w / (e + 1) * (s / c)) < 1); [|split; nra].
    replace (w / (e + 1) * (s / c) * (w / (e + 1) * (s / c))) with (w * w * (s * s) / ((e + 1) * (e + 1) * (c * c))) by (field; lra).
    rewrite W1. replace ((e * e - 1) * (s * s) / ((e + 1) * (e + 1) * (c * c))) with ((e - 1) * (s * s) / ((e + 1) * (c * c))) by (field; lra).
    assert (0 < c * c) by nra. assert (0 < (e + 1) * (c * c)) by nra.
    apply Rmult_lt_reg_r with ((e + 1) * (c * c)); auto. unfold Rdiv. rewrite Rmult_assoc, Rinv_l by lra. nra. }
  rewrite Fin_atanh by auto. num. exists (2 * Ratanh (w / (e + 1) * tan (nu / 2))). split; [reflexivity|].
  assert (X : w * tan (nu / 2) = (e + 1) * tanh (2 * Ratanh (w / (e + 1) * tan (nu / 2)) / 2)).
  { match goal with |- context [tanh ?z] => replace z with (Ratanh (w / (e + 1) * tan (nu / 2))) by field end.
    rewrite tanh_Ratanh by auto. field. lra. }
  split; [|exact X]. now apply hyp_rel.
Qed.
Lemma e2t_hyp_real E :
  exists nu, e2t_hyp (Fin E) (Fin e) = Fin nu /\ anomalies_hyp e nu E /\ - PI < nu < PI /\
   (e - 1) * tan (nu / 2) = w * tanh (E / 2) /\ (0 <= E -> 0 <= nu).
Proof.
  destruct hyp_w as [W1 W2]. unfold e2t_hyp. num. rewrite Fin_div by lra. rewrite Fin_sqrt by (apply Rlt_le, hyp_ratio).
  rewrite hyp_sqrt2. change (E * / 2) with (E / 2). num.
  set (t := w / (e - 1) * tanh (E / 2)). exists (2 * atan t). split; [reflexivity|].
  pose proof (atan_bound t) as B.
  assert (T : tan (2 * atan t / 2) = t) by (replace (2 * atan t / 2) with (atan t) by field; apply tan_atan).
  assert (X : (e - 1) * tan (2 * atan t / 2) = w * tanh (E / 2)) by (rewrite T; unfold t; field; lra).
  split; [|split; [lra|split; [exact X|]]].
  - apply hyp_rel.
    + assert (0 < cos (2 * atan t / 2)); [apply cos_gt_0; lra|lra].
    + rewrite T. unfold t. replace (w * (w / (e - 1) * tanh (E / 2))) with (w * w / (e - 1) * tanh (E / 2)) by (field; lra).
      rewrite W1. field. lra.
  - intros P. assert (Ht : 0 <= t).
    { unfold t. apply Rmult_le_pos; [apply Rlt_le, Rdiv_lt_0_compat; lra|apply tanh_nonneg; lra]. }
    assert (0 <= atan t); [|lra]. destruct Ht as [Ht| <-]; [|rewrite atan_0; lra].
    pose proof (atan_increasing 0 t Ht) as Y. rewrite atan_0 in Y. lra.
Qed.
End Hyp.

Lemma sinh_inj x y : sinh x = sinh y -> x = y.
Proof.
  intros H. destruct (Rtotal_order x y) as [L|[L|L]]; auto; exfalso.
  - pose proof (sinh_lt _ _ L). lra.
  - pose proof (sinh_lt _ _ L). lra.
Qed.
Lemma hyp_unique e nu E E' : 1 < e -> anomalies_hyp e nu E -> anomalies_hyp e nu E' -> E = E'.
Proof.
  intros He H1 H2. destruct (hyp_inv e He nu E H1) as [P [_ A]]. destruct (hyp_inv e He nu E' H2) as [_ [_ B]].
  destruct (hyp_w e He) as [_ W]. apply sinh_inj.
  apply (Rmult_eq_reg_l (sqrt (e * e - 1) * (1 + e * cos nu))); nra.
Qed.
Lemma wrap_id x : in_circle x -> wrap2pi (Fin x) = Fin x.
Proof.
  intros H. destruct (wrap_fin x) as [y [-> [A B]]]. f_equal. now apply in_circle_unique.
Qed.
Lemma hyp_compat e nu nu' E : cong2pi nu nu' -> anomalies_hyp e nu E -> anomalies_hyp e nu' E.
Proof. intros C. unfold anomalies_hyp. rewrite (cong_cos _ _ C), (cong_sin _ _ C). auto. Qed.

(** What holds for hyperbolas: eccentric_to_true is right for every E; true_to_eccentric is right
    modulo 2pi only, so it undoes eccentric_to_true for 0 <= E < 2pi (missing: E < 0, the incoming
    leg, and E >= 2pi; both are refuted below). *)
Theorem C16_hyperbola_partial : forall e, 1 < e ->
  (forall E, exists nu, e2t E e (Fin nu) /\ in_circle nu /\ anomalies_hyp e nu E)
  /\ (forall nu, 0 < 1 + e * cos nu -> exists E E', anomalies_hyp e nu E /\ in_circle E' /\ cong2pi E' E
        /\ t2e nu e (Fin E'))
  /\ (forall E nu, in_circle E -> e2t E e (Fin nu) -> t2e nu e (Fin E))
  /\ (forall nu E, in_circle nu -> anomalies_hyp e nu E -> in_circle E ->
        t2e nu e (Fin E) /\ e2t E e (Fin nu)).
Proof.
  intros e He.
  assert (A : forall E, exists nu, e2t E e (Fin nu) /\ in_circle nu /\ anomalies_hyp e nu E).
  { intros E. destruct (e2t_hyp_real e He E) as [nu0 [H1 [H2 _]]].
    destruct (wrap_fin nu0) as [nu [W1 [W2 W3]]]. exists nu.
    pose proof (e2t_is E e) as T. rewrite by_cases_hyp, H1, W1 in T by lra. split; auto. split; auto.
    exact (hyp_compat _ _ _ _ (cong_sym _ _ W3) H2). }
  assert (B : forall nu, 0 < 1 + e * cos nu -> exists E E', anomalies_hyp e nu E /\ in_circle E' /\ cong2pi E' E
        /\ t2e nu e (Fin E')).
  { intros nu Hn. destruct (t2e_hyp_real e He nu Hn) as [E [H1 [H2 _]]].
    destruct (wrap_fin E) as [E' [W1 [W2 W3]]]. exists E, E'.
    pose proof (t2e_is nu e) as T. rewrite by_cases_hyp, H1, W1 in T by lra. auto. }
  assert (D : forall E nu, in_circle E -> anomalies_hyp e nu E -> t2e nu e (Fin E)).
  { intros E nu Hc R. destruct (hyp_inv e He _ _ R) as [P _].
    destruct (B nu P) as [E1 [E' [R1 [C1 [C2 T1]]]]].
    rewrite (hyp_unique _ _ _ _ He R R1) in *. now rewrite <- (in_circle_unique E' E1). }
  split; [exact A|]. split; [exact B|]. split.
  - intros E nu Hc T. destruct (A E) as [nu1 [T1 [_ R1]]].
    pose proof (e2t_fun _ _ _ _ T T1) as X. injection X as ->. now apply D.
  - intros nu E Hn R Hc. split; [now apply D|]. destruct (A E) as [nu1 [T1 [C1 R1]]].
    assert (nu = nu1) as ->; [|exact T1]. apply in_circle_unique; auto.
    destruct R as [R2 R3], R1 as [R4 R5]. apply cos_sin_cong; congruence.
Qed.
(** The incoming leg is never recovered. *)
Theorem C16_hyperbola_refuted : forall e nu, 1 < e -> - PI < nu < 0 -> 0 < 1 + e * cos nu ->
  exists E nu', t2e nu e (Fin E) /\ e2t E e (Fin nu') /\ ~ cong2pi nu' nu.
Proof.
  intros e nu He Hn Hp. destruct (t2e_hyp_real e He nu Hp) as [E0 [H1 _]].
  destruct (wrap_fin E0) as [E [W1 [W2 W3]]].
  destruct (e2t_hyp_real e He E) as [nu' [K1 [K2 [K3 [K4 K5]]]]].
  assert (P : 0 <= nu') by (apply K5, W2). pose proof PI_RGT_0.
  exists E, nu'. repeat split.
  - pose proof (t2e_is nu e) as T. now rewrite by_cases_hyp, H1, W1 in T by lra.
  - pose proof (e2t_is E e) as T. rewrite by_cases_hyp, K1, wrap_id in T by (lra || split; lra). exact T.
  - intros C. assert (X : nu' = nu + 2 * PI).
    { apply in_circle_unique; try (split; lra). eapply cong_trans; [exact C|apply cong_sym, cong_2pi]. }
    lra.
Qed.
(** ... nor is an eccentric anomaly of 2pi or more. *)
Theorem C16_hyperbola_far_refuted : forall e E, 1 < e -> 2 * PI <= E ->
  exists nu E', e2t E e (Fin nu) /\ t2e nu e (Fin E') /\ E' < E.
Proof.
  intros e E He HE. destruct (C16_hyperbola_partial e He) as [A [B _]].
  destruct (A E) as [nu [T1 [_ R]]]. destruct (hyp_inv e He _ _ R) as [P _].
  destruct (B nu P) as [E1 [E' [_ [C [_ T2]]]]]. exists nu, E'. repeat split; auto. destruct C. lra.
Qed.
Example C16_hyperbola_example : exists nu, e2t 1 2 (Fin nu) /\ t2e nu 2 (Fin 1).
Proof.
  destruct (C16_hyperbola_partial 2) as [A [_ [C _]]]; [lra|]. destruct (A 1) as [nu [T _]]. exists nu. split; auto.
  apply C; auto. pose proof PI_RGT_0. pose proof PI2_3_2 as P3. unfold PI2 in P3. split; lra.
Qed.
Example C16_refuted_example : exists E nu', t2e (- (PI / 2)) 2 (Fin E) /\ e2t E 2 (Fin nu') /\ ~ cong2pi nu' (- (PI / 2)).
Proof. pose proof PI_RGT_0. apply C16_hyperbola_refuted; try lra. rewrite cos_neg, cos_PI2. lra. Qed.

(** Parabolas *)
Lemma par_unique nu E E' : anomalies_par nu E -> anomalies_par nu E' -> E = E'.
Proof.
  unfold anomalies_par. intros [H1 H2] [H3 H4].
  assert (P : 0 < 1 + E * E) by nra. assert (P' : 0 < 1 + E' * E') by nra.
  assert (X : 1 + cos nu = 2 / (1 + E * E)) by (rewrite H1; field; lra).
  assert (X' : 1 + cos nu = 2 / (1 + E' * E')) by (rewrite H3; field; lra).
  assert (Y : sin nu = E * (1 + cos nu)) by (rewrite X, H2; field; lra).
  assert (Y' : sin nu = E' * (1 + cos nu)) by (rewrite X', H4; field; lra).
  assert (0 < 1 + cos nu) by (rewrite X; apply Rdiv_lt_0_compat; lra).
  apply (Rmult_eq_reg_r (1 + cos nu)); lra.
Qed.
Lemma par_tan nu : cos (nu / 2) <> 0 -> anomalies_par nu (tan (nu / 2)).
Proof.
  intros Hc. destruct (cos_sin_half nu) as [C1 [C2 C3]]. cbv zeta in *. unfold anomalies_par, tan.
  set (c := cos (nu / 2)) in *. set (s := sin (nu / 2)) in *.
  assert (X : 1 + s / c * (s / c) = 1 / (c * c)).
  { replace (1 + s / c * (s / c)) with ((c * c + s * s) / (c * c)) by (field; auto). now rewrite C1. }
  rewrite X, C2, C3. split; field; auto.
Qed.
Theorem C16_parabola_partial :
  (forall E, exists nu, e2t E 1 (Fin nu) /\ in_circle nu /\ anomalies_par nu E)
  /\ (forall nu, 0 < 1 + cos nu -> exists E E', anomalies_par nu E /\ in_circle E' /\ cong2pi E' E
        /\ t2e nu 1 (Fin E'))
  /\ (forall E nu, in_circle E -> e2t E 1 (Fin nu) -> t2e nu 1 (Fin E))
  /\ (forall nu E, in_circle nu -> anomalies_par nu E -> in_circle E ->
        t2e nu 1 (Fin E) /\ e2t E 1 (Fin nu)).
Proof.
  assert (A : forall E, exists nu, e2t E 1 (Fin nu) /\ in_circle nu /\ anomalies_par nu E).
  { intros E. destruct (wrap_fin (2 * atan E)) as [nu [W1 [W2 W3]]]. exists nu.
    pose proof (e2t_is E 1) as T. rewrite by_cases_par in T. unfold e2t_per in T. num in T. rewrite W1 in T.
    split; auto. split; auto. unfold anomalies_par. rewrite (cong_cos _ _ W3), (cong_sin _ _ W3), cos_2atan, sin_2atan.
    auto. }
  assert (B : forall nu, 0 < 1 + cos nu -> exists E E', anomalies_par nu E /\ in_circle E' /\ cong2pi E' E
        /\ t2e nu 1 (Fin E')).
  { intros nu Hn. assert (Hc : cos (nu / 2) <> 0).
    { intros Ec. destruct (cos_sin_half nu) as [C1 [C2 C3]]. cbv zeta in *. rewrite Ec in *. lra. }
    destruct (wrap_fin (tan (nu / 2))) as [E' [W1 [W2 W3]]]. exists (tan (nu / 2)), E'.
    pose proof (t2e_is nu 1) as T. rewrite by_cases_par in T. unfold t2e_per in T. num in T.
    change (nu * / 2) with (nu / 2) in T. rewrite Fin_tan, W1 in T by auto.
    split; [now apply par_tan|auto]. }
  assert (D : forall E nu, in_circle E -> anomalies_par nu E -> t2e nu 1 (Fin E)).
  { intros E nu Hc R. assert (P : 0 < 1 + cos nu).
    { destruct R as [R _]. rewrite R. assert (0 < 1 + E * E) by nra.
      replace (1 + (1 - E * E) / (1 + E * E)) with (2 / (1 + E * E)) by (field; lra). apply Rdiv_lt_0_compat; lra. }
    destruct (B nu P) as [E1 [E' [R1 [C1 [C2 T1]]]]].
    rewrite (par_unique _ _ _ R R1) in *. now rewrite <- (in_circle_unique E' E1). }
  split; [exact A|]. split; [exact B|]. split.
  - intros E nu Hc T. destruct (A E) as [nu1 [T1 [_ R1]]].
    pose proof (e2t_fun _ _ _ _ T T1) as X. injection X as ->. now apply D.
  - intros nu E Hn R Hc. split; [now apply D|]. destruct (A E) as [nu1 [T1 [C1 R1]]].
    assert (nu = nu1) as ->; [|exact T1]. apply in_circle_unique; auto.
    destruct R as [R2 R3], R1 as [R4 R5]. apply cos_sin_cong; congruence.
Qed.
Theorem C16_parabola_refuted : forall nu, - PI < nu < 0 ->
  exists E nu', t2e nu 1 (Fin E) /\ e2t E 1 (Fin nu') /\ ~ cong2pi nu' nu.
Proof.
  intros nu Hn. pose proof PI_RGT_0.
  assert (Hc : 0 < cos (nu / 2)) by (apply cos_gt_0; lra).
  destruct (wrap_fin (tan (nu / 2))) as [E [W1 [W2 W3]]].
  assert (P : 0 <= 2 * atan E < PI).
  { pose proof (atan_bnd E). split; [|lra]. destruct W2 as [[Q| <-] _]; [|rewrite atan_0; lra].
    pose proof (atan_increasing 0 E Q) as Y. rewrite atan_0 in Y. lra. }
  exists E, (2 * atan E). repeat split.
  - pose proof (t2e_is nu 1) as T. rewrite by_cases_par in T. unfold t2e_per in T. num in T.
    change (nu * / 2) with (nu / 2) in T. rewrite Fin_tan, W1 in T by lra. exact T.
  - pose proof (e2t_is E 1) as T. rewrite by_cases_par in T. unfold e2t_per in T. num in T.
    rewrite wrap_id in T by (split; lra). exact T.
  - intros C. assert (X : 2 * atan E = nu + 2 * PI).
    { apply in_circle_unique; try (split; lra). eapply cong_trans; [exact C|apply cong_sym, cong_2pi]. }
    lra.
Qed.
Example C16_parabola_example : exists nu, e2t 1 1 (Fin nu) /\ t2e nu 1 (Fin 1).
Proof.
  destruct C16_parabola_partial as [A [_ [C _]]]. destruct (A 1) as [nu [T _]]. exists nu. split; auto.
  apply C; auto. pose proof PI_RGT_0. pose proof PI2_3_2 as P3. unfold PI2 in P3. split; lra.
Qed.

(** ** C17 *)
Definition kepler_dM (e E : R) : R :=
  if Rlt_dec e 1 then 1 - e * cos E else if Rlt_dec 1 e then e * cosh E - 1 else 1 + E * E.
Lemma kepler_derive e E : is_derive (kepler_M e) E (kepler_dM e E).
Proof.
  unfold kepler_M, kepler_dM. destruct (Rlt_dec e 1); [|destruct (Rlt_dec 1 e)].
  - auto_derive; auto. ring.
  - unfold sinh, cosh. auto_derive; auto. field.
  - auto_derive; auto. field.
Qed.
Lemma kepler_dM_pos e E : 0 <= e -> 0 < kepler_dM e E.
Proof.
  intros He. unfold kepler_dM. destruct (Rlt_dec e 1); [|destruct (Rlt_dec 1 e)].
  - pose proof (COS_bound E). nra.
  - pose proof (cosh_ge_1 E). nra.
  - nra.
Qed.
Lemma kepler_incr e x y : 0 <= e -> x < y -> kepler_M e x < kepler_M e y.
Proof.
  intros He L. apply (incr_function (kepler_M e) m_infty p_infty (kepler_dM e)); try exact I; auto.
  - intros. apply kepler_derive.
  - intros. now apply kepler_dM_pos.
Qed.
Lemma kepler_cont e : Ranalysis1.continuity (kepler_M e).
Proof.
  intros x. apply continuity_pt_filterlim. apply (ex_derive_continuous (kepler_M e)).
  eexists. apply kepler_derive.
Qed.
Lemma sinh_ge x : 0 <= x -> x <= sinh x.
Proof.
  intros Hx. destruct (MVT_gen sinh 0 x cosh) as [c [_ E]].
  - intros. unfold sinh, cosh. auto_derive; auto. field.
  - intros. apply continuity_pt_filterlim. apply (ex_derive_continuous sinh).
    unfold sinh. auto_derive; auto.
  - rewrite sinh_0 in E. pose proof (cosh_ge_1 c). nra.
Qed.
Lemma kepler_odd e E : kepler_M e (- E) = - kepler_M e E.
Proof.
  unfold kepler_M. destruct (Rlt_dec e 1); [|destruct (Rlt_dec 1 e)].
  - rewrite sin_neg. ring.
  - rewrite sinh_opp. ring.
  - field.
Qed.
Lemma kepler_large e M : 0 <= e -> exists B, 0 <= B /\ Rabs M <= kepler_M e B.
Proof.
  intros He. pose proof (Rabs_pos M) as P. unfold kepler_M. destruct (Rlt_dec e 1); [|destruct (Rlt_dec 1 e)].
  - exists (Rabs M + 1). pose proof (SIN_bound (Rabs M + 1)). split; nra.
  - exists (Rabs M / (e - 1)). assert (Q : 0 <= Rabs M / (e - 1)).
    { unfold Rdiv. apply Rmult_le_pos; auto. left. apply Rinv_0_lt_compat. lra. }
    split; auto. pose proof (sinh_ge _ Q). 
    assert (Rabs M = (e - 1) * (Rabs M / (e - 1))) by (field; lra). nra.
  - exists (Rabs M). split; auto. assert (0 <= Rabs M * Rabs M * Rabs M) by (apply Rmult_le_pos; nra). lra.
Qed.
Lemma kepler_onto e M : 0 <= e -> exists E, kepler_M e E = M.
Proof.
  intros He. destruct (kepler_large e M He) as [B [B0 B1]].
  destruct (IVT_gen (kepler_M e) (- B) B M (kepler_cont e)) as [E [_ X]]; [|eauto].
  rewrite kepler_odd. destruct (Rabs_def2 M (Rabs M + 1)); [lra|].
  unfold Rmin, Rmax. pose proof (Rabs_pos M). pose proof (Rle_abs M). pose proof (Rle_abs (- M)) as Y. rewrite Rabs_Ropp in Y.
  destruct (Rle_dec (- kepler_M e B) (kepler_M e B)); lra.
Qed.
(** eccentric_to_mean evaluates the equation; it is strictly increasing and onto *)
Theorem C17_kepler_equation : forall e, 0 <= e ->
  (forall E, e2m E e (Fin (kepler_M e E)))
  /\ (forall E E' M M', e2m E e (Fin M) -> e2m E' e (Fin M') -> (E < E' <-> M < M'))
  /\ (forall M, exists! E, e2m E e (Fin M)).
Proof.
  intros e He.
  assert (A : forall E, e2m E e (Fin (kepler_M e E))).
  { intros E. pose proof (e2m_is E e) as T. unfold kepler_M. 
    destruct (Rlt_dec e 1); [|destruct (Rlt_dec 1 e)].
    - rewrite by_cases_ell in T by auto. unfold e2m_eli in T. num in T. exact T.
    - rewrite by_cases_hyp in T by auto. unfold e2m_hyp in T. num in T. exact T.
    - assert (e = 1) by lra. subst e. rewrite by_cases_par in T. unfold e2m_per in T. num in T.
      rewrite Fin_div in T by lra. num in T. exact T. }
  assert (V : forall E M, e2m E e (Fin M) -> M = kepler_M e E).
  { intros E M T. pose proof (e2m_fun _ _ _ _ T (A E)). congruence. }
  split; [exact A|]. split.
  - intros E E' M M' T T'. apply V in T, T'. subst. split; [now apply kepler_incr|].
    intros L. destruct (Rtotal_order E E') as [|[->|G]]; auto; [lra|].
    pose proof (kepler_incr e _ _ He G). lra.
  - intros M. destruct (kepler_onto e M He) as [E X]. exists E. split; [rewrite <- X; apply A|].
    intros E' T. apply V in T. destruct (Rtotal_order E E') as [L|[->|L]]; auto;
      pose proof (kepler_incr e _ _ He L); lra.
Qed.
Example C17_example : e2m (PI/2) (1/2) (Fin (PI/2 - 1/2)) /\ exists E, e2m E 3 (Fin (-7)).
Proof.
  split.
  - destruct (C17_kepler_equation (1/2)) as [A _]; [lra|]. specialize (A (PI/2)). unfold kepler_M in A.
    destruct (Rlt_dec (1/2) 1); [|lra]. rewrite sin_PI2, Rmult_1_r in A. exact A.
  - destruct (C17_kepler_equation 3) as [_ [_ C]]; [lra|]. destruct (C (-7)) as [E [T _]]. eauto.
Qed.

(** ** C21 *)
Lemma Rcbrt_cube x : 0 < x -> 0 < Rcbrt x /\ Rcbrt x * Rcbrt x * Rcbrt x = x.
Proof.
  intros H. unfold Rcbrt. destruct (Rlt_dec 0 x); [|lra]. split; [apply exp_pos|].
  rewrite <- !Rpower_plus. replace (1 / 3 + 1 / 3 + 1 / 3) with 1 by field. now apply Rpower_1.
Qed.
Theorem C21_parabola_exact : forall o M, exists E, m2e o M 1 (Fin E) /\ E + E * E * E / 3 = M.
Proof.
  intros o M. set (A := 3 / 2 * M). assert (P : 0 < A * A + 1) by nra.
  set (s := sqrt (A * A + 1)). assert (S1 : s * s = A * A + 1) by (apply sqrt_sqrt; lra).
  assert (S2 : 0 < s) by (now apply sqrt_lt_R0). assert (S3 : 0 < A + s) by nra.
  destruct (Rcbrt_cube _ S3) as [B1 B2]. set (B := Rcbrt (A + s)) in *.
  exists (B - 1 / B). split.
  - unfold m2e, mean_to_eccentric, in_rad, out_deg. cbn [broadcast rbind]. num.
    rewrite Reqb_false by lra. unfold m2e_el. num. rewrite Rltb_false, Reqb_true by lra.
    unfold parabolic_m2e. num. rewrite Fin_div by lra. num. fold A. rewrite Fin_sqrt by lra. fold s. num. fold B.
    rewrite Fin_div by lra. reflexivity.
  - assert (X : (B - 1 / B) + (B - 1 / B) * (B - 1 / B) * (B - 1 / B) / 3 = (B * B * B - 1 / (B * B * B)) / 3) by (field; lra).
    rewrite X, B2. assert (Y : 1 / (A + s) = s - A).
    { apply (Rmult_eq_reg_r (A + s)); [|lra]. unfold Rdiv. rewrite Rmult_assoc, Rinv_l by lra. lra. }
    rewrite Y. unfold A. field.
Qed.
(** in particular the exact inverse of eccentric_to_mean *)
Corollary C21_inverse : forall o E, m2e o (kepler_M 1 E) 1 (Fin E).
Proof.
  intros o E. destruct (C21_parabola_exact o (kepler_M 1 E)) as [E' [H X]].
  assert (E' = E) as <-; [|exact H].
  assert (Y : kepler_M 1 E' = kepler_M 1 E).
  { rewrite <- X. unfold kepler_M. destruct (Rlt_dec 1 1); [lra|reflexivity]. }
  assert (He : 0 <= 1) by lra. destruct (Rtotal_order E' E) as [L|[L|L]]; auto;
      pose proof (kepler_incr 1 _ _ He L); lra.
Qed.
Example C21_example : forall o, m2e o (-4/3) 1 (Fin (-1)).
Proof.
  intros o. pose proof (C21_inverse o (-1)) as H. unfold kepler_M in H. destruct (Rlt_dec 1 1); [lra|].
  replace (-1 + -1 * -1 * -1 / 3) with (-4/3) in H by field. exact H.
Qed.
