(** * C70: the Kepler solver on hyperbolic orbits *)
From Coq Require Import Reals QArith Qreals ZArith Lra Lia Bool List.
From Coquelicot Require Import Coquelicot.
From Verif Require Import NP NPReal Spec RealBase KeplerModel AnomReal PropsAnomaly PropsAnomalyR PropsSolver
  LagTrig LagReal HypTrig LagHyp PropsConverge.
Local Open Scope R_scope.

(** ** The code's step *)
Definition stepH (e M E : R) : R := E - step5 (e * cosh E - 1) (e * sinh E) (e * sinh E - E - M).
Lemma lag_next_hyp (o : solver_options num) M e E : 1 < e -> degree o = Fin 5 ->
  lag_next o M e (Fin E) = Fin (stepH e M E).
Proof.
  intros He Hn. unfold lag_next. rewrite lag_f_real by lra. unfold lag_step. rewrite Hn, lag_fp_real by lra.
  unfold lag_fpp. num. rewrite (Rltb_true 1 e) by lra. num. rewrite Fin_sqrt by apply Rabs_pos. num.
  unfold kepler_M, kepler_dM. destruct (Rlt_dec e 1); [lra|]. destruct (Rlt_dec 1 e); [|lra].
  match goal with |- context [sqrt (Rabs ?z)] =>
    replace z with (16 * (e * cosh E - 1) ^ 2 - 20 * (e * sinh E - E - M) * (e * sinh E)) by ring end.
  fold (root5 (e * cosh E - 1) (e * sinh E) (e * sinh E - E - M)).
  pose proof (root5_ge0 (e * cosh E - 1) (e * sinh E) (e * sinh E - E - M)) as S.
  set (s := root5 _ _ _) in *.
  assert (D : 0 < e * cosh E - 1) by (apply ah_pos; lra). set (d := e * cosh E - 1) in *.
  rewrite Rltb_false.
  2:{ rewrite (Rabs_left (- d - s)) by lra. apply Rabs_le. lra. }
  rewrite Fin_div by lra. num. f_equal. unfold stepH, step5. fold d s. field. lra.
Qed.
Lemma iter_next_hyp (o : solver_options num) M e E n : 1 < e -> degree o = Fin 5 ->
  Nat.iter n (lag_next o M e) (Fin E) = Fin (Nat.iter n (stepH e M) E).
Proof.
  intros He Hn. induction n as [|n IH]; [reflexivity|].
  change (lag_next o M e (Nat.iter n (lag_next o M e) (Fin E)) = Fin (stepH e M (Nat.iter n (stepH e M) E))).
  rewrite IH. now apply lag_next_hyp.
Qed.
Lemma stepH_next e y E : stepH e (e * sinh y - y) E = nexth e y E.
Proof. unfold stepH, nexth, gh. do 2 f_equal. ring. Qed.
Lemma lag_f_hyp M e E : 1 < e -> lag_f (Fin M) (Fin e) (Fin E) = Fin (M - (e * sinh E - E)).
Proof.
  intros He. rewrite lag_f_real by lra. unfold kepler_M. destruct (Rlt_dec e 1); [lra|]. destruct (Rlt_dec 1 e); [reflexivity|lra].
Qed.
Lemma hguess_real M e : 1 < e -> - (9 / 10) * e < M ->
  get_hyperbolic_kepler_guess (Fin M) (Fin e) = Fin (ln (2 * M / e + 9 / 5)).
Proof.
  intros He HM. unfold get_hyperbolic_kepler_guess. num. rewrite Fin_div by lra. num. rewrite Fin_log; [reflexivity|].
  apply Rmult_lt_reg_r with e; [lra|]. rewrite Rmult_0_l.
  replace ((2 * M / e + 9 / 5) * e) with (2 * M + 9 / 5 * e) by (field; lra). lra.
Qed.

(** ** The starting value *)
Lemma exp_sc x : exp x = sinh x + cosh x. Proof. unfold sinh, cosh. lra. Qed.
Lemma exp_3 x : 0 <= x -> 1 + x + x ^ 2 / 2 + x ^ 3 / 6 <= exp x.
Proof. intros X. rewrite exp_sc. pose proof (sh3 x X). pose proof (ch2 x X). lra. Qed.
Lemma exp_neg2 x : 0 <= x -> exp (- x) <= 1 - x + x ^ 2 / 2.
Proof.
  intros X. assert (L : forall t, 0 <= t -> 1 - t <= exp (- t)).
  { intros t T. pose proof (exp_ineq1_le (- t)). lra. }
  assert (A : 1 - 0 + 0 ^ 2 / 2 - exp (- 0) <= 1 - x + x ^ 2 / 2 - exp (- x)).
  { apply (mono (fun t => 1 - t + t ^ 2 / 2 - exp (- t)) (fun t => exp (- t) - 1 + t) 0 x X); intros t T; [der|].
    pose proof (L t ltac:(lra)). lra. }
  rewrite Ropp_0, exp_0 in A. lra.
Qed.
Lemma guess_above y : 2 * sinh y + 9 / 5 <= exp (y + 3 / 5).
Proof.
  rewrite exp_plus. pose proof (exp_3 (3 / 5) ltac:(lra)) as E. unfold sinh. rewrite exp_Ropp.
  pose proof (exp_pos y) as P. set (u := exp y) in *. clearbody u.
  assert (u * 1.81 <= u * exp (3 / 5)) by (apply Rmult_le_compat_l; lra).
  assert (0 <= (0.9 * u - 1) ^ 2) by apply pow2_ge_0.
  assert (I : u * / u = 1) by (apply Rinv_r; lra). assert (0 < / u) by (apply Rinv_0_lt_compat; lra).
  assert (2 * ((u - / u) / 2) + 9 / 5 <= u * 1.81); [|lra].
  apply (Rmult_le_reg_l u); auto. replace (u * (2 * ((u - / u) / 2) + 9 / 5)) with (u ^ 2 - u * / u + 9 / 5 * u) by (field; lra). rewrite I. lra.
Qed.
Lemma guess_below y : 0 <= y -> exp (y - 1 / 2) <= 2 * sinh y - 2 * y + 9 / 5.
Proof.
  intros Y. assert (H5 : 1.645 <= exp (1 / 2)) by (pose proof (exp_3 (1 / 2) ltac:(lra)); lra).
  unfold Rminus at 1. rewrite exp_plus, exp_Ropp.
  assert (/ exp (1 / 2) <= 0.61).
  { apply (Rmult_le_reg_l (exp (1 / 2))); [lra|]. rewrite Rinv_r by lra. lra. }
  assert (exp y * / exp (1 / 2) <= exp y * 0.61) by (apply Rmult_le_compat_l; [left; apply exp_pos|auto]).
  assert (F : 0 <= 0.39 * exp y - exp (- y) - 2 * y + 9 / 5); [|unfold sinh; lra].
  destruct (Rle_lt_dec y 1) as [L|L].
  - pose proof (exp_3 y Y). pose proof (exp_neg2 y Y). assert (0 <= y ^ 3) by (apply pow_le; lra). nra.
  - assert (N : exp (- y) <= 0.4).
    { assert (exp (- y) <= exp (Ropp 1)) by (left; apply exp_increasing; lra). pose proof (exp_3 1 ltac:(lra)).
      assert (exp (Ropp 1) <= / 2.5) by (rewrite exp_Ropp; apply Rinv_le_contravar; lra). lra. }
    destruct (Rle_lt_dec y 1.9) as [L2|L2].
    + pose proof (exp_ineq1_le (y - 3 / 2)) as I. 
      assert (E3 : 4.4 <= exp (3 / 2)).
      { replace (3 / 2) with (1 / 2 + (1 / 2 + 1 / 2)) by lra. rewrite !exp_plus.
        assert (2.7 <= exp (1 / 2) * exp (1 / 2)) by nra. set (q := exp (1 / 2) * exp (1 / 2)) in *. clearbody q. nra. }
      assert (exp y = exp (3 / 2) * exp (y - 3 / 2)) by (rewrite <- exp_plus; f_equal; ring).
      assert (4.4 * (y - 1 / 2) <= exp y) by nra. lra.
    + pose proof (exp_ineq1_le (y - 2)) as I.
      assert (E3 : 7.3 <= exp 2).
      { replace 2 with ((1 / 2 + 1 / 2) + (1 / 2 + 1 / 2)) by lra. rewrite !exp_plus.
        assert (2.706 <= exp (1 / 2) * exp (1 / 2)) by nra. set (q := exp (1 / 2) * exp (1 / 2)) in *. clearbody q. nra. }
      assert (exp y = exp 2 * exp (y - 2)) by (rewrite <- exp_plus; f_equal; ring).
      assert (7.3 * (y - 1) <= exp y) by nra. lra.
Qed.
Lemma hguess_state e y : 1 < e -> 0 <= y -> Sth e y (9 / 10) (ln (2 * (e * sinh y - y) / e + 9 / 5)).
Proof.
  intros He Hy. set (x := 2 * (e * sinh y - y) / e + 9 / 5).
  assert (X : x = 2 * sinh y - 2 * (y / e) + 9 / 5) by (unfold x; field; lra).
  assert (YE : 0 <= y / e <= y) by (split; [apply le_div; lra|apply div_le; nra]).
  pose proof (guess_above y) as GA. pose proof (guess_below y Hy) as GB. pose proof (sh1 y Hy) as S1.
  assert (X1 : 9 / 5 <= x) by (rewrite X; lra).
  assert (U : ln x <= y + 3 / 5).
  { rewrite <- (ln_exp (y + 3 / 5)). destruct (Rle_lt_or_eq_dec x (exp (y + 3 / 5)) ltac:(lra)) as [Z|Z]; [left; apply ln_increasing; lra|rewrite Z; lra]. }
  assert (V : y - 1 / 2 <= ln x).
  { rewrite <- (ln_exp (y - 1 / 2)). pose proof (exp_pos (y - 1 / 2)).
    destruct (Rle_lt_or_eq_dec (exp (y - 1 / 2)) x ltac:(lra)) as [Z|Z]; [left; apply ln_increasing; lra|rewrite Z; lra]. }
  assert (P : 1 / 18 <= ln x).
  { rewrite <- (ln_exp (1 / 18)). left. apply ln_increasing; [apply exp_pos|].
    pose proof (exp_ineq1_le (- (1 / 18))) as I. rewrite exp_Ropp in I. pose proof (exp_pos (1 / 18)) as Q.
    apply (Rmult_le_compat_r (exp (1 / 18))) in I; [|lra]. rewrite Rinv_l in I by lra. lra. }
  destruct (Rle_lt_dec y (ln x)) as [C|C]; [left; lra|].
  right. split; [|lra]. split; [auto|]. split; [lra|]. left. lra.
Qed.

(** ** Convergence for M >= 0 *)
Lemma hyp_root e M : 1 < e -> 0 <= M -> exists y, 0 <= y /\ M = e * sinh y - y.
Proof.
  intros He HM. destruct (kepler_onto e M ltac:(lra)) as [y Hy].
  assert (K : forall E, kepler_M e E = e * sinh E - E).
  { intros. unfold kepler_M. destruct (Rlt_dec e 1); [lra|]. destruct (Rlt_dec 1 e); lra. }
  exists y. rewrite K in Hy. split; [|lra]. destruct (Rle_lt_dec 0 y) as [C|C]; auto.
  pose proof (kepler_incr e y 0 ltac:(lra) C) as I. rewrite !K, sinh_00 in I. lra.
Qed.
Lemma hyp_factor e y : 1 < e -> 0 <= y -> e * cosh (y + 3 / 5) <= 2 * (e + 2 * (e * sinh y - y) + 3).
Proof.
  intros He Hy. pose proof (sh0 y Hy) as S. pose proof (cosh_ge_1 y) as C.
  pose proof (sh_u (3 / 5) ltac:(lra)) as S6. pose proof (ch_u (3 / 5) ltac:(lra)) as C6.
  assert (CS : cosh y <= 1 + sinh y).
  { assert (cosh y - sinh y = exp (- y)) by (unfold cosh, sinh; lra).
    assert (exp (- y) <= 1). { pose proof (coth_le y Hy). rewrite <- exp_0. destruct Hy as [Hy| <-]; [left; apply exp_increasing; lra|rewrite Ropp_0; lra]. }
    lra. }
  assert (CP : cosh (y + 3 / 5) <= 2 * (1 + sinh y)) by (rewrite cosh_plus; nra).
  assert (e * cosh (y + 3 / 5) <= e * (2 * (1 + sinh y))) by (apply Rmult_le_compat_l; lra).
  assert (Y3 : y <= 3 + (e * sinh y - y)).
  { pose proof (sh3 y Hy). assert (sinh y <= e * sinh y) by nra. assert (0 <= y ^ 3) by (now apply pow_le).
    destruct (Rle_lt_dec y 3); [lra|]. assert (9 <= y ^ 2) by nra. assert (y * 9 <= y * y ^ 2) by (apply Rmult_le_compat_l; lra).
    lra. }
  lra.
Qed.
Lemma hyp_conv e M t m : 1 < e -> 0 <= M -> 2 * (e + 2 * M + 3) * (9 / 10) ^ m < t ->
  let E := Nat.iter m (stepH e M) (ln (2 * M / e + 9 / 5)) in Rabs (e * sinh E - E - M) < t.
Proof.
  intros He HM Ht. destruct (hyp_root e M He HM) as [y [Hy My]]. cbv zeta.
  rewrite (iter_ext (stepH e M) (nexth e y)) by (intros; rewrite My; apply stepH_next).
  pose proof (hguess_state e y He Hy) as G. rewrite <- My in G.
  pose proof (Sth_gh e y He Hy _ _ (hiter_St e y He Hy (9 / 10) _ m G)) as B. set (E := Nat.iter m _ _) in *.
  replace (e * sinh E - E - M) with (gh e y E) by (unfold gh; rewrite My; ring).
  pose proof (hyp_factor e y He Hy) as F. rewrite <- My in F. assert (P : 0 < (9 / 10) ^ m) by (apply pow_lt; lra).
  pose proof (cosh_ge_1 (y + 3 / 5)).
  assert (0 <= e * cosh (y + 3 / 5)) by nra.
  eapply Rle_lt_trans; [exact B|]. eapply Rle_lt_trans; [|exact Ht].
  apply Rle_trans with (e * cosh (y + 3 / 5) * (9 / 10) ^ m); [apply Rmult_le_compat_l; lra|]. apply Rmult_le_compat_r; lra.
Qed.
(** Started from the code's own guess the solver reaches the tolerance for every e > 1 and M >= 0, in a
    number of iterations that grows with the logarithm of (e + M) / tol. *)
Theorem C70_solver_converges : forall o t m M e,
  1 < e -> 0 <= M -> degree o = Fin 5 -> tol o = Fin t -> 2 * (e + 2 * M + 3) * (9 / 10) ^ m < t ->
  (Z.of_nat m < max_iter o)%Z ->
  exists E n, laguerre_solve_kepler (get_hyperbolic_kepler_guess (Fin M) (Fin e)) (Fin M) (Fin e) o = (Fin E, n)
    /\ (0 <= n <= Z.of_nat m)%Z /\ Rabs (e * sinh E - E - M) < t.
Proof.
  intros o t m M e He HM Hd Ht Hm Hi. rewrite hguess_real by nra.
  set (E0 := ln (2 * M / e + 9 / 5)). pose proof (hyp_conv e M t m He HM Hm) as X. fold E0 in X. cbv zeta in X.
  destruct (C18_laguerre_terminates (Fin E0) (Fin M) (Fin e) o) as [k [_ [K1 [_ [K2 [K3 _]]]]]].
  change (fun E => lag_step (Fin e) o E (lag_f (Fin M) (Fin e) E)) with (lag_next o M e) in *.
  assert (F : forall j, leb (tol o) (nabs (lag_f (Fin M) (Fin e) (Nat.iter j (lag_next o M e) (Fin E0))))
     = Rleb t (Rabs (e * sinh (Nat.iter j (stepH e M) E0) - Nat.iter j (stepH e M) E0 - M))).
  { intros j. rewrite iter_next_hyp, lag_f_hyp, Ht by (auto; lra). num. f_equal.
    rewrite <- Rabs_Ropp. f_equal. ring. }
  assert (L : (k <= m)%nat).
  { destruct (Nat.le_gt_cases k m) as [|G]; auto. specialize (K2 m G). rewrite F, Rleb_false in K2 by auto. discriminate. }
  specialize (K3 ltac:(lia)). rewrite F in K3. rewrite iter_next_hyp in K1 by auto.
  eexists. eexists. split; [exact K1|]. split; [lia|].
  destruct (Rleb_spec t (Rabs (e * sinh (Nat.iter k (stepH e M) E0) - Nat.iter k (stepH e M) E0 - M))); [easy|lra].
Qed.
(** enough iterations for the tolerance *)
Definition hyp_opts (o : solver_options num) (t M e : R) : Prop :=
  tol o = Fin t /\ degree o = Fin 5 /\ exists m, 2 * (e + 2 * M + 3) * (9 / 10) ^ m < t /\ (Z.of_nat m < max_iter o)%Z.
(** the default options (1e-12, 5000 iterations) suffice up to e + 2 M + 3 = 1e200 *)
Lemma hyp_opts_default M e : e + 2 * M + 3 <= 10 ^ 200 -> hyp_opts default_options (/ 1000000000000) M e.
Proof.
  intros H. split; [cbn [tol default_options]; now num|]. split; [cbn [degree default_options]; now num|].
  exists 4999%nat. split; [|cbn [max_iter default_options]; lia].
  assert (Z : (2 * 10 ^ Z.of_nat 200 * 9 ^ Z.of_nat 4999 * 1000000000000 < 10 ^ Z.of_nat 4999)%Z) by (vm_compute; reflexivity).
  apply IZR_lt in Z. rewrite !mult_IZR, <- !pow_IZR in Z. set (n := 4999%nat) in *. set (h := 200%nat) in *. clearbody n h.
  unfold Rdiv. rewrite Rpow_mult_distr, pow_inv.
  assert (P9 : 0 < 9 ^ n) by (apply pow_lt; lra). assert (P : 0 < 10 ^ n) by (apply pow_lt; lra).
  assert (Q : 0 < / 10 ^ n) by (now apply Rinv_0_lt_compat).
  apply Rle_lt_trans with (2 * 10 ^ h * (9 ^ n * / 10 ^ n)).
  { apply Rmult_le_compat_r; [apply Rlt_le, Rmult_lt_0_compat; auto|lra]. }
  apply (Rmult_lt_reg_r (10 ^ n * 1000000000000)); [lra|].
  replace (2 * 10 ^ h * (9 ^ n * / 10 ^ n) * (10 ^ n * 1000000000000)) with (2 * 10 ^ h * 9 ^ n * 1000000000000) by (field; lra).
  replace (/ 1000000000000 * (10 ^ n * 1000000000000)) with (10 ^ n) by (field; lra). exact Z.
Qed.
(** mean_to_eccentric, without a hypothesis on convergence *)
Theorem C70_mean_to_eccentric : forall o t M e, 1 < e -> 0 <= M -> hyp_opts o t M e ->
  exists E, m2e o M e (Fin E) /\ Rabs (e * sinh E - E - M) < t
    /\ forall Es, e * sinh Es - Es = M -> Rabs (E - Es) <= t / (e - 1).
Proof.
  intros o t M e He HM [H1 [H2 [m [H3 H4]]]].
  destruct (C22_hyperbola_partial o 5 t M e He ltac:(nra) H1 H2 ltac:(lra)) as [E0 [E [G [T C]]]].
  exists E. split; auto. apply C. unfold converged. rewrite <- G.
  destruct (C70_solver_converges o t m M e He HM H2 H1 H3 H4) as [E' [n [X [N _]]]]. rewrite X. cbn [snd]. lia.
Qed.
Example C70_example : exists E, m2e default_options 1000 (101 / 100) (Fin E) /\ Rabs (101 / 100 * sinh E - E - 1000) < / 1000000000000.
Proof.
  destruct (C70_mean_to_eccentric default_options (/ 1000000000000) 1000 (101 / 100)) as [E [A [B _]]]; try lra.
  - apply hyp_opts_default. apply Rle_trans with (10 ^ 4); [lra|]. apply Rle_pow; [lra|]. repeat constructor.
  - eauto.
Qed.

(** mean_to_true and the round trip of the true anomaly on the outgoing leg *)
Theorem C70_mean_to_true : forall o t e, 1 < e ->
  (forall M, 0 <= M -> hyp_opts o t M e -> exists nu E, m2t o M e (Fin nu) /\ in_circle nu
     /\ anomalies_hyp e nu E /\ Rabs (e * sinh E - E - M) < t)
  /\ (forall nu E, anomalies_hyp e nu E -> in_circle E -> hyp_opts o t (e * sinh E - E) e ->
       exists M nu' E', t2m nu e (Fin M) /\ m2t o M e (Fin nu') /\ in_circle nu'
         /\ anomalies_hyp e nu' E' /\ Rabs (E' - E) <= t / (e - 1)).
Proof.
  intros o t e He. destruct (C16_hyperbola_partial e He) as [A [B [_ _]]]. split.
  - intros M HM Ho. destruct (C70_mean_to_eccentric o t M e He HM Ho) as [E [T [R _]]].
    destruct (A E) as [nu [T2 [C2 R2]]]. exists nu, E. split; [eapply m2t_of_m2e; eauto|]. auto.
  - intros nu E R Hc Ho. destruct (hyp_inv e He _ _ R) as [P _].
    destruct (B nu P) as [E1 [E2 [R1 [C1 [C2 T1]]]]].
    rewrite (hyp_unique _ _ _ _ He R1 R) in *. rewrite (in_circle_unique E2 E C1 Hc C2) in *.
    assert (M0 : 0 <= e * sinh E - E).
    { destruct Hc as [Hc _]. pose proof (sh1 E Hc). nra. }
    destruct (C70_mean_to_eccentric o t _ e He M0 Ho) as [E' [T [_ R']]].
    destruct (A E') as [nu' [T2 [C3 R3]]]. exists (e * sinh E - E), nu', E'.
    split.
    { replace (e * sinh E - E) with (kepler_M e E); [apply t2m_of_t2e; auto; lra|].
      unfold kepler_M. destruct (Rlt_dec e 1); [lra|]. destruct (Rlt_dec 1 e); lra. }
    split; [eapply m2t_of_m2e; eauto|]. split; [auto|]. split; [auto|]. now apply R'.
Qed.
(** nu = pi/2, e = 3/2 *)
Example C70_true_example : exists M nu', t2m (PI / 2) (3 / 2) (Fin M) /\ m2t default_options M (3 / 2) (Fin nu') /\ in_circle nu'.
Proof.
  destruct (C70_mean_to_true default_options (/ 1000000000000) (3 / 2) ltac:(lra)) as [_ B].
  destruct (C16_hyperbola_partial (3 / 2) ltac:(lra)) as [A [C _]].
  destruct (C (PI / 2)) as [E [_ [R _]]]; [rewrite cos_PI2; lra|].
  assert (R' := R). destruct R as [R1 R2]. rewrite cos_PI2 in R1. rewrite sin_PI2 in R2.
  pose proof (ah_pos (3 / 2) ltac:(lra) E) as P. set (a := 3 / 2 * cosh E - 1) in *.
  assert (S1 : 1 <= sqrt (3 / 2 * (3 / 2) - 1)) by (rewrite <- sqrt_1 at 1; apply sqrt_le_1_alt; lra).
  assert (Ca : cosh E = 3 / 2).
  { apply Rmult_eq_compat_r with (r := a) in R1. unfold Rdiv in R1. rewrite Rmult_assoc, Rinv_l in R1 by lra. lra. }
  assert (Sa : a = sqrt (3 / 2 * (3 / 2) - 1) * sinh E).
  { apply Rmult_eq_compat_r with (r := a) in R2. unfold Rdiv in R2. rewrite Rmult_assoc, Rinv_l in R2 by lra. lra. }
  assert (Ea : a = 5 / 4) by (unfold a; rewrite Ca; lra).
  assert (Sp : 0 < sinh E <= 5 / 4) by (split; nra).
  assert (Ep : 0 <= E).
  { destruct (Rle_lt_dec 0 E); auto. pose proof (sh1 (- E) ltac:(lra)) as H. unfold sinh in H, Sp. rewrite Ropp_involutive in H. lra. }
  pose proof (sh1 E Ep) as S. pose proof PI2_1.
  destruct (B (PI / 2) E R') as [M [nu' [E' [X [Y [Z _]]]]]]; [split; lra| |eauto].
  apply hyp_opts_default. apply Rle_trans with (10 ^ 4); [lra|]. apply Rle_pow; [lra|]. repeat constructor.
Qed.

(** ** M < 0 *)
Lemma cosh_opp x : cosh (- x) = cosh x. Proof. unfold cosh. rewrite Ropp_involutive. lra. Qed.
Lemma sinh_opp x : sinh (- x) = - sinh x. Proof. unfold sinh. rewrite Ropp_involutive. lra. Qed.
Lemma cosh_1 z : 1 <= z -> 154 / 100 <= cosh z.
Proof.
  intros Z. pose proof (ch4 1 ltac:(lra)). assert (cosh 1 <= cosh z) by (apply ch_mono; lra). lra.
Qed.
(** far to the left of the root a step moves by less than 15 to the right *)
Lemma far_step e M E : 1 < e -> M <= 0 -> - e <= M -> E <= - 1 -> stepH e M E <= E + 15.
Proof.
  intros He HM HM2 HE. unfold stepH, step5. set (g := e * sinh E - E - M).
  pose proof (root5_ge0 (e * cosh E - 1) (e * sinh E) g) as S. set (s := root5 _ _ _) in *. clearbody s.
  set (z := - E).
  assert (C : cosh E = cosh z) by (unfold z; now rewrite cosh_opp).
  assert (SH : sinh E = - sinh z) by (unfold z; rewrite sinh_opp; ring).
  pose proof (cosh_1 z ltac:(unfold z; lra)) as C1. rewrite C.
  assert (A : 0.35 * (e * cosh z) <= e * cosh z - 1) by nra.
  assert (SC : sinh z <= cosh z) by (unfold sinh, cosh; pose proof (exp_pos (- z)); lra).
  assert (G : - (e * cosh z) <= g) by (pose proof (Rmult_le_compat_l e _ _ ltac:(lra) SC); unfold g; rewrite SH; lra).
  assert (0 < e * cosh z) by nra.
  assert (- 15 <= 5 * g / (e * cosh z - 1 + s)); [|lra].
  apply le_div; [lra|]. nra.
Qed.
Lemma far_unsolved e M E : 1 < e -> - (2 / 5) * e <= M -> E <= - 3 -> 2 / 5 <= Rabs (e * sinh E - E - M).
Proof.
  intros He HM HE. set (z := - E). assert (SH : sinh E = - sinh z) by (unfold z; rewrite sinh_opp; ring).
  assert (Z : 3 <= z) by (unfold z; lra). pose proof (sh3 z ltac:(lra)) as S.
  assert (9 <= z ^ 2) by nra. assert (z * 9 <= z * z ^ 2) by (apply Rmult_le_compat_l; lra).
  assert (H2 : 2 * z <= sinh z) by lra. rewrite Rabs_left1; rewrite SH; unfold z in *; nra.
Qed.
(** For every option record of degree 5 (max_iter >= 1, tol at most 2/5) there is a hyperbolic orbit with a
    negative mean anomaly inside the range of the guess, -0.9 e < M, for which the solver runs through
    all its iterations and mean_to_eccentric returns a value that is off by more than 20. *)
Theorem C70_incoming_refuted : forall o t, degree o = Fin 5 -> tol o = Fin t -> 0 < t <= 2 / 5 -> (1 <= max_iter o)%Z ->
  exists M e E Es, 1 < e < 101 / 100 /\ - (9 / 10) * e < M < 0 /\ e * sinh Es - Es = M /\ - 2 <= Es <= 0
    /\ laguerre_solve_kepler (get_hyperbolic_kepler_guess (Fin M) (Fin e)) (Fin M) (Fin e) o = (Fin E, max_iter o)
    /\ m2e o M e (Fin E) /\ E <= - 25 * IZR (max_iter o) /\ t <= Rabs (e * sinh E - E - M).
Proof.
  intros o t Hd Ht Tp Hi. set (N := IZR (max_iter o)).
  assert (HN : 1 <= N) by (unfold N; now apply IZR_le in Hi). set (d := 1 / (100 * (N + 1))).
  assert (Dp : 0 < d) by (unfold d; apply Rdiv_lt_0_compat; lra).
  assert (DN : d * (100 * (N + 1)) = 1) by (unfold d; field; lra).
  assert (D1 : d < 1 / 100) by nra. clearbody d.
  set (e := 1 + d). set (M := - (2 / 5) * e). assert (He : 1 < e) by (unfold e; lra).
  assert (G : get_hyperbolic_kepler_guess (Fin M) (Fin e) = Fin 0).
  { rewrite hguess_real by (unfold M; lra). f_equal. replace (2 * M / e + 9 / 5) with 1 by (unfold M; field; lra). apply ln_1. }
  assert (F1 : stepH e M 0 <= - 40 * (N + 1)).
  { unfold stepH, step5, root5. rewrite sinh_00, cosh_00. 
    match goal with |- context [sqrt (Rabs ?z)] => replace z with ((4 * d) ^ 2) by (unfold e; ring) end.
    rewrite Rabs_right by (apply Rle_ge, pow2_ge_0). rewrite sqrt_pow2 by lra.
    replace (0 - 5 * (e * 0 - 0 - M) / (e * 1 - 1 + 4 * d)) with (- (2 / 5 * e / d)) by (unfold M, e; field; lra).
    assert (40 * (N + 1) <= 2 / 5 * e / d); [|lra]. apply le_div; [lra|]. unfold e. nra. }
  assert (It : forall k, INR k < N -> Nat.iter (S k) (stepH e M) 0 <= - 40 * (N + 1) + 15 * INR k).
  { intros k L. induction k as [|k IH]; [cbn [INR Nat.iter nat_rect]; lra|]. rewrite S_INR in *. specialize (IH ltac:(lra)).
    change (Nat.iter (S (S k)) (stepH e M) 0) with (stepH e M (Nat.iter (S k) (stepH e M) 0)).
    set (x := Nat.iter (S k) (stepH e M) 0) in *.
    pose proof (far_step e M x He ltac:(unfold M; lra) ltac:(unfold M; lra) ltac:(lra)). lra. }
  assert (It2 : forall k, (1 <= k)%nat -> INR k <= N -> Nat.iter k (stepH e M) 0 <= - 25 * N - 40).
  { intros [|k] K1 K2; [lia|]. rewrite S_INR in K2. pose proof (It k ltac:(lra)). lra. }
  destruct (C18_laguerre_terminates (Fin 0) (Fin M) (Fin e) o) as [k [_ [K1 [K0 [K2 [K3 _]]]]]].
  change (fun E => lag_step (Fin e) o E (lag_f (Fin M) (Fin e) E)) with (lag_next o M e) in *.
  assert (U : forall j, (Z.of_nat j <= max_iter o)%Z -> t <= Rabs (e * sinh (Nat.iter j (stepH e M) 0) - Nat.iter j (stepH e M) 0 - M)).
  { intros j Hj. apply IZR_le in Hj. fold N in Hj. rewrite <- INR_IZR_INZ in Hj. destruct j as [|j].
    - cbn [Nat.iter nat_rect]. rewrite sinh_00, Rabs_right; unfold M; lra.
    - apply Rle_trans with (2 / 5); [lra|]. apply far_unsolved; auto; [unfold M; lra|]. pose proof (It2 (S j) ltac:(lia) Hj). lra. }
  assert (Kk : Z.of_nat k = max_iter o).
  { destruct (Z.lt_ge_cases (Z.of_nat k) (max_iter o)) as [L|L]; [|lia]. specialize (K3 L).
    rewrite iter_next_hyp, lag_f_hyp, Ht in K3 by auto. num in K3. rewrite Rleb_true in K3; [discriminate|].
    rewrite <- Rabs_Ropp. eapply Rle_trans; [apply (U k); lia|]. right. f_equal. ring. }
  rewrite iter_next_hyp in K1 by auto. rewrite Kk in K1. set (E := Nat.iter k (stepH e M) 0) in *.
  assert (HE : E <= - 25 * N - 40).
  { apply It2; [lia|]. unfold N. rewrite INR_IZR_INZ, Kk. lra. }
  destruct (kepler_onto e M ltac:(lra)) as [Es HEs].
  assert (K : forall E, kepler_M e E = e * sinh E - E).
  { intros. unfold kepler_M. destruct (Rlt_dec e 1); [lra|]. destruct (Rlt_dec 1 e); lra. }
  exists M, e, E, Es. split; [unfold e; lra|]. split; [unfold M; lra|]. split; [rewrite <- K; exact HEs|]. split.
  { split.
    - destruct (Rle_lt_dec (- 2) Es) as [|L]; auto. exfalso. pose proof (kepler_incr e Es (- 2) ltac:(lra) L) as I.
      rewrite (K (-2)) in I. replace (-2) with (- (2)) in I by lra. rewrite sinh_opp in I. pose proof (sh3 2 ltac:(lra)).
      unfold M in *. nra.
    - destruct (Rle_lt_dec Es 0) as [|L]; auto. exfalso. pose proof (kepler_incr e 0 Es ltac:(lra) L) as I.
      rewrite (K 0), sinh_00 in I. unfold M in *. lra. }
  rewrite G. split; [exact K1|]. split.
  { pose proof (m2e_nz o M e ltac:(lra)) as T. unfold m2e_el in T. num in T. rewrite Rltb_true, G, K1 in T by lra. exact T. }
  split; [fold N; lra|]. apply U. lia.
Qed.
(** the default options *)
Example C70_refuted_example : exists M e E Es, 1 < e /\ - (9 / 10) * e < M < 0 /\ e * sinh Es - Es = M
  /\ m2e default_options M e (Fin E) /\ 100000 < Es - E.
Proof.
  destruct (C70_incoming_refuted default_options (/ 1000000000000)) as [M [e [E [Es [A [B [C [D [_ [F [G _]]]]]]]]]]].
  - cbn [degree default_options]. now num.
  - cbn [tol default_options]. now num.
  - lra.
  - cbn [max_iter default_options]. lia.
  - exists M, e, E, Es. cbn [max_iter default_options] in G. split; [lra|]. split; [lra|]. split; [auto|]. split; [auto|lra].
Qed.
