(** * The scalar anomaly functions over the reals *)
From Coq Require Import Reals QArith Qreals ZArith Lra Lia Bool List.
From Coq Require Import Nsatz.
From Verif Require Import NP NPReal Spec RealBase KeplerModel.
Local Open Scope R_scope.

(** ** Hyperbolic functions *)
Lemma cosh_sq x : cosh x * cosh x - sinh x * sinh x = 1.
Proof.
  unfold cosh, sinh. pose proof (exp_plus x (- x)) as E. rewrite Rplus_opp_r, exp_0 in E. nra.
Qed.
Lemma cosh_pos x : 0 < cosh x.
Proof. unfold cosh. pose proof (exp_pos x). pose proof (exp_pos (- x)). lra. Qed.
Lemma cosh_ge_1 x : 1 <= cosh x.
Proof. pose proof (cosh_sq x). pose proof (cosh_pos x). nra. Qed.
Lemma sinh_opp x : sinh (- x) = - sinh x.
Proof. unfold sinh. rewrite Ropp_involutive. lra. Qed.
Lemma cosh_opp x : cosh (- x) = cosh x.
Proof. unfold cosh. rewrite Ropp_involutive. lra. Qed.
Lemma cosh_2 x : cosh (2 * x) = cosh x * cosh x + sinh x * sinh x.
Proof.
  unfold cosh, sinh. replace (- (2 * x)) with (- x + - x) by ring. replace (2 * x) with (x + x) by ring.
  rewrite !exp_plus. field.
Qed.
Lemma sinh_2 x : sinh (2 * x) = 2 * sinh x * cosh x.
Proof.
  unfold cosh, sinh. replace (- (2 * x)) with (- x + - x) by ring. replace (2 * x) with (x + x) by ring.
  rewrite !exp_plus. field.
Qed.
Lemma tanh_bound x : -1 < tanh x < 1.
Proof.
  unfold tanh. pose proof (cosh_pos x) as C. pose proof (exp_pos x) as P. pose proof (exp_pos (- x)) as N.
  split.
  - apply Rmult_lt_reg_r with (cosh x); auto. unfold Rdiv. rewrite Rmult_assoc, Rinv_l by lra.
    unfold cosh, sinh. lra.
  - apply Rmult_lt_reg_r with (cosh x); auto. unfold Rdiv. rewrite Rmult_assoc, Rinv_l by lra.
    unfold cosh, sinh. lra.
Qed.
Lemma tanh_Ratanh x : -1 < x < 1 -> tanh (Ratanh x) = x.
Proof.
  intros H. unfold tanh, Ratanh, sinh, cosh.
  set (y := ln ((1 + x) / (1 - x)) / 2).
  assert (P : 0 < (1 + x) / (1 - x)) by (apply Rdiv_lt_0_compat; lra).
  assert (E : exp y * exp y = (1 + x) / (1 - x)).
  { rewrite <- exp_plus. replace (y + y) with (ln ((1 + x) / (1 - x))) by (unfold y; field; lra). now apply exp_ln. }
  assert (E' : exp y * exp (- y) = 1) by (rewrite <- exp_plus, Rplus_opp_r; apply exp_0).
  pose proof (exp_pos y) as Py. pose proof (exp_pos (- y)) as Ny.
  assert (E2 : exp y * exp y * (1 - x) = 1 + x) by (rewrite E; field; lra).
  apply (Rmult_eq_reg_r ((exp y + exp (- y)) / 2)); [|lra].
  unfold Rdiv at 1. rewrite Rmult_assoc, Rinv_l by lra. 
  apply (Rmult_eq_reg_r (exp y)); [|lra]. nra.
Qed.
Lemma Ratanh_tanh y : Ratanh (tanh y) = y.
Proof.
  unfold Ratanh. pose proof (tanh_bound y) as B.
  assert (E : (1 + tanh y) / (1 - tanh y) = exp (2 * y)).
  { unfold tanh, sinh, cosh in *. pose proof (exp_pos y) as Py. pose proof (exp_pos (- y)) as Ny.
    replace (2 * y) with (y + y) by ring. rewrite exp_plus.
    assert (E' : exp y * exp (- y) = 1) by (rewrite <- exp_plus, Rplus_opp_r; apply exp_0).
    replace (1 - (exp y - exp (- y)) / 2 / ((exp y + exp (- y)) / 2)) with (2 * exp (- y) / (exp y + exp (- y))) by (field; lra).
    replace (1 + (exp y - exp (- y)) / 2 / ((exp y + exp (- y)) / 2)) with (2 * exp y / (exp y + exp (- y))) by (field; lra).
    replace (2 * exp y / (exp y + exp (- y)) / (2 * exp (- y) / (exp y + exp (- y)))) with (exp y / exp (- y)) by (field; lra).
    apply (Rmult_eq_reg_r (exp (- y))); [|lra]. unfold Rdiv. rewrite Rmult_assoc, Rinv_l by lra. nra. }
  rewrite E, ln_exp. field.
Qed.
Lemma sinh_pos x : 0 < x -> 0 < sinh x.
Proof. intros. unfold sinh. assert (exp (- x) < exp x) by (apply exp_increasing; lra). lra. Qed.
Lemma tanh_nonneg x : 0 <= x -> 0 <= tanh x.
Proof.
  intros [H| <-].
  - unfold tanh. apply Rlt_le, Rdiv_lt_0_compat; [now apply sinh_pos|apply cosh_pos].
  - unfold tanh. rewrite sinh_0. unfold Rdiv. lra.
Qed.

(** ** Half angles *)
Lemma cos_2atan x : cos (2 * atan x) = (1 - x * x) / (1 + x * x).
Proof.
  assert (P : 0 < 1 + x * x) by nra.
  rewrite cos_2a, cos_atan, sin_atan. unfold Rsqr. pose proof (sqrt_lt_R0 _ P) as S.
  pose proof (sqrt_sqrt (1 + x * x) (Rlt_le _ _ P)) as Q.
  set (s := sqrt (1 + x * x)) in *. rewrite <- Q. replace (1 - x * x) with (2 - s * s) by lra.
  assert (x * x = s * s - 1) by lra.
  replace (1 / s * (1 / s) - x / s * (x / s)) with ((1 - x * x) / (s * s)) by (field; lra). f_equal. lra.
Qed.
Lemma sin_2atan x : sin (2 * atan x) = 2 * x / (1 + x * x).
Proof.
  assert (P : 0 < 1 + x * x) by nra.
  rewrite sin_2a, cos_atan, sin_atan. unfold Rsqr. pose proof (sqrt_lt_R0 _ P) as S.
  pose proof (sqrt_sqrt (1 + x * x) (Rlt_le _ _ P)) as Q.
  set (s := sqrt (1 + x * x)) in *. rewrite <- Q. field. lra.
Qed.
Lemma atan_bnd x : - PI < 2 * atan x < PI.
Proof. pose proof (atan_bound x). lra. Qed.
Lemma cos_sin_half nu : let c := cos (nu / 2) in let s := sin (nu / 2) in
  c * c + s * s = 1 /\ cos nu = c * c - s * s /\ sin nu = 2 * s * c.
Proof.
  cbv zeta. pose proof (sin2_cos2 (nu / 2)) as E. unfold Rsqr in E. split; [lra|].
  rewrite <- cos_2a, <- sin_2a. split; f_equal; field.
Qed.

(** twice the arctangent of k tan(nu/2), pole included *)
Lemma half_tan k nu : 0 < k ->
  let c := cos (nu / 2) in let s := sin (nu / 2) in
  exists E, mul (lit 2) (narctan (mul (Fin k) (ntan (mul (Fin nu) (lit 0.5))))) = Fin E
    /\ - PI < E <= PI
    /\ cos E * (c * c + k * k * (s * s)) = c * c - k * k * (s * s)
    /\ sin E * (c * c + k * k * (s * s)) = 2 * k * s * c.
Proof.
  intros Hk c s. pose proof PI_RGT_0.
  destruct (cos_sin_half nu) as [C1 _]. fold c s in C1.
  rewrite lit_half, lit_2, Fin_mul. replace (nu * / 2) with (nu / 2) by reflexivity. cbn [ntan NP_num num_tan].
  fold c. destruct (Req_EM_T c 0) as [Ec|Ec].
  - exists PI. cbn [mul NP_num num_mul]. unfold num_sign. destruct (Rlt_dec 0 k); [|lra].
    cbn. split; [f_equal; lra|]. split; [lra|]. rewrite cos_PI, sin_PI, Ec. lra.
  - rewrite Fin_mul, Fin_atan, Fin_mul. exists (2 * atan (k * tan (nu / 2))). split; [reflexivity|].
    pose proof (atan_bnd (k * tan (nu / 2))). split; [lra|]. rewrite cos_2atan, sin_2atan.
    unfold tan. fold c s. assert (0 < c * c) by nra. assert (0 <= k * k * (s * s)) by nra.
    assert (c * c + k * k * (s * s) <> 0) by lra.
    assert (1 + k * (s / c) * (k * (s / c)) <> 0).
    { replace (1 + k * (s / c) * (k * (s / c))) with ((c * c + k * k * (s * s)) / (c * c)) by (field; auto).
      apply Rmult_integral_contrapositive_currified; auto. apply Rinv_neq_0_compat. lra. }
    split; field; repeat split; auto; lra.
Qed.

Lemma wrap_fin x : exists y, wrap2pi (Fin x) = Fin y /\ in_circle y /\ cong2pi y x.
Proof.
  unfold wrap2pi. rewrite n2pi_fin, Fin_add. pose proof PI_RGT_0.
  rewrite Fin_mod by lra. exists (Rmod (x + 2 * PI) (2 * PI)).
  destruct (Rmod_2pi (x + 2 * PI)) as [A B]. repeat split; try apply A.
  eapply cong_trans; [exact B|apply cong_2pi].
Qed.

(** ** Ellipse *)
Section Ell.
Variable e : R.
Hypothesis He : 0 <= e < 1.
Let w := sqrt (1 - e * e).
Lemma ell_w : w * w = 1 - e * e /\ 0 < w.
Proof. unfold w. assert (0 < 1 - e * e) by nra. split; [apply sqrt_sqrt; lra|now apply sqrt_lt_R0]. Qed.
Lemma ell_den t : 0 < 1 - e * cos t /\ 0 < 1 + e * cos t.
Proof. pose proof (COS_bound t). nra. Qed.
Lemma ell_iff nu E : anomalies_ell e nu E <->
  cos E = (cos nu + e) / (1 + e * cos nu) /\ sin E = sqrt (1 - e * e) * sin nu / (1 + e * cos nu).
Proof.
  destruct ell_w as [W1 W2]. destruct (ell_den E) as [D1 _]. destruct (ell_den nu) as [_ D2].
  unfold anomalies_ell. fold w. split; intros [H1 H2].
  - assert (X : 1 + e * cos nu = w * w / (1 - e * cos E)).
    { rewrite H1, W1. field. lra. }
    assert (0 < w * w) by nra.
    split.
    + rewrite X, H1, W1. field. repeat split; try lra; rewrite <- W1; lra.
    + rewrite X, H2. field. split; lra.
  - assert (X : 1 - e * cos E = w * w / (1 + e * cos nu)).
    { rewrite H1, W1. field. lra. }
    assert (0 < w * w) by nra.
    split.
    + rewrite X, H1, W1. field. repeat split; try lra; rewrite <- W1; lra.
    + rewrite X, H2. field. split; lra.
Qed.
Lemma ell_ratio : 0 < (1 - e) / (1 + e) /\ 0 < (1 + e) / (1 - e).
Proof. split; apply Rdiv_lt_0_compat; lra. Qed.
Lemma ell_sqrt1 : sqrt ((1 - e) / (1 + e)) = w / (1 + e).
Proof.
  destruct ell_w as [W1 W2]. apply sqrt_lem_1; [apply Rlt_le, ell_ratio|apply Rlt_le, Rdiv_lt_0_compat; lra|].
  replace (w / (1 + e) * (w / (1 + e))) with (w * w / ((1 + e) * (1 + e))) by (field; lra).
  rewrite W1. field. lra.
Qed.
Lemma ell_sqrt2 : sqrt ((1 + e) / (1 - e)) = w / (1 - e).
Proof.
  destruct ell_w as [W1 W2]. apply sqrt_lem_1; [apply Rlt_le, ell_ratio|apply Rlt_le, Rdiv_lt_0_compat; lra|].
  replace (w / (1 - e) * (w / (1 - e))) with (w * w / ((1 - e) * (1 - e))) by (field; lra).
  rewrite W1. field. lra.
Qed.
Lemma t2e_eli_real nu : exists E, t2e_eli (Fin nu) (Fin e) = Fin E /\ - PI < E <= PI /\ anomalies_ell e nu E.
Proof.
  destruct ell_w as [W1 W2]. destruct (ell_den nu) as [_ D2].
  unfold t2e_eli. num. rewrite Fin_div by lra. rewrite Fin_sqrt by (apply Rlt_le, ell_ratio).
  rewrite ell_sqrt1. rewrite <- (Fin_mul nu (/2)), <- lit_half, <- lit_2.
  destruct (half_tan (w / (1 + e)) nu) as [E [H1 [H2 [H3 H4]]]]; [apply Rdiv_lt_0_compat; lra|].
  destruct (cos_sin_half nu) as [C1 [C2 C3]]. cbv zeta in *.
  set (c := cos (nu / 2)) in *. set (s := sin (nu / 2)) in *.
  exists E. split; [exact H1|]. split; [exact H2|]. apply ell_iff. fold w.
  assert (K : (c * c + w / (1 + e) * (w / (1 + e)) * (s * s)) * (1 + e) = 1 + e * cos nu).
  { replace (w / (1 + e) * (w / (1 + e))) with (w * w / ((1 + e) * (1 + e))) by (field; lra).
    rewrite W1, C2. replace ((1 - e * e) / ((1 + e) * (1 + e))) with ((1 - e) / (1 + e)) by (field; lra).
    replace ((c * c + (1 - e) / (1 + e) * (s * s)) * (1 + e)) with (c * c * (1 + e) + (1 - e) * (s * s)) by (field; lra).
    nra. }
  split; apply (Rmult_eq_reg_r (1 + e * cos nu)); try lra.
  - unfold Rdiv at 1. rewrite Rmult_assoc, Rinv_l by lra. rewrite <- K, <- Rmult_assoc, H3.
    replace (w / (1 + e) * (w / (1 + e))) with (w * w / ((1 + e) * (1 + e))) by (field; lra).
    rewrite W1, C2. replace ((1 - e * e) / ((1 + e) * (1 + e))) with ((1 - e) / (1 + e)) by (field; lra).
    replace ((c * c - (1 - e) / (1 + e) * (s * s)) * (1 + e)) with (c * c * (1 + e) - (1 - e) * (s * s)) by (field; lra).
    nra.
  - unfold Rdiv at 1. rewrite Rmult_assoc, Rinv_l by lra. rewrite <- K, <- Rmult_assoc, H4.
    rewrite C3. field. lra.
Qed.
Lemma e2t_eli_real E : exists nu, e2t_eli (Fin E) (Fin e) = Fin nu /\ - PI < nu <= PI /\ anomalies_ell e nu E.
Proof.
  destruct ell_w as [W1 W2]. destruct (ell_den E) as [D2 _].
  unfold e2t_eli. num. rewrite Fin_div by lra. rewrite Fin_sqrt by (apply Rlt_le, ell_ratio).
  rewrite ell_sqrt2. rewrite <- (Fin_mul E (/2)), <- lit_half, <- lit_2.
  destruct (half_tan (w / (1 - e)) E) as [nu [H1 [H2 [H3 H4]]]]; [apply Rdiv_lt_0_compat; lra|].
  destruct (cos_sin_half E) as [C1 [C2 C3]]. cbv zeta in *.
  set (c := cos (E / 2)) in *. set (s := sin (E / 2)) in *.
  exists nu. split; [exact H1|]. split; [exact H2|]. unfold anomalies_ell. fold w.
  assert (K : (c * c + w / (1 - e) * (w / (1 - e)) * (s * s)) * (1 - e) = 1 - e * cos E).
  { replace (w / (1 - e) * (w / (1 - e))) with (w * w / ((1 - e) * (1 - e))) by (field; lra).
    rewrite W1, C2. replace ((1 - e * e) / ((1 - e) * (1 - e))) with ((1 + e) / (1 - e)) by (field; lra).
    replace ((c * c + (1 + e) / (1 - e) * (s * s)) * (1 - e)) with (c * c * (1 - e) + (1 + e) * (s * s)) by (field; lra).
    nra. }
  split; apply (Rmult_eq_reg_r (1 - e * cos E)); try lra.
  - unfold Rdiv at 1. rewrite Rmult_assoc, Rinv_l by lra. rewrite <- K, <- Rmult_assoc, H3.
    replace (w / (1 - e) * (w / (1 - e))) with (w * w / ((1 - e) * (1 - e))) by (field; lra).
    rewrite W1, C2. replace ((1 - e * e) / ((1 - e) * (1 - e))) with ((1 + e) / (1 - e)) by (field; lra).
    replace ((c * c - (1 + e) / (1 - e) * (s * s)) * (1 - e)) with (c * c * (1 - e) - (1 + e) * (s * s)) by (field; lra).
    nra.
  - unfold Rdiv at 1. rewrite Rmult_assoc, Rinv_l by lra. rewrite <- K, <- Rmult_assoc, H4.
    rewrite C3. field. lra.
Qed.
Lemma ell_cong_l nu nu' E : anomalies_ell e nu E -> anomalies_ell e nu' E -> cong2pi nu nu'.
Proof. intros [H1 H2] [H3 H4]. apply cos_sin_cong; congruence. Qed.
Lemma ell_cong_r nu E E' : anomalies_ell e nu E -> anomalies_ell e nu E' -> cong2pi E E'.
Proof. rewrite !ell_iff. intros [H1 H2] [H3 H4]. apply cos_sin_cong; congruence. Qed.
Lemma ell_compat nu nu' E E' : cong2pi nu nu' -> cong2pi E E' -> anomalies_ell e nu E -> anomalies_ell e nu' E'.
Proof.
  intros C1 C2. unfold anomalies_ell.
  rewrite (cong_cos _ _ C1), (cong_sin _ _ C1), (cong_cos _ _ C2), (cong_sin _ _ C2). auto.
Qed.
End Ell.

(** branches taken by the scalar code *)
Lemma by_cases_ell fh fp fe (x : num) e : e < 1 -> by_cases fh fp fe x (Fin e) = fe x (Fin e).
Proof. intros. unfold by_cases. num. rewrite Rltb_false, Reqb_false by lra. reflexivity. Qed.
Lemma by_cases_par fh fp fe (x : num) : by_cases fh fp fe x (Fin 1) = fp x (Fin 1).
Proof. unfold by_cases. num. rewrite Rltb_false, Reqb_true by lra. reflexivity. Qed.
Lemma by_cases_hyp fh fp fe (x : num) e : 1 < e -> by_cases fh fp fe x (Fin e) = fh x (Fin e).
Proof. intros. unfold by_cases. num. rewrite Rltb_true by lra. reflexivity. Qed.

(** the scalar calls of the API, in radians *)
Definition t2e (nu e : R) (E : num) : Prop :=
  forall g, true_to_eccentric g (Sc (Fin nu)) (Sc (Fin e)) false = Ok (Sc E).
Definition e2t (E e : R) (nu : num) : Prop :=
  forall g, eccentric_to_true g (Sc (Fin E)) (Sc (Fin e)) false = Ok (Sc nu).
Definition e2m (E e : R) (M : num) : Prop :=
  forall g, eccentric_to_mean g (Sc (Fin E)) (Sc (Fin e)) false = Ok (Sc M).
Definition t2m (nu e : R) (M : num) : Prop :=
  forall g1 g2, true_to_mean g1 g2 (Sc (Fin nu)) (Sc (Fin e)) false = Ok (Sc M).
Definition m2e (o : solver_options num) (M e : R) (E : num) : Prop :=
  mean_to_eccentric (Sc (Fin M)) (Sc (Fin e)) o false = Ok (Sc E).
Definition m2t (o : solver_options num) (M e : R) (nu : num) : Prop :=
  forall g, mean_to_true g (Sc (Fin M)) (Sc (Fin e)) o false = Ok (Sc nu).

Lemma t2e_fun nu e E E' : t2e nu e E -> t2e nu e E' -> E = E'.
Proof. intros A B. specialize (A (fun _ => NaN)). specialize (B (fun _ => NaN)). congruence. Qed.
Lemma e2t_fun nu e E E' : e2t nu e E -> e2t nu e E' -> E = E'.
Proof. intros A B. specialize (A (fun _ => NaN)). specialize (B (fun _ => NaN)). congruence. Qed.
Lemma e2m_fun nu e E E' : e2m nu e E -> e2m nu e E' -> E = E'.
Proof. intros A B. specialize (A (fun _ => NaN)). specialize (B (fun _ => NaN)). congruence. Qed.
Lemma t2e_is nu e : t2e nu e (wrap2pi (by_cases t2e_hyp t2e_per t2e_eli (Fin nu) (Fin e))).
Proof. intros g. reflexivity. Qed.
Lemma e2t_is E e : e2t E e (wrap2pi (by_cases e2t_hyp e2t_per e2t_eli (Fin E) (Fin e))).
Proof. intros g. reflexivity. Qed.
Lemma e2m_is E e : e2m E e (by_cases e2m_hyp e2m_per e2m_eli (Fin E) (Fin e)).
Proof. intros g. reflexivity. Qed.
