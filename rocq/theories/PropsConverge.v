(** * C66: the Kepler solver converges for every elliptic orbit *)
From Coq Require Import Reals QArith Qreals ZArith Lra Lia Bool List.
From Coquelicot Require Import Coquelicot.
From Verif Require Import NP NPReal Spec RealBase KeplerModel AnomReal PropsAnomaly PropsAnomalyR PropsSolver LagTrig LagReal.
Local Open Scope R_scope.

(** ** The code's step is [nextk] *)
Definition stepM (e M E : R) : R := E - step5 (1 - e * cos E) (e * sin E) (E - e * sin E - M).
Lemma lag_next_ell (o : solver_options num) M e E : 0 <= e < 1 -> degree o = Fin 5 ->
  lag_next o M e (Fin E) = Fin (stepM e M E).
Proof.
  intros He Hn. unfold lag_next. rewrite lag_f_real by lra. unfold lag_step. rewrite Hn, lag_fp_real by lra.
  unfold lag_fpp. num. rewrite (Rltb_false 1 e) by lra. num. rewrite Fin_sqrt by apply Rabs_pos. num.
  unfold kepler_M, kepler_dM. destruct (Rlt_dec e 1); [|lra].
  match goal with |- context [sqrt (Rabs ?z)] =>
    replace z with (16 * (1 - e * cos E) ^ 2 - 20 * (E - e * sin E - M) * (e * sin E)) by ring end.
  fold (root5 (1 - e * cos E) (e * sin E) (E - e * sin E - M)).
  pose proof (root5_ge0 (1 - e * cos E) (e * sin E) (E - e * sin E - M)) as S.
  set (s := root5 _ _ _) in *.
  assert (D : 0 < 1 - e * cos E) by (apply a_pos; lra). set (d := 1 - e * cos E) in *.
  rewrite Rltb_false.
  2:{ rewrite (Rabs_left (- d - s)) by lra. apply Rabs_le. lra. }
  rewrite Fin_div by lra. num. f_equal. unfold stepM, step5. fold d s. field. lra.
Qed.
Lemma iter_next_ell (o : solver_options num) M e E n : 0 <= e < 1 -> degree o = Fin 5 ->
  Nat.iter n (lag_next o M e) (Fin E) = Fin (Nat.iter n (stepM e M) E).
Proof.
  intros He Hn. induction n as [|n IH]; [reflexivity|].
  change (lag_next o M e (Nat.iter n (lag_next o M e) (Fin E)) = Fin (stepM e M (Nat.iter n (stepM e M) E))).
  rewrite IH. now apply lag_next_ell.
Qed.
Lemma stepM_next e y E : stepM e (y - e * sin y) E = nextk e y E.
Proof. unfold stepM, nextk, gk. do 2 f_equal. ring. Qed.
Lemma iter_ext (f g : R -> R) n x : (forall x, f x = g x) -> Nat.iter n f x = Nat.iter n g x.
Proof.
  intros H. induction n as [|n IH]; [reflexivity|].
  change (f (Nat.iter n f x) = g (Nat.iter n g x)). now rewrite IH.
Qed.
(** reflection at pi *)
Lemma stepM_mirror e M E : stepM e (2 * PI - M) (2 * PI - E) = 2 * PI - stepM e M E.
Proof.
  unfold stepM. replace (cos (2 * PI - E)) with (cos E).
  2:{ rewrite cos_minus, cos_2PI, sin_2PI. ring. }
  replace (sin (2 * PI - E)) with (- sin E).
  2:{ rewrite sin_minus, cos_2PI, sin_2PI. ring. }
  replace (2 * PI - E - e * - sin E - (2 * PI - M)) with (- (E - e * sin E - M)) by ring.
  replace (e * - sin E) with (- (e * sin E)) by ring.
  unfold step5, root5. set (g := E - e * sin E - M). set (h := e * sin E).
  replace (20 * - g * - h) with (20 * g * h) by ring. unfold Rdiv. ring.
Qed.
Lemma iter_mirror e M E n : Nat.iter n (stepM e (2 * PI - M)) (2 * PI - E) = 2 * PI - Nat.iter n (stepM e M) E.
Proof.
  induction n as [|n IH]; [reflexivity|].
  change (stepM e (2 * PI - M) (Nat.iter n (stepM e (2 * PI - M)) (2 * PI - E)) = 2 * PI - stepM e M (Nat.iter n (stepM e M) E)).
  rewrite IH. apply stepM_mirror.
Qed.

(** ** The first half of the orbit *)
Lemma half_root e M : 0 <= e < 1 -> 0 <= M <= PI -> exists y, 0 <= y <= PI /\ M = y - e * sin y.
Proof.
  intros He HM. destruct (kepler_onto e M (proj1 He)) as [y Hy]. unfold kepler_M in Hy.
  destruct (Rlt_dec e 1); [|lra]. exists y. split; [|lra].
  assert (K : forall a b, a < b -> a - e * sin a < b - e * sin b).
  { intros a b L. pose proof (kepler_incr e a b (proj1 He) L) as X. unfold kepler_M in X.
    destruct (Rlt_dec e 1); lra. }
  split.
  - destruct (Rle_lt_dec 0 y) as [C|C]; auto. specialize (K _ _ C). rewrite sin_0 in K. lra.
  - destruct (Rle_lt_dec y PI) as [C|C]; auto. specialize (K _ _ C). rewrite sin_PI in K. lra.
Qed.
Lemma pow_small t m n : 8 * (5 / 6) ^ m < t -> (m <= n)%nat -> 8 * (5 / 6) ^ n < t.
Proof.
  intros H L. replace n with (m + (n - m))%nat by lia. rewrite pow_add.
  assert (0 < (5 / 6) ^ m) by (apply pow_lt; lra).
  assert ((5 / 6) ^ (n - m) <= 1 ^ (n - m)) by (apply pow_incr; lra). rewrite pow1 in *. nra.
Qed.
Lemma half_conv e M t m : 0 <= e < 1 -> 0 <= M <= PI -> 8 * (5 / 6) ^ m < t ->
  exists n, (n <= 2 * m + 1)%nat /\
    let E := Nat.iter n (stepM e M) (guess_half M e) in Rabs (E - e * sin E - M) < t.
Proof.
  intros He HM Ht. destruct (half_root e M He HM) as [y [Hy My]].
  assert (X : exists n, (n <= 2 * m + 1)%nat /\ Rabs (gk e y (Nat.iter n (nextk e y) (guess_half M e))) < t).
  2:{ destruct X as [n [N X]]. exists n. split; auto. cbv zeta.
      rewrite (iter_ext (stepM e M) (nextk e y)) by (intros; rewrite My; apply stepM_next).
      set (E := Nat.iter n _ _) in *. replace (E - e * sin E - M) with (gk e y E) by (unfold gk; rewrite My; ring). exact X. }
  assert (RC : forall E, RG y E -> E - y <= 4 -> exists n, (n <= 2 * m + 1)%nat /\ Rabs (gk e y (Nat.iter n (nextk e y) E)) < t).
  { intros E R1 R2. exists m. split; [lia|]. assert (S : St e y 4 E) by (left; auto).
    pose proof (St_gk e y He Hy _ _ (iter_St e y He Hy 4 E m S)). lra. }
  unfold guess_half. destruct (Rltb_spec M (/ 4)) as [C|C]; [|destruct (Rltb_spec M 2) as [C'|C']].
  - pose proof (guess_small e y He Hy M My C) as L. set (E := M + _) in *.
    assert (Q0 : - gk e y E <= 1).
    { destruct L as [_ [_ L]]. pose proof (SIN_bound E). nra. }
    assert (SM : forall i, (m <= i)%nat -> forall E', LS e y E' -> - gk e y E' <= (3 / 8) ^ i * - gk e y E -> Rabs (gk e y E') < t).
    { intros i Hi E' L' B. pose proof (gk_left_nonneg e y He Hy E' (proj1 L')). rewrite <- Rabs_Ropp, Rabs_pos_eq by auto.
      pose proof (pow_small t m i Ht Hi). assert ((3 / 8) ^ i <= (5 / 6) ^ i) by (apply pow_incr; lra).
      assert (0 < (3 / 8) ^ i) by (apply pow_lt; lra). nra. }
    destruct (iter_start e y He Hy E (2 * m + 1) L) as [[H1 H2]|[i [j [Hij [H1 [H2 H3]]]]]].
    + exists (2 * m + 1)%nat. split; auto. eapply SM; [|exact H1|exact H2]. lia.
    + destruct (Nat.le_gt_cases m i) as [Hi|Hi].
      * exists i. split; [lia|]. eapply SM; [|exact H2|exact H3]. exact Hi.
      * exists (2 * m + 1)%nat. split; auto. pose proof (St_gk e y He Hy _ _ H1).
        pose proof (pow_small t m j Ht ltac:(lia)). assert (0 < (5 / 6) ^ j) by (apply pow_lt; lra). lra.
  - destruct (guess_mid e y He Hy M My ltac:(lra)) as [R1 R2]. now apply RC.
  - destruct (guess_large e y He Hy M My ltac:(lra)) as [R1 R2]. now apply RC.
Qed.
(** ** The whole orbit *)
Lemma full_conv e M t m : 0 <= e < 1 -> 0 <= M <= 2 * PI -> 8 * (5 / 6) ^ m < t ->
  exists n, (n <= 2 * m + 1)%nat /\
    let E := Nat.iter n (stepM e M) (guessR M e) in Rabs (E - e * sin E - M) < t.
Proof.
  intros He HM Ht. unfold guessR. destruct (Rltb_spec PI M) as [C|C]; [|apply half_conv; auto; lra].
  destruct (half_conv e (2 * PI - M) t m He ltac:(lra) Ht) as [n [N X]]. exists n. split; auto. cbv zeta in *.
  pose proof (iter_mirror e (2 * PI - M) (guess_half (2 * PI - M) e) n) as I.
  replace (2 * PI - (2 * PI - M)) with M in I by ring. rewrite I.
  set (E := Nat.iter n _ _) in *. rewrite sin_minus, cos_2PI, sin_2PI.
  replace (2 * PI - E - e * (0 * cos E - 1 * sin E) - M) with (- (E - e * sin E - (2 * PI - M))) by ring.
  now rewrite Rabs_Ropp.
Qed.

(** Started from the code's own initial guess, the solver (with its polynomial degree 5) reaches any
    tolerance for every eccentricity below 1 and every mean anomaly of one revolution, after a number of
    iterations that depends on the tolerance only. *)
Theorem C66_solver_converges : forall o t m M e,
  0 <= e < 1 -> 0 <= M <= 2 * PI -> degree o = Fin 5 -> tol o = Fin t -> 8 * (5 / 6) ^ m < t ->
  (2 * Z.of_nat m + 1 < max_iter o)%Z ->
  exists E n, laguerre_solve_kepler (get_kepler_guess (Fin M) (Fin e)) (Fin M) (Fin e) o = (Fin E, n)
    /\ (0 <= n <= 2 * Z.of_nat m + 1)%Z /\ Rabs (E - e * sin E - M) < t.
Proof.
  intros o t m M e He HM Hd Ht Hm Hi. rewrite get_guess_real by lra.
  destruct (full_conv e M t m He HM Hm) as [n [N X]]. cbv zeta in X.
  destruct (C18_laguerre_terminates (Fin (guessR M e)) (Fin M) (Fin e) o) as [k [_ [K1 [_ [K2 [K3 _]]]]]].
  change (fun E => lag_step (Fin e) o E (lag_f (Fin M) (Fin e) E)) with (lag_next o M e) in *.
  assert (F : forall j, leb (tol o) (nabs (lag_f (Fin M) (Fin e) (Nat.iter j (lag_next o M e) (Fin (guessR M e)))))
     = Rleb t (Rabs (Nat.iter j (stepM e M) (guessR M e) - e * sin (Nat.iter j (stepM e M) (guessR M e)) - M))).
  { intros j. rewrite iter_next_ell, lag_f_real, Ht by (auto; lra). num. f_equal.
    rewrite <- Rabs_Ropp. f_equal. unfold kepler_M. destruct (Rlt_dec e 1); [ring|lra]. }
  assert (L : (k <= n)%nat).
  { destruct (Nat.le_gt_cases k n) as [|G]; auto. specialize (K2 n G). rewrite F, Rleb_false in K2 by auto. discriminate. }
  specialize (K3 ltac:(lia)). rewrite F in K3. rewrite iter_next_ell in K1 by auto.
  eexists. eexists. split; [exact K1|]. split; [lia|].
  destruct (Rleb_spec t (Rabs (Nat.iter k (stepM e M) (guessR M e) - e * sin (Nat.iter k (stepM e M) (guessR M e)) - M))); [easy|lra].
Qed.
(** with the default options: always below 1e-12, in at most 327 of the allowed 5000 iterations *)
Lemma default_small : 8 * (5 / 6) ^ 163 < / 1000000000000.
Proof.
  assert (H : (8 * 5 ^ Z.of_nat 163 * 1000000000000 < 6 ^ Z.of_nat 163)%Z) by (vm_compute; reflexivity).
  apply IZR_lt in H. rewrite !mult_IZR, <- !pow_IZR in H.
  unfold Rdiv. rewrite Rpow_mult_distr, pow_inv.
  assert (P : 0 < 6 ^ 163) by (apply pow_lt; lra).
  apply (Rmult_lt_reg_r (6 ^ 163 * 1000000000000)); [nra|].
  replace (8 * (5 ^ 163 * / 6 ^ 163) * (6 ^ 163 * 1000000000000)) with (8 * 5 ^ 163 * 1000000000000) by (field; lra).
  replace (/ 1000000000000 * (6 ^ 163 * 1000000000000)) with (6 ^ 163) by (field; lra).
  exact H.
Qed.
Lemma mean_range e E : 0 <= e < 1 -> in_circle E -> 0 <= E - e * sin E <= 2 * PI.
Proof.
  intros He [E0 E1]. assert (K : forall a b, a <= b -> a - e * sin a <= b - e * sin b).
  { intros a b [L| ->]; [|lra]. pose proof (kepler_incr e a b (proj1 He) L) as X. unfold kepler_M in X.
    destruct (Rlt_dec e 1); lra. }
  pose proof (K 0 E E0) as A. pose proof (K E (2 * PI) ltac:(lra)) as B. rewrite sin_0 in A. rewrite sin_2PI in B. lra.
Qed.
(** ** Options that converge: degree 5 and enough iterations for the tolerance *)
Definition conv_opts (o : solver_options num) (t : R) : Prop :=
  tol o = Fin t /\ degree o = Fin 5 /\ exists m, 8 * (5 / 6) ^ m < t /\ (2 * Z.of_nat m + 1 < max_iter o)%Z.
Lemma conv_opts_default : conv_opts default_options (/ 1000000000000).
Proof.
  split; [cbn [tol default_options]; now num|]. split; [cbn [degree default_options]; now num|].
  exists 163%nat. split; [exact default_small|]. cbn [max_iter default_options]. lia.
Qed.
Lemma conv_opts_pos o t : conv_opts o t -> 0 < t.
Proof. intros [_ [_ [m [H _]]]]. assert (0 < (5 / 6) ^ m) by (apply pow_lt; lra). lra. Qed.
Lemma conv_opts_converged o t M e : conv_opts o t -> 0 <= e < 1 -> 0 <= M <= 2 * PI ->
  converged o (get_kepler_guess (Fin M) (Fin e)) M e.
Proof.
  intros [H1 [H2 [m [H3 H4]]]] He HM.
  destruct (C66_solver_converges o t m M e He HM H2 H1 H3 H4) as [E [n [X [N _]]]].
  unfold converged. rewrite X. cbn [snd]. lia.
Qed.
(** mean_to_eccentric: for every 0 <= e < 1 and M in [0, 2 pi] the result solves Kepler's equation to the
    tolerance and lies within tol / (1 - e) of the exact solution; no hypothesis on convergence *)
Theorem C66_mean_to_eccentric : forall o t M e, conv_opts o t -> 0 <= e < 1 -> 0 <= M <= 2 * PI ->
  exists E, m2e o M e (Fin E) /\ Rabs (E - e * sin E - M) < t
    /\ forall Es, Es - e * sin Es = M -> Rabs (E - Es) <= t / (1 - e).
Proof.
  intros o t M e Ho He HM. pose proof (conv_opts_pos o t Ho) as Tp.
  pose proof (conv_opts_converged o t M e Ho He HM) as C. destruct Ho as [H1 [H2 _]].
  destruct (C20_ellipse o 5 t M e He H1 Tp H2 ltac:(lra)) as [E [T [_ H]]].
  exists E. destruct (H C) as [A [_ B]]. auto.
Qed.
(** mean to true and back, and true to mean and back *)
Theorem C66_mean_to_true : forall o t e, conv_opts o t -> 0 <= e < 1 ->
  (forall M, 0 <= M <= 2 * PI -> exists nu M' k, m2t o M e (Fin nu) /\ in_circle nu /\ t2m nu e (Fin M')
       /\ Rabs (M' + 2 * PI * IZR k - M) < t)
  /\ (forall nu, in_circle nu -> exists M nu' E E', t2m nu e (Fin M) /\ m2t o M e (Fin nu') /\ in_circle nu'
         /\ anomalies_ell e nu E /\ anomalies_ell e nu' E' /\ Rabs (E' - E) <= t / (1 - e)).
Proof.
  intros o t e Ho He. pose proof (conv_opts_pos o t Ho) as Tp. pose proof Ho as [H1 [H2 _]].
  destruct (C23_mean_true o 5 t e He H1 Tp H2 ltac:(lra)) as [A B]. split.
  - intros M HM. apply A. now apply (conv_opts_converged o t).
  - intros nu Hn. destruct (B nu Hn) as [M [T C]]. 
    destruct (C15_ellipse e He) as [A' _]. destruct (A' nu) as [E [T3 [C3 R3]]].
    pose proof (t2m_of_t2e nu e E T3 (proj1 He)) as T4.
    assert (M = kepler_M e E). { pose proof (T (fun _ => nan) (fun _ => nan)) as Q1. pose proof (T4 (fun _ => nan) (fun _ => nan)) as Q2. congruence. }
    assert (HM : 0 <= M <= 2 * PI).
    { subst M. unfold kepler_M. destruct (Rlt_dec e 1); [|lra]. now apply mean_range. }
    destruct (C (conv_opts_converged o t M e Ho He HM)) as [nu' [E1 [E2 Q]]].
    exists M, nu', E1, E2. tauto.
Qed.
(** default options, M = 1, e = 99/100: the iterations take place *)
Example C66_example : exists E n,
  laguerre_solve_kepler (get_kepler_guess (Fin 1) (Fin (99 / 100))) (Fin 1) (Fin (99 / 100)) default_options = (Fin E, n)
  /\ (0 <= n <= 327)%Z /\ Rabs (E - 99 / 100 * sin E - 1) < / 1000000000000.
Proof.
  destruct conv_opts_default as [H1 [H2 _]].
  assert (HP : 1 <= 2 * PI) by (pose proof PI2_3_2 as P; unfold PI2 in P; lra).
  destruct (C66_solver_converges default_options (/ 1000000000000) 163 1 (99 / 100) ltac:(lra) ltac:(lra) H2 H1
    default_small ltac:(cbn; lia)) as [E [n [X [N R]]]].
  exists E, n. split; [exact X|]. split; [lia|exact R].
Qed.
