(** * The Kepler solver over the reals: C19, C20, C22, C23, C25 *)
From Coq Require Import Reals QArith Qreals ZArith Lra Lia Bool List.
From Coquelicot Require Import Coquelicot.
From Verif Require Import NP NPReal Spec RealBase KeplerModel AnomReal PropsAnomaly PropsAnomalyR.
Local Open Scope R_scope.

(** ** C19 *)
Lemma lag_f_real M e E : e <> 1 -> lag_f (Fin M) (Fin e) (Fin E) = Fin (M - kepler_M e E).
Proof.
  intros He. unfold lag_f, kepler_M. num. destruct (Rltb_spec 1 e); destruct (Rlt_dec e 1); try lra.
  - destruct (Rlt_dec 1 e); [|lra]. f_equal. ring.
  - f_equal. ring.
Qed.
Lemma lag_fp_real e E : e <> 1 -> lag_fp (Fin e) (Fin E) = Fin (- kepler_dM e E).
Proof.
  intros He. unfold lag_fp, kepler_dM. num. destruct (Rltb_spec 1 e); destruct (Rlt_dec e 1); try lra.
  - destruct (Rlt_dec 1 e); [|lra]. f_equal. ring.
  - f_equal. ring.
Qed.
Lemma lag_fpp_real e E : exists z, lag_fpp (Fin e) (Fin E) = Fin z.
Proof. unfold lag_fpp. num. destruct (Rltb 1 e); eexists; reflexivity. Qed.

(** one step: finite, and strictly in the direction of the root *)
Lemma lag_step_real (o : solver_options num) n e E f : 0 <= e -> e <> 1 -> degree o = Fin n -> 1 <= n ->
  exists s E', 0 <= s /\ lag_step (Fin e) o (Fin E) (Fin f) = Fin E'
    /\ E' = E + n * f / (kepler_dM e E + s).
Proof.
  intros He H1 Hn Hn1. unfold lag_step. rewrite Hn, lag_fp_real by auto.
  destruct (lag_fpp_real e E) as [z Hz]. rewrite Hz. num.
  rewrite Fin_sqrt by apply Rabs_pos. num.
  match goal with |- context [sqrt ?z] => set (s := sqrt z); assert (S : 0 <= s) by apply sqrt_pos end.
  pose proof (kepler_dM_pos e E He) as D. set (d := kepler_dM e E) in *.
  rewrite Rltb_false.
  2:{ rewrite (Rabs_left (- d - s)) by lra. apply Rabs_le. lra. }
  rewrite Fin_div by lra. num. exists s. eexists. split; [exact S|]. split; [reflexivity|]. field. lra.
Qed.
Definition lag_next (o : solver_options num) (M e : R) (E : num) : num :=
  lag_step (Fin e) o E (lag_f (Fin M) (Fin e) E).
Theorem C19_laguerre_step : forall (o : solver_options num) n M e E Es,
  0 <= e -> e <> 1 -> degree o = Fin n -> 1 <= n -> kepler_M e Es = M ->
  exists E', lag_next o M e (Fin E) = Fin E'
    /\ (E < Es -> E < E') /\ (Es < E -> E' < E) /\ (E = Es -> E' = E).
Proof.
  intros o n M e E Es He H1 Hn Hn1 HM. unfold lag_next. rewrite lag_f_real by auto.
  destruct (lag_step_real o n e E (M - kepler_M e E) He H1 Hn Hn1) as [s [E' [S [X Y]]]].
  exists E'. rewrite X. split; [reflexivity|]. pose proof (kepler_dM_pos e E He) as D. subst M.
  assert (P : 0 < n / (kepler_dM e E + s)) by (apply Rdiv_lt_0_compat; lra).
  replace (n * (kepler_M e Es - kepler_M e E) / (kepler_dM e E + s))
     with (n / (kepler_dM e E + s) * (kepler_M e Es - kepler_M e E)) in Y by (field; lra).
  repeat split; intros L.
  - pose proof (kepler_incr e _ _ He L). nra.
  - pose proof (kepler_incr e _ _ He L). nra.
  - subst Es. nra.
Qed.
(** hence every iterate is finite *)
Theorem C19_iterates_finite : forall (o : solver_options num) n M e E k,
  0 <= e -> e <> 1 -> degree o = Fin n -> 1 <= n ->
  exists Ek, Nat.iter k (lag_next o M e) (Fin E) = Fin Ek.
Proof.
  intros o n M e E k He H1 Hn Hn1. destruct (kepler_onto e M He) as [Es HM]. 
  induction k as [|k [Ek IH]]; [exists E; reflexivity|].
  destruct (C19_laguerre_step o n M e Ek Es He H1 Hn Hn1 HM) as [E' [X _]].
  exists E'. change (lag_next o M e (Nat.iter k (lag_next o M e) (Fin E)) = Fin E'). now rewrite IH.
Qed.
(** default options, M = 1, e = 1/2, started at E = 0 *)
Example C19_example : exists E', lag_next default_options 1 (1/2) (Fin 0) = Fin E' /\ 0 < E'.
Proof.
  assert (He : 0 <= 1/2) by lra. destruct (kepler_onto (1/2) 1 He) as [Es X].
  destruct (C19_laguerre_step default_options 5 1 (1/2) 0 Es) as [E' [Y [Z _]]]; auto; try lra.
  { unfold default_options; cbn [degree]. apply lit_5. }
  exists E'. split; auto. apply Z. destruct (Rlt_le_dec 0 Es) as [|L]; auto. exfalso.
  assert (kepler_M (1/2) Es <= kepler_M (1/2) 0).
  { destruct L as [L| ->]; [left; now apply kepler_incr|lra]. }
  unfold kepler_M in *. destruct (Rlt_dec (1/2) 1); [|lra]. rewrite sin_0 in *. lra.
Qed.

(** ** The complete solver *)
(** the iteration count reported for a start value *)
Definition converged (o : solver_options num) (E0 : num) (M e : R) : Prop :=
  (snd (laguerre_solve_kepler E0 (Fin M) (Fin e) o) < max_iter o)%Z.
Lemma solver_real o n t M e E0 : 0 <= e -> e <> 1 -> degree o = Fin n -> 1 <= n -> tol o = Fin t ->
  exists E, fst (laguerre_solve_kepler (Fin E0) (Fin M) (Fin e) o) = Fin E
    /\ (converged o (Fin E0) M e -> Rabs (kepler_M e E - M) < t)
    /\ (Rabs (kepler_M e E0 - M) < t -> E = E0).
Proof.
  intros He H1 Hn Hn1 Ht. destruct (C18_laguerre_terminates (Fin E0) (Fin M) (Fin e) o) as [k [K1 [_ [K2 [K3 [K4 K5]]]]]].
  change (Nat.iter k (fun E => lag_step (Fin e) o E (lag_f (Fin M) (Fin e) E)) (Fin E0))
    with (Nat.iter k (lag_next o M e) (Fin E0)) in *.
  destruct (C19_iterates_finite o n M e E0 k He H1 Hn Hn1) as [E X]. rewrite X in *.
  exists E. unfold converged, laguerre_solve_kepler. rewrite K1. cbn [fst snd]. split; [reflexivity|]. split.
  - intros L. specialize (K4 L). rewrite lag_f_real, Ht in K4 by auto. num in K4.
    rewrite <- Rabs_Ropp, Ropp_minus_distr. destruct (Rleb_spec t (Rabs (M - kepler_M e E))); [easy|lra].
  - intros L. assert (k = 0%nat) as ->.
    { apply K5. rewrite lag_f_real, Ht by auto. num. rewrite Rleb_false; auto.
      rewrite <- Rabs_Ropp, Ropp_minus_distr. exact L. }
    cbn in X. congruence.
Qed.

(** ** C25 *)
Lemma sin_diff_le e M : 0 <= e <= 1 -> sin (M + e) - sin M < 1.
Proof.
  intros [H0 H1]. rewrite form4.
  replace ((M + e - M) / 2) with (e / 2) by field.
  assert (0 <= sin (e / 2)). { apply sin_ge_0; pose proof PI_RGT_0; pose proof PI2_3_2 as P; unfold PI2 in P; lra. }
  pose proof (COS_bound ((M + e + M) / 2)).
  destruct (Req_dec e 0) as [->|Hn].
  - replace (0 / 2) with 0 by field. rewrite sin_0. lra.
  - pose proof (sin_lt_x (e / 2)). nra.
Qed.
Definition guess_half (M e : R) : R :=
  if Rltb M (/4) then M + e * sin M / (1 - sin (M + e) + sin M)
  else if Rltb M 2 then M + e else M + e * (PI - M) / (1 + e).
Definition guessR (M e : R) : R :=
  if Rltb PI M then 2 * PI - guess_half (2 * PI - M) e else guess_half M e.
Lemma get_guess_real M e : 0 <= e <= 1 -> get_kepler_guess (Fin M) (Fin e) = Fin (guessR M e).
Proof.
  intros He. unfold get_kepler_guess, guessR, guess_half. num.
  destruct (Rltb PI M); num; destruct (Rltb _ (/4)); num;
    rewrite ?Fin_div by (pose proof (sin_diff_le e M He); pose proof (sin_diff_le e (2 * PI - M) He); lra); num;
    try reflexivity; destruct (Rltb _ 2); num; reflexivity.
Qed.
Lemma guess_half_close M e : 0 <= e <= 1 -> 0 <= M <= PI ->
  0 <= guess_half M e - M <= (PI - 2) * e.
Proof.
  intros He HM. pose proof PI2_3_2 as P. unfold PI2 in P. unfold guess_half.
  destruct (Rltb_spec M (/4)); [|destruct (Rltb_spec M 2)].
  - pose proof (sin_diff_le e M He) as D. set (d := 1 - sin (M + e) + sin M) in *.
    assert (0 < d) by (unfold d; lra).
    assert (S : 0 <= sin M) by (apply sin_ge_0; lra). pose proof (SIN_bound (M + e)).
    assert (sin M / d <= 1).
    { apply Rmult_le_reg_r with d; auto. unfold Rdiv. rewrite Rmult_assoc, Rinv_l by lra. unfold d. lra. }
    assert (0 <= sin M / d) by (unfold Rdiv; apply Rmult_le_pos; auto; left; now apply Rinv_0_lt_compat).
    replace (e * sin M / d) with (e * (sin M / d)) by (field; lra). nra.
  - nra.
  - assert (I : 0 < / (1 + e) <= 1).
    { split; [apply Rinv_0_lt_compat; lra|]. rewrite <- Rinv_1. apply Rinv_le_contravar; lra. }
    replace (M + e * (PI - M) / (1 + e) - M) with (e * ((PI - M) * / (1 + e))) by (field; lra).
    assert (0 <= (PI - M) * / (1 + e) <= PI - 2) by nra. nra.
Qed.
Lemma kepler_close M e E : 0 <= e < 1 -> kepler_M e E = M -> Rabs (E - M) <= e.
Proof.
  intros He. unfold kepler_M. destruct (Rlt_dec e 1); [|lra]. intros <-. pose proof (SIN_bound E).
  replace (E - (E - e * sin E)) with (e * sin E) by ring. apply Rabs_le. nra.
Qed.
Theorem C25_guess : forall e, 0 <= e <= 1 ->
  (forall M, exists E0, get_kepler_guess (Fin M) (Fin e) = Fin E0
     /\ get_kepler_guess (Fin (2 * PI - M)) (Fin e) = Fin (2 * PI - E0))
  /\ get_kepler_guess (Fin 0) (Fin e) = Fin 0
  /\ get_kepler_guess (Fin PI) (Fin e) = Fin PI
  /\ (forall M E0, 0 <= M <= 2 * PI -> get_kepler_guess (Fin M) (Fin e) = Fin E0 ->
        Rabs (E0 - M) <= (PI - 2) * e)
  /\ (forall M E0, 0 <= M <= PI -> get_kepler_guess (Fin M) (Fin e) = Fin E0 -> M <= E0)
  /\ (forall M E, e < 1 -> kepler_M e E = M -> Rabs (E - M) <= e).
Proof.
  intros e He. pose proof PI2_3_2 as P. unfold PI2 in P.
  assert (Epi : guessR PI e = PI).
  { unfold guessR, guess_half. rewrite !Rltb_false by lra. field. lra. }
  repeat split.
  - intros M. exists (guessR M e). rewrite !get_guess_real by auto. split; auto. f_equal.
    destruct (Rtotal_order M PI) as [L|[->|L]].
    + unfold guessR. rewrite (Rltb_true PI), (Rltb_false PI) by lra.
      replace (2 * PI - (2 * PI - M)) with M by ring. reflexivity.
    + replace (2 * PI - PI) with PI by ring. rewrite Epi. ring.
    + unfold guessR. rewrite (Rltb_false PI), (Rltb_true PI) by lra. ring.
  - rewrite get_guess_real by auto. f_equal. unfold guessR, guess_half.
    rewrite Rltb_false, Rltb_true, sin_0 by lra. unfold Rdiv. ring.
  - rewrite get_guess_real by auto. now rewrite Epi.
  - intros M E0 HM. rewrite get_guess_real by auto. intros X. injection X as <-. unfold guessR.
    destruct (Rltb_spec PI M).
    + pose proof (guess_half_close (2 * PI - M) e He). apply Rabs_le. lra.
    + pose proof (guess_half_close M e He). apply Rabs_le. lra.
  - intros M E0 HM. rewrite get_guess_real by auto. intros X. injection X as <-. unfold guessR.
    rewrite Rltb_false by lra. pose proof (guess_half_close M e He HM). lra.
  - intros M E H1. apply kepler_close. lra.
Qed.
Example C25_example : exists E0, get_kepler_guess (Fin 1) (Fin (1/2)) = Fin E0 /\ 1 <= E0.
Proof.
  destruct (C25_guess (1/2)) as [A [_ [_ [_ [B _]]]]]; [lra|]. destruct (A 1) as [E0 [X _]].
  exists E0. split; auto. apply (B 1); auto. pose proof PI2_3_2 as P. unfold PI2 in P. lra.
Qed.
(** the guess may be farther from M than e (the exact solution never is) *)
Theorem C25_within_e_refuted : exists M e E0, 0 <= M <= 2 * PI /\ 0 <= e <= 1 /\
  get_kepler_guess (Fin M) (Fin e) = Fin E0 /\ e < Rabs (E0 - M).
Proof.
  pose proof PI2_3_2 as P1. unfold PI2 in P1. pose proof PI_4 as P2.
  exists 2, ((PI - 3) / 2). eexists. split; [lra|]. split; [lra|]. split; [apply get_guess_real; lra|].
  unfold guessR, guess_half. rewrite !Rltb_false by lra.
  set (e := (PI - 3) / 2) in *. assert (He : 0 < e) by (unfold e; lra).
  replace (2 + e * (PI - 2) / (1 + e) - 2) with (e * ((PI - 2) / (1 + e))) by (field; lra).
  assert (1 < (PI - 2) / (1 + e)).
  { apply Rmult_lt_reg_r with (1 + e); [lra|]. unfold Rdiv. rewrite Rmult_assoc, Rinv_l by lra. unfold e. lra. }
  rewrite Rabs_pos_eq; nra.
Qed.

(** ** C20 *)
Lemma kepler_lip e E E' : 0 <= e < 1 -> (1 - e) * Rabs (E - E') <= Rabs (kepler_M e E - kepler_M e E').
Proof.
  intros He. destruct (MVT_gen (kepler_M e) E' E (kepler_dM e)) as [c [_ X]].
  - intros. apply kepler_derive.
  - intros. apply kepler_cont.
  - rewrite X, Rabs_mult. apply Rmult_le_compat_r; [apply Rabs_pos|].
    rewrite Rabs_pos_eq by (apply Rlt_le, kepler_dM_pos; lra).
    unfold kepler_dM. destruct (Rlt_dec e 1); [|lra]. pose proof (COS_bound c). nra.
Qed.
Lemma m2e_zero o M : m2e o M 0 (Fin M).
Proof. unfold m2e, mean_to_eccentric. cbn [in_rad broadcast rbind]. num. rewrite Reqb_true by lra. reflexivity. Qed.
Lemma m2e_nz o M e : e <> 0 -> m2e o M e (m2e_el o (Fin M) (Fin e)).
Proof.
  intros. unfold m2e, mean_to_eccentric. cbn [in_rad broadcast rbind]. num. rewrite Reqb_false by lra. reflexivity.
Qed.
(** accuracy, whenever the solver reports fewer than max_iter iterations for its start value *)
Theorem C20_ellipse : forall o n t M e, 0 <= e < 1 -> tol o = Fin t -> 0 < t -> degree o = Fin n -> 1 <= n ->
  exists E, m2e o M e (Fin E) /\ (e = 0 -> E = M)
    /\ (converged o (get_kepler_guess (Fin M) (Fin e)) M e ->
         Rabs (E - e * sin E - M) < t
         /\ (exists! Es, Es - e * sin Es = M)
         /\ forall Es, Es - e * sin Es = M -> Rabs (E - Es) <= t / (1 - e)).
Proof.
  intros o n t M e He Ht Htp Hn Hn1.
  assert (K : forall E, kepler_M e E = E - e * sin E) by (intros; unfold kepler_M; destruct (Rlt_dec e 1); lra).
  assert (U : exists! Es, Es - e * sin Es = M).
  { destruct (kepler_onto e M) as [Es X]; [lra|]. exists Es. split; [now rewrite <- K|].
    intros E' Y. rewrite <- K in Y. assert (He' : 0 <= e) by lra. destruct (Rtotal_order Es E') as [L|[L|L]]; auto;
      pose proof (kepler_incr e _ _ He' L); lra. }
  assert (B : forall E, Rabs (kepler_M e E - M) < t -> Rabs (E - e * sin E - M) < t
         /\ (exists! Es, Es - e * sin Es = M)
         /\ forall Es, Es - e * sin Es = M -> Rabs (E - Es) <= t / (1 - e)).
  { intros E L. split; [now rewrite <- K|]. split; [exact U|]. intros Es X. rewrite <- K in X. subst M.
    pose proof (kepler_lip e E Es He). apply Rmult_le_reg_l with (1 - e); [lra|].
    replace ((1 - e) * (t / (1 - e))) with t by (field; lra). lra. }
  destruct (Req_dec e 0) as [->|H0].
  - exists M. split; [apply m2e_zero|]. split; auto. intros _. apply B. rewrite K.
    replace (M - 0 * sin M - M) with 0 by ring. rewrite Rabs_R0. lra.
  - destruct (solver_real o n t M e (guessR M e)) as [E [X [Y _]]]; auto; try lra.
    exists E. pose proof (m2e_nz o M e H0) as T. unfold m2e_el in T. num in T.
    rewrite Rltb_false, Reqb_false, get_guess_real, X in T by lra. split; [exact T|]. split; [lra|].
    rewrite get_guess_real by lra. intros C. apply B. now apply Y.
Qed.
(** M = pi, e = 1/2: the guess is exact, the solver needs no iteration *)
Example C20_example : converged default_options (get_kepler_guess (Fin PI) (Fin (1/2))) PI (1/2).
Proof.
  destruct (C25_guess (1/2)) as [_ [_ [-> _]]]; [lra|].
  unfold converged. destruct (C18_laguerre_terminates (Fin PI) (Fin PI) (Fin (1/2)) default_options) as [k [_ [K1 [_ [_ [_ K2]]]]]].
  rewrite K1. cbn [snd]. rewrite K2; [reflexivity|]. rewrite lag_f_real by lra.
  cbn [tol default_options]. num. rewrite Rleb_false; auto.
  unfold kepler_M. destruct (Rlt_dec (1/2) 1); [|lra]. rewrite sin_PI.
  replace (PI - (PI - 1 / 2 * 0)) with 0 by ring. rewrite Rabs_R0. lra.
Qed.

(** ** C22 *)
(** Missing: M <= -0.9 e, where the start value is not a number (refuted below). *)
Theorem C22_hyperbola_partial : forall o n t M e, 1 < e -> - (9/10) * e < M ->
  tol o = Fin t -> degree o = Fin n -> 1 <= n ->
  exists E0 E, get_hyperbolic_kepler_guess (Fin M) (Fin e) = Fin E0 /\ m2e o M e (Fin E)
    /\ (converged o (Fin E0) M e -> Rabs (e * sinh E - E - M) < t
        /\ forall Es, e * sinh Es - Es = M -> Rabs (E - Es) <= t / (e - 1)).
Proof.
  intros o n t M e He HM Ht Hn Hn1.
  assert (G : 0 < 2 * M / e + 9 / 5).
  { apply Rmult_lt_reg_r with e; [lra|]. rewrite Rmult_0_l.
    replace ((2 * M / e + 9 / 5) * e) with (2 * M + 9 / 5 * e) by (field; lra). lra. }
  exists (ln (2 * M / e + 9 / 5)).
  assert (G2 : get_hyperbolic_kepler_guess (Fin M) (Fin e) = Fin (ln (2 * M / e + 9 / 5))).
  { unfold get_hyperbolic_kepler_guess. num. rewrite Fin_div by lra. num. now rewrite Fin_log. }
  destruct (solver_real o n t M e (ln (2 * M / e + 9 / 5))) as [E [X [Y _]]]; auto; try lra.
  exists E. split; [exact G2|]. pose proof (m2e_nz o M e) as T. unfold m2e_el in T. num in T.
  rewrite Rltb_true, G2, X in T by lra. split; [apply T; lra|]. intros C. specialize (Y C).
  assert (K : forall E, kepler_M e E = e * sinh E - E).
  { intros. unfold kepler_M. destruct (Rlt_dec e 1); [lra|]. destruct (Rlt_dec 1 e); lra. }
  rewrite K in Y. split; auto. intros Es Z.
  destruct (MVT_gen (kepler_M e) Es E (kepler_dM e)) as [c [_ V]].
  - intros. apply kepler_derive.
  - intros. apply kepler_cont.
  - assert (D : e - 1 <= kepler_dM e c).
    { unfold kepler_dM. destruct (Rlt_dec e 1); [lra|]. destruct (Rlt_dec 1 e); [|lra]. pose proof (cosh_ge_1 c). nra. }
    rewrite !K in V. rewrite Z in V. rewrite V, Rabs_mult, (Rabs_pos_eq (kepler_dM e c)) in Y by lra.
    apply Rmult_le_reg_l with (e - 1); [lra|].
    replace ((e - 1) * (t / (e - 1))) with t by (field; lra).
    pose proof (Rabs_pos (E - Es)). nra.
Qed.
Theorem C22_hyperbola_refuted : forall o t M e, 1 < e -> M <= - (9/10) * e -> tol o = Fin t ->
  exists E, m2e o M e E /\ forall x, E <> Fin x.
Proof.
  intros o t M e He HM Ht.
  assert (D : 2 * M / e + 9 / 5 = (2 * M + 9 / 5 * e) / e) by (field; lra).
  pose proof (m2e_nz o M e) as T. unfold m2e_el, get_hyperbolic_kepler_guess in T. num in T.
  rewrite Rltb_true, Fin_div in T by lra. num in T. rewrite D in T. cbn [nlog NP_num num_log] in T.
  assert (Ie : 0 < / e) by (apply Rinv_0_lt_compat; lra).
  destruct (Rlt_dec 0 ((2 * M + 9 / 5 * e) / e)) as [G|G].
  { exfalso. unfold Rdiv in G. nra. }
  assert (F : forall z, z = NaN \/ z = NInf -> lag_f (Fin M) (Fin e) z = NaN).
  { intros z [-> | ->]; unfold lag_f; num; rewrite Rltb_true by lra; cbn; auto.
    unfold num_sign. destruct (Rlt_dec 0 e); [|lra]. reflexivity. }
  assert (L : forall z, z = NaN \/ z = NInf -> fst (laguerre_solve_kepler z (Fin M) (Fin e) o) = z).
  { intros z Hz. destruct (C18_laguerre_terminates z (Fin M) (Fin e) o) as [k [_ [K1 [_ [_ [_ K2]]]]]].
    rewrite K1. cbn [fst]. rewrite K2; [reflexivity|]. rewrite F by auto. rewrite Ht. reflexivity. }
  destruct (Rlt_dec ((2 * M + 9 / 5 * e) / e) 0).
  - rewrite L in T by auto. exists NaN. split; [apply T; lra|easy].
  - rewrite L in T by auto. exists NInf. split; [apply T; lra|easy].
Qed.
Example C22_example : exists E0 E, get_hyperbolic_kepler_guess (Fin (-1)) (Fin 2) = Fin E0
  /\ m2e default_options (-1) 2 (Fin E).
Proof.
  destruct (C22_hyperbola_partial default_options 5 (/1000000000000) (-1) 2) as [E0 [E [A [B _]]]]; try lra.
  - cbn [tol default_options]. now num.
  - cbn [degree default_options]. now num.
  - eauto.
Qed.

(** ** C23 *)
Lemma t2m_of_t2e nu e E : t2e nu e (Fin E) -> 0 <= e -> t2m nu e (Fin (kepler_M e E)).
Proof.
  intros T He g1 g2. unfold true_to_mean. cbn [in_rad]. rewrite (T g1). cbn [rbind].
  destruct (C17_kepler_equation e He) as [A _]. rewrite (A E g2). reflexivity.
Qed.
Lemma m2t_of_m2e o M e E nu : m2e o M e (Fin E) -> e2t E e (Fin nu) -> m2t o M e (Fin nu).
Proof.
  intros T1 T2 g. unfold mean_to_true. cbn [in_rad]. rewrite T1. cbn [rbind]. rewrite (T2 g). reflexivity.
Qed.
(** two mean anomalies that agree up to [t] modulo 2pi *)
Theorem C23_mean_true : forall o n t e, 0 <= e < 1 -> tol o = Fin t -> 0 < t -> degree o = Fin n -> 1 <= n ->
  (forall M, converged o (get_kepler_guess (Fin M) (Fin e)) M e ->
     exists nu M' k, m2t o M e (Fin nu) /\ in_circle nu /\ t2m nu e (Fin M')
       /\ Rabs (M' + 2 * PI * IZR k - M) < t)
  /\ (forall nu, in_circle nu -> exists M, t2m nu e (Fin M) /\
       (converged o (get_kepler_guess (Fin M) (Fin e)) M e ->
        exists nu' E E', m2t o M e (Fin nu') /\ in_circle nu'
         /\ anomalies_ell e nu E /\ anomalies_ell e nu' E' /\ Rabs (E' - E) <= t / (1 - e))).
Proof.
  intros o n t e He Ht Htp Hn Hn1. destruct (C15_ellipse e He) as [A [B [C D]]].
  assert (K : forall E, kepler_M e E = E - e * sin E) by (intros; unfold kepler_M; destruct (Rlt_dec e 1); lra).
  split.
  - intros M Cv. destruct (C20_ellipse o n t M e He Ht Htp Hn Hn1) as [E [T [_ H]]].
    destruct (H Cv) as [R [_ _]]. destruct (B E) as [nu [T2 [C2 R2]]].
    destruct (A nu) as [E' [T3 [C3 R3]]].
    destruct (ell_cong_r e He nu E E' R2 R3) as [k Hk].
    exists nu, (kepler_M e E'), k. split; [eapply m2t_of_m2e; eauto|]. split; [exact C2|].
    split; [apply t2m_of_t2e; auto; lra|]. rewrite K.
    replace (E' - e * sin E' + 2 * PI * IZR k - M) with (E - e * sin E - M); auto.
    rewrite Hk, sin_period_Z. ring.
  - intros nu Hc. destruct (A nu) as [E [T [C1 R1]]]. exists (kepler_M e E).
    split; [apply t2m_of_t2e; auto; lra|]. intros Cv.
    destruct (C20_ellipse o n t (kepler_M e E) e He Ht Htp Hn Hn1) as [E' [T' [_ H]]].
    destruct (H Cv) as [_ [_ R]]. destruct (B E') as [nu' [T2 [C2 R2]]].
    exists nu', E, E'. split; [eapply m2t_of_m2e; eauto|]. split; [exact C2|].
    split; [exact R1|]. split; [exact R2|]. apply R. symmetry. apply K.
Qed.
Example C23_example : exists nu M' k, m2t default_options PI (1/2) (Fin nu) /\ in_circle nu /\
  t2m nu (1/2) (Fin M') /\ Rabs (M' + 2 * PI * IZR k - PI) < / 1000000000000.
Proof.
  destruct (C23_mean_true default_options 5 (/ 1000000000000) (1/2)) as [A _]; try lra.
  - cbn [tol default_options]. now num.
  - cbn [degree default_options]. now num.
  - exact (A PI C20_example).
Qed.
