(** * Elliptic states in terms of the eccentric anomaly *)
From Coq Require Import Reals Lra Lia Nsatz.
From Verif Require Import NP NPReal Spec RealBase KepReal PropsKep AnomReal.
Local Open Scope R_scope.

Lemma semi_ell a e : e < 1 -> semi_latus a e = a * (1 - e * e).
Proof. intros. unfold semi_latus. destruct (Rlt_dec e 1); [reflexivity|lra]. Qed.
Lemma ell_pos mu k E : valid_kep mu k -> k_e k < 1 -> anomalies_ell (k_e k) (k_nu k) E ->
  pos (peri_state mu k) = plus3 (scal3 (k_a k * (cos E - k_e k)) (P_axis k))
                                (scal3 (k_a k * sqrt (1 - k_e k * k_e k) * sin E) (Q_axis k)).
Proof.
  intros [Hmu [Ha [He Hn]]] He1 [C S]. rewrite peri_pos. unfold peri_r. rewrite semi_ell by auto.
  assert (He' : 0 <= k_e k < 1) by lra.
  destruct (ell_w _ He') as [W1 W2]. destruct (ell_den _ He' E) as [D1 _].
  set (w := sqrt (1 - k_e k * k_e k)) in *.
  assert (R : k_a k * (1 - k_e k * k_e k) / (1 + k_e k * cos (k_nu k)) = k_a k * (1 - k_e k * cos E)).
  { replace (1 + k_e k * cos (k_nu k)) with ((1 - k_e k * k_e k) / (1 - k_e k * cos E)) by (rewrite C; field; lra).
    field. split; nra. }
  rewrite R, C, S. generalize (P_axis k) (Q_axis k). intros P Q. apply vec_eq; vunf; field; lra.
Qed.
Lemma ell_vel mu k E : valid_kep mu k -> k_e k < 1 -> anomalies_ell (k_e k) (k_nu k) E ->
  vel (peri_state mu k) = scal3 (sqrt (mu / k_a k) / (1 - k_e k * cos E))
      (plus3 (scal3 (- sin E) (P_axis k)) (scal3 (sqrt (1 - k_e k * k_e k) * cos E) (Q_axis k))).
Proof.
  intros [Hmu [Ha [He Hn]]] He1 [C S]. rewrite peri_vel. unfold peri_s. rewrite semi_ell by auto.
  assert (He' : 0 <= k_e k < 1) by lra.
  destruct (ell_w _ He') as [W1 W2]. destruct (ell_den _ He' E) as [D1 _].
  set (w := sqrt (1 - k_e k * k_e k)) in *.
  assert (R : sqrt (mu / (k_a k * (1 - k_e k * k_e k))) = sqrt (mu / k_a k) / w).
  { rewrite <- W1. apply sqrt_lem_1.
    - apply Rlt_le, Rdiv_lt_0_compat; [lra|]. apply Rmult_lt_0_compat; nra.
    - apply Rmult_le_pos; [apply sqrt_pos|apply Rlt_le, Rinv_0_lt_compat; lra].
    - replace (sqrt (mu / k_a k) / w * (sqrt (mu / k_a k) / w)) with (sqrt (mu / k_a k) * sqrt (mu / k_a k) / (w * w)) by (field; lra).
      rewrite sqrt_sqrt; [field; lra|]. apply Rlt_le, Rdiv_lt_0_compat; lra. }
  rewrite R, C, S. 
  replace (k_e k + (cos E - k_e k) / (1 - k_e k * cos E)) with (w * w * cos E / (1 - k_e k * cos E)).
  2:{ rewrite W1. field. lra. }
  generalize (P_axis k) (Q_axis k). intros P Q. apply vec_eq; vunf; field; lra.
Qed.
Lemma norm_PQ k x y : norm (plus3 (scal3 x (P_axis k)) (scal3 y (Q_axis k))) = sqrt (x * x + y * y).
Proof.
  unfold norm. f_equal. pose proof (PP k). pose proof (QQ k). pose proof (PQ k). revert H H0 H1.
  generalize (P_axis k) (Q_axis k). intros [[p1 p2] p3] [[q1 q2] q3]. vunf. intros. nsatz.
Qed.
Lemma sin_le_abs x : Rabs (sin x) <= Rabs x.
Proof.
  assert (A : forall y, 0 <= y -> sin y <= y).
  { intros y [Hy| <-]; [|rewrite sin_0; lra]. apply Rlt_le. now apply sin_lt_x. }
  assert (B : forall y, 0 <= y -> - y <= sin y).
  { intros y Hy. destruct (Rle_dec y PI) as [L|L].
    - pose proof (sin_ge_0 y Hy L). lra.
    - pose proof (SIN_bound y). pose proof PI2_3_2 as P. unfold PI2 in P. lra. }
  apply Rabs_le. destruct (Rle_dec 0 x).
  - rewrite Rabs_pos_eq by lra. specialize (A x). specialize (B x). lra.
  - rewrite Rabs_left by lra. specialize (A (- x)). specialize (B (- x)). rewrite sin_neg in *. lra.
Qed.
Lemma sqrt_le_of x y : 0 <= y -> x <= y * y -> sqrt x <= y.
Proof. intros Hy H. rewrite <- (sqrt_square y) by auto. now apply sqrt_le_1_alt. Qed.
Lemma chord E E' : (cos E' - cos E) * (cos E' - cos E) + (sin E' - sin E) * (sin E' - sin E) <= (E' - E) * (E' - E).
Proof.
  assert (X : (cos E' - cos E) * (cos E' - cos E) + (sin E' - sin E) * (sin E' - sin E)
    = 4 * (sin ((E' - E) / 2) * sin ((E' - E) / 2))).
  { pose proof (sc1 E). pose proof (sc1 E'). transitivity (2 - 2 * cos (E' - E)).
    - rewrite cos_minus. nra.
    - replace (E' - E) with (2 * ((E' - E) / 2)) at 1 by field. rewrite cos_2a_sin. ring. }
  rewrite X. pose proof (sin_le_abs ((E' - E) / 2)) as S. set (d := (E' - E) / 2) in *.
  replace ((E' - E) * (E' - E)) with (4 * (d * d)) by (unfold d; field).
  assert (sin d * sin d <= d * d); [|lra]. 
  assert (N1 : Rabs (sin d) * Rabs (sin d) = sin d * sin d) by (rewrite <- Rabs_mult; apply Rabs_pos_eq; nra).
  assert (N2 : Rabs d * Rabs d = d * d) by (rewrite <- Rabs_mult; apply Rabs_pos_eq; nra).
  pose proof (Rabs_pos (sin d)). nra.
Qed.
Ltac sqp := match goal with |- 0 <= ?x * ?x => exact (Rle_0_sqr x) end.
(** states of one orbit at the eccentric anomalies E and E' *)
Lemma ell_close mu k nu nu' E E' : valid_kep mu (with_nu k nu) -> valid_kep mu (with_nu k nu') -> k_e k < 1 ->
  anomalies_ell (k_e k) nu E -> anomalies_ell (k_e k) nu' E' ->
  let x := peri_state mu (with_nu k nu) in let x' := peri_state mu (with_nu k nu') in
  norm (minus3 (pos x') (pos x)) <= k_a k * Rabs (E' - E)
  /\ norm (minus3 (vel x') (vel x)) <= 3 * sqrt (mu / k_a k) / ((1 - k_e k) * (1 - k_e k)) * Rabs (E' - E).
Proof.
  intros V V' He A A' x x'. unfold x, x'.
  pose proof V as [Hmu [Ha [He0 _]]]. change (k_a (with_nu k nu)) with (k_a k) in Ha. change (k_e (with_nu k nu)) with (k_e k) in He0.
  rewrite (ell_pos mu (with_nu k nu) E), (ell_pos mu (with_nu k nu') E') by auto.
  rewrite (ell_vel mu (with_nu k nu) E), (ell_vel mu (with_nu k nu') E') by auto.
  change (k_a (with_nu k nu)) with (k_a k). change (k_e (with_nu k nu)) with (k_e k).
  change (k_a (with_nu k nu')) with (k_a k). change (k_e (with_nu k nu')) with (k_e k).
  change (P_axis (with_nu k nu)) with (P_axis k). change (P_axis (with_nu k nu')) with (P_axis k).
  change (Q_axis (with_nu k nu)) with (Q_axis k). change (Q_axis (with_nu k nu')) with (Q_axis k).
  assert (He' : 0 <= k_e k < 1) by lra. destruct (ell_w _ He') as [W1 W2]. set (w := sqrt (1 - k_e k * k_e k)) in *.
  destruct (ell_den _ He' E) as [D _]. destruct (ell_den _ He' E') as [D' _].
  pose proof (chord E E') as CH. set (d := Rabs (E' - E)).
  assert (Hd : 0 <= d) by apply Rabs_pos.
  assert (Hd2 : (E' - E) * (E' - E) = d * d) by (unfold d; rewrite <- Rabs_mult; symmetry; apply Rabs_pos_eq, (Rle_0_sqr (E' - E))).
  split.
  - apply Rle_trans with (norm (plus3 (scal3 (k_a k * (cos E' - cos E)) (P_axis k)) (scal3 (k_a k * w * (sin E' - sin E)) (Q_axis k)))).
    { right. f_equal. generalize (P_axis k) (Q_axis k). intros P Q. apply vec_eq; vunf; ring. }
    rewrite norm_PQ. apply sqrt_le_of; [nra|].
    apply Rle_trans with (k_a k * k_a k * ((cos E' - cos E) * (cos E' - cos E) + (sin E' - sin E) * (sin E' - sin E))); [|nra].
    assert (w * w <= 1) by nra. assert (0 <= (sin E' - sin E) * (sin E' - sin E)) by sqp.
    replace (k_a k * (cos E' - cos E) * (k_a k * (cos E' - cos E)) + k_a k * w * (sin E' - sin E) * (k_a k * w * (sin E' - sin E)))
      with (k_a k * k_a k * ((cos E' - cos E) * (cos E' - cos E) + w * w * ((sin E' - sin E) * (sin E' - sin E)))) by ring.
    apply Rmult_le_compat_l; [sqp|]. apply Rplus_le_compat_l.
    rewrite <- (Rmult_1_l ((sin E' - sin E) * (sin E' - sin E))) at 2. now apply Rmult_le_compat_r.
  - set (s := sqrt (mu / k_a k)). assert (Hs : 0 <= s) by apply sqrt_pos.
    pose proof (sin_le_abs (E' - E)) as SD. fold d in SD. rewrite sin_minus in SD.
    set (u := - (sin E' - sin E) + k_e k * (sin E' * cos E - cos E' * sin E)).
    set (DD := (1 - k_e k * cos E) * (1 - k_e k * cos E')). assert (HDD : 0 < DD) by (unfold DD; nra).
    apply Rle_trans with (norm (plus3 (scal3 (s / DD * u) (P_axis k)) (scal3 (s / DD * (w * (cos E' - cos E))) (Q_axis k)))).
    { right. f_equal. generalize (P_axis k) (Q_axis k). intros P Q. unfold DD, u. apply vec_eq; vunf; field; lra. }
    rewrite norm_PQ.
    assert (Q1 : 0 <= (sin E' - sin E) * (sin E' - sin E)) by sqp.
    assert (Q2 : 0 <= (cos E' - cos E) * (cos E' - cos E)) by sqp.
    assert (B1 : Rabs (sin E' - sin E) <= d).
    { unfold d. apply Rsqr_le_abs_0. unfold Rsqr. lra. }
    assert (B2 : Rabs (cos E' - cos E) <= d) by (unfold d; apply Rsqr_le_abs_0; unfold Rsqr; lra).
    assert (Bu : Rabs u <= 2 * d).
    { unfold u. eapply Rle_trans; [apply Rabs_triang|]. rewrite Rabs_Ropp, Rabs_mult, (Rabs_pos_eq (k_e k)) by lra.
      pose proof (Rabs_pos (sin E' * cos E - cos E' * sin E)). nra. }
    assert (Hbound : s / DD <= s / ((1 - k_e k) * (1 - k_e k))).
    { unfold Rdiv. apply Rmult_le_compat_l; [lra|]. apply Rinv_le_contravar; [nra|].
      pose proof (COS_bound E). pose proof (COS_bound E'). unfold DD. apply Rmult_le_compat; nra. }
    assert (HsD : 0 <= s / DD) by (apply Rmult_le_pos; [auto|apply Rlt_le, Rinv_0_lt_compat; auto]).
    apply Rle_trans with (s / DD * (3 * d)).
    + apply sqrt_le_of; [nra|].
      assert (u * u <= 4 * (d * d)).
      { replace (u * u) with (Rabs u * Rabs u) by (rewrite <- Rabs_mult; apply Rabs_pos_eq; sqp). pose proof (Rabs_pos u). nra. }
      assert ((cos E' - cos E) * (cos E' - cos E) <= d * d) by lra.
      assert (w * w <= 1) by nra.
      replace (s / DD * u * (s / DD * u) + s / DD * (w * (cos E' - cos E)) * (s / DD * (w * (cos E' - cos E))))
        with (s / DD * (s / DD) * (u * u + w * w * ((cos E' - cos E) * (cos E' - cos E)))) by ring.
      replace (s / DD * (3 * d) * (s / DD * (3 * d))) with (s / DD * (s / DD) * (9 * (d * d))) by ring.
      apply Rmult_le_compat_l; [sqp|]. assert (P : 0 <= (cos E' - cos E) * (cos E' - cos E)) by sqp.
      assert (w * w * ((cos E' - cos E) * (cos E' - cos E)) <= 1 * ((cos E' - cos E) * (cos E' - cos E))) by now apply Rmult_le_compat_r.
      nra.
    + replace (3 * s / ((1 - k_e k) * (1 - k_e k)) * d) with (s / ((1 - k_e k) * (1 - k_e k)) * (3 * d)) by (field; lra).
      apply Rmult_le_compat_r; lra.
Qed.
