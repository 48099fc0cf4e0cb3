(** * Rounding errors of cart_to_kep: the intermediate quantities, and reading an angle off a cosine and a sign *)
From Coq Require Import Reals Lra Psatz Bool.
From Verif Require Import NP NPReal Spec RealBase KepReal CartReal FloatAcc FloatVec PropsFloatAcc.
Local Open Scope R_scope.

Section Vec.
Context (rd : R -> R) (u : R) (Hrd : rounding rd u) (Hu : u <= / 100000000).
Context (r v : vec) (mu : R) (Hmu : 0 < mu) (Hr : 0 < norm r) (Hb : norm v * norm v * norm r <= 2 * mu).
Let Ru := Rle_refl u.
Let rn' := rnorm rd r.
Let vn' := rnorm rd v.
Local Lemma Hu4 : u <= / 10000. Proof. lra. Qed.
Local Lemma Hu0 : 0 <= u. Proof. apply Hrd. Qed.
Local Lemma acc_rn : rel u rn' (norm r) 6. Proof. now apply (rel_norm rd u). Qed.
Local Lemma acc_vn : rel u vn' (norm v) 6. Proof. now apply (rel_norm rd u). Qed.
Local Lemma rd_rel x : rel u (rd x) x 1. Proof. unfold rel. rewrite Rmult_1_l. apply Hrd. Qed.
Lemma rn'_nz : rn' <> 0.
Proof.
  intros E. pose proof acc_rn as A. unfold rel in A. rewrite E in A.
  replace (0 - norm r) with (- norm r) in A by ring. rewrite Rabs_Ropp, Rabs_pos_eq in A by lra. pose proof Hu0. nra.
Qed.
Local Lemma acc_dir c : err u (rd (c / rn')) (c / norm r) (Rabs c / norm r) 8.
Proof.
  destruct (err_div rd u Hrd u Ru Hu c c rn' (norm r) (Rabs c) 0 6) as [_ A]; try lra.
  - now apply err_refl, Rle_refl. - apply acc_rn.
  - rewrite (Rabs_pos_eq (norm r)) in A by lra. eapply (err_weak rd u Hrd u Ru); [exact A|lra|lra].
Qed.
Lemma abs3_cauchy a b : Rabs (vx a) * Rabs (vx b) + Rabs (vy a) * Rabs (vy b) + Rabs (vz a) * Rabs (vz b) <= norm a * norm b.
Proof.
  pose proof (dot_abs (Rabs (vx a), Rabs (vy a), Rabs (vz a)) (Rabs (vx b), Rabs (vy b), Rabs (vz b))) as D.
  assert (E : forall a, norm (Rabs (vx a), Rabs (vy a), Rabs (vz a)) = norm a).
  { intros [[x y] z]. unfold norm. f_equal. vunf. assert (K : forall t, Rabs t * Rabs t = t * t) by (intros; rewrite <- Rabs_mult; apply Rabs_pos_eq; nra). now rewrite !K. }
  rewrite !E in D. apply abs_in in D. destruct D as [_ D]. revert D. vunf. lra.
Qed.
Definition rad_vel : R := rd (rd (rd (rd (vx r / rn') * vx v) + rd (rd (vy r / rn') * vy v)) + rd (rd (vz r / rn') * vz v)).
Lemma acc_vr : err u rad_vel (dot r v / norm r) (norm v) 13.
Proof.
  assert (T : forall c d, err u (rd (rd (c / rn') * d)) (c / norm r * d) (Rabs c / norm r * Rabs d) 10).
  { intros c d. pose proof (err_mul rd u Hrd u Ru Hu _ _ d d _ (Rabs d) 8 0 (acc_dir c) (err_refl u d _ (Rle_refl _)) ltac:(lra) ltac:(lra)) as A.
    eapply (err_weak rd u Hrd u Ru); [exact A|lra|lra]. }
  pose proof (err_sum3 rd u Hrd u Ru Hu _ _ _ _ _ _ _ _ _ 10 (T (vx r) (vx v)) (T (vy r) (vy v)) (T (vz r) (vz v)) ltac:(lra)) as A.
  replace (dot r v / norm r) with (vx r / norm r * vx v + vy r / norm r * vy v + vz r / norm r * vz v) by (unfold dot; field; lra).
  eapply (err_weak rd u Hrd u Ru); [exact A| |lra].
  pose proof (abs3_cauchy r v) as C. apply (Rmult_le_reg_r (norm r)); auto.
  replace ((Rabs (vx r) / norm r * Rabs (vx v) + Rabs (vy r) / norm r * Rabs (vy v) + Rabs (vz r) / norm r * Rabs (vz v)) * norm r)
    with (Rabs (vx r) * Rabs (vx v) + Rabs (vy r) * Rabs (vy v) + Rabs (vz r) * Rabs (vz v)) by (field; lra). lra.
Qed.
Local Lemma acc_vv : rel u (rd (vn' * vn')) (norm v * norm v) 14.
Proof.
  pose proof (rel_mul rd u Hrd u Ru Hu4 _ _ _ _ _ _ acc_vn acc_vn ltac:(lra) ltac:(lra)) as A.
  eapply (rel_weak rd u Hrd u Ru); [exact A|lra].
Qed.
Local Lemma acc_mr : rel u (rd (mu / rn')) (mu / norm r) 8.
Proof.
  destruct (rel_div rd u Hrd u Ru Hu4 mu mu rn' (norm r) 0 6 (rel_refl _ _) acc_rn ltac:(lra) ltac:(lra) ltac:(lra)) as [_ A].
  eapply (rel_weak rd u Hrd u Ru); [exact A|lra].
Qed.
Local Lemma mr_pos : 0 < mu / norm r. Proof. now apply Rdiv_lt_0_compat. Qed.
Definition eps_f : R := rd (rd (rd (vn' * vn') * rd (/ 2)) - rd (mu / rn')).
Lemma acc_eps : err u eps_f (norm v * norm v / 2 - mu / norm r) (norm v * norm v / 2 + mu / norm r) 19.
Proof.
  pose proof mr_pos. pose proof (norm_pos v).
  pose proof (rel_mul rd u Hrd u Ru Hu4 _ _ _ _ _ _ acc_vv (rd_rel (/ 2)) ltac:(lra) ltac:(lra)) as A.
  assert (A' : err u (rd (rd (vn' * vn') * rd (/ 2))) (norm v * norm v / 2) (norm v * norm v / 2) 17).
  { apply (err_rel rd u Hrd u Ru); [|lra|rewrite Rabs_pos_eq; nra]. eapply (rel_weak rd u Hrd u Ru); [exact A|lra]. }
  assert (B' : err u (rd (mu / rn')) (mu / norm r) (mu / norm r) 17).
  { apply (err_rel rd u Hrd u Ru); [|lra|rewrite Rabs_pos_eq; lra]. eapply (rel_weak rd u Hrd u Ru); [apply acc_mr|lra]. }
  eapply (err_weak rd u Hrd u Ru); [exact (err_sub rd u Hrd u Ru Hu _ _ _ _ _ _ _ A' B' ltac:(lra))|lra|lra].
Qed.
Definition ecc_f (c d : R) : R := rd (rd (1 / mu) * rd (rd (rd (rd (vn' * vn') - rd (mu / rn')) * c) - rd (rd (rn' * rad_vel) * d))).
Lemma acc_ecc c d : Rabs c <= norm r -> Rabs d <= norm v ->
  err u (ecc_f c d) (/ mu * ((norm v * norm v - mu / norm r) * c - dot r v * d)) 5 29.
Proof.
  intros Hc Hd. pose proof mr_pos as Hm. pose proof (norm_pos v) as Hv.
  assert (A : err u (rd (vn' * vn')) (norm v * norm v) (norm v * norm v) 14).
  { apply (err_rel rd u Hrd u Ru); [apply acc_vv|lra|rewrite Rabs_pos_eq; nra]. }
  assert (B : err u (rd (mu / rn')) (mu / norm r) (mu / norm r) 14).
  { apply (err_rel rd u Hrd u Ru); [|lra|rewrite Rabs_pos_eq; lra]. eapply (rel_weak rd u Hrd u Ru); [apply acc_mr|lra]. }
  pose proof (err_sub rd u Hrd u Ru Hu _ _ _ _ _ _ _ A B ltac:(lra)) as C.
  pose proof (err_mul rd u Hrd u Ru Hu _ _ c c _ (norm r) _ 0 C (err_refl u c _ Hc) ltac:(lra) ltac:(lra)) as C2.
  assert (D : err u rn' (norm r) (norm r) 6).
  { apply (err_rel rd u Hrd u Ru); [apply acc_rn|lra|rewrite Rabs_pos_eq; lra]. }
  pose proof (err_mul rd u Hrd u Ru Hu _ _ _ _ _ _ _ _ D acc_vr ltac:(lra) ltac:(lra)) as E.
  pose proof (err_mul rd u Hrd u Ru Hu _ _ d d _ (norm v) _ 0 E (err_refl u d _ Hd) ltac:(lra) ltac:(lra)) as E2.
  assert (C3 : err u (rd (rd (rd (vn' * vn') - rd (mu / rn')) * c)) ((norm v * norm v - mu / norm r) * c) ((norm v * norm v + mu / norm r) * norm r) 23).
  { eapply (err_weak rd u Hrd u Ru); [exact C2|lra|lra]. }
  assert (E3 : err u (rd (rd (rn' * rad_vel) * d)) (norm r * (dot r v / norm r) * d) (norm r * norm v * norm v) 23).
  { eapply (err_weak rd u Hrd u Ru); [exact E2|lra|lra]. }
  pose proof (err_sub rd u Hrd u Ru Hu _ _ _ _ _ _ _ C3 E3 ltac:(lra)) as G.
  assert (M1 : 0 < / mu) by now apply Rinv_0_lt_compat.
  assert (M : err u (rd (1 / mu)) (/ mu) (/ mu) 1).
  { apply (err_rel rd u Hrd u Ru); [|lra|rewrite Rabs_pos_eq; lra]. replace (1 / mu) with (/ mu) by (field; lra). apply rd_rel. }
  pose proof (err_mul rd u Hrd u Ru Hu _ _ _ _ _ _ _ _ M G ltac:(lra) ltac:(lra)) as K.
  replace (norm r * (dot r v / norm r) * d) with (dot r v * d) in K by (field; lra).
  eapply (err_weak rd u Hrd u Ru); [exact K| |lra].
  apply (Rmult_le_reg_r mu); auto.
  replace (/ mu * ((norm v * norm v + mu / norm r) * norm r + norm r * norm v * norm v) * mu)
    with (2 * (norm v * norm v * norm r) + mu) by (field; lra). lra.
Qed.
(** a component of the angular momentum *)
Lemma acc_cross a b c d : Rabs a * Rabs b + Rabs c * Rabs d <= norm r * norm v ->
  err u (rd (rd (a * b) - rd (c * d))) (a * b - c * d) (norm r * norm v) (31 / 10).
Proof.
  intros H. assert (T : forall a b, err u (rd (a * b)) (a * b) (Rabs a * Rabs b) 2).
  { intros a0 b0. rewrite <- Rabs_mult. apply (err_rel rd u Hrd u Ru); [|lra|lra].
    eapply (rel_weak rd u Hrd u Ru); [apply rd_rel|lra]. }
  eapply (err_weak rd u Hrd u Ru); [exact (err_sub rd u Hrd u Ru Hu _ _ _ _ _ _ _ (T a b) (T c d) ltac:(lra))|lra|lra].
Qed.
End Vec.
Lemma cross_comp (r v : vec) :
  Rabs (vy r) * Rabs (vz v) + Rabs (vz r) * Rabs (vy v) <= norm r * norm v /\
  Rabs (vz r) * Rabs (vx v) + Rabs (vx r) * Rabs (vz v) <= norm r * norm v /\
  Rabs (vx r) * Rabs (vy v) + Rabs (vy r) * Rabs (vx v) <= norm r * norm v.
Proof.
  assert (K : forall a b c d, Rabs a * Rabs d + Rabs b * Rabs c <= norm (a, b, 0) * norm (d, c, 0)).
  { intros a b c d. pose proof (abs3_cauchy (a, b, 0) (d, c, 0)) as A. vunf. rewrite Rabs_R0 in A. lra. }
  assert (N : forall a b, 0 <= b -> dot a a <= b * b -> norm a <= b) by (intros; now apply norm_le).
  assert (P : forall a b c d, norm (a, b, 0) <= norm r -> norm (d, c, 0) <= norm v -> Rabs a * Rabs d + Rabs b * Rabs c <= norm r * norm v).
  { intros a b c d H1 H2. eapply Rle_trans; [apply K|]. apply Rmult_le_compat; auto; apply norm_pos. }
  repeat split; apply P; (apply N; [apply norm_pos|rewrite norm_sq; vunf; nra]).
Qed.

(** ** Reading an angle off an approximate cosine and an approximate sign of the sine *)
Definition angle_within (d t' t : R) : Prop :=
  Rabs (cos t' - cos t) <= d /\ Rabs (sin t' - sin t) <= 3 * sqrt d /\ Rabs (sin t) * Rabs (sin t' - sin t) <= 3 * d.

Lemma sine_robust q c s S d : 0 <= d <= / 100 -> c * c + s * s = 1 -> q * q + S * S = 1 -> 0 <= S -> - d <= s -> Rabs (q - c) <= d ->
  Rabs (S - s) <= 2 * sqrt d /\ Rabs s * Rabs (S - s) <= 2 * d.
Proof.
  intros Hd H1 H2 HS Hs Hq. apply abs_in in Hq. pose proof (sqrt_pos d) as P. pose proof (sqrt_sqrt d ltac:(lra)) as Q.
  assert (Bq : -1 <= q <= 1) by nra. assert (Bc : -1 <= c <= 1) by nra.
  assert (D : - (2 * d) <= (S - s) * (S + s) <= 2 * d).
  { replace ((S - s) * (S + s)) with ((c - q) * (c + q)) by lra. split; nra. }
  assert (P1 : sqrt d <= / 10) by nra.
  destruct (Rle_dec 0 s) as [C|C].
  - rewrite (Rabs_pos_eq s) by auto. unfold Rabs. destruct Rcase_abs; split; try nra.
  - rewrite (Rabs_pos_eq (S - s)), (Rabs_left s) by lra.
    assert (S <= 142 / 100 * sqrt d + / 100 * sqrt d) by nra. split; nra.
Qed.
Lemma angle_robust q t b d : -1 <= q <= 1 -> 0 <= d <= / 100 -> Rabs (q - cos t) <= d ->
  (b = true -> sin t <= d) -> (b = false -> - d <= sin t) ->
  Rabs (cos (flipR b (acos q)) - cos t) <= d /\ Rabs (sin (flipR b (acos q)) - sin t) <= 2 * sqrt d /\
  Rabs (sin t) * Rabs (sin (flipR b (acos q)) - sin t) <= 2 * d.
Proof.
  intros Hq Hd Hc H1 H2. pose proof (sc1 t) as T. pose proof (sc1 (acos q)) as A. rewrite cos_acos in A by auto.
  assert (S : 0 <= sin (acos q)) by (apply sin_ge_0; apply acos_bound).
  unfold flipR. destruct b.
  - rewrite cos_minus, sin_minus, cos_2PI, sin_2PI, cos_acos by auto. specialize (H1 eq_refl).
    destruct (sine_robust q (cos t) (- sin t) (sin (acos q)) d) as [B C]; auto; try lra.
    rewrite Rabs_Ropp in C. replace (sin (acos q) - - sin t) with (- (0 * q - 1 * sin (acos q) - sin t)) in * by ring. rewrite Rabs_Ropp in *.
    repeat split; auto. replace (1 * q + 0 * sin (acos q) - cos t) with (q - cos t) by ring. auto.
  - rewrite cos_acos by auto. specialize (H2 eq_refl).
    destruct (sine_robust q (cos t) (sin t) (sin (acos q)) d) as [B C]; auto; lra.
Qed.
(** the same with an error in the angle itself *)
Lemma angle_float q t b d t' h : -1 <= q <= 1 -> 0 <= d -> 0 <= h -> d + h <= / 100 -> Rabs (q - cos t) <= d ->
  (b = true -> sin t <= d) -> (b = false -> - d <= sin t) -> Rabs (t' - flipR b (acos q)) <= h -> angle_within (d + h) t' t.
Proof.
  intros Hq Hd Hh Hdh Hc H1 H2 Ht. destruct (angle_robust q t b d Hq ltac:(lra) Hc H1 H2) as (A & B & C).
  set (T := flipR b (acos q)) in *. pose proof (cos_lip t' T) as LC. pose proof (sin_lip t' T) as LS.
  assert (S : Rabs (sin t' - sin t) <= Rabs (sin T - sin t) + h).
  { replace (sin t' - sin t) with ((sin T - sin t) + (sin t' - sin T)) by ring. apply abs_add_le; lra. }
  assert (ST : Rabs (sin t) <= 1) by (apply Rabs_le, SIN_bound). pose proof (Rabs_pos (sin t)).
  split; [|split].
  - replace (cos t' - cos t) with ((cos T - cos t) + (cos t' - cos T)) by ring. apply abs_add_le; lra.
  - pose proof (sqrt_pos d). pose proof (sqrt_pos h). 
    assert (sqrt d <= sqrt (d + h)) by (apply sqrt_le_1; lra). assert (sqrt h <= sqrt (d + h)) by (apply sqrt_le_1; lra).
    pose proof (sqrt_sqrt h Hh). assert (sqrt h <= 1) by nra. nra.
  - assert (Rabs (sin t) * Rabs (sin t' - sin t) <= Rabs (sin t) * (Rabs (sin T - sin t) + h)) by (apply Rmult_le_compat_l; auto). nra.
Qed.
Lemma within_weak d d' t' t : angle_within d t' t -> d <= d' -> angle_within d' t' t.
Proof.
  intros (A & B & C) H. pose proof (Rabs_pos (cos t' - cos t)). assert (sqrt d <= sqrt d') by (apply sqrt_le_1; lra).
  repeat split; lra.
Qed.
Lemma clamp_close q c : -1 <= c <= 1 -> Rabs (clampR q - c) <= Rabs (q - c).
Proof.
  intros Hc. unfold clampR, Rmax, Rmin. destruct (Rle_dec 1 q); destruct (Rle_dec _ _); unfold Rabs; repeat destruct Rcase_abs; lra.
Qed.
