(** * Rounding errors of the vector operations *)
From Coq Require Import Reals Lra Psatz.
From Verif Require Import NP NPReal Spec RealBase KepReal CartReal FloatAcc.
Local Open Scope R_scope.

(** [x'] approximates [x], of size at most [M], up to [c] units of [w * M] *)
Definition err (w x' x M c : R) : Prop := Rabs (x' - x) <= c * w * M /\ Rabs x <= M.

Section Err.
Context (rd : R -> R) (u : R) (Hrd : rounding rd u) (w : R) (Hw : u <= w) (Hw8 : w <= / 100000000).
Local Lemma u0 : 0 <= u. Proof. apply Hrd. Qed.
Local Lemma w0 : 0 <= w. Proof. pose proof u0. lra. Qed.
Local Lemma u4 : u <= / 10000. Proof. lra. Qed.
Local Lemma w4 : w <= / 10000. Proof. lra. Qed.
Lemma err_M x' x M c : err w x' x M c -> 0 <= M.
Proof. intros [_ H]. pose proof (Rabs_pos x). lra. Qed.
Lemma err_refl x M : Rabs x <= M -> err w x x M 0.
Proof. intros H. split; auto. rewrite Rminus_diag_eq, Rabs_R0 by auto. lra. Qed.
Lemma err_weak x' x M M' c c' : err w x' x M c -> M <= M' -> 0 <= c <= c' -> err w x' x M' c'.
Proof.
  intros H HM Hc. pose proof (err_M _ _ _ _ H). destruct H as [H1 H2]. pose proof w0. split; [|lra].
  eapply Rle_trans; [exact H1|]. apply Rmult_le_compat; try lra; [nra|]. apply Rmult_le_compat_r; lra.
Qed.
Lemma err_rel x' x M D : rel w x' x D -> 0 <= D -> Rabs x <= M -> err w x' x M D.
Proof.
  unfold rel. intros H HD HM. pose proof w0. split; auto. eapply Rle_trans; [exact H|].
  apply Rmult_le_compat_l; auto. nra.
Qed.
Lemma rel_err x' x D : err w x' x (Rabs x) D -> rel w x' x D. Proof. now intros [H _]. Qed.
Lemma err_abs x' x M c : 0 <= c <= 1000 -> err w x' x M c -> Rabs x' <= (1 + / 1000) * M.
Proof.
  intros Hc H. pose proof (err_M _ _ _ _ H). destruct H as [H1 H2]. pose proof w0.
  replace x' with (x + (x' - x)) by ring. eapply Rle_trans; [apply abs_add_le; eassumption|].
  assert (c * w <= 1000 * / 100000000) by (apply Rmult_le_compat; lra).
  assert (c * w * M <= 1000 * / 100000000 * M) by (apply Rmult_le_compat_r; lra). lra.
Qed.
Lemma err_rd z x M c : 0 <= c <= 1000 -> err w z x M c -> err w (rd z) x M (c + 1 + / 100).
Proof.
  intros Hc H. pose proof (err_abs _ _ _ _ Hc H) as Z. pose proof (err_M _ _ _ _ H) as HM. destruct H as [H1 H2].
  split; auto. pose proof w0. pose proof u0. eapply Rle_trans; [apply (rd_within rd u Hrd _ _ _ _ H1 Z)|].
  assert (u * ((1 + / 1000) * M) <= w * ((1 + / 1000) * M)) by (apply Rmult_le_compat_r; lra).
  assert (0 <= w * M) by nra. nra.
Qed.
Lemma err_mul0 x' x y' y M N c d : err w x' x M c -> err w y' y N d -> 0 <= c <= 400 -> 0 <= d <= 400 ->
  err w (x' * y') (x * y) (M * N) (c + d + / 100).
Proof.
  intros Hx Hy Hc Hd. pose proof (err_M _ _ _ _ Hx). pose proof (err_M _ _ _ _ Hy). destruct Hx as [H1 H2], Hy as [H3 H4].
  pose proof w0. split; [|now apply abs_mul_le].
  destruct (abs_prod x x' y y' M N _ _ H2 H4 H1 H3) as [A _]. eapply Rle_trans; [exact A|].
  replace (c * w * M * (N + d * w * N) + M * (d * w * N)) with ((c + d + c * d * w) * w * (M * N)) by ring.
  apply Rmult_le_compat_r; [nra|]. apply Rmult_le_compat_r; [lra|].
  assert (c * d <= 400 * 400) by (apply Rmult_le_compat; lra). assert (0 <= c * d) by nra.
  assert (c * d * w <= 400 * 400 * / 100000000) by (apply Rmult_le_compat; lra). lra.
Qed.
Lemma err_mul x' x y' y M N c d : err w x' x M c -> err w y' y N d -> 0 <= c <= 400 -> 0 <= d <= 400 ->
  err w (rd (x' * y')) (x * y) (M * N) (c + d + 2).
Proof.
  intros Hx Hy Hc Hd. pose proof (err_mul0 _ _ _ _ _ _ _ _ Hx Hy Hc Hd) as K.
  eapply err_weak; [apply err_rd; [|exact K]; lra|lra|lra].
Qed.
Lemma err_opp x' x M c : err w x' x M c -> err w (- x') (- x) M c.
Proof. intros [H1 H2]. split; [|now rewrite Rabs_Ropp]. replace (- x' - - x) with (- (x' - x)) by ring. now rewrite Rabs_Ropp. Qed.
Lemma err_add x' x y' y M N c : err w x' x M c -> err w y' y N c -> 0 <= c <= 1000 -> 
  err w (rd (x' + y')) (x + y) (M + N) (c + 1 + / 100).
Proof.
  intros Hx Hy Hc. destruct Hx as [H1 H2], Hy as [H3 H4]. apply err_rd; [lra|]. split; [|now apply abs_add_le].
  replace (x' + y' - (x + y)) with ((x' - x) + (y' - y)) by ring.
  replace (c * w * (M + N)) with (c * w * M + c * w * N) by ring. now apply abs_add_le.
Qed.
Lemma err_sub x' x y' y M N c : err w x' x M c -> err w y' y N c -> 0 <= c <= 1000 -> 
  err w (rd (x' - y')) (x - y) (M + N) (c + 1 + / 100).
Proof. intros Hx Hy Hc. apply err_opp in Hy. unfold Rminus. now apply err_add. Qed.
(** the sum of three numbers *)
Lemma err_sum3 x' x y' y z' z M N P c : err w x' x M c -> err w y' y N c -> err w z' z P c -> 0 <= c <= 900 ->
  err w (rd (rd (x' + y') + z')) (x + y + z) (M + N + P) (c + 2 + / 50).
Proof.
  intros Hx Hy Hz Hc. pose proof (err_M _ _ _ _ Hx). pose proof (err_M _ _ _ _ Hy). pose proof (err_M _ _ _ _ Hz).
  pose proof (err_add _ _ _ _ _ _ _ Hx Hy ltac:(lra)) as A.
  assert (Hz' : err w z' z P (c + 1 + / 100)) by (eapply err_weak; [exact Hz|lra|lra]).
  eapply err_weak; [exact (err_add _ _ _ _ _ _ _ A Hz' ltac:(lra))|lra|lra].
Qed.
(** division by something known to relative accuracy *)
Lemma err_div0 x' x y' y M c d : err w x' x M c -> rel w y' y d -> y <> 0 -> 0 <= c <= 400 -> 0 <= d <= 400 ->
  y' <> 0 /\ err w (x' / y') (x / y) (M / Rabs y) (c + d + / 10).
Proof.
  intros Hx Hy Hn Hc Hd. pose proof (err_M _ _ _ _ Hx) as HM. destruct Hx as [H1 H2]. unfold rel in Hy. pose proof w0.
  assert (Yp : 0 < Rabs y) by now apply Rabs_pos_lt.
  assert (Dw : 0 <= d * w <= 4 / 1000000) by nra. assert (Cw : 0 <= c * w <= 4 / 1000000) by nra.
  assert (Y' : Rabs y * (1 - d * w) <= Rabs y').
  { assert (Rabs y <= Rabs y' + Rabs (y' - y)); [|nra].
    rewrite <- (Rabs_Ropp (y' - y)). eapply Rle_trans; [|apply Rabs_triang]. right. f_equal. ring. }
  assert (Y'p : 0 < Rabs y') by nra.
  assert (Hy' : y' <> 0) by (intros ->; rewrite Rabs_R0 in Y'p; lra). split; auto. split.
  - replace (x' / y' - x / y) with (((x' - x) - x / y * (y' - y)) * / y') by (field; auto).
    rewrite Rabs_mult, Rabs_inv. apply (Rmult_le_reg_r (Rabs y')); auto. rewrite Rmult_assoc, Rinv_l, Rmult_1_r by lra.
    assert (Q : Rabs (x / y) * Rabs y = Rabs x) by (rewrite <- Rabs_mult; f_equal; field; auto).
    assert (N : Rabs (x' - x - x / y * (y' - y)) <= (c + d) * w * M).
    { unfold Rminus at 1. eapply Rle_trans; [apply Rabs_triang|]. rewrite Rabs_Ropp, Rabs_mult.
      assert (Rabs (x / y) * Rabs (y' - y) <= Rabs (x / y) * (d * w * Rabs y)) by (apply Rmult_le_compat_l; [apply Rabs_pos|auto]).
      replace (Rabs (x / y) * (d * w * Rabs y)) with (d * w * Rabs x) in * by (rewrite <- Q; ring).
      assert (d * w * Rabs x <= d * w * M) by (apply Rmult_le_compat_l; lra). lra. }
    eapply Rle_trans; [exact N|]. 
    apply Rle_trans with ((c + d + / 10) * w * (M / Rabs y) * (Rabs y * (1 - d * w))).
    + replace ((c + d + / 10) * w * (M / Rabs y) * (Rabs y * (1 - d * w))) with ((c + d + / 10) * (1 - d * w) * (w * M)) by (field; lra).
      rewrite Rmult_assoc. apply Rmult_le_compat_r; [nra|]. 
      assert ((c + d + / 10) * (d * w) <= 1000 * (4 / 1000000)) by (apply Rmult_le_compat; lra). lra.
    + apply Rmult_le_compat_l; auto. apply Rmult_le_pos; [nra|]. apply Rmult_le_pos; auto. apply Rlt_le, Rinv_0_lt_compat; auto.
  - unfold Rdiv. rewrite Rabs_mult, Rabs_inv. apply Rmult_le_compat_r; auto. apply Rlt_le, Rinv_0_lt_compat; auto.
Qed.
Lemma err_div x' x y' y M c d : err w x' x M c -> rel w y' y d -> y <> 0 -> 0 <= c <= 400 -> 0 <= d <= 400 ->
  y' <> 0 /\ err w (rd (x' / y')) (x / y) (M / Rabs y) (c + d + 2).
Proof.
  intros Hx Hy Hn Hc Hd. destruct (err_div0 _ _ _ _ _ _ _ Hx Hy Hn Hc Hd) as [A B]. split; auto.
  eapply err_weak; [apply err_rd; [|exact B]; lra|lra|lra].
Qed.

(** sums of non-negative numbers keep their relative accuracy *)
Lemma rel_plus x' x y' y D : rel w x' x D -> rel w y' y D -> 0 <= x -> 0 <= y -> 0 <= D <= 80 -> rel w (rd (x' + y')) (x + y) (D + 1 + / 100).
Proof.
  intros H1 H2 Hx Hy HD. apply (rel_rd rd u Hrd w Hw w4); [lra|]. unfold rel in *.
  replace (x' + y' - (x + y)) with ((x' - x) + (y' - y)) by ring.
  rewrite (Rabs_pos_eq (x + y)) by lra. rewrite (Rabs_pos_eq x) in H1 by lra. rewrite (Rabs_pos_eq y) in H2 by lra.
  replace (D * w * (x + y)) with (D * w * x + D * w * y) by ring. now apply abs_add_le.
Qed.
Lemma rel_sqr x : rel w (rd (x * x)) (x * x) 1.
Proof.
  unfold rel. eapply Rle_trans; [apply Hrd|]. rewrite Rmult_1_l. apply Rmult_le_compat_r; [apply Rabs_pos|auto].
Qed.
Definition rnorm (a : vec) : R := rd (sqrt (rd (rd (rd (vx a * vx a) + rd (vy a * vy a)) + rd (vz a * vz a)))).
Lemma rd_0 : rd 0 = 0.
Proof. pose proof (rr_err rd u Hrd 0) as H. rewrite Rminus_0_r, Rabs_R0, Rmult_0_r in H. pose proof (Rabs_pos (rd 0)). destruct (Req_dec (rd 0) 0) as [E|E]; auto. apply Rabs_pos_lt in E. lra. Qed.
Lemma rel_norm a : rel w (rnorm a) (norm a) 6.
Proof.
  destruct (norm_pos a) as [P|Z].
  - assert (Q : 0 < dot a a) by (rewrite <- norm_sq; nra).
    unfold rnorm. pose proof (rel_plus _ _ _ _ 1 (rel_sqr (vx a)) (rel_sqr (vy a)) ltac:(nra) ltac:(nra) ltac:(lra)) as S1.
    assert (S2 : rel w (rd (vz a * vz a)) (vz a * vz a) (1 + 1 + / 100)).
    { eapply (rel_weak rd u Hrd w Hw); [apply rel_sqr|lra]. }
    pose proof (rel_plus _ _ _ _ _ S1 S2 ltac:(nra) ltac:(nra) ltac:(lra)) as S3.
    destruct (rel_sqrt rd u Hrd w Hw w4 _ _ _ Q S3 ltac:(lra)) as [_ K].
    eapply (rel_weak rd u Hrd w Hw); [exact K|lra].
  - pose proof (norm_sq a) as N. rewrite <- Z in N. unfold dot in N.
    assert (X : vx a = 0) by nra. assert (Y : vy a = 0) by nra. assert (W : vz a = 0) by nra.
    unfold rnorm. rewrite X, Y, W, Rmult_0_r, rd_0, !Rplus_0_r, !rd_0, sqrt_0, rd_0, <- Z.
    unfold rel. rewrite Rminus_0_r, Rabs_R0. lra.
Qed.
End Err.

(** components and norms *)
Lemma comp_abs a : Rabs (vx a) <= norm a /\ Rabs (vy a) <= norm a /\ Rabs (vz a) <= norm a.
Proof.
  pose proof (norm_pos a). destruct (comp_norm a) as (A & B & C).
  repeat split; apply Rabs_le; nra.
Qed.
Lemma norm_le a b : 0 <= b -> dot a a <= b * b -> norm a <= b.
Proof. intros Hb H. pose proof (norm_pos a). pose proof (norm_sq a). nra. Qed.
Lemma dot_abs a b : Rabs (dot a b) <= norm a * norm b.
Proof.
  pose proof (cauchy a b). pose proof (norm_pos a). pose proof (norm_pos b). assert (0 <= norm a * norm b) by nra.
  apply Rabs_le. nra.
Qed.
Lemma norm_tri a b : norm (plus3 a b) <= norm a + norm b.
Proof.
  pose proof (norm_pos a). pose proof (norm_pos b). apply norm_le; [lra|].
  rewrite !dot_plus_l, !dot_plus_r, (dot_comm b a), <- !norm_sq. pose proof (dot_abs a b) as D. apply abs_in in D. nra.
Qed.
Lemma norm_diff a b : Rabs (norm a - norm b) <= norm (minus3 a b).
Proof.
  assert (K : forall a b, norm a - norm b <= norm (minus3 a b)).
  { intros c d. assert (E : c = plus3 (minus3 c d) d) by vring. rewrite E at 1. pose proof (norm_tri (minus3 c d) d). lra. }
  pose proof (K a b). pose proof (K b a) as K2.
  assert (E : norm (minus3 b a) = norm (minus3 a b)) by (unfold norm; f_equal; vunf; ring).
  rewrite E in K2. apply Rabs_le. lra.
Qed.
Lemma norm_comps a b : 0 <= b -> Rabs (vx a) <= b -> Rabs (vy a) <= b -> Rabs (vz a) <= b -> norm a <= 174 / 100 * b.
Proof.
  intros Hb H1 H2 H3. apply abs_in in H1, H2, H3. apply norm_le; [lra|]. unfold dot.
  assert (vx a * vx a <= b * b) by nra. assert (vy a * vy a <= b * b) by nra. assert (vz a * vz a <= b * b) by nra. nra.
Qed.
(** the rounded norm of a perturbed vector *)
Lemma err_norm rd u w a' a M c : rounding rd u -> u <= w -> w <= / 100000000 -> 0 <= c <= 100 -> norm a <= M ->
  err w (vx a') (vx a) M c -> err w (vy a') (vy a) M c -> err w (vz a') (vz a) M c ->
  err w (rnorm rd a') (norm a) M (174 / 100 * c + 7).
Proof.
  intros Hrd Hw Hw8 Hc HM [H1 _] [H2 _] [H3 _]. pose proof (norm_pos a) as Na. pose proof (rr_u _ _ Hrd).
  assert (Hb : 0 <= c * w * M) by (apply Rmult_le_pos; [nra|lra]).
  assert (D : norm (minus3 a' a) <= 174 / 100 * (c * w * M)) by now apply norm_comps.
  pose proof (norm_diff a' a) as D2. pose proof (rel_norm rd u Hrd w Hw Hw8 a') as R. unfold rel in R.
  pose proof (norm_pos a') as Na'. rewrite (Rabs_pos_eq (norm a')) in R by auto.
  assert (Na2 : norm a' <= M + 174 / 100 * (c * w * M)) by (apply abs_in in D2; lra).
  assert (c * w <= 100 * / 100000000) by (apply Rmult_le_compat; lra).
  assert (N3 : norm a' <= (1 + / 100) * M) by nra.
  split; [|rewrite Rabs_pos_eq; auto].
  replace (rnorm rd a' - norm a) with ((rnorm rd a' - norm a') + (norm a' - norm a)) by ring.
  eapply Rle_trans; [apply abs_add_le; [exact R|eapply Rle_trans; [exact D2|exact D]]|].
  assert (6 * w * norm a' <= 6 * w * ((1 + / 100) * M)) by (apply Rmult_le_compat_l; lra).
  assert (0 <= w * M) by nra. nra.
Qed.
