(** * Facts on rounding to nearest in radix 2 with p digits and unbounded exponents (Flocq) *)
From Coq Require Import Reals ZArith Lra Lia Psatz.
From Flocq Require Import Core Relative.
Local Open Scope R_scope.

(** round to nearest, ties to even: binary64 (p = 53) as long as nothing overflows or underflows *)
Definition rnd (p : Z) (x : R) : R := round radix2 (FLX_exp p) ZnearestE x.
Definition fmt (p : Z) (x : R) : Prop := generic_format radix2 (FLX_exp p) x.

Section Rnd.
Variable p : Z.
Hypothesis Hp : (1 < p)%Z.
Notation rnd := (rnd p).
Notation fmt := (fmt p).
Local Instance prec_pos : Prec_gt_0 p. Proof. unfold Prec_gt_0. lia. Qed.

Lemma fmt_rnd x : fmt (rnd x). Proof. apply generic_format_round; [exact (FLX_exp_valid p)|typeclasses eauto]. Qed.
Lemma rnd_fmt x : fmt x -> rnd x = x. Proof. intros. now apply round_generic; [typeclasses eauto|]. Qed.
Lemma rnd_le x y : x <= y -> rnd x <= rnd y. Proof. apply round_le; [exact (FLX_exp_valid p)|typeclasses eauto]. Qed.
Lemma fmt_0 : fmt 0. Proof. apply generic_format_0. Qed.
Lemma fmt_1 : fmt 1.
Proof. change 1 with (bpow radix2 0). apply generic_format_bpow. unfold FLX_exp. lia. Qed.
Lemma fmt_opp x : fmt x -> fmt (- x). Proof. apply generic_format_opp. Qed.
Lemma rnd_0 : rnd 0 = 0. Proof. apply rnd_fmt, fmt_0. Qed.
Lemma rnd_1 : rnd 1 = 1. Proof. apply rnd_fmt, fmt_1. Qed.
Lemma rnd_nonneg x : 0 <= x -> 0 <= rnd x. Proof. intros. rewrite <- rnd_0. now apply rnd_le. Qed.
Lemma rnd_neq x : x <> 0 -> rnd x <> 0.
Proof.
  intros Hx E. apply Hx.
  refine (eq_0_round_0_negligible_exp radix2 (FLX_exp p) (negligible_exp_FLX p) ZnearestE x E).
Qed.
Lemma rnd_pos x : 0 < x -> 0 < rnd x.
Proof. intros Hx. pose proof (rnd_nonneg x). pose proof (rnd_neq x). lra. Qed.

(** the square root of the square of a p-digit number does not fall below the number *)
Lemma sqrt_sq_ge x : fmt x -> 0 <= x -> x <= rnd (sqrt (rnd (x * x))).
Proof.
  intros Fx [Hx| <-]; [|apply rnd_nonneg, sqrt_pos].
  set (k := mag_val radix2 x (mag radix2 x)). assert (Hk : bpow radix2 (k - 1) <= x < bpow radix2 k).
  { pose proof (bpow_mag_gt radix2 x) as A. pose proof (bpow_mag_le radix2 x ltac:(lra)) as B.
    rewrite Rabs_pos_eq in A, B by lra. split; assumption. }
  destruct Hk as [[Hk1|Hk1] Hk2].
  2:{ rewrite <- Hk1, <- bpow_plus.
      assert (Fb : forall e, fmt (bpow radix2 e)) by (intros e; apply generic_format_bpow; unfold FLX_exp; lia).
      rewrite (rnd_fmt (bpow _ _)) by apply Fb. rewrite bpow_plus, sqrt_square by apply bpow_ge_0.
      rewrite rnd_fmt by apply Fb. lra. }
  set (u := bpow radix2 (- p)). set (B := bpow radix2 k).
  assert (HB : bpow radix2 (k - 1) = B / 2).
  { unfold B, Zminus. rewrite bpow_plus. change (bpow radix2 (-(1))) with (/ 2). reflexivity. }
  assert (Hulp : ulp radix2 (FLX_exp p) x = u * B).
  { rewrite ulp_neq_0 by lra. unfold cexp, FLX_exp. fold k. unfold u, B, Zminus. rewrite bpow_plus. ring. }
  assert (Hu : 0 < u <= / 4).
  { split; [apply bpow_gt_0|]. unfold u. change (/ 4) with (bpow radix2 (-2)). apply bpow_le. lia. }
  assert (HBp : 0 < B) by apply bpow_gt_0. 
  assert (Hx1 : x + u * B <= B). { rewrite <- Hulp. apply id_p_ulp_le_bpow; auto. }
  assert (Hpred : pred radix2 (FLX_exp p) x = x - u * B).
  { rewrite pred_eq_pos by lra. unfold pred_pos. fold k. 
    destruct (Req_bool_spec x (bpow radix2 (k - 1))) as [E|_]; [lra|]. now rewrite Hulp. }
  apply round_N_ge_midp; [exact (FLX_exp_valid p)|exact Fx|]. rewrite Hpred.
  assert (Hy : x * x - u * (x * x) <= rnd (x * x)).
  { pose proof (relative_error_N_FLX radix2 p ltac:(lia) (fun x => negb (Z.even x)) (x * x)) as R.
    fold (rnd (x * x)) in R. rewrite (Rabs_pos_eq (x * x)) in R by nra.
    assert (E : / 2 * bpow radix2 (- p + 1) = u) by (rewrite bpow_plus; change (bpow radix2 1) with 2; unfold u; lra).
    rewrite E in R. apply Rabs_le_inv in R. lra. }
  apply Rlt_le_trans with (sqrt (x * x - u * (x * x))); [|now apply sqrt_le_1_alt].
  rewrite HB in Hk1.
  replace ((x - u * B + x) / 2) with (x - u * B / 2) by field.
  apply Rsqr_incrst_0; [|nra|apply sqrt_pos]. rewrite Rsqr_sqrt by nra. unfold Rsqr.
  assert (K : B / 2 * (u * B) <= x * (B - x)) by (apply Rmult_le_compat; nra).
  assert (K2 : 0 < u * (B * B)) by (apply Rmult_lt_0_compat; nra).
  assert (K3 : 0 < u * (x * (B - x) - u * (B * B) / 4)) by (apply Rmult_lt_0_compat; nra). nra.
Qed.
Lemma sqrt_sq_le x : fmt x -> 0 <= x -> rnd (sqrt (rnd (x * x))) <= x.
Proof.
  intros Fx [Hx| <-]; [|rewrite Rmult_0_l, rnd_0, sqrt_0, rnd_0; lra].
  set (k := mag_val radix2 x (mag radix2 x)). assert (Hk : x < bpow radix2 k).
  { pose proof (bpow_mag_gt radix2 x) as A. rewrite Rabs_pos_eq in A by lra. exact A. }
  set (u := bpow radix2 (- p)). set (B := bpow radix2 k). fold B in Hk.
  assert (Hulp : ulp radix2 (FLX_exp p) x = u * B).
  { rewrite ulp_neq_0 by lra. unfold cexp, FLX_exp. fold k. unfold u, B, Zminus. rewrite bpow_plus. ring. }
  assert (Hu : 0 < u) by apply bpow_gt_0.
  apply round_N_le_midp; [exact (FLX_exp_valid p)|exact Fx|]. rewrite succ_eq_pos by lra. rewrite Hulp.
  assert (Hy : rnd (x * x) <= x * x + u * (x * x)).
  { pose proof (relative_error_N_FLX radix2 p ltac:(lia) (fun x => negb (Z.even x)) (x * x)) as R.
    fold (rnd (x * x)) in R. rewrite (Rabs_pos_eq (x * x)) in R by nra.
    assert (E : / 2 * bpow radix2 (- p + 1) = u) by (rewrite bpow_plus; change (bpow radix2 1) with 2; unfold u; lra).
    rewrite E in R. apply Rabs_le_inv in R. lra. }
  apply Rle_lt_trans with (1 := sqrt_le_1_alt _ _ Hy).
  replace ((x + (x + u * B)) / 2) with (x + u * B / 2) by field.
  assert (HB : 0 < u * B) by nra.
  apply Rsqr_incrst_0; [|apply sqrt_pos|nra]. rewrite Rsqr_sqrt by nra. unfold Rsqr.
  assert (K : 0 < u * (x * (B - x))) by (apply Rmult_lt_0_compat; nra). nra.
Qed.
Lemma sqrt_sq_eq x : fmt x -> rnd (sqrt (rnd (x * x))) = Rabs x.
Proof.
  intros Fx. destruct (Rle_dec 0 x).
  - rewrite Rabs_pos_eq by auto. apply Rle_antisym; [now apply sqrt_sq_le|now apply sqrt_sq_ge].
  - rewrite Rabs_left by lra. replace (x * x) with (- x * - x) by ring.
    apply Rle_antisym; [apply sqrt_sq_le|apply sqrt_sq_ge]; try lra; now apply fmt_opp.
Qed.
Lemma sqrt_sq_abs x : fmt x -> Rabs x <= rnd (sqrt (rnd (x * x))).
Proof.
  intros Fx. destruct (Rle_dec 0 x).
  - rewrite Rabs_pos_eq by auto. now apply sqrt_sq_ge.
  - rewrite Rabs_left by lra. replace (x * x) with (- x * - x) by ring. apply sqrt_sq_ge; [now apply fmt_opp|lra].
Qed.
(** the computed norm of a vector of p-digit numbers is at least every component *)
Definition fnorm (x y z : R) : R := rnd (sqrt (rnd (rnd (rnd (x * x) + rnd (y * y)) + rnd (z * z)))).
Lemma fnorm_ge x y z : fmt x -> fmt y -> fmt z ->
  Rabs x <= fnorm x y z /\ Rabs y <= fnorm x y z /\ Rabs z <= fnorm x y z.
Proof.
  intros Fx Fy Fz.
  assert (P : forall t, 0 <= rnd (t * t)) by (intros; apply rnd_nonneg; nra).
  pose proof (P x) as Px. pose proof (P y) as Py. pose proof (P z) as Pz.
  assert (G : forall a, a <= rnd (x * x) + rnd (y * y) -> fmt a -> a <= rnd (rnd (rnd (x * x) + rnd (y * y)) + rnd (z * z))).
  { intros a Ha Fa. rewrite <- (rnd_fmt a Fa). apply rnd_le. apply Rle_trans with (rnd (rnd (x * x) + rnd (y * y))); [|lra].
    apply rnd_le in Ha. now rewrite rnd_fmt in Ha. }
  assert (Q : forall a, rnd (a * a) <= rnd (rnd (rnd (x * x) + rnd (y * y)) + rnd (z * z)) -> fmt a -> Rabs a <= fnorm x y z).
  { intros a Ha Fa. apply Rle_trans with (1 := sqrt_sq_abs a Fa). apply rnd_le, sqrt_le_1_alt, Ha. }
  split; [|split]; apply Q; auto.
  - apply G; [lra|apply fmt_rnd].
  - apply G; [lra|apply fmt_rnd].
  - rewrite <- (rnd_fmt (rnd (z * z))) at 1 by apply fmt_rnd. apply rnd_le.
    assert (0 <= rnd (rnd (x * x) + rnd (y * y))) by (apply rnd_nonneg; lra). lra.
Qed.
Lemma quot_le a n : Rabs a <= n -> 0 < n -> -1 <= rnd (a / n) <= 1.
Proof.
  intros Ha Hn. apply Rabs_le_inv in Ha.
  assert (M : rnd (-1) = -1) by (apply rnd_fmt, fmt_opp, fmt_1). 
  split; [rewrite <- M|rewrite <- rnd_1]; apply rnd_le.
  - apply Rmult_le_reg_r with n; [auto|]. unfold Rdiv. rewrite Rmult_assoc, Rinv_l by lra. lra.
  - apply Rmult_le_reg_r with n; [auto|]. unfold Rdiv. rewrite Rmult_assoc, Rinv_l by lra. lra.
Qed.
Lemma fnorm_pos x y z : x <> 0 \/ y <> 0 \/ z <> 0 -> 0 < fnorm x y z.
Proof.
  intros H.
  assert (P : forall t, 0 <= rnd (t * t)) by (intros; apply rnd_nonneg; nra).
  assert (Q : forall t, t <> 0 -> 0 < rnd (t * t)) by (intros; apply rnd_pos; nra).
  pose proof (P x) as Px. pose proof (P y) as Py. pose proof (P z) as Pz.
  assert (R : 0 <= rnd (rnd (x * x) + rnd (y * y))) by (apply rnd_nonneg; lra).
  apply rnd_pos, sqrt_lt_R0, rnd_pos. destruct H as [H|[H|H]].
  - pose proof (Q x H). assert (0 < rnd (rnd (x * x) + rnd (y * y))) by (apply rnd_pos; lra). lra.
  - pose proof (Q y H). assert (0 < rnd (rnd (x * x) + rnd (y * y))) by (apply rnd_pos; lra). lra.
  - pose proof (Q z H). lra.
Qed.
Lemma fnorm_z z : fmt z -> fnorm 0 0 z = Rabs z.
Proof.
  intros Fz. unfold fnorm. rewrite Rmult_0_l, rnd_0, Rplus_0_l, rnd_0, Rplus_0_l.
  rewrite (rnd_fmt (rnd (z * z))) by apply fmt_rnd. now apply sqrt_sq_eq.
Qed.
Lemma fmt_IZR n : (Z.abs n < 2 ^ p)%Z -> fmt (IZR n).
Proof.
  intros H. apply generic_format_FLX. exists (Float radix2 n 0); [unfold F2R; cbn; ring|exact H].
Qed.
(** the neighbours of 1 *)
Lemma fmt_scale n e : (Z.abs n < 2 ^ p)%Z -> fmt (IZR n * bpow radix2 e).
Proof. intros H. apply generic_format_FLX. exists (Float radix2 n e); [reflexivity|exact H]. Qed.
Lemma pow_split : IZR (2 ^ (p - 1)) * bpow radix2 (1 - p) = 1.
Proof.
  change 2%Z with (radix_val radix2). rewrite IZR_Zpower by lia. rewrite <- bpow_plus.
  replace (p - 1 + (1 - p))%Z with 0%Z by ring. reflexivity.
Qed.
Lemma pow_bound : (1 < 2 ^ (p - 1) /\ 2 ^ p = 2 * 2 ^ (p - 1))%Z.
Proof.
  split; [pose proof (Z.pow_le_mono_r 2 1 (p - 1)); lia|]. rewrite <- Z.pow_succ_r by lia. f_equal. lia.
Qed.
Lemma fmt_succ1 : fmt (1 + bpow radix2 (1 - p)).
Proof.
  pose proof pow_bound. pose proof (fmt_scale (2 ^ (p - 1) + 1) (1 - p)) as K.
  rewrite plus_IZR, Rmult_plus_distr_r, pow_split, Rmult_1_l in K. apply K. lia.
Qed.
Lemma fmt_pred1 : fmt (1 - bpow radix2 (1 - p)).
Proof.
  pose proof pow_bound. pose proof (fmt_scale (2 ^ (p - 1) - 1) (1 - p)) as K.
  rewrite minus_IZR, Rmult_minus_distr_r, pow_split, Rmult_1_l in K. apply K. lia.
Qed.
Lemma rnd_near1 t : 0 <= t < bpow radix2 (1 - p) / 4 -> rnd (1 - t) = 1.
Proof.
  intros [H1 H2]. apply Rle_antisym.
  - apply Rle_trans with (rnd 1); [apply rnd_le; lra|rewrite rnd_1; lra].
  - apply round_N_ge_midp; [exact (FLX_exp_valid p)|apply fmt_1|].
    assert (P : pred radix2 (FLX_exp p) 1 = 1 - bpow radix2 (1 - p) / 2).
    { change 1 with (bpow radix2 0) at 1. rewrite pred_bpow.
      unfold FLX_exp. replace (0 - p)%Z with (-1 + (1 - p))%Z by ring. rewrite bpow_plus.
      change (bpow radix2 0) with 1. change (bpow radix2 (-1)) with (/ 2). lra. }
    rewrite P. lra.
Qed.
End Rnd.
