(** * Propagation of rounding errors *)
From Coq Require Import Reals Lra Psatz.
Local Open Scope R_scope.

(** [rd] has relative error at most [u] and is exact on 1, 2, -1 (the standard model of floating point arithmetic without
    overflow and underflow) *)
Record rounding (rd : R -> R) (u : R) : Prop := {
  rr_err : forall x, Rabs (rd x - x) <= u * Rabs x; rr_1 : rd 1 = 1; rr_2 : rd 2 = 2; rr_m1 : rd (-1) = -1; rr_u : 0 <= u }.

Lemma abs_in a b : Rabs a <= b -> - b <= a <= b.
Proof. intros H. pose proof (Rle_abs a). pose proof (Rle_abs (- a)). rewrite Rabs_Ropp in *. lra. Qed.
Lemma abs_mul_le a b x y : Rabs a <= x -> Rabs b <= y -> Rabs (a * b) <= x * y.
Proof. intros. rewrite Rabs_mult. apply Rmult_le_compat; auto; apply Rabs_pos. Qed.
Lemma abs_add_le a b x y : Rabs a <= x -> Rabs b <= y -> Rabs (a + b) <= x + y.
Proof. intros. pose proof (Rabs_triang a b). lra. Qed.
(** a perturbed product *)
Lemma abs_prod x x' y y' X Y dx dy : Rabs x <= X -> Rabs y <= Y -> Rabs (x' - x) <= dx -> Rabs (y' - y) <= dy ->
  Rabs (x' * y' - x * y) <= dx * (Y + dy) + X * dy /\ Rabs (x' * y') <= (X + dx) * (Y + dy).
Proof.
  intros HX HY Hx Hy.
  assert (X' : Rabs x' <= X + dx) by (replace x' with (x + (x' - x)) by ring; now apply abs_add_le).
  assert (Y' : Rabs y' <= Y + dy) by (replace y' with (y + (y' - y)) by ring; now apply abs_add_le).
  split; [|now apply abs_mul_le].
  replace (x' * y' - x * y) with ((x' - x) * y' + x * (y' - y)) by ring. apply abs_add_le; now apply abs_mul_le.
Qed.

Section Abs.
Context (rd : R -> R) (u : R) (Hrd : rounding rd u) (Hu1 : u <= / 10000).
Lemma u_pos : 0 <= u. Proof. apply Hrd. Qed.
Lemma rd_within z x d m : Rabs (z - x) <= d -> Rabs z <= m -> Rabs (rd z - x) <= d + u * m.
Proof.
  intros H1 H2. pose proof u_pos. pose proof (rr_err rd u Hrd z).
  replace (rd z - x) with ((z - x) + (rd z - z)) by ring. apply abs_add_le; auto.
  eapply Rle_trans; [eassumption|]. now apply Rmult_le_compat_l.
Qed.
(** numbers of size at most 1, errors counted in units of [u] *)
Definition nr (x' x d : R) : Prop := Rabs (x' - x) <= d * u /\ Rabs x <= 1.
Lemma nr_mul x' x y' y d d' : nr x' x d -> nr y' y d' -> 0 <= d <= 20 -> 0 <= d' <= 20 -> nr (rd (x' * y')) (x * y) (d + d' + 2).
Proof.
  intros [H1 H2] [H3 H4] Hd Hd'. pose proof u_pos. split.
  - destruct (abs_prod x x' y y' 1 1 _ _ H2 H4 H1 H3) as [A B].
    eapply Rle_trans; [apply (rd_within _ _ _ _ A B)|].
    assert (0 <= d * u <= 20 / 10000) by nra. assert (0 <= d' * u <= 20 / 10000) by nra.
    set (s := d * u) in *. set (t := d' * u) in *. replace ((d + d' + 2) * u) with (s + t + 2 * u) by (unfold s, t; ring).
    assert (s * t <= 20 * u * (20 / 10000)) by (apply Rmult_le_compat; unfold s; nra).
    assert (u * ((1 + s) * (1 + t)) <= u * (11 / 10)) by (apply Rmult_le_compat_l; nra). nra.
  - rewrite Rabs_mult. pose proof (Rabs_pos x). pose proof (Rabs_pos y). nra.
Qed.
Lemma nr_add x' x y' y d d' : nr x' x d -> nr y' y d' -> 0 <= d <= 20 -> 0 <= d' <= 20 -> Rabs (x + y) <= 1 ->
  nr (rd (x' + y')) (x + y) (d + d' + 2).
Proof.
  intros [H1 H2] [H3 H4] Hd Hd' B. pose proof u_pos. split; auto.
  assert (A : Rabs (x' + y' - (x + y)) <= (d + d') * u).
  { replace (x' + y' - (x + y)) with ((x' - x) + (y' - y)) by ring. rewrite Rmult_plus_distr_r. now apply abs_add_le. }
  assert (C : Rabs (x' + y') <= 1 + (d + d') * u).
  { replace (x' + y') with ((x + y) + (x' + y' - (x + y))) by ring. now apply abs_add_le. }
  eapply Rle_trans; [apply (rd_within _ _ _ _ A C)|]. assert ((d + d') * u <= 1) by nra. nra.
Qed.
Lemma nr_opp x' x d : nr x' x d -> nr (- x') (- x) d.
Proof. intros [H1 H2]. split; [|now rewrite Rabs_Ropp]. replace (- x' - - x) with (- (x' - x)) by ring. now rewrite Rabs_Ropp. Qed.
Lemma nr_sub x' x y' y d d' : nr x' x d -> nr y' y d' -> 0 <= d <= 20 -> 0 <= d' <= 20 -> Rabs (x - y) <= 1 ->
  nr (rd (x' - y')) (x - y) (d + d' + 2).
Proof. intros H1 H2 Hd Hd' B. apply nr_opp in H2. unfold Rminus in *. now apply nr_add. Qed.
Lemma nr_weak x' x d d' : nr x' x d -> d <= d' -> nr x' x d'.
Proof. intros [H1 H2] H. pose proof u_pos. split; auto. nra. Qed.

(** a row of the rotation applied to a vector computed as [m] times something of size [B] *)
Lemma row_acc r1' r1 r2' r2 m X' X Y' Y B : nr r1' r1 18 -> nr r2' r2 18 -> 0 <= B -> 
  Rabs X <= B -> Rabs Y <= B -> Rabs (X' - m * X) <= 5 * u * (Rabs m * B) -> Rabs (Y' - m * Y) <= 5 * u * (Rabs m * B) ->
  Rabs (rd (rd (r1' * X') + rd (r2' * Y')) - m * (r1 * X + r2 * Y)) <= 53 * u * (Rabs m * B).
Proof.
  intros R1 R2 HB HX HY EX EY. pose proof u_pos. set (b := Rabs m * B) in *.
  assert (Hb : 0 <= b) by (apply Rmult_le_pos; auto; apply Rabs_pos).
  assert (S : forall r' r Z' Z, nr r' r 18 -> Rabs Z <= B -> Rabs (Z' - m * Z) <= 5 * u * b ->
    Rabs (rd (r' * Z') - r * (m * Z)) <= 25 * u * b /\ Rabs (r * (m * Z)) <= b).
  { intros r' r Z' Z [A1 A2] HZ EZ. assert (HmZ : Rabs (m * Z) <= b) by (apply abs_mul_le; auto; lra).
    destruct (abs_prod r r' (m * Z) Z' 1 b _ _ A2 HmZ A1 EZ) as [C D]. split.
    - eapply Rle_trans; [apply (rd_within _ _ _ _ C D)|].
      assert (u * b <= b / 10000) by nra. assert (0 <= u * b) by nra. assert (0 <= u * (u * b) <= u * b / 10000) by nra.
      nra.
    - rewrite <- (Rmult_1_l b). now apply abs_mul_le. }
  destruct (S r1' r1 X' X R1 HX EX) as [S1 T1]. destruct (S r2' r2 Y' Y R2 HY EY) as [S2 T2].
  assert (A : Rabs (rd (r1' * X') + rd (r2' * Y') - m * (r1 * X + r2 * Y)) <= 50 * u * b).
  { replace (rd (r1' * X') + rd (r2' * Y') - m * (r1 * X + r2 * Y))
      with ((rd (r1' * X') - r1 * (m * X)) + (rd (r2' * Y') - r2 * (m * Y))) by ring.
    eapply Rle_trans; [apply abs_add_le; eassumption|lra]. }
  assert (C : Rabs (rd (r1' * X') + rd (r2' * Y')) <= 2 * b + 50 * u * b).
  { replace (rd (r1' * X') + rd (r2' * Y')) with ((r1 * (m * X) + r2 * (m * Y)) + (rd (r1' * X') + rd (r2' * Y') - m * (r1 * X + r2 * Y))) by ring.
    apply abs_add_le; auto. eapply Rle_trans; [apply abs_add_le; eassumption|lra]. }
  eapply Rle_trans; [apply (rd_within _ _ _ _ A C)|].
  assert (0 <= u * b) by nra. assert (u * (50 * u * b) <= u * b / 100) by nra. nra.
Qed.

(** relative errors in units of [w >= u] *)
Context (w : R) (Hw : u <= w) (Hw1 : w <= / 10000).
Definition rel (x' x D : R) : Prop := Rabs (x' - x) <= D * w * Rabs x.
Lemma w_pos : 0 <= w. Proof. pose proof u_pos. lra. Qed.
Lemma rel_refl x : rel x x 0. Proof. unfold rel. rewrite Rminus_diag_eq, Rabs_R0 by auto. lra. Qed.
Lemma rel_weak x' x D D' : rel x' x D -> D <= D' -> rel x' x D'.
Proof.
  unfold rel. intros H L. pose proof w_pos. pose proof (Rabs_pos x). eapply Rle_trans; [exact H|].
  apply Rmult_le_compat_r; auto. now apply Rmult_le_compat_r.
Qed.
Lemma rel_rd z x D : 0 <= D <= 90 -> rel z x D -> rel (rd z) x (D + 1 + / 100).
Proof.
  intros HD H. pose proof w_pos. pose proof u_pos. unfold rel in *. pose proof (Rabs_pos x).
  assert (Z : Rabs z <= Rabs x + D * w * Rabs x) by (replace z with (x + (z - x)) by ring; apply abs_add_le; auto; lra).
  eapply Rle_trans; [apply (rd_within _ _ _ _ H Z)|].
  assert (u * (Rabs x + D * w * Rabs x) <= w * (Rabs x + D * w * Rabs x)).
  { apply Rmult_le_compat_r; auto. assert (0 <= D * w) by nra. nra. }
  assert (D * w <= 9 / 1000) by nra. assert (0 <= w * Rabs x) by nra.
  assert (w * (D * w * Rabs x) <= 9 / 1000 * (w * Rabs x)).
  { replace (w * (D * w * Rabs x)) with (D * w * (w * Rabs x)) by ring. now apply Rmult_le_compat_r. }
  nra.
Qed.
Lemma rel_mul x' x y' y D D' : rel x' x D -> rel y' y D' -> 0 <= D <= 40 -> 0 <= D' <= 40 -> rel (rd (x' * y')) (x * y) (D + D' + 2).
Proof.
  intros H1 H2 HD HD'. pose proof w_pos.
  assert (K : rel (x' * y') (x * y) (D + D' + / 5)).
  { unfold rel in *. destruct (abs_prod x x' y y' (Rabs x) (Rabs y) _ _ (Rle_refl _) (Rle_refl _) H1 H2) as [A _].
    eapply Rle_trans; [exact A|]. rewrite Rabs_mult. set (X := Rabs x). set (Y := Rabs y).
    assert (0 <= X * Y) by (apply Rmult_le_pos; apply Rabs_pos).
    assert (E : D * w * X * (Y + D' * w * Y) + X * (D' * w * Y) = (D + D' + D * D' * w) * w * (X * Y)) by ring. rewrite E.
    apply Rmult_le_compat_r; auto. apply Rmult_le_compat_r; auto.
    assert (D * D' <= 40 * 40) by (apply Rmult_le_compat; lra). nra. }
  eapply rel_weak; [apply rel_rd; [|exact K]; lra|lra].
Qed.
Lemma rel_div x' x y' y D D' : rel x' x D -> rel y' y D' -> y <> 0 -> 0 <= D <= 40 -> 0 <= D' <= 40 ->
  y' <> 0 /\ rel (rd (x' / y')) (x / y) (D + D' + 2).
Proof.
  intros H1 H2 Hy HD HD'. pose proof w_pos.
  assert (Yp : 0 < Rabs y) by now apply Rabs_pos_lt.
  assert (D'w : 0 <= D' * w <= 4 / 1000) by nra.
  assert (Y' : Rabs y * (1 - D' * w) <= Rabs y').
  { unfold rel in H2. assert (Rabs y <= Rabs y' + Rabs (y' - y)); [|nra].
    rewrite <- (Rabs_Ropp (y' - y)). eapply Rle_trans; [|apply Rabs_triang]. right. f_equal. ring. }
  assert (Y'p : 0 < Rabs y') by nra.
  assert (Hy' : y' <> 0) by (intros ->; rewrite Rabs_R0 in Y'p; lra). split; auto.
  assert (K : rel (x' / y') (x / y) (D + D' + / 2)).
  { unfold rel in *. replace (x' / y' - x / y) with (((x' - x) * y - x * (y' - y)) * / (y' * y)) by (field; auto).
    rewrite Rabs_mult, Rabs_inv, Rabs_mult. unfold Rdiv. rewrite Rabs_mult, Rabs_inv.
    assert (N : Rabs ((x' - x) * y - x * (y' - y)) <= (D + D') * w * (Rabs x * Rabs y)).
    { unfold Rminus at 1. eapply Rle_trans; [apply Rabs_triang|]. rewrite Rabs_Ropp, !Rabs_mult.
      assert (Rabs (x' - x) * Rabs y <= D * w * Rabs x * Rabs y) by (apply Rmult_le_compat_r; lra).
      assert (Rabs x * Rabs (y' - y) <= Rabs x * (D' * w * Rabs y)) by (apply Rmult_le_compat_l; [apply Rabs_pos|auto]). nra. }
    apply (Rmult_le_reg_r (Rabs y' * Rabs y)); [apply Rmult_lt_0_compat; auto|].
    rewrite Rmult_assoc, Rinv_l, Rmult_1_r by (apply Rgt_not_eq, Rmult_lt_0_compat; auto).
    replace ((D + D' + / 2) * w * (Rabs x * / Rabs y) * (Rabs y' * Rabs y)) with ((D + D' + / 2) * w * Rabs x * Rabs y') by (field; lra).
    eapply Rle_trans; [exact N|].
    apply Rle_trans with ((D + D' + / 2) * w * Rabs x * (Rabs y * (1 - D' * w))).
    - replace ((D + D') * w * (Rabs x * Rabs y)) with ((D + D') * (w * (Rabs x * Rabs y))) by ring.
      replace ((D + D' + / 2) * w * Rabs x * (Rabs y * (1 - D' * w))) with ((D + D' + / 2) * (1 - D' * w) * (w * (Rabs x * Rabs y))) by ring.
      apply Rmult_le_compat_r; [|nra]. apply Rmult_le_pos; auto. apply Rmult_le_pos; [apply Rabs_pos|lra].
    - apply Rmult_le_compat_l; auto. apply Rmult_le_pos; [|apply Rabs_pos]. nra. }
  eapply rel_weak; [apply rel_rd; [|exact K]; lra|lra].
Qed.
Lemma rel_sqrt x' x D : 0 < x -> rel x' x D -> 0 <= D <= 40 -> 0 < x' /\ rel (rd (sqrt x')) (sqrt x) (D + 2).
Proof.
  intros Hx H HD. pose proof w_pos. assert (Dw : 0 <= D * w <= 4 / 1000) by nra.
  assert (Hx' : 0 < x') by (unfold rel in H; rewrite (Rabs_pos_eq x) in H by lra; apply abs_in in H; nra).
  split; auto. assert (K : rel (sqrt x') (sqrt x) D).
  { unfold rel in *. pose proof (sqrt_lt_R0 x Hx) as S. pose proof (sqrt_pos x') as S'.
    rewrite (Rabs_pos_eq (sqrt x)) by lra. rewrite (Rabs_pos_eq x) in H by lra.
    pose proof (sqrt_sqrt x ltac:(lra)) as Q. pose proof (sqrt_sqrt x' ltac:(lra)) as Q'.
    apply (Rmult_le_reg_r (sqrt x' + sqrt x)); [lra|].
    rewrite <- (Rabs_pos_eq (sqrt x' + sqrt x)) at 1 by lra. rewrite <- Rabs_mult.
    replace ((sqrt x' - sqrt x) * (sqrt x' + sqrt x)) with (x' - x) by nra.
    eapply Rle_trans; [exact H|]. replace (D * w * sqrt x * (sqrt x' + sqrt x)) with (D * w * (sqrt x * sqrt x' + sqrt x * sqrt x)) by ring. rewrite Q.
    apply Rmult_le_compat_l; [lra|]. nra. }
  eapply rel_weak; [apply rel_rd; [|exact K]; lra|lra].
Qed.
End Abs.
