(** * C84: the round trip Cartesian - Kepler - Cartesian in floating point *)
From Coq Require Import Reals QArith Qreals ZArith Lra Lia Psatz Bool List.
From Verif Require Import NP NPReal NPFloat FloatBase KeplerModel ConvModel Lists ConvCols Spec RealBase KepReal CartReal PropsKep CartInv LagTrig LagRobust.
From Verif Require Import FloatAcc FloatVec PropsFloat PropsFloatAcc FloatC2K FloatC2KCol FloatC2KAcc PropsFloatC2K.
From Flocq Require Core.
Import ListNotations.
Local Open Scope R_scope.

(** ** How the state depends on the elements *)
(** the points of the unit circle at the two angles are at most [c] apart *)
Definition chord (c t' t : R) : Prop :=
  0 <= c /\ (cos t' - cos t) * (cos t' - cos t) + (sin t' - sin t) * (sin t' - sin t) <= c * c.
Definition rz (t : R) (v : vec) : vec := (cos t * vx v - sin t * vy v, sin t * vx v + cos t * vy v, vz v).
Definition rx (t : R) (v : vec) : vec := (vx v, cos t * vy v - sin t * vz v, sin t * vy v + cos t * vz v).
Lemma rz_norm t v : norm (rz t v) = norm v.
Proof.
  unfold norm. f_equal. unfold dot, rz, vx, vy, vz. cbn [fst snd]. pose proof (sc1 t) as T. destruct v as [[a b] c]. cbn [fst snd].
  replace ((cos t * a - sin t * b) * (cos t * a - sin t * b) + (sin t * a + cos t * b) * (sin t * a + cos t * b) + c * c)
    with ((sin t * sin t + cos t * cos t) * (a * a + b * b) + c * c) by ring. rewrite T. ring.
Qed.
Lemma rx_norm t v : norm (rx t v) = norm v.
Proof.
  unfold norm. f_equal. unfold dot, rx, vx, vy, vz. cbn [fst snd]. pose proof (sc1 t) as T. destruct v as [[a b] c]. cbn [fst snd].
  replace (a * a + (cos t * b - sin t * c) * (cos t * b - sin t * c) + (sin t * b + cos t * c) * (sin t * b + cos t * c))
    with ((sin t * sin t + cos t * cos t) * (b * b + c * c) + a * a) by ring. rewrite T. ring.
Qed.
Lemma rz_minus t v w : minus3 (rz t v) (rz t w) = rz t (minus3 v w).
Proof. unfold minus3, rz. apply vec_eq; unfold vx, vy, vz; cbn [fst snd]; ring. Qed.
Lemma rx_minus t v w : minus3 (rx t v) (rx t w) = rx t (minus3 v w).
Proof. unfold minus3, rx. apply vec_eq; unfold vx, vy, vz; cbn [fst snd]; ring. Qed.
Lemma rz_chord c t' t v : chord c t' t -> norm (minus3 (rz t' v) (rz t v)) <= c * norm v.
Proof.
  intros [C0 C]. pose proof (norm_pos v) as N0. pose proof (norm_sq v) as N. apply norm_le; [nra|].
  replace (dot (minus3 (rz t' v) (rz t v)) (minus3 (rz t' v) (rz t v)))
    with (((cos t' - cos t) * (cos t' - cos t) + (sin t' - sin t) * (sin t' - sin t)) * (vx v * vx v + vy v * vy v))
    by (unfold dot, minus3, rz, vx, vy, vz; cbn [fst snd]; ring).
  replace (c * norm v * (c * norm v)) with (c * c * (norm v * norm v)) by ring. rewrite N. unfold dot.
  assert (Q : forall y, 0 <= y * y) by (intros; apply Rle_0_sqr).
  apply Rmult_le_compat; auto; [apply Rplus_le_le_0_compat; apply Q|apply Rplus_le_le_0_compat; apply Q|].
  pose proof (Q (vx v)). pose proof (Q (vz v)). lra.
Qed.
Lemma rx_chord c t' t v : chord c t' t -> norm (minus3 (rx t' v) (rx t v)) <= c * norm v.
Proof.
  intros [C0 C]. pose proof (norm_pos v) as N0. pose proof (norm_sq v) as N. apply norm_le; [nra|].
  replace (dot (minus3 (rx t' v) (rx t v)) (minus3 (rx t' v) (rx t v)))
    with (((cos t' - cos t) * (cos t' - cos t) + (sin t' - sin t) * (sin t' - sin t)) * (vy v * vy v + vz v * vz v))
    by (unfold dot, minus3, rx, vx, vy, vz; cbn [fst snd]; ring).
  replace (c * norm v * (c * norm v)) with (c * c * (norm v * norm v)) by ring. rewrite N. unfold dot.
  assert (Q : forall y, 0 <= y * y) by (intros; apply Rle_0_sqr).
  apply Rmult_le_compat; auto; [apply Rplus_le_le_0_compat; apply Q|apply Rplus_le_le_0_compat; apply Q|].
  pose proof (Q (vx v)). pose proof (Q (vz v)). lra.
Qed.
Definition frame (k : six R) (v : vec) : vec := rz (k_Om k) (rx (k_i k) (rz (k_om k) v)).
Lemma frame_axes k a b : plus3 (scal3 a (P_axis k)) (scal3 b (Q_axis k)) = frame k (a, b, 0).
Proof. rewrite Q_axis_eq. unfold frame, rz, rx, P_axis, plus3, scal3. apply vec_eq; unfold vx, vy, vz; cbn [fst snd]; ring. Qed.
Lemma frame_norm k v : norm (frame k v) = norm v.
Proof. unfold frame. now rewrite rz_norm, rx_norm, rz_norm. Qed.
Lemma norm_step a b c A B : norm (minus3 a b) <= A -> norm (minus3 b c) <= B -> norm (minus3 a c) <= A + B.
Proof.
  intros HA HB. replace (minus3 a c) with (plus3 (minus3 a b) (minus3 b c)) by (unfold plus3, minus3; apply vec_eq; unfold vx, vy, vz; cbn [fst snd]; ring).
  pose proof (norm_tri (minus3 a b) (minus3 b c)). lra.
Qed.
Lemma frame_pert k' k c1 c2 c3 v' v : chord c1 (k_om k') (k_om k) -> chord c2 (k_i k') (k_i k) -> chord c3 (k_Om k') (k_Om k) ->
  norm (minus3 (frame k' v') (frame k v)) <= norm (minus3 v' v) + (c1 + c2 + c3) * norm v.
Proof.
  intros H1 H2 H3. unfold frame.
  pose proof (rz_chord _ _ _ v H1) as A1. pose proof (rx_chord _ _ _ (rz (k_om k) v) H2) as A2. rewrite rz_norm in A2.
  pose proof (rz_chord _ _ _ (rx (k_i k) (rz (k_om k) v)) H3) as A3. rewrite rx_norm, rz_norm in A3.
  assert (B0 : norm (minus3 (rz (k_om k') v') (rz (k_om k') v)) <= norm (minus3 v' v)) by (rewrite rz_minus, rz_norm; lra).
  pose proof (norm_step _ _ _ _ _ B0 A1) as B1.
  assert (B2 : norm (minus3 (rx (k_i k') (rz (k_om k') v')) (rx (k_i k') (rz (k_om k) v))) <= norm (minus3 v' v) + c1 * norm v) by (rewrite rx_minus, rx_norm; exact B1).
  pose proof (norm_step _ _ _ _ _ B2 A2) as B3.
  assert (B4 : norm (minus3 (rz (k_Om k') (rx (k_i k') (rz (k_om k') v'))) (rz (k_Om k') (rx (k_i k) (rz (k_om k) v)))) <= norm (minus3 v' v) + c1 * norm v + c2 * norm v)
    by (rewrite rz_minus, rz_norm; exact B3).
  pose proof (norm_step _ _ _ _ _ B4 A3) as B5. lra.
Qed.
Lemma norm_scal a v : 0 <= a -> norm (scal3 a v) = a * norm v.
Proof. intros Ha. apply norm_eq; [pose proof (norm_pos v); nra|]. rewrite dot_scal_l, dot_scal_r, <- norm_sq. ring. Qed.
(** a scaled vector *)
Lemma scal_pert a' a f' f h d : 0 <= a -> Rabs (a' - a) <= h * a -> 0 <= h -> norm (minus3 f' f) <= d ->
  norm (minus3 (scal3 a' f') (scal3 a f)) <= a * (h * norm f + (1 + h) * d).
Proof.
  intros Ha H Hh Hd. pose proof (norm_pos f) as Nf.
  assert (N' : norm f' <= norm f + d).
  { pose proof (norm_diff f' f) as D. apply abs_in in D. lra. }
  assert (E1 : norm (minus3 (scal3 a' f') (scal3 a f')) <= h * a * norm f').
  { apply norm_le; [pose proof (norm_pos f'); apply Rmult_le_pos; [nra|auto]|].
    replace (dot (minus3 (scal3 a' f') (scal3 a f')) (minus3 (scal3 a' f') (scal3 a f'))) with ((a' - a) * (a' - a) * dot f' f')
      by (unfold dot, minus3, scal3, vx, vy, vz; cbn [fst snd]; ring).
    rewrite <- norm_sq. replace (h * a * norm f' * (h * a * norm f')) with ((h * a) * (h * a) * (norm f' * norm f')) by ring.
    apply Rmult_le_compat_r; [nra|]. apply abs_in in H. nra. }
  assert (E2 : norm (minus3 (scal3 a f') (scal3 a f)) <= a * d).
  { replace (minus3 (scal3 a f') (scal3 a f)) with (scal3 a (minus3 f' f)) by (unfold minus3, scal3; apply vec_eq; unfold vx, vy, vz; cbn [fst snd]; ring).
    rewrite norm_scal by auto. apply Rmult_le_compat_l; auto. }
  pose proof (norm_step _ _ _ _ _ E1 E2) as E. assert (0 <= h * a) by nra.
  assert (h * a * norm f' <= h * a * (norm f + d)) by (apply Rmult_le_compat_l; auto). nra.
Qed.

(** the state of [k'] against the state of [k]: position up to [dp], velocity up to [dv] *)
Definition near (dp dv : R) (y x : six R) : Prop :=
  norm (minus3 (pos y) (pos x)) <= dp * norm (pos x) /\ norm (minus3 (vel y) (vel x)) <= dv * norm (vel x).

Section Pert.
Context (mu u : R) (k k' : six R) (Hv : valid_kep mu k) (He : 0 < k_e k < 1) (Hu : 0 < u).
Let e := k_e k.
Let e' := k_e k'.
Let w1 := u / (1 - e).
Context (Hw1 : w1 <= / 100000000).
Context (Ha : Rabs (k_a k' - k_a k) <= 100 * w1 * k_a k).
Context (HE : Rabs (e' - e) <= 290 * u).
Context (Hn : Rabs (cos (k_nu k') - cos (k_nu k)) <= 1460 * (u / e)).
Context (He0 : 0 < e').
Local Lemma u_w1 : u = w1 * (1 - e) /\ 0 < w1 /\ u <= w1.
Proof.
  assert (E : u = w1 * (1 - e)) by (unfold w1; field; unfold e; lra). split; [exact E|].
  assert (0 < w1) by (apply Rdiv_lt_0_compat; unfold e; lra). split; auto. unfold e in *. nra.
Qed.
Local Lemma e'_lt : 1 - e' >= (1 - e) * (999 / 1000) /\ 1 - e' <= (1 - e) * (1001 / 1000) /\ e' < 1.
Proof. pose proof u_w1 as (E & P & _). apply abs_in in HE. rewrite E in HE. assert (0 < 1 - e) by (unfold e; lra). repeat split; nra. Qed.
Local Lemma a'_pos : 0 < k_a k'.
Proof. destruct Hv as (_ & A & _). pose proof u_w1. apply abs_in in Ha. nra. Qed.
Lemma valid' : valid_kep mu k'.
Proof.
  pose proof a'_pos. pose proof e'_lt as (_ & _ & ?). destruct Hv as (Hm & _). pose proof (COS_bound (k_nu k')).
  repeat split; auto; change (k_e k') with e'; nra.
Qed.
Let pl := semi_latus (k_a k) e.
Let pl' := semi_latus (k_a k') e'.
Let q := 1 + e * cos (k_nu k).
Let q' := 1 + e' * cos (k_nu k').
Local Lemma pl_eq : pl = k_a k * (1 - e * e) /\ pl' = k_a k' * (1 - e' * e').
Proof. pose proof e'_lt as (_ & _ & ?). unfold pl, pl', semi_latus. destruct Rlt_dec; [|unfold e in *; lra]. destruct Rlt_dec; [|lra]. auto. Qed.
Local Lemma pl_pos : 0 < pl.
Proof. destruct pl_eq as [-> _]. destruct Hv as (_ & A & _). apply Rmult_lt_0_compat; [auto|]. unfold e. nra. Qed.
Local Lemma pl_rel : Rabs (pl' - pl) <= 700 * w1 * pl.
Proof.
  pose proof u_w1 as (E & P & _). destruct Hv as (_ & A & _). destruct pl_eq as [-> ->].
  assert (E1 : 0 < 1 - e) by (unfold e; lra). assert (E0 : 0 < e) by (unfold e; lra).
  assert (B : Rabs ((1 - e' * e') - (1 - e * e)) <= 585 * w1 * (1 - e * e)).
  { replace (1 - e' * e' - (1 - e * e)) with ((e - e') * (2 * e + (e' - e))) by ring. rewrite Rabs_mult, (Rabs_minus_sym e e').
    assert (Rabs (2 * e + (e' - e)) <= 2001 / 1000) by (pose proof e'_lt; apply abs_in in HE; apply Rabs_le; unfold e in *; nra).
    apply Rle_trans with (290 * u * (2001 / 1000)); [apply Rmult_le_compat; auto using Rabs_pos|]. rewrite E. nra. }
  assert (S : 0 < 1 - e * e) by nra. set (a' := k_a k') in *. set (a := k_a k) in *. set (f' := 1 - e' * e') in *. set (f := 1 - e * e) in *.
  clearbody f f' a a'. clear - Ha B A S P Hw1.
  replace (a' * f' - a * f) with ((a' - a) * f + a * (f' - f) + (a' - a) * (f' - f)) by ring.
  assert (M1 : Rabs ((a' - a) * f) <= 100 * w1 * a * f) by (rewrite Rabs_mult, (Rabs_pos_eq f) by lra; apply Rmult_le_compat_r; lra).
  assert (M2 : Rabs (a * (f' - f)) <= a * (585 * w1 * f)) by (rewrite Rabs_mult, (Rabs_pos_eq a) by lra; apply Rmult_le_compat_l; lra).
  assert (M3 : Rabs ((a' - a) * (f' - f)) <= (100 * w1 * a) * (585 * w1 * f)) by (rewrite Rabs_mult; apply Rmult_le_compat; auto using Rabs_pos).
  assert (Z : 0 < a * f) by nra.
  assert (M4 : (100 * w1 * a) * (585 * w1 * f) <= w1 * (a * f)).
  { replace ((100 * w1 * a) * (585 * w1 * f)) with (58500 * w1 * (w1 * (a * f))) by ring. assert (0 < w1 * (a * f)) by nra. nra. }
  eapply Rle_trans; [apply Rabs_triang|]. eapply Rle_trans; [apply Rplus_le_compat_r, Rabs_triang|].
  assert (0 < w1 * (a * f)) by nra. lra.
Qed.
Local Lemma q_rel : 1 - e <= q /\ Rabs (q' - q) <= 1750 * w1 * q.
Proof.
  pose proof u_w1 as (E & P & _). assert (E1 : 0 < 1 - e) by (unfold e; lra). assert (E0 : 0 < e) by (unfold e; lra).
  pose proof (COS_bound (k_nu k)) as C. pose proof (COS_bound (k_nu k')) as C'.
  assert (Q : 1 - e <= q) by (unfold q; nra). split; auto.
  replace (q' - q) with ((e' - e) * cos (k_nu k') + e * (cos (k_nu k') - cos (k_nu k))) by (unfold q, q'; ring).
  assert (M1 : Rabs ((e' - e) * cos (k_nu k')) <= 290 * u * 1) by (rewrite Rabs_mult; apply Rmult_le_compat; auto using Rabs_pos; apply Rabs_le; lra).
  assert (M2 : Rabs (e * (cos (k_nu k') - cos (k_nu k))) <= 1460 * u).
  { rewrite Rabs_mult, (Rabs_pos_eq e) by lra. replace (1460 * u) with (e * (1460 * (u / e))) by (field; lra). apply Rmult_le_compat_l; lra. }
  eapply Rle_trans; [apply Rabs_triang|]. rewrite E in M1, M2. nra.
Qed.
Local Lemma r_rel : 0 < peri_r mu k /\ Rabs (peri_r mu k' - peri_r mu k) <= 2500 * w1 * peri_r mu k.
Proof.
  pose proof u_w1 as (_ & P & _). pose proof pl_pos as Pp. pose proof pl_rel as A. pose proof q_rel as [Q B].
  assert (E1 : 0 < 1 - e) by (unfold e; lra).
  unfold peri_r. fold e e' pl pl' q q'. assert (Q0 : 0 < q) by lra.
  split; [now apply Rdiv_lt_0_compat|]. apply abs_in in B.
  assert (Q1 : q * (9999 / 10000) <= q') by nra. assert (Q2 : 0 < q') by lra.
  replace (pl' / q' - pl / q) with (((pl' - pl) * q - pl * (q' - q)) * / (q * q')) by (field; lra).
  rewrite Rabs_mult, (Rabs_pos_eq (/ (q * q'))) by (apply Rlt_le, Rinv_0_lt_compat; nra).
  assert (N : Rabs ((pl' - pl) * q - pl * (q' - q)) <= 2450 * w1 * (pl * q)).
  { eapply Rle_trans; [apply Rabs_triang|]. rewrite Rabs_Ropp, !Rabs_mult, (Rabs_pos_eq q), (Rabs_pos_eq pl) by lra.
    assert (Rabs (q' - q) <= 1750 * w1 * q) by (apply Rabs_le; lra).
    assert (Rabs (pl' - pl) * q <= 700 * w1 * pl * q) by (apply Rmult_le_compat_r; lra).
    assert (pl * Rabs (q' - q) <= pl * (1750 * w1 * q)) by (apply Rmult_le_compat_l; lra). lra. }
  apply Rle_trans with (2450 * w1 * (pl * q) * / (q * q')); [apply Rmult_le_compat_r; [apply Rlt_le, Rinv_0_lt_compat; nra|auto]|].
  replace (2450 * w1 * (pl * q) * / (q * q')) with (2450 * w1 * (pl / q) * (q / q')) by (field; lra).
  assert (T : q / q' <= 10002 / 10000). { apply Rmult_le_reg_r with q'; [auto|]. unfold Rdiv at 1. rewrite Rmult_assoc, Rinv_l by lra. lra. }
  assert (0 < pl / q) by now apply Rdiv_lt_0_compat. assert (Z : 0 < w1 * (pl / q)) by nra. 
  apply Rle_trans with (2450 * (w1 * (pl / q)) * (10002 / 10000)); [|lra]. rewrite Rmult_assoc, Rmult_assoc, <- (Rmult_assoc w1). 
  replace (2450 * (w1 * (pl / q)) * (10002 / 10000)) with (2450 * (w1 * (pl / q) * (10002 / 10000))) by ring. apply Rmult_le_compat_l; [lra|]. apply Rmult_le_compat_l; lra.
Qed.
Local Lemma s_rel : 0 < peri_s mu k /\ Rabs (peri_s mu k' - peri_s mu k) <= 710 * w1 * peri_s mu k.
Proof.
  pose proof u_w1 as (_ & P & _). pose proof pl_pos as Pp. pose proof pl_rel as A. destruct Hv as (Hm & _).
  unfold peri_s. fold e e' pl pl'. apply abs_in in A.
  assert (P1 : pl * (9999 / 10000) <= pl') by nra. assert (P2 : 0 < pl') by nra.
  assert (S0 : 0 < mu / pl) by now apply Rdiv_lt_0_compat. assert (S0' : 0 < mu / pl') by now apply Rdiv_lt_0_compat.
  pose proof (sqrt_lt_R0 _ S0) as S. pose proof (sqrt_lt_R0 _ S0') as S'. split; auto.
  pose proof (sqrt_sqrt _ (Rlt_le _ _ S0)) as Q. pose proof (sqrt_sqrt _ (Rlt_le _ _ S0')) as Q'.
  set (s := sqrt (mu / pl)) in *. set (s' := sqrt (mu / pl')) in *.
  assert (D : Rabs (s' * s' - s * s) <= 710 * w1 * (s * s)).
  { rewrite Q, Q'. replace (mu / pl' - mu / pl) with ((mu / pl) * ((pl - pl') * / pl')) by (field; lra).
    rewrite Rabs_mult, (Rabs_pos_eq (mu / pl)) by lra. rewrite (Rmult_comm (710 * w1)). apply Rmult_le_compat_l; [lra|].
    rewrite Rabs_mult, (Rabs_pos_eq (/ pl')) by (apply Rlt_le, Rinv_0_lt_compat; auto).
    apply Rmult_le_reg_r with pl'; [auto|]. rewrite Rmult_assoc, Rinv_l, Rmult_1_r by lra. apply Rabs_le. nra. }
  replace (s' * s' - s * s) with ((s' - s) * (s' + s)) in D by ring. rewrite Rabs_mult, (Rabs_pos_eq (s' + s)) in D by lra.
  pose proof (Rabs_pos (s' - s)). nra.
Qed.
Context (c1 c2 c3 c4 : R) (H1 : chord c1 (k_om k') (k_om k)) (H2 : chord c2 (k_i k') (k_i k)) (H3 : chord c3 (k_Om k') (k_Om k)) (H4 : chord c4 (k_nu k') (k_nu k)).
Local Lemma norm2 a b : norm (a, b, 0) * norm (a, b, 0) = a * a + b * b.
Proof. rewrite norm_sq. unfold dot, vx, vy, vz. cbn [fst snd]. ring. Qed.
Theorem state_pert : near (1001 / 1000 * (c1 + c2 + c3 + c4) + 2500 * w1) ((1001 / 1000 * (c1 + c2 + c3 + c4) + 1010 * w1) / (1 - e)) (peri_state mu k') (peri_state mu k).
Proof.
  pose proof u_w1 as (E & P & _). assert (E1 : 0 < 1 - e) by (unfold e; lra). assert (E0 : 0 < e) by (unfold e; lra).
  pose proof H1 as [C1 _]. pose proof H2 as [C2 _]. pose proof H3 as [C3 _]. pose proof H4 as [C4 C4'].
  split.
  - rewrite !peri_pos, !frame_axes. destruct r_rel as [Rp Rr].
    set (f' := frame k' _). set (f := frame k _).
    assert (Nf : norm f = 1).
    { unfold f. rewrite frame_norm. apply norm_eq; [lra|]. unfold dot, vx, vy, vz. cbn [fst snd]. pose proof (sc1 (k_nu k)). lra. }
    assert (D : norm (minus3 f' f) <= c1 + c2 + c3 + c4).
    { pose proof (frame_pert k' k c1 c2 c3 (cos (k_nu k'), sin (k_nu k'), 0) (cos (k_nu k), sin (k_nu k), 0) H1 H2 H3) as A. fold f f' in A.
      assert (N1 : norm (cos (k_nu k), sin (k_nu k), 0) = 1) by (rewrite <- (frame_norm k); exact Nf). rewrite N1 in A.
      assert (N2 : norm (minus3 (cos (k_nu k'), sin (k_nu k'), 0) (cos (k_nu k), sin (k_nu k), 0)) <= c4).
      { apply norm_le; [auto|]. unfold dot, minus3, vx, vy, vz. cbn [fst snd]. lra. }
      lra. }
    pose proof (scal_pert _ _ f' f (2500 * w1) _ (Rlt_le _ _ Rp) Rr ltac:(lra) D) as A. rewrite Nf in A.
    rewrite norm_scal, Nf by lra. eapply Rle_trans; [exact A|]. rewrite !Rmult_1_r, (Rmult_comm _ (peri_r mu k)). apply Rmult_le_compat_l; [lra|].
    nra.
  - rewrite !peri_vel, !frame_axes. destruct s_rel as [Sp Sr]. fold e e'.
    set (v' := (- sin (k_nu k'), e' + cos (k_nu k'), 0)). set (v := (- sin (k_nu k), e + cos (k_nu k), 0)).
    set (f' := frame k' v'). set (f := frame k v).
    assert (Nf : norm f = norm v) by apply frame_norm. pose proof (norm_pos v) as N0.
    assert (Nv : 1 - e <= norm v).
    { pose proof (norm2 (- sin (k_nu k)) (e + cos (k_nu k))) as A. fold v in A. pose proof (sc1 (k_nu k)) as T. pose proof (COS_bound (k_nu k)).
      assert ((1 - e) * (1 - e) <= norm v * norm v) by (rewrite A; nra). nra. }
    assert (Dv : norm (minus3 v' v) <= c4 + 290 * u).
    { assert (N2 : norm (- (sin (k_nu k') - sin (k_nu k)), cos (k_nu k') - cos (k_nu k), 0) <= c4).
      { apply norm_le; [auto|]. unfold dot, vx, vy, vz. cbn [fst snd]. lra. }
      assert (N3 : norm (0, e' - e, 0) <= 290 * u).
      { apply norm_le; [lra|]. unfold dot, vx, vy, vz. cbn [fst snd]. apply abs_in in HE. nra. }
      replace (minus3 v' v) with (plus3 (- (sin (k_nu k') - sin (k_nu k)), cos (k_nu k') - cos (k_nu k), 0) (0, e' - e, 0))
        by (unfold v, v', plus3, minus3; apply vec_eq; unfold vx, vy, vz; cbn [fst snd]; ring).
      eapply Rle_trans; [apply norm_tri|lra]. }
    assert (D : norm (minus3 f' f) <= (c1 + c2 + c3) * norm v + c4 + 290 * u).
    { pose proof (frame_pert k' k c1 c2 c3 v' v H1 H2 H3) as A. fold f f' in A. lra. }
    pose proof (scal_pert _ _ f' f (710 * w1) _ (Rlt_le _ _ Sp) Sr ltac:(lra) D) as A. rewrite Nf in A.
    rewrite norm_scal, Nf by lra. eapply Rle_trans; [exact A|].
    apply Rle_trans with (peri_s mu k * (norm v * ((1001 / 1000 * (c1 + c2 + c3 + c4) + 1010 * w1) / (1 - e)))); [|right; ring].
    apply Rmult_le_compat_l; [lra|].
    set (n := norm v) in *. apply Rmult_le_reg_r with (1 - e); [auto|].
    replace (n * ((1001 / 1000 * (c1 + c2 + c3 + c4) + 1010 * w1) / (1 - e)) * (1 - e)) with (n * (1001 / 1000 * (c1 + c2 + c3 + c4) + 1010 * w1)) by (field; lra).
    rewrite E. clear - E1 E0 P Hw1 C1 C2 C3 C4 Nv N0.
    assert (G : forall a b, 0 <= a <= b -> (1 + 710 * w1) * a <= 1001 / 1000 * b) by (clear - P Hw1; intros; apply Rmult_le_compat; lra).
    assert (K1 : (1 + 710 * w1) * ((c1 + c2 + c3) * n * (1 - e)) <= 1001 / 1000 * ((c1 + c2 + c3) * n)).
    { assert (0 <= (c1 + c2 + c3) * n) by nra. apply G. set (Y := (c1 + c2 + c3) * n) in *. clearbody Y. split; nra. }
    assert (K2 : (1 + 710 * w1) * (c4 * (1 - e)) <= 1001 / 1000 * (c4 * n)).
    { assert (0 <= c4 * (1 - e) <= c4 * n) by (split; [nra|apply Rmult_le_compat_l; lra]). now apply G. }
    assert (K3 : (1 + 710 * w1) * (290 * (w1 * (1 - e)) * (1 - e)) <= 291 * (w1 * n)).
    { assert (0 <= (w1 * (1 - e)) * (1 - e) <= w1 * n).
      { split; [apply Rmult_le_pos; nra|]. assert (w1 * (1 - e) <= w1 * n) by (apply Rmult_le_compat_l; lra).
        assert (0 <= w1 * (1 - e)) by nra. set (Z := w1 * (1 - e)) in *. clearbody Z. clear - H H0 E1 E0. nra. }
      pose proof (G _ _ H). lra. }
    assert (K4 : 710 * w1 * n * (1 - e) <= 710 * (w1 * n)) by (assert (0 <= w1 * n) by nra; nra).
    assert (0 <= w1 * n) by nra; lra.
Qed.
End Pert.

(** ** Chords from the error bounds of C83 *)
Lemma chord_sqrt d t' t : d <= / 100 -> angle_within d t' t -> chord (317 / 100 * sqrt d) t' t.
Proof.
  intros Hd (C & S & _). assert (D0 : 0 <= d) by (pose proof (Rabs_pos (cos t' - cos t)); lra).
  pose proof (sqrt_pos d) as P. pose proof (sqrt_sqrt d D0) as Q. split; [lra|]. apply abs_in in C, S.
  assert (W : forall a b, - b <= a <= b -> a * a <= b * b) by (clear; intros; nra).
  pose proof (W _ _ C) as C2. pose proof (W _ _ S) as S2.
  replace (3 * sqrt d * (3 * sqrt d)) with (9 * (sqrt d * sqrt d)) in S2 by ring. rewrite Q in S2.
  replace (317 / 100 * sqrt d * (317 / 100 * sqrt d)) with (317 / 100 * (317 / 100) * (sqrt d * sqrt d)) by ring. rewrite Q.
  assert (d * d <= d * / 100) by (apply Rmult_le_compat_l; auto). lra.
Qed.
Lemma chord_lin d s t' t : 0 < s <= Rabs (sin t) -> angle_within d t' t -> chord (4 * (d / s)) t' t.
Proof.
  intros Hs (C & _ & S). assert (D0 : 0 <= d) by (pose proof (Rabs_pos (cos t' - cos t)); lra).
  assert (S1 : Rabs (sin t) <= 1) by (apply Rabs_le, SIN_bound).
  assert (DS : d <= d / s). { apply Rmult_le_reg_r with s; [lra|]. unfold Rdiv. rewrite Rmult_assoc, Rinv_l by lra. nra. }
  assert (E : Rabs (sin t' - sin t) <= 3 * (d / s)).
  { apply Rmult_le_reg_l with s; [lra|]. replace (s * (3 * (d / s))) with (3 * d) by (field; lra). 
    pose proof (Rabs_pos (sin t' - sin t)). eapply Rle_trans; [apply Rmult_le_compat_r; [auto|apply Hs]|exact S]. }
  split; [lra|]. apply abs_in in E, C. set (h := d / s) in *.
  assert (W : forall a b, - b <= a <= b -> a * a <= b * b) by (clear; intros; nra).
  pose proof (W _ _ E). assert (C' : - h <= cos t' - cos t <= h) by lra. pose proof (W _ _ C'). nra.
Qed.
Lemma chord_min a b t' t : chord a t' t -> chord b t' t -> chord (Rmin a b) t' t.
Proof. intros. unfold Rmin. now destruct Rle_dec. Qed.

Lemma near_close dp dv d z y x : near dp dv y x -> close d z y -> 0 <= d -> near (dp + d * (1 + dp)) (dv + d * (1 + dv)) z x.
Proof.
  intros [N1 N2] [C1 C2] Hd. 
  pose proof (norm_diff (pos y) (pos x)) as D1. pose proof (norm_diff (vel y) (vel x)) as D2. apply abs_in in D1, D2.
  split; (eapply Rle_trans; [eapply norm_step; eassumption|]).
  - assert (d * norm (pos y) <= d * ((1 + dp) * norm (pos x))) by (apply Rmult_le_compat_l; lra). lra.
  - assert (d * norm (vel y) <= d * ((1 + dv) * norm (vel x))) by (apply Rmult_le_compat_l; lra). lra.
Qed.
Lemma near_weak dp dv dp' dv' y x : near dp dv y x -> dp <= dp' -> dv <= dv' -> near dp' dv' y x.
Proof.
  intros [A B] H1 H2. split; [eapply Rle_trans; [exact A|]|eapply Rle_trans; [exact B|]]; apply Rmult_le_compat_r; auto using norm_pos.
Qed.

Section Back.
Context (p : Z) (Hp : (1 < p)%Z) (L : libm) (HT : trig_acc (rnd p) (ulp1 p) L) (mu : R) (k k' : six R).
Let u := ulp1 p.
Context (Hv : valid_kep mu k) (Hk : regular_kep u k) (HE : elements_within u k' k).
Let w1 := u / (1 - k_e k).
Lemma back g c1 c2 c3 c4 : chord c1 (k_om k') (k_om k) -> chord c2 (k_i k') (k_i k) -> chord c3 (k_Om k') (k_Om k) -> chord c4 (k_nu k') (k_nu k) ->
  c1 + c2 + c3 + c4 <= / 20 ->
  forall y, snd (@kep_to_cart num (NP_rd (rnd p) L) g (KVec (fin6 k')) (MuS (Fin mu)) false) = Ok (KVec (fin6 y)) ->
    near (1001 / 1000 * (c1 + c2 + c3 + c4) + 2800 * w1) ((1001 / 1000 * (c1 + c2 + c3 + c4) + 1300 * w1) / (1 - k_e k)) y (peri_state mu k).
Proof.
  intros H1 H2 H3 H4 HC y Ey. destruct Hk as (He & Hi & Hw & Hinc & Hlim & Hel). destruct HE as (A1 & A2 & _ & _ & _ & (A6 & _)).
  destruct (units_le p k He Hi) as (U & W1 & W2 & W3 & W4 & W5). fold u in U, W1, W2, W3, W4, W5. fold w1 in W1, W2, W3.
  assert (Hw1 : w1 <= / 100000000) by lra.
  assert (Eu : u = w1 * (1 - k_e k)) by (unfold w1; field; lra).
  assert (Hw5 : u / (k_e k * (1 - k_e k) * sin (k_i k)) <= / 100000000) by exact Hw.
  assert (E' : 0 < k_e k').
  { apply abs_in in A2.
    (* u / e <= w <= 1e-8 *)
    assert (u <= k_e k * / 100000000). { apply Rmult_le_reg_r with (/ k_e k); [apply Rinv_0_lt_compat; lra|].
      replace (k_e k * / 100000000 * / k_e k) with (/ 100000000) by (field; lra). fold (u / k_e k). lra. }
    lra. }
  pose proof (state_pert mu u k k' Hv He U Hw1 A1 A2 A6 E' c1 c2 c3 c4 H1 H2 H3 H4) as N. fold w1 in N.
  pose proof (valid' mu u k k' Hv He U Hw1 A1 A2 E') as Hv'.
  assert (B : 999 / 1000 * (1 - k_e k) <= 1 - k_e k' /\ k_e k' < 1).
  { apply abs_in in A2. rewrite Eu in A2. split; nra. }
  destruct B as [B1 B2].
  set (K := (1 + k_e k') / (1 - k_e k')).
  assert (HK : cond_ok (k_e k') (k_nu k') K) by (apply C77_ellipse_K; lra).
  assert (KU : 0 <= K * u <= 201 / 100 * w1).
  { split; [apply Rmult_le_pos; [apply Rlt_le, Rdiv_lt_0_compat|]; lra|].
    rewrite Eu. unfold K. apply Rmult_le_reg_r with (1 - k_e k'); [lra|].
    replace ((1 + k_e k') / (1 - k_e k') * (w1 * (1 - k_e k)) * (1 - k_e k')) with (w1 * ((1 + k_e k') * (1 - k_e k))) by (field; lra).
    replace (201 / 100 * w1 * (1 - k_e k')) with (w1 * (201 / 100 * (1 - k_e k'))) by ring. apply Rmult_le_compat_l; nra. }
  destruct (C77_kep_to_cart (rnd p) u L mu k' K _ g (binary_rounding p Hp) HT Hv' HK ltac:(lra) (state_of_peri _ _ Hv')) as (y' & Ey' & Cl).
  assert (y' = y) as ->. { apply fin6_inj. congruence. }
  pose proof (near_close _ _ _ _ _ _ N Cl ltac:(lra)) as F.
  pose proof H1 as [? _]. pose proof H2 as [? _]. pose proof H3 as [? _]. pose proof H4 as [? _].
  set (C := c1 + c2 + c3 + c4) in *. assert (C0 : 0 <= C) by (unfold C; lra).
  set (dl := 130 * (K * u)) in *. assert (D : 0 <= dl <= 262 * w1) by (unfold dl; lra).
  eapply near_weak; [exact F| |].
  - assert (M : dl * (1 + (1001 / 1000 * C + 2500 * w1)) <= 262 * w1 * (11 / 10)) by (apply Rmult_le_compat; lra). lra.
  - set (A := 1001 / 1000 * C + 1010 * w1). assert (HA : 0 <= A <= / 10) by (unfold A; lra).
    assert (V : 1 <= / (1 - k_e k)) by (rewrite <- Rinv_1 at 1; apply Rinv_le_contravar; lra).
    assert (M : dl * (1 + A / (1 - k_e k)) <= 262 * w1 * (11 / 10 * / (1 - k_e k))).
    { unfold Rdiv. assert (0 <= A * / (1 - k_e k) <= / 10 * / (1 - k_e k)) by (split; [apply Rmult_le_pos; lra|apply Rmult_le_compat_r; lra]).
      apply Rmult_le_compat; try lra. }
    unfold A in *. unfold Rdiv in *. set (V1 := / (1 - k_e k)) in *.
    assert (0 <= w1 * V1) by (apply Rmult_le_pos; lra). lra.
Qed.
End Back.
Lemma sqrt_c c m w : 0 <= w -> 0 <= c -> 0 <= m -> c <= m * m -> sqrt (c * w) <= m * sqrt w.
Proof.
  intros Hw Hc Hm H. rewrite sqrt_mult by auto. apply Rmult_le_compat_r; [apply sqrt_pos|].
  rewrite <- (sqrt_square m) by auto. now apply sqrt_le_1_alt.
Qed.

(** ** The round trip *)
Theorem C84_roundtrip : forall p L mu k x g g', (1 < p)%Z -> acos_ok p L -> acos_acc p L -> trig_acc (rnd p) (ulp1 p) L ->
  valid_kep mu k -> regular_kep (ulp1 p) k -> state_of mu k x ->
  let w := ulp1 p / (k_e k * (1 - k_e k) * sin (k_i k)) in
  exists k' y, snd (@cart_to_kep num (NP_rd (rnd p) L) g (KVec (fin6 x)) (MuS (Fin mu)) false) = Ok (KVec (fin6 k')) /\
    snd (@kep_to_cart num (NP_rd (rnd p) L) g' (KVec (fin6 k')) (MuS (Fin mu)) false) = Ok (KVec (fin6 y)) /\
    near (290 * sqrt w) (290 * sqrt w / (1 - k_e k)) y x /\
    (* no square root when no angle is near 0 or pi *)
    forall s, 0 < s -> s <= Rabs (sin (k_i k)) -> s <= Rabs (sin (k_om k)) -> s <= Rabs (sin (k_Om k)) -> s <= Rabs (sin (k_nu k)) ->
      near (13600 * w / s) (13600 * w / s / (1 - k_e k)) y x.
Proof.
  intros p L mu k x g g' Hp HL HA HT Hv Hk Sx w. pose proof (state_of_inv mu k x Hv Sx) as ->.
  destruct (column p L mu k Hp HL HA Hv Hk) as (k' & E & W & _).
  pose proof Hk as (He & Hi & Hw & Hinc & Hlim & Hel).
  destruct (units_le p k He Hi) as (U & W1 & W2 & W3 & W4 & W5). set (u := ulp1 p) in *. set (w1 := u / (1 - k_e k)) in *.
  set (w2 := u / ((1 - k_e k) * sin (k_i k))) in *. fold w in Hw, W3, W5. 
  pose proof W as (A1 & A2 & A3 & A4 & A5 & A6). fold w1 in A1, A3. fold w2 in A5. fold w in A4.
  assert (Hw0 : 0 < w) by lra.
  pose proof (chord_sqrt (100 * w1) _ _ ltac:(lra) A3) as S3. pose proof (chord_sqrt (1010 * w) _ _ ltac:(lra) A4) as S4.
  pose proof (chord_sqrt (110 * w2) _ _ ltac:(lra) A5) as S5. pose proof (chord_sqrt (1460 * (u / k_e k)) _ _ ltac:(lra) A6) as S6.
  assert (Q3 : sqrt (100 * w1) <= 10 * sqrt w) by (eapply Rle_trans; [apply (sqrt_c 100 10 w1); lra|apply Rmult_le_compat_l; [lra|apply sqrt_le_1_alt; lra]]).
  assert (Q4 : sqrt (1010 * w) <= 318 / 10 * sqrt w) by (apply sqrt_c; lra).
  assert (Q5 : sqrt (110 * w2) <= 105 / 10 * sqrt w) by (eapply Rle_trans; [apply (sqrt_c 110 (105 / 10) w2); lra|apply Rmult_le_compat_l; [lra|apply sqrt_le_1_alt; lra]]).
  assert (Q6 : sqrt (1460 * (u / k_e k)) <= 3825 / 100 * sqrt w) by (eapply Rle_trans; [apply (sqrt_c 1460 (3825 / 100) (u / k_e k)); lra|apply Rmult_le_compat_l; [lra|apply sqrt_le_1_alt; lra]]).
  pose proof (sqrt_sqrt w (Rlt_le _ _ Hw0)) as QQ. pose proof (sqrt_pos w) as Q0.
  assert (Qs : sqrt w <= / 10000) by nra. assert (Qw : w <= / 10000 * sqrt w) by nra.
  set (c1 := 317 / 100 * sqrt (1010 * w)) in *. set (c2 := 317 / 100 * sqrt (100 * w1)) in *. set (c3 := 317 / 100 * sqrt (110 * w2)) in *. set (c4 := 317 / 100 * sqrt (1460 * (u / k_e k))) in *.
  assert (SC : c1 + c2 + c3 + c4 <= 2871 / 10 * sqrt w) by (unfold c1, c2, c3, c4; lra).
  assert (Hy : exists y, snd (@kep_to_cart num (NP_rd (rnd p) L) g' (KVec (fin6 k')) (MuS (Fin mu)) false) = Ok (KVec (fin6 y))).
  { assert (E' : 0 < k_e k').
    { apply abs_in in A2. assert (u <= k_e k * / 100000000). { apply Rmult_le_reg_r with (/ k_e k); [apply Rinv_0_lt_compat; lra|].
      replace (k_e k * / 100000000 * / k_e k) with (/ 100000000) by (field; lra). fold (u / k_e k). lra. } lra. }
    assert (Eu : u = w1 * (1 - k_e k)) by (unfold w1; field; lra).
    assert (Hw1 : w1 <= / 100000000) by lra. fold u in A2.
    pose proof (valid' mu u k k' Hv He U Hw1 A1 A2 E') as Hv'.
    assert (B : 999 / 1000 * (1 - k_e k) <= 1 - k_e k' /\ k_e k' < 1).
    { apply abs_in in A2. rewrite Eu in A2. split; nra. }
    assert (HK : cond_ok (k_e k') (k_nu k') ((1 + k_e k') / (1 - k_e k'))) by (apply C77_ellipse_K; lra).
    assert (HKu : (1 + k_e k') / (1 - k_e k') * u <= / 10000).
    { apply Rmult_le_reg_r with (1 - k_e k'); [lra|].
      replace ((1 + k_e k') / (1 - k_e k') * u * (1 - k_e k')) with ((1 + k_e k') * u) by (field; lra).
      assert ((1 + k_e k') * u <= 2 * u) by (apply Rmult_le_compat_r; lra). assert (u <= / 100000000 * (1 - k_e k)) by (rewrite Eu; apply Rmult_le_compat_r; lra). lra. }
    destruct (C77_kep_to_cart (rnd p) u L mu k' _ (peri_state mu k') g' (binary_rounding p Hp) HT Hv' HK HKu (state_of_peri _ _ Hv')) as (y & Ey & _). now exists y. }
  destruct Hy as (y & Ey). exists k', y.
  split.
  { unfold cart_to_kep, mu_bcast. cbn [repeat]. rewrite cart_to_kep_cols_map by reflexivity. cbn [snd map2]. do 2 f_equal. exact E. }
  split; [exact Ey|]. split.
  - pose proof (back p Hp L HT mu k k' Hv Hk W g' c1 c2 c3 c4 S4 S3 S5 S6 ltac:(lra) y Ey) as N.
    eapply near_weak; [exact N| |]; fold u w1; [lra|]. apply Rmult_le_compat_r; [apply Rlt_le, Rinv_0_lt_compat; lra|lra].
  - intros s Hs T1 T2 T3 T4.
    pose proof (chord_min _ _ _ _ S3 (chord_lin _ s _ _ (conj Hs T1) A3)) as M3. pose proof (chord_min _ _ _ _ S4 (chord_lin _ s _ _ (conj Hs T2) A4)) as M4.
    pose proof (chord_min _ _ _ _ S5 (chord_lin _ s _ _ (conj Hs T3) A5)) as M5. pose proof (chord_min _ _ _ _ S6 (chord_lin _ s _ _ (conj Hs T4) A6)) as M6.
    pose proof (Rmin_l c1 (4 * (1010 * w / s))). pose proof (Rmin_r c1 (4 * (1010 * w / s))).
    pose proof (Rmin_l c2 (4 * (100 * w1 / s))). pose proof (Rmin_r c2 (4 * (100 * w1 / s))).
    pose proof (Rmin_l c3 (4 * (110 * w2 / s))). pose proof (Rmin_r c3 (4 * (110 * w2 / s))).
    pose proof (Rmin_l c4 (4 * (1460 * (u / k_e k) / s))). pose proof (Rmin_r c4 (4 * (1460 * (u / k_e k) / s))).
    pose proof (back p Hp L HT mu k k' Hv Hk W g' _ _ _ _ M4 M3 M5 M6 ltac:(lra) y Ey) as N.
    assert (Is : 1 <= / s). { rewrite <- Rinv_1 at 1. apply Rinv_le_contravar; [lra|]. eapply Rle_trans; [exact T1|]. apply Rabs_le, SIN_bound. }
    unfold Rdiv in *.
    set (v := / s) in *. fold u w1 in N.
    assert (P1 : w1 * v <= w * v) by (apply Rmult_le_compat_r; lra).
    assert (P2 : w2 * v <= w * v) by (apply Rmult_le_compat_r; lra).
    assert (P3 : u * / k_e k * v <= w * v) by (apply Rmult_le_compat_r; lra).
    assert (P4 : w <= w * v) by nra.
    eapply near_weak; [exact N| |].
    + fold u. lra.
    + apply Rmult_le_compat_r; [apply Rlt_le, Rinv_0_lt_compat; lra|]. fold u. lra.
Qed.
(** binary64: the orbit of C83_example comes back with ten correct digits *)
Example C84_example : forall g g', exists x k' y, state_of 398600 c83_k x /\
  snd (@cart_to_kep num (NP_rd (rnd 53) libm0) g (KVec (fin6 x)) (MuS (Fin 398600)) false) = Ok (KVec (fin6 k')) /\
  snd (@kep_to_cart num (NP_rd (rnd 53) libm0) g' (KVec (fin6 k')) (MuS (Fin 398600)) false) = Ok (KVec (fin6 y)) /\
  near (1 / 10000000000) (1 / 10000000000) y x.
Proof.
  intros g g'. assert (Hv : valid_kep 398600 c83_k).
  { unfold valid_kep, c83_k. cbn. pose proof (COS_bound 2). repeat split; lra. }
  assert (S : 8 / 10 <= sin 1) by (pose proof (sin_ge 1 ltac:(lra)); lra).
  assert (S2 : 8 / 10 <= sin 2).
  { replace 2 with (2 * 1) by ring. rewrite sin_2a. pose proof (cos_ge 1) as C. nra. }
  assert (T : ulp1 53 <= / 8000000000000000) by (unfold ulp1; cbn; lra).
  assert (U0 : 0 < ulp1 53) by apply Core.Raux.bpow_gt_0.
  assert (W : ulp1 53 / (/ 2 * (1 - / 2) * sin 1) <= 5 * ulp1 53).
  { apply Rmult_le_reg_r with (/ 2 * (1 - / 2) * sin 1); [lra|]. unfold Rdiv. rewrite Rmult_assoc, Rinv_l by lra. nra. }
  assert (Rk : regular_kep (ulp1 53) c83_k).
  { unfold regular_kep. change (k_e c83_k) with (/ 2). change (k_i c83_k) with 1. pose proof PI_b.
    replace (ulp1 53 / (1 - / 2)) with (2 * ulp1 53) by field.
    split; [lra|]. split; [lra|]. split; [lra|]. split; [nra|]. split; lra. }
  destruct (C84_roundtrip 53 libm0 398600 c83_k _ g g' ltac:(lia) (libm0_ok 53 ltac:(lia)) (libm0_acos 53 ltac:(lia)) (binary_trig 53 ltac:(lia)) Hv Rk (state_of_peri _ _ Hv)) as (k' & y & E1 & E2 & _ & N).
  exists (peri_state 398600 c83_k), k', y. split; [now apply state_of_peri|]. split; [exact E1|]. split; [exact E2|].
  specialize (N (8 / 10)). change (k_i c83_k) with 1 in N. change (k_om c83_k) with 1 in N. change (k_Om c83_k) with 1 in N. change (k_nu c83_k) with 2 in N. change (k_e c83_k) with (/ 2) in N.
  rewrite !Rabs_pos_eq in N by lra. specialize (N ltac:(lra) S S S S2).
  eapply near_weak; [exact N| |]; set (w := ulp1 53 / (/ 2 * (1 - / 2) * sin 1)) in *.
  - replace (13600 * w / (8 / 10)) with (17000 * w) by field. lra.
  - replace (13600 * w / (8 / 10) / (1 - / 2)) with (34000 * w) by field. lra.
Qed.
