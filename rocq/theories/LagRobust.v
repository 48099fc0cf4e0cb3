(** * Laguerre's iteration for the elliptic Kepler equation with perturbed steps

    The invariants of [LagReal] survive a perturbation of the start and of every step by at most [eta], until
    the iterate comes within [r] of the root. *)
From Coq Require Import Reals Lra Lia Psatz.
From Coquelicot Require Import Coquelicot.
From Verif Require Import LagTrig LagReal.
Local Open Scope R_scope.

Section Kep.
Variables e y : R.
Hypothesis He : 0 <= e < 1.
Hypothesis Hy : 0 <= y <= PI.
Let k := 1 - e.

(** [LG] with a little slack *)
Definition LGr (E : R) : Prop := E < y /\ exists B, B <= PI /\ y - E <= 17 / 50 * (B - y) /\
  ((0 < E /\ y - E <= 18 * E) \/ (10 * y <= 3 * B /\ B <= 23 / 20 /\ e * B ^ 2 <= 17 * k)).
Definition Str (D E : R) : Prop := (RG y E /\ E - y <= D) \/ (LGr E /\ 5 / 2 * (y - E) <= D).
Lemma left_boundsr E : LGr E -> (y - E) / 2 <= nextk e y E - E <= 3 * (y - E) /\
  let a := 1 - e * cos E in a ^ 2 <= 16 * a ^ 2 - 20 * gk e y E * (e * sin E).
Proof using He Hy.
  intros [L [B [B1 [B2 B3]]]]. pose proof (a_pos e He E) as A.
  destruct (Rle_lt_dec 0 E) as [HE|HE].
  - destruct (left_facts e y He Hy E HE L) as [G [Pa [Hh HR]]]. unfold nextk. rewrite G. cbv zeta.
    set (a := 1 - e * cos E) in *. set (d := y - E) in *. set (p := - gk e y E / d) in *.
    assert (D0 : 0 < d) by (unfold d; lra).
    pose proof (left_step_lower a (e * sin E) p d A Hh D0 Pa HR).
    assert (U : p <= 3 * a \/ p <= a + 7 / 2 * (d * (e * sin E))).
    { destruct B3 as [[B3 B4]|[B3 [B4 B5]]].
      - right. pose proof (rem_upper E y ltac:(lra) ltac:(lra)) as C.
        apply (Rmult_le_reg_l d); auto.
        replace (d * p) with (- gk e y E) by lra.
        assert (X : - gk e y E - d * a <= e * (sin E * ((y - E) ^ 2 / 2 + (y - E) ^ 3 / (6 * E)))).
        { replace (- gk e y E - d * a) with (e * ((y - E) * cos E - sin y + sin E)) by (unfold gk, a, d; ring).
          apply Rmult_le_compat_l; lra. }
        assert (Y : (y - E) ^ 2 / 2 + (y - E) ^ 3 / (6 * E) <= 7 / 2 * d ^ 2).
        { replace ((y - E) ^ 2 / 2 + (y - E) ^ 3 / (6 * E)) with (d ^ 2 * (1 / 2 + d / (6 * E))) by (unfold d; field; lra).
          assert (d / (6 * E) <= 3) by (apply div_le; lra). nra. }
        assert (Z : e * (sin E * ((y - E) ^ 2 / 2 + (y - E) ^ 3 / (6 * E))) <= e * sin E * (7 / 2 * d ^ 2)).
        { rewrite <- Rmult_assoc. apply Rmult_le_compat_l; auto. }
        nra.
      - left. assert (PY : d * p <= d * (1 - e * cos y)).
        { replace (d * p) with (- gk e y E) by lra. pose proof (sin_concave E y ltac:(lra) ltac:(lra)) as [C _].
          unfold gk, d. nra. }
        apply Rmult_le_reg_l in PY; auto.
        pose proof (cos_ge y) as CY. assert (k <= a). { unfold a, k. pose proof (COS_bound E). nra. }
        assert (y ^ 2 <= 9 / 100 * B ^ 2) by nra.
        assert (e * y ^ 2 <= 4 * k). { unfold k in *. nra. }
        unfold k in *. nra. }
    pose proof (left_step_upper a (e * sin E) p d A Hh D0 Pa U). split; [lra|].
    assert (0 <= d * p * (e * sin E)) by (apply Rmult_le_pos; [nra|auto]). pose proof (pow2_ge_0 a). lra.
  - destruct B3 as [[B3 B4]|[B3 [B4 B5]]]; [lra|]. set (z := - E) in *. assert (HZ : 0 < z) by (unfold z; lra).
    replace E with (- z) in * by (unfold z; ring). clearbody z. clear HE. rewrite cos_neg in A.
    unfold nextk. cbv zeta. rewrite cos_neg, sin_neg.
    set (a := 1 - e * cos z) in *. set (d := y - - z) in *. set (p := - gk e y (- z) / d) in *.
    assert (D0 : 0 < d) by (unfold d; lra).
    assert (G : gk e y (- z) = - (d * p)) by (unfold p; field; lra). rewrite G.
    replace (e * - sin z) with (- (e * sin z)) by ring.
    assert (B2' : y + z <= 17 / 50 * (B - y)) by (unfold d in B2; lra).
    assert (BP : 0 < B) by lra. assert (Zb : z <= 2 / 5) by lra.
    assert (Ku : 0 < k) by (unfold k; lra).
    assert (Al : k + e * (49 / 100 * z ^ 2) <= a).
    { unfold a, k. pose proof (cos_le z ltac:(lra)). assert (z ^ 2 <= 4 / 25) by nra. pose proof (pow2_ge_0 z).
      assert (z ^ 4 <= 4 / 25 * z ^ 2) by (replace (z ^ 4) with (z ^ 2 * z ^ 2) by ring; apply Rmult_le_compat_r; [apply pow2_ge_0|auto]).
      assert (e * (49 / 100 * z ^ 2) <= e * (1 - cos z)) by (apply Rmult_le_compat_l; lra). lra. }
    assert (Au : a <= k + e * (z ^ 2 / 2)).
    { unfold a, k. pose proof (cos_ge z). nra. }
    assert (S0 : 0 <= sin z). { apply sin_ge_0; pose proof PI2_3_2 as P32; unfold PI2 in P32; lra. }
    assert (S1 : sin z <= z) by (apply sin_le; lra).
    assert (Gd : d * p = d * k + e * ((y - sin y) + (z - sin z))).
    { replace (d * p) with (- gk e y (- z)) by lra. unfold gk, d, k. rewrite sin_neg. ring. }
    pose proof (sin_ge z ltac:(lra)) as S2. pose proof (sin_ge y ltac:(lra)) as S3.
    pose proof (sin_le y ltac:(lra)) as S4.
    assert (Pl : k <= p). { apply (Rmult_le_reg_l d); auto. rewrite Gd. nra. }
    assert (Pu : p <= k + e * ((y ^ 2 - y * z + z ^ 2) / 6)).
    { apply (Rmult_le_reg_l d); auto. rewrite Gd. unfold d. nra. }
    assert (Yb : y <= 51 / 200 * B) by lra.
    assert (Eb : forall u, 0 <= u -> e * (u * B ^ 2) <= 17 * k * u) by (intros u U; nra).
    assert (HD : 20 * (d * p) * (e * sin z) <= 15 * a ^ 2).
    { assert (Q1 : 0 <= d * p) by nra.
      apply Rle_trans with (20 * (d * (k + e * ((y ^ 2 - y * z + z ^ 2) / 6))) * (e * z)).
      { assert (d * p <= d * (k + e * ((y ^ 2 - y * z + z ^ 2) / 6))) by (apply Rmult_le_compat_l; lra).
        assert (0 <= e * sin z) by (apply Rmult_le_pos; lra). assert (e * sin z <= e * z) by (apply Rmult_le_compat_l; lra).
        apply Rmult_le_compat; nra. }
      apply Rle_trans with (15 * (k + e * (49 / 100 * z ^ 2)) ^ 2).
      2:{ assert (0 <= e * (49 / 100 * z ^ 2)) by (apply Rmult_le_pos; nra). nra. }
      set (v := y / B). set (w := z / B).
      assert (Vy : y = v * B) by (unfold v; field; lra). assert (Wz : z = w * B) by (unfold w; field; lra).
      assert (V0 : 0 <= v) by (apply le_div; lra). assert (W0 : 0 < w) by (apply Rdiv_lt_0_compat; lra).
      assert (VW : w <= (17 - 67 * v) / 50).
      { unfold v, w. apply div_le; [lra|]. replace ((17 - 67 * (y / B)) / 50 * B) with ((17 * B - 67 * y) / 50) by (field; lra). unfold d in B2. lra. }
      clearbody v w. set (q := e * B ^ 2) in *. assert (Q0 : 0 <= q) by (apply Rmult_le_pos; nra).
      replace (20 * (d * (k + e * ((y ^ 2 - y * z + z ^ 2) / 6))) * (e * z))
        with (20 * k * q * w * (v + w) + 10 / 3 * q ^ 2 * w * (v ^ 3 + w ^ 3)) by (unfold d, q; rewrite Vy, Wz; field).
      replace (15 * (k + e * (49 / 100 * z ^ 2)) ^ 2)
        with (15 * k ^ 2 + 147 / 10 * k * q * w ^ 2 + 15 * (49 / 100) ^ 2 * q ^ 2 * w ^ 4) by (unfold q; rewrite Wz; field).
      assert (T1 : q ^ 2 <= 17 * k * q) by nra.
      assert (T2 : 0 <= w * v ^ 3) by (apply Rmult_le_pos; [lra|apply pow_le; lra]).
      assert (T3 : q ^ 2 * (w * v ^ 3) <= 17 * k * q * (w * v ^ 3)) by (apply Rmult_le_compat_r; lra).
      assert (T4 : 0 <= q ^ 2 * w ^ 4) by (apply Rmult_le_pos; apply pow_le; lra).
      assert (T5 : 0 <= 53 / 10 * w ^ 2 + 20 * w * v + 170 / 3 * (w * v ^ 3)) by nra.
      assert (T6 : 17 * (53 / 10 * w ^ 2 + 20 * w * v + 170 / 3 * (w * v ^ 3)) <= 15).
      { assert (V4 : v <= 51 / 200) by lra. assert (V3 : v ^ 3 <= v / 15). { assert (v * v <= 51 / 200 * (51 / 200)) by (apply Rmult_le_compat; lra). replace (v ^ 3) with (v * (v * v)) by ring. apply Rle_trans with (v * (1 / 15)); [apply Rmult_le_compat_l|]; lra. }
        set (x := (17 - 67 * v) / 50) in *. assert (X1 : w * v ^ 3 <= w * (v / 15)) by (apply Rmult_le_compat_l; lra).
        assert (X2 : w * w <= x * x) by (apply Rmult_le_compat; lra). assert (X3 : w * v <= x * v) by (apply Rmult_le_compat_r; lra).
        assert (X4 : 17 * (53 / 10 * (x * x) + 24 * (x * v)) <= 15) by (unfold x; pose proof (pow2_ge_0 (v - 8 / 100)); lra). lra. }
      assert (T7 : k * q * (53 / 10 * w ^ 2 + 20 * w * v + 170 / 3 * (w * v ^ 3)) <= 15 * k ^ 2).
      { apply Rle_trans with (k * (17 * k) * (53 / 10 * w ^ 2 + 20 * w * v + 170 / 3 * (w * v ^ 3))); [|nra].
        apply Rmult_le_compat_r; auto. apply Rmult_le_compat_l; lra. }
      nra. }
    assert (Zq : e * z ^ 2 <= 2 * k).
    { apply Rle_trans with (e * (2 / 17 * B ^ 2)); [apply Rmult_le_compat_l; nra|]. specialize (Eb (2 / 17) ltac:(lra)). lra. }
    assert (Yq : e * y ^ 2 <= 112 / 100 * k).
    { apply Rle_trans with (e * (112 / 1700 * B ^ 2)); [apply Rmult_le_compat_l; nra|]. specialize (Eb (112 / 1700) ltac:(lra)). lra. }
    assert (Yz : 0 <= e * (y * z)) by (apply Rmult_le_pos; nra).
    assert (0 <= e * z ^ 2) by (apply Rmult_le_pos; nra).
    pose proof (neg_step a (e * sin z) p d A ltac:(apply Rmult_le_pos; lra) D0 ltac:(lra) HD ltac:(lra) ltac:(lra)). split; [lra|]. lra.
Qed.

(** ** One perturbed step *)
Variables r eta : R.
Hypothesis Heta : 0 <= eta.
Hypothesis Hr : 170 * eta <= r.
Hypothesis Hk : 25 * eta <= (1 - e) * r.
Hypothesis Hr1 : r <= / 40.
Definition near (E : R) : Prop := Rabs (E - y) <= r.
Lemma near_in E : near E <-> y - r <= E <= y + r.
Proof using Type. unfold near. split; intros H; [apply Rabs_le_between in H|apply Rabs_le]; lra. Qed.
Lemma not_near E : ~ near E -> E < y - r \/ y + r < E.
Proof using Type. rewrite near_in. intros H. destruct (Rlt_dec E (y - r)); [auto|]. destruct (Rlt_dec (y + r) E); [auto|]. lra. Qed.
Lemma near_dec E : {near E} + {~ near E}.
Proof using Type. apply Rle_dec. Qed.

Lemma right_all E : RG y E -> y < E ->
  (E - y) / 3 <= E - nextk e y E <= 4 / 3 * (E - y) /\
  (let a := 1 - e * cos E in a ^ 2 <= 16 * a ^ 2 - 20 * gk e y E * (e * sin E)).
Proof using He Hy.
  intros [[Y1 Y2] W] L. destruct (right_facts e y He Hy E L ltac:(lra)) as [G [Pp [P3 [Pa [Hh HR]]]]].
  pose proof (a_pos e He E) as A.
  set (a := 1 - e * cos E) in *. set (d := E - y) in *. set (p := gk e y E / d) in *. set (h := e * sin E) in *.
  assert (N : nextk e y E = E - step5 a h (d * p)) by (unfold nextk; rewrite G; reflexivity).
  rewrite N, G in *. clear N. assert (D0 : 0 < d) by (unfold d; lra).
  assert (K1 : 0 <= y / (2 * E)) by (apply le_div; lra).
  assert (DH : 0 <= d * h) by (apply Rmult_le_pos; lra).
  assert (HR1 : d * h <= 3 * (a - p)) by nra.
  pose proof (right_step a h p d A Hh D0 P3 Pa HR1) as [S1 S2]. pose proof (right_disc a h p d A Hh D0 P3 Pa HR1) as [S3 _].
  split; [lra|]. cbv zeta. lra.
Qed.
Lemma robust_right D E E' : RG y E -> E - y <= D -> Rabs (E' - nextk e y E) <= eta -> near E \/ near E' \/ Str (6 / 7 * D) E'.
Proof using He Hy Heta Hr.
  intros R0 HD HE. destruct (near_dec E) as [|NN]; [auto|right]. apply not_near in NN.
  assert (L : y < E) by (destruct R0; lra). destruct (right_all E R0 L) as [[S1 S2] _]. destruct R0 as [[Y1 Y2] W].
  pose proof (over_k e y He Hy E L) as OK. set (N := nextk e y E) in *. clearbody N. apply Rabs_le_between in HE.
  rewrite near_in. destruct (Rle_lt_dec y N) as [C|C]; destruct (Rle_lt_dec y E') as [C'|C'].
  - right. left. split; [|lra]. split; [lra|]. intros W'. assert (E <= 23 / 20) by (apply W; lra). lra.
  - left. lra.
  - left. lra.
  - right. right. split; [|lra]. split; [lra|]. exists E. split; [lra|]. split; [lra|].
    destruct (Rle_lt_dec (10 * y) (3 * E)) as [X|X].
    + right. specialize (W X). auto.
    + left. split; lra.
Qed.
Lemma robust_left D E E' : LGr E -> 5 / 2 * (y - E) <= D -> Rabs (E' - nextk e y E) <= eta -> near E \/ near E' \/ Str (6 / 7 * D) E'.
Proof using He Hy Heta Hr.
  intros H HD HE. destruct (near_dec E) as [|NN]; [auto|right]. apply not_near in NN.
  destruct (left_boundsr E H) as [[S1 S2] _]. destruct H as [L [B [B1 [B2 B3]]]].
  set (N := nextk e y E) in *. clearbody N. apply Rabs_le_between in HE. right.
  destruct (Rle_lt_dec y E') as [C|C].
  - left. split; [|lra]. split; [lra|]. intros W. destruct B3 as [B3|B3]; lra.
  - right. split; [|lra]. split; [lra|]. exists B. split; [lra|]. split; [lra|].
    destruct B3 as [B3|B3]; [left; lra|right; auto].
Qed.
Lemma robust_St D E E' : Str D E -> Rabs (E' - nextk e y E) <= eta -> near E \/ near E' \/ Str (6 / 7 * D) E'.
Proof using He Hy Heta Hr. intros [[H1 H2]|[H1 H2]] HE; [eapply robust_right|eapply robust_left]; eauto. Qed.
Lemma Str_near D E : Str D E -> D <= r -> near E.
Proof using Type. intros H HD. rewrite near_in. destruct H as [[[H1 _] H2]|[[H1 _] H2]]; lra. Qed.

Lemma gk_left_low E : 0 <= E <= y -> (1 - e) * (y - E) <= - gk e y E.
Proof using He Hy.
  intros L. pose proof (sin_concave E y L ltac:(lra)) as [_ C]. pose proof (COS_bound E).
  assert (X : sin y - sin E <= y - E) by nra. unfold gk.
  assert (e * (sin y - sin E) <= e * (y - E)) by (apply Rmult_le_compat_l; lra). nra.
Qed.
Lemma gk_diff E E' : Rabs (gk e y E' - gk e y E) <= 2 * Rabs (E' - E).
Proof using He.
  replace (gk e y E' - gk e y E) with (gk e E E') by (unfold gk; ring). now apply gk_lip.
Qed.
Lemma LS_near E : 0 <= E <= y -> - gk e y E <= (1 - e) * r -> near E.
Proof using He Hy Heta Hr.
  intros H Q. pose proof (gk_left_low E H) as G. assert (y - E <= r); [|apply near_in; lra].
  apply (Rmult_le_reg_l (1 - e)); lra.
Qed.
(** the starting phase: the exact step, with the facts needed for the perturbed one *)
Lemma start_all E : LS e y E -> let q := - gk e y E in let N := nextk e y E in
  0 <= N - E <= 4 / 5 /\ 5 / 8 * q <= 2 * (N - E) + (N - E) ^ 2 / 2 /\ (N < y -> - gk e y N <= 3 / 8 * q) /\
  (let a := 1 - e * cos E in a ^ 2 <= 16 * a ^ 2 - 20 * gk e y E * (e * sin E)).
Proof using He Hy.
  intros H. pose proof (step_start e y He Hy E H) as SS. destruct H as [L [P Q]]. pose proof (gk_left_nonneg e y He Hy E L) as Q0. pose proof (a_pos e He E) as A.
  pose proof PI2_3_2 as P32. unfold PI2 in P32.
  assert (S : 0 <= sin E) by (apply sin_ge_0; lra).
  assert (H0 : 0 <= e * sin E) by (apply Rmult_le_pos; lra).
  assert (SE : e * sin E <= 1) by (pose proof (SIN_bound E); nra).
  assert (A2 : 1 - e * cos E <= 2) by (pose proof (COS_bound E); nra).
  assert (O : nextk e y E < y -> - gk e y (nextk e y E) <= 3 / 8 * - gk e y E).
  { intros C. destruct SS as [[[[Z _] _] _]|[_ Z]]; [lra|exact Z]. }
  cbv zeta. split; [|split; [|split; [exact O|]]]; clear SS O.
  3:{ assert (0 <= - gk e y E * (e * sin E)) by (apply Rmult_le_pos; auto). pose proof (pow2_ge_0 (1 - e * cos E)). lra. }
  all: unfold nextk; set (q := - gk e y E) in *; set (a := 1 - e * cos E) in *; set (h := e * sin E) in *;
  replace (gk e y E) with (- q) by (unfold q; ring);
  (assert (QH : 0 <= q * h) by (apply Rmult_le_pos; lra));
  (assert (B : root5 a h (- q) ^ 2 = 16 * a ^ 2 + 20 * q * h) by (rewrite root5_sq; [ring|]; pose proof (pow2_ge_0 a); lra));
  (assert (B0 : 4 * a <= root5 a h (- q)) by (apply sq_le_lin; [apply root5_ge0|rewrite B; lra]));
  (assert (N : E - step5 a h (- q) - E = 5 * q / (a + root5 a h (- q))) by (unfold step5; field; lra));
  rewrite !N; set (b := root5 a h (- q)) in *; set (s := 5 * q / (a + b));
  (assert (S5 : s * (a + b) = 5 * q) by (unfold s; field; lra));
  (assert (S0 : 0 <= s) by (apply le_div; lra)).
  - split; [exact S0|]. apply sq_le_lin; [lra|]. destruct (Rle_lt_dec q 0) as [Z|Z]; [assert (s = 0) by nra; nra|].
    assert (s ^ 2 * b ^ 2 <= 25 * q ^ 2).
    { replace (25 * q ^ 2) with (s ^ 2 * (a + b) ^ 2) by (replace (s ^ 2 * (a + b) ^ 2) with ((s * (a + b)) ^ 2) by ring; rewrite S5; ring).
      apply Rmult_le_compat_l; nra. }
    assert (20 * q * h <= b ^ 2) by nra. assert (s ^ 2 * (20 * q * h) <= 25 * q ^ 2) by nra.
    assert (s ^ 2 * (20 * h) <= 25 * q). { apply (Rmult_le_reg_l q); auto. nra. }
    assert (s ^ 2 * (20 * h) <= 25 * (h / 2)) by lra. assert (0 < h) by lra.
    assert (s ^ 2 * 20 <= 25 / 2); [|nra]. apply (Rmult_le_reg_r h); auto. nra.
  - assert (M58 : 5 / 8 * q <= a * s + h * s ^ 2 / 2).
    { assert (X : 5 / 8 * q * (a + b) ^ 2 <= (a * s + h * s ^ 2 / 2) * (a + b) ^ 2).
      { replace ((a * s + h * s ^ 2 / 2) * (a + b) ^ 2) with (a * (s * (a + b)) * (a + b) + h * (s * (a + b)) ^ 2 / 2) by field.
        rewrite S5. replace (h * (5 * q) ^ 2 / 2) with (5 / 8 * q * (20 * q * h)) by field.
        replace (20 * q * h) with (b ^ 2 - 16 * a ^ 2) by lra.
        assert (0 <= q * (3 / 4 * a * b - 9 / 8 * a ^ 2)) by (apply Rmult_le_pos; nra). nra. }
      apply Rmult_le_reg_r in X; auto. apply pow_lt. lra. }
    assert (a * s <= 2 * s) by (apply Rmult_le_compat_r; lra). assert (h * s ^ 2 <= 1 * s ^ 2) by (apply Rmult_le_compat_r; [apply pow2_ge_0|lra]). lra.
Qed.
Lemma robust_start E E' : LS e y E -> Rabs (E' - nextk e y E) <= eta ->
  near E \/ near E' \/ (RG y E' /\ E' - y <= 1) \/ (LS e y E' /\ - gk e y E' <= / 2 * - gk e y E).
Proof using He Hy Heta Hr Hk Hr1.
  intros H HE. destruct (near_dec E) as [|NN]; [auto|right].
  destruct (start_all E H) as (S & M58 & O & _). destruct H as [L [P Q]]. pose proof PI2_3_2 as P32. unfold PI2 in P32.
  assert (Q1 : (1 - e) * r < - gk e y E).
  { destruct (Rlt_dec ((1 - e) * r) (- gk e y E)) as [|X]; [auto|]. exfalso. apply NN. apply LS_near; lra. }
  set (N := nextk e y E) in *. set (q := - gk e y E) in *.
  pose proof (gk_diff N E') as GD. assert (HE' := HE). apply Rabs_le_between in HE'.
  assert (SB : (N - E) ^ 2 <= 4 / 5 * (N - E)) by nra.
  assert (S2 : 6 * eta <= N - E) by lra.
  destruct (Rle_lt_dec y N) as [C|C]; destruct (Rle_lt_dec y E') as [C'|C']; try (left; apply near_in; lra); right.
  - left. split; [|lra]. split; [lra|]. intros W. lra.
  - right. specialize (O C). assert (G2 : - gk e y E' <= / 2 * q).
    { assert (X : Rabs (gk e y E' - gk e y N) <= 2 * eta) by lra. apply Rabs_le_between in X. lra. }
    split; [|exact G2]. split; [lra|]. split; [lra|].
    assert (sin E <= sin E') by (apply sin_incr_1; lra).
    assert (e * sin E <= e * sin E') by (apply Rmult_le_compat_l; lra).
    assert (0 <= sin E) by (apply sin_ge_0; lra). assert (0 <= e * sin E) by (apply Rmult_le_pos; lra). lra.
Qed.

(** ** The perturbed initial guess; the branch limits are perturbed, too *)
Section Guess.
Variable M : R.
Hypothesis HM : M = y - e * sin y.
Definition start (E : R) : Prop := near E \/ (RG y E /\ E - y <= 4) \/ LS e y E.
Lemma M_pos : 0 <= M <= y.
Proof using He Hy HM. subst M. pose proof (sin_le y ltac:(lra)). assert (0 <= sin y) by (apply sin_ge_0; lra). nra. Qed.
Lemma robust_small E : M <= 26 / 100 -> Rabs (E - (M + e * sin M / (1 - sin (M + e) + sin M))) <= eta -> start E.
Proof using He Hy HM Heta Hr Hk Hr1.
  intros HM4 HE. pose proof PI2_3_2 as P32. unfold PI2 in P32. destruct M_pos as [M0 _].
  assert (Y2 : y <= PI / 2).
  { destruct (Rle_lt_dec y (PI / 2)) as [C|C]; auto. exfalso. pose proof (SIN_bound y). subst M. nra. }
  set (D := 1 - sin (M + e) + sin M) in *.
  assert (S0 : 0 <= sin M) by (apply sin_ge_0; lra).
  assert (S1 : sin M <= sin (M + e)) by (apply sin_incr_1; lra).
  assert (Ce : 3 / 10 <= cos (M + e)).
  { apply Rle_trans with (cos (63 / 50)); [pose proof (cos_ge6 (63 / 50) ltac:(lra)); lra|]. apply cos_decr_1; lra. }
  pose proof (sin_concave M (M + e) ltac:(lra) ltac:(lra)) as [C1 C2].
  assert (D1 : sin (M + e) < 1 + sin M) by (pose proof (COS_bound M); nra).
  pose proof (SIN_bound (M + e)) as SB.
  assert (D0 : 0 < D <= 1) by (unfold D; lra).
  assert (De : D + e <= 17 / 10) by (unfold D; nra).
  set (l := sin M / D). assert (L1 : l * D = sin M) by (unfold l; field; lra).
  assert (L0 : 0 <= l <= 1) by (unfold l; split; [apply le_div; lra|apply div_le; unfold D; lra]).
  replace (e * sin M / D) with (l * e) in HE by (unfold l; field; lra).
  pose proof (sin_chord M e l M0 ltac:(lra) ltac:(lra) L0) as C.
  replace ((1 - l) * sin M + l * sin (M + e)) with l in C by (unfold D in L1; nra).
  set (E0 := M + l * e) in *.
  assert (E0b : 0 <= E0 <= 126 / 100) by (unfold E0; nra).
  assert (E0y : E0 <= y).
  { destruct (Rle_lt_dec E0 y) as [X|X]; auto. exfalso.
    pose proof (sin_concave y E0 ltac:(lra) ltac:(lra)) as [_ Z]. pose proof (COS_bound y).
    assert (sin E0 - sin y <= E0 - y) by nra.
    assert (E0 - y <= e * (sin E0 - sin y)) by (unfold E0 in *; subst M; nra). 
    assert (e * (sin E0 - sin y) <= e * (E0 - y)) by (apply Rmult_le_compat_l; lra). nra. }
  assert (U : sin E0 <= sin M + l * e).
  { pose proof (sin_concave M E0 ltac:(unfold E0; nra) ltac:(lra)) as [_ Z]. pose proof (COS_bound M).
    replace (E0 - M) with (l * e) in Z by (unfold E0; ring). assert (0 <= l * e) by nra. nra. }
  assert (G0 : - gk e y E0 = e * sin E0 - l * e) by (unfold gk, E0 in *; rewrite HM at 1; unfold E0; lra).
  assert (U2 : 10 / 17 * sin E0 <= l) by nra.
  assert (G1 : - gk e y E0 <= 7 / 17 * (e * sin E0)) by (rewrite G0; nra).
  pose proof (gk_diff E0 E) as GD. assert (HE' := HE). apply Rabs_le_between in HE'.
  assert (X : Rabs (gk e y E - gk e y E0) <= 2 * eta) by lra. apply Rabs_le_between in X.
  assert (SL : Rabs (sin E - sin E0) <= eta).
  { destruct (MVT_gen sin E0 E cos) as [c [_ Ec]].
    - intros x _. auto_derive; auto. ring.
    - intros x _. apply continuity_sin.
    - rewrite Ec, Rabs_mult. pose proof (COS_bound c). assert (Rabs (cos c) <= 1) by (apply Rabs_le; lra).
      pose proof (Rabs_pos (E - E0)). nra. }
  apply Rabs_le_between in SL. unfold start.
  destruct (Rle_lt_dec y E) as [C'|C']; [left; apply near_in; lra|].
  destruct (Rle_lt_dec (40 * eta) (e * sin E0)) as [T|T].
  - right. right. assert (sin E0 <= E0) by (apply sin_le; lra). assert (0 <= sin E0) by (apply sin_ge_0; lra).
    assert (e * sin E0 <= 1 * sin E0) by (apply Rmult_le_compat_r; lra).
    assert (e * (sin E0 - eta) <= e * sin E) by (apply Rmult_le_compat_l; lra). assert (e * eta <= 1 * eta) by (apply Rmult_le_compat_r; lra).
    assert (e * sin E0 - eta <= e * sin E) by lra.
    split; [lra|]. split; lra.
  - left. assert (Z : y - E0 <= r - eta); [|apply near_in; lra]. pose proof (gk_left_low E0 ltac:(lra)) as GL.
    apply (Rmult_le_reg_l (1 - e)); [lra|]. assert ((1 - e) * eta <= 1 * eta) by (apply Rmult_le_compat_r; lra). lra.
Qed.
Lemma robust_mid E : 24 / 100 <= M <= 2 -> Rabs (E - (M + e)) <= eta -> start E.
Proof using He Hy HM Heta Hr Hk Hr1.
  intros HM4 HE. pose proof PI2_3_2 as P32. unfold PI2 in P32. pose proof (SIN_bound y) as SB. apply Rabs_le_between in HE.
  assert (Z : M + e = y + e * (1 - sin y)) by (subst M; ring).
  assert (Z0 : 0 <= e * (1 - sin y)) by (apply Rmult_le_pos; lra).
  assert (S0 : 0 <= sin y) by (apply sin_ge_0; lra).
  assert (Z1 : e * (1 - sin y) <= 1 - sin y) by nra.
  destruct (Rle_lt_dec y E) as [C'|C']; [|left; apply near_in; lra].
  destruct (Rle_lt_dec E PI) as [C2|C2].
  - right. left. split; [|lra]. split; [lra|]. intros W.
    assert (y <= 44 / 100) by lra. pose proof (sin_ge y ltac:(lra)). assert (y ^ 3 <= (44 / 100) ^ 3) by (apply pow_incr; lra). lra.
  - exfalso. destruct (PI_ineq 3) as [Q _]. unfold tg_alt, PI_tg in Q. cbn -[IZR] in Q. rewrite ?INR_IZR_INZ in Q. cbn -[IZR] in Q. lra.
Qed.
Lemma robust_large E : 2 <= M <= PI -> Rabs (E - (M + e * (PI - M) / (1 + e))) <= eta -> start E.
Proof using He Hy HM Heta Hr Hk Hr1.
  intros HM4 HE. pose proof PI2_3_2 as P32. unfold PI2 in P32. pose proof (PI_4) as P4. apply Rabs_le_between in HE.
  destruct (guess_large e y He Hy M HM HM4) as [[G1 G2] G3]. set (E0 := M + e * (PI - M) / (1 + e)) in *.
  assert (E1 : (PI - E0) * (1 + e) = PI - M) by (unfold E0; field; lra).
  pose proof M_pos as [_ My].
  destruct (Rle_lt_dec y E) as [C'|C']; [|left; apply near_in; lra].
  destruct (Rle_lt_dec E PI) as [C2|C2].
  - right. left. split; [|lra]. split; [lra|]. intros W. lra.
  - left. apply near_in. assert (PI - M <= 2 * eta) by nra. lra.
Qed.
End Guess.

(** ** The phases of the perturbed iteration *)
Lemma PI_b : 3 <= PI <= 33 / 10.
Proof using Type.
  split; [destruct (PI_ineq 3) as [Q _]|destruct (PI_ineq 3) as [_ Q]]; unfold tg_alt, PI_tg in Q; cbn -[IZR] in Q; rewrite ?INR_IZR_INZ in Q; cbn -[IZR] in Q; lra.
Qed.
(** what the rounding error analysis of a step needs *)
Definition good (E : R) : Prop := let a := 1 - e * cos E in let h := e * sin E in let g := gk e y E in
  a ^ 2 <= 16 * a ^ 2 - 20 * g * h /\ - / 2 <= E <= 4 /\ Rabs g <= 7 /\ Rabs (nextk e y E - E) <= 22 / 5.
Lemma Str_good D E : Str D E -> near E \/ good E.
Proof using He Hy Heta Hr.
  pose proof PI_b as P. pose proof (gk_lip e y He E) as GL. intros [[H _]|[H _]].
  - destruct (Rle_lt_dec E y) as [C|C]; [left; apply near_in; destruct H; lra|right].
    destruct (right_all E H C) as [S1 S2]. cbv zeta in S2. destruct H as [Y W]. rewrite (Rabs_pos_eq (E - y)) in GL by lra.
    split; [exact S2|]. split; [lra|]. split; [lra|]. apply Rabs_le. lra.
  - right. destruct (left_boundsr E H) as [S1 S2]. cbv zeta in S2. destruct H as [L [B [B1 [B2 B3]]]]. rewrite (Rabs_left (E - y)) in GL by lra.
    split; [exact S2|]. split; [destruct B3; lra|]. split; [lra|]. apply Rabs_le. lra.
Qed.
Lemma LS_good E : LS e y E -> good E.
Proof using He Hy.
  intros H. pose proof PI_b as P. destruct (start_all E H) as (S & _ & _ & A). cbv zeta in *. pose proof (gk_left_nonneg e y He Hy E (proj1 H)). destruct H as [L [Y Q]].
  pose proof (SIN_bound E). split; [exact A|]. split; [lra|]. split; [apply Rabs_le; nra|]. apply Rabs_le. lra.
Qed.
Variable m : nat.
Hypothesis Hm : 4 * (6 / 7) ^ m <= (1 - e) * r.
Definition phase (n : nat) (E : R) : Prop := near E \/ (LS e y E /\ - gk e y E <= (/ 2) ^ n /\ (n <= m)%nat) \/
  exists j, (n <= m + 1 + j)%nat /\ Str (4 * (6 / 7) ^ j) E.
Lemma phase_start E : start E -> phase 0 E.
Proof using He.
  intros [H|[[H1 H2]|H]]; [left; auto|right; right; exists 0%nat; split; [lia|left; cbn [pow]; split; [auto|lra]]|].
  right. left. split; [auto|]. split; [|lia]. destruct H as [L [Y Q]]. pose proof (SIN_bound E). cbn [pow]. nra.
Qed.
Lemma phase_good n E : phase n E -> near E \/ good E.
Proof using He Hy Heta Hr.
  intros [H|[[H _]|[j [_ H]]]]; [auto|right; now apply LS_good|eapply Str_good; eauto].
Qed.
Lemma pow_low q n n' : 0 < q < 1 -> (n <= n')%nat -> q ^ n' <= q ^ n.
Proof using Type.
  intros Q L. replace n' with (n + (n' - n))%nat by lia. rewrite pow_add. assert (0 < q ^ n) by (apply pow_lt; lra).
  assert (q ^ (n' - n) <= 1 ^ (n' - n)) by (apply pow_incr; lra). rewrite pow1 in *. nra.
Qed.
Lemma phase_step n E E' : phase n E -> Rabs (E' - nextk e y E) <= eta -> near E \/ phase (S n) E'.
Proof using He Hy Heta Hr Hk Hr1 Hm.
  intros [H|[[H1 [H2 H3]]|[j [H1 H2]]]] HE; [auto| |].
  - destruct (robust_start E E' H1 HE) as [H|[H|[[A B]|[A B]]]]; [auto|right; left; auto| |].
    + right. right. right. exists 0%nat. split; [lia|]. left. cbn [pow]. split; [auto|lra].
    + right. assert (B' : - gk e y E' <= (/ 2) ^ S n) by (cbn [pow]; lra).
      destruct (Nat.eq_dec n m) as [->|X]; [left|right; left; repeat split; try apply A; auto; lia].
      apply LS_near; [apply A|]. eapply Rle_trans; [exact B'|]. assert ((/ 2) ^ S m <= (6 / 7) ^ m).
      { eapply Rle_trans; [apply (pow_low _ m (S m)); [lra|lia]|]. apply pow_incr. lra. }
      assert (0 < (6 / 7) ^ m) by (apply pow_lt; lra). lra.
  - destruct (robust_St _ E E' H2 HE) as [H|[H|H]]; [auto|right; left; auto|].
    right. right. right. exists (S j). split; [lia|]. replace (4 * (6 / 7) ^ S j) with (6 / 7 * (4 * (6 / 7) ^ j)) by (cbn [pow]; ring). exact H.
Qed.
Lemma phase_near E : phase (2 * m + 1) E -> near E.
Proof using He Hy Heta Hr Hm.
  intros [H|[[_ [_ H]]|[j [H1 H2]]]]; [auto|lia|]. apply (Str_near _ _ H2).
  assert ((6 / 7) ^ j <= (6 / 7) ^ m) by (apply pow_low; [lra|lia]). assert (0 <= r) by lra. nra.
Qed.
End Kep.

(** ** Close to the root: fast contraction, for any root *)
Lemma sin_lip1 x z : Rabs (sin x - sin z) <= Rabs (x - z).
Proof.
  destruct (MVT_gen sin z x cos) as [c [_ Ec]].
  - intros t _. auto_derive; auto. ring.
  - intros t _. apply continuity_sin.
  - rewrite Ec, Rabs_mult. pose proof (COS_bound c). assert (Rabs (cos c) <= 1) by (apply Rabs_le; lra).
    pose proof (Rabs_pos (x - z)). nra.
Qed.
Lemma cos_lip1 x z : Rabs (cos x - cos z) <= Rabs (x - z).
Proof.
  destruct (MVT_gen cos z x (fun t => - sin t)) as [c [_ Ec]].
  - intros t _. auto_derive; auto. ring.
  - intros t _. apply continuity_cos.
  - rewrite Ec, Rabs_mult. pose proof (SIN_bound c). assert (Rabs (- sin c) <= 1) by (apply Rabs_le; lra).
    pose proof (Rabs_pos (x - z)). nra.
Qed.
Lemma local_step e y E : 0 <= e < 1 -> Rabs (E - y) <= (1 - e) / 40 ->
  let A := 1 - e * cos y in let a := 1 - e * cos E in let h := e * sin E in let g := gk e y E in let b := root5 a h g in
  Rabs (a - A) <= A / 40 /\ Rabs (g - a * (E - y)) <= A / 40 * Rabs (E - y) /\
  Rabs g <= 21 / 20 * A * Rabs (E - y) /\ 7 / 2 * A <= b <= 9 / 2 * A /\ a ^ 2 <= 16 * a ^ 2 - 20 * g * h /\
  Rabs (nextk e y E - y) <= / 10 * Rabs (E - y).
Proof.
  intros He HD A a h g b. set (d := E - y) in *. pose proof (Rabs_pos d) as D0. pose proof (COS_bound y) as Cy. pose proof (SIN_bound E) as SE.
  assert (KA : 1 - e <= A <= 2) by (unfold A; nra). assert (DA : Rabs d <= A / 40) by lra.
  assert (H1 : Rabs (a - A) <= A / 40).
  { unfold a, A. replace (1 - e * cos E - (1 - e * cos y)) with (- (e * (cos E - cos y))) by ring. rewrite Rabs_Ropp, Rabs_mult, (Rabs_pos_eq e) by lra.
    pose proof (cos_lip1 E y). fold d in H. pose proof (Rabs_pos (cos E - cos y)). fold A. nra. }
  assert (H2 : Rabs (g - a * d) <= A / 40 * Rabs d).
  { destruct (MVT_gen sin y E cos) as [c [Hc Ec]].
    - intros x _. auto_derive; auto. ring.
    - intros x _. apply continuity_sin.
    - replace (g - a * d) with (e * ((cos E - cos c) * d)) by (unfold g, gk; rewrite Ec; unfold a, d; ring).
      rewrite !Rabs_mult, (Rabs_pos_eq e) by lra. pose proof (cos_lip1 E c) as L. assert (L2 : Rabs (E - c) <= Rabs d).
      { unfold Rmin, Rmax in Hc. unfold d. destruct (Rle_dec y E); [rewrite !Rabs_pos_eq; lra|rewrite !Rabs_left1; lra]. }
      rewrite <- Rmult_assoc. apply Rmult_le_compat_r; [lra|]. pose proof (Rabs_pos (cos E - cos c)). nra. }
  assert (Ha : 39 / 40 * A <= a <= 41 / 40 * A) by (apply Rabs_le_between in H1; lra).
  assert (H3 : Rabs g <= 21 / 20 * A * Rabs d).
  { replace g with (a * d + (g - a * d)) by ring. eapply Rle_trans; [apply Rabs_triang|]. rewrite Rabs_mult, (Rabs_pos_eq a) by lra.
    assert (a * Rabs d <= 41 / 40 * A * Rabs d) by (apply Rmult_le_compat_r; lra). lra. }
  assert (Hh : Rabs h <= 1) by (unfold h; apply Rabs_le; nra).
  assert (GH : Rabs (g * h) <= 21 / 800 * (A * A)).
  { rewrite Rabs_mult. apply Rle_trans with (21 / 20 * A * Rabs d * 1); [apply Rmult_le_compat; auto using Rabs_pos|].
    assert (A * Rabs d <= A * (A / 40)) by (apply Rmult_le_compat_l; lra). lra. }
  apply Rabs_le_between in GH.
  assert (A2 : 39 / 40 * A * (39 / 40 * A) <= a * a) by (apply Rmult_le_compat; lra).
  assert (A3 : a * a <= 41 / 40 * A * (41 / 40 * A)) by (apply Rmult_le_compat; lra).
  assert (AA : 0 <= A * A) by nra.
  assert (Q : a ^ 2 <= 16 * a ^ 2 - 20 * g * h) by lra.
  assert (Hb : b ^ 2 = 16 * a ^ 2 - 20 * g * h) by (apply root5_sq; pose proof (pow2_ge_0 a); lra).
  assert (B0 : 0 <= b) by apply root5_ge0.
  assert (Bb : 7 / 2 * A <= b <= 9 / 2 * A) by (split; apply sq_le_lin; lra).
  repeat split; try tauto; try lra.
  unfold nextk, step5. fold a h g b. 
  replace (E - 5 * g / (a + b) - y) with ((5 * (a * d - g) + d * (b - 4 * a)) / (a + b)) by (unfold d; field; lra).
  assert (G : Rabs (b - 4 * a) <= 8 / 100 * A).
  { assert (P : 7 * A <= b + 4 * a) by lra. apply (Rmult_le_reg_r (b + 4 * a)); [lra|].
    rewrite <- (Rabs_pos_eq (b + 4 * a)) at 1 by lra. rewrite <- Rabs_mult.
    replace ((b - 4 * a) * (b + 4 * a)) with (- (20 * (g * h))) by (replace ((b - 4 * a) * (b + 4 * a)) with (b ^ 2 - 16 * a ^ 2) by ring; rewrite Hb; ring).
    rewrite Rabs_Ropp, Rabs_mult, (Rabs_pos_eq 20) by lra. assert (Rabs (g * h) <= 21 / 800 * (A * A)) by (apply Rabs_le; lra).
    assert (A * (7 * A) <= A * (b + 4 * a)) by (apply Rmult_le_compat_l; lra). lra. }
  unfold Rdiv. rewrite Rabs_mult, (Rabs_pos_eq (/ (a + b))) by (apply Rlt_le, Rinv_0_lt_compat; lra).
  apply div_le; [lra|].
  assert (T : Rabs (5 * (a * d - g) + d * (b - 4 * a)) <= 5 * (A / 40 * Rabs d) + Rabs d * (8 / 100 * A)).
  { eapply Rle_trans; [apply Rabs_triang|]. rewrite !Rabs_mult, (Rabs_pos_eq 5) by lra. apply Rplus_le_compat; [|apply Rmult_le_compat_l; auto].
    apply Rmult_le_compat_l; [lra|]. rewrite <- Rabs_Ropp. replace (- (a * d - g)) with (g - a * d) by ring. auto. }
  assert (Rabs d * (4 * A) <= Rabs d * (a + b)) by (apply Rmult_le_compat_l; lra). assert (0 <= Rabs d * A) by (apply Rmult_le_pos; lra). lra.
Qed.
