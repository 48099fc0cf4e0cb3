(** * Trigonometric inequalities used for the convergence of the Kepler solver *)
From Coq Require Import Reals Lra Lia.
From Coquelicot Require Import Coquelicot.
Local Open Scope R_scope.

(** ** Monotonicity from derivatives *)
Lemma mono (f f' : R -> R) a b : a <= b -> (forall x, a <= x <= b -> is_derive f x (f' x)) ->
  (forall x, a <= x <= b -> 0 <= f' x) -> f a <= f b.
Proof.
  intros L D P. destruct L as [L| ->]; [|lra].
  destruct (MVT_gen f a b f') as [c [C1 C2]].
  - intros x. rewrite Rmin_left, Rmax_right by lra. intros X. apply D. lra.
  - intros x. rewrite Rmin_left, Rmax_right by lra. intros X.
    apply continuity_pt_filterlim, (ex_derive_continuous f). eexists. apply D. lra.
  - rewrite Rmin_left, Rmax_right in C1 by lra. pose proof (P c C1). nra.
Qed.
Lemma anti (f f' : R -> R) a b : a <= b -> (forall x, a <= x <= b -> is_derive f x (f' x)) ->
  (forall x, a <= x <= b -> f' x <= 0) -> f b <= f a.
Proof.
  intros L D P. apply Ropp_le_cancel.
  apply (mono (fun x => - f x) (fun x => - f' x) a b L).
  - intros x X. apply (is_derive_opp f). now apply D.
  - intros x X. pose proof (P x X). lra.
Qed.
Lemma taylor_r (f f' f'' : R -> R) a b : a <= b ->
  (forall x, a <= x <= b -> is_derive f x (f' x)) -> (forall x, a <= x <= b -> is_derive f' x (f'' x)) ->
  (forall x, a <= x <= b -> 0 <= f'' x) -> f b = 0 -> f' b = 0 -> 0 <= f a.
Proof.
  intros L D1 D2 P H H'. rewrite <- H. apply (anti f f' a b L D1). intros x X. rewrite <- H'.
  apply (mono f' f'' x b); [lra| |]; intros z Z; [apply D2|apply P]; lra.
Qed.
Lemma taylor_l (f f' f'' : R -> R) a b : a <= b ->
  (forall x, a <= x <= b -> is_derive f x (f' x)) -> (forall x, a <= x <= b -> is_derive f' x (f'' x)) ->
  (forall x, a <= x <= b -> 0 <= f'' x) -> f a = 0 -> f' a = 0 -> 0 <= f b.
Proof.
  intros L D1 D2 P H H'. rewrite <- H. apply (mono f f' a b L D1). intros x X. rewrite <- H'.
  apply (mono f' f'' a x); [lra| |]; intros z Z; [apply D2|apply P]; lra.
Qed.
Ltac der := intros; auto_derive; [repeat split; auto; lra|try field; try ring; try lra].

(** ** Polynomial bounds *)
Lemma sin_le x : 0 <= x -> sin x <= x.
Proof.
  intros X. assert (A : 0 - sin 0 <= x - sin x); [|rewrite sin_0 in A; lra].
  apply (mono (fun t => t - sin t) (fun t => 1 - cos t) 0 x X); intros t T.
  - der.
  - pose proof (COS_bound t). lra.
Qed.
Lemma cos_ge x : 1 - x ^ 2 / 2 <= cos x.
Proof.
  assert (G : forall x, 0 <= x -> 1 - x ^ 2 / 2 <= cos x).
  { clear x. intros x X. assert (A : cos 0 + 0 ^ 2 / 2 - 1 <= cos x + x ^ 2 / 2 - 1); [|rewrite cos_0 in A; lra].
    apply (mono (fun t => cos t + t ^ 2 / 2 - 1) (fun t => t - sin t) 0 x X); intros t T.
    - der.
    - pose proof (sin_le t). lra. }
  destruct (Rle_dec 0 x) as [X|X]; [now apply G|].
  rewrite <- cos_neg. replace (x ^ 2) with ((- x) ^ 2) by ring. apply G. lra.
Qed.
Lemma sin_ge x : 0 <= x -> x - x ^ 3 / 6 <= sin x.
Proof.
  intros X. assert (A : sin 0 - 0 + 0 ^ 3 / 6 <= sin x - x + x ^ 3 / 6); [|rewrite sin_0 in A; lra].
  apply (mono (fun t => sin t - t + t ^ 3 / 6) (fun t => cos t - 1 + t ^ 2 / 2) 0 x X); intros t T.
  - der.
  - pose proof (cos_ge t). lra.
Qed.
Lemma cos_le x : 0 <= x -> cos x <= 1 - x ^ 2 / 2 + x ^ 4 / 24.
Proof.
  intros X. assert (A : 1 - 0 ^ 2 / 2 + 0 ^ 4 / 24 - cos 0 <= 1 - x ^ 2 / 2 + x ^ 4 / 24 - cos x); [|rewrite cos_0 in A; lra].
  apply (mono (fun t => 1 - t ^ 2 / 2 + t ^ 4 / 24 - cos t) (fun t => sin t - t + t ^ 3 / 6) 0 x X); intros t T.
  - der.
  - pose proof (sin_ge t). lra.
Qed.
Lemma sin_le5 x : 0 <= x -> sin x <= x - x ^ 3 / 6 + x ^ 5 / 120.
Proof.
  intros X. assert (A : 0 - 0 ^ 3 / 6 + 0 ^ 5 / 120 - sin 0 <= x - x ^ 3 / 6 + x ^ 5 / 120 - sin x); [|rewrite sin_0 in A; lra].
  apply (mono (fun t => t - t ^ 3 / 6 + t ^ 5 / 120 - sin t) (fun t => 1 - t ^ 2 / 2 + t ^ 4 / 24 - cos t) 0 x X); intros t T.
  - der.
  - pose proof (cos_le t). lra.
Qed.
Lemma cos_ge6 x : 0 <= x -> 1 - x ^ 2 / 2 + x ^ 4 / 24 - x ^ 6 / 720 <= cos x.
Proof.
  intros X. assert (A : cos 0 - (1 - 0 ^ 2 / 2 + 0 ^ 4 / 24 - 0 ^ 6 / 720) <= cos x - (1 - x ^ 2 / 2 + x ^ 4 / 24 - x ^ 6 / 720)); [|rewrite cos_0 in A; lra].
  apply (mono (fun t => cos t - (1 - t ^ 2 / 2 + t ^ 4 / 24 - t ^ 6 / 720)) (fun t => t - t ^ 3 / 6 + t ^ 5 / 120 - sin t) 0 x X); intros t T.
  - der.
  - pose proof (sin_le5 t). lra.
Qed.

(** ** sin t / t is decreasing on [0, pi] *)
Lemma tan_like x : 0 <= x <= PI -> 0 <= sin x - x * cos x.
Proof.
  intros X. assert (A : sin 0 - 0 * cos 0 <= sin x - x * cos x); [|rewrite sin_0 in A; lra].
  apply (mono (fun t => sin t - t * cos t) (fun t => t * sin t) 0 x); [lra| |]; intros t T.
  - der.
  - pose proof (sin_ge_0 t). apply Rmult_le_pos; [lra|]. apply sin_ge_0; lra.
Qed.
Lemma sinc_decr t E : 0 <= t <= E -> E <= PI -> sin E * t <= sin t * E.
Proof.
  intros [T1 T2] HE. destruct T1 as [T1| <-].
  2:{ rewrite sin_0. lra. }
  assert (A : sin E / E <= sin t / t).
  { apply (anti (fun u => sin u / u) (fun u => - (sin u - u * cos u) / (u * u)) t E T2); intros u U.
    - auto_derive; [lra|field; lra].
    - pose proof (tan_like u ltac:(lra)). assert (0 < / (u * u)) by (apply Rinv_0_lt_compat; nra).
      unfold Rdiv. nra. }
  apply (Rmult_le_compat_r (t * E)) in A; [|nra].
  replace (sin E / E * (t * E)) with (sin E * t) in A by (field; lra).
  replace (sin t / t * (t * E)) with (sin t * E) in A by (field; lra). exact A.
Qed.
(** Taylor remainder of sin against the cubic interpolation through 0 and E *)
Lemma rem_right y E : 0 <= y <= E -> 0 < E -> E <= PI ->
  (E - y) ^ 2 * sin E * (1 + y / (2 * E)) <= 3 * (sin E - sin y - (E - y) * cos E).
Proof.
  intros Y E0 HE. apply Rminus_le_0.
  apply (taylor_r
    (fun t => 3 * (sin E - sin t - (E - t) * cos E) - (E - t) ^ 2 * sin E * (1 + t / (2 * E)))
    (fun t => 3 * (cos E - cos t) + 2 * (E - t) * sin E * (1 + t / (2 * E)) - (E - t) ^ 2 * sin E / (2 * E))
    (fun t => 3 * sin t - 3 * sin E * t / E) y E); try lra; intros t T.
  - der.
  - der.
  - pose proof (sinc_decr t E ltac:(lra) HE). assert (sin E * t / E <= sin t).
    { apply (Rmult_le_reg_r E); [lra|]. unfold Rdiv. rewrite Rmult_assoc, Rinv_l, Rmult_1_r by lra. lra. }
    unfold Rdiv in *. lra.
Qed.
(** the same on the other side, by reflection *)
Lemma rem_left E1 y : 0 <= E1 <= y -> y <= PI -> E1 < PI ->
  (y - E1) ^ 2 * sin E1 <= 3 * ((y - E1) * cos E1 - sin y + sin E1).
Proof.
  intros Y HE HP. pose proof (rem_right (PI - y) (PI - E1) ltac:(lra) ltac:(lra) ltac:(lra)) as A.
  rewrite !sin_PI_x in A. replace (cos (PI - E1)) with (- cos E1) in A.
  2:{ rewrite <- (cos_neg (PI - E1)). replace (- (PI - E1)) with (E1 - PI) by ring.
      rewrite cos_minus, cos_PI, sin_PI. ring. }
  replace (PI - E1 - (PI - y)) with (y - E1) in A by ring.
  assert (0 <= (y - E1) ^ 2 * sin E1 * ((PI - y) / (2 * (PI - E1)))).
  { apply Rmult_le_pos; [apply Rmult_le_pos; [apply pow2_ge_0|apply sin_ge_0; lra]|].
    apply Rmult_le_pos; [lra|]. left. apply Rinv_0_lt_compat. lra. }
  lra.
Qed.
Lemma rem_upper E1 y : 0 < E1 <= y -> y <= PI ->
  (y - E1) * cos E1 - sin y + sin E1 <= sin E1 * ((y - E1) ^ 2 / 2 + (y - E1) ^ 3 / (6 * E1)).
Proof.
  intros Y HE. apply Rminus_le_0.
  apply (taylor_l
    (fun t => sin E1 * ((t - E1) ^ 2 / 2 + (t - E1) ^ 3 / (6 * E1)) - ((t - E1) * cos E1 - sin t + sin E1))
    (fun t => sin E1 * ((t - E1) + (t - E1) ^ 2 / (2 * E1)) - (cos E1 - cos t))
    (fun t => sin E1 * t / E1 - sin t) E1 y); try lra; intros.
  - der.
  - der.
  - pose proof (sinc_decr E1 x ltac:(lra) ltac:(lra)). assert (sin x <= sin E1 * x / E1).
    { apply (Rmult_le_reg_r E1); [lra|]. unfold Rdiv. rewrite Rmult_assoc, Rinv_l, Rmult_1_r by lra. lra. }
    lra.
Qed.
(** third-order left Taylor bound on [0, pi/2] *)
Lemma taylor_left E s : 0 <= E -> 0 <= s -> E + s <= PI / 2 ->
  sin (E + s) <= sin E + s * cos E - s ^ 2 / 2 * sin E.
Proof.
  intros HE Hs HP. apply Rminus_le_0.
  replace (sin E + s * cos E - s ^ 2 / 2 * sin E - sin (E + s))
     with (sin E + (E + s - E) * cos E - (E + s - E) ^ 2 / 2 * sin E - sin (E + s)) by (replace (E + s - E) with s by ring; reflexivity).
  apply (taylor_l (fun t => sin E + (t - E) * cos E - (t - E) ^ 2 / 2 * sin E - sin t)
    (fun t => cos E - (t - E) * sin E - cos t) (fun t => sin t - sin E) E (E + s)); try lra; intros.
  - der.
  - der.
  - assert (sin E <= sin x); [|lra]. apply sin_incr_1; lra.
Qed.
(** 3 (sin E - sin y) <= (E - y)(2 + cos E) *)
Lemma chord_third y E : 0 <= y <= E -> E <= PI -> 3 * (sin E - sin y) <= (E - y) * (2 + cos E).
Proof.
  intros Y HE.
  assert (Z : 0 <= E * (2 + cos E) - 3 * sin E).
  { apply (taylor_l (fun t => t * (2 + cos t) - 3 * sin t) (fun t => 2 - 2 * cos t - t * sin t)
      (fun t => sin t - t * cos t) 0 E); try lra; intros.
    - der.
    - der.
    - apply tan_like. lra.
    - rewrite sin_0. ring.
    - rewrite cos_0. ring. }
  set (F := fun t => (E - t) * (2 + cos E) - 3 * (sin E - sin t)).
  assert (D : forall t, is_derive F t (- (2 + cos E) + 3 * cos t)) by (intros t; unfold F; der).
  assert (A : 0 <= F y); [|unfold F in A; lra].
  destruct (Rle_dec (- (2 + cos E) + 3 * cos y) 0) as [S|S].
  - replace 0 with (F E) by (unfold F; ring).
    apply (anti F (fun t => - (2 + cos E) + 3 * cos t) y E); [lra|intros; apply D|].
    intros t T. assert (cos t <= cos y); [|lra]. apply cos_decr_1; lra.
  - apply Rle_trans with (F 0); [unfold F; rewrite sin_0; lra|].
    apply (mono F (fun t => - (2 + cos E) + 3 * cos t) 0 y); [lra|intros; apply D|].
    intros t T. assert (cos y <= cos t); [|lra]. apply cos_decr_1; lra.
Qed.
(** sin grows between y and E by at least its Taylor polynomial does, 0 <= y <= E <= 1.15 *)
Lemma sin_growth y E : 0 <= y <= E -> E <= 23 / 20 ->
  (E - E ^ 3 / 6 + E ^ 5 / 130) - (y - y ^ 3 / 6 + y ^ 5 / 130) <= sin E - sin y.
Proof.
  intros Y HE. assert (A : sin y - (y - y ^ 3 / 6 + y ^ 5 / 130) <= sin E - (E - E ^ 3 / 6 + E ^ 5 / 130)); [|lra].
  apply (mono (fun t => sin t - (t - t ^ 3 / 6 + t ^ 5 / 130)) (fun t => cos t - (1 - t ^ 2 / 2 + t ^ 4 / 26)) y E); [lra| |]; intros t T.
  - der.
  - pose proof (cos_ge6 t ltac:(lra)). assert (0 <= t ^ 4) by (apply pow_le; lra).
    assert (t ^ 6 <= 1.3225 * t ^ 4).
    { replace (t ^ 6) with (t * t * t ^ 4) by ring. apply Rmult_le_compat_r; nra. }
    lra.
Qed.
(** concavity of sin on [0, pi] *)
Lemma sin_concave y E : 0 <= y <= E -> E <= PI -> (E - y) * cos E <= sin E - sin y <= (E - y) * cos y.
Proof.
  intros Y HE. split.
  - assert (A : sin y - y * cos E <= sin E - E * cos E); [|lra].
    apply (mono (fun t => sin t - t * cos E) (fun t => cos t - cos E) y E); [lra| |]; intros t T.
    + der.
    + assert (cos E <= cos t); [|lra]. apply cos_decr_1; lra.
  - assert (A : sin E - E * cos y <= sin y - y * cos y); [|lra].
    apply (anti (fun t => sin t - t * cos y) (fun t => cos t - cos y) y E); [lra| |]; intros t T.
    + der.
    + assert (cos t <= cos y); [|lra]. apply cos_decr_1; lra.
Qed.
Lemma sin_chord M e l : 0 <= M -> 0 <= e -> M + e <= PI -> 0 <= l <= 1 ->
  (1 - l) * sin M + l * sin (M + e) <= sin (M + l * e).
Proof.
  intros HM He HP Hl.
  pose proof (sin_concave M (M + l * e) ltac:(nra) ltac:(nra)) as [A _].
  pose proof (sin_concave (M + l * e) (M + e) ltac:(nra) ltac:(nra)) as [_ B].
  replace (M + l * e - M) with (l * e) in A by ring.
  replace (M + e - (M + l * e)) with ((1 - l) * e) in B by ring. nra.
Qed.
