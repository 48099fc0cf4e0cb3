(** * Laguerre's iteration (degree 5) for the hyperbolic Kepler equation converges from the code's guess *)
From Coq Require Import Reals Lra Lia Psatz.
From Coquelicot Require Import Coquelicot.
From Verif Require Import NP NPReal Spec RealBase AnomReal LagTrig LagReal HypTrig.
Local Open Scope R_scope.

Lemma root5_sq_ge a h g : 16 * a ^ 2 - 20 * g * h <= root5 a h g ^ 2.
Proof. unfold root5. rewrite pow2_sqrt by apply Rabs_pos. apply Rle_abs. Qed.

(** right of the root *)
Section RightAlg.
Variables a h p d : R.
Hypothesis Ha : 0 < a.
Hypothesis Hh : 0 <= h.
Hypothesis Hd : 0 < d.
Hypothesis H3 : a <= 3.1 * p.
Hypothesis Hpa : p <= a.
Hypothesis HR : d * h <= 3.08 * (a - p).
Let b := root5 a h (d * p).
Lemma hr_disc : 0 <= 16 * a ^ 2 - 20 * (d * p) * h <= 16 * a ^ 2.
Proof using Ha Hh Hd H3 Hpa HR.
  assert (0 <= d * h) by nra. assert (p * (d * h) <= 3.08 * p * (a - p)) by nra.
  assert (0 <= p * (d * h)) by nra. assert (0 <= (a - 2 * p) ^ 2) by apply pow2_ge_0. nra.
Qed.
Lemma hr_b : b ^ 2 = 16 * a ^ 2 - 20 * (d * p) * h /\ 0 <= b <= 4 * a.
Proof using Ha Hh Hd H3 Hpa HR.
  pose proof hr_disc. assert (B : b ^ 2 = 16 * a ^ 2 - 20 * (d * p) * h) by (apply root5_sq; nra).
  pose proof (root5_ge0 a h (d * p)) as B0. fold b in B0. split; [auto|]. split; [auto|]. apply sq_le_lin; nra.
Qed.
Lemma hr_lower : d / 3.1 <= step5 a h (d * p).
Proof using Ha Hh Hd H3 Hpa HR.
  destruct hr_b as [B [B1 B2]]. unfold step5. fold b. apply le_div; [lra|].
  apply Rle_trans with (d / 3.1 * (5 * a)); [apply Rmult_le_compat_l; lra|]. nra.
Qed.
(** [K]: how much better than [HR] the remainder is, [r]: the reciprocal of the bound *)
Lemma hr_upper K r : 0 < K -> 0 < r -> K * (d * h) <= 3.08 * (a - p) ->
  (61.6 - 10 * r * K) ^ 2 <= 60 * K * (61.6 - 25 * r ^ 2 * K) -> r * step5 a h (d * p) <= d.
Proof using Ha Hh Hd H3 Hpa HR.
  intros KP RP HK Hq. destruct hr_b as [B [B1 B2]]. unfold step5. fold b.
  assert (L : 5 * r * p - a <= b).
  { apply sq_le_lin; [lra|]. rewrite B.
    assert (X : p * (K * (d * h)) <= p * (3.08 * (a - p))) by (apply Rmult_le_compat_l; lra).
    assert (Q : 0 <= 15 * K * a ^ 2 + (10 * r * K - 61.6) * (p * a) + (61.6 - 25 * r ^ 2 * K) * p ^ 2).
    { assert (S : 0 <= (30 * K * a + (10 * r * K - 61.6) * p) ^ 2) by apply pow2_ge_0.
      assert (Y : 0 <= (60 * K * (61.6 - 25 * r ^ 2 * K) - (61.6 - 10 * r * K) ^ 2) * p ^ 2) by (apply Rmult_le_pos; [lra|apply pow2_ge_0]).
      apply (Rmult_le_reg_l (60 * K)); [lra|]. rewrite Rmult_0_r. lra. }
    apply (Rmult_le_reg_l K); auto. lra. }
  apply (Rmult_le_reg_r (a + b)); [lra|].
  replace (r * (5 * (d * p) / (a + b)) * (a + b)) with (d * (5 * r * p)) by (field; lra). apply Rmult_le_compat_l; lra.
Qed.
Lemma hr_over : d < step5 a h (d * p) -> (a - p) * (3 * a + 5 * p) < 4 * p * (d * h).
Proof using Ha Hh Hd H3 Hpa HR.
  intros O. destruct hr_b as [B [B1 B2]]. unfold step5 in O. fold b in O.
  apply lt_div_inv in O; [|lra]. assert (L : b < 5 * p - a) by nra. nra.
Qed.
End RightAlg.

(** left of the root *)
Section LeftAlg.
Variables a h p d : R.
Hypothesis Ha : 0 < a.
Hypothesis Hh : 0 <= h.
Hypothesis Hd : 0 < d.
Hypothesis Hpa : a <= p.
Let b := root5 a h (- (d * p)).
Lemma hl_upper2 : p <= a + 3 * (d * h) -> - step5 a h (- (d * p)) <= 2 * d.
Proof using Ha Hh Hd Hpa.
  intros HR. destruct (left_b a h p d Ha Hh Hd Hpa) as [B B1]. fold b in B, B1. unfold step5. fold b.
  replace (- (5 * - (d * p) / (a + b))) with (5 * (d * p) / (a + b)) by (field; lra).
  apply div_le; [lra|]. assert (L : 5 / 2 * p - a <= b); [|nra]. apply sq_le_lin; [lra|]. rewrite B.
  assert (0 <= d * h) by nra. set (c := d * h) in *. clearbody c.
  assert (p * p <= p * (a + 3 * c)) by (apply Rmult_le_compat_l; lra).
  assert (0 <= p * c) by nra. assert (a * p <= a * (a + 3 * c)) by (apply Rmult_le_compat_l; lra).
  assert (a * c <= p * c) by (apply Rmult_le_compat_r; lra). nra.
Qed.
Lemma hl_upper26 : p <= 2.6 * a -> - step5 a h (- (d * p)) <= 2.6 * d.
Proof using Ha Hh Hd Hpa.
  intros HR. destruct (left_b a h p d Ha Hh Hd Hpa) as [B B1]. fold b in B, B1. unfold step5. fold b.
  replace (- (5 * - (d * p) / (a + b))) with (5 * (d * p) / (a + b)) by (field; lra).
  apply div_le; [lra|]. nra.
Qed.
End LeftAlg.

(** left of zero *)
Section NegAlg.
Variables a h p d : R.
Hypothesis Ha : 0 < a.
Hypothesis Hh : 0 <= h.
Hypothesis Hd : 0 < d.
Hypothesis Hp : 0 <= p.
Let b := root5 a (- h) (- (d * p)).
Lemma hn_step : a <= 5 * p -> p <= 2 * a ->
  25 / 2.6 ^ 2 * p ^ 2 + 20 * (d * p) * h <= 15 * a ^ 2 + 10 / 2.6 * (p * a) ->
  d / 5 <= - step5 a (- h) (- (d * p)) <= 2.6 * d.
Proof using Ha Hh Hd Hp.
  intros P1 P2 Q. assert (G : 0 <= (d * p) * h) by (apply Rmult_le_pos; nra).
  assert (B0 : 0 <= b) by apply root5_ge0.
  assert (BL : 16 * a ^ 2 - 20 * (d * p) * h <= b ^ 2). { unfold b. eapply Rle_trans; [|apply root5_sq_ge]. nra. }
  assert (BU : b <= 4 * a).
  { apply sq_le_lin; [lra|]. unfold b, root5. rewrite pow2_sqrt by apply Rabs_pos. apply Rabs_le. nra. }
  unfold step5. fold b.
  replace (- (5 * - (d * p) / (a + b))) with (5 * (d * p) / (a + b)) by (field; lra). split.
  - apply le_div; [lra|]. nra.
  - apply div_le; [lra|]. assert (L : 5 / 2.6 * p - a <= b); [|nra]. apply sq_le_lin; [lra|]. nra.
Qed.
End NegAlg.

(** ** The hyperbolic Kepler equation with root y *)
Definition gh (e y E : R) : R := e * (sinh E - sinh y) - (E - y).
Definition nexth (e y E : R) : R := E - step5 (e * cosh E - 1) (e * sinh E) (gh e y E).

(** polynomials of the increment *)
Lemma pos_pow x n : 0 <= x -> 0 <= x ^ n. Proof. intros. now apply pow_le. Qed.
Section Incr.
Variable d : R.
Hypothesis Hd : 0 < d <= 3 / 5.
Let S := sinh d. Let C := cosh d.
Lemma inc_bounds : d + d ^ 3 / 6 <= S <= d + d ^ 3 / 6 + d ^ 5 / 110 /\ 1 + d ^ 2 / 2 + d ^ 4 / 24 <= C <= 1 + d ^ 2 / 2 + d ^ 4 / 22.
Proof using Hd.
  unfold S, C. pose proof (sh3 d). pose proof (sh_u d). pose proof (ch4 d). pose proof (ch_u d). lra.
Qed.
Lemma inc_pows : d ^ 2 <= 9 / 25 /\ 0 < d ^ 3 /\ d ^ 4 <= 9 / 25 * d ^ 2 /\ d ^ 5 <= 9 / 25 * d ^ 3 /\ d ^ 7 <= 9 / 25 * d ^ 5 /\ 0 < d ^ 2 /\ 0 < d ^ 5.
Proof using Hd.
  assert (Q : 0 < d ^ 2 <= 9 / 25) by (split; [apply pow_lt; lra|nra]).
  assert (T : 0 < d ^ 3) by (apply pow_lt; lra). assert (F : 0 < d ^ 5) by (apply pow_lt; lra).
  replace (d ^ 4) with (d ^ 2 * d ^ 2) by ring. replace (d ^ 7) with (d ^ 2 * d ^ 5) by ring.
  replace (d ^ 5) with (d ^ 2 * d ^ 3) in * by ring. nra.
Qed.
(** coefficients of cosh y and sinh y *)
Lemma inc_third_c : 2.1 * d <= 3.1 * S - d * C.
Proof using Hd. destruct inc_bounds as [[S1 S2] [C1 C2]]. destruct inc_pows as [P1 [P2 [P3 [P4 [P5 [P6 P7]]]]]]. nra. Qed.
Lemma inc_third_s : 0 <= 3.1 * (C - 1) - d * S.
Proof using Hd. destruct inc_bounds as [[S1 S2] [C1 C2]]. destruct inc_pows as [P1 [P2 [P3 [P4 [P5 [P6 P7]]]]]]. nra. Qed.
Lemma inc_conv_c : 0 <= d * C - S.
Proof using Hd. destruct inc_bounds as [[S1 S2] [C1 C2]]. destruct inc_pows as [P1 [P2 [P3 [P4 [P5 [P6 P7]]]]]]. nra. Qed.
Lemma inc_conv_s : 0 <= d * S - C + 1.
Proof using Hd. destruct inc_bounds as [[S1 S2] [C1 C2]]. destruct inc_pows as [P1 [P2 [P3 [P4 [P5 [P6 P7]]]]]]. nra. Qed.
Lemma inc_rem_c : 0 <= 3.08 * (d * C - S) - d ^ 2 * S.
Proof using Hd.
  destruct inc_bounds as [[S1 S2] [C1 C2]]. destruct inc_pows as [P1 [P2 [P3 [P4 [P5 [P6 P7]]]]]].
  assert (d * (1 + d ^ 2 / 2 + d ^ 4 / 24) <= d * C) by (apply Rmult_le_compat_l; lra).
  assert (d ^ 2 * S <= d ^ 2 * (d + d ^ 3 / 6 + d ^ 5 / 110)) by (apply Rmult_le_compat_l; lra). nra.
Qed.
Lemma inc_rem_s : 0 <= 3.08 * (d * S - C + 1) - d ^ 2 * C.
Proof using Hd.
  destruct inc_bounds as [[S1 S2] [C1 C2]]. destruct inc_pows as [P1 [P2 [P3 [P4 [P5 [P6 P7]]]]]].
  assert (d * (d + d ^ 3 / 6) <= d * S) by (apply Rmult_le_compat_l; lra).
  assert (d ^ 2 * C <= d ^ 2 * (1 + d ^ 2 / 2 + d ^ 4 / 22)) by (apply Rmult_le_compat_l; lra).
  assert (d ^ 6 <= 9 / 25 * d ^ 4) by (replace (d ^ 6) with (d ^ 2 * d ^ 4) by ring; apply Rmult_le_compat_r; [apply pow_le; lra|lra]). nra.
Qed.
End Incr.

Section Kep.
Variables e y : R.
Hypothesis He : 1 < e.
Hypothesis Hy : 0 <= y.
Let k := e - 1.
Lemma ah_pos E : 0 < e * cosh E - 1.
Proof using He. pose proof (cosh_ge_1 E). nra. Qed.

Lemma hright_facts E : y < E <= y + 3 / 5 ->
  let a := e * cosh E - 1 in let d := E - y in let p := gh e y E / d in
  gh e y E = d * p /\ 0 < p /\ a <= 3.1 * p /\ p <= a /\ 0 <= e * sinh E /\ d * (e * sinh E) <= 3.08 * (a - p).
Proof using He Hy.
  intros HE a d p. assert (D : 0 < d <= 3 / 5) by (unfold d; lra).
  assert (G : gh e y E = d * p) by (unfold p; field; lra). split; auto.
  pose proof (ah_pos E) as A. fold a in A.
  assert (SE : sinh E = sinh y * cosh d + cosh y * sinh d) by (rewrite <- sinh_plus; f_equal; unfold d; ring).
  assert (CE : cosh E = cosh y * cosh d + sinh y * sinh d) by (rewrite <- cosh_plus; f_equal; unfold d; ring).
  pose proof (sh0 y Hy) as S0. pose proof (cosh_ge_1 y) as C0.
  assert (ES : 0 <= e * sinh y) by nra. assert (EC : 1 <= e * cosh y) by nra.
  assert (Gd : d * p = (e * sinh y) * (cosh d - 1) + (e * cosh y) * sinh d - d).
  { rewrite <- G. unfold gh. fold d. rewrite SE. ring. }
  assert (Ad : a = (e * cosh y) * cosh d + (e * sinh y) * sinh d - 1) by (unfold a; rewrite CE; ring).
  assert (Hd : e * sinh E = (e * sinh y) * cosh d + (e * cosh y) * sinh d) by (rewrite SE; ring).
  set (es := e * sinh y) in *. set (ec := e * cosh y) in *. clearbody es ec.
  pose proof (inc_third_c d D). pose proof (inc_third_s d D). pose proof (inc_conv_c d D). pose proof (inc_conv_s d D).
  pose proof (inc_rem_c d D). pose proof (inc_rem_s d D). destruct (inc_bounds d D) as [[S1 S2] [C1 C2]].
  destruct (inc_pows d D) as [P1 [P2 [P3 [P4 [P5 [P6 P7]]]]]].
  set (S := sinh d) in *. set (C := cosh d) in *. clearbody S C.
  assert (Pa : a <= 3.1 * p).
  { apply (Rmult_le_reg_l d); [lra|]. replace (d * (3.1 * p)) with (3.1 * (d * p)) by ring. rewrite Gd, Ad.
    assert (1 * (2.1 * d) <= ec * (3.1 * S - d * C)) by (apply Rmult_le_compat; lra).
    assert (0 <= es * (3.1 * (C - 1) - d * S)) by (apply Rmult_le_pos; lra). lra. }
  assert (Pb : p <= a).
  { apply (Rmult_le_reg_l d); [lra|]. rewrite Gd, Ad.
    assert (0 <= ec * (d * C - S)) by (apply Rmult_le_pos; lra). assert (0 <= es * (d * S - C + 1)) by (apply Rmult_le_pos; lra). lra. }
  assert (R : d * (e * sinh E) <= 3.08 * (a - p)).
  { apply (Rmult_le_reg_l d); [lra|]. replace (d * (3.08 * (a - p))) with (3.08 * (d * a - d * p)) by ring. rewrite Gd, Ad, Hd.
    assert (0 <= ec * (3.08 * (d * C - S) - d ^ 2 * S)) by (apply Rmult_le_pos; lra).
    assert (0 <= es * (3.08 * (d * S - C + 1) - d ^ 2 * C)) by (apply Rmult_le_pos; lra). lra. }
  assert (0 <= es * C) by (apply Rmult_le_pos; lra). assert (0 <= ec * S) by (apply Rmult_le_pos; lra).
  repeat split; auto; lra.
Qed.
(** better remainder when the root is not near E *)
Lemma poly_rem w x : 0 <= w <= 2 / 5 -> 0 <= x <= 1 -> x <= 0.36 + 1.6 * w ->
  (1 + 0.4 * w) * (1 + x / 6 + x ^ 2 / 110) <= 3.08 * ((2 + w) / 6 + x * (4 + 3 * w + 2 * w ^ 2 + w ^ 3) / 120).
Proof using.
  intros W X1 X2. assert (0 <= x * w) by nra. assert (0 <= x * w ^ 2) by (apply Rmult_le_pos; [lra|apply pow_le; lra]).
  assert (0 <= x * w ^ 3) by (apply Rmult_le_pos; [lra|apply pow_le; lra]).
  assert (x ^ 2 <= x * (0.36 + 1.6 * w)) by nra.
  assert ((1 + 0.4 * w) * x ^ 2 <= (1 + 0.4 * w) * (x * (0.36 + 1.6 * w))) by (apply Rmult_le_compat_l; lra).
  assert (x * w <= 0.4 * x) by nra. assert (x * w ^ 2 <= 0.4 * (x * w)) by nra. nra.
Qed.
Lemma ratio_x E : 0 < E -> y <= 2 / 5 * E -> E <= y + 3 / 5 -> let w := y / E in
  0 <= w <= 2 / 5 /\ E <= 1 /\ E ^ 2 <= 0.36 + 1.6 * w /\ y = w * E.
Proof using Hy.
  intros E0 E1 E2 w. assert (Y : y = w * E) by (unfold w; field; lra).
  assert (W : 0 <= w <= 2 / 5) by (unfold w; split; [apply le_div; lra|apply div_le; lra]).
  split; [auto|]. split; [lra|]. split; [|auto]. clearbody w. subst y.
  assert (Q : ((1 - w) * E) ^ 2 <= 0.36) by nra.
  assert (L : 1 <= (1 - w) ^ 2 * (1 + 40 / 9 * w)).
  { assert (0 <= w * ((2 / 5 - w) * (55 / 9 - 40 / 9 * w))) by (apply Rmult_le_pos; [lra|apply Rmult_le_pos; lra]). lra. }
  assert (E ^ 2 * 1 <= E ^ 2 * ((1 - w) ^ 2 * (1 + 40 / 9 * w))) by (apply Rmult_le_compat_l; [apply pow_le|]; lra).
  assert (((1 - w) * E) ^ 2 * (1 + 40 / 9 * w) <= 0.36 * (1 + 40 / 9 * w)) by (apply Rmult_le_compat_r; lra). lra.
Qed.
Lemma hright_rem E : 0 < E -> y < E -> y <= 2 / 5 * E -> E <= y + 3 / 5 ->
  let a := e * cosh E - 1 in let d := E - y in let p := gh e y E / d in
  (1 + 0.4 * (y / E)) * (d * (e * sinh E)) <= 3.08 * (a - p).
Proof using He Hy.
  intros E0 L E1 E2 a d p. destruct (ratio_x E E0 E1 E2) as [W [E3 [X Y]]]. set (w := y / E) in *.
  pose proof (hrem y E ltac:(lra)) as HR. pose proof (sh_u E ltac:(lra)) as SU.
  assert (D : 0 < d) by (unfold d; lra). assert (G : gh e y E = d * p) by (unfold p; field; lra).
  pose proof (poly_rem w (E ^ 2) W ltac:(split; [apply pow_le; lra|nra]) X) as PR.
  apply (Rmult_le_reg_l d); auto. replace (d * (3.08 * (a - p))) with (3.08 * (d * a - d * p)) by ring. rewrite <- G.
  replace (3.08 * (d * a - gh e y E)) with (3.08 * (e * ((E - y) * cosh E - (sinh E - sinh y)))) by (unfold gh, a, d; ring).
  replace (d * ((1 + 0.4 * w) * (d * (e * sinh E)))) with (e * ((1 + 0.4 * w) * (d ^ 2 * sinh E))) by ring.
  replace (3.08 * (e * ((E - y) * cosh E - (sinh E - sinh y)))) with (e * (3.08 * ((E - y) * cosh E - (sinh E - sinh y)))) by ring.
  apply Rmult_le_compat_l; [lra|]. apply Rle_trans with (3.08 * ((E - y) ^ 2 * ((2 * E + y) / 6 + (4 * E ^ 3 + 3 * E ^ 2 * y + 2 * E * y ^ 2 + y ^ 3) / 120))); [|lra].
  fold d. replace (3.08 * (d ^ 2 * ((2 * E + y) / 6 + (4 * E ^ 3 + 3 * E ^ 2 * y + 2 * E * y ^ 2 + y ^ 3) / 120)))
    with (d ^ 2 * E * (3.08 * ((2 + w) / 6 + E ^ 2 * (4 + 3 * w + 2 * w ^ 2 + w ^ 3) / 120))) by (rewrite Y; field).
  apply Rle_trans with (d ^ 2 * E * ((1 + 0.4 * w) * (1 + E ^ 2 / 6 + (E ^ 2) ^ 2 / 110))).
  2:{ apply Rmult_le_compat_l; auto. apply Rmult_le_pos; [apply pow_le; lra|lra]. }
  replace (d ^ 2 * E * ((1 + 0.4 * w) * (1 + E ^ 2 / 6 + (E ^ 2) ^ 2 / 110)))
    with ((1 + 0.4 * w) * (d ^ 2 * (E + E ^ 3 / 6 + E ^ 5 / 110))) by field.
  apply Rmult_le_compat_l; [lra|]. apply Rmult_le_compat_l; [apply pow_le; lra|auto].
Qed.
Lemma poly_over w x : 0 <= w <= 0.19 -> 0 <= x <= 0.55 ->
  let U := (2 + w) / 6 + x * (4 + 3 * w + 2 * w ^ 2 + w ^ 3) / 120 in
  let N := 1 + x / 6 + x ^ 2 / 110 in
  let B := (1 + w + w ^ 2) / 6 + x * (1 + w + w ^ 2 + w ^ 3 + w ^ 4) / 110 + / 16 in
  4 * N * B <= 3 * (1 - w) * U ^ 2 + 8 * U * B.
Proof using.
  intros W X U N B.
  assert (W2 : 0 <= w ^ 2 <= 0.19 * w) by (split; [apply pow_le; lra|nra]).
  assert (W3 : 0 <= w ^ 3 <= 0.19 * w ^ 2) by (split; [apply pow_le; lra|simpl; nra]).
  assert (W4 : 0 <= w ^ 4 <= 0.19 * w ^ 3) by (split; [apply pow_le; lra|replace (w ^ 4) with (w * w ^ 3) by ring; nra]).
  set (U1 := (2 + w) / 6 + x * (4 + 3 * w) / 120).
  assert (HU : U1 <= U). { unfold U1, U. assert (0 <= x * (2 * w ^ 2 + w ^ 3)) by (apply Rmult_le_pos; lra). lra. }
  assert (U0 : 0 <= U1). { unfold U1. assert (0 <= x * w) by nra. lra. }
  set (B1 := (1 + w + w ^ 2) / 6 + x * (1 + 1.25 * w) / 110 + / 16).
  assert (HB : B <= B1). { unfold B1, B. assert (x * (w ^ 2 + w ^ 3 + w ^ 4) <= x * (0.25 * w)) by (apply Rmult_le_compat_l; lra). lra. }
  assert (T : 4 * N - 8 * U1 = 4 / 3 * (1 - w) + x * (6 - 3 * w) / 15 + 2 / 55 * x ^ 2) by (unfold N, U1; field).
  assert (T0 : 0 <= 4 * N - 8 * U1). { rewrite T. assert (0 <= x * (6 - 3 * w)) by (apply Rmult_le_pos; lra). pose proof (pow2_ge_0 x). lra. }
  assert (M : (4 * N - 8 * U1) * B1 <= 3 * (1 - w) * U1 ^ 2).
  { rewrite T. unfold B1, U1.
    assert (0 <= x ^ 2 <= 0.55 * x) by (split; [apply pow2_ge_0|nra]).
    assert (0 <= x ^ 3 <= 0.55 * x ^ 2) by (split; [apply pow_le; lra|simpl; nra]).
    nra. }
  assert (B0 : 0 <= B). { unfold B. assert (0 <= x * (1 + w + w ^ 2 + w ^ 3 + w ^ 4)) by (apply Rmult_le_pos; lra). lra. }
  assert (4 * N * B <= 8 * U1 * B + (4 * N - 8 * U1) * B1).
  { assert ((4 * N - 8 * U1) * B <= (4 * N - 8 * U1) * B1) by (apply Rmult_le_compat_l; auto). lra. }
  assert (U1 * B <= U * B) by (apply Rmult_le_compat_r; auto).
  assert (U1 ^ 2 <= U ^ 2) by (apply pow_incr; lra).
  assert (3 * (1 - w) * U1 ^ 2 <= 3 * (1 - w) * U ^ 2) by (apply Rmult_le_compat_l; lra). lra.
Qed.
Lemma hover_k E : 0 < E -> y < E -> y <= 0.19 * E -> E <= y + 3 / 5 -> nexth e y E < y -> e * E ^ 2 <= 16 * k.
Proof using He Hy.
  intros E0 L E1 E2 O.
  destruct (hright_facts E ltac:(lra)) as [G [Pp [P3 [Pa [Hh HR]]]]].
  destruct (ratio_x E E0 ltac:(lra) E2) as [W [E3 [X Y]]].
  assert (W1 : y / E <= 0.19) by (apply div_le; lra).
  pose proof (hrem y E ltac:(lra)) as RM. pose proof (sh_u E ltac:(lra)) as SU. pose proof (sh_incr y E ltac:(lra) ltac:(lra)) as SI.
  set (a := e * cosh E - 1) in *. set (d := E - y) in *. set (p := gh e y E / d) in *. set (w := y / E) in *.
  assert (D : 0 < d) by (unfold d; lra). pose proof (ah_pos E) as A. fold a in A.
  assert (OS : d < step5 a (e * sinh E) (d * p)). { unfold nexth in O. rewrite G in O. fold a in O. unfold d at 1. lra. }
  pose proof (hr_over a (e * sinh E) p d A Hh D P3 Pa HR OS) as OV.
  destruct (Rle_lt_dec (e * E ^ 2) (16 * k)) as [|C]; auto. exfalso.
  assert (E20 : 0 < E ^ 2) by (apply pow_lt; lra).
  assert (EX : E ^ 2 <= 0.55). { assert ((1 - w) * E <= 0.6) by (rewrite Y in E2; lra). nra. }
  pose proof (poly_over w (E ^ 2) ltac:(lra) ltac:(lra)) as PO. cbv zeta in PO.
  set (U := (2 + w) / 6 + E ^ 2 * (4 + 3 * w + 2 * w ^ 2 + w ^ 3) / 120) in *.
  set (N := 1 + E ^ 2 / 6 + (E ^ 2) ^ 2 / 110) in *.
  set (B := (1 + w + w ^ 2) / 6 + E ^ 2 * (1 + w + w ^ 2 + w ^ 3 + w ^ 4) / 110 + / 16) in *.
  assert (DE : d = E * (1 - w)) by (unfold d; rewrite Y at 1; ring).
  (* the three quantities, divided by e *)
  assert (HA : e * (d * E * U) <= a - p).
  { apply (Rmult_le_reg_l d); auto. replace (d * (a - p)) with (d * a - d * p) by ring. rewrite <- G.
    replace (d * a - gh e y E) with (e * (d * cosh E - (sinh E - sinh y))) by (unfold gh, a, d; ring).
    replace (d * (e * (d * E * U))) with (e * (d ^ 2 * ((2 * E + y) / 6 + (4 * E ^ 3 + 3 * E ^ 2 * y + 2 * E * y ^ 2 + y ^ 3) / 120)))
      by (unfold U; rewrite Y; field). apply Rmult_le_compat_l; lra. }
  assert (HH : d * (e * sinh E) <= e * (d * E * N)).
  { replace (d * (e * sinh E)) with (e * (d * sinh E)) by ring.
    replace (e * (d * E * N)) with (e * (d * (E + E ^ 3 / 6 + E ^ 5 / 110))) by (unfold N; field).
    apply Rmult_le_compat_l; [lra|]. apply Rmult_le_compat_l; lra. }
  assert (HP : p < e * (E ^ 2 * B)).
  { apply (Rmult_lt_reg_l d); auto. rewrite <- G. unfold gh. fold d.
    apply Rle_lt_trans with (e * (d + (E ^ 3 - y ^ 3) / 6 + (E ^ 5 - y ^ 5) / 110) - d).
    { assert (e * (sinh E - sinh y) <= e * (d + (E ^ 3 - y ^ 3) / 6 + (E ^ 5 - y ^ 5) / 110)) by (apply Rmult_le_compat_l; lra). lra. }
    replace (e * (d + (E ^ 3 - y ^ 3) / 6 + (E ^ 5 - y ^ 5) / 110) - d) with (d * (k + e * (E ^ 2 * (B - / 16))))
      by (unfold B, k; rewrite DE, Y; field).
    apply Rmult_lt_compat_l; lra. }
  set (H := d * (e * sinh E)) in *. clearbody H. set (q := a - p) in *.
  assert (OV' : 3 * q ^ 2 + 8 * (p * q) < 4 * (p * H)).
  { replace (3 * q ^ 2 + 8 * (p * q)) with (q * (3 * a + 5 * p)) by (unfold q; ring). lra. }
  clear OV. clearbody q. set (u := e * (d * E * U)) in *. set (n := e * (d * E * N)) in *. set (B' := e * (E ^ 2 * B)) in *.
  assert (U0 : 0 <= U). { unfold U. assert (0 <= w ^ 2) by nra. assert (0 <= w ^ 3) by (apply pow_le; lra). assert (0 <= E ^ 2 * (4 + 3 * w + 2 * w ^ 2 + w ^ 3)) by (apply Rmult_le_pos; lra). lra. }
  assert (u0 : 0 <= u). { unfold u. apply Rmult_le_pos; [lra|]. apply Rmult_le_pos; [|auto]. apply Rmult_le_pos; lra. }
  assert (F1 : 3 * u ^ 2 + 8 * (p * u) < 4 * (p * n)).
  { assert (u ^ 2 <= q ^ 2) by (apply pow_incr; lra). assert (p * u <= p * q) by (apply Rmult_le_compat_l; lra).
    assert (p * H <= p * n) by (apply Rmult_le_compat_l; lra). lra. }
  assert (F2 : 0 < 4 * n - 8 * u) by nra.
  assert (F3 : 3 * u ^ 2 < B' * (4 * n - 8 * u)).
  { assert (p * (4 * n - 8 * u) < B' * (4 * n - 8 * u)) by (apply Rmult_lt_compat_r; lra). lra. }
  assert (F4 : B' * (4 * n - 8 * u) <= 3 * u ^ 2).
  { assert (Z : (e * E ^ 2) ^ 2 * (1 - w) * (4 * N * B) <= (e * E ^ 2) ^ 2 * (1 - w) * (3 * (1 - w) * U ^ 2 + 8 * U * B)).
    { apply Rmult_le_compat_l; [|auto]. apply Rmult_le_pos; [apply pow_le; nra|lra]. }
    unfold B', n, u. rewrite DE. lra. }
  lra.
Qed.
(** the step from the right of the root *)
Lemma hright_step E : y < E <= y + 3 / 5 ->
  (E - y) / 3.1 <= E - nexth e y E <= 3 / 2 * (E - y)
  /\ (y <= 0.19 * E -> E - nexth e y E <= (3 / 2) * E - 2.6 * y)
  /\ (0.19 * E <= y <= 0.4 * E -> E - nexth e y E <= (E - y) + 0.9 * y).
Proof using He Hy.
  intros HE. destruct (hright_facts E HE) as [G [Pp [P3 [Pa [Hh HR]]]]].
  pose proof (hright_rem E ltac:(lra) ltac:(lra)) as RM. unfold nexth. rewrite G.
  set (a := e * cosh E - 1) in *. set (d := E - y) in *. set (p := gh e y E / d) in *. set (h := e * sinh E) in *.
  assert (D : 0 < d) by (unfold d; lra). pose proof (ah_pos E) as A. fold a in A.
  assert (DH : 0 <= d * h) by (apply Rmult_le_pos; lra).
  pose proof (hr_lower a h p d A Hh D P3 Pa HR) as S1.
  pose proof (hr_upper a h p d A Hh D P3 Pa HR) as S2.
  replace (E - (E - step5 a h (d * p))) with (step5 a h (d * p)) by ring.
  set (s := step5 a h (d * p)) in *. clearbody s. split; [split; [auto|]|split].
  - pose proof (S2 1 (2 / 3) ltac:(lra) ltac:(lra) ltac:(lra) ltac:(lra)). lra.
  - intros W. destruct (ratio_x E ltac:(lra) ltac:(lra) ltac:(lra)) as [_ [_ [_ Y]]].
    specialize (RM ltac:(lra) ltac:(lra)).
    assert (W1 : 0 <= y / E <= 0.19) by (split; [apply le_div; lra|apply div_le; lra]). set (w := y / E) in *. clearbody w.
    pose proof (S2 (1 + 0.4 * w) (0.667 + 0.728 * w) ltac:(lra) ltac:(lra) RM) as S3.
    assert (Q : (61.6 - 10 * (0.667 + 0.728 * w) * (1 + 0.4 * w)) ^ 2 <= 60 * (1 + 0.4 * w) * (61.6 - 25 * (0.667 + 0.728 * w) ^ 2 * (1 + 0.4 * w))).
    { assert (0 <= w ^ 2 <= 0.19 * w) by (split; [apply pow2_ge_0|nra]). nra. }
    specialize (S3 Q). apply (Rmult_le_reg_l (0.667 + 0.728 * w)); [lra|]. eapply Rle_trans; [exact S3|].
    unfold d. rewrite Y. replace ((0.667 + 0.728 * w) * (3 / 2 * E - 2.6 * (w * E))) with (E * ((0.667 + 0.728 * w) * (3 / 2 - 2.6 * w))) by ring.
    replace (E - w * E) with (E * (1 - w)) by ring. apply Rmult_le_compat_l; [lra|]. nra.
  - intros [W W']. specialize (RM ltac:(lra) ltac:(lra)).
    assert (W1 : 0.19 <= y / E) by (apply le_div; lra). set (w := y / E) in *. clearbody w.
    assert (RM' : 1.076 * (d * h) <= 3.08 * (a - p)).
    { eapply Rle_trans; [|exact RM]. apply Rmult_le_compat_r; lra. }
    pose proof (S2 1.076 0.826 ltac:(lra) ltac:(lra) RM' ltac:(lra)). unfold d in *. lra.
Qed.

(** ** Good states *)
Definition LGh (E : R) : Prop := E < y /\ y - E <= 1 / 2 /\
  ((0 < E /\ y - E <= 9 * E) \/ exists B, 0 < B <= 3 / 4 /\ y <= 0.19 * B /\ - E <= B / 2 - 2.6 * y /\ e * B ^ 2 <= 16 * k).
Definition Sth (D E : R) : Prop := (y <= E <= y + 3 / 5 /\ E - y <= D) \/ (LGh E /\ 9 / 5 * (y - E) <= D).

Lemma hstep_right D E : y <= E <= y + 3 / 5 -> E - y <= D -> Sth (9 / 10 * D) (nexth e y E).
Proof using He Hy.
  intros [[L| <-] HE] HD.
  2:{ assert (N : nexth e y y = y).
      { unfold nexth, gh, step5. replace (e * (sinh y - sinh y) - (y - y)) with 0 by ring. unfold Rdiv. ring. }
      rewrite N. left. split; lra. }
  destruct (hright_step E ltac:(lra)) as [[S1 S2] [S3 S4]]. pose proof (hover_k E ltac:(lra) L) as OK.
  set (E' := nexth e y E) in *. clearbody E'. destruct (Rle_lt_dec y E') as [C|C].
  - left. split; lra.
  - right. split; [|lra]. split; [lra|]. split; [lra|].
    destruct (Rle_lt_dec y (0.19 * E)) as [W|W].
    + right. exists E. split; [split; lra|]. split; [auto|]. split; [specialize (S3 W); lra|]. apply OK; auto.
    + left. destruct (Rle_lt_dec y (0.4 * E)) as [W'|W']; [specialize (S4 ltac:(lra)); lra|lra].
Qed.

Lemma hleft_facts E : 0 <= E -> E < y -> y - E <= 1 / 2 ->
  let a := e * cosh E - 1 in let d := y - E in let p := - gh e y E / d in
  gh e y E = - (d * p) /\ a <= p /\ 0 <= e * sinh E /\ d * (e * sinh E) <= 3 * (p - a)
  /\ d * p = d * a + e * (sinh E * (cosh d - 1) + cosh E * (sinh d - d)).
Proof using He Hy.
  intros HE L L2 a d p. assert (D : 0 < d) by (unfold d; lra).
  assert (G : gh e y E = - (d * p)) by (unfold p; field; lra). split; auto.
  pose proof (sh0 E HE) as S0. pose proof (cosh_ge_1 E) as C0. assert (HS : 0 <= e * sinh E) by nra.
  assert (SY : sinh y = sinh E * cosh d + cosh E * sinh d) by (rewrite <- sinh_plus; f_equal; unfold d; ring).
  assert (I : d * p = d * a + e * (sinh E * (cosh d - 1) + cosh E * (sinh d - d))).
  { replace (d * p) with (- gh e y E) by lra. unfold gh. rewrite SY. unfold a. replace (E - y) with (- d) by (unfold d; ring). ring. }
  pose proof (ch2 d ltac:(lra)). pose proof (sh1 d ltac:(lra)).
  assert (Q1 : sinh E * (d ^ 2 / 2) <= sinh E * (cosh d - 1)) by (apply Rmult_le_compat_l; lra).
  assert (Q2 : 0 <= cosh E * (sinh d - d)) by (apply Rmult_le_pos; lra).
  assert (Q : d * (e * sinh E) <= 2 * (p - a)).
  { apply (Rmult_le_reg_l d); auto. replace (d * (2 * (p - a))) with (2 * (d * p - d * a)) by ring. rewrite I.
    replace (d * (d * (e * sinh E))) with (e * (2 * (sinh E * (d ^ 2 / 2)))) by field.
    replace (2 * (d * a + e * (sinh E * (cosh d - 1) + cosh E * (sinh d - d)) - d * a)) with (e * (2 * (sinh E * (cosh d - 1) + cosh E * (sinh d - d)))) by ring.
    apply Rmult_le_compat_l; lra. }
  assert (0 <= d * (e * sinh E)) by (apply Rmult_le_pos; lra).
  repeat split; auto; lra.
Qed.
(** the step from the left, E positive and not too small *)
Lemma hleft_far E : 0 < E -> E < y -> y - E <= 1 / 2 -> y - E <= 9 * E ->
  (y - E) / 2 <= nexth e y E - E <= 2 * (y - E).
Proof using He Hy.
  intros HE L L2 L9. destruct (hleft_facts E ltac:(lra) L L2) as [G [Pa [Hh [HR I]]]]. pose proof (ah_pos E) as A.
  unfold nexth. rewrite G. set (a := e * cosh E - 1) in *. set (d := y - E) in *. set (p := - gh e y E / d) in *.
  assert (D : 0 < d) by (unfold d; lra).
  pose proof (left_step_lower a (e * sinh E) p d A Hh D Pa HR).
  assert (U : p <= a + 3 * (d * (e * sinh E))).
  { apply (Rmult_le_reg_l d); auto. rewrite I.
    replace (d * (a + 3 * (d * (e * sinh E)))) with (d * a + e * (3 * (d ^ 2 * sinh E))) by ring.
    apply Rplus_le_compat_l, Rmult_le_compat_l; [lra|].
    pose proof (ch_u2 d ltac:(lra)). pose proof (sh_u d ltac:(lra)). pose proof (sh0 E ltac:(lra)) as S0. pose proof (cosh_ge_1 E) as C0.
    assert (D3 : 0 < d ^ 3) by (apply pow_lt; lra). assert (D2 : 0 < d ^ 2) by (apply pow_lt; lra).
    assert (D24 : d ^ 2 <= (1 / 2) ^ 2) by (apply pow_incr; lra).
    assert (d ^ 2 * d ^ 3 <= (1 / 2) ^ 2 * d ^ 3) by (apply Rmult_le_compat_r; lra).
    assert (T1 : sinh E * (cosh d - 1) <= sinh E * (0.8 * d ^ 2)) by (apply Rmult_le_compat_l; lra).
    assert (T2 : cosh E * (sinh d - d) <= cosh E * (0.17 * d ^ 3)) by (apply Rmult_le_compat_l; lra).
    assert (T3 : cosh E * d <= 9.5 * sinh E).
    { apply (Rmult_le_reg_l E); auto. pose proof (coth_le E ltac:(lra)) as CT.
      assert (d * (E * cosh E) <= d * ((1 + E) * sinh E)) by (apply Rmult_le_compat_l; lra).
      assert (DE : d * E <= 1 / 2 * E) by (apply Rmult_le_compat_r; lra).
      assert (d * (1 + E) * sinh E <= 9.5 * E * sinh E) by (apply Rmult_le_compat_r; lra). lra. }
    assert (T4 : d ^ 2 * (cosh E * d) <= d ^ 2 * (9.5 * sinh E)) by (apply Rmult_le_compat_l; lra).
    assert (0 <= d ^ 2 * sinh E) by (apply Rmult_le_pos; lra). lra. }
  pose proof (hl_upper2 a (e * sinh E) p d A Hh D Pa U). lra.
Qed.
(** the step from the left, eccentricity not close to 1 *)
Lemma hleft_pos E B : 0 <= E -> E < y -> 0 < B <= 3 / 4 -> y <= 0.19 * B -> e * B ^ 2 <= 16 * k ->
  (y - E) / 2 <= nexth e y E - E <= 2.6 * (y - E).
Proof using He Hy.
  intros HE L HB YB K. destruct (hleft_facts E ltac:(lra) L ltac:(lra)) as [G [Pa [Hh [HR I]]]]. pose proof (ah_pos E) as A.
  unfold nexth. rewrite G. set (a := e * cosh E - 1) in *. set (d := y - E) in *. set (p := - gh e y E / d) in *.
  assert (D : 0 < d) by (unfold d; lra).
  pose proof (left_step_lower a (e * sinh E) p d A Hh D Pa HR).
  assert (U : p <= 2.6 * a).
  { assert (PY : p <= e * cosh y - 1).
    { apply (Rmult_le_reg_l d); auto. replace (d * p) with (- gh e y E) by lra. unfold gh.
      assert (sinh y - sinh E <= (y - E) * cosh y).
      { assert (X : E * cosh y - sinh E <= y * cosh y - sinh y); [|lra].
        apply (mono (fun t => t * cosh y - sinh t) (fun t => cosh y - cosh t) E y); [lra| |]; intros t T; [hder|].
        pose proof (ch_mono t y ltac:(lra)). lra. }
      assert (e * (sinh y - sinh E) <= e * ((y - E) * cosh y)) by (apply Rmult_le_compat_l; lra). unfold d. lra. }
    pose proof (ch_u2 y ltac:(lra)) as CY. pose proof (cosh_ge_1 E).
    assert (k <= a) by (unfold a, k; nra).
    assert (Y2 : y ^ 2 <= 0.0361 * B ^ 2) by (assert (y ^ 2 <= (0.19 * B) ^ 2) by (apply pow_incr; lra); lra).
    assert (e * cosh y <= e * (1 + 0.8 * (0.0361 * B ^ 2))) by (apply Rmult_le_compat_l; lra).
    unfold k in *. nra. }
  pose proof (hl_upper26 a (e * sinh E) p d A Hh D Pa U). lra.
Qed.
Lemma poly_neg al be q : 0 <= al -> 0 <= be -> al + 2.6 * be <= 2 -> 1 <= q <= 1 + 1.01 / 6 * (al ^ 2 - al * be + be ^ 2) ->
  3.6983 * q ^ 2 + 20.5 * q * (al ^ 2 + al * be) <= 15 * (1 + al ^ 2 / 2) ^ 2 + 3.846 * q * (1 + al ^ 2 / 2).
Proof using.
  intros A B C [Q1 Q2].
  assert (AB : al * be <= al * ((2 - al) / 2.6)) by (apply Rmult_le_compat_l; lra).
  set (X := 0.6154 * al ^ 2 + 0.7693 * al).
  assert (HX : al ^ 2 + al * be <= X) by (unfold X; nra).
  assert (QX : q * (al ^ 2 + al * be) <= q * X) by (apply Rmult_le_compat_l; lra).
  apply Rle_trans with (3.6983 * q ^ 2 + 20.5 * (q * X)); [lra|].
  destruct (Rle_lt_dec al 0.5556) as [L|L].
  - assert (be ^ 2 <= 0.5918) by nra. assert (0 <= al * be) by nra.
    assert (S : 0 <= al ^ 2 <= 0.3087) by nra.
    assert (Q3 : q <= 1.152) by lra. assert (X0 : 0 <= X) by (unfold X; lra).
    assert (3.6983 * q ^ 2 - 3.846 * q * (1 + al ^ 2 / 2) <= 0.6 * q) by nra.
    assert (q * X <= 1.152 * X) by (apply Rmult_le_compat_r; lra).
    assert (1 + al ^ 2 <= (1 + al ^ 2 / 2) ^ 2) by nra. unfold X in *. lra.
  - assert (BA : be * be <= be * al) by (apply Rmult_le_compat_l; lra).
    set (Q := 1 + 1.01 / 6 * al ^ 2). assert (Q4 : q <= Q) by (unfold Q; lra). clear Q2.
    set (G := fun q => 15 * (1 + al ^ 2 / 2) ^ 2 + 3.846 * q * (1 + al ^ 2 / 2) - 3.6983 * q ^ 2 - 20.5 * (q * X)).
    assert (G1 : 0 <= G 1).
    { unfold G, X. assert (0 <= al ^ 4) by (apply pow_le; lra). nra. }
    assert (GQ : 0 <= G Q).
    { unfold G, X, Q. assert (0 <= (1.3584 * al ^ 2 - 0.977 * al - 1.2) ^ 2) by apply pow2_ge_0.
      assert (0 <= (al - 1.505) ^ 2) by apply pow2_ge_0. nra. }
    assert (0 <= G q); [|unfold G in *; lra].
    (* concave in q *)
    destruct (Req_dec Q 1) as [E|N].
    { assert (q = 1) by lra. subst q. exact G1. }
    assert (0 < Q - 1) by lra. assert (0 <= (q - 1) * (Q - q)) by (apply Rmult_le_pos; lra).
    assert (0 <= (Q - q) * G 1) by (apply Rmult_le_pos; lra). assert (0 <= (q - 1) * G Q) by (apply Rmult_le_pos; lra).
    assert (I : (Q - 1) * G q = (Q - q) * G 1 + (q - 1) * G Q + 3.6983 * ((Q - 1) * ((q - 1) * (Q - q)))) by (unfold G; ring).
    assert (0 <= (Q - 1) * ((q - 1) * (Q - q))) by (apply Rmult_le_pos; lra).
    apply (Rmult_le_reg_l (Q - 1)); lra.
Qed.
Lemma hleft_neg E B : E < 0 -> 0 < B <= 3 / 4 -> y <= 0.19 * B -> - E <= B / 2 - 2.6 * y -> e * B ^ 2 <= 16 * k ->
  (y - E) / 5 <= nexth e y E - E <= 2.6 * (y - E).
Proof using He Hy.
  intros HE HB YB ZB K. pose proof (ah_pos E) as A.
  set (z := - E) in *. assert (HZ : 0 < z) by (unfold z; lra).
  replace E with (- z) in * by (unfold z; ring). clearbody z. clear HE. rewrite cosh_opp in A.
  unfold nexth. rewrite cosh_opp, sinh_opp.
  set (a := e * cosh z - 1) in *. set (d := y - - z) in *. set (p := - gh e y (- z) / d) in *.
  assert (D0 : 0 < d) by (unfold d; lra).
  assert (G : gh e y (- z) = - (d * p)) by (unfold p; field; lra). rewrite G.
  replace (e * - sinh z) with (- (e * sinh z)) by ring.
  assert (Ku : 0 < k) by (unfold k; lra).
  assert (ZU : z <= 0.375) by lra. assert (YU : y <= 0.1425) by lra.
  assert (Z2 : 0 < z ^ 2) by (apply pow_lt; lra).
  assert (Al : k + e * (z ^ 2 / 2) <= a). { unfold a, k. pose proof (ch2 z ltac:(lra)). nra. }
  assert (Au : a <= k + 0.8 * (e * z ^ 2)). { unfold a, k. pose proof (ch_u2 z ltac:(lra)). nra. }
  assert (SB : forall t, 0 <= t <= 0.375 -> 0 <= sinh t - t <= 1.01 / 6 * t ^ 3).
  { intros t T. pose proof (sh1 t ltac:(lra)). pose proof (sh_u t ltac:(lra)).
    assert (t ^ 2 <= 0.375 ^ 2) by (apply pow_incr; lra). assert (0 <= t ^ 3) by (apply pow_le; lra).
    assert (t ^ 2 * t ^ 3 <= 0.375 ^ 2 * t ^ 3) by (apply Rmult_le_compat_r; lra). lra. }
  pose proof (SB z ltac:(lra)) as SZ. pose proof (SB y ltac:(lra)) as SY.
  assert (Gd : d * p = d * k + e * ((sinh y - y) + (sinh z - z))).
  { replace (d * p) with (- gh e y (- z)) by lra. unfold gh, d, k. rewrite sinh_opp. ring. }
  assert (Pl : k <= p). { apply (Rmult_le_reg_l d); auto. rewrite Gd. nra. }
  assert (Pu : p <= k + e * (1.01 / 6 * (z ^ 2 - z * y + y ^ 2))).
  { apply (Rmult_le_reg_l d); auto. rewrite Gd.
    assert (e * ((sinh y - y) + (sinh z - z)) <= e * (1.01 / 6 * (y ^ 3 + z ^ 3))) by (apply Rmult_le_compat_l; lra).
    unfold d in *. lra. }
  assert (HU : 0 <= sinh z <= 1.025 * z).
  { assert (z ^ 3 <= 0.140625 * z) by (replace (z ^ 3) with (z ^ 2 * z) by ring; apply Rmult_le_compat_r; [lra|nra]). lra. }
  (* scale *)
  set (r := sqrt (e / k)). assert (R0 : 0 < r) by (apply sqrt_lt_R0, Rdiv_lt_0_compat; lra).
  assert (R2 : r ^ 2 = e / k) by (apply pow2_sqrt, Rlt_le, Rdiv_lt_0_compat; lra).
  assert (ER : e = k * r ^ 2) by (rewrite R2; field; lra).
  assert (RB : r * B <= 4).
  { apply sq_le_lin; [lra|]. rewrite Rpow_mult_distr, R2. apply (Rmult_le_reg_l k); auto.
    replace (k * (e / k * B ^ 2)) with (e * B ^ 2) by (field; lra). lra. }
  assert (RS : r * (z + 2.6 * y) <= r * (B / 2)) by (apply Rmult_le_compat_l; lra).
  assert (PN : p = k * (p / k)) by (field; lra).
  pose proof (poly_neg (r * z) (r * y) (p / k) ltac:(apply Rmult_le_pos; lra) ltac:(apply Rmult_le_pos; lra) ltac:(lra)) as PG.
  assert (Q : 1 <= p / k <= 1 + 1.01 / 6 * ((r * z) ^ 2 - r * z * (r * y) + (r * y) ^ 2)).
  { split; [apply le_div; lra|]. apply div_le; auto.
    replace ((1 + 1.01 / 6 * ((r * z) ^ 2 - r * z * (r * y) + (r * y) ^ 2)) * k)
      with (k + (k * r ^ 2) * (1.01 / 6 * (z ^ 2 - z * y + y ^ 2))) by ring. rewrite <- ER. exact Pu. }
  specialize (PG Q). clear Q.
  apply (Rmult_le_compat_l (k ^ 2)) in PG; [|apply pow_le; lra].
  assert (PL : k ^ 2 * (3.6983 * (p / k) ^ 2 + 20.5 * (p / k) * ((r * z) ^ 2 + r * z * (r * y)))
     = 3.6983 * p ^ 2 + 20 * (d * p) * (e * (1.025 * z))).
  { rewrite ER. clear - PN. unfold d. set (P := p / k) in *. clearbody P. rewrite PN. lra. }
  assert (PR : k ^ 2 * (15 * (1 + (r * z) ^ 2 / 2) ^ 2 + 3.846 * (p / k) * (1 + (r * z) ^ 2 / 2))
     = 15 * (k + e * (z ^ 2 / 2)) ^ 2 + 3.846 * (p * (k + e * (z ^ 2 / 2)))).
  { rewrite ER. clear - PN. set (P := p / k) in *. clearbody P. rewrite PN. lra. }
  rewrite PL, PR in PG. clear PL PR PN.
  assert (EZ : e * z ^ 2 <= 4 * k).
  { assert (z ^ 2 <= (B / 2) ^ 2) by (apply pow_incr; lra). assert (e * z ^ 2 <= e * (B / 2) ^ 2) by (apply Rmult_le_compat_l; lra). lra. }
  assert (EZ0 : 0 < e * z ^ 2) by (apply Rmult_lt_0_compat; lra).
  assert (EY : e * y ^ 2 <= k).
  { assert (y ^ 2 <= (0.19 * B) ^ 2) by (apply pow_incr; lra). assert (e * y ^ 2 <= e * (0.19 * B) ^ 2) by (apply Rmult_le_compat_l; lra). lra. }
  assert (EYZ : 0 <= e * (z * y)) by (apply Rmult_le_pos; [lra|apply Rmult_le_pos; lra]).
  assert (HH : 0 <= e * sinh z) by (apply Rmult_le_pos; lra).
  replace (- z - step5 a (- (e * sinh z)) (- (d * p)) - - z) with (- step5 a (- (e * sinh z)) (- (d * p))) by ring.
  apply (hn_step a (e * sinh z) p d A HH D0 ltac:(lra)); [lra|lra|].
  assert (M1 : (d * p) * (e * sinh z) <= (d * p) * (e * (1.025 * z))).
  { apply Rmult_le_compat_l; [apply Rmult_le_pos; lra|]. apply Rmult_le_compat_l; lra. }
  assert (L0 : 0 <= k + e * (z ^ 2 / 2)) by lra.
  assert (M2 : (k + e * (z ^ 2 / 2)) ^ 2 <= a ^ 2) by (apply pow_incr; lra).
  assert (M3 : p * (k + e * (z ^ 2 / 2)) <= p * a) by (apply Rmult_le_compat_l; lra).
  assert (M4 : 0 <= p ^ 2) by apply pow2_ge_0. assert (M5 : 0 <= p * a) by (apply Rmult_le_pos; lra). lra.
Qed.
Lemma hstep_left D E : LGh E -> 9 / 5 * (y - E) <= D -> Sth (9 / 10 * D) (nexth e y E).
Proof using He Hy.
  intros [L [L2 C]] HD.
  assert (S : (y - E) / 5 <= nexth e y E - E <= 2.6 * (y - E) /\ nexth e y E <= y + 3 / 5).
  { destruct C as [[C1 C2]|[B [B1 [B2 [B3 B4]]]]].
    - pose proof (hleft_far E C1 L L2 C2). lra.
    - destruct (Rle_lt_dec 0 E) as [P|P].
      + pose proof (hleft_pos E B P L B1 B2 B4). lra.
      + pose proof (hleft_neg E B P B1 B2 B3 B4). lra. }
  destruct S as [[S1 S2] S3]. set (E' := nexth e y E) in *. clearbody E'.
  destruct (Rle_lt_dec y E') as [Q|Q]; [left; split; lra|].
  right. split; [|lra]. split; [lra|]. split; [lra|].
  destruct C as [C|[B [B1 [B2 [B3 B4]]]]]; [left; lra|right]. exists B. repeat split; auto; lra.
Qed.
Lemma hstep_St D E : Sth D E -> Sth (9 / 10 * D) (nexth e y E).
Proof using He Hy. intros [[H1 H2]|[H1 H2]]; [now apply hstep_right|now apply hstep_left]. Qed.
Lemma hiter_St D E n : Sth D E -> Sth ((9 / 10) ^ n * D) (Nat.iter n (nexth e y) E).
Proof using He Hy.
  intros H. induction n as [|n IH]; [simpl; now rewrite Rmult_1_l|].
  replace ((9 / 10) ^ S n * D) with (9 / 10 * ((9 / 10) ^ n * D)) by (simpl; ring). now apply hstep_St.
Qed.
Lemma gh_lip E : - (y + 3 / 5) <= E <= y + 3 / 5 -> Rabs (gh e y E) <= e * cosh (y + 3 / 5) * Rabs (E - y).
Proof using He Hy.
  intros HE. destruct (MVT_gen (gh e y) y E (fun t => e * cosh t - 1)) as [c [C1 C]].
  - intros x _. unfold gh. hder.
  - intros x _. apply continuity_pt_filterlim, (ex_derive_continuous (gh e y)). unfold gh, sinh. auto_derive. auto.
  - assert (G0 : gh e y y = 0) by (unfold gh; ring). rewrite G0, Rminus_0_r in C. rewrite C, Rabs_mult.
    apply Rmult_le_compat_r; [apply Rabs_pos|]. pose proof (cosh_ge_1 c).
    assert (CC : cosh c <= cosh (y + 3 / 5)).
    { destruct (Rle_lt_dec 0 c); [apply ch_mono|rewrite <- cosh_opp; apply ch_mono];
        split; try lra; revert C1; unfold Rmin, Rmax; destruct (Rle_dec y E); lra. }
    assert (e * cosh c <= e * cosh (y + 3 / 5)) by (apply Rmult_le_compat_l; lra). rewrite Rabs_pos_eq; nra.
Qed.
Lemma Sth_gh D E : Sth D E -> Rabs (gh e y E) <= e * cosh (y + 3 / 5) * D.
Proof using He Hy.
  intros H. assert (R : - (y + 3 / 5) <= E <= y + 3 / 5 /\ Rabs (E - y) <= D).
  { destruct H as [[H1 H2]|[[H1 [H3 H4]] H2]]; (split; [lra|apply Rabs_le; lra]). }
  destruct R as [R1 R2]. eapply Rle_trans; [now apply gh_lip|]. apply Rmult_le_compat_l; auto.
  pose proof (cosh_ge_1 (y + 3 / 5)). nra.
Qed.
End Kep.
