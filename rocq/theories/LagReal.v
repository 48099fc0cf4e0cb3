(** * Laguerre's iteration (degree 5) for the elliptic Kepler equation converges from the code's guess *)
From Coq Require Import Reals Lra Lia Psatz.
From Coquelicot Require Import Coquelicot.
From Verif Require Import LagTrig.
Local Open Scope R_scope.

(** ** One step, as a function of the residual g, its derivative a and its second derivative h *)
Definition root5 (a h g : R) : R := sqrt (Rabs (16 * a ^ 2 - 20 * g * h)).
Definition step5 (a h g : R) : R := 5 * g / (a + root5 a h g).
Lemma root5_ge0 a h g : 0 <= root5 a h g. Proof. apply sqrt_pos. Qed.
Lemma root5_sq a h g : 0 <= 16 * a ^ 2 - 20 * g * h -> root5 a h g ^ 2 = 16 * a ^ 2 - 20 * g * h.
Proof. intros H. unfold root5. rewrite Rabs_pos_eq by auto. now apply pow2_sqrt. Qed.
Lemma sq_le_lin x y : 0 <= y -> x ^ 2 <= y ^ 2 -> x <= y.
Proof. intros. nra. Qed.
Lemma div_le x y z : 0 < y -> x <= z * y -> x / y <= z.
Proof. intros Y H. apply (Rmult_le_reg_r y); auto. unfold Rdiv. rewrite Rmult_assoc, Rinv_l, Rmult_1_r; lra. Qed.
Lemma le_div x y z : 0 < y -> z * y <= x -> z <= x / y.
Proof. intros Y H. apply (Rmult_le_reg_r y); auto. unfold Rdiv. rewrite Rmult_assoc, Rinv_l, Rmult_1_r; lra. Qed.
Lemma lt_div_inv x y z : 0 < y -> z < x / y -> z * y < x.
Proof. intros Y H. apply (Rmult_lt_compat_r y) in H; auto. unfold Rdiv in H. rewrite Rmult_assoc, Rinv_l, Rmult_1_r in H; lra. Qed.

(** right of the root *)
Section RightAlg.
Variables a h p d : R.
Hypothesis Ha : 0 < a.
Hypothesis Hh : 0 <= h.
Hypothesis Hd : 0 < d.
Hypothesis H3 : a <= 3 * p.
Hypothesis Hpa : p <= a.
Hypothesis HR : d * h <= 3 * (a - p).
Let b := root5 a h (d * p).
Lemma right_disc : a ^ 2 <= 16 * a ^ 2 - 20 * (d * p) * h <= 16 * a ^ 2.
Proof using Ha Hh Hd H3 Hpa HR.
  assert (0 <= d * h) by nra. assert (p * (d * h) <= 3 * p * (a - p)) by nra.
  assert (0 <= p * (d * h)) by nra. assert (0 <= (a - 2 * p) ^ 2) by apply pow2_ge_0. nra.
Qed.
Lemma right_b : b ^ 2 = 16 * a ^ 2 - 20 * (d * p) * h /\ a <= b <= 4 * a.
Proof using Ha Hh Hd H3 Hpa HR.
  pose proof right_disc. assert (B : b ^ 2 = 16 * a ^ 2 - 20 * (d * p) * h) by (apply root5_sq; nra).
  pose proof (root5_ge0 a h (d * p)) as B0. fold b in B0. split; [auto|]. split; apply sq_le_lin; nra.
Qed.
Lemma right_step : d / 3 <= step5 a h (d * p) <= 4 / 3 * d.
Proof using Ha Hh Hd H3 Hpa HR.
  destruct right_b as [B [B1 B2]]. unfold step5. fold b. split.
  - apply le_div; [lra|]. nra.
  - apply div_le; [lra|]. assert (L : 15 / 4 * p - a <= b).
    { apply sq_le_lin; [lra|]. rewrite B.
      assert (p * (d * h) <= 3 * p * (a - p)) by nra.
      assert (0 <= (7 / 4 * p - a) ^ 2) by apply pow2_ge_0. nra. }
    nra.
Qed.
(** overshooting means little curvature defect *)
Lemma right_over : d < step5 a h (d * p) -> (a - p) * (3 * a + 5 * p) < 4 * p * (d * h).
Proof using Ha Hh Hd H3 Hpa HR.
  intros O. destruct right_b as [B [B1 B2]]. unfold step5 in O. fold b in O.
  apply lt_div_inv in O; [|lra]. assert (L : b < 5 * p - a) by nra. nra.
Qed.
End RightAlg.

(** left of the root, q = - g *)
Section LeftAlg.
Variables a h p d : R.
Hypothesis Ha : 0 < a.
Hypothesis Hh : 0 <= h.
Hypothesis Hd : 0 < d.
Hypothesis Hpa : a <= p.
Let b := root5 a h (- (d * p)).
Lemma left_b : b ^ 2 = 16 * a ^ 2 + 20 * p * (d * h) /\ 4 * a <= b.
Proof using Ha Hh Hd Hpa.
  assert (0 <= d * h) by nra. assert (0 <= p * (d * h)) by nra.
  assert (B : b ^ 2 = 16 * a ^ 2 + 20 * p * (d * h)).
  { unfold b. rewrite root5_sq; nra. }
  split; auto. apply sq_le_lin; [apply root5_ge0|]. nra.
Qed.
Lemma left_step_lower : d * h <= 3 * (p - a) -> d / 2 <= - step5 a h (- (d * p)).
Proof using Ha Hh Hd Hpa.
  intros HR. destruct left_b as [B B1]. unfold step5. fold b.
  replace (- (5 * - (d * p) / (a + b))) with (5 * (d * p) / (a + b)) by (field; lra).
  apply le_div; [lra|]. assert (L : b <= 8 * p).
  { apply sq_le_lin; [lra|]. rewrite B. assert (p * (d * h) <= 3 * p * (p - a)) by nra. nra. }
  nra.
Qed.
Lemma left_step_upper : p <= 3 * a \/ p <= a + 7 / 2 * (d * h) -> - step5 a h (- (d * p)) <= 3 * d.
Proof using Ha Hh Hd Hpa.
  intros HR. destruct left_b as [B B1]. unfold step5. fold b.
  replace (- (5 * - (d * p) / (a + b))) with (5 * (d * p) / (a + b)) by (field; lra).
  apply div_le; [lra|]. assert (L : 5 * p <= 3 * (a + b)); [|nra].
  destruct HR as [HR|HR]; [lra|]. apply sq_le_lin; [lra|].
  assert (0 <= d * h) by nra. set (c := d * h) in *. clearbody c.
  assert (25 * a ^ 2 + 20 * p * c <= (a + b) ^ 2) by nra.
  assert (p ^ 2 <= a ^ 2 + 7 * (p * c)) by nra. nra.
Qed.
End LeftAlg.

(** left of zero: negative second derivative *)
Section NegAlg.
Variables a h p d : R.
Hypothesis Ha : 0 < a.
Hypothesis Hh : 0 <= h.
Hypothesis Hd : 0 < d.
Hypothesis Hp : 0 <= p.
Hypothesis HD : 20 * (d * p) * h <= 15 * a ^ 2.
Let b := root5 a (- h) (- (d * p)).
Lemma neg_b : a <= b <= 4 * a.
Proof using Ha Hh Hd Hp HD.
  assert (0 <= (d * p) * h) by (apply Rmult_le_pos; nra).
  assert (B : b ^ 2 = 16 * a ^ 2 - 20 * (d * p) * h).
  { unfold b. rewrite root5_sq; nra. }
  pose proof (root5_ge0 a (- h) (- (d * p))) as B0. fold b in B0. split; apply sq_le_lin; nra.
Qed.
Lemma neg_step : a <= 2 * p -> p <= 6 / 5 * a ->
  d / 2 <= - step5 a (- h) (- (d * p)) <= 3 * d.
Proof using Ha Hh Hd Hp HD.
  intros P1 P2. pose proof neg_b as B. unfold step5. fold b.
  replace (- (5 * - (d * p) / (a + b))) with (5 * (d * p) / (a + b)) by (field; lra).
  split; [apply le_div; [lra|]|apply div_le; [lra|]]; nra.
Qed.
End NegAlg.

(** ** Kepler's equation with root y *)
Definition gk (e y E : R) : R := (E - y) - e * (sin E - sin y).
Definition nextk (e y E : R) : R := E - step5 (1 - e * cos E) (e * sin E) (gk e y E).

Lemma poly_wx w x : 0 <= w <= 3 / 10 -> 0 <= x <= 1.3225 ->
  8 / 17 * (1 - w) <= 3 * (2 + w) * (1 / 2 - x / 24)
    - (14 - 5 * w) * ((1 + w + w ^ 2) / 6 - x * (1 + w + w ^ 2 + w ^ 3 + w ^ 4) / 130).
Proof.
  intros W X.
  assert (A : (14 - 5 * w) * (1 + w) / 130 <= (14 - 5 * w) * (1 + w + w ^ 2 + w ^ 3 + w ^ 4) / 130).
  { assert (0 <= w ^ 2) by nra. assert (0 <= w ^ 3) by (apply pow_le; lra). assert (0 <= w ^ 4) by (apply pow_le; lra). nra. }
  assert (B : x * ((14 - 5 * w) * (1 + w) / 130) <= x * ((14 - 5 * w) * (1 + w + w ^ 2 + w ^ 3 + w ^ 4) / 130)) by nra.
  assert (L0 : 8 / 17 * (1 - w) <= 3 * (2 + w) * (1 / 2) - (14 - 5 * w) * ((1 + w + w ^ 2) / 6)) by nra.
  assert (L1 : 8 / 17 * (1 - w) <= 3 * (2 + w) * (1 / 2) - (14 - 5 * w) * ((1 + w + w ^ 2) / 6)
     + 1.3225 * ((14 - 5 * w) * (1 + w) / 130 - (2 + w) / 8)) by nra.
  set (u := (14 - 5 * w) * (1 + w) / 130 - (2 + w) / 8) in *.
  assert (U : 8 / 17 * (1 - w) <= 3 * (2 + w) * (1 / 2) - (14 - 5 * w) * ((1 + w + w ^ 2) / 6) + x * u).
  { destruct (Rle_dec 0 u); [nra|]. nra. }
  unfold u in U. nra.
Qed.
Lemma poly_yE y E : 0 <= y -> 0 < E -> 10 * y <= 3 * E -> E <= 23 / 20 ->
  8 / 17 * (E - y) * E ^ 2 <= 3 * (2 * E + y) * (E ^ 2 / 2 - E ^ 4 / 24)
    - (14 * E - 5 * y) * ((E ^ 2 + E * y + y ^ 2) / 6 - (E ^ 4 + E ^ 3 * y + E ^ 2 * y ^ 2 + E * y ^ 3 + y ^ 4) / 130).
Proof.
  intros Y HE W HE'. pose proof (poly_wx (y / E) (E ^ 2)) as P.
  assert (0 <= y / E <= 3 / 10).
  { split; [apply le_div; lra|apply div_le; lra]. }
  specialize (P H ltac:(nra)). apply (Rmult_le_compat_l (E ^ 3)) in P; [|apply pow_le; lra].
  replace (8 / 17 * (E - y) * E ^ 2) with (E ^ 3 * (8 / 17 * (1 - y / E))) by (field; lra).
  eapply Rle_trans; [exact P|]. right. field. lra.
Qed.

Section Kep.
Variables e y : R.
Hypothesis He : 0 <= e < 1.
Hypothesis Hy : 0 <= y <= PI.
Let k := 1 - e.
Lemma a_pos E : 0 < 1 - e * cos E.
Proof using He. pose proof (COS_bound E). nra. Qed.

Lemma right_facts E : y < E -> E <= PI ->
  let a := 1 - e * cos E in let d := E - y in let p := gk e y E / d in
  gk e y E = d * p /\ 0 < p /\ a <= 3 * p /\ p <= a /\ 0 <= e * sin E
  /\ d * (e * sin E) * (1 + y / (2 * E)) <= 3 * (a - p).
Proof using He Hy.
  intros L HE a d p. assert (D : 0 < d) by (unfold d; lra).
  assert (G : gk e y E = d * p) by (unfold p; field; lra). split; auto.
  pose proof (a_pos E) as A. fold a in A.
  assert (Pa : a <= 3 * p).
  { pose proof (chord_third y E ltac:(lra) HE) as C. apply (Rmult_le_reg_l d); auto.
    replace (d * (3 * p)) with (3 * gk e y E) by (rewrite G; ring). unfold gk, a, d.
    pose proof (COS_bound E). nra. }
  assert (S : 0 <= sin E) by (apply sin_ge_0; lra).
  assert (R : d * (e * sin E) * (1 + y / (2 * E)) <= 3 * (a - p)).
  { pose proof (rem_right y E ltac:(lra) ltac:(lra) HE) as C. apply (Rmult_le_reg_l d); auto.
    replace (d * (3 * (a - p))) with (e * (3 * (sin E - sin y - (E - y) * cos E))).
    2:{ replace (d * (3 * (a - p))) with (3 * (d * a - d * p)) by ring. rewrite <- G. unfold gk, a, d. ring. }
    replace (d * (d * (e * sin E) * (1 + y / (2 * E)))) with (e * ((E - y) ^ 2 * sin E * (1 + y / (2 * E)))) by (unfold d; ring).
    apply Rmult_le_compat_l; lra. }
  assert (0 <= y / (2 * E)) by (apply le_div; lra).
  assert (0 <= d * (e * sin E)) by (apply Rmult_le_pos; [lra|]; apply Rmult_le_pos; lra).
  repeat split; auto; try lra; nra.
Qed.
Lemma over_k E : y < E -> 10 * y <= 3 * E -> E <= 23 / 20 -> nextk e y E < y -> e * E ^ 2 <= 17 * k.
Proof using He Hy.
  intros L W HE O. pose proof PI2_3_2 as P32. unfold PI2 in P32.
  destruct (right_facts E L ltac:(lra)) as [G [Pp [P3 [Pa [Hh HR]]]]].
  set (a := 1 - e * cos E) in *. set (d := E - y) in *. set (p := gk e y E / d) in *. set (h := e * sin E) in *.
  assert (D : 0 < d) by (unfold d; lra). pose proof (a_pos E) as A. fold a in A.
  assert (K1 : 0 <= y / (2 * E)) by (apply le_div; lra).
  assert (DH : 0 <= d * h) by (apply Rmult_le_pos; lra).
  assert (HR1 : d * h <= 3 * (a - p)) by nra.
  pose proof (right_over a h p d A Hh D P3 Pa HR1) as OV.
  assert (OS : d < step5 a h (d * p)). { unfold nextk in O. rewrite G in O. fold a h in O. unfold d at 1. lra. }
  specialize (OV OS).
  assert (Z : (1 + y / (2 * E)) * (3 * a + 5 * p) < 12 * p).
  { set (kk := 1 + y / (2 * E)) in *. assert (1 <= kk) by (unfold kk; lra).
    assert (X : kk * ((a - p) * (3 * a + 5 * p)) < kk * (4 * p * (d * h))) by (apply Rmult_lt_compat_l; lra).
    assert (Y : kk * (4 * p * (d * h)) <= 12 * p * (a - p)) by nra.
    destruct (Rle_lt_dec (12 * p) (kk * (3 * a + 5 * p))) as [C|C]; auto. exfalso. nra. }
  assert (Z2 : 3 * (2 * E + y) * a < (14 * E - 5 * y) * p).
  { apply (Rmult_lt_compat_l (2 * E)) in Z; [|lra].
    replace (2 * E * ((1 + y / (2 * E)) * (3 * a + 5 * p))) with ((2 * E + y) * (3 * a + 5 * p)) in Z by (field; lra). nra. }
  assert (Aa : k + e * (E ^ 2 / 2 - E ^ 4 / 24) <= a).
  { unfold a, k. pose proof (cos_le E ltac:(lra)). nra. }
  assert (Ap : p <= k + e * ((E ^ 2 + E * y + y ^ 2) / 6 - (E ^ 4 + E ^ 3 * y + E ^ 2 * y ^ 2 + E * y ^ 3 + y ^ 4) / 130)).
  { apply (Rmult_le_reg_l d); auto. rewrite <- G. unfold gk, k, d.
    pose proof (sin_growth y E ltac:(lra) HE) as SG. nra. }
  pose proof (poly_yE y E ltac:(lra) ltac:(lra) W HE) as PY.
  set (al := E ^ 2 / 2 - E ^ 4 / 24) in *.
  set (be := (E ^ 2 + E * y + y ^ 2) / 6 - (E ^ 4 + E ^ 3 * y + E ^ 2 * y ^ 2 + E * y ^ 3 + y ^ 4) / 130) in *.
  assert (Z3 : 3 * (2 * E + y) * (k + e * al) < (14 * E - 5 * y) * (k + e * be)).
  { eapply Rle_lt_trans; [apply Rmult_le_compat_l; [|exact Aa]; lra|].
    eapply Rlt_le_trans; [exact Z2|]. apply Rmult_le_compat_l; lra. }
  assert (Z4 : e * (8 / 17 * (E - y) * E ^ 2) <= e * (3 * (2 * E + y) * al - (14 * E - 5 * y) * be)) by (apply Rmult_le_compat_l; lra).
  assert (Z5 : 8 * d * (e * E ^ 2) <= 8 * d * (17 * k)).
  { unfold d. nra. }
  apply (Rmult_le_reg_l (8 * d)); lra.
Qed.

(** ** Good states *)
Definition RG (E : R) : Prop := y <= E <= PI /\ (10 * y <= 3 * E -> E <= 23 / 20).
Definition LG (E : R) : Prop := E < y /\ exists B, B <= PI /\ y - E <= (B - y) / 3 /\
  ((0 < E /\ y - E <= 18 * E) \/ (10 * y <= 3 * B /\ B <= 23 / 20 /\ e * B ^ 2 <= 17 * k)).
Definition St (D E : R) : Prop := (RG E /\ E - y <= D) \/ (LG E /\ 5 / 2 * (y - E) <= D).

Lemma step_right D E : RG E -> E - y <= D -> St (5 / 6 * D) (nextk e y E).
Proof using He Hy.
  intros [[Y1 Y2] W] HD. destruct Y1 as [L| <-].
  2:{ assert (N : nextk e y y = y).
      { unfold nextk, gk, step5. replace (y - y - e * (sin y - sin y)) with 0 by ring. unfold Rdiv. ring. }
      rewrite N. left. split; [split; [lra|auto]|lra]. }
  destruct (right_facts E L ltac:(lra)) as [G [Pp [P3 [Pa [Hh HR]]]]].
  pose proof (over_k E L) as OK.
  pose proof (a_pos E) as A.
  set (a := 1 - e * cos E) in *. set (d := E - y) in *. set (p := gk e y E / d) in *. set (h := e * sin E) in *.
  assert (N : nextk e y E = E - step5 a h (d * p)) by (unfold nextk; rewrite G; reflexivity).
  rewrite N in *. clear N.
  assert (D0 : 0 < d) by (unfold d; lra).
  assert (K1 : 0 <= y / (2 * E)) by (apply le_div; lra).
  assert (DH : 0 <= d * h) by (apply Rmult_le_pos; lra).
  assert (HR1 : d * h <= 3 * (a - p)) by nra.
  pose proof (right_step a h p d A Hh D0 P3 Pa HR1) as [S1 S2].
  set (s := step5 a h (d * p)) in *. clearbody s. unfold d in *.
  destruct (Rle_lt_dec y (E - s)) as [C|C].
  - left. split; [|lra]. split; [lra|]. intros W'. assert (E <= 23 / 20) by (apply W; lra). lra.
  - right. split; [|lra]. split; [lra|]. exists E. split; [lra|]. split; [lra|].
    destruct (Rle_lt_dec (10 * y) (3 * E)) as [X|X].
    + right. specialize (W X). auto.
    + left. split; lra.
Qed.

Lemma left_facts E : 0 <= E -> E < y ->
  let a := 1 - e * cos E in let d := y - E in let p := - gk e y E / d in
  gk e y E = - (d * p) /\ a <= p /\ 0 <= e * sin E /\ d * (e * sin E) <= 3 * (p - a).
Proof using He Hy.
  intros HE L a d p. assert (D : 0 < d) by (unfold d; lra).
  assert (G : gk e y E = - (d * p)) by (unfold p; field; lra). split; auto.
  assert (S : 0 <= sin E) by (apply sin_ge_0; lra).
  assert (HS : 0 <= e * sin E) by (apply Rmult_le_pos; lra).
  assert (R : d * (e * sin E) <= 3 * (p - a)).
  { pose proof (rem_left E y ltac:(lra) ltac:(lra) ltac:(lra)) as C. apply (Rmult_le_reg_l d); auto.
    replace (d * (3 * (p - a))) with (e * (3 * ((y - E) * cos E - sin y + sin E))).
    2:{ replace (d * (3 * (p - a))) with (3 * (- - (d * p) - d * a)) by ring. rewrite <- G. unfold gk, a, d. ring. }
    replace (d * (d * (e * sin E))) with (e * ((y - E) ^ 2 * sin E)) by (unfold d; ring).
    apply Rmult_le_compat_l; lra. }
  assert (0 <= d * (e * sin E)) by (apply Rmult_le_pos; lra).
  repeat split; auto; lra.
Qed.
Lemma left_bounds E : LG E -> (y - E) / 2 <= nextk e y E - E <= 3 * (y - E).
Proof using He Hy.
  intros [L [B [B1 [B2 B3]]]]. pose proof (a_pos E) as A.
  destruct (Rle_lt_dec 0 E) as [HE|HE].
  - destruct (left_facts E HE L) as [G [Pa [Hh HR]]]. unfold nextk. rewrite G.
    set (a := 1 - e * cos E) in *. set (d := y - E) in *. set (p := - gk e y E / d) in *.
    assert (D0 : 0 < d) by (unfold d; lra).
    pose proof (left_step_lower a (e * sin E) p d A Hh D0 Pa HR).
    assert (U : p <= 3 * a \/ p <= a + 7 / 2 * (d * (e * sin E))).
    { destruct B3 as [[B3 B4]|[B3 [B4 B5]]].
      - right. pose proof (rem_upper E y ltac:(lra) ltac:(lra)) as C.
        apply (Rmult_le_reg_l d); auto.
        replace (d * p) with (- gk e y E) by lra.
        assert (X : - gk e y E - d * a <= e * (sin E * ((y - E) ^ 2 / 2 + (y - E) ^ 3 / (6 * E)))).
        { replace (- gk e y E - d * a) with (e * ((y - E) * cos E - sin y + sin E)) by (unfold gk, a, d; ring).
          apply Rmult_le_compat_l; lra. }
        assert (Y : (y - E) ^ 2 / 2 + (y - E) ^ 3 / (6 * E) <= 7 / 2 * d ^ 2).
        { replace ((y - E) ^ 2 / 2 + (y - E) ^ 3 / (6 * E)) with (d ^ 2 * (1 / 2 + d / (6 * E))) by (unfold d; field; lra).
          assert (d / (6 * E) <= 3) by (apply div_le; lra). nra. }
        assert (Z : e * (sin E * ((y - E) ^ 2 / 2 + (y - E) ^ 3 / (6 * E))) <= e * sin E * (7 / 2 * d ^ 2)).
        { rewrite <- Rmult_assoc. apply Rmult_le_compat_l; auto. }
        nra.
      - left. assert (PY : d * p <= d * (1 - e * cos y)).
        { replace (d * p) with (- gk e y E) by lra. pose proof (sin_concave E y ltac:(lra) ltac:(lra)) as [C _].
          unfold gk, d. nra. }
        apply Rmult_le_reg_l in PY; auto.
        pose proof (cos_ge y) as CY. assert (k <= a). { unfold a, k. pose proof (COS_bound E). nra. }
        assert (y ^ 2 <= 9 / 100 * B ^ 2) by nra.
        assert (e * y ^ 2 <= 4 * k). { unfold k in *. nra. }
        unfold k in *. nra. }
    pose proof (left_step_upper a (e * sin E) p d A Hh D0 Pa U). lra.
  - destruct B3 as [[B3 B4]|[B3 [B4 B5]]]; [lra|]. set (z := - E) in *. assert (HZ : 0 < z) by (unfold z; lra).
    replace E with (- z) in * by (unfold z; ring). clearbody z. clear HE. rewrite cos_neg in A.
    unfold nextk. rewrite cos_neg, sin_neg.
    set (a := 1 - e * cos z) in *. set (d := y - - z) in *. set (p := - gk e y (- z) / d) in *.
    assert (D0 : 0 < d) by (unfold d; lra).
    assert (G : gk e y (- z) = - (d * p)) by (unfold p; field; lra). rewrite G.
    replace (e * - sin z) with (- (e * sin z)) by ring.
    assert (B2' : y + z <= (B - y) / 3) by (unfold d in B2; lra).
    assert (BP : 0 < B) by lra. assert (Zb : z <= 2 / 5) by lra.
    assert (Ku : 0 < k) by (unfold k; lra).
    assert (Al : k + e * (49 / 100 * z ^ 2) <= a).
    { unfold a, k. pose proof (cos_le z ltac:(lra)). assert (z ^ 2 <= 4 / 25) by nra. pose proof (pow2_ge_0 z).
      assert (z ^ 4 <= 4 / 25 * z ^ 2) by (replace (z ^ 4) with (z ^ 2 * z ^ 2) by ring; apply Rmult_le_compat_r; [apply pow2_ge_0|auto]).
      assert (e * (49 / 100 * z ^ 2) <= e * (1 - cos z)) by (apply Rmult_le_compat_l; lra). lra. }
    assert (Au : a <= k + e * (z ^ 2 / 2)).
    { unfold a, k. pose proof (cos_ge z). nra. }
    assert (S0 : 0 <= sin z). { apply sin_ge_0; pose proof PI2_3_2 as P32; unfold PI2 in P32; lra. }
    assert (S1 : sin z <= z) by (apply sin_le; lra).
    assert (Gd : d * p = d * k + e * ((y - sin y) + (z - sin z))).
    { replace (d * p) with (- gk e y (- z)) by lra. unfold gk, d, k. rewrite sin_neg. ring. }
    pose proof (sin_ge z ltac:(lra)) as S2. pose proof (sin_ge y ltac:(lra)) as S3.
    pose proof (sin_le y ltac:(lra)) as S4.
    assert (Pl : k <= p). { apply (Rmult_le_reg_l d); auto. rewrite Gd. nra. }
    assert (Pu : p <= k + e * ((y ^ 2 - y * z + z ^ 2) / 6)).
    { apply (Rmult_le_reg_l d); auto. rewrite Gd. unfold d. nra. }
    assert (Yb : y <= B / 4) by lra.
    assert (Eb : forall u, 0 <= u -> e * (u * B ^ 2) <= 17 * k * u) by (intros u U; nra).
    assert (HD : 20 * (d * p) * (e * sin z) <= 15 * a ^ 2).
    { assert (Q1 : 0 <= d * p) by nra.
      apply Rle_trans with (20 * (d * (k + e * ((y ^ 2 - y * z + z ^ 2) / 6))) * (e * z)).
      { assert (d * p <= d * (k + e * ((y ^ 2 - y * z + z ^ 2) / 6))) by (apply Rmult_le_compat_l; lra).
        assert (0 <= e * sin z) by (apply Rmult_le_pos; lra). assert (e * sin z <= e * z) by (apply Rmult_le_compat_l; lra).
        apply Rmult_le_compat; nra. }
      apply Rle_trans with (15 * (k + e * (49 / 100 * z ^ 2)) ^ 2).
      2:{ assert (0 <= e * (49 / 100 * z ^ 2)) by (apply Rmult_le_pos; nra). nra. }
      set (v := y / B). set (w := z / B).
      assert (Vy : y = v * B) by (unfold v; field; lra). assert (Wz : z = w * B) by (unfold w; field; lra).
      assert (V0 : 0 <= v) by (apply le_div; lra). assert (W0 : 0 < w) by (apply Rdiv_lt_0_compat; lra).
      assert (VW : w <= (1 - 4 * v) / 3).
      { unfold v, w. apply div_le; [lra|]. replace ((1 - 4 * (y / B)) / 3 * B) with ((B - 4 * y) / 3) by (field; lra). unfold d in B2. lra. }
      clearbody v w. set (q := e * B ^ 2) in *. assert (Q0 : 0 <= q) by (apply Rmult_le_pos; nra).
      replace (20 * (d * (k + e * ((y ^ 2 - y * z + z ^ 2) / 6))) * (e * z))
        with (20 * k * q * w * (v + w) + 10 / 3 * q ^ 2 * w * (v ^ 3 + w ^ 3)) by (unfold d, q; rewrite Vy, Wz; field).
      replace (15 * (k + e * (49 / 100 * z ^ 2)) ^ 2)
        with (15 * k ^ 2 + 147 / 10 * k * q * w ^ 2 + 15 * (49 / 100) ^ 2 * q ^ 2 * w ^ 4) by (unfold q; rewrite Wz; field).
      assert (T1 : q ^ 2 <= 17 * k * q) by nra.
      assert (T2 : 0 <= w * v ^ 3) by (apply Rmult_le_pos; [lra|apply pow_le; lra]).
      assert (T3 : q ^ 2 * (w * v ^ 3) <= 17 * k * q * (w * v ^ 3)) by (apply Rmult_le_compat_r; lra).
      assert (T4 : 0 <= q ^ 2 * w ^ 4) by (apply Rmult_le_pos; apply pow_le; lra).
      assert (T5 : 0 <= 53 / 10 * w ^ 2 + 20 * w * v + 170 / 3 * (w * v ^ 3)) by nra.
      assert (T6 : 17 * (53 / 10 * w ^ 2 + 20 * w * v + 170 / 3 * (w * v ^ 3)) <= 15).
      { assert (v <= 1 / 4) by lra. assert (v ^ 3 <= v / 16) by nra. nra. }
      assert (T7 : k * q * (53 / 10 * w ^ 2 + 20 * w * v + 170 / 3 * (w * v ^ 3)) <= 15 * k ^ 2).
      { apply Rle_trans with (k * (17 * k) * (53 / 10 * w ^ 2 + 20 * w * v + 170 / 3 * (w * v ^ 3))); [|nra].
        apply Rmult_le_compat_r; auto. apply Rmult_le_compat_l; lra. }
      nra. }
    assert (Zq : e * z ^ 2 <= 17 / 9 * k).
    { apply Rle_trans with (e * (1 / 9 * B ^ 2)); [apply Rmult_le_compat_l; nra|]. specialize (Eb (1 / 9) ltac:(lra)). lra. }
    assert (Yq : e * y ^ 2 <= 17 / 16 * k).
    { apply Rle_trans with (e * (1 / 16 * B ^ 2)); [apply Rmult_le_compat_l; nra|]. specialize (Eb (1 / 16) ltac:(lra)). lra. }
    assert (Yz : 0 <= e * (y * z)) by (apply Rmult_le_pos; nra).
    assert (0 <= e * z ^ 2) by (apply Rmult_le_pos; nra).
    pose proof (neg_step a (e * sin z) p d A ltac:(apply Rmult_le_pos; lra) D0 ltac:(lra) HD ltac:(lra) ltac:(lra)). lra.
Qed.
Lemma step_left D E : LG E -> 5 / 2 * (y - E) <= D -> St (5 / 6 * D) (nextk e y E).
Proof using He Hy.
  intros H HD. pose proof (left_bounds E H) as [S1 S2]. destruct H as [L [B [B1 [B2 B3]]]].
  set (E' := nextk e y E) in *. clearbody E'.
  destruct (Rle_lt_dec y E') as [C|C].
  - left. split; [|lra]. split; [lra|]. intros W. destruct B3 as [B3|B3]; lra.
  - right. split; [|lra]. split; [lra|]. exists B. split; [lra|]. split; [lra|].
    destruct B3 as [B3|B3]; [left; lra|right; auto].
Qed.
Lemma step_St D E : St D E -> St (5 / 6 * D) (nextk e y E).
Proof using He Hy. intros [[H1 H2]|[H1 H2]]; [now apply step_right|now apply step_left]. Qed.
Lemma gk_lip E : Rabs (gk e y E) <= 2 * Rabs (E - y).
Proof using He.
  unfold gk. assert (X : Rabs (sin E - sin y) <= Rabs (E - y)).
  { destruct (MVT_gen sin y E cos) as [c [_ C]].
    - intros x _. auto_derive; auto. ring.
    - intros x _. apply continuity_sin.
    - rewrite C, Rabs_mult. pose proof (COS_bound c). assert (Rabs (cos c) <= 1) by (apply Rabs_le; lra).
      pose proof (Rabs_pos (E - y)). nra. }
  eapply Rle_trans; [apply Rabs_triang|]. rewrite Rabs_Ropp, Rabs_mult, (Rabs_pos_eq e) by lra.
  pose proof (Rabs_pos (sin E - sin y)). pose proof (Rabs_pos (E - y)). nra.
Qed.
Lemma St_gk D E : St D E -> Rabs (gk e y E) <= 2 * D.
Proof using He Hy.
  intros H. eapply Rle_trans; [apply gk_lip|]. assert (Rabs (E - y) <= D); [|lra].
  destruct H as [[[H1 _] H2]|[[H1 _] H2]]; [rewrite Rabs_pos_eq; lra|rewrite Rabs_left; lra].
Qed.
Lemma iter_St D E n : St D E -> St ((5 / 6) ^ n * D) (Nat.iter n (nextk e y) E).
Proof using He Hy.
  intros H. induction n as [|n IH]; [simpl; now rewrite Rmult_1_l|].
  replace ((5 / 6) ^ S n * D) with (5 / 6 * ((5 / 6) ^ n * D)) by (simpl; ring). now apply step_St.
Qed.

(** ** The starting phase left of the root *)
Definition LS (E : R) : Prop := 0 <= E <= y /\ y <= PI / 2 /\ - gk e y E <= e * sin E / 2.
Lemma gk_left_nonneg E : 0 <= E <= y -> 0 <= - gk e y E.
Proof using He Hy.
  intros L. pose proof (sin_concave E y L ltac:(lra)) as [_ C]. pose proof (COS_bound E).
  assert (X : sin y - sin E <= y - E) by nra. unfold gk.
  assert (e * (sin y - sin E) <= e * (y - E)) by (apply Rmult_le_compat_l; lra). nra.
Qed.
Lemma step_start E : LS E ->
  (RG (nextk e y E) /\ nextk e y E - y <= 4 / 5)
  \/ (LS (nextk e y E) /\ - gk e y (nextk e y E) <= 3 / 8 * - gk e y E).
Proof using He Hy.
  intros [L [P Q]]. pose proof (gk_left_nonneg E L) as Q0. pose proof (a_pos E) as A.
  pose proof PI2_3_2 as P32. unfold PI2 in P32.
  assert (S : 0 <= sin E) by (apply sin_ge_0; lra).
  assert (H0 : 0 <= e * sin E) by (apply Rmult_le_pos; lra).
  unfold nextk at 1 2 3 4. set (q := - gk e y E) in *. set (a := 1 - e * cos E) in *. set (h := e * sin E) in *.
  replace (gk e y E) with (- q) by (unfold q; ring).
  assert (QH : 0 <= q * h) by (apply Rmult_le_pos; lra).
  assert (B : root5 a h (- q) ^ 2 = 16 * a ^ 2 + 20 * q * h) .
  { rewrite root5_sq; [ring|]. pose proof (pow2_ge_0 a). lra. }
  assert (B0 : 4 * a <= root5 a h (- q)) by (apply sq_le_lin; [apply root5_ge0|rewrite B; lra]).
  assert (N : E - step5 a h (- q) = E + 5 * q / (a + root5 a h (- q))) by (unfold step5; field; lra).
  rewrite !N. set (b := root5 a h (- q)) in *. set (s := 5 * q / (a + b)).
  assert (S5 : s * (a + b) = 5 * q) by (unfold s; field; lra).
  assert (S0 : 0 <= s) by (apply le_div; lra).
  assert (S1 : s <= 4 / 5).
  { apply sq_le_lin; [lra|]. destruct (Rle_lt_dec q 0) as [Z|Z]; [assert (s = 0) by nra; nra|].
    assert (s ^ 2 * b ^ 2 <= 25 * q ^ 2).
    { replace (25 * q ^ 2) with (s ^ 2 * (a + b) ^ 2) by (replace (s ^ 2 * (a + b) ^ 2) with ((s * (a + b)) ^ 2) by ring; rewrite S5; ring).
      apply Rmult_le_compat_l; nra. }
    assert (20 * q * h <= b ^ 2) by nra. assert (s ^ 2 * (20 * q * h) <= 25 * q ^ 2) by nra.
    assert (s ^ 2 * (20 * h) <= 25 * q). { apply (Rmult_le_reg_l q); auto. nra. }
    assert (s ^ 2 * (20 * h) <= 25 * (h / 2)) by lra. assert (0 < h) by lra.
    assert (s ^ 2 * 20 <= 25 / 2); [|nra]. apply (Rmult_le_reg_r h); auto. nra. }
  destruct (Rle_lt_dec y (E + s)) as [C|C].
  - left. split; [|lra]. split; [lra|]. intros W. lra.
  - right. assert (T : - gk e y (E + s) <= q - a * s - h * s ^ 2 / 2).
    { pose proof (taylor_left E s ltac:(lra) S0 ltac:(lra)) as T. unfold q, gk, a, h. nra. }
    assert (M58 : 5 / 8 * q <= a * s + h * s ^ 2 / 2).
    { assert (X : 5 / 8 * q * (a + b) ^ 2 <= (a * s + h * s ^ 2 / 2) * (a + b) ^ 2).
      { replace ((a * s + h * s ^ 2 / 2) * (a + b) ^ 2) with (a * (s * (a + b)) * (a + b) + h * (s * (a + b)) ^ 2 / 2) by field.
        rewrite S5. replace (h * (5 * q) ^ 2 / 2) with (5 / 8 * q * (20 * q * h)) by field.
        replace (20 * q * h) with (b ^ 2 - 16 * a ^ 2) by lra.
        assert (0 <= q * (3 / 4 * a * b - 9 / 8 * a ^ 2)) by (apply Rmult_le_pos; nra). nra. }
      apply Rmult_le_reg_r in X; auto. apply pow_lt. lra. }
    split; [|lra]. split; [lra|]. split; [lra|].
    assert (sin E <= sin (E + s)) by (apply sin_incr_1; lra).
    assert (h <= e * sin (E + s)) by (unfold h; apply Rmult_le_compat_l; lra). lra.
Qed.
(** after n steps: either still in the starting phase with a small residual, or j steps into the main phase *)
Lemma iter_start E n : LS E ->
  (LS (Nat.iter n (nextk e y) E) /\ - gk e y (Nat.iter n (nextk e y) E) <= (3 / 8) ^ n * - gk e y E)
  \/ exists i j, (i + j + 1 = n)%nat /\ St ((5 / 6) ^ j) (Nat.iter n (nextk e y) E)
        /\ LS (Nat.iter i (nextk e y) E) /\ - gk e y (Nat.iter i (nextk e y) E) <= (3 / 8) ^ i * - gk e y E.
Proof using He Hy.
  intros H. induction n as [|n [[H1 H2]|[i [j [Hij [H1 H2]]]]]].
  - left. simpl. split; [auto|lra].
  - change (Nat.iter (S n) (nextk e y) E) with (nextk e y (Nat.iter n (nextk e y) E)).
    destruct (step_start _ H1) as [[A B]|[A B]].
    + right. exists n, 0%nat. split; [lia|]. split; [|auto]. left. simpl. split; auto. lra.
    + left. split; auto. simpl. lra.
  - right. exists i, (S j). split; [lia|]. split; auto.
    change (Nat.iter (S n) (nextk e y) E) with (nextk e y (Nat.iter n (nextk e y) E)). simpl. now apply step_St.
Qed.

(** ** The code's initial guess (kepler.py:1151-1186), M in [0, pi] *)
Variable M : R.
Hypothesis HM : M = y - e * sin y.
Lemma guess_small : M < / 4 ->
  LS (M + e * sin M / (1 - sin (M + e) + sin M)).
Proof using He Hy HM.
  intros HM4. pose proof PI2_3_2 as P32. unfold PI2 in P32.
  assert (M0 : 0 <= M). { subst M. pose proof (sin_le y ltac:(lra)). assert (0 <= sin y) by (apply sin_ge_0; lra). nra. }
  assert (Y2 : y <= PI / 2).
  { destruct (Rle_lt_dec y (PI / 2)) as [C|C]; auto. exfalso. pose proof (SIN_bound y). subst M. nra. }
  set (D := 1 - sin (M + e) + sin M).
  assert (S0 : 0 <= sin M) by (apply sin_ge_0; lra).
  assert (S1 : sin M <= sin (M + e)) by (apply sin_incr_1; lra).
  assert (D1 : sin (M + e) < 1 + sin M).
  { pose proof (sin_concave M (M + e) ltac:(lra) ltac:(lra)) as [_ C]. pose proof (COS_bound M). nra. }
  pose proof (SIN_bound (M + e)) as SB.
  assert (D0 : 0 < D <= 1) by (unfold D; lra).
  set (l := sin M / D). assert (L1 : l * D = sin M) by (unfold l; field; lra).
  assert (L0 : 0 <= l <= 1) by (unfold l; split; [apply le_div; lra|apply div_le; unfold D; lra]).
  replace (e * sin M / D) with (l * e) by (unfold l; field; lra).
  pose proof (sin_chord M e l M0 ltac:(lra) ltac:(lra) L0) as C.
  replace ((1 - l) * sin M + l * sin (M + e)) with l in C by (unfold D in L1; nra).
  set (E0 := M + l * e) in *.
  assert (E0b : 0 <= E0 <= 5 / 4) by (unfold E0; nra).
  assert (E0y : E0 <= y).
  { destruct (Rle_lt_dec E0 y) as [X|X]; auto. exfalso.
    pose proof (sin_concave y E0 ltac:(lra) ltac:(lra)) as [_ Z]. pose proof (COS_bound y).
    assert (sin E0 - sin y <= E0 - y) by nra.
    assert (E0 - y <= e * (sin E0 - sin y)) by (unfold E0 in *; subst M; nra). 
    assert (e * (sin E0 - sin y) <= e * (E0 - y)) by (apply Rmult_le_compat_l; lra). nra. }
  split; [lra|]. split; [lra|].
  replace (- gk e y E0) with (e * sin E0 - (E0 - M)) by (unfold gk; rewrite HM; ring).
  replace (E0 - M) with (l * e) by (unfold E0; ring).
  assert (U : sin E0 <= sin M + l * e).
  { pose proof (sin_concave M E0 ltac:(unfold E0; nra) ltac:(lra)) as [_ Z]. pose proof (COS_bound M).
    replace (E0 - M) with (l * e) in Z by (unfold E0; ring). assert (0 <= l * e) by nra. nra. }
  assert (sin M <= l) by (unfold D in *; nra). assert (sin E0 <= 2 * l) by nra. nra.
Qed.
Lemma guess_mid : / 4 <= M < 2 -> RG (M + e) /\ M + e - y <= 4.
Proof using He Hy HM.
  intros HM4. pose proof PI2_3_2 as P32. unfold PI2 in P32. pose proof (SIN_bound y) as SB.
  assert (Z : M + e = y + e * (1 - sin y)) by (subst M; ring).
  assert (Z0 : 0 <= e * (1 - sin y)) by (apply Rmult_le_pos; lra).
  split; [|subst M; pose proof (sin_ge_0 y); nra]. split; [lra|]. intros W.
  assert (S0 : 0 <= sin y) by (apply sin_ge_0; lra).
  assert (e * (1 - sin y) <= 1 - sin y) by nra.
  assert (y <= 43 / 100) by lra. pose proof (sin_ge y ltac:(lra)). assert (y ^ 3 <= 1 / 10) by nra. lra.
Qed.
Lemma guess_large : 2 <= M <= PI -> RG (M + e * (PI - M) / (1 + e)) /\ M + e * (PI - M) / (1 + e) - y <= 4.
Proof using He Hy HM.
  intros HM4. pose proof PI2_3_2 as P32. unfold PI2 in P32. pose proof (PI_4) as P4.
  assert (S0 : 0 <= sin y) by (apply sin_ge_0; lra).
  set (E0 := M + e * (PI - M) / (1 + e)).
  assert (E1 : PI - E0 = (PI - M) / (1 + e)) by (unfold E0; field; lra).
  assert (E2 : E0 - M = e * (PI - E0)) by (rewrite E1; unfold E0; field; lra).
  assert (E3 : 0 <= PI - E0) by (rewrite E1; apply le_div; lra).
  assert (My : M <= y) by (subst M; nra).
  assert (E0M : M <= E0) by nra.
  assert (Y : y <= E0).
  { destruct (Rle_lt_dec y E0) as [C|C]; auto. exfalso.
    pose proof (sin_le (PI - E0) E3) as S. rewrite sin_PI_x in S.
    pose proof (sin_concave E0 y ltac:(lra) ltac:(lra)) as [_ Z]. pose proof (COS_bound E0).
    assert (sin y - sin E0 <= y - E0) by nra.
    assert (e * sin E0 <= E0 - M) by (rewrite E2; apply Rmult_le_compat_l; lra).
    assert (y - E0 <= e * (sin y - sin E0)) by (subst M; nra).
    assert (e * (sin y - sin E0) <= e * (y - E0)) by (apply Rmult_le_compat_l; lra). nra. }
  split; [|lra]. split; [lra|]. intros W. lra.
Qed.
End Kep.
