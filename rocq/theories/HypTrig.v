(** * Hyperbolic inequalities used for the convergence of the Kepler solver *)
From Coq Require Import Reals Lra Lia Psatz.
From Coquelicot Require Import Coquelicot.
From Verif Require Import NP NPReal Spec RealBase AnomReal LagTrig.
Local Open Scope R_scope.

Lemma d_sinh x : is_derive sinh x (cosh x).
Proof. unfold sinh, cosh. auto_derive; auto. field. Qed.
Lemma d_cosh x : is_derive cosh x (sinh x).
Proof. unfold sinh, cosh. auto_derive; auto. field. Qed.
Ltac hder := intros; unfold sinh, cosh; auto_derive; [repeat split; auto; lra|try field; try ring; try lra].
Lemma sinh_00 : sinh 0 = 0. Proof. unfold sinh. rewrite Ropp_0. lra. Qed.
Lemma cosh_00 : cosh 0 = 1. Proof. unfold cosh. rewrite Ropp_0, exp_0. lra. Qed.
Lemma sinh_plus x y : sinh (x + y) = sinh x * cosh y + cosh x * sinh y.
Proof. unfold sinh, cosh. rewrite Ropp_plus_distr, !exp_plus. field. Qed.
Lemma cosh_plus x y : cosh (x + y) = cosh x * cosh y + sinh x * sinh y.
Proof. unfold sinh, cosh. rewrite Ropp_plus_distr, !exp_plus. field. Qed.

(** ** Polynomial bounds from below *)
Lemma sh1 x : 0 <= x -> x <= sinh x.
Proof.
  intros X. assert (A : sinh 0 - 0 <= sinh x - x); [|rewrite sinh_00 in A; lra].
  apply (mono (fun t => sinh t - t) (fun t => cosh t - 1) 0 x X); intros t T; [hder|]. pose proof (cosh_ge_1 t). lra.
Qed.
Lemma sh0 x : 0 <= x -> 0 <= sinh x. Proof. intros X. pose proof (sh1 x X). lra. Qed.
Lemma ch2 x : 0 <= x -> 1 + x ^ 2 / 2 <= cosh x.
Proof.
  intros X. assert (A : cosh 0 - 0 ^ 2 / 2 <= cosh x - x ^ 2 / 2); [|rewrite cosh_00 in A; lra].
  apply (mono (fun t => cosh t - t ^ 2 / 2) (fun t => sinh t - t) 0 x X); intros t T; [hder|]. pose proof (sh1 t). lra.
Qed.
Lemma sh3 x : 0 <= x -> x + x ^ 3 / 6 <= sinh x.
Proof.
  intros X. assert (A : sinh 0 - 0 - 0 ^ 3 / 6 <= sinh x - x - x ^ 3 / 6); [|rewrite sinh_00 in A; lra].
  apply (mono (fun t => sinh t - t - t ^ 3 / 6) (fun t => cosh t - 1 - t ^ 2 / 2) 0 x X); intros t T; [hder|]. pose proof (ch2 t). lra.
Qed.
Lemma ch4 x : 0 <= x -> 1 + x ^ 2 / 2 + x ^ 4 / 24 <= cosh x.
Proof.
  intros X. assert (A : cosh 0 - 0 ^ 2 / 2 - 0 ^ 4 / 24 <= cosh x - x ^ 2 / 2 - x ^ 4 / 24); [|rewrite cosh_00 in A; lra].
  apply (mono (fun t => cosh t - t ^ 2 / 2 - t ^ 4 / 24) (fun t => sinh t - t - t ^ 3 / 6) 0 x X); intros t T; [hder|]. pose proof (sh3 t). lra.
Qed.
(** ** and from above, on [0, 1] *)
Lemma exp1_27 : exp 1 <= 2.78.
Proof.
  assert (H : exp (1 / 2) <= 1.667).
  { assert (K : forall t, 0 <= t <= 1 / 2 -> exp t <= 1 + t + t ^ 2 / 2 + t ^ 3 / 3).
    { assert (B : forall t, 0 <= t <= 1 / 2 -> exp t <= 2).
      { intros t T. pose proof (exp_ineq1_le (- t)) as I. rewrite exp_Ropp in I.
        pose proof (exp_pos t) as P. apply (Rmult_le_compat_r (exp t)) in I; [|lra].
        rewrite Rinv_l in I by lra. nra. }
      assert (B1 : forall t, 0 <= t <= 1 / 2 -> exp t <= 1 + 2 * t).
      { intros t T. assert (A : 1 + 2 * 0 - exp 0 <= 1 + 2 * t - exp t); [|rewrite exp_0 in A; lra].
        apply (mono (fun t => 1 + 2 * t - exp t) (fun t => 2 - exp t) 0 t); [lra| |]; intros x X; [der|]. pose proof (B x). lra. }
      assert (B2 : forall t, 0 <= t <= 1 / 2 -> exp t <= 1 + t + t ^ 2).
      { intros t T. assert (A : 1 + 0 + 0 ^ 2 - exp 0 <= 1 + t + t ^ 2 - exp t); [|rewrite exp_0 in A; lra].
        apply (mono (fun t => 1 + t + t ^ 2 - exp t) (fun t => 1 + 2 * t - exp t) 0 t); [lra| |]; intros x X; [der|]. pose proof (B1 x). lra. }
      intros t T. assert (A : 1 + 0 + 0 ^ 2 / 2 + 0 ^ 3 / 3 - exp 0 <= 1 + t + t ^ 2 / 2 + t ^ 3 / 3 - exp t); [|rewrite exp_0 in A; lra].
      apply (mono (fun t => 1 + t + t ^ 2 / 2 + t ^ 3 / 3 - exp t) (fun t => 1 + t + t ^ 2 - exp t) 0 t); [lra| |]; intros x X; [der|]. pose proof (B2 x). lra. }
    pose proof (K (1 / 2) ltac:(lra)). lra. }
  replace 1 with (1 / 2 + 1 / 2) by lra. rewrite exp_plus. pose proof (exp_pos (1 / 2)). apply Rle_trans with (1.667 * 1.667); [apply Rmult_le_compat; lra|lra].
Qed.
Lemma ch_mono x y : 0 <= x <= y -> cosh x <= cosh y.
Proof. intros H. apply (mono cosh sinh x y); [lra| |]; intros t T; [apply d_cosh|]. apply sh0. lra. Qed.
Lemma sh_mono x y : x <= y -> sinh x <= sinh y.
Proof. intros H. apply (mono sinh cosh x y); [lra| |]; intros t T; [apply d_sinh|]. pose proof (cosh_ge_1 t). lra. Qed.
Lemma ch_1 x : 0 <= x <= 1 -> cosh x <= 1.6.
Proof.
  intros X. eapply Rle_trans; [apply (ch_mono x 1); lra|]. unfold cosh. rewrite exp_Ropp.
  pose proof exp1_27. assert (E2 : 2.5 <= exp 1). { pose proof (ch2 1 ltac:(lra)). pose proof (sh3 1 ltac:(lra)).
    assert (exp 1 = sinh 1 + cosh 1) by (unfold sinh, cosh; lra). lra. }
  assert (/ exp 1 <= / 2.5) by (apply Rinv_le_contravar; lra). lra.
Qed.
Lemma sh_u1 x : 0 <= x <= 1 -> sinh x <= 1.6 * x.
Proof.
  intros X. assert (A : 1.6 * 0 - sinh 0 <= 1.6 * x - sinh x); [|rewrite sinh_00 in A; lra].
  apply (mono (fun t => 1.6 * t - sinh t) (fun t => 1.6 - cosh t) 0 x); [lra| |]; intros t T; [hder|]. pose proof (ch_1 t). lra.
Qed.
Lemma ch_u2 x : 0 <= x <= 1 -> cosh x <= 1 + 0.8 * x ^ 2.
Proof.
  intros X. assert (A : 1 + 0.8 * 0 ^ 2 - cosh 0 <= 1 + 0.8 * x ^ 2 - cosh x); [|rewrite cosh_00 in A; lra].
  apply (mono (fun t => 1 + 0.8 * t ^ 2 - cosh t) (fun t => 1.6 * t - sinh t) 0 x); [lra| |]; intros t T; [hder|]. pose proof (sh_u1 t). lra.
Qed.
Lemma sh_u3 x : 0 <= x <= 1 -> sinh x <= x + 0.8 / 3 * x ^ 3.
Proof.
  intros X. assert (A : 0 + 0.8 / 3 * 0 ^ 3 - sinh 0 <= x + 0.8 / 3 * x ^ 3 - sinh x); [|rewrite sinh_00 in A; lra].
  apply (mono (fun t => t + 0.8 / 3 * t ^ 3 - sinh t) (fun t => 1 + 0.8 * t ^ 2 - cosh t) 0 x); [lra| |]; intros t T; [hder|]. pose proof (ch_u2 t). lra.
Qed.
Lemma ch_u4 x : 0 <= x <= 1 -> cosh x <= 1 + x ^ 2 / 2 + x ^ 4 / 15.
Proof.
  intros X. assert (A : 1 + 0 ^ 2 / 2 + 0 ^ 4 / 15 - cosh 0 <= 1 + x ^ 2 / 2 + x ^ 4 / 15 - cosh x); [|rewrite cosh_00 in A; lra].
  apply (mono (fun t => 1 + t ^ 2 / 2 + t ^ 4 / 15 - cosh t) (fun t => t + 4 / 15 * t ^ 3 - sinh t) 0 x); [lra| |]; intros t T; [hder|]. pose proof (sh_u3 t). lra.
Qed.
Lemma sh_u5 x : 0 <= x <= 1 -> sinh x <= x + x ^ 3 / 6 + x ^ 5 / 75.
Proof.
  intros X. assert (A : 0 + 0 ^ 3 / 6 + 0 ^ 5 / 75 - sinh 0 <= x + x ^ 3 / 6 + x ^ 5 / 75 - sinh x); [|rewrite sinh_00 in A; lra].
  apply (mono (fun t => t + t ^ 3 / 6 + t ^ 5 / 75 - sinh t) (fun t => 1 + t ^ 2 / 2 + t ^ 4 / 15 - cosh t) 0 x); [lra| |]; intros t T; [hder|]. pose proof (ch_u4 t). lra.
Qed.
Lemma ch_u6 x : 0 <= x <= 1 -> cosh x <= 1 + x ^ 2 / 2 + x ^ 4 / 24 + x ^ 6 / 450.
Proof.
  intros X. assert (A : 1 + 0 ^ 2 / 2 + 0 ^ 4 / 24 + 0 ^ 6 / 450 - cosh 0 <= 1 + x ^ 2 / 2 + x ^ 4 / 24 + x ^ 6 / 450 - cosh x); [|rewrite cosh_00 in A; lra].
  apply (mono (fun t => 1 + t ^ 2 / 2 + t ^ 4 / 24 + t ^ 6 / 450 - cosh t) (fun t => t + t ^ 3 / 6 + t ^ 5 / 75 - sinh t) 0 x); [lra| |]; intros t T; [hder|]. pose proof (sh_u5 t). lra.
Qed.
Lemma ch_u x : 0 <= x <= 1 -> cosh x <= 1 + x ^ 2 / 2 + x ^ 4 / 22.
Proof.
  intros X. pose proof (ch_u6 x X). assert (x ^ 2 <= 1) by nra. assert (0 <= x ^ 4) by (apply pow_le; lra).
  assert (x ^ 6 <= x ^ 4) by (replace (x ^ 6) with (x ^ 2 * x ^ 4) by ring; nra). lra.
Qed.
(** increments *)
Lemma sh_incr y E : 0 <= y <= E -> E <= 1 ->
  sinh E - sinh y <= (E - y) + (E ^ 3 - y ^ 3) / 6 + (E ^ 5 - y ^ 5) / 110.
Proof.
  intros H1 H2. assert (A : y + y ^ 3 / 6 + y ^ 5 / 110 - sinh y <= E + E ^ 3 / 6 + E ^ 5 / 110 - sinh E); [|lra].
  apply (mono (fun t => t + t ^ 3 / 6 + t ^ 5 / 110 - sinh t) (fun t => 1 + t ^ 2 / 2 + t ^ 4 / 22 - cosh t) y E); [lra| |]; intros t T; [hder|].
  pose proof (ch_u t ltac:(lra)). lra.
Qed.
Lemma sh_u x : 0 <= x <= 1 -> sinh x <= x + x ^ 3 / 6 + x ^ 5 / 110.
Proof. intros X. pose proof (sh_incr 0 x ltac:(lra) ltac:(lra)) as I. rewrite sinh_00 in I. lra. Qed.
(** the remainder of the tangent at E *)
Lemma hrem y E : 0 <= y <= E ->
  (E - y) ^ 2 * ((2 * E + y) / 6 + (4 * E ^ 3 + 3 * E ^ 2 * y + 2 * E * y ^ 2 + y ^ 3) / 120)
  <= (E - y) * cosh E - (sinh E - sinh y).
Proof.
  intros H.
  assert (A : 0 <= (E - y) * cosh E - (sinh E - sinh y)
     - (E - y) ^ 2 * ((2 * E + y) / 6 + (4 * E ^ 3 + 3 * E ^ 2 * y + 2 * E * y ^ 2 + y ^ 3) / 120)); [|lra].
  apply (taylor_r (fun y => (E - y) * cosh E - (sinh E - sinh y)
     - (E - y) ^ 2 * ((2 * E + y) / 6 + (4 * E ^ 3 + 3 * E ^ 2 * y + 2 * E * y ^ 2 + y ^ 3) / 120))
     (fun y => cosh y - cosh E + (E ^ 2 - y ^ 2) / 2 + (E ^ 4 - y ^ 4) / 24)
     (fun y => sinh y - (y + y ^ 3 / 6)) y E); [lra|hder|hder| | |].
  - intros t T. pose proof (sh3 t ltac:(lra)). lra.
  - ring.
  - field.
Qed.
Lemma coth_le x : 0 <= x -> x * cosh x <= (1 + x) * sinh x.
Proof.
  intros X. assert (E : cosh x - sinh x = exp (- x)) by (unfold cosh, sinh; lra).
  assert (exp (- x) <= 1). { rewrite <- exp_0. destruct X as [X| <-]; [left; apply exp_increasing; lra|rewrite Ropp_0; lra]. }
  pose proof (sh1 x X). pose proof (exp_pos (- x)). nra.
Qed.
