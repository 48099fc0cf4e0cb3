(** * One Laguerre step for small eccentricities: contraction, exactly and in floating point *)
From Coq Require Import Reals QArith Qreals ZArith Lra Lia Psatz Bool List.
From Coquelicot Require Import Coquelicot.
From Verif Require Import NP NPReal NPFloat KeplerModel Spec RealBase AnomReal PropsAnomaly LagReal FloatAcc PropsFloatAcc PropsFloatAnom.
Local Open Scope R_scope.

(** ** Exactly: the distance to the root at least halves *)
Definition ab (u x' x d : R) : Prop := Rabs (x' - x) <= d * u.
Lemma step_bounds e y E : 0 <= e <= / 4 -> Rabs (E - y) <= 3 / 5 ->
  let a := 1 - e * cos E in let h := e * sin E in let g := gk e y E in let b := root5 a h g in
  3 / 4 <= a <= 5 / 4 /\ Rabs h <= / 4 /\ Rabs g <= 5 / 4 * Rabs (E - y) /\ Rabs g <= 3 / 4 /\
  21 / 4 <= 16 * a ^ 2 - 20 * g * h <= 29 /\ b ^ 2 = 16 * a ^ 2 - 20 * g * h /\ 229 / 100 <= b <= 11 / 2.
Proof.
  intros He HD a h g b. pose proof (COS_bound E) as C. pose proof (SIN_bound E) as S.
  assert (Ha : 3 / 4 <= a <= 5 / 4) by (unfold a; split; nra).
  assert (Hh : Rabs h <= / 4) by (unfold h; apply Rabs_le; split; nra).
  assert (Hg : Rabs g <= 5 / 4 * Rabs (E - y)).
  { unfold g, gk. unfold Rminus at 1. eapply Rle_trans; [apply Rabs_triang|]. rewrite Rabs_Ropp, Rabs_mult, (Rabs_pos_eq e) by lra.
    pose proof (sin_lip E y). pose proof (Rabs_pos (sin E - sin y)). nra. }
  assert (Hg2 : Rabs g <= 3 / 4) by lra.
  assert (GH : Rabs (g * h) <= 3 / 16).
  { rewrite Rabs_mult. replace (3 / 16) with (3 / 4 * / 4) by lra. apply Rmult_le_compat; auto using Rabs_pos. }
  assert (GH2 := GH). apply Rabs_le_between in GH2.
  assert (Hq : 21 / 4 <= 16 * a ^ 2 - 20 * g * h <= 29) by (split; nra).
  assert (Hb : b ^ 2 = 16 * a ^ 2 - 20 * g * h) by (apply root5_sq; lra).
  assert (B0 : 0 <= b) by apply root5_ge0.
  repeat split; try lra; auto; nra.
Qed.
Lemma contract e y E : 0 <= e <= / 4 -> Rabs (E - y) <= 3 / 5 -> Rabs (nextk e y E - y) <= / 2 * Rabs (E - y).
Proof.
  intros He HD. pose proof (step_bounds e y E He HD) as B. cbv zeta in B. unfold nextk, step5.
  set (a := 1 - e * cos E) in *. set (h := e * sin E) in *. set (g := gk e y E) in *. set (b := root5 a h g) in *.
  destruct B as (Ha & Hh & Hg & Hg2 & Hq & Hb & Hb2). set (d := E - y) in *.
  assert (A : Rabs (a * d - g) <= e * Rabs d * Rabs d).
  { destruct (MVT_gen sin y E cos) as [c [Hc Ec]].
    - intros x _. apply is_derive_Reals. apply derivable_pt_lim_sin.
    - intros x _. apply derivable_continuous_pt. eexists. apply derivable_pt_lim_sin.
    - replace (a * d - g) with (e * ((cos c - cos E) * d)) by (unfold g, gk; rewrite Ec; unfold a, d; ring).
      rewrite !Rabs_mult, (Rabs_pos_eq e) by lra. pose proof (cos_lip c E) as L. assert (L2 : Rabs (c - E) <= Rabs d).
      { unfold Rmin, Rmax in Hc. unfold d. destruct (Rle_dec y E); [rewrite (Rabs_left1 (c - E)), Rabs_pos_eq; lra|rewrite (Rabs_pos_eq (c - E)), Rabs_left1; lra]. }
      rewrite Rmult_assoc. apply Rmult_le_compat_l; [lra|]. apply Rmult_le_compat_r; [apply Rabs_pos|lra]. }
  assert (A2 : Rabs (a * d - g) <= 3 / 20 * Rabs d).
  { eapply Rle_trans; [exact A|]. apply Rmult_le_compat_r; [apply Rabs_pos|]. pose proof (Rabs_pos d). nra. }
  assert (G : Rabs (b - 4 * a) <= 71 / 100).
  { assert (P : 529 / 100 <= b + 4 * a) by lra. apply (Rmult_le_reg_r (b + 4 * a)); [lra|].
    rewrite <- (Rabs_pos_eq (b + 4 * a)) at 1 by lra. rewrite <- Rabs_mult.
    replace ((b - 4 * a) * (b + 4 * a)) with (- (20 * (g * h))) by (replace ((b - 4 * a) * (b + 4 * a)) with (b ^ 2 - 16 * a ^ 2) by ring; rewrite Hb; ring).
    rewrite Rabs_Ropp, Rabs_mult, (Rabs_pos_eq 20) by lra.
    assert (Rabs (g * h) <= 3 / 4 * / 4) by (rewrite Rabs_mult; apply Rmult_le_compat; auto using Rabs_pos). lra. }
  replace (E - 5 * g / (a + b) - y) with ((5 * (a * d - g) + d * (b - 4 * a)) / (a + b)) by (unfold d; field; lra).
  unfold Rdiv. rewrite Rabs_mult, (Rabs_pos_eq (/ (a + b))) by (apply Rlt_le, Rinv_0_lt_compat; lra).
  apply div_le; [lra|].
  assert (T : Rabs (5 * (a * d - g) + d * (b - 4 * a)) <= 5 * (3 / 20 * Rabs d) + Rabs d * (71 / 100)).
  { eapply Rle_trans; [apply Rabs_triang|]. rewrite !Rabs_mult, (Rabs_pos_eq 5) by lra. apply Rplus_le_compat; [lra|].
    apply Rmult_le_compat_l; [apply Rabs_pos|auto]. }
  pose proof (Rabs_pos d). nra.
Qed.

(** ** In floating point *)
Section Step.
Context (rd : R -> R) (u : R) (L : libm) (Hr : rounding rd u) (HL : lib_acc rd u L) (Hu : u <= / 1000000).
#[local] Instance NPs : NP num := NP_rd rd L.
Local Notation ab := (ab u).
Local Lemma U0 : 0 <= u. Proof. apply Hr. Qed.
Lemma Hu4 : u <= / 10000. Proof. lra. Qed.
Lemma ab_0 x : ab x x 0. Proof. unfold FloatLag.ab. rewrite Rminus_diag_eq, Rabs_R0 by auto. lra. Qed.
Lemma ab_weak x' x d d' : ab x' x d -> d <= d' -> ab x' x d'.
Proof. unfold FloatLag.ab. intros A B. eapply Rle_trans; [exact A|]. apply Rmult_le_compat_r; [apply U0|auto]. Qed.
Lemma ab_opp x' x d : ab x' x d -> ab (- x') (- x) d.
Proof. unfold FloatLag.ab. replace (- x' - - x) with (- (x' - x)) by ring. now rewrite Rabs_Ropp. Qed.
Lemma ab_mag x' x d X : ab x' x d -> Rabs x <= X -> 0 <= d <= 2000 -> Rabs x' <= X + / 100.
Proof.
  unfold FloatLag.ab. intros A B D. pose proof U0. replace x' with (x + (x' - x)) by ring.
  eapply Rle_trans; [apply abs_add_le; eassumption|]. assert (d * u <= 2000 * / 1000000) by (apply Rmult_le_compat; lra). lra.
Qed.
Lemma ab_rd z x d X : ab z x d -> Rabs x <= X -> 0 <= d <= 2000 -> ab (rd z) x (d + X + / 100).
Proof.
  intros A B D. pose proof (ab_mag _ _ _ _ A B D) as M. unfold FloatLag.ab in *. 
  replace ((d + X + / 100) * u) with (d * u + u * (X + / 100)) by ring. exact (rd_within rd u Hr _ _ _ _ A M).
Qed.
Lemma ab_add x' x y' y d d' X : ab x' x d -> ab y' y d' -> Rabs (x + y) <= X -> 0 <= d -> 0 <= d' -> d + d' <= 2000 ->
  ab (rd (x' + y')) (x + y) (d + d' + X + / 100).
Proof.
  intros A B C D D' S. apply ab_rd; [|auto|lra]. unfold FloatLag.ab in *.
  replace (x' + y' - (x + y)) with ((x' - x) + (y' - y)) by ring. eapply Rle_trans; [apply abs_add_le; eassumption|lra].
Qed.
Lemma ab_sub x' x y' y d d' X : ab x' x d -> ab y' y d' -> Rabs (x - y) <= X -> 0 <= d -> 0 <= d' -> d + d' <= 2000 ->
  ab (rd (x' - y')) (x - y) (d + d' + X + / 100).
Proof. intros A B. unfold Rminus. intros. apply ab_add; auto. now apply ab_opp. Qed.
Lemma ab_mul x' x y' y d d' X Y D : ab x' x d -> ab y' y d' -> Rabs x <= X -> Rabs y <= Y -> 0 <= d <= 2000 -> 0 <= d' <= 2000 ->
  d * (Y + / 100) + X * d' + X * Y + / 100 <= D -> D <= 2000 -> ab (rd (x' * y')) (x * y) D.
Proof.
  intros A B HX HY Dd Dd' HD HD2. pose proof U0. pose proof (Rabs_pos x). pose proof (Rabs_pos y). pose proof (ab_mag _ _ _ _ B HY Dd') as My.
  assert (XY : Rabs (x * y) <= X * Y) by (rewrite Rabs_mult; apply Rmult_le_compat; auto).
  assert (P : ab (x' * y') (x * y) (d * (Y + / 100) + X * d')).
  { unfold FloatLag.ab in *. replace (x' * y' - x * y) with ((x' - x) * y' + x * (y' - y)) by ring.
    replace ((d * (Y + / 100) + X * d') * u) with ((d * u) * (Y + / 100) + X * (d' * u)) by ring.
    apply abs_add_le; rewrite Rabs_mult; apply Rmult_le_compat; auto using Rabs_pos. }
  eapply ab_weak; [|exact HD]. pose proof (ab_rd _ _ _ _ P XY) as Q.
  replace (d * (Y + / 100) + X * d' + X * Y + / 100) with ((d * (Y + / 100) + X * d') + X * Y + / 100) by ring. apply Q.
  assert (0 <= X * Y) by nra. assert (0 <= d * (Y + / 100)) by nra. assert (0 <= X * d') by nra. lra.
Qed.

(** one step: the rounded step is within (63 + |E|) u of the exact one *)
Lemma step_acc (o : solver_options num) M e y E : degree o = Fin 5 -> 0 <= e <= / 4 -> y - e * sin y = M -> Rabs (E - y) <= 3 / 5 ->
  exists f E', lag_f (Fin M) (Fin e) (Fin E) = Fin f /\ lag_step (Fin e) o (Fin E) (Fin f) = Fin E' /\
   Rabs f <= 5 / 4 * Rabs (E - y) + 5 * u /\ Rabs (E' - nextk e y E) <= (63 + Rabs E) * u.
Proof.
  intros Hn He HM HD. pose proof U0 as u0. pose proof (step_bounds e y E He HD) as B. cbv zeta in B. unfold nextk, step5.
  set (a := 1 - e * cos E) in *. set (h := e * sin E) in *. set (g := gk e y E) in *. set (b := root5 a h g) in *.
  destruct B as (Ha & Hh & Hg & Hg2 & Hq & Hb & Hb2).
  destruct (acc_f rd u L Hr HL Hu4 M e E ltac:(lra)) as (f & Hf & Af & _). 
  assert (G : M - (E - e * sin E) = - g) by (unfold g, gk; rewrite <- HM; ring). rewrite G, Rabs_Ropp in Af.
  assert (Ff : ab f (- g) 5).
  { unfold FloatLag.ab. eapply Rle_trans; [exact Af|]. rewrite Rmult_assoc. apply Rmult_le_compat_l; [lra|]. rewrite <- (Rmult_1_r u) at 2. apply Rmult_le_compat_l; lra. }
  exists f. 
  destruct (la_trig _ _ _ HL E) as [S C]. fold (FloatLag.ab u (rd (l_sin L E)) (sin E) 2) in S. fold (FloatLag.ab u (rd (l_cos L E)) (cos E) 2) in C.
  assert (Sb : Rabs (sin E) <= 1) by (apply Rabs_le, SIN_bound). assert (Cb : Rabs (cos E) <= 1) by (apply Rabs_le, COS_bound).
  assert (Eb : Rabs e <= / 4) by (rewrite Rabs_pos_eq; lra).
  pose proof (ab_mul _ _ _ _ _ _ _ _ 1 (ab_0 e) C Eb Cb ltac:(lra) ltac:(lra) ltac:(lra) ltac:(lra)) as V1.
  set (ec := rd (e * rd (l_cos L E))) in *.
  assert (Fp : ab (rd (ec - 1)) (- a) 3).
  { eapply ab_weak; [replace (- a) with (e * cos E - 1) by (unfold a; ring); apply (ab_sub _ _ _ _ _ 0 (5 / 4) V1 (ab_0 1)); try lra|lra].
    replace (e * cos E - 1) with (- a) by (unfold a; ring). rewrite Rabs_Ropp, Rabs_pos_eq; lra. }
  set (fp := rd (ec - 1)) in *.
  assert (Fs : ab (rd (- e * rd (l_sin L E))) (- h) 1).
  { replace (- h) with (- e * sin E) by (unfold h; ring). apply (ab_mul _ _ _ _ 0 2 (/ 4) 1 1 (ab_0 (- e)) S); try lra. now rewrite Rabs_Ropp. }
  set (es := rd (- e * rd (l_sin L E))) in *.
  assert (N1 : ab (rd (5 - 1)) 4 5).
  { eapply ab_weak; [apply (ab_rd _ _ 0 4); [replace (5 - 1) with 4 by lra; apply ab_0|rewrite Rabs_pos_eq; lra|lra]|lra]. }
  set (n1 := rd (5 - 1)) in *. assert (B4 : Rabs 4 <= 4) by (rewrite Rabs_pos_eq; lra). assert (B5 : Rabs 5 <= 5) by (rewrite Rabs_pos_eq; lra).
  pose proof (ab_mul _ _ _ _ _ _ _ _ 57 N1 N1 B4 B4 ltac:(lra) ltac:(lra) ltac:(lra) ltac:(lra)) as Sq1.
  set (sq1 := rd (n1 * n1)) in *.
  assert (Ba : Rabs (- a) <= 5 / 4) by (rewrite Rabs_Ropp, Rabs_pos_eq; lra). assert (Bg : Rabs (- g) <= 3 / 4) by now rewrite Rabs_Ropp.
  assert (Bh : Rabs (- h) <= / 4) by now rewrite Rabs_Ropp.
  pose proof (ab_mul _ _ _ _ _ _ _ _ 10 Fp Fp Ba Ba ltac:(lra) ltac:(lra) ltac:(lra) ltac:(lra)) as Sqf.
  set (sqf := rd (fp * fp)) in *.
  assert (Ba2 : Rabs (- a * - a) <= 25 / 16) by (rewrite Rabs_mult; replace (25 / 16) with (5 / 4 * (5 / 4)) by lra; apply Rmult_le_compat; auto using Rabs_pos).
  assert (B16 : Rabs (4 * 4) <= 16) by (rewrite Rabs_pos_eq; lra).
  pose proof (ab_mul _ _ _ _ _ _ _ _ 276 Sq1 Sqf B16 Ba2 ltac:(lra) ltac:(lra) ltac:(lra) ltac:(lra)) as Q1.
  set (q1 := rd (sq1 * sqf)) in *.
  pose proof (ab_mul _ _ _ _ _ _ _ _ 46 (ab_0 5) N1 B5 B4 ltac:(lra) ltac:(lra) ltac:(lra) ltac:(lra)) as N2.
  set (n2 := rd (5 * n1)) in *. assert (B20 : Rabs (5 * 4) <= 20) by (rewrite Rabs_pos_eq; lra).
  pose proof (ab_mul _ _ _ _ _ _ _ _ 152 N2 Ff B20 Bg ltac:(lra) ltac:(lra) ltac:(lra) ltac:(lra)) as N3.
  set (n3 := rd (n2 * f)) in *.
  assert (B3 : Rabs (5 * 4 * - g) <= 15) by (rewrite Rabs_mult; replace 15 with (20 * (3 / 4)) by lra; apply Rmult_le_compat; auto using Rabs_pos).
  pose proof (ab_mul _ _ _ _ _ _ _ _ 60 N3 Fs B3 Bh ltac:(lra) ltac:(lra) ltac:(lra) ltac:(lra)) as N4.
  set (n4 := rd (n3 * es)) in *.
  assert (Q' : ab (rd (q1 - n4)) (16 * a ^ 2 - 20 * g * h) 366).
  { replace (16 * a ^ 2 - 20 * g * h) with (4 * 4 * (- a * - a) - 5 * 4 * - g * - h) by ring.
    eapply ab_weak; [apply (ab_sub _ _ _ _ _ _ 29 Q1 N4); try lra|lra].
    replace (4 * 4 * (- a * - a) - 5 * 4 * - g * - h) with (16 * a ^ 2 - 20 * g * h) by ring. rewrite Rabs_pos_eq; lra. }
  set (q := rd (q1 - n4)) in *. set (Q := 16 * a ^ 2 - 20 * g * h) in *.
  assert (Qb : 5 <= q). { unfold FloatLag.ab in Q'. apply abs_in in Q'. lra. }
  assert (Sq : ab (sqrt q) b 90).
  { pose proof (sqrt_sqrt q ltac:(lra)) as Sm. pose proof (sqrt_pos q) as Sp. set (s := sqrt q) in *.
    assert (s2 : 22 / 10 <= s) by nra. unfold FloatLag.ab in *. apply (Rmult_le_reg_r (s + b)); [lra|].
    rewrite <- (Rabs_pos_eq (s + b)) at 1 by lra. rewrite <- Rabs_mult. replace ((s - b) * (s + b)) with (q - Q) by (rewrite <- Sm, <- Hb; ring).
    eapply Rle_trans; [exact Q'|]. replace (90 * u * (s + b)) with (u * (90 * (s + b))) by ring. rewrite (Rmult_comm 366). apply Rmult_le_compat_l; lra. }
  assert (Bb : ab (rd (sqrt q)) b 96).
  { eapply ab_weak; [apply (ab_rd _ _ _ (11 / 2) Sq); [rewrite Rabs_pos_eq; lra|lra]|lra]. }
  set (b' := rd (sqrt q)) in *.
  assert (Dm : ab (rd (fp - b')) (- (a + b)) 107).
  { replace (- (a + b)) with (- a - b) by ring. eapply ab_weak; [apply (ab_sub _ _ _ _ _ _ 7 Fp Bb); try lra|lra].
    replace (- a - b) with (- (a + b)) by ring. rewrite Rabs_Ropp, Rabs_pos_eq; lra. }
  assert (Dp : ab (rd (fp + b')) (- a + b) 107).
  { eapply ab_weak; [apply (ab_add _ _ _ _ _ _ 7 Fp Bb); try lra|lra]. apply Rabs_le. lra. }
  set (dm := rd (fp - b')) in *. set (dp := rd (fp + b')) in *.
  pose proof (abs_in _ _ Dm) as Dm2. pose proof (abs_in _ _ Dp) as Dp2.
  assert (W : 107 * u <= 107 * / 1000000) by lra.
  assert (Cmp : Rabs dp <= Rabs dm) by (rewrite (Rabs_left dm) by lra; apply Rabs_le; lra).
  pose proof (ab_mul _ _ _ _ _ _ _ _ 29 (ab_0 5) Ff B5 Bg ltac:(lra) ltac:(lra) ltac:(lra) ltac:(lra)) as N5.
  set (n5 := rd (5 * f)) in *.
  assert (Qt : ab (n5 / dm) (5 * g / (a + b)) 60).
  { unfold FloatLag.ab. assert (Hs : Rabs (5 * g / (a + b)) <= 5 / 4).
    { unfold Rdiv. rewrite !Rabs_mult, (Rabs_pos_eq 5), (Rabs_pos_eq (/ (a + b))) by (try lra; apply Rlt_le, Rinv_0_lt_compat; lra).
      apply div_le; [lra|]. lra. }
    set (s := 5 * g / (a + b)) in *.
    assert (Es : n5 / dm - s = ((n5 - 5 * - g) - s * (dm - - (a + b))) / dm) by (unfold s; field; lra).
    rewrite Es. unfold Rdiv. rewrite Rabs_mult. rewrite (Rabs_left (/ dm)) by (apply Rinv_lt_0_compat; lra). rewrite <- Rinv_opp by lra.
    apply div_le; [lra|]. assert (Rabs ((n5 - 5 * - g) - s * (dm - - (a + b))) <= 29 * u + 5 / 4 * (107 * u)).
    { unfold Rminus at 1. apply abs_add_le; [exact N5|]. rewrite Rabs_Ropp, Rabs_mult. apply Rmult_le_compat; auto using Rabs_pos. }
    eapply Rle_trans; [eassumption|]. assert (u * 3 <= u * - dm) by (apply Rmult_le_compat_l; lra). lra. }
  assert (Hs : Rabs (5 * g / (a + b)) <= 5 / 4).
  { unfold Rdiv. rewrite !Rabs_mult, (Rabs_pos_eq 5), (Rabs_pos_eq (/ (a + b))) by (try lra; apply Rlt_le, Rinv_0_lt_compat; lra).
    apply div_le; [lra|]. lra. }
  pose proof (ab_rd _ _ _ _ Qt Hs ltac:(lra)) as Dl. set (dl := rd (n5 / dm)) in *.
  exists (rd (E - dl)). split; [exact Hf|]. split; [|split].
  - unfold lag_step. rewrite Hn. unfold lag_fp, lag_fpp, sq. assert (B1 : lit 1 = Fin 1) by exact (b_1 rd u L Hr). rewrite B1.
    change (ltb (Fin 1) (Fin e)) with (Rltb 1 e). rewrite Rltb_false by lra.
    change (sub (Fin 5) (Fin 1)) with (Fin n1). change (sub (mul (Fin e) (ncos (Fin E))) (Fin 1)) with (Fin fp).
    change (mul (opp (Fin e)) (nsin (Fin E))) with (Fin es).
    change (sub (mul (mul (Fin n1) (Fin n1)) (mul (Fin fp) (Fin fp))) (mul (mul (mul (Fin 5) (Fin n1)) (Fin f)) (Fin es))) with (Fin q).
    change (nabs (Fin q)) with (Fin (Rabs q)). rewrite (Rabs_pos_eq q) by lra.
    assert (SQ : nsqrt (Fin q) = Fin b') by (apply (b_sqrt rd L); lra). rewrite SQ.
    change (add (Fin fp) (Fin b')) with (Fin dp). change (sub (Fin fp) (Fin b')) with (Fin dm).
    change (ltb (nabs (Fin dm)) (nabs (Fin dp))) with (Rltb (Rabs dm) (Rabs dp)). rewrite Rltb_false by lra.
    change (mul (Fin 5) (Fin f)) with (Fin n5). assert (DV : div (Fin n5) (Fin dm) = Fin dl) by (apply (b_div rd L); lra). rewrite DV. reflexivity.
  - replace f with (- g + (f - - g)) by ring. apply abs_add_le; [rewrite Rabs_Ropp; exact Hg|exact Ff].
  - unfold FloatLag.ab in Dl. assert (Z : Rabs (E - dl - (E - 5 * g / (a + b))) <= (60 + 5 / 4 + / 100) * u).
    { replace (E - dl - (E - 5 * g / (a + b))) with (- (dl - 5 * g / (a + b))) by ring. now rewrite Rabs_Ropp. }
    assert (Z2 : Rabs (E - dl) <= Rabs E + (5 / 4 + (60 + 5 / 4 + / 100) * u)).
    { unfold Rminus. apply abs_add_le; [lra|]. rewrite Rabs_Ropp. replace dl with (5 * g / (a + b) + (dl - 5 * g / (a + b))) by ring. now apply abs_add_le. }
    eapply Rle_trans; [apply (rd_within rd u Hr _ _ _ _ Z Z2)|].
    assert (u * u <= u * / 1000000) by (apply Rmult_le_compat_l; lra). lra.
Qed.
End Step.
