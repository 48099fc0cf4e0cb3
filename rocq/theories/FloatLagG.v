(** * One Laguerre step in floating point for any elliptic orbit *)
From Coq Require Import Reals QArith Qreals ZArith Lra Lia Psatz Bool List.
From Coquelicot Require Import Coquelicot.
From Verif Require Import NP NPReal NPFloat KeplerModel Spec RealBase AnomReal PropsAnomaly LagReal LagRobust PropsConverge FloatAcc PropsFloatAcc PropsFloatAnom FloatLag.
Local Open Scope R_scope.

Section StepG.
Context (rd : R -> R) (u : R) (L : libm) (Hr : rounding rd u) (HL : lib_acc rd u L) (Hu : u <= / 80000000).
#[local] Instance NPG : NP num := NP_rd rd L.
Local Notation ab := (ab u).
Local Lemma U0 : 0 <= u. Proof. apply Hr. Qed.
Local Lemma U4 : u <= / 10000. Proof. lra. Qed.
Local Lemma W0 x : ab x x 0. Proof. apply ab_0. Qed.
Local Lemma Ww x' x d d' : ab x' x d -> d <= d' -> ab x' x d'. Proof. exact (ab_weak rd u Hr x' x d d'). Qed.
Local Lemma Wo x' x d : ab x' x d -> ab (- x') (- x) d. Proof. exact (ab_opp u x' x d). Qed.
(** the calculus of [FloatLag] with larger constants *)
Lemma gb_mag x' x d X : ab x' x d -> Rabs x <= X -> 0 <= d <= 100000 -> Rabs x' <= X + / 100.
Proof.
  unfold FloatLag.ab. intros A B D. pose proof U0. replace x' with (x + (x' - x)) by ring.
  eapply Rle_trans; [apply abs_add_le; eassumption|]. assert (d * u <= 100000 * / 80000000) by (apply Rmult_le_compat; lra). lra.
Qed.
Lemma gb_rd z x d X : ab z x d -> Rabs x <= X -> 0 <= d <= 100000 -> ab (rd z) x (d + X + / 100).
Proof.
  intros A B D. pose proof (gb_mag _ _ _ _ A B D) as M. unfold FloatLag.ab in *. 
  replace ((d + X + / 100) * u) with (d * u + u * (X + / 100)) by ring. exact (rd_within rd u Hr _ _ _ _ A M).
Qed.
Lemma gb_add x' x y' y d d' X : ab x' x d -> ab y' y d' -> Rabs (x + y) <= X -> 0 <= d -> 0 <= d' -> d + d' <= 100000 ->
  ab (rd (x' + y')) (x + y) (d + d' + X + / 100).
Proof.
  intros A B C D D' S. apply gb_rd; [|auto|lra]. unfold FloatLag.ab in *.
  replace (x' + y' - (x + y)) with ((x' - x) + (y' - y)) by ring. eapply Rle_trans; [apply abs_add_le; eassumption|lra].
Qed.
Lemma gb_sub x' x y' y d d' X : ab x' x d -> ab y' y d' -> Rabs (x - y) <= X -> 0 <= d -> 0 <= d' -> d + d' <= 100000 ->
  ab (rd (x' - y')) (x - y) (d + d' + X + / 100).
Proof. intros A B. unfold Rminus. intros. apply gb_add; auto. now apply Wo. Qed.
Lemma gb_mul x' x y' y d d' X Y D : ab x' x d -> ab y' y d' -> Rabs x <= X -> Rabs y <= Y -> 0 <= d <= 100000 -> 0 <= d' <= 100000 ->
  d * (Y + / 100) + X * d' + X * Y + / 100 <= D -> D <= 100000 -> ab (rd (x' * y')) (x * y) D.
Proof.
  intros A B HX HY Dd Dd' HD HD2. pose proof U0. pose proof (Rabs_pos x). pose proof (Rabs_pos y). pose proof (gb_mag _ _ _ _ B HY Dd') as My.
  assert (XY : Rabs (x * y) <= X * Y) by (rewrite Rabs_mult; apply Rmult_le_compat; auto).
  assert (P : ab (x' * y') (x * y) (d * (Y + / 100) + X * d')).
  { unfold FloatLag.ab in *. replace (x' * y' - x * y) with ((x' - x) * y' + x * (y' - y)) by ring.
    replace ((d * (Y + / 100) + X * d') * u) with ((d * u) * (Y + / 100) + X * (d' * u)) by ring.
    apply abs_add_le; rewrite Rabs_mult; apply Rmult_le_compat; auto using Rabs_pos. }
  eapply Ww; [|exact HD]. pose proof (gb_rd _ _ _ _ P XY) as Q.
  replace (d * (Y + / 100) + X * d' + X * Y + / 100) with ((d * (Y + / 100) + X * d') + X * Y + / 100) by ring. apply Q.
  assert (0 <= X * Y) by nra. assert (0 <= d * (Y + / 100)) by nra. assert (0 <= X * d') by nra. lra.
Qed.

(** [Mr] is a reference mean anomaly close to the given one; [G] bounds the residual *)
Lemma stepG (o : solver_options num) M Mr e E G : degree o = Fin 5 -> 0 <= e < 1 -> 80000000 * u <= (1 - e) ^ 4 -> Rabs (M - Mr) <= 50 * u ->
  let a := 1 - e * cos E in let h := e * sin E in let g := E - e * sin E - Mr in let b := root5 a h g in let s := step5 a h g in
  a ^ 2 <= 16 * a ^ 2 - 20 * g * h -> Rabs g <= G -> G <= 7 -> Rabs E <= 8 -> Rabs s <= 22 / 5 ->
  exists f E', lag_f (Fin M) (Fin e) (Fin E) = Fin f /\ lag_step (Fin e) o (Fin E) (Fin f) = Fin (rd E') /\
   Rabs (f - - g) <= (5 * G + 56) * u /\
   Rabs (rd E' - stepM e Mr E) <= u * ((30 * G + 281 + Rabs s * (4052 / b + 42)) * (101 / 100) / (a + b) + 2 * Rabs s + Rabs E + / 10).
Proof.
  intros Hn He Hk HMr a h g b s Hq Hg HG HE Hs. pose proof U0 as u0. unfold stepM. fold a h g s.
  pose proof (COS_bound E) as CB. pose proof (SIN_bound E) as SB. set (k := 1 - e) in *.
  assert (K0 : 0 < k <= 1) by (unfold k; lra).
  assert (Ha : k <= a <= 2) by (unfold a, k; nra).
  assert (Hh : Rabs h <= 1) by (unfold h; apply Rabs_le; nra).
  assert (G0 : 0 <= G) by (pose proof (Rabs_pos g); lra).
  assert (Hb : b ^ 2 = 16 * a ^ 2 - 20 * g * h) by (apply root5_sq; pose proof (pow2_ge_0 a); lra).
  assert (B0 : 0 <= b) by apply root5_ge0.
  assert (Bab : a <= b) by (apply sq_le_lin; lra).
  assert (GH : Rabs (g * h) <= 7) by (rewrite Rabs_mult; replace 7 with (7 * 1) by lra; apply Rmult_le_compat; auto using Rabs_pos; lra).
  apply Rabs_le_between in GH.
  assert (Qu : 16 * a ^ 2 - 20 * g * h <= 224) by nra.
  assert (Bu : b <= 15) by (apply sq_le_lin; lra).
  assert (K2 : k ^ 2 <= a ^ 2) by (apply pow_incr; lra).
  assert (K42 : k ^ 4 <= k ^ 2) by (replace (k ^ 4) with (k ^ 2 * k ^ 2) by ring; assert (0 <= k ^ 2 <= 1) by nra; nra).
  assert (K21 : k ^ 2 <= k) by nra.
  destruct (acc_f rd u L Hr HL U4 M e E ltac:(lra)) as (f & Hf & Af & _).
  assert (Ff : ab f (- g) (5 * G + 56)).
  { unfold FloatLag.ab. assert (Z : Rabs (M - (E - e * sin E)) <= G + 50 * u).
    { replace (M - (E - e * sin E)) with (- g + (M - Mr)) by (unfold g; ring). apply abs_add_le; [now rewrite Rabs_Ropp|auto]. }
    replace (f - - g) with ((f - (M - (E - e * sin E))) + (M - Mr)) by (unfold g; ring).
    eapply Rle_trans; [apply abs_add_le; [exact Af|exact HMr]|].
    assert (5 * u * (Rabs (M - (E - e * sin E)) + e) <= 5 * u * (G + 50 * u + 1)) by (apply Rmult_le_compat_l; lra).
    assert (50 * u <= / 10) by lra. assert (u * (50 * u) <= u * / 10) by (apply Rmult_le_compat_l; lra). lra. }
  exists f. 
  destruct (la_trig _ _ _ HL E) as [S C]. fold (FloatLag.ab u (rd (l_sin L E)) (sin E) 2) in S. fold (FloatLag.ab u (rd (l_cos L E)) (cos E) 2) in C.
  assert (Sb : Rabs (sin E) <= 1) by (apply Rabs_le, SIN_bound). assert (Cb : Rabs (cos E) <= 1) by (apply Rabs_le, COS_bound).
  assert (Eb : Rabs e <= 1) by (rewrite Rabs_pos_eq; lra).
  pose proof (gb_mul _ _ _ _ _ _ _ _ 4 (W0 e) C Eb Cb ltac:(lra) ltac:(lra) ltac:(lra) ltac:(lra)) as V1.
  set (ec := rd (e * rd (l_cos L E))) in *.
  assert (Fp : ab (rd (ec - 1)) (- a) 7).
  { eapply Ww; [replace (- a) with (e * cos E - 1) by (unfold a; ring); apply (gb_sub _ _ _ _ _ 0 2 V1 (W0 1)); try lra|lra].
    replace (e * cos E - 1) with (- a) by (unfold a; ring). rewrite Rabs_Ropp, Rabs_pos_eq; lra. }
  set (fp := rd (ec - 1)) in *.
  assert (Fs : ab (rd (- e * rd (l_sin L E))) (- h) 4).
  { replace (- h) with (- e * sin E) by (unfold h; ring). apply (gb_mul _ _ _ _ 0 2 1 1 4 (W0 (- e)) S); try lra. now rewrite Rabs_Ropp. }
  set (es := rd (- e * rd (l_sin L E))) in *.
  assert (N1 : ab (rd (5 - 1)) 4 5).
  { eapply Ww; [apply (gb_rd _ _ 0 4); [replace (5 - 1) with 4 by lra; apply W0|rewrite Rabs_pos_eq; lra|lra]|lra]. }
  set (n1 := rd (5 - 1)) in *. assert (B4 : Rabs 4 <= 4) by (rewrite Rabs_pos_eq; lra). assert (B5 : Rabs 5 <= 5) by (rewrite Rabs_pos_eq; lra).
  pose proof (gb_mul _ _ _ _ _ _ _ _ 57 N1 N1 B4 B4 ltac:(lra) ltac:(lra) ltac:(lra) ltac:(lra)) as Sq1.
  set (sq1 := rd (n1 * n1)) in *.
  assert (Ba : Rabs (- a) <= 2) by (rewrite Rabs_Ropp, Rabs_pos_eq; lra). assert (Bg : Rabs (- g) <= 7) by (rewrite Rabs_Ropp; lra).
  assert (Bh : Rabs (- h) <= 1) by now rewrite Rabs_Ropp.
  pose proof (gb_mul _ _ _ _ _ _ _ _ 33 Fp Fp Ba Ba ltac:(lra) ltac:(lra) ltac:(lra) ltac:(lra)) as Sqf.
  set (sqf := rd (fp * fp)) in *.
  assert (Ba2 : Rabs (- a * - a) <= 4) by (rewrite Rabs_mult; replace 4 with (2 * 2) by lra; apply Rmult_le_compat; auto using Rabs_pos).
  assert (B16 : Rabs (4 * 4) <= 16) by (rewrite Rabs_pos_eq; lra).
  pose proof (gb_mul _ _ _ _ _ _ _ _ 821 Sq1 Sqf B16 Ba2 ltac:(lra) ltac:(lra) ltac:(lra) ltac:(lra)) as Q1.
  set (q1 := rd (sq1 * sqf)) in *.
  pose proof (gb_mul _ _ _ _ _ _ _ _ 46 (W0 5) N1 B5 B4 ltac:(lra) ltac:(lra) ltac:(lra) ltac:(lra)) as N2.
  set (n2 := rd (5 * n1)) in *. assert (B20 : Rabs (5 * 4) <= 20) by (rewrite Rabs_pos_eq; lra).
  assert (Ff2 : ab f (- g) 91) by (eapply Ww; [exact Ff|lra]).
  pose proof (gb_mul _ _ _ _ _ _ _ _ 2283 N2 Ff2 B20 Bg ltac:(lra) ltac:(lra) ltac:(lra) ltac:(lra)) as N3.
  set (n3 := rd (n2 * f)) in *.
  assert (B3 : Rabs (5 * 4 * - g) <= 140) by (rewrite Rabs_mult; replace 140 with (20 * 7) by lra; apply Rmult_le_compat; auto using Rabs_pos).
  pose proof (gb_mul _ _ _ _ _ _ _ _ 3006 N3 Fs B3 Bh ltac:(lra) ltac:(lra) ltac:(lra) ltac:(lra)) as N4.
  set (n4 := rd (n3 * es)) in *.
  assert (Q' : ab (rd (q1 - n4)) (16 * a ^ 2 - 20 * g * h) 4052).
  { replace (16 * a ^ 2 - 20 * g * h) with (4 * 4 * (- a * - a) - 5 * 4 * - g * - h) by ring.
    eapply Ww; [apply (gb_sub _ _ _ _ _ _ 224 Q1 N4); try lra|lra].
    replace (4 * 4 * (- a * - a) - 5 * 4 * - g * - h) with (16 * a ^ 2 - 20 * g * h) by ring. rewrite Rabs_pos_eq; pose proof (pow2_ge_0 a); lra. }
  set (q := rd (q1 - n4)) in *. set (Q := 16 * a ^ 2 - 20 * g * h) in *.
  assert (K2p : 0 < k ^ 2) by (apply pow_lt; lra).
  assert (Qb : 0 < q). { unfold FloatLag.ab in Q'. apply abs_in in Q'. lra. }
  set (w := 4052 * u / b). assert (Wb : w * b = 4052 * u) by (unfold w; field; lra).
  assert (Wk : w <= k / 10000).
  { unfold w. apply div_le; [lra|]. apply Rle_trans with (k / 10000 * k); [|apply Rmult_le_compat_l; lra]. lra. }
  assert (Ww0 : 0 <= w) by (unfold w; apply le_div; lra).
  assert (Sq : Rabs (sqrt q - b) <= w).
  { pose proof (sqrt_sqrt q ltac:(lra)) as Sm. pose proof (sqrt_pos q) as Sp. set (sr := sqrt q) in *.
    unfold FloatLag.ab in *. apply (Rmult_le_reg_r (sr + b)); [lra|].
    rewrite <- (Rabs_pos_eq (sr + b)) at 1 by lra. rewrite <- Rabs_mult. replace ((sr - b) * (sr + b)) with (q - Q) by (rewrite <- Sm, <- Hb; ring).
    eapply Rle_trans; [exact Q'|]. assert (0 <= w * sr) by (apply Rmult_le_pos; lra). lra. }
  assert (SqM : Rabs (sqrt q) <= 151 / 10) by (replace (sqrt q) with (b + (sqrt q - b)) by ring; eapply Rle_trans; [apply abs_add_le; [rewrite Rabs_pos_eq; [exact Bu|lra]|exact Sq]|lra]).
  pose proof (rd_within rd u Hr _ _ _ _ Sq SqM) as Bb. set (b' := rd (sqrt q)) in *.
  unfold FloatLag.ab in Fp.
  assert (uw : 0 <= u * w <= u * / 10000) by (split; [apply Rmult_le_pos|apply Rmult_le_compat_l]; lra).
  assert (D1 : Rabs (fp - b' - - (a + b)) <= w + 24 * u).
  { replace (fp - b' - - (a + b)) with ((fp - - a) + - (b' - b)) by ring. eapply Rle_trans; [apply abs_add_le; [exact Fp|rewrite Rabs_Ropp; exact Bb]|]. lra. }
  assert (D1m : Rabs (fp - b') <= 173 / 10).
  { replace (fp - b') with (- (a + b) + (fp - b' - - (a + b))) by ring. eapply Rle_trans; [apply abs_add_le; [rewrite Rabs_Ropp, Rabs_pos_eq; [apply Rplus_le_compat; [apply Ha|exact Bu]|lra]|exact D1]|]. lra. }
  pose proof (rd_within rd u Hr _ _ _ _ D1 D1m) as Dm. set (dm := rd (fp - b')) in *.
  assert (D2 : Rabs (fp + b' - (- a + b)) <= w + 24 * u).
  { replace (fp + b' - (- a + b)) with ((fp - - a) + (b' - b)) by ring. eapply Rle_trans; [apply abs_add_le; [exact Fp|exact Bb]|]. lra. }
  assert (D2m : Rabs (fp + b') <= 173 / 10).
  { replace (fp + b') with ((- a + b) + (fp + b' - (- a + b))) by ring. assert (X : Rabs (- a + b) <= 17) by (apply Rabs_le; lra). eapply Rle_trans; [apply abs_add_le; [exact X|exact D2]|lra]. }
  pose proof (rd_within rd u Hr _ _ _ _ D2 D2m) as Dp. set (dp := rd (fp + b')) in *.
  assert (uk : 100 * u <= k / 10000) by lra.
  pose proof (abs_in _ _ Dm) as Dm2. pose proof (abs_in _ _ Dp) as Dp2.
  assert (Cmp : Rabs dp <= Rabs dm) by (rewrite (Rabs_left dm) by lra; apply Rabs_le; lra).
  assert (BgG : Rabs (- g) <= G) by (rewrite Rabs_Ropp; lra).
  assert (N5 : ab (rd (5 * f)) (5 * - g) (30 * G + 281)).
  { eapply Ww; [apply (gb_mul _ _ _ _ 0 (5 * G + 56) 5 G (30 * G + 2801 / 10) (W0 5) Ff B5 BgG); lra|lra]. }
  set (n5 := rd (5 * f)) in *.
  set (T := (30 * G + 281 + Rabs s * (4052 / b + 42)) * (101 / 100) / (a + b)).
  assert (Ta : T * (a + b) = (30 * G + 281 + Rabs s * (4052 / b + 42)) * (101 / 100)) by (unfold T; field; lra).
  assert (S0 : 0 <= Rabs s) by apply Rabs_pos. assert (F4 : 4052 / b * u = w) by (unfold w; field; lra). assert (F40 : 0 <= 4052 / b) by (apply le_div; lra).
  assert (SF : 0 <= Rabs s * (4052 / b + 42)) by (apply Rmult_le_pos; lra).
  assert (T0 : 0 <= T) by (unfold T; apply le_div; lra).
  assert (Tu : T * u <= / 1000).
  { apply (Rmult_le_reg_r (a + b)); [lra|]. replace (T * u * (a + b)) with (T * (a + b) * u) by ring. rewrite Ta.
    replace ((30 * G + 281 + Rabs s * (4052 / b + 42)) * (101 / 100) * u) with (((30 * G + 281) * u + Rabs s * (4052 / b * u + 42 * u)) * (101 / 100)) by ring. rewrite F4.
    assert ((30 * G + 281) * u <= 491 * u) by (apply Rmult_le_compat_r; lra). assert (Rabs s * (w + 42 * u) <= 22 / 5 * (w + 42 * u)) by (apply Rmult_le_compat_r; lra). lra. }
  assert (Qt : Rabs (n5 / dm - s) <= T * u).
  { assert (Es : n5 / dm - s = ((n5 - 5 * - g) - s * (dm - - (a + b))) / dm) by (unfold s, step5; fold b; field; lra).
    rewrite Es. unfold Rdiv at 1. rewrite Rabs_mult. rewrite (Rabs_left (/ dm)) by (apply Rinv_lt_0_compat; lra). rewrite <- Rinv_opp by lra.
    apply div_le; [lra|]. assert (NN : Rabs ((n5 - 5 * - g) - s * (dm - - (a + b))) <= (30 * G + 281) * u + Rabs s * (w + 42 * u)).
    { unfold Rminus at 1. apply abs_add_le; [exact N5|]. rewrite Rabs_Ropp, Rabs_mult. apply Rmult_le_compat_l; [lra|]. eapply Rle_trans; [exact Dm|]. lra. }
    eapply Rle_trans; [exact NN|]. assert (DD : (a + b) * (100 / 101) <= - dm) by lra.
    apply Rle_trans with (T * u * ((a + b) * (100 / 101))); [|apply Rmult_le_compat_l; [apply Rmult_le_pos|]; lra].
    right. replace (T * u * ((a + b) * (100 / 101))) with (T * (a + b) * u * (100 / 101)) by ring. rewrite Ta, <- F4. field. lra. }
  assert (Qm : Rabs (n5 / dm) <= Rabs s + / 1000) by (replace (n5 / dm) with (s + (n5 / dm - s)) by ring; apply abs_add_le; lra).
  pose proof (rd_within rd u Hr _ _ _ _ Qt Qm) as Dl. set (dl := rd (n5 / dm)) in *.
  exists (E - dl). split; [exact Hf|]. split; [|split].
  - unfold lag_step. rewrite Hn. unfold lag_fp, lag_fpp, sq. assert (B1 : lit 1 = Fin 1) by exact (b_1 rd u L Hr). rewrite B1.
    change (ltb (Fin 1) (Fin e)) with (Rltb 1 e). rewrite Rltb_false by lra.
    change (sub (Fin 5) (Fin 1)) with (Fin n1). change (sub (mul (Fin e) (ncos (Fin E))) (Fin 1)) with (Fin fp).
    change (mul (opp (Fin e)) (nsin (Fin E))) with (Fin es).
    change (sub (mul (mul (Fin n1) (Fin n1)) (mul (Fin fp) (Fin fp))) (mul (mul (mul (Fin 5) (Fin n1)) (Fin f)) (Fin es))) with (Fin q).
    change (nabs (Fin q)) with (Fin (Rabs q)). rewrite (Rabs_pos_eq q) by lra.
    assert (SQ : nsqrt (Fin q) = Fin b') by (apply (b_sqrt rd L); lra). rewrite SQ.
    change (add (Fin fp) (Fin b')) with (Fin dp). change (sub (Fin fp) (Fin b')) with (Fin dm).
    change (ltb (nabs (Fin dm)) (nabs (Fin dp))) with (Rltb (Rabs dm) (Rabs dp)). rewrite Rltb_false by lra.
    change (mul (Fin 5) (Fin f)) with (Fin n5). assert (DV : div (Fin n5) (Fin dm) = Fin dl) by (apply (b_div rd L); lra). rewrite DV. reflexivity.
  - exact Ff.
  - set (d1 := T * u + u * (Rabs s + / 1000)) in *. assert (Z : Rabs (E - dl - (E - s)) <= d1).
    { replace (E - dl - (E - s)) with (- (dl - s)) by ring. now rewrite Rabs_Ropp. }
    assert (us : 0 <= u * Rabs s <= u * (22 / 5)) by (split; [apply Rmult_le_pos|apply Rmult_le_compat_l]; lra).
    assert (d1b : d1 <= / 500) by (unfold d1; lra).
    assert (Z2 : Rabs (E - dl) <= Rabs E + (Rabs s + d1)).
    { unfold Rminus. apply abs_add_le; [lra|]. rewrite Rabs_Ropp. replace dl with (s + (dl - s)) by ring. apply abs_add_le; [lra|auto]. }
    eapply Rle_trans; [apply (rd_within rd u Hr _ _ _ _ Z Z2)|].
    assert (u * d1 <= u * / 500) by (apply Rmult_le_compat_l; lra). unfold d1 at 1. lra.
Qed.
End StepG.
