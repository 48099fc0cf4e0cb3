(** * A double precision mathematics library, and the numbers it computes as a library on the reals. *)
From Coq Require Import Bool ZArith QArith Qreals Reals Lra Lia.
From Flocq Require Import Core.Core IEEE754.BinarySingleNaN.
From Verif Require Import NP NPReal NPFloat FloatBase NPB64 PropsFloat FloatAcc PropsFloatAcc PropsFloatC2K PropsB64 B64Sim B64Pi.
Local Open Scope R_scope.

(** ** Specification: finite values, sine and cosine accurate to two units of 2^-53, arccosine to four and
    within [0, np.pi]; the sign of a zero argument does not matter *)
Record lib64 (L : blib) : Prop := {
  l64_sin : forall b, is_finite b = true -> is_finite (bl_sin L b) = true /\ Rabs (B2R (bl_sin L b) - sin (B2R b)) <= 2 * ulp1 53;
  l64_cos : forall b, is_finite b = true -> is_finite (bl_cos L b) = true /\ Rabs (B2R (bl_cos L b) - cos (B2R b)) <= 2 * ulp1 53;
  l64_acos : forall b, is_finite b = true -> -1 <= B2R b <= 1 ->
    is_finite (bl_acos L b) = true /\ Rabs (B2R (bl_acos L b) - acos (B2R b)) <= 4 * ulp1 53 /\ 0 <= B2R (bl_acos L b) <= B2R bpi;
  l64_one : forall b, B2R b = 1 -> B2R (bl_acos L b) = 0;
  l64_mone : forall b, B2R b = -1 -> B2R (bl_acos L b) = B2R bpi;
  l64_zero : forall f, List.In f (bl_sin L :: bl_cos L :: bl_acos L :: nil) -> B2R (f (B754_zero true)) = B2R (f (B754_zero false)) }.

(** ** The double carrying a real number *)
Definition to64 (x : R) : b64 :=
  bz (Ztrunc (scaled_mantissa radix2 (FLT_exp (-1074) 53) x)) (cexp radix2 (FLT_exp (-1074) 53) x).
Lemma to64_B2R (b : b64) : is_finite b = true -> is_finite (to64 (B2R b)) = true /\ B2R (to64 (B2R b)) = B2R b.
Proof.
  intros F. pose proof (generic_format_B2R 53 1024 b) as G. change (SpecFloat.fexp 53 1024) with (FLT_exp (-1074) 53) in G.
  pose proof (binary_normalize_correct 53 1024 b64_prec b64_emax mode_NE (Ztrunc (scaled_mantissa radix2 (FLT_exp (-1074) 53) (B2R b)))
    (cexp radix2 (FLT_exp (-1074) 53) (B2R b)) false) as N. cbv zeta in N.
  change (SpecFloat.fexp 53 1024) with (FLT_exp (-1074) 53) in N. rewrite <- G in N.
  rewrite round_generic in N; [|apply valid_rnd_round_mode|exact G].
  rewrite Rlt_bool_true in N by (apply abs_B2R_lt_emax). unfold to64, bz. tauto.
Qed.
Lemma same_B2R (f : b64 -> b64) (a b : b64) : B2R (f (B754_zero true)) = B2R (f (B754_zero false)) ->
  is_finite a = true -> is_finite b = true -> B2R a = B2R b -> B2R (f a) = B2R (f b).
Proof.
  intros Z Fa Fb E.
  assert (NZ : forall s m e H, B2R (@B754_finite 53 1024 s m e H) <> 0).
  { intros s m e H Q. cbn in Q. apply eq_0_F2R in Q. destruct s; discriminate. }
  destruct a as [[]| | |sa ma ea Ha]; try discriminate; destruct b as [[]| | |sb mb eb Hb]; try discriminate; auto;
    try (exfalso; eapply NZ; (exact E || (symmetry; exact E))).
  f_equal. f_equal. apply B2R_inj; auto.
Qed.
(** a function on the reals which on doubles is [f] and elsewhere [ex] *)
Definition ext64 (f : b64 -> b64) (ex : R -> R) (x : R) : R :=
  if is_finite (to64 x) then if Req_EM_T (B2R (to64 x)) x then B2R (f (to64 x)) else ex x else ex x.
Lemma ext64_on f ex b : B2R (f (B754_zero true)) = B2R (f (B754_zero false)) -> is_finite b = true ->
  ext64 f ex (B2R b) = B2R (f b).
Proof.
  intros Z F. destruct (to64_B2R b F) as [F' E]. unfold ext64. rewrite F'. destruct (Req_EM_T _ _) as [_|N]; [|easy].
  now apply same_B2R.
Qed.
Lemma ext64_cases f ex x : ext64 f ex x = ex x \/ exists b, is_finite b = true /\ B2R b = x /\ ext64 f ex x = B2R (f b).
Proof.
  unfold ext64. destruct (is_finite (to64 x)) eqn:F; [|now left]. destruct (Req_EM_T _ _) as [E|N]; [|now left].
  right. exists (to64 x). auto.
Qed.
Definition real_lib (L : blib) : libm :=
  let z := fun _ : R => 0 in
  {| l_cbrt := z; l_log := z; l_sin := ext64 (bl_sin L) sin; l_cos := ext64 (bl_cos L) cos; l_tan := z;
     l_atan := z; l_acos := ext64 (bl_acos L) acos; l_sinh := z; l_cosh := z; l_tanh := z; l_atanh := z;
     l_atan2 := fun _ _ => 0; l_mod := fun _ _ => 0 |}.

Lemma rnd_B2R (b : b64) : rnd 53 (B2R b) = B2R b.
Proof. apply (rnd_fmt 53), b64_fmt. Qed.
Lemma ulp1_pos : 0 < ulp1 53. Proof. apply bpow_gt_0. Qed.
Lemma ulp1_le : ulp1 53 <= / 10000000000.
Proof.
  unfold ulp1. change (bpow radix2 (- (53))) with (/ IZR (2 ^ 53)). apply Rinv_le; [lra|]. apply IZR_le. lia.
Qed.
Lemma rnd_err1 x : Rabs x <= 1 -> Rabs (rnd 53 x - x) <= ulp1 53.
Proof.
  intros H. pose proof (rr_err _ _ (binary_rounding 53 ltac:(lia)) x) as E. pose proof (Rabs_pos x).
  fold (ulp1 53) in E. pose proof ulp1_pos. nra.
Qed.
Lemma rnd_err4 x : Rabs x <= 4 -> Rabs (rnd 53 x - x) <= 4 * ulp1 53.
Proof.
  intros H. pose proof (rr_err _ _ (binary_rounding 53 ltac:(lia)) x) as E. pose proof (Rabs_pos x).
  fold (ulp1 53) in E. pose proof ulp1_pos. nra.
Qed.
Lemma bpi_rnd : B2R bpi = rnd 53 PI.
Proof.
  rewrite (proj2 bpi_nearest). apply rnd64_normal. rewrite Rabs_pos_eq by (pose proof PI_RGT_0; lra).
  apply Rle_trans with (bp 0); [apply bpow_le; lia|]. change (bp 0) with 1. pose proof PI2_3_2. lra.
Qed.

Section Lib.
Context (L : blib) (HL : lib64 L).
Lemma real_trig_acc : trig_acc (rnd 53) (ulp1 53) (real_lib L).
Proof using HL.
  intros t. pose proof ulp1_pos. split; cbn [l_sin l_cos real_lib].
  - destruct (ext64_cases (bl_sin L) sin t) as [-> |(b & F & <- & ->)].
    + pose proof (SIN_bound t). pose proof (rnd_err1 (sin t) ltac:(apply Rabs_le; lra)). lra.
    + rewrite rnd_B2R. now apply l64_sin.
  - destruct (ext64_cases (bl_cos L) cos t) as [-> |(b & F & <- & ->)].
    + pose proof (COS_bound t). pose proof (rnd_err1 (cos t) ltac:(apply Rabs_le; lra)). lra.
    + rewrite rnd_B2R. now apply l64_cos.
Qed.
Lemma real_acos_acc : acos_acc 53 (real_lib L).
Proof using HL.
  intros q Hq. cbn [l_acos real_lib]. destruct (ext64_cases (bl_acos L) acos q) as [-> |(b & F & <- & ->)].
  - apply rnd_err4. pose proof (acos_bound q). pose proof PI_4. rewrite Rabs_pos_eq; lra.
  - rewrite rnd_B2R. now apply l64_acos.
Qed.
Lemma real_acos_ok : acos_ok 53 (real_lib L).
Proof using HL.
  cbn [acos_ok l_acos real_lib]. unfold acos_ok. cbn [l_acos real_lib]. repeat split.
  - destruct (ext64_cases (bl_acos L) acos 1) as [-> |(b & F & E & ->)]; [rewrite acos_1; apply (rnd_0 53)|]. rewrite rnd_B2R. now apply l64_one.
  - destruct (ext64_cases (bl_acos L) acos (-1)) as [-> |(b & F & E & ->)].
    + replace (-1) with (- (1)) by lra. rewrite acos_opp, acos_1. f_equal. lra.
    + rewrite rnd_B2R, <- bpi_rnd. now apply l64_mone.
  - destruct (ext64_cases (bl_acos L) acos x) as [-> |(b & F & E & ->)]; [apply (rnd_nonneg 53 ltac:(lia)); apply acos_bound|].
    rewrite rnd_B2R. apply l64_acos; auto. now rewrite E.
  - destruct (ext64_cases (bl_acos L) acos x) as [-> |(b & F & E & ->)]; [apply (rnd_le 53 ltac:(lia)); apply acos_bound|].
    rewrite rnd_B2R, <- bpi_rnd. apply l64_acos; auto. now rewrite E.
Qed.
Notation B := (NP_b64 L).
Notation N := (NP_rd (rnd 53) (real_lib L)).

Lemma sim_sin m b : is_finite b = true -> B2R (bl_sin L b) = 0 \/ bp m <= Rabs (B2R (bl_sin L b)) ->
  sim (m - 52) m 1 (@nsin _ B b) (@nsin _ N (Fin (B2R b))).
Proof using HL.
  intros F H. destruct (l64_sin L HL b F) as [F' A]. cbn [nsin NP_b64 NP_rd lib1 num_sin l_sin real_lib].
  rewrite ext64_on, rnd_B2R; auto; [|apply (l64_zero L HL); cbn; auto]. apply sim_in; auto.
  change (bp 1) with 2. pose proof (SIN_bound (B2R b)). pose proof ulp1_le. apply Rabs_le_inv in A. apply Rabs_le. lra.
Qed.
Lemma sim_cos m b : is_finite b = true -> B2R (bl_cos L b) = 0 \/ bp m <= Rabs (B2R (bl_cos L b)) ->
  sim (m - 52) m 1 (@ncos _ B b) (@ncos _ N (Fin (B2R b))).
Proof using HL.
  intros F H. destruct (l64_cos L HL b F) as [F' A]. cbn [ncos NP_b64 NP_rd lib1 num_cos l_cos real_lib].
  rewrite ext64_on, rnd_B2R; auto; [|apply (l64_zero L HL); cbn; auto]. apply sim_in; auto.
  change (bp 1) with 2. pose proof (COS_bound (B2R b)). pose proof ulp1_le. apply Rabs_le_inv in A. apply Rabs_le. lra.
Qed.
(** the arccosine where the exact one is finite *)
Lemma sim_acos k m K b x y : sim k m K b x -> @narccos _ N x = Fin y -> sim (-1074) (-1074) 2 (@narccos _ B b) (Fin y).
Proof using HL.
  intros (F & -> & _) E. cbn [narccos NP_rd lib1 num_acos l_acos real_lib] in E.
  destruct (Rle_dec (-1) (B2R b)) as [H1|]; [|discriminate]. destruct (Rle_dec (B2R b) 1) as [H2|]; [|discriminate].
  injection E as <-. cbn [narccos NP_b64]. rewrite ext64_on, rnd_B2R; auto; [|apply (l64_zero L HL); cbn; auto].
  destruct (l64_acos L HL b F (conj H1 H2)) as (F' & _ & P). apply sim_any; auto. rewrite Rabs_pos_eq by apply P.
  apply Rle_trans with (1 := proj2 P). rewrite bpi_rnd, rnd_pi. change (bp 2) with 4. change (bp (-51)) with (/ IZR (2 ^ 51)).
  assert (IZR (2 ^ 51) = 2251799813685248) as -> by (f_equal; reflexivity). lra.
Qed.

(** ** Constants *)
Lemma sim_zero k m K : sim k m K (@lit _ B 0) (@lit _ N 0).
Proof using Type.
  destruct (C88_literal L 0 ltac:(reflexivity) ltac:(reflexivity)) as [F E].
  assert (Q2R 0 = 0) as Z by (unfold Q2R; cbn; lra). rewrite Z, rnd64_0 in E.
  unfold sim. cbn [lit NP_b64 NP_rd] in *. rewrite E. repeat split; auto.
  - rewrite Z, (rnd_0 53). reflexivity.
  - apply grid_0.
  - rewrite Rabs_R0. apply bpow_ge_0.
Qed.
Lemma sim_lit q m K : (Z.abs (Qnum q) < 2 ^ 53)%Z -> (Zpos (Qden q) < 2 ^ 53)%Z -> (-1022 <= m)%Z ->
  bp m <= Rabs (Q2R q) -> Rabs (Q2R q) <= bp K -> sim (m - 52) m K (@lit _ B q) (@lit _ N q).
Proof using Type.
  intros H1 H2 Hm Lo Up. apply (sim_mk _ _ _ _ _ (Q2R q)); auto.
  - now apply C88_literal.
  - apply (rnd64_nz _ m); auto.
  - right. lia.
Qed.
Lemma sim_litz z q m : q = inject_Z z -> (Z.abs z < 2 ^ 53)%Z -> grid m (IZR z) -> bp m = Rabs (IZR z) -> (-1022 <= m)%Z ->
  sim m m m (@lit _ B q) (@lit _ N q).
Proof using Type.
  intros -> H G E Hm. assert (Q : Q2R (inject_Z z) = IZR z) by (unfold Q2R; cbn; lra).
  apply (sim_mk _ _ _ _ _ (Q2R (inject_Z z))); rewrite ?Q; auto.
  - rewrite <- Q. apply C88_literal; [exact H|reflexivity].
  - apply (rnd64_nz _ m); auto. right. lra.
  - cbn [lit NP_rd]. now rewrite Q.
  - right. lra.
  - lra.
Qed.
Lemma sim_1 : sim 0 0 0 (@lit _ B 1) (@lit _ N 1).
Proof using Type. apply (sim_litz 1); try reflexivity; try lia; [exists 1%Z; cbn; ring|cbn; rewrite Rabs_pos_eq; lra]. Qed.
Lemma sim_m1 : sim 0 0 0 (@lit _ B (-1)) (@lit _ N (-1)).
Proof using Type. apply (sim_litz (-1)); try reflexivity; try lia; [exists (-1)%Z; cbn; ring|cbn; rewrite Rabs_left; lra]. Qed.
Lemma sim_2 : sim 1 1 1 (@lit _ B 2) (@lit _ N 2).
Proof using Type. apply (sim_litz 2); try reflexivity; try lia; [exists 1%Z; cbn; ring|cbn; rewrite Rabs_pos_eq; lra]. Qed.
Lemma sim_half : sim (-53) (-1) (-1) (@lit _ B 0.5) (@lit _ N 0.5).
Proof using Type.
  assert (Q : Q2R 0.5 = / 2) by (unfold Q2R; cbn; lra).
  apply (sim_lit 0.5 (-1) (-1)); try reflexivity; try lia; rewrite Q, Rabs_pos_eq by lra; cbn; lra.
Qed.
Lemma sim_1e9 : sim (-82) (-30) (-29) (@lit _ B 1e-9) (@lit _ N 1e-9).
Proof using Type.
  assert (Q : Q2R 1e-9 = / 1000000000) by (unfold Q2R; cbn; lra).
  apply (sim_lit 1e-9 (-30) (-29)); try reflexivity; try lia; rewrite Q, Rabs_pos_eq by lra.
  - change (bp (-30)) with (/ IZR (2 ^ 30)). apply Rinv_le; [lra|]. apply IZR_le. lia.
  - change (bp (-29)) with (/ IZR (2 ^ 29)). apply Rinv_le; [apply IZR_lt; lia|]. apply IZR_le. lia.
Qed.
Lemma sim_npi : sim (-51) 1 2 (@npi _ B) (@npi _ N).
Proof using Type.
  destruct bpi_nearest as [F _]. pose proof bpi_rnd as E. cbn [npi NP_b64 NP_rd]. rewrite <- E.
  assert (V : B2R bpi = IZR 7074237752028440 * bp (-51)) by (rewrite E; apply rnd_pi).
  assert (2 <= B2R bpi <= 4).
  { rewrite V. change (bp (-51)) with (/ IZR (2 ^ 51)). assert (IZR (2 ^ 51) = 2251799813685248) as -> by (f_equal; reflexivity). lra. }
  repeat split; auto.
  - exists 7074237752028440%Z. exact V.
  - right. rewrite Rabs_pos_eq by lra. change (bp 1) with 2. lra.
  - rewrite Rabs_pos_eq by lra. change (bp 2) with 4. lra.
Qed.
End Lib.
