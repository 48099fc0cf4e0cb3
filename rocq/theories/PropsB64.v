(** * C88, C89: IEEE 754 binary64. *)
From Coq Require Import String List Bool ZArith QArith Qreals Reals Lra Lia.
From Flocq Require Import Core.Core IEEE754.BinarySingleNaN.
From Verif Require Import NP KeplerModel ConvModel ConvCols OrbitModel ArraySpec OrbitSpec OrbitInv NPB64 PropsArray.
From Verif Require Import PropsOrbitWidth PropsOrbitDirect PropsOrbitLazy PropsFloat PropsFloatC2K NPReal NPFloat FloatBase PropsFloatAcc KepReal PropsKep FloatC2KCol FloatC2KAcc.
From Verif Require Spec.
Import ListNotations.
Local Open Scope R_scope.

(** ** The instance is IEEE arithmetic *)
(** [y] is the double nearest to the real [x] *)
Definition nearest (y : b64) (x : R) : Prop := is_finite y = true /\ B2R y = rnd64 x.
(** the rounded value does not overflow *)
Definition in_range (x : R) : Prop := Rabs (rnd64 x) < bpow radix2 1024.
Definition infinite (y : b64) : Prop := exists s, y = B754_infinity s.

Lemma sf_inf (y : b64) s : B2SF y = binary_overflow 53 1024 mode_NE s -> infinite y.
Proof. intros E. exists s. apply b64_eq. exact E. Qed.
Theorem C88_rounding : forall L (x y : b64), is_finite x = true -> is_finite y = true ->
  (in_range (B2R x + B2R y) -> nearest (@add _ (NP_b64 L) x y) (B2R x + B2R y)) /\
  (in_range (B2R x - B2R y) -> nearest (@sub _ (NP_b64 L) x y) (B2R x - B2R y)) /\
  (in_range (B2R x * B2R y) -> nearest (@mul _ (NP_b64 L) x y) (B2R x * B2R y)) /\
  (B2R y <> 0 -> in_range (B2R x / B2R y) -> nearest (@div _ (NP_b64 L) x y) (B2R x / B2R y)) /\
  (0 <= B2R x -> nearest (@nsqrt _ (NP_b64 L) x) (sqrt (B2R x))) /\
  (~ in_range (B2R x + B2R y) -> infinite (@add _ (NP_b64 L) x y)) /\
  (~ in_range (B2R x - B2R y) -> infinite (@sub _ (NP_b64 L) x y)) /\
  (~ in_range (B2R x * B2R y) -> infinite (@mul _ (NP_b64 L) x y)) /\
  (B2R y <> 0 -> ~ in_range (B2R x / B2R y) -> infinite (@div _ (NP_b64 L) x y)).
Proof.
  intros L x y Fx Fy. unfold nearest, in_range, rnd64.
  pose proof (Bplus_correct 53 1024 b64_prec b64_emax mode_NE x y Fx Fy) as A.
  pose proof (Bminus_correct 53 1024 b64_prec b64_emax mode_NE x y Fx Fy) as S.
  pose proof (Bmult_correct 53 1024 b64_prec b64_emax mode_NE x y) as M.
  pose proof (fun H => Bdiv_correct 53 1024 b64_prec b64_emax mode_NE x y H) as D.
  pose proof (Bsqrt_correct 53 1024 b64_prec b64_emax mode_NE x) as Q.
  change (SpecFloat.fexp 53 1024) with (FLT_exp (-1074) 53) in *.
  cbn [round_mode add sub mul div nsqrt NP_b64] in *.
  repeat match goal with |- _ /\ _ => split end.
  - intros H. rewrite Rlt_bool_true in A by exact H. tauto.
  - intros H. rewrite Rlt_bool_true in S by exact H. tauto.
  - intros H. rewrite Rlt_bool_true in M by exact H. rewrite Fx, Fy in M. tauto.
  - intros Hy H. specialize (D Hy). rewrite Rlt_bool_true in D by exact H. rewrite Fx in D. tauto.
  - intros H. destruct Q as (Q1 & Q2 & _). split; [|exact Q1]. rewrite Q2.
    destruct x as [s|s| |[] m e B]; try reflexivity; try discriminate.
    exfalso. cbn in H. pose proof (F2R_lt_0 radix2 (Float radix2 (Zneg m) e) ltac:(reflexivity)). lra.
  - intros H. rewrite Rlt_bool_false in A by lra. destruct A as [A _]. eapply sf_inf; exact A.
  - intros H. rewrite Rlt_bool_false in S by lra. destruct S as [S _]. eapply sf_inf; exact S.
  - intros H. rewrite Rlt_bool_false in M by lra. eapply sf_inf; exact M.
  - intros Hy H. specialize (D Hy). rewrite Rlt_bool_false in D by lra. eapply sf_inf; exact D.
Qed.
(** a literal is the nearest double *)
Lemma bz_dyadic (m e : Z) : (Z.abs m < 2 ^ 53)%Z -> (-1074 <= e <= 900)%Z ->
  is_finite (bz m e) = true /\ B2R (bz m e) = IZR m * bpow radix2 e.
Proof.
  intros H He. pose proof (binary_normalize_correct 53 1024 b64_prec b64_emax mode_NE m e false) as N.
  cbv zeta in N. change (SpecFloat.fexp 53 1024) with (FLT_exp (-1074) 53) in N. fold (bz m e) in N.
  change (F2R (Float radix2 m e)) with (IZR m * bpow radix2 e) in N.
  rewrite round_generic in N; [|apply valid_rnd_round_mode|].
  2:{ apply generic_format_FLT. exists (Float radix2 m e); cbn; [reflexivity|exact H|lia]. }
  rewrite Rlt_bool_true in N; [tauto|]. rewrite Rabs_mult, <- abs_IZR, (Rabs_pos_eq (bpow _ _)) by apply bpow_ge_0.
  assert (B : bpow radix2 e <= bpow radix2 900) by (apply bpow_le; lia). pose proof (bpow_gt_0 radix2 e).
  apply Rlt_le_trans with (bpow radix2 53 * bpow radix2 900).
  - apply Rlt_le_trans with (bpow radix2 53 * bpow radix2 e).
    + apply Rmult_lt_compat_r; [lra|]. change (bpow radix2 53) with (IZR (2 ^ 53)). now apply IZR_lt.
    + apply Rmult_le_compat_l; [apply bpow_ge_0|lra].
  - rewrite <- bpow_plus. apply bpow_le. lia.
Qed.
Lemma bz_exact (m : Z) : (Z.abs m < 2 ^ 53)%Z -> is_finite (bz m 0) = true /\ B2R (bz m 0) = IZR m.
Proof. intros H. destruct (bz_dyadic m 0 H ltac:(lia)) as [F E]. split; [exact F|]. rewrite E. cbn. ring. Qed.
Theorem C88_literal : forall L q, (Z.abs (Qnum q) < 2 ^ 53)%Z -> (Zpos (Qden q) < 2 ^ 53)%Z ->
  nearest (@lit _ (NP_b64 L) q) (Q2R q).
Proof.
  intros L q Hn Hd. destruct (bz_exact (Qnum q) Hn) as [F1 R1].
  destruct (bz_exact (Zpos (Qden q)) ltac:(rewrite Z.abs_eq; lia)) as [F2 R2].
  assert (P : 0 < IZR (Zpos (Qden q))) by (apply IZR_lt; lia).
  destruct (C88_rounding L _ _ F1 F2) as (_ & _ & _ & D & _). rewrite R1, R2 in D.
  unfold Q2R. apply D; [lra|]. unfold in_range. apply Rle_lt_trans with (bpow radix2 53); [|apply bpow_lt; lia].
  unfold rnd64. apply abs_round_le_generic; [apply FLT_exp_valid; reflexivity|apply valid_rnd_N|apply generic_format_bpow; unfold FLT_exp; lia|].
  assert (D1 : 1 <= IZR (Zpos (Qden q))) by (apply IZR_le; lia).
  unfold Rdiv. rewrite Rabs_mult, Rabs_inv, (Rabs_pos_eq (IZR (Zpos (Qden q)))) by lra.
  assert (N1 : Rabs (IZR (Qnum q)) <= bpow radix2 53).
  { rewrite <- abs_IZR. change (bpow radix2 53) with (IZR (2 ^ 53)). apply IZR_le. lia. }
  pose proof (Rabs_pos (IZR (Qnum q))).
  apply Rle_trans with (Rabs (IZR (Qnum q)) * 1); [|lra]. apply Rmult_le_compat_l; [lra|].
  rewrite <- Rinv_1. apply Rinv_le; lra.
Qed.
(** NaN differs from itself and every other datum, infinities and both zeros included, is less than, equal
    to or greater than 1 *)
Theorem C88_arith : forall L, @nan_arith b64 (NP_b64 L).
Proof.
  intros L. split; [reflexivity|]. intros x Hx. unfold isnan in Hx. cbn in Hx. rewrite Beqb_refl, negb_involutive in Hx.
  unfold ordered1. cbn [ltb eqb lit NP_b64]. apply tricho; [exact Hx|reflexivity].
Qed.

(** ** The guarantees about objects (C41-C43) in double precision *)
Section Objects.
Context (L : blib).
#[local] Instance ieee : NP b64 := NP_b64 L.
Theorem C88_width gb M0 c kw (s : orb b64) h : init gb M0 c kw = Ok s -> steps_ok width_ok h s -> same_width (run h s).
Proof. apply C41_history_partial. Qed.
Theorem C88_direct gb M0 c kw (s : orb b64) h : cf_direct c = true -> init gb M0 c kw = Ok s ->
  steps_ok direct_ok h s -> all_consistent (run h s).
Proof. apply C42_direct_partial. apply (C88_arith L). Qed.
Theorem C88_lazy gb M0 c kw (s : orb b64) h : cf_auto c = true -> cf_direct c = false ->
  init gb M0 c kw = Ok s -> steps_ok lazy_ok h s ->
  (forall g1 g2, exists s1 cs s2 ks, get_cartesian g1 (run h s) = (s1, Ok cs)
     /\ get_kepler g2 s1 = (s2, Ok ks) /\ pair_consistent (run h s) cs ks)
  /\ (forall g1 g2, exists s1 ks s2 cs, get_kepler g1 (run h s) = (s1, Ok ks)
     /\ get_cartesian g2 s1 = (s2, Ok cs) /\ pair_consistent (run h s) cs ks).
Proof. apply C43_reads_partial. apply (C88_arith L). Qed.
End Objects.

(** ** C89: states close to a parabola *)
(** a state of doubles as reals *)
Definition real6 (c : six b64) : six R := map6 (fun x : b64 => B2R x) c.
Definition fin64 (c : six b64) : Prop :=
  is_finite (s0 c) = true /\ is_finite (s1 c) = true /\ is_finite (s2 c) = true /\
  is_finite (s3 c) = true /\ is_finite (s4 c) = true /\ is_finite (s5 c) = true.
Definition all_nan : six b64 := mk6 B754_nan B754_nan B754_nan B754_nan B754_nan B754_nan.

Section Parabola.
Context (L : blib).
#[local] Instance ieee' : NP b64 := NP_b64 L.
Lemma nan_l (x : b64) : mul B754_nan x = B754_nan. Proof. now destruct x. Qed.
Lemma nan_r (x : b64) : mul x B754_nan = B754_nan. Proof. now destruct x. Qed.
Lemma nan_dl (x : b64) : div B754_nan x = B754_nan. Proof. now destruct x. Qed.
Lemma nan_dr (x : b64) : div x B754_nan = B754_nan. Proof. now destruct x. Qed.
Lemma nan_al (x : b64) : add B754_nan x = B754_nan. Proof. now destruct x. Qed.
(** with a NaN angular momentum the whole state is NaN *)
Lemma k2c_nan (k : six b64) mu :
  (if eqb (s1 k) (lit 1) then parabolic_total_angular_momentum (s0 k) mu
   else orbit_total_angular_momentum (s0 k) (s1 k) mu) = B754_nan -> k2c_col k mu = all_nan.
Proof.
  intros E. unfold k2c_col. cbv zeta. rewrite E. unfold orbital_distance, sq.
  rewrite nan_l, nan_dl, nan_dr. change (opp (B754_nan : b64)) with (B754_nan : b64).
  rewrite !nan_l, !nan_r, !nan_al. reflexivity.
Qed.
Lemma is_nan_eq (x : b64) : is_nan x = true -> x = B754_nan.
Proof. destruct x; try discriminate. reflexivity. Qed.
(** semi-major axis and eccentricity of the result, without the angles *)
Definition ae (c : six b64) (mu : b64) : b64 * b64 :=
  let r := (s0 c, s1 c, s2 c) in
  let v := (s3 c, s4 c, s5 c) in
  let rn := vnorm r in
  let vn := vnorm v in
  let vr := vsum (vmul (vdivs r rn) v) in
  let eps := sub (mul (sq vn) (lit 0.5)) (div mu rn) in
  let o1 := vnorm (ecc_el mu vn rn vr r v) in
  let a := div (opp mu) (mul (lit 2) eps) in
  (if leb (lit 1) o1 then opp a else a, o1).
Lemma c2k_a deg c mu : s0 (c2k_col deg c mu) = fst (ae c mu).
Proof. unfold c2k_col, ae. cbv zeta. cbn [s0 fst]. reflexivity. Qed.
Lemma c2k_e deg c mu : s1 (c2k_col deg c mu) = snd (ae c mu).
Proof. unfold c2k_col, ae. cbv zeta. cbn [s1 snd]. reflexivity. Qed.
(** the angular momentum kep_to_cart computes from the pair (a, e) *)
Definition back_h (ae : b64 * b64) (mu : b64) : b64 :=
  let a := if ltb (lit 1) (snd ae) then mul (fst ae) (lit (-1)) else fst ae in
  if eqb (snd ae) (lit 1) then parabolic_total_angular_momentum a mu else orbit_total_angular_momentum a (snd ae) mu.
Lemma k2c_back g' deg k mu : is_nan (back_h (s0 k, s1 k) mu) = true ->
  snd (kep_to_cart g' (KVec k) (MuS mu) deg) = Ok (KVec all_nan).
Proof.
  intros N. destruct (kep_to_cart_vec g' k (MuS mu) deg [mu] eq_refl) as [m [Hm E]]. injection Hm as <-.
  rewrite E. clear E. cbn [snd]. do 2 f_equal. apply k2c_nan, is_nan_eq.
  assert (H1 : s1 (edit_col deg k) = s1 k) by now destruct deg.
  assert (H0 : s0 (edit_col deg k) = if ltb (lit 1) (s1 k) then mul (s0 k) (lit (-1)) else s0 k) by now destruct deg.
  rewrite H1, H0. exact N.
Qed.
Lemma c2k_vec g deg c mu : snd (cart_to_kep g (KVec c) (MuS mu) deg) = Ok (KVec (c2k_col deg c mu)).
Proof. destruct (cart_to_kep_vec g c (MuS mu) deg [mu] eq_refl) as [m [Hm E]]. injection Hm as <-. now rewrite E. Qed.
Lemma round_trip_nan g g' deg c mu : is_nan (back_h (ae c mu) mu) = true ->
  exists k, snd (cart_to_kep g (KVec c) (MuS mu) deg) = Ok (KVec k) /\ s0 k = fst (ae c mu) /\ s1 k = snd (ae c mu)
    /\ snd (kep_to_cart g' (KVec k) (MuS mu) deg) = Ok (KVec all_nan).
Proof.
  intros N. exists (c2k_col deg c mu). split; [apply c2k_vec|]. split; [apply c2k_a|]. split; [apply c2k_e|].
  apply k2c_back. rewrite c2k_a, c2k_e, <- surjective_pairing. exact N.
Qed.
End Parabola.

(** r = (2,0,0), v = (2s,s,0) with s = 0x1.c9f25c5bfedd9p-2: the velocity of escape in the direction (2,1,0),
    computed in double precision *)
Definition w_ell : six b64 := mk6 (bz 2 0) (bz 0 0) (bz 0 0) (bz 8056283928194521 (-53)) (bz 8056283928194521 (-54)) (bz 0 0).
(** r = (1,0,0), v = (2s,s,0) with s = 0x1.43d136248490fp-1 *)
Definition w_hyp : six b64 := mk6 (bz 1 0) (bz 0 0) (bz 0 0) (bz 5696652996790543 (-52)) (bz 5696652996790543 (-53)) (bz 0 0).
Lemma w_ell_ae L : B2SF (fst (@ae L w_ell (bz 1 0))) = SpecFloat.S754_finite true 4503599627370496 0
  /\ B2SF (snd (@ae L w_ell (bz 1 0))) = SpecFloat.S754_finite false 4503599627370496 (-52).
Proof. split; vm_compute; reflexivity. Qed.
Lemma w_ell_h L : is_nan (@back_h L (@ae L w_ell (bz 1 0)) (bz 1 0)) = true.
Proof. vm_compute. reflexivity. Qed.
Lemma w_hyp_ae L : B2SF (fst (@ae L w_hyp (bz 1 0))) = SpecFloat.S754_finite true 4503599627370496 (-1)
  /\ B2SF (snd (@ae L w_hyp (bz 1 0))) = SpecFloat.S754_finite false 9007199254740991 (-53).
Proof. split; vm_compute; reflexivity. Qed.
Lemma w_hyp_h L : is_nan (@back_h L (@ae L w_hyp (bz 1 0)) (bz 1 0)) = true.
Proof. vm_compute. reflexivity. Qed.
Lemma sf_real (x : b64) s m e : B2SF x = SpecFloat.S754_finite s m e ->
  B2R x = IZR (cond_Zopp s (Zpos m)) * bpow radix2 e.
Proof. destruct x; cbn; try discriminate. injection 1 as -> -> ->. reflexivity. Qed.

(** the property fails for bound orbits: a finite state of negative energy and non-zero angular momentum has
    e = 1 and a negative semi-major axis, and converting these elements back gives NaN *)
Theorem C89_ellipse_refuted : exists (c : six b64) (mu : b64),
  fin64 c /\ is_finite mu = true /\ 0 < B2R mu /\
  Spec.energy (B2R mu) (real6 c) < 0 /\ Spec.ang_mom (real6 c) <> (0, 0, 0) /\
  forall L g g' deg, exists k, snd (@cart_to_kep b64 (NP_b64 L) g (KVec c) (MuS mu) deg) = Ok (KVec k) /\
    B2R (s0 k) < 0 /\ B2R (s1 k) = 1 /\
    snd (@kep_to_cart b64 (NP_b64 L) g' (KVec k) (MuS mu) deg) = Ok (KVec all_nan).
Proof.
  destruct (bz_exact 1 ltac:(reflexivity)) as [F1 R1]. destruct (bz_exact 2 ltac:(reflexivity)) as [F2 R2].
  destruct (bz_exact 0 ltac:(reflexivity)) as [F0 R0].
  destruct (bz_dyadic 8056283928194521 (-53) ltac:(reflexivity) ltac:(lia)) as [Fx Rx].
  destruct (bz_dyadic 8056283928194521 (-54) ltac:(reflexivity) ltac:(lia)) as [Fy Ry].
  exists w_ell, (bz 1 0). split; [repeat split; assumption|]. split; [exact F1|]. rewrite R1. split; [lra|].
  assert (N : Spec.norm (Spec.pos (real6 w_ell)) = 2).
  { unfold Spec.norm, Spec.dot, Spec.pos, Spec.vx, Spec.vy, Spec.vz, real6, w_ell, map6. cbn [s0 s1 s2 fst snd]. rewrite R0, R2.
    replace (2 * 2 + 0 * 0 + 0 * 0) with (2 * 2) by ring. apply sqrt_square. lra. }
  split; [|split].
  - unfold Spec.energy. rewrite N. unfold Spec.dot, Spec.vel, Spec.vx, Spec.vy, Spec.vz, real6, w_ell, map6. cbn [s3 s4 s5 fst snd].
    rewrite R0, Rx, Ry. cbn [bpow]. cbn. lra.
  - unfold Spec.ang_mom, Spec.cross, Spec.pos, Spec.vel, Spec.vx, Spec.vy, Spec.vz, real6, w_ell, map6. cbn [s0 s1 s2 s3 s4 s5 fst snd].
    rewrite R0, R2, Rx, Ry. intros E. apply (f_equal snd) in E. cbn [snd] in E. pose proof (bpow_gt_0 radix2 (-54)). lra.
  - intros L g g' deg. destruct (round_trip_nan L g g' deg w_ell (bz 1 0) (w_ell_h L)) as (k & E & E0 & E1 & B).
    exists k. destruct (w_ell_ae L) as [A1 A2]. rewrite <- E0 in A1. rewrite <- E1 in A2. apply sf_real in A1. apply sf_real in A2.
    split; [exact E|]. split; [rewrite A1; cbn; lra|]. split; [rewrite A2; cbn; lra|exact B].
Qed.
(** and for unbound ones: positive energy, computed eccentricity below 1 *)
Theorem C89_hyperbola_refuted : exists (c : six b64) (mu : b64),
  fin64 c /\ is_finite mu = true /\ 0 < B2R mu /\
  0 < Spec.energy (B2R mu) (real6 c) /\ Spec.ang_mom (real6 c) <> (0, 0, 0) /\
  forall L g g' deg, exists k, snd (@cart_to_kep b64 (NP_b64 L) g (KVec c) (MuS mu) deg) = Ok (KVec k) /\
    B2R (s0 k) < 0 /\ B2R (s1 k) < 1 /\
    snd (@kep_to_cart b64 (NP_b64 L) g' (KVec k) (MuS mu) deg) = Ok (KVec all_nan).
Proof.
  destruct (bz_exact 1 ltac:(reflexivity)) as [F1 R1]. destruct (bz_exact 0 ltac:(reflexivity)) as [F0 R0].
  destruct (bz_dyadic 5696652996790543 (-52) ltac:(reflexivity) ltac:(lia)) as [Fx Rx].
  destruct (bz_dyadic 5696652996790543 (-53) ltac:(reflexivity) ltac:(lia)) as [Fy Ry].
  exists w_hyp, (bz 1 0). split; [repeat split; assumption|]. split; [exact F1|]. rewrite R1. split; [lra|].
  assert (N : Spec.norm (Spec.pos (real6 w_hyp)) = 1).
  { unfold Spec.norm, Spec.dot, Spec.pos, Spec.vx, Spec.vy, Spec.vz, real6, w_hyp, map6. cbn [s0 s1 s2 fst snd]. rewrite R0, R1.
    replace (1 * 1 + 0 * 0 + 0 * 0) with 1 by ring. apply sqrt_1. }
  split; [|split].
  - unfold Spec.energy. rewrite N. unfold Spec.dot, Spec.vel, Spec.vx, Spec.vy, Spec.vz, real6, w_hyp, map6. cbn [s3 s4 s5 fst snd].
    rewrite R0, Rx, Ry. cbn [bpow]. cbn. lra.
  - unfold Spec.ang_mom, Spec.cross, Spec.pos, Spec.vel, Spec.vx, Spec.vy, Spec.vz, real6, w_hyp, map6. cbn [s0 s1 s2 s3 s4 s5 fst snd].
    rewrite R0, R1, Rx, Ry. intros E. apply (f_equal snd) in E. cbn [snd] in E. pose proof (bpow_gt_0 radix2 (-53)). lra.
  - intros L g g' deg. destruct (round_trip_nan L g g' deg w_hyp (bz 1 0) (w_hyp_h L)) as (k & E & E0 & E1 & B).
    exists k. destruct (w_hyp_ae L) as [A1 A2]. rewrite <- E0 in A1. rewrite <- E1 in A2. apply sf_real in A1. apply sf_real in A2.
    split; [exact E|]. split; [rewrite A1; cbn; lra|]. split; [rewrite A2; cbn; lra|exact B].
Qed.

(** ** Hypotheses met *)
(** C83 excludes what goes wrong: an ellipse regular in the sense of C83 gets a positive semi-major axis and an
    eccentricity between 0 and 1.  Missing: a sharp condition, hyperbolas, overflow and underflow. *)
Theorem C89_regular_partial : forall p L mu k x g, (1 < p)%Z -> acos_ok p L -> acos_acc p L ->
  Spec.valid_kep mu k -> regular_kep (ulp1 p) k -> state_of mu k x ->
  exists k', snd (@cart_to_kep num (NP_rd (rnd p) L) g (KVec (Spec.fin6 x)) (MuS (Fin mu)) false) = Ok (KVec (Spec.fin6 k')) /\
    0 < s0 k' /\ 0 < s1 k' < 1.
Proof.
  intros p L mu k x g Hp HL HA Hv Hk Sx. destruct (C83_cart_to_kep p L mu k x g Hp HL HA Hv Hk Sx) as (k' & E & A & B & _).
  exists k'. split; [exact E|]. destruct Hk as (He & Hi & Hw & _). destruct Hv as (_ & Ha & _).
  destruct (units_le p k He Hi) as (U & W1 & W2 & W3 & W4 & W5). cbv zeta in *.
  set (u := ulp1 p) in *. unfold Spec.k_a, Spec.k_e, Spec.k_i in *.
  set (w := u / (s1 k * (1 - s1 k) * sin (s2 k))) in *. set (w1 := u / (1 - s1 k)) in *.
  assert (Q1 : w1 <= / 100000000) by lra.
  assert (Q2 : u <= / 100000000 * (1 - s1 k)).
  { replace u with (w1 * (1 - s1 k)) by (unfold w1; field; lra). apply Rmult_le_compat_r; lra. }
  apply Rabs_le_inv in A. apply Rabs_le_inv in B.
  assert (Q3 : 100 * w1 * s0 k <= / 1000000 * s0 k).
  { apply Rmult_le_compat_r; [|lra]. revert Ha. clear. unfold Spec.k_a. lra. }
  assert (Q4 : u <= / 100000000 * s1 k).
  { replace u with (u / s1 k * s1 k) by (field; lra). apply Rmult_le_compat_r; lra. }
  split; [lra|]. split; lra.
Qed.

(** a library for the examples (any will do) *)
Definition lib0 : blib :=
  let f := fun x : b64 => x in let f2 := fun x _ : b64 => x in
  Build_blib f f f f f f f f f f f f2 f2.
Section Example64.
#[local] Instance ieee0 : NP b64 := NP_b64 lib0.
Definition g64 (i j : nat) : b64 := B754_infinity true.
Definition cfg64 (d : bool) : config b64 :=
  mkconfig true d (bz 1 0) {| tol := bz 1 (-40); max_iter := 3%Z; degree := bz 5 0 |} false "true"%string 1 false false.
Definition kw64 : kws b64 :=
  mkkws (Some (Arr [6; 1]%nat (seq 0 6) [bz 1 0; bz 0 0; bz 1 (-3); bz 0 0; bz 1 0; bz 1 (-2)])) None None no6 no6.
Definition h64 : history b64 :=
  [(g64, OGetKep); (g64, OSetCartRow 0 (Sc (bz 3 (-1)))); (g64, OSetKepRow 0 (Sc (bz 5 (-1)))); (g64, OGetCart)].
Definition holds64 (s : orb b64) : bool :=
  Nat.eqb (length (ocart s)) 1 && forallb (fun c => negb (nan6 c)) (ocart s) && forallb (fun k => negb (nan6 k)) (okep s).
(** direct mode: after these operations the object holds twelve numbers *)
Example C88_direct_example : exists s, init g64 (bz 1 0) (cfg64 true) kw64 = Ok s
  /\ steps_ok direct_ok h64 s /\ holds64 (run h64 s) = true.
Proof.
  assert (C : match init g64 (bz 1 0) (cfg64 true) kw64 with Ok s => holds64 (run h64 s) | Raise _ => false end = true)
    by (vm_compute; reflexivity).
  destruct (init g64 (bz 1 0) (cfg64 true) kw64) as [s|e]; [|discriminate]. exists s. split; [reflexivity|]. split; [|exact C].
  unfold h64, steps_ok, direct_ok, width_ok. cbn. tauto.
Qed.
Example C88_literal_example : B2SF (@lit _ (NP_b64 lib0) 1e-12) = SpecFloat.S754_finite false 4951760157141521 (-92)
  /\ add (bz 1 1023) (bz 1 1023) = B754_infinity false.
Proof. split; [vm_compute; reflexivity|]. apply b64_eq. vm_compute. reflexivity. Qed.
End Example64.
