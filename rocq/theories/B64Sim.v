(** * Binary64 runs that never leave the normal range.

    [sim k m K b x]: the double [b] is finite and carries the number [x] of the instance with 53 digits
    and unbounded exponents; it is a multiple of 2^k, zero or at least 2^m, and at most 2^K.  The
    operations of the two instances agree on such numbers as long as the exponents allow. *)
From Coq Require Import Bool ZArith QArith Qreals Reals Lra Lia.
From Flocq Require Import Core.Core IEEE754.BinarySingleNaN.
From Verif Require Import NP NPReal NPFloat FloatBase NPB64 PropsFloat PropsB64.
Local Open Scope R_scope.
Notation bp := (bpow radix2).
#[local] Instance p53 : Prec_gt_0 53. Proof. reflexivity. Qed.

(** ** Multiples of a power of two *)
Definition grid (k : Z) (x : R) : Prop := exists n : Z, x = IZR n * bp k.
Lemma grid_le j k x : (j <= k)%Z -> grid k x -> grid j x.
Proof.
  intros H [n ->]. exists (n * 2 ^ (k - j))%Z. rewrite mult_IZR. change 2%Z with (radix_val radix2).
  rewrite IZR_Zpower by lia. rewrite Rmult_assoc, <- bpow_plus. do 2 f_equal. lia.
Qed.
Lemma grid_0 k : grid k 0. Proof. exists 0%Z. ring. Qed.
Lemma grid_opp k x : grid k x -> grid k (- x).
Proof. intros [n ->]. exists (- n)%Z. rewrite opp_IZR. ring. Qed.
Lemma grid_add k x y : grid k x -> grid k y -> grid k (x + y).
Proof. intros [n ->] [m ->]. exists (n + m)%Z. rewrite plus_IZR. ring. Qed.
Lemma grid_mul j k x y : grid j x -> grid k y -> grid (j + k) (x * y).
Proof. intros [n ->] [m ->]. exists (n * m)%Z. rewrite mult_IZR, bpow_plus. ring. Qed.
Lemma grid_min k x : grid k x -> x = 0 \/ bp k <= Rabs x.
Proof.
  intros [n ->]. destruct (Z.eq_dec n 0) as [-> |N]; [left; ring|right].
  rewrite Rabs_mult, <- abs_IZR, (Rabs_pos_eq (bp k)) by apply bpow_ge_0. pose proof (bpow_gt_0 radix2 k).
  assert (1 <= IZR (Z.abs n)) by (apply IZR_le; lia). nra.
Qed.
Lemma grid_format k x fexp : grid k x -> (x <> 0 -> (cexp radix2 fexp x <= k)%Z) -> generic_format radix2 fexp x.
Proof.
  intros [n ->] H. change (IZR n * bp k) with (F2R (Float radix2 n k)) in *. apply generic_format_F2R. intros N. apply H.
  intros E. apply eq_0_F2R in E. easy.
Qed.
Lemma float_grid m x : fmt 53 x -> x = 0 \/ bp m <= Rabs x -> grid (m - 52) x.
Proof.
  intros F [-> |H]; [apply grid_0|]. apply (grid_le _ (cexp radix2 (FLX_exp 53) x)).
  - unfold cexp, FLX_exp. pose proof (mag_ge_bpow radix2 x (m + 1)) as M. replace (m + 1 - 1)%Z with m in M by lia. specialize (M H). lia.
  - exists (Ztrunc (scaled_mantissa radix2 (FLX_exp 53) x)). exact F.
Qed.
Lemma rnd_ok_format x : generic_format radix2 (FLX_exp 53) x -> rnd 53 x = x.
Proof. intros. now apply (rnd_fmt 53). Qed.
Lemma grid_rnd k x : grid k x -> grid k (rnd 53 x).
Proof.
  intros G. destruct (Z_le_gt_dec (cexp radix2 (FLX_exp 53) x) k) as [H|H].
  - rewrite rnd_ok_format; [exact G|]. apply (grid_format k); [exact G|]. intros _. exact H.
  - apply (grid_le _ (cexp radix2 (FLX_exp 53) x)); [lia|]. unfold rnd, round. eexists. unfold F2R. cbn. reflexivity.
Qed.
Lemma rnd64_normal x : bp (-1022) <= Rabs x -> rnd64 x = rnd 53 x.
Proof. intros H. unfold rnd64, rnd. apply round_FLT_FLX. exact H. Qed.
Lemma rnd64_0 : rnd64 0 = 0. Proof. apply round_0. typeclasses eauto. Qed.
Lemma rnd64_nz x m : (-1022 <= m)%Z -> x = 0 \/ bp m <= Rabs x -> rnd64 x = rnd 53 x.
Proof.
  intros Hm [-> |H]; [rewrite rnd64_0, (rnd_0 53); reflexivity|]. apply rnd64_normal. apply Rle_trans with (2 := H). now apply bpow_le.
Qed.
Lemma rnd64_grid x k : (-1074 <= k)%Z -> grid k x -> rnd64 x = rnd 53 x.
Proof.
  intros Hk G. destruct (Rle_lt_dec (bp (-1022)) (Rabs x)) as [H|H]; [now apply rnd64_normal|].
  assert (M : x <> 0 -> (mag radix2 x <= -1022)%Z) by (intros N; apply mag_le_bpow; assumption).
  assert (A : rnd 53 x = x). { apply rnd_ok_format, (grid_format k); [exact G|]. intros N. specialize (M N). unfold cexp, FLX_exp. lia. }
  rewrite A. unfold rnd64. apply round_generic; [typeclasses eauto|]. apply (grid_format k); [exact G|]. intros N. specialize (M N).
  unfold cexp, FLT_exp. lia.
Qed.
Lemma fmt_bp k : fmt 53 (bp k). Proof. apply generic_format_bpow. unfold FLX_exp. lia. Qed.
Lemma rnd_up x K : Rabs x <= bp K -> Rabs (rnd 53 x) <= bp K.
Proof. intros H. apply abs_round_le_generic; [exact (FLX_exp_valid 53)|typeclasses eauto|apply fmt_bp|exact H]. Qed.
Lemma rnd_lo x m : x = 0 \/ bp m <= Rabs x -> rnd 53 x = 0 \/ bp m <= Rabs (rnd 53 x).
Proof.
  intros [-> |H]; [left; apply (rnd_0 53)|right]. apply abs_round_ge_generic; [exact (FLX_exp_valid 53)|typeclasses eauto|apply fmt_bp|exact H].
Qed.

(** ** The relation *)
Definition sim (k m K : Z) (b : b64) (x : num) : Prop :=
  is_finite b = true /\ x = Fin (B2R b) /\ grid k (B2R b) /\ (B2R b = 0 \/ bp m <= Rabs (B2R b)) /\ Rabs (B2R b) <= bp K.
Lemma sim_weaken k m K k' m' K' b x : sim k m K b x -> (k' <= k)%Z -> (m' <= m)%Z -> (K <= K')%Z -> sim k' m' K' b x.
Proof.
  intros (A & B & C & D & E) H1 H2 H3. repeat split; auto.
  - now apply (grid_le _ k).
  - destruct D as [D|D]; [now left|right]. apply Rle_trans with (2 := D). now apply bpow_le.
  - apply Rle_trans with (1 := E). now apply bpow_le.
Qed.
Lemma sim_low k m K m' b x : sim k m K b x -> B2R b = 0 \/ bp m' <= Rabs (B2R b) -> sim k m' K b x.
Proof. intros (A & B & C & D & E) H. repeat split; auto. Qed.
Lemma b64_fmt (b : b64) : fmt 53 (B2R b).
Proof.
  apply (generic_format_FLX_FLT radix2 (-1074)). exact (generic_format_B2R 53 1024 b).
Qed.
(** a finite double of moderate size *)
Lemma sim_in m K b : is_finite b = true -> B2R b = 0 \/ bp m <= Rabs (B2R b) -> Rabs (B2R b) <= bp K ->
  sim (m - 52) m K b (Fin (B2R b)).
Proof. intros F L U. repeat split; auto. apply float_grid; [apply b64_fmt|exact L]. Qed.
(** every finite double *)
Lemma sim_any K b : is_finite b = true -> Rabs (B2R b) <= bp K -> sim (-1074) (-1074) K b (Fin (B2R b)).
Proof.
  intros F U. assert (G : grid (-1074) (B2R b)).
  { pose proof (generic_format_B2R 53 1024 b) as G. change (SpecFloat.fexp 53 1024) with (FLT_exp (-1074) 53) in G.
    apply FLT_format_generic in G; [|exact p53]. destruct G as [[n e] G1 G2 G3]. rewrite G1. unfold F2R. cbn in *.
    apply (grid_le _ e); [exact G3|]. now exists n. }
  repeat split; auto. now apply grid_min.
Qed.
Lemma sim_mk k m K b x z : nearest b z -> rnd64 z = rnd 53 z -> x = Fin (rnd 53 z) ->
  grid k z \/ (k <= m - 52)%Z -> z = 0 \/ bp m <= Rabs z -> Rabs z <= bp K -> sim k m K b x.
Proof.
  intros [F E] R X G L U. rewrite R in E. repeat split; auto; rewrite ?E; auto.
  - destruct G as [G|G]; [now apply grid_rnd|]. apply (grid_le _ (m - 52)); [exact G|]. apply float_grid; [apply (fmt_rnd 53 ltac:(lia))|].
    now apply rnd_lo.
  - now apply rnd_lo.
  - now apply rnd_up.
Qed.
Lemma range_bp z K : rnd64 z = rnd 53 z -> Rabs z <= bp K -> (K <= 1023)%Z -> in_range z.
Proof.
  intros E U H. unfold in_range. rewrite E. apply Rle_lt_trans with (bp K); [now apply rnd_up|]. apply bpow_lt. lia.
Qed.

Section Ops.
Context (L : blib) (M : libm).
Notation B := (NP_b64 L).
Notation N := (NP_rd (rnd 53) M).

Lemma sim_add k m K k' m' K' a b x y : sim k m K a x -> sim k' m' K' b y ->
  (-1074 <= Z.min k k')%Z -> (Z.max K K' <= 1022)%Z ->
  sim (Z.min k k') (Z.min k k') (Z.max K K' + 1) (@add _ B a b) (@add _ N x y).
Proof.
  intros (Fa & Xa & Ga & La & Ua) (Fb & Xb & Gb & Lb & Ub) Hk HK. subst x y.
  assert (G : grid (Z.min k k') (B2R a + B2R b)) by (apply grid_add; [apply (grid_le _ k)|apply (grid_le _ k')]; auto; lia).
  assert (U : Rabs (B2R a + B2R b) <= bp (Z.max K K' + 1)).
  { rewrite bpow_plus. change (bp 1) with 2. pose proof (Rabs_triang (B2R a) (B2R b)).
    pose proof (bpow_le radix2 K (Z.max K K') ltac:(lia)). pose proof (bpow_le radix2 K' (Z.max K K') ltac:(lia)). lra. }
  assert (R : rnd64 (B2R a + B2R b) = rnd 53 (B2R a + B2R b)) by (apply (rnd64_grid _ _ Hk G)).
  apply (sim_mk _ _ _ _ _ (B2R a + B2R b)); auto; [|now apply grid_min].
  apply (C88_rounding L a b Fa Fb). apply (range_bp _ _ R U). lia.
Qed.
Lemma sim_opp k m K a x : sim k m K a x -> sim k m K (@opp _ B a) (@opp _ N x).
Proof.
  intros (Fa & Xa & Ga & La & Ua). subst x. cbn [opp NP_b64 NP_rd num_opp]. unfold sim. rewrite is_finite_Bopp, B2R_Bopp, Rabs_Ropp.
  repeat split; auto. { now apply grid_opp. } destruct La as [-> |La]; [left; ring|now right].
Qed.
Lemma sim_sub k m K k' m' K' a b x y : sim k m K a x -> sim k' m' K' b y ->
  (-1074 <= Z.min k k')%Z -> (Z.max K K' <= 1022)%Z ->
  sim (Z.min k k') (Z.min k k') (Z.max K K' + 1) (@sub _ B a b) (@sub _ N x y).
Proof.
  intros (Fa & Xa & Ga & La & Ua) (Fb & Xb & Gb & Lb & Ub) Hk HK. subst x y.
  assert (G : grid (Z.min k k') (B2R a - B2R b)) by (apply grid_add; [apply (grid_le _ k)|apply grid_opp, (grid_le _ k')]; auto; lia).
  assert (U : Rabs (B2R a - B2R b) <= bp (Z.max K K' + 1)).
  { rewrite bpow_plus. change (bp 1) with 2. pose proof (Rabs_triang (B2R a) (- B2R b)) as T. rewrite Rabs_Ropp in T.
    pose proof (bpow_le radix2 K (Z.max K K') ltac:(lia)). pose proof (bpow_le radix2 K' (Z.max K K') ltac:(lia)).
    unfold Rminus. lra. }
  assert (R : rnd64 (B2R a - B2R b) = rnd 53 (B2R a - B2R b)) by (apply (rnd64_grid _ _ Hk G)).
  apply (sim_mk _ _ _ _ _ (B2R a - B2R b)); auto; [|now apply grid_min].
  apply (C88_rounding L a b Fa Fb). apply (range_bp _ _ R U). lia.
Qed.
Lemma mag_mul x y m m' : x = 0 \/ bp m <= Rabs x -> y = 0 \/ bp m' <= Rabs y -> x * y = 0 \/ bp (m + m') <= Rabs (x * y).
Proof.
  intros [-> |H] [-> |H']; try (left; ring). right. rewrite Rabs_mult, bpow_plus.
  apply Rmult_le_compat; auto; apply bpow_ge_0.
Qed.
Lemma sim_mul k m K k' m' K' a b x y : sim k m K a x -> sim k' m' K' b y ->
  (-1022 <= m + m')%Z -> (K + K' <= 1023)%Z ->
  sim (Z.max (m + m' - 52) (k + k')) (m + m') (K + K') (@mul _ B a b) (@mul _ N x y).
Proof.
  intros (Fa & Xa & Ga & La & Ua) (Fb & Xb & Gb & Lb & Ub) Hk HK. subst x y.
  assert (G : grid (k + k') (B2R a * B2R b)) by now apply grid_mul.
  assert (Lo : B2R a * B2R b = 0 \/ bp (m + m') <= Rabs (B2R a * B2R b)) by now apply mag_mul.
  assert (U : Rabs (B2R a * B2R b) <= bp (K + K')).
  { rewrite Rabs_mult, bpow_plus. apply Rmult_le_compat; auto; apply Rabs_pos. }
  assert (R : rnd64 (B2R a * B2R b) = rnd 53 (B2R a * B2R b)) by (apply (rnd64_nz _ _ Hk Lo)).
  apply (sim_mk _ _ _ _ _ (B2R a * B2R b)); auto.
  - apply (C88_rounding L a b Fa Fb). now apply (range_bp _ _ R U).
  - destruct (Z_le_gt_dec (k + k') (m + m' - 52)); [right; lia|left]. now rewrite Z.max_r by lia.
Qed.
Lemma sim_div k m K k' m' K' a b x y : sim k m K a x -> sim k' m' K' b y -> B2R b <> 0 ->
  (-1022 <= m - K')%Z -> (K - m' <= 1023)%Z ->
  sim (m - K' - 52) (m - K') (K - m') (@div _ B a b) (@div _ N x y).
Proof.
  intros (Fa & Xa & Ga & La & Ua) (Fb & Xb & Gb & Lb & Ub) Nb Hk HK. subst x y.
  assert (P : 0 < Rabs (B2R b)) by now apply Rabs_pos_lt.
  assert (Lb' : bp m' <= Rabs (B2R b)) by (destruct Lb; [easy|assumption]).
  assert (Lo : B2R a / B2R b = 0 \/ bp (m - K') <= Rabs (B2R a / B2R b)).
  { destruct La as [-> |La]; [left; unfold Rdiv; ring|right]. unfold Rdiv, Zminus. rewrite bpow_plus, bpow_opp, Rabs_mult, Rabs_inv.
    apply Rmult_le_compat; auto; try apply bpow_ge_0; [apply Rlt_le, Rinv_0_lt_compat, bpow_gt_0|]. apply Rinv_le; auto. }
  assert (U : Rabs (B2R a / B2R b) <= bp (K - m')).
  { unfold Rdiv, Zminus. rewrite bpow_plus, bpow_opp, Rabs_mult, Rabs_inv.
    apply Rmult_le_compat; auto; try apply Rabs_pos; [now apply Rlt_le, Rinv_0_lt_compat|]. apply Rinv_le; [apply bpow_gt_0|assumption]. }
  assert (R : rnd64 (B2R a / B2R b) = rnd 53 (B2R a / B2R b)) by (apply (rnd64_nz _ _ Hk Lo)).
  apply (sim_mk _ _ _ _ _ (B2R a / B2R b)); auto.
  - apply (C88_rounding L a b Fa Fb); [exact Nb|]. now apply (range_bp _ _ R U).
  - cbn [div NP_rd num_div]. destruct (Req_EM_T (B2R b) 0); [easy|]. reflexivity.
  - right. lia.
Qed.
Lemma sqrt_bp2 j : sqrt (bp (j + j)) = bp j.
Proof. rewrite bpow_plus. apply sqrt_square, bpow_ge_0. Qed.
Lemma sim_sqrt k m K m' K' a x : sim k m K a x -> 0 <= B2R a -> (2 * m' <= m)%Z -> (K <= 2 * K')%Z ->
  (-1022 <= m')%Z ->
  sim (m' - 52) m' K' (@nsqrt _ B a) (@nsqrt _ N x).
Proof.
  intros (Fa & Xa & Ga & La & Ua) P Hm HK Hr. subst x.
  rewrite Rabs_pos_eq in Ua, La by assumption.
  assert (Lo : sqrt (B2R a) = 0 \/ bp m' <= Rabs (sqrt (B2R a))).
  { destruct La as [-> |La]; [left; apply sqrt_0|right]. rewrite Rabs_pos_eq by apply sqrt_pos. rewrite <- sqrt_bp2. apply sqrt_le_1_alt.
    apply Rle_trans with (2 := La). apply bpow_le. lia. }
  assert (U : Rabs (sqrt (B2R a)) <= bp K').
  { rewrite Rabs_pos_eq by apply sqrt_pos. rewrite <- sqrt_bp2. apply sqrt_le_1_alt. apply Rle_trans with (1 := Ua). apply bpow_le. lia. }
  assert (R : rnd64 (sqrt (B2R a)) = rnd 53 (sqrt (B2R a))) by (apply (rnd64_nz _ _ Hr Lo)).
  apply (sim_mk _ _ _ _ _ (sqrt (B2R a))); auto.
  - now apply (C88_rounding L a a Fa Fa).
  - cbn [nsqrt NP_rd num_sqrt]. destruct (Rlt_dec (B2R a) 0); [lra|]. reflexivity.
  - right. lia.
Qed.
Lemma sim_ltb k m K k' m' K' a b x y : sim k m K a x -> sim k' m' K' b y -> @ltb _ B a b = @ltb _ N x y.
Proof.
  intros (Fa & -> & _) (Fb & -> & _). cbn [ltb NP_b64 NP_rd num_ltb]. rewrite Bltb_correct by assumption.
  unfold Rltb. destruct (Rlt_bool_spec (B2R a) (B2R b)), (Rlt_dec (B2R a) (B2R b)); auto; lra.
Qed.
Lemma sim_leb k m K k' m' K' a b x y : sim k m K a x -> sim k' m' K' b y -> @leb _ B a b = @leb _ N x y.
Proof.
  intros (Fa & -> & _) (Fb & -> & _). cbn [leb NP_b64 NP_rd num_leb]. rewrite Bleb_correct by assumption.
  unfold Rleb. destruct (Rle_bool_spec (B2R a) (B2R b)), (Rle_dec (B2R a) (B2R b)); auto; lra.
Qed.
Lemma sim_eqb k m K k' m' K' a b x y : sim k m K a x -> sim k' m' K' b y -> @eqb _ B a b = @eqb _ N x y.
Proof.
  intros (Fa & -> & _) (Fb & -> & _). cbn [eqb NP_b64 NP_rd num_eqb]. rewrite Beqb_correct by assumption.
  unfold Reqb. destruct (Req_bool_spec (B2R a) (B2R b)), (Req_EM_T (B2R a) (B2R b)); auto; lra.
Qed.
End Ops.
