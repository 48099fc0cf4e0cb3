(** * C90: the conversions in IEEE binary64, overflow and underflow included. *)
From Coq Require Import Bool ZArith QArith Qreals Reals Lra Lia List.
From Flocq Require Import Core.Core IEEE754.BinarySingleNaN.
From Verif Require Import NP NPReal NPFloat FloatBase NPB64 KeplerModel ConvModel Lists ConvCols ArraySpec PropsArray.
From Verif Require Import Spec RealBase KepReal PropsKep FloatAcc PropsFloat PropsFloatAcc PropsFloatC2K PropsFloatRT PropsFloatRTK PropsB64.
From Verif Require Import B64Sim B64Pi B64Lib B64K2C B64C2K.
Import ListNotations.
Local Open Scope R_scope.

(** ** Numbers of moderate size *)
Definition sized (m K : Z) (b : b64) : Prop :=
  is_finite b = true /\ (B2R b = 0 \/ bp m <= Rabs (B2R b)) /\ Rabs (B2R b) <= bp K.
(** zero, or between 2^-100 and 2^100 (the eccentricity up to 1024); no sine or cosine of an angle is tiny without being zero *)
Definition no_tiny (L : blib) (t : b64) : Prop :=
  forall y, In y [bl_sin L t; bl_cos L t] -> B2R y = 0 \/ bp (-100) <= Rabs (B2R y).
Definition tame_kep (L : blib) (mu : b64) (k : six b64) : Prop :=
  sized (-100) 100 (s0 k) /\ sized (-100) 10 (s1 k) /\ sized (-100) 100 mu /\
  forall t, In t [s2 k; s3 k; s4 k; s5 k] -> is_finite t = true /\ no_tiny L t.
(** position about 2^p, velocity about 2^q, gravitational parameter about 2^w; a component is zero or not smaller than
    2^-90 times the largest; r v^2 / mu between 2^-80 and 2^20 *)
Definition vec_size (p : Z) (l : list b64) : Prop :=
  (forall c, In c l -> sized (p - 90) p c) /\ exists c, In c l /\ bp (p - 1) <= Rabs (B2R c).
Definition tame_cart (mu : b64) (x : six b64) : Prop :=
  exists p q w : Z, (-100 <= p <= 100)%Z /\ (-100 <= q <= 100)%Z /\ (-100 <= w <= 100)%Z /\ (-80 <= p + 2 * q - w <= 20)%Z /\
    vec_size p [s0 x; s1 x; s2 x] /\ vec_size q [s3 x; s4 x; s5 x] /\
    is_finite mu = true /\ bp w <= Rabs (B2R mu) <= bp (w + 1).

Lemma sized_sim m K b : sized m K b -> sim (m - 52) m K b (Fin (B2R b)).
Proof. intros (F & H & U). now apply sim_in. Qed.
Lemma simv_out k m K a x : simv k m K a (fin6 x) -> fin64 a /\ real6 a = x.
Proof.
  intros (S0 & S1 & S2 & S3 & S4 & S5). unfold fin6, map6 in *. cbn [s0 s1 s2 s3 s4 s5] in *. split.
  - repeat split; match goal with S : sim _ _ _ ?b _ |- is_finite ?b = true => apply S end.
  - destruct x as [x0 x1 x2 x3 x4 x5]. unfold real6, map6. cbn [s0 s1 s2 s3 s4 s5] in *.
    f_equal; eapply sim_val; eassumption.
Qed.
Lemma nf6_fin x : nf6 (fin6 x).
Proof. unfold nf6, fin6, map6. cbn. tauto. Qed.

Section Columns.
Context (L : blib) (HL : lib64 L).
Notation B := (NP_b64 L).
Notation N := (NP_rd (rnd 53) (real_lib L)).
Lemma k2c_col64 k mu y : tame_kep L mu k ->
  @k2c_col _ N (@edit_col _ N false (fin6 (real6 k))) (Fin (B2R mu)) = fin6 y ->
  fin64 (@k2c_col _ B (@edit_col _ B false k) mu) /\ real6 (@k2c_col _ B (@edit_col _ B false k) mu) = y.
Proof using HL.
  intros (Sa & Se & Sm & Sang) E. apply (simv_out (-1074) (-1074) 1000). rewrite <- E.
  apply sized_sim in Sa, Se, Sm.
  assert (T : forall t, In t [s2 k; s3 k; s4 k; s5 k] -> sim (-152) (-100) 1 (@nsin _ B t) (@nsin _ N (Fin (B2R t))) /\ sim (-152) (-100) 1 (@ncos _ B t) (@ncos _ N (Fin (B2R t)))).
  { intros t Ht. destruct (Sang t Ht) as [F Nt]. split; [apply (sim_sin L HL (-100))|apply (sim_cos L HL (-100))]; auto; apply Nt; cbn; auto. }
  destruct k as [a e i om Om nu]. unfold edit_col, real6, fin6, map6. cbn [s0 s1 s2 s3 s4 s5] in *.
  apply k2c_sim; cbn [s0 s1 s2 s3 s4 s5]; auto; try (apply T; cbn; tauto).
  - rewrite (sim_ltb L (real_lib L) _ _ _ _ _ _ _ _ _ _ (sim_1 L) Se). destruct (ltb _ _); [|exact Sa].
    smul L Sa (sim_m1 L) T1 (-152)%Z (-100)%Z 100%Z. exact T1.
  - unfold edit_col, real6, fin6, map6 in E. cbn [s0 s1 s2 s3 s4 s5] in E. rewrite E. apply nf6_fin.
Qed.
Lemma c2k_sime x mu : tame_cart mu x -> nf6 (@c2k_col _ N false (fin6 (real6 x)) (Fin (B2R mu))) ->
  sime (@c2k_col _ B false x mu) (@c2k_col _ N false (fin6 (real6 x)) (Fin (B2R mu))).
Proof using HL.
  intros (p & q & w & Hp & Hq & Hw & Hz & (Sr & cr & Ir & Br) & (Sv & cv & Iv & Bv) & Fm & Lm & Um) E.
  assert (Sm : sim (w - 52) w (w + 1) mu (Fin (B2R mu))) by (apply sim_in; auto).
  assert (W : forall p l, (forall c, In c l -> sized (p - 90) p c) -> forall c, In c l -> sim (p - 142) (p - 90) p c (Fin (B2R c))).
  { intros p0 l H c Hc. replace (p0 - 142)%Z with (p0 - 90 - 52)%Z by lia. now apply sized_sim, H. }
  destruct x as [x0 x1 x2 x3 x4 x5]. unfold real6, fin6, map6 in *. cbn [s0 s1 s2 s3 s4 s5] in *.
  apply (c2k_sim L HL p q w); auto; unfold sim3, some_big, c0, c1, c2; cbn [fst snd s0 s1 s2 s3 s4 s5].
  - intros Z. rewrite Z, Rabs_R0 in Lm. pose proof (bpow_gt_0 radix2 w). lra.
  - repeat match goal with |- _ /\ _ => split end; apply (W p _ Sr); cbn; tauto.
  - repeat match goal with |- _ /\ _ => split end; apply (W q _ Sv); cbn; tauto.
  - destruct Ir as [<- |[<- |[<- |[]]]]; auto.
  - destruct Iv as [<- |[<- |[<- |[]]]]; auto.
Qed.
Lemma c2k_col64 x mu y : tame_cart mu x -> @c2k_col _ N false (fin6 (real6 x)) (Fin (B2R mu)) = fin6 y ->
  fin64 (@c2k_col _ B false x mu) /\ real6 (@c2k_col _ B false x mu) = y.
Proof using HL.
  intros T E. apply (simv_out (-1074) (-1074) 1000). rewrite <- E. apply sime_simv, c2k_sime; auto. rewrite E. apply nf6_fin.
Qed.
End Columns.

(** ** The run is the run with 53 digits and unbounded exponents *)
Theorem C90_same_kep_to_cart : forall L mu k y g g', lib64 L -> tame_kep L mu k ->
  snd (@kep_to_cart num (NP_rd (rnd 53) (real_lib L)) g' (KVec (fin6 (real6 k))) (MuS (Fin (B2R mu))) false) = Ok (KVec (fin6 y)) ->
  exists y', snd (@kep_to_cart b64 (NP_b64 L) g (KVec k) (MuS mu) false) = Ok (KVec y') /\ fin64 y' /\ real6 y' = y.
Proof.
  intros L mu k y g g' HL T E.
  destruct (@kep_to_cart_vec num (NP_rd (rnd 53) (real_lib L)) g' (fin6 (real6 k)) (MuS (Fin (B2R mu))) false [Fin (B2R mu)] eq_refl) as [m [Em Ev]].
  assert (m = Fin (B2R mu)) as -> by congruence. rewrite Ev in E. cbn [snd] in E. clear Ev Em.
  destruct (@kep_to_cart_vec b64 (NP_b64 L) g k (MuS mu) false [mu] eq_refl) as [m [Em Ev]]. assert (m = mu) as -> by congruence.
  rewrite Ev. cbn [snd]. eexists. split; [reflexivity|]. apply k2c_col64; auto. congruence.
Qed.
Theorem C90_same_cart_to_kep : forall L mu x y g g', lib64 L -> tame_cart mu x ->
  snd (@cart_to_kep num (NP_rd (rnd 53) (real_lib L)) g' (KVec (fin6 (real6 x))) (MuS (Fin (B2R mu))) false) = Ok (KVec (fin6 y)) ->
  exists y', snd (@cart_to_kep b64 (NP_b64 L) g (KVec x) (MuS mu) false) = Ok (KVec y') /\ fin64 y' /\ real6 y' = y.
Proof.
  intros L mu x y g g' HL T E.
  destruct (@cart_to_kep_vec num (NP_rd (rnd 53) (real_lib L)) g' (fin6 (real6 x)) (MuS (Fin (B2R mu))) false [Fin (B2R mu)] eq_refl) as [m [Em Ev]].
  assert (m = Fin (B2R mu)) as -> by congruence. rewrite Ev in E. cbn [snd] in E. clear Ev Em.
  destruct (@cart_to_kep_vec b64 (NP_b64 L) g x (MuS mu) false [mu] eq_refl) as [m [Em Ev]]. assert (m = mu) as -> by congruence.
  rewrite Ev. cbn [snd]. eexists. split; [reflexivity|]. apply c2k_col64; auto. congruence.
Qed.

(** ** Accuracy in double precision *)
Theorem C90_kep_to_cart : forall L mu k K x g, lib64 L -> tame_kep L mu k ->
  valid_kep (B2R mu) (real6 k) -> cond_ok (k_e (real6 k)) (k_nu (real6 k)) K -> K * ulp1 53 <= / 10000 -> state_of (B2R mu) (real6 k) x ->
  exists y, snd (@kep_to_cart b64 (NP_b64 L) g (KVec k) (MuS mu) false) = Ok (KVec y) /\ fin64 y /\ close (130 * (K * ulp1 53)) (real6 y) x.
Proof.
  intros L mu k K x g HL T Hv HK HKu Sx.
  destruct (C77_kep_to_cart (rnd 53) (ulp1 53) (real_lib L) (B2R mu) (real6 k) K x (fun _ => NaN) (binary_rounding 53 ltac:(lia)) (real_trig_acc L HL) Hv HK HKu Sx)
    as (y & E & C).
  destruct (C90_same_kep_to_cart L mu k y g _ HL T E) as (y' & E' & F & <-). eauto.
Qed.
Theorem C90_cart_to_kep : forall L mu k x g, lib64 L -> tame_cart mu x ->
  valid_kep (B2R mu) k -> regular_kep (ulp1 53) k -> state_of (B2R mu) k (real6 x) ->
  exists k', snd (@cart_to_kep b64 (NP_b64 L) g (KVec x) (MuS mu) false) = Ok (KVec k') /\ fin64 k' /\ elements_within (ulp1 53) (real6 k') k.
Proof.
  intros L mu k x g HL T Hv Hk Sx.
  destruct (C83_cart_to_kep 53 (real_lib L) (B2R mu) k (real6 x) (fun _ _ => NaN) ltac:(lia) (real_acos_ok L HL) (real_acos_acc L HL) Hv Hk Sx) as (k' & E & C).
  destruct (C90_same_cart_to_kep L mu x k' g _ HL T E) as (y' & E' & F & <-). eauto.
Qed.
(** arrays: every column *)
Theorem C90_array : forall L K g g' ks mus, lib64 L -> K * ulp1 53 <= / 10000 -> length mus = length ks ->
  (forall j k mu, nth_error ks j = Some k -> nth_error mus j = Some mu ->
     tame_kep L mu k /\ valid_kep (B2R mu) (real6 k) /\ cond_ok (k_e (real6 k)) (k_nu (real6 k)) K) ->
  exists ys, snd (@kep_to_cart b64 (NP_b64 L) g (KMat ks) (MuV mus) false) = Ok (KMat ys) /\ length ys = length ks /\
    (forall j k mu y x, nth_error ks j = Some k -> nth_error mus j = Some mu -> nth_error ys j = Some y ->
      state_of (B2R mu) (real6 k) x -> fin64 y /\ close (130 * (K * ulp1 53)) (real6 y) x) /\
  exists os, snd (@cart_to_kep b64 (NP_b64 L) g' (KMat ys) (MuV mus) false) = Ok (KMat os) /\ length os = length ks /\
    (forall j y mu o k, nth_error ys j = Some y -> nth_error mus j = Some mu -> nth_error os j = Some o ->
      tame_cart mu y -> valid_kep (B2R mu) k -> regular_kep (ulp1 53) k -> state_of (B2R mu) k (real6 y) ->
      fin64 o /\ elements_within (ulp1 53) (real6 o) k).
Proof.
  intros L K g g' ks mus HL HK Hlen H.
  assert (E : @mu_mask b64 (length ks) (MuV mus) = Ok mus) by (cbn [mu_mask]; rewrite Hlen, Nat.eqb_refl; reflexivity).
  rewrite (@kep_to_cart_mat b64 (NP_b64 L) g ks (MuV mus) false _ E). cbn [snd].
  set (ys := map2 _ ks mus). assert (Ly : length ys = length ks) by (unfold ys; rewrite map2_length, Hlen; apply Nat.min_id).
  exists ys. split; [reflexivity|]. split; [exact Ly|]. split.
  - intros j k mu y x Hk Hm Hy Sx. unfold ys in Hy. rewrite nth_error_map2, Hk, Hm in Hy.
    assert (Ey : y = @k2c_col b64 (NP_b64 L) (@edit_col b64 (NP_b64 L) false k) mu) by congruence. clear Hy. subst y.
    destruct (H j k mu Hk Hm) as (T & V & C).
    destruct (C90_kep_to_cart L mu k K x g HL T V C HK Sx) as (y & Ey & F & Cl).
    destruct (@kep_to_cart_vec b64 (NP_b64 L) g k (MuS mu) false [mu] eq_refl) as [m [Em Ev]]. assert (m = mu) as -> by congruence.
    rewrite Ev in Ey. cbn [snd] in Ey. assert (@k2c_col b64 (NP_b64 L) (@edit_col b64 (NP_b64 L) false k) mu = y) as -> by congruence. auto.
  - assert (E2 : @mu_bcast b64 (length ys) (MuV mus) = Ok mus) by (cbn [mu_bcast]; rewrite Hlen, <- Ly, Nat.eqb_refl; reflexivity).
    rewrite (@cart_to_kep_mat b64 (NP_b64 L) g' ys (MuV mus) false _ E2). cbn [snd].
    eexists. split; [reflexivity|]. split; [rewrite map2_length, Hlen, Ly; apply Nat.min_id|].
    intros j y mu o k Hy Hm Ho T V C Sx. rewrite nth_error_map2, Hy, Hm in Ho.
    assert (Eo : o = @c2k_col b64 (NP_b64 L) false y mu) by congruence. clear Ho. subst o.
    destruct (C90_cart_to_kep L mu k y g' HL T V C Sx) as (o & Eo & F & Cl).
    destruct (@cart_to_kep_vec b64 (NP_b64 L) g' y (MuS mu) false [mu] eq_refl) as [m [Em Ev]]. assert (m = mu) as -> by congruence.
    rewrite Ev in Eo. cbn [snd] in Eo. assert (@c2k_col b64 (NP_b64 L) false y mu = o) as -> by congruence. auto.
Qed.
(** round trips; the intermediate result must be of moderate size too *)
Theorem C90_kepler_roundtrip : forall L mu k g g', lib64 L -> tame_kep L mu k -> valid_kep (B2R mu) (real6 k) -> regular_kep2 (ulp1 53) (real6 k) ->
  exists x, snd (@kep_to_cart b64 (NP_b64 L) g (KVec k) (MuS mu) false) = Ok (KVec x) /\ fin64 x /\
    (tame_cart mu x -> exists k', snd (@cart_to_kep b64 (NP_b64 L) g' (KVec x) (MuS mu) false) = Ok (KVec k') /\ fin64 k' /\
       returned (ulp1 53) (real6 k') (real6 k)).
Proof.
  intros L mu k g g' HL T V C.
  destruct (C85_roundtrip 53 (real_lib L) (B2R mu) (real6 k) (fun _ => NaN) (fun _ _ => NaN) ltac:(lia) (real_acos_ok L HL) (real_acos_acc L HL) (real_trig_acc L HL) V C)
    as (x & k' & E1 & E2 & R).
  destruct (C90_same_kep_to_cart L mu k x g _ HL T E1) as (x' & E1' & F & <-). exists x'. split; [exact E1'|]. split; [exact F|].
  intros Tx. destruct (C90_same_cart_to_kep L mu x' k' g' _ HL Tx E2) as (k2 & E2' & F2 & <-). eauto.
Qed.
Theorem C90_cartesian_roundtrip : forall L mu k x g g', lib64 L -> tame_cart mu x -> valid_kep (B2R mu) k -> regular_kep (ulp1 53) k ->
  state_of (B2R mu) k (real6 x) ->
  let w := ulp1 53 / (k_e k * (1 - k_e k) * sin (k_i k)) in
  exists k', snd (@cart_to_kep b64 (NP_b64 L) g (KVec x) (MuS mu) false) = Ok (KVec k') /\ fin64 k' /\
    (tame_kep L mu k' -> exists y, snd (@kep_to_cart b64 (NP_b64 L) g' (KVec k') (MuS mu) false) = Ok (KVec y) /\ fin64 y /\
       near (290 * sqrt w) (290 * sqrt w / (1 - k_e k)) (real6 y) (real6 x) /\
       forall s, 0 < s -> s <= Rabs (sin (k_i k)) -> s <= Rabs (sin (k_om k)) -> s <= Rabs (sin (k_Om k)) -> s <= Rabs (sin (k_nu k)) ->
         near (13600 * w / s) (13600 * w / s / (1 - k_e k)) (real6 y) (real6 x)).
Proof.
  intros L mu k x g g' HL T V C Sx w.
  destruct (C84_roundtrip 53 (real_lib L) (B2R mu) k (real6 x) (fun _ _ => NaN) (fun _ => NaN) ltac:(lia) (real_acos_ok L HL) (real_acos_acc L HL) (real_trig_acc L HL) V C Sx)
    as (k' & y & E1 & E2 & R1 & R2).
  destruct (C90_same_cart_to_kep L mu x k' g _ HL T E1) as (k2 & E1' & F & <-). exists k2. split; [exact E1'|]. split; [exact F|].
  intros Tk. destruct (C90_same_kep_to_cart L mu k2 y g' _ HL Tk E2) as (y' & E2' & F2 & <-). exists y'.
  exact (conj E2' (conj F2 (conj R1 R2))).
Qed.

(** ** Hypotheses met *)
(** an angle whose sine and cosine are not small is harmless *)
Lemma no_tiny_far L t : lib64 L -> is_finite t = true -> bp (-50) <= Rabs (sin (B2R t)) -> bp (-50) <= Rabs (cos (B2R t)) -> no_tiny L t.
Proof.
  intros HL F Hs Hc y Hy. right.
  assert (Q : forall z s, Rabs (z - s) <= 2 * ulp1 53 -> bp (-50) <= Rabs s -> bp (-100) <= Rabs z).
  { intros z s H1 H2. pose proof (Rabs_triang_inv s (s - z)) as T. replace (s - (s - z)) with z in T by ring.
    rewrite Rabs_minus_sym in H1. unfold ulp1 in H1. change (- (53))%Z with (-53)%Z in H1.
    assert (bp (-50) = 8 * bp (-53)) as E by (change (-50)%Z with (3 + -53)%Z; rewrite bpow_plus; change (bp 3) with 8; reflexivity).
    assert (bp (-100) <= bp (-53)) by (apply bpow_le; lia). pose proof (bpow_gt_0 radix2 (-53)).
    rewrite E in H2. set (b := bp (-53)) in *. clearbody b. lra. }
  destruct Hy as [<- |[<- |[]]]; [apply (Q _ (sin (B2R t)))|apply (Q _ (cos (B2R t)))]; auto; apply HL; auto.
Qed.
(** the correctly rounded library *)
Lemma to64_round x : Rabs x <= 4 -> nearest (to64 (rnd64 x)) x.
Proof.
  intros H. assert (U : Rabs (rnd64 x) <= bp 2).
  { apply abs_round_le_generic; [apply FLT_exp_valid; reflexivity|apply valid_rnd_N|apply generic_format_bpow; unfold FLT_exp; lia|exact H]. }
  assert (G : generic_format radix2 (FLT_exp (-1074) 53) (rnd64 x)) by (apply generic_format_round; [apply FLT_exp_valid; reflexivity|apply valid_rnd_N]).
  pose proof (binary_normalize_correct 53 1024 b64_prec b64_emax mode_NE (Ztrunc (scaled_mantissa radix2 (FLT_exp (-1074) 53) (rnd64 x)))
    (cexp radix2 (FLT_exp (-1074) 53) (rnd64 x)) false) as M. cbv zeta in M.
  change (SpecFloat.fexp 53 1024) with (FLT_exp (-1074) 53) in M. rewrite <- G in M.
  rewrite round_generic in M; [|apply valid_rnd_round_mode|exact G].
  rewrite Rlt_bool_true in M by (apply Rle_lt_trans with (1 := U); apply bpow_lt; lia). unfold nearest, to64, bz. tauto.
Qed.
Lemma rnd64_err x B : Rabs x <= B -> 1 <= B -> Rabs (rnd64 x - x) <= B * ulp1 53.
Proof.
  intros H HB. pose proof ulp1_pos. destruct (Rle_lt_dec (bp (-1022)) (Rabs x)) as [G|G].
  - rewrite rnd64_normal by exact G. pose proof (rr_err _ _ (binary_rounding 53 ltac:(lia)) x) as E. fold (ulp1 53) in E. nra.
  - assert (U : Rabs (rnd64 x) <= bp (-1022)).
    { apply abs_round_le_generic; [apply FLT_exp_valid; reflexivity|apply valid_rnd_N|apply generic_format_bpow; unfold FLT_exp; lia|lra]. }
    pose proof (Rabs_triang (rnd64 x) (- x)) as T. rewrite Rabs_Ropp in T. unfold Rminus.
    assert (2 * bp (-1022) <= ulp1 53). { change (2 * bp (-1022)) with (bp 1 * bp (-1022)). rewrite <- bpow_plus. apply bpow_le. lia. }
    nra.
Qed.
Definition lib_exact : blib :=
  let f := fun x : b64 => x in let f2 := fun x _ : b64 => x in let c := fun (h : R -> R) (b : b64) => to64 (rnd64 (h (B2R b))) in
  Build_blib f f (c sin) (c cos) f f (c acos) f f f f f2 f2.
Lemma lib_exact_ok : lib64 lib_exact.
Proof.
  assert (S1 : forall t, Rabs (sin t) <= 1) by (intros; apply Rabs_le, SIN_bound).
  assert (C1 : forall t, Rabs (cos t) <= 1) by (intros; apply Rabs_le, COS_bound).
  assert (A4 : forall t, Rabs (acos t) <= 4) by (intros; pose proof (acos_bound t); pose proof PI_4; rewrite Rabs_pos_eq; lra).
  pose proof ulp1_pos as U.
  assert (M : forall a b, a <= b -> rnd64 a <= rnd64 b) by (intros; apply round_le; [apply FLT_exp_valid; reflexivity|apply valid_rnd_N|assumption]).
  pose proof (proj2 bpi_nearest) as EP.
  constructor; cbn [lib_exact bl_sin bl_cos bl_acos].
  - intros b _. destruct (to64_round (sin (B2R b))) as [F E]; [pose proof (S1 (B2R b)); lra|]. split; [exact F|]. rewrite E.
    pose proof (rnd64_err (sin (B2R b)) 1 (S1 _) ltac:(lra)). lra.
  - intros b _. destruct (to64_round (cos (B2R b))) as [F E]; [pose proof (C1 (B2R b)); lra|]. split; [exact F|]. rewrite E.
    pose proof (rnd64_err (cos (B2R b)) 1 (C1 _) ltac:(lra)). lra.
  - intros b _ H. destruct (to64_round (acos (B2R b))) as [F E]; [apply A4|]. split; [exact F|]. rewrite E, EP.
    split; [exact (rnd64_err (acos (B2R b)) 4 (A4 _) ltac:(lra))|]. split; [rewrite <- rnd64_0|]; apply M; apply acos_bound.
  - intros b ->. rewrite acos_1. destruct (to64_round 0) as [F E]; [rewrite Rabs_R0; lra|]. rewrite E. apply rnd64_0.
  - intros b ->. replace (-1) with (- (1)) by lra. rewrite acos_opp, acos_1, Rminus_0_r. destruct (to64_round PI) as [F E]; [rewrite Rabs_pos_eq; [apply PI_4|pose proof PI_RGT_0; lra]|].
    now rewrite E, EP.
  - intros f Hf. cbn [In] in Hf. destruct Hf as [<- |[<- |[<- |[]]]]; reflexivity.
Qed.
Definition ex_mu : b64 := bz 398600 0.
Definition ex_k : six b64 := mk6 (bz 7000 0) (bz 1 (-1)) (bz 1 0) (bz 1 0) (bz 1 0) (bz 1 0).
Lemma sized_bz m K n e : (Z.abs n < 2 ^ 53)%Z -> (-1074 <= e <= 900)%Z -> n = 0%Z \/ bp m <= Rabs (IZR n * bp e) -> Rabs (IZR n * bp e) <= bp K ->
  sized m K (bz n e).
Proof.
  intros H1 H2 H3 H4. destruct (bz_dyadic n e H1 H2) as [F E]. unfold sized. rewrite E. repeat split; auto.
  destruct H3 as [-> |H3]; [left; ring|now right].
Qed.
Ltac val n e := rewrite (proj2 (bz_dyadic n e ltac:(vm_compute; reflexivity) ltac:(lia))).
Lemma sized_1 m K : (m <= 0)%Z -> (0 <= K)%Z -> sized m K (bz 1 0).
Proof.
  intros Hm HK. apply sized_bz; try lia; rewrite Rmult_1_l, Rabs_pos_eq by apply bpow_ge_0; [right|]; now apply bpow_le.
Qed.
Lemma ex_kep_ok : let k := mk6 7000 (/ 2) 1 1 1 1 in
  B2R ex_mu = 398600 /\ real6 ex_k = k /\ valid_kep 398600 k /\ cond_ok (k_e k) (k_nu k) 3 /\ tame_kep lib_exact ex_mu ex_k.
Proof.
  intros k.
  assert (Em : B2R ex_mu = 398600) by (unfold ex_mu; val 398600%Z 0%Z; cbn; lra).
  assert (E1 : B2R (bz 1 0) = 1) by (val 1%Z 0%Z; cbn; lra).
  assert (Ek : real6 ex_k = k).
  { unfold real6, map6, ex_k, k. cbn [s0 s1 s2 s3 s4 s5]. rewrite E1. val 7000%Z 0%Z. val 1%Z (-1)%Z. f_equal; cbn; lra. }
  assert (Hv : valid_kep 398600 k). { unfold valid_kep, k. cbn. pose proof (COS_bound 1). repeat split; lra. }
  assert (HK : cond_ok (k_e k) (k_nu k) 3).
  { replace 3 with ((1 + k_e k) / (1 - k_e k)) by (unfold k, k_e; cbn; field). apply C77_ellipse_K. unfold k, k_e. cbn. lra. }
  assert (T : tame_kep lib_exact ex_mu ex_k).
  { assert (P7 : forall m K n, (1 <= m <= n)%Z -> (Z.abs n < 2 ^ 53)%Z -> IZR m <= bp K -> IZR n <= bp K -> sized (-100) K (bz n 0)).
    { intros m K n Hm Hn _ HK'. apply sized_bz; try lia; replace (IZR n * bp 0) with (IZR n) by (cbn; ring); rewrite Rabs_pos_eq by (apply IZR_le; lia).
      - right. apply Rle_trans with 1; [change 1 with (bp 0); apply bpow_le; lia|apply IZR_le; lia].
      - exact HK'. }
    assert (B100 : bp 20 <= bp 100) by (apply bpow_le; lia). assert (B20 : bp 20 = 1048576) by (cbn; lra).
    split; [|split; [|split]].
    - apply (P7 1%Z); try lia; lra.
    - apply sized_bz; try lia; rewrite Rmult_1_l, Rabs_pos_eq by apply bpow_ge_0; [right|]; apply bpow_le; lia.
    - apply (P7 1%Z); try lia; lra.
    - intros t Ht. unfold ex_k in Ht. cbn [In s2 s3 s4 s5] in Ht.
      assert (t = bz 1 0) as -> by (destruct Ht as [Ht|[Ht|[Ht|[Ht|[]]]]]; now rewrite <- Ht).
      split; [apply (bz_dyadic 1 0); [vm_compute; reflexivity|lia]|].
      apply no_tiny_far; [apply lib_exact_ok|apply (bz_dyadic 1 0); [vm_compute; reflexivity|lia]| |]; rewrite E1.
      + assert (S : 1 / 2 <= sin 1).
        { rewrite <- sin_PI6. pose proof PI2_3_2. pose proof PI_4. apply Rlt_le, sin_increasing_1; lra. }
        rewrite Rabs_pos_eq by lra. apply Rle_trans with (bp (-1)); [apply bpow_le; lia|]. cbn. lra.
      + assert (S : 1 / 2 <= cos 1).
        { rewrite <- cos_PI3. pose proof PI2_3_2. pose proof PI_4. apply cos_decr_1; lra. }
        rewrite Rabs_pos_eq by lra. apply Rle_trans with (bp (-1)); [apply bpow_le; lia|]. cbn. lra. }
  auto.
Qed.
Example C90_example : forall g, exists x y, state_of 398600 (mk6 7000 (/ 2) 1 1 1 1) x /\
  snd (@kep_to_cart b64 (NP_b64 lib_exact) g (KVec ex_k) (MuS ex_mu) false) = Ok (KVec y) /\ fin64 y /\ close (390 * ulp1 53) (real6 y) x.
Proof.
  intros g. destruct ex_kep_ok as (Em & Ek & Hv & HK & T). set (k := mk6 7000 (/ 2) 1 1 1 1) in *.
  pose proof (C90_kep_to_cart lib_exact ex_mu ex_k 3 (peri_state 398600 k) g lib_exact_ok T) as C. rewrite Em, Ek in C.
  destruct (C Hv HK ltac:(pose proof ulp1_le; lra) (state_of_peri _ _ Hv)) as (y & E & F & Cl).
  exists (peri_state 398600 k), y. split; [now apply state_of_peri|]. split; [exact E|]. split; [exact F|].
  replace (390 * ulp1 53) with (130 * (3 * ulp1 53)) by ring. exact Cl.
Qed.
(** at the periapsis of an ellipse inclined by 45 degrees *)
Definition ex_x : six b64 := mk6 (bz 1 0) (bz 0 0) (bz 0 0) (bz 0 0) (bz 1 0) (bz 1 0).
Lemma ex_cart_ok : let k := mk6 (3 / 2) (/ 3) (PI / 4) 0 0 0 in
  B2R (bz 3 (-1)) = 3 / 2 /\ real6 ex_x = mk6 1 0 0 0 1 1 /\ valid_kep (3 / 2) k /\ regular_kep (ulp1 53) k /\ state_of (3 / 2) k (mk6 1 0 0 0 1 1) /\
  tame_cart (bz 3 (-1)) ex_x.
Proof.
  intros k.
  assert (E1 : B2R (bz 1 0) = 1) by (val 1%Z 0%Z; cbn; lra). assert (E0 : B2R (bz 0 0) = 0) by (val 0%Z 0%Z; cbn; lra).
  assert (Em : B2R (bz 3 (-1)) = 3 / 2) by (val 3%Z (-1)%Z; cbn; lra).
  assert (Ex : real6 ex_x = mk6 1 0 0 0 1 1) by (unfold real6, map6, ex_x; cbn [s0 s1 s2 s3 s4 s5]; now rewrite E1, E0).
  assert (Hv : valid_kep (3 / 2) k). { unfold valid_kep, k, k_a, k_e, k_nu. cbn [s0 s1 s5]. rewrite cos_0. repeat split; lra. }
  assert (Q : sin (PI / 4) * sqrt 2 = 1) by (rewrite sin_PI4; field; apply sqrt2_neq_0).
  assert (Q0 : 0 < sqrt 2) by (apply sqrt_lt_R0; lra). assert (Q2 : sqrt 2 * sqrt 2 = 2) by (apply sqrt_sqrt; lra).
  assert (Sx : state_of (3 / 2) k (mk6 1 0 0 0 1 1)).
  { replace (mk6 1 0 0 0 1 1) with (peri_state (3 / 2) k); [now apply state_of_peri|].
    assert (Es : semi_latus (3 / 2) (/ 3) = 4 / 3) by (unfold semi_latus; repeat destruct (Rlt_dec _ _); repeat destruct (Req_EM_T _ _); lra).
    assert (Er : peri_r (3 / 2) k = 1) by (unfold peri_r, k, k_a, k_e, k_nu; cbn [s0 s1 s5]; rewrite Es, cos_0; field).
    assert (Ep : peri_s (3 / 2) k = 3 / 4 * sqrt 2).
    { unfold peri_s, k, k_a, k_e. cbn [s0 s1]. rewrite Es. replace (3 / 2 / (4 / 3)) with (9 / 16 * 2) by field.
      rewrite sqrt_mult by lra. f_equal. replace (9 / 16) with (3 / 4 * (3 / 4)) by field. apply sqrt_square. lra. }
    unfold peri_state. rewrite Er, Ep. unfold P_axis, Q_axis, W_axis, cross, k, k_i, k_om, k_Om, k_nu, k_e, scal3, plus3, vx, vy, vz. cbn [s0 s1 s2 s3 s4 s5 fst snd].
    unfold P_axis, k_i, k_om, k_Om. cbn [s0 s1 s2 s3 s4 s5 fst snd].
    rewrite sin_0, cos_0. assert (cos (PI / 4) = sin (PI / 4)) as -> by (rewrite sin_PI4, cos_PI4; reflexivity).
    f_equal; first [ring | apply eq_trans with (sin (PI / 4) * sqrt 2); [symmetry; exact Q|field] | apply eq_trans with (sin (PI / 4) * sqrt 2); [field|exact Q]]. }
  assert (Si : 7 / 10 <= sin (PI / 4)) by nra.
  assert (Rk : regular_kep (ulp1 53) k).
  { unfold regular_kep. change (k_e k) with (/ 3). change (k_i k) with (PI / 4). pose proof PI_RGT_0. pose proof ulp1_pos. pose proof ulp1_le.
    assert (W : ulp1 53 / (/ 3 * (1 - / 3) * sin (PI / 4)) <= 7 * ulp1 53).
    { apply Rmult_le_reg_r with (/ 3 * (1 - / 3) * sin (PI / 4)); [lra|]. unfold Rdiv. rewrite Rmult_assoc, Rinv_l by lra. nra. }
    replace (ulp1 53 / (1 - / 3)) with (3 / 2 * ulp1 53) by field.
    split; [lra|]. split; [lra|]. split; [lra|]. split; [nra|]. split; lra. }
  assert (T : tame_cart (bz 3 (-1)) ex_x).
  { exists 0%Z, 0%Z, 0%Z. do 4 (split; [lia|]).
    assert (V : forall l, (forall c, In c l -> c = bz 1 0 \/ c = bz 0 0) -> In (bz 1 0) l -> vec_size 0 l).
    { intros l H1 H2. split.
      - intros c Hc. destruct (H1 c Hc) as [-> | ->]; [apply sized_1; lia|]. apply sized_bz; try lia. rewrite Rmult_0_l, Rabs_R0. apply bpow_ge_0.
      - exists (bz 1 0). split; [exact H2|]. rewrite E1, Rabs_R1. change 1 with (bp 0). apply bpow_le. lia. }
    unfold ex_x. cbn [s0 s1 s2 s3 s4 s5]. split; [|split; [|split]].
    - apply V; [|cbn [In]; tauto]. intros c [<- |[<- |[<- |[]]]]; auto.
    - apply V; [|cbn [In]; tauto]. intros c [<- |[<- |[<- |[]]]]; auto.
    - apply (bz_dyadic 3 (-1)); [vm_compute; reflexivity|lia].
    - rewrite Em, Rabs_pos_eq by lra. change (0 + 1)%Z with 1%Z. change (bp 0) with 1. change (bp 1) with 2. lra. }
  auto 10.
Qed.
Example C90_cart_example : forall g, exists k', snd (@cart_to_kep b64 (NP_b64 lib_exact) g (KVec ex_x) (MuS (bz 3 (-1))) false) = Ok (KVec k') /\ fin64 k' /\
  Rabs (B2R (s0 k') - 3 / 2) <= 225 * ulp1 53 /\ Rabs (B2R (s1 k') - / 3) <= 290 * ulp1 53.
Proof.
  intros g. destruct ex_cart_ok as (Em & Ex & Hv & Rk & Sx & T). set (k := mk6 (3 / 2) (/ 3) (PI / 4) 0 0 0) in *.
  pose proof (C90_cart_to_kep lib_exact (bz 3 (-1)) k ex_x g lib_exact_ok T) as C. rewrite Em, Ex in C.
  destruct (C Hv Rk Sx) as (k' & E & F & A & D & _). exists k'. split; [exact E|]. split; [exact F|].
  change (k_e k) with (/ 3) in *. change (k_a k) with (3 / 2) in *. change (k_a (real6 k')) with (B2R (s0 k')) in A. change (k_e (real6 k')) with (B2R (s1 k')) in D.
  split; [|exact D]. eapply Rle_trans; [exact A|]. apply Req_le. field.
Qed.
