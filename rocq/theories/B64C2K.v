(** * cart_to_kep in binary64 within the normal range. *)
From Coq Require Import Bool ZArith QArith Qreals Reals Lra Lia List.
From Flocq Require Import Core.Core IEEE754.BinarySingleNaN.
From Verif Require Import NP NPReal NPFloat FloatBase NPB64 KeplerModel ConvModel ConvCols PropsFloat PropsB64 LagTrig B64Sim B64Pi B64Lib B64K2C.
Local Open Scope R_scope.

Section Vec.
Context (L : blib).
Notation B := (NP_b64 L).
Notation N := (NP_rd (rnd 53) (real_lib L)).
Definition sim3 (k m K : Z) (a : v3 b64) (x : v3 num) : Prop :=
  sim k m K (c0 a) (c0 x) /\ sim k m K (c1 a) (c1 x) /\ sim k m K (c2 a) (c2 x).

Lemma sq_sim k m K a x : sim k m K a x -> (-1022 <= 2 * m)%Z -> (2 * K <= 1023)%Z ->
  exists v, sim (2 * m - 52) (2 * m) (2 * K) (@mul _ B a a) (Fin v) /\ @mul _ N x x = Fin v /\ 0 <= v /\
    (v = 0 \/ bp (2 * m) <= v) /\ forall l, bp l <= Rabs (B2R a) -> bp (2 * l) <= v.
Proof using Type.
  intros S Hm HK. pose proof (sim_mul L (real_lib L) _ _ _ _ _ _ _ _ _ _ S S ltac:(lia) ltac:(lia)) as P.
  stepw P (2 * m - 52)%Z (2 * m)%Z (2 * K)%Z. destruct S as (_ & -> & _).
  change (@mul _ N (Fin (B2R a)) (Fin (B2R a))) with (Fin (rnd 53 (B2R a * B2R a))) in *. exists (rnd 53 (B2R a * B2R a)).
  assert (P0 : 0 <= rnd 53 (B2R a * B2R a)) by (apply (rnd_nonneg 53 ltac:(lia)); nra).
  assert (V := sim_val _ _ _ _ _ P). destruct P as (P1 & P2 & P3 & P4 & P5). repeat split; auto.
  - rewrite V, Rabs_pos_eq in P4 by exact P0. exact P4.
  - intros l H. replace (bp (2 * l)) with (rnd 53 (bp (2 * l))) by apply rnd_ok_format, fmt_bp. apply (rnd_le 53 ltac:(lia)).
    replace (2 * l)%Z with (l + l)%Z by lia. rewrite bpow_plus. pose proof (bpow_ge_0 radix2 l).
    rewrite <- (Rabs_pos_eq (B2R a * B2R a)) by nra. rewrite Rabs_mult. apply Rmult_le_compat; auto.
Qed.
Lemma addp_sim k m K K' a b u v : sim k m K a (Fin u) -> sim k m K' b (Fin v) -> 0 <= u -> 0 <= v ->
  (-1074 <= k)%Z -> (Z.max K K' <= 1022)%Z ->
  exists s, sim k m (Z.max K K' + 1) (@add _ B a b) (Fin s) /\ @add _ N (Fin u) (Fin v) = Fin s /\ 0 <= s /\
    forall l, bp l <= u \/ bp l <= v -> bp l <= s.
Proof using Type.
  intros Sa Sb Hu Hv Hk HK. pose proof (sim_add L (real_lib L) _ _ _ _ _ _ _ _ _ _ Sa Sb ltac:(lia) ltac:(lia)) as P.
  rewrite Z.min_id in P. change (@add _ N (Fin u) (Fin v)) with (Fin (rnd 53 (u + v))) in *. exists (rnd 53 (u + v)).
  assert (P0 : 0 <= rnd 53 (u + v)) by (apply (rnd_nonneg 53 ltac:(lia)); lra).
  assert (Lo : forall l, bp l <= u \/ bp l <= v -> bp l <= rnd 53 (u + v)).
  { intros l H. replace (bp l) with (rnd 53 (bp l)) by apply rnd_ok_format, fmt_bp. apply (rnd_le 53 ltac:(lia)). destruct H; lra. }
  split; [|auto]. apply (sim_low _ _ _ _ _ _ P). rewrite (sim_val _ _ _ _ _ P), Rabs_pos_eq by exact P0.
  pose proof (sim_val _ _ _ _ _ Sa) as Ea. pose proof (sim_val _ _ _ _ _ Sb) as Eb.
  destruct Sa as (_ & _ & _ & La & _), Sb as (_ & _ & _ & Lb & _). rewrite Ea, Rabs_pos_eq in La by assumption. rewrite Eb, Rabs_pos_eq in Lb by assumption.
  destruct La as [La|La]; [destruct Lb as [Lb|Lb]|]; [left; rewrite La, Lb, Rplus_0_r; apply (rnd_0 53)|right; auto|right; auto].
Qed.
(** np.linalg.norm *)
Lemma norm_sim k m K a x : sim3 k m K a x -> (-1022 <= 2 * m)%Z -> (2 * K <= 1020)%Z ->
  sim (m - 52) m (K + 1) (@vnorm _ B a) (@vnorm _ N x) /\
  forall l, bp l <= Rabs (B2R (c0 a)) \/ bp l <= Rabs (B2R (c1 a)) \/ bp l <= Rabs (B2R (c2 a)) -> bp l <= Rabs (B2R (@vnorm _ B a)).
Proof using Type.
  intros (S0 & S1 & S2) Hm HK. unfold vnorm, vsum, vmul. cbn [c0 c1 c2 fst snd].
  destruct (sq_sim _ _ _ _ _ S0 Hm ltac:(lia)) as (u0 & P0 & E0 & N0 & L0 & M0).
  destruct (sq_sim _ _ _ _ _ S1 Hm ltac:(lia)) as (u1 & P1 & E1 & N1 & L1 & M1).
  destruct (sq_sim _ _ _ _ _ S2 Hm ltac:(lia)) as (u2 & P2 & E2 & N2 & L2 & M2).
  unfold c0, c1, c2 in *. cbn [fst snd] in *. rewrite E0, E1, E2. clear S0 S1 S2 E0 E1 E2.
  destruct (addp_sim _ _ _ _ _ _ _ _ P0 P1 N0 N1 ltac:(lia) ltac:(lia)) as (s & Q1 & E & Ns & Ls). rewrite E. clear E.
  destruct (addp_sim _ _ _ _ _ _ _ _ Q1 P2 Ns N2 ltac:(lia) ltac:(lia)) as (t & Q2 & E & Nt & Lt). rewrite E. clear E.
  assert (V := sim_val _ _ _ _ _ Q2).
  assert (S : sim (m - 52) m (K + 1) (@nsqrt _ B (@add _ B (@add _ B (@mul _ B (fst (fst a)) (fst (fst a))) (@mul _ B (snd (fst a)) (snd (fst a)))) (@mul _ B (snd a) (snd a)))) (@nsqrt _ N (Fin t))).
  { apply (sim_sqrt L (real_lib L) _ _ _ _ _ _ _ Q2); [rewrite V; exact Nt|lia|lia|lia]. }
  split; [exact S|]. intros l H.
  assert (Hl : bp (2 * l) <= t). { apply Lt. destruct H as [H|[H|H]]; [left; apply Ls; left; auto|left; apply Ls; right; auto|right; auto]. }
  assert (X : @nsqrt _ N (Fin t) = Fin (rnd 53 (sqrt t))).
  { cbn [nsqrt NP_rd num_sqrt]. destruct (Rlt_dec t 0); [lra|reflexivity]. }
  rewrite X in S. rewrite (sim_val _ _ _ _ _ S). rewrite Rabs_pos_eq by (apply (rnd_nonneg 53 ltac:(lia)), sqrt_pos).
  replace (bp l) with (rnd 53 (bp l)) by apply rnd_ok_format, fmt_bp. apply (rnd_le 53 ltac:(lia)).
  rewrite <- sqrt_bp2. apply sqrt_le_1_alt. now replace (l + l)%Z with (2 * l)%Z by lia.
Qed.
(** np.sum(a*b, axis=0) *)
Lemma dot_sim k m K k' m' K' a b x y : sim3 k m K a x -> sim3 k' m' K' b y -> (-1022 <= m + m')%Z -> (K + K' <= 1000)%Z ->
  sim (m + m' - 52) (m + m' - 52) (K + K' + 2) (@vsum _ B (@vmul _ B a b)) (@vsum _ N (@vmul _ N x y)).
Proof using Type.
  intros (A0 & A1 & A2) (B0 & B1 & B2) Hm HK. unfold vsum, vmul. cbn [c0 c1 c2 fst snd].
  smul L A0 B0 P0 (m + m' - 52)%Z (m + m')%Z (K + K')%Z. smul L A1 B1 P1 (m + m' - 52)%Z (m + m')%Z (K + K')%Z.
  smul L A2 B2 P2 (m + m' - 52)%Z (m + m')%Z (K + K')%Z.
  sadd L P0 P1 Q1 (m + m' - 52)%Z (m + m' - 52)%Z (K + K' + 1)%Z. sadd L Q1 P2 Q2 (m + m' - 52)%Z (m + m' - 52)%Z (K + K' + 2)%Z.
  exact Q2.
Qed.
Lemma cross_sim k m K k' m' K' j a b x y : sim3 k m K a x -> sim3 k' m' K' b y -> (-1022 <= m + m')%Z -> (K + K' <= 1000)%Z ->
  (j <= Z.max (m + m' - 52) (k + k'))%Z -> (-1074 <= j)%Z ->
  sim3 j j (K + K' + 1) (@vcross _ B a b) (@vcross _ N x y).
Proof using Type.
  intros (A0 & A1 & A2) (B0 & B1 & B2) Hm HK Hj Hj'.
  smul L A1 B2 P0 j (m + m')%Z (K + K')%Z. smul L A2 B1 P1 j (m + m')%Z (K + K')%Z.
  smul L A2 B0 P2 j (m + m')%Z (K + K')%Z. smul L A0 B2 P3 j (m + m')%Z (K + K')%Z.
  smul L A0 B1 P4 j (m + m')%Z (K + K')%Z. smul L A1 B0 P5 j (m + m')%Z (K + K')%Z.
  ssub L P0 P1 Q1 j j (K + K' + 1)%Z. ssub L P2 P3 Q2 j j (K + K' + 1)%Z. ssub L P4 P5 Q3 j j (K + K' + 1)%Z.
  exact (conj Q1 (conj Q2 Q3)).
Qed.
Lemma divs_sim k m K k' m' K' a b x y : sim3 k m K a x -> sim k' m' K' b y -> B2R b <> 0 -> (-1022 <= m - K')%Z -> (K - m' <= 1023)%Z ->
  sim3 (m - K' - 52) (m - K') (K - m') (@vdivs _ B a b) (@vdivs _ N x y).
Proof using Type.
  intros (A0 & A1 & A2) Sb Z Hm HK.
  sdiv L A0 Sb Z P0 (m - K' - 52)%Z (m - K')%Z (K - m')%Z. sdiv L A1 Sb Z P1 (m - K' - 52)%Z (m - K')%Z (K - m')%Z.
  sdiv L A2 Sb Z P2 (m - K' - 52)%Z (m - K')%Z (K - m')%Z. exact (conj P0 (conj P1 P2)).
Qed.
Lemma scale_sim k m K k' m' K' s t a x : sim k m K s t -> sim3 k' m' K' a x -> (-1022 <= m + m')%Z -> (K + K' <= 1023)%Z ->
  sim3 (m + m' - 52) (m + m') (K + K') (@vscale _ B s a) (@vscale _ N t x).
Proof using Type.
  intros Ss (A0 & A1 & A2) Hm HK.
  smul L Ss A0 P0 (m + m' - 52)%Z (m + m')%Z (K + K')%Z. smul L Ss A1 P1 (m + m' - 52)%Z (m + m')%Z (K + K')%Z.
  smul L Ss A2 P2 (m + m' - 52)%Z (m + m')%Z (K + K')%Z. exact (conj P0 (conj P1 P2)).
Qed.
Lemma vsub_sim k m K a b x y : sim3 k m K a x -> sim3 k m K b y -> (-1074 <= k)%Z -> (K <= 1022)%Z ->
  sim3 k k (K + 1) (@vsub _ B a b) (@vsub _ N x y).
Proof using Type.
  intros (A0 & A1 & A2) (B0 & B1 & B2) Hk HK.
  ssub L A0 B0 P0 k k (K + 1)%Z. ssub L A1 B1 P1 k k (K + 1)%Z. ssub L A2 B2 P2 k k (K + 1)%Z. exact (conj P0 (conj P1 P2)).
Qed.
Lemma sim3_weaken k m K k' m' K' a x : sim3 k m K a x -> (k' <= k)%Z -> (m' <= m)%Z -> (K <= K')%Z -> sim3 k' m' K' a x.
Proof using Type. intros (A & C & D) H1 H2 H3. repeat split; eapply sim_weaken; eauto. Qed.
Lemma clamp_sim k m K b x : sim k m K b x -> (k <= 0)%Z -> (m <= 0)%Z -> (0 <= K)%Z -> sim k m K (@clamp1 _ B b) (@clamp1 _ N x).
Proof using Type.
  intros S Hk Hm HK. unfold clamp1. cbv zeta. rewrite (sim_ltb L (real_lib L) _ _ _ _ _ _ _ _ _ _ (sim_1 L) S).
  assert (S' : sim k m K (if @ltb _ N (@lit _ N 1) x then @lit _ B 1 else b) (if @ltb _ N (@lit _ N 1) x then @lit _ N 1 else x)).
  { destruct (ltb _ _); [|exact S]. apply (sim_weaken _ _ _ _ _ _ _ _ (sim_1 L)); lia. }
  rewrite (sim_ltb L (real_lib L) _ _ _ _ _ _ _ _ _ _ S' (sim_m1 L)).
  match goal with |- sim _ _ _ (if ?c then _ else _) _ => destruct c end; [|exact S']. apply (sim_weaken _ _ _ _ _ _ _ _ (sim_m1 L)); lia.
Qed.
Lemma n2pi_sim : sim (-50) 2 3 (@n2pi _ B) (@n2pi _ N).
Proof using Type. unfold n2pi. smul L (sim_2 L) (sim_npi L) T (-50)%Z 2%Z 3%Z. exact T. Qed.
Lemma flip_sim K c c' b x : sim (-80) (-80) K b x -> c = c' -> (3 <= K <= 1000)%Z -> sim (-80) (-80) (K + 1) (@flip _ B c b) (@flip _ N c' x).
Proof using Type.
  intros S -> HK. unfold flip. destruct c'; [|apply (sim_weaken _ _ _ _ _ _ _ _ S); lia].
  ssub L n2pi_sim S T (-80)%Z (-80)%Z (K + 1)%Z. exact T.
Qed.
Lemma nf_flip c x : nf x -> nf (@flip _ N c x).
Proof using Type. intros H. unfold flip. destruct c; [now apply nf_sub_r|exact H]. Qed.
(** an arccosine is zero or not tiny: a double below 1 is at most 1 - 2^-53 *)
Lemma acos_low (HL : lib64 L) (b : b64) : is_finite b = true -> -1 <= B2R b <= 1 -> B2R (bl_acos L b) = 0 \/ bp (-28) <= Rabs (B2R (bl_acos L b)).
Proof using Type.
  intros F H. destruct (one_sub (B2R b) (b64_fmt b)) as [E|E].
  - left. apply (l64_one L HL). lra.
  - right. destruct (l64_acos L HL b F H) as (_ & A & P). rewrite Rabs_pos_eq by apply P. rewrite Rabs_pos_eq in E by lra.
    pose proof (cos_ge (acos (B2R b))) as C. rewrite cos_acos in C by lra. pose proof (acos_bound (B2R b)) as [A0 _].
    assert (B53 : bp (-53) = bp (-27) * bp (-26)) by (rewrite <- bpow_plus; f_equal).
    assert (B26 : bp (-26) = 2 * bp (-27)) by (change 2 with (bp 1); rewrite <- bpow_plus; f_equal).
    assert (B28 : bp (-27) = 2 * bp (-28)) by (change 2 with (bp 1); rewrite <- bpow_plus; f_equal).
    assert (U : 4 * PropsFloatC2K.ulp1 53 <= bp (-28)). { unfold PropsFloatC2K.ulp1. change 4 with (bp 2). rewrite <- bpow_plus. apply bpow_le. lia. }
    pose proof (bpow_gt_0 radix2 (-27)) as P27. rewrite B26 in B53. rewrite B53 in E.
    assert (bp (-27) <= acos (B2R b)) by (set (z := bp (-27)) in *; set (t := acos (B2R b)) in *; clearbody z t; nra).
    apply Rabs_le_inv in A. lra.
Qed.
Lemma acos_sim (HL : lib64 L) k m K b x : sim k m K b x -> ~ nf (@narccos _ N x) -> sim (-80) (-80) 3 (@narccos _ B b) (@narccos _ N x).
Proof using Type.
  intros S NF. destruct (@narccos _ N x) as [y| | |] eqn:E; try (exfalso; apply NF; exact I).
  destruct (sim_acos L HL k m K b x y S E) as (F & V & _ & _ & U). rewrite V. apply (sim_weaken (-28 - 52) (-28) 2); try lia. apply sim_in; auto.
  destruct S as (Fb & -> & _). cbn [narccos NP_rd lib1 num_acos l_acos real_lib] in E.
  destruct (Rle_dec (-1) (B2R b)) as [H1|]; [|discriminate]. destruct (Rle_dec (B2R b) 1) as [H2|]; [|discriminate].
  now apply acos_low.
Qed.
End Vec.
Ltac stepw3 L H k1 m1 K1 := apply sim3_weaken with (k' := k1) (m' := m1) (K' := K1) in H; [|lia|lia|lia].

(** the result: the angles are multiples of 2^-80 *)
Definition sime (a : six b64) (x : six num) : Prop :=
  sim (-1074) (-1074) 1000 (s0 a) (s0 x) /\ sim (-1074) (-1074) 1000 (s1 a) (s1 x) /\ sim (-80) (-80) 10 (s2 a) (s2 x) /\
  sim (-80) (-80) 10 (s3 a) (s3 x) /\ sim (-80) (-80) 10 (s4 a) (s4 x) /\ sim (-80) (-80) 10 (s5 a) (s5 x).
Lemma sime_simv a x : sime a x -> simv (-1074) (-1074) 1000 a x.
Proof.
  intros (A & B & C & D & E & F).
  assert (W : forall b y, sim (-80) (-80) 10 b y -> sim (-1074) (-1074) 1000 b y) by (intros b y H; apply (sim_weaken _ _ _ _ _ _ _ _ H); lia).
  exact (conj A (conj B (conj (W _ _ C) (conj (W _ _ D) (conj (W _ _ E) (W _ _ F)))))).
Qed.

Section C2K.
Context (L : blib) (HL : lib64 L).
Notation B := (NP_b64 L).
Notation N := (NP_rd (rnd 53) (real_lib L)).
Context (p q w : Z) (Hp : (-100 <= p <= 100)%Z) (Hq : (-100 <= q <= 100)%Z) (Hw : (-100 <= w <= 100)%Z)
  (Hz : (-80 <= p + 2 * q - w <= 20)%Z).

(** the eccentricity vector *)
Lemma ecc_sim mb mx rb rx vb vx rnb rnx vnb vnx vrb vrx :
  sim (w - 52) w (w + 1) mb mx -> B2R mb <> 0 ->
  sim3 (p - 142) (p - 90) p rb rx -> sim3 (q - 142) (q - 90) q vb vx ->
  sim (p - 53) (p - 1) (p + 1) rnb rnx -> B2R rnb <> 0 -> sim (q - 53) (q - 1) (q + 1) vnb vnx ->
  sim (q - 233) (q - 233) (q + 3) vrb vrx ->
  sim3 (-509) (-457) 25 (@ecc_el _ B mb vnb rnb vrb rb vb) (@ecc_el _ N mx vnx rnx vrx rx vx).
Proof using Hp Hq Hw Hz.
  intros Sm Zm Sr Sv Srn Zr Svn Svr. unfold ecc_el, sq.
  smul L Svn Svn S1 (2 * q - 54)%Z (2 * q - 2)%Z (2 * q + 2)%Z. sdiv L Sm Srn Zr S2 (w - p - 53)%Z (w - p - 1)%Z (w - p + 2)%Z.
  ssub L S1 S2 S3 (w - p - 134)%Z (w - p - 134)%Z (w - p + 23)%Z.
  pose proof (scale_sim L _ _ _ _ _ _ _ _ _ _ S3 Sr ltac:(lia) ltac:(lia)) as S4. stepw3 L S4 (w - 456)%Z (w - 456)%Z (w + 24)%Z.
  smul L Srn Svr S5 (p + q - 286)%Z (p + q - 234)%Z (p + q + 4)%Z.
  pose proof (scale_sim L _ _ _ _ _ _ _ _ _ _ S5 Sv ltac:(lia) ltac:(lia)) as S6. stepw3 L S6 (w - 456)%Z (w - 456)%Z (w + 24)%Z.
  pose proof (vsub_sim L _ _ _ _ _ _ _ S4 S6 ltac:(lia) ltac:(lia)) as S7.
  sdiv L (sim_1 L) Sm Zm S8 (- w - 53)%Z (- w - 1)%Z (- w)%Z.
  pose proof (scale_sim L _ _ _ _ _ _ _ _ _ _ S8 S7 ltac:(lia) ltac:(lia)) as S9. stepw3 L S9 (-509)%Z (-457)%Z 25%Z. exact S9.
Qed.
(** semi-major axis *)
Lemma axis_sim mb mx rnb rnx vnb vnx : sim (w - 52) w (w + 1) mb mx ->
  sim (p - 53) (p - 1) (p + 1) rnb rnx -> B2R rnb <> 0 -> sim (q - 53) (q - 1) (q + 1) vnb vnx ->
  let xb := @div _ B (@opp _ B mb) (@mul _ B (@lit _ B 2) (@sub _ B (@mul _ B (@sq _ B vnb) (@lit _ B 0.5)) (@div _ B mb rnb))) in
  let xn := @div _ N (@opp _ N mx) (@mul _ N (@lit _ N 2) (@sub _ N (@mul _ N (@sq _ N vnx) (@lit _ N 0.5)) (@div _ N mx rnx))) in
  ~ nf xn -> sim (-1074) (-1074) 1000 xb xn.
Proof using Hp Hq Hw Hz.
  cbv zeta. intros Sm Srn Zr Svn NF. unfold sq in *.
  smul L Svn Svn S1 (2 * q - 54)%Z (2 * q - 2)%Z (2 * q + 2)%Z. smul L S1 (sim_half L) S2 (2 * q - 55)%Z (2 * q - 3)%Z (2 * q + 1)%Z.
  sdiv L Sm Srn Zr S3 (w - p - 53)%Z (w - p - 1)%Z (w - p + 2)%Z. ssub L S2 S3 S4 (w - p - 135)%Z (w - p - 135)%Z (w - p + 22)%Z.
  smul L (sim_2 L) S4 S5 (w - p - 186)%Z (w - p - 134)%Z (w - p + 23)%Z.
  assert (Z : B2R (@mul _ B (@lit _ B 2) (@sub _ B (@mul _ B (@mul _ B vnb vnb) (@lit _ B 0.5)) (@div _ B mb rnb))) <> 0).
  { apply (fin_nz _ _ _ _ _ S5). intros E. apply NF. now apply nf_div0. }
  pose proof (sim_opp L (real_lib L) _ _ _ _ _ Sm) as S6. sdiv L S6 S5 Z S7 (-1074)%Z (-1074)%Z 1000%Z. exact S7.
Qed.

Context (cb : six b64) (mb : b64) (cx : six num) (mx : num).
Let rb := (s0 cb, s1 cb, s2 cb).
Let vb := (s3 cb, s4 cb, s5 cb).
Let rx := (s0 cx, s1 cx, s2 cx).
Let vx := (s3 cx, s4 cx, s5 cx).
Definition some_big (l : Z) (a : v3 b64) : Prop :=
  bp l <= Rabs (B2R (c0 a)) \/ bp l <= Rabs (B2R (c1 a)) \/ bp l <= Rabs (B2R (c2 a)).
Context (Sm : sim (w - 52) w (w + 1) mb mx) (Zm : B2R mb <> 0)
  (Sr : sim3 (p - 142) (p - 90) p rb rx) (Sv : sim3 (q - 142) (q - 90) q vb vx) (Br : some_big (p - 1) rb) (Bv : some_big (q - 1) vb).

Lemma big_nz l (b : b64) : bp l <= Rabs (B2R b) -> B2R b <> 0.
Proof using Type. intros H E. rewrite E, Rabs_R0 in H. pose proof (bpow_gt_0 radix2 l). lra. Qed.
Lemma c2k_sim : nf6 (@c2k_col _ N false cx mx) -> sime (@c2k_col _ B false cb mb) (@c2k_col _ N false cx mx).
Proof using HL Hp Hq Hw Hz Sm Zm Sr Sv Br Bv.
  unfold c2k_col. cbv zeta iota. fold rb vb rx vx. unfold nf6, sime. cbn [s0 s1 s2 s3 s4 s5].
  destruct (norm_sim L _ _ _ _ _ Sr ltac:(lia) ltac:(lia)) as [Srn Brn]. specialize (Brn _ Br).
  destruct (norm_sim L _ _ _ _ _ Sv ltac:(lia) ltac:(lia)) as [Svn Bvn]. specialize (Bvn _ Bv).
  apply (sim_low _ _ _ (p - 1)%Z) in Srn; [|now right]. apply (sim_low _ _ _ (q - 1)%Z) in Svn; [|now right].
  assert (Srn' : sim (p - 53) (p - 1) (p + 1) (@vnorm _ B rb) (@vnorm _ N rx)).
  { destruct Srn as (Q1 & Q2 & Q3 & Q4 & Q5). rewrite Q2. replace (p - 53)%Z with (p - 1 - 52)%Z by lia. now apply sim_in. }
  assert (Svn' : sim (q - 53) (q - 1) (q + 1) (@vnorm _ B vb) (@vnorm _ N vx)).
  { destruct Svn as (Q1 & Q2 & Q3 & Q4 & Q5). rewrite Q2. replace (q - 53)%Z with (q - 1 - 52)%Z by lia. now apply sim_in. }
  clear Srn Svn. rename Srn' into Srn, Svn' into Svn. pose proof (big_nz _ _ Brn) as Zr.
  pose proof (cross_sim L _ _ _ _ _ _ (p + q - 232)%Z _ _ _ _ Sr Sv ltac:(lia) ltac:(lia) ltac:(lia) ltac:(lia)) as Sh.
  pose proof (divs_sim L _ _ _ _ _ _ _ _ _ _ Sr Srn Zr ltac:(lia) ltac:(lia)) as Sru. stepw3 L Sru (-143)%Z (-91)%Z 1%Z.
  pose proof (dot_sim L _ _ _ _ _ _ _ _ _ _ Sru Sv ltac:(lia) ltac:(lia)) as Svr. stepw Svr (q - 233)%Z (q - 233)%Z (q + 3)%Z.
  pose proof (ecc_sim _ _ _ _ _ _ _ _ _ _ _ _ Sm Zm Sr Sv Srn Zr Svn Svr) as Se.
  intros (F0 & _ & F2 & F3 & F4 & F5).
  assert (S1 : sim (-509) (-457) 26 (@vnorm _ B (@ecc_el _ B mb (@vnorm _ B vb) (@vnorm _ B rb) (@vsum _ B (@vmul _ B (@vdivs _ B rb (@vnorm _ B rb)) vb)) rb vb))
     (@vnorm _ N (@ecc_el _ N mx (@vnorm _ N vx) (@vnorm _ N rx) (@vsum _ N (@vmul _ N (@vdivs _ N rx (@vnorm _ N rx)) vx)) rx vx))).
  { exact (proj1 (norm_sim L _ _ _ _ _ Se ltac:(lia) ltac:(lia))). }
  pose proof (axis_sim _ _ _ _ _ _ Sm Srn Zr Svn) as Sax. cbv zeta in Sax.
  set (rnb := @vnorm _ B rb) in *. set (vnb := @vnorm _ B vb) in *. set (rnx := @vnorm _ N rx) in *. set (vnx := @vnorm _ N vx) in *.
  set (rub := @vdivs _ B rb rnb) in *. set (rux := @vdivs _ N rx rnx) in *.
  set (vrb := @vsum _ B (@vmul _ B rub vb)) in *. set (vrx := @vsum _ N (@vmul _ N rux vx)) in *.
  set (eb := @ecc_el _ B mb vnb rnb vrb rb vb) in *. set (ex := @ecc_el _ N mx vnx rnx vrx rx vx) in *.
  set (ob := @vnorm _ B eb) in *. set (ox := @vnorm _ N ex) in *.
  set (hb := @vcross _ B rb vb) in *. set (hx := @vcross _ N rx vx) in *.
  set (ab := @div _ B (@opp _ B mb) _) in *. set (ax := @div _ N (@opp _ N mx) _) in *.
  clearbody ob ox eb ex vrb vrx rub rux hb hx ab ax vnb vnx rnb rnx. clear Svn Bvn Br Bv Sv Sm Zm Brn.
  (* semi-major axis, sign by comparison *)
  assert (R0 : sim (-1074) (-1074) 1000 (if @leb _ B (@lit _ B 1) ob then @opp _ B ab else ab) (if @leb _ N (@lit _ N 1) ox then @opp _ N ax else ax)).
  { rewrite (sim_leb L (real_lib L) _ _ _ _ _ _ _ _ _ _ (sim_1 L) S1). destruct (@leb _ N (@lit _ N 1) ox).
    - apply sim_opp. apply Sax. intros H. apply F0. now apply nf_opp.
    - now apply Sax. }
  (* inclination *)
  pose proof (proj1 (norm_sim L _ _ _ _ _ Sh ltac:(lia) ltac:(lia))) as Shn.
  set (hnb := @vnorm _ B hb) in *. set (hnx := @vnorm _ N hx) in *.
  assert (Zh : B2R hnb <> 0). { apply (fin_nz _ _ _ _ _ Shn). intros E. apply F2, nf_acos. now apply nf_div0. }
  sdiv L (proj2 (proj2 Sh)) Shn Zh Sq2 (-1000)%Z (-1000)%Z 1000%Z. pose proof (acos_sim L HL _ _ _ _ _ Sq2 F2) as S2.
  set (ib := @narccos _ B _) in S2 |- *. set (ix := @narccos _ N (@div _ N (@c2 num hx) hnx)) in *.
  clearbody hnb hnx.
  (* comparisons *)
  smul L (sim_npi L) (sim_1e9 L) Sil (-134)%Z (-40)%Z 10%Z. fold (@i_lim _ B) (@i_lim _ N) in Sil.
  ssub L (sim_npi L) Sil Sih (-134)%Z (-134)%Z 11%Z. smul L (sim_npi L) (sim_half L) Sph (-134)%Z (-134)%Z 11%Z.
  rewrite (sim_ltb L (real_lib L) _ _ _ _ _ _ _ _ _ _ (sim_1e9 L : sim _ _ _ (@e_lim _ B) (@e_lim _ N)) S1).
  rewrite (sim_ltb L (real_lib L) _ _ _ _ _ _ _ _ _ _ Sil S2), (sim_ltb L (real_lib L) _ _ _ _ _ _ _ _ _ _ S2 Sih).
  rewrite !(sim_ltb L (real_lib L) _ _ _ _ _ _ _ _ _ _ Sph S2), !(sim_ltb L (real_lib L) _ _ _ _ _ _ _ _ _ _ S2 Sph).
  rewrite !(sim_ltb L (real_lib L) _ _ _ _ _ _ _ _ _ _ Svr (sim_zero L 0 0 0)).
  rewrite !(sim_ltb L (real_lib L) _ _ _ _ _ _ _ _ _ _ (proj2 (proj2 Se)) (sim_zero L 0 0 0)).
  rewrite !(sim_ltb L (real_lib L) _ _ _ _ _ _ _ _ _ _ (proj1 (proj2 Se)) (sim_zero L 0 0 0)).
  rewrite !(sim_leb L (real_lib L) _ _ _ _ _ _ _ _ _ _ (sim_zero L 0 0 0) (proj1 (proj2 Se))).
  rewrite !(sim_ltb L (real_lib L) _ _ _ _ _ _ _ _ _ _ (proj2 (proj2 Sr)) (sim_zero L 0 0 0)).
  rewrite !(sim_ltb L (real_lib L) _ _ _ _ _ _ _ _ _ _ (proj1 (proj2 Sr)) (sim_zero L 0 0 0)).
  rewrite !(sim_leb L (real_lib L) _ _ _ _ _ _ _ _ _ _ (sim_zero L 0 0 0) (proj1 (proj2 Sr))).
  (* the node *)
  assert (S3 : sim3 (p + q - 232) (p + q - 232) (p + q + 2) (@vcross _ B (@lit _ B 0, @lit _ B 0, @lit _ B 1) hb) (@vcross _ N (@lit _ N 0, @lit _ N 0, @lit _ N 1) hx)).
  { assert (S01 : sim3 0 0 0 (@lit _ B 0, @lit _ B 0, @lit _ B 1) (@lit _ N 0, @lit _ N 0, @lit _ N 1)).
    { exact (conj (sim_zero L 0 0 0) (conj (sim_zero L 0 0 0) (sim_1 L))). }
    pose proof (cross_sim L _ _ _ _ _ _ (p + q - 232)%Z _ _ _ _ S01 Sh ltac:(lia) ltac:(lia) ltac:(lia) ltac:(lia)) as T. stepw3 L T (p + q - 232)%Z (p + q - 232)%Z (p + q + 2)%Z. exact T. }
  set (nb := @vcross _ B (@lit _ B 0, @lit _ B 0, @lit _ B 1) hb) in *. set (nx := @vcross _ N (@lit _ N 0, @lit _ N 0, @lit _ N 1) hx) in *.
  clearbody nb nx. rewrite (sim_ltb L (real_lib L) _ _ _ _ _ _ _ _ _ _ (proj1 (proj2 S3)) (sim_zero L 0 0 0)).
  pose proof (proj1 (norm_sim L _ _ _ _ _ S3 ltac:(lia) ltac:(lia))) as Snn. set (nnb := @vnorm _ B nb) in *. set (nnx := @vnorm _ N nx) in *.
  clearbody nnb nnx. clear F0 F2 Sax Sh Shn Zh.
  set (ig := (@ltb _ N (@i_lim _ N) ix && @ltb _ N ix (@sub _ N (@npi _ N) (@i_lim _ N)))%bool) in *.
  assert (Ze : @ltb _ N (@e_lim _ N) ox = true -> B2R ob <> 0).
  { intros H E. destruct S1 as (_ & X & _). rewrite X, E in H. revert H. destruct (sim_1e9 L) as (_ & X9 & _). unfold e_lim. cbn [ltb NP_rd lit num_ltb].
    unfold Rltb. destruct (Rlt_dec _ _) as [H|]; [|discriminate]. exfalso. revert H. apply Rle_not_lt. apply (rnd_nonneg 53 ltac:(lia)). unfold Q2R. cbn. lra. }
  assert (Zn : ig = true -> B2R nnb <> 0).
  { intros H. apply (fin_nz _ _ _ _ _ Snn). intros E. apply F4. rewrite H. apply nf_flip, nf_acos. now apply nf_div0. }
  assert (W0 : sim (-80) (-80) 10 (@lit _ B 0) (@lit _ N 0)) by apply sim_zero.
  assert (W : forall c b x, sim (-80) (-80) 3 b x -> sim (-80) (-80) 10 (@flip _ B c b) (@flip _ N c x)).
  { intros c b x H. apply (sim_weaken (-80) (-80) 4); try lia. now apply (flip_sim L 3). }
  assert (W2 : forall c c' b x, sim (-80) (-80) 3 b x -> sim (-80) (-80) 10 (@flip _ B c' (@flip _ B c b)) (@flip _ N c' (@flip _ N c x))).
  { intros c c' b x H. apply (sim_weaken (-80) (-80) 5); try lia. apply (flip_sim L 4); [|reflexivity|lia]. now apply (flip_sim L 3). }
  assert (A : forall k m K b x, sim k m K b x -> (k <= 0)%Z -> (m <= 0)%Z -> (0 <= K)%Z -> ~ nf (@narccos _ N (@clamp1 _ N x)) ->
    sim (-80) (-80) 3 (@narccos _ B (@clamp1 _ B b)) (@narccos _ N (@clamp1 _ N x))).
  { intros k m K b x H H1 H2 H3 H4. apply (acos_sim L HL k m K); auto. now apply clamp_sim. }
  split; [exact R0|]. split; [apply (sim_weaken _ _ _ _ _ _ _ _ S1); lia|]. split; [apply (sim_weaken _ _ _ _ _ _ _ _ S2); lia|].
  clear R0 S2 Sq2 Sil Sih Sph. clearbody ib ix ig.
  split; [|split].
  - destruct (@ltb _ N (@e_lim _ N) ox); [|exact W0]. specialize (Ze eq_refl). destruct ig.
    + specialize (Zn eq_refl). pose proof (dot_sim L _ _ _ _ _ _ _ _ _ _ S3 Se ltac:(lia) ltac:(lia)) as D.
      smul L Snn S1 Dn (p + q - 741)%Z (p + q - 689)%Z (p + q + 29)%Z.
      assert (Z : B2R (@mul _ B nnb ob) <> 0).
      { pose proof (sim_mul L (real_lib L) _ _ _ _ _ _ _ _ _ _ Snn S1 ltac:(lia) ltac:(lia)) as T. intros E.
        destruct Snn as (_ & X1 & _), S1 as (_ & X2 & _). rewrite X1, X2 in T. rewrite (sim_val _ _ _ _ _ T : _ = rnd 53 (B2R nnb * B2R ob)) in E.
        revert E. apply (rnd_neq 53 ltac:(lia)). now apply Rmult_integral_contrapositive. }
      sdiv L D Dn Z Sq (-1000)%Z (-1000)%Z 1000%Z. apply W. apply (A _ _ _ _ _ Sq); try lia. intros H. apply F3. now apply nf_flip.
    + sdiv L (proj1 Se) S1 Ze Sq (-1000)%Z (-1000)%Z 1000%Z. apply W2. apply (A _ _ _ _ _ Sq); try lia. intros H. apply F3. now apply nf_flip, nf_flip.
  - destruct ig; [|exact W0]. specialize (Zn eq_refl). sdiv L (proj1 S3) Snn Zn Sq (-1000)%Z (-1000)%Z 1000%Z.
    apply W. apply (acos_sim L HL _ _ _ _ _ Sq). intros H. apply F4. now apply nf_flip.
  - destruct (@ltb _ N (@e_lim _ N) ox); [specialize (Ze eq_refl)|destruct ig].
    + pose proof (dot_sim L _ _ _ _ _ _ _ _ _ _ Se Sr ltac:(lia) ltac:(lia)) as D. smul L S1 Srn Dn (p - 510)%Z (p - 458)%Z (p + 27)%Z.
      assert (Z : B2R (@mul _ B ob rnb) <> 0).
      { pose proof (sim_mul L (real_lib L) _ _ _ _ _ _ _ _ _ _ S1 Srn ltac:(lia) ltac:(lia)) as T. intros E.
        destruct Srn as (_ & X1 & _), S1 as (_ & X2 & _). rewrite X1, X2 in T. rewrite (sim_val _ _ _ _ _ T : _ = rnd 53 (B2R ob * B2R rnb)) in E.
        revert E. apply (rnd_neq 53 ltac:(lia)). now apply Rmult_integral_contrapositive. }
      sdiv L D Dn Z Sq (-1000)%Z (-1000)%Z 1000%Z. apply W. apply (A _ _ _ _ _ Sq); try lia. intros H. apply F5. now apply nf_flip.
    + specialize (Zn eq_refl). pose proof (divs_sim L _ _ _ _ _ _ _ _ _ _ S3 Snn Zn ltac:(lia) ltac:(lia)) as D.
      pose proof (dot_sim L _ _ _ _ _ _ _ _ _ _ D Sru ltac:(lia) ltac:(lia)) as Sq. apply W. apply (A _ _ _ _ _ Sq); try lia. intros H. apply F5. now apply nf_flip.
    + sdiv L (proj1 Sr) Srn Zr Sq (-1000)%Z (-1000)%Z 1000%Z. apply W2. apply (A _ _ _ _ _ Sq); try lia. intros H. apply F5. now apply nf_flip, nf_flip.
Qed.
End C2K.
