(** * kep_to_cart in binary64 within the normal range. *)
From Coq Require Import Bool ZArith QArith Qreals Reals Lra Lia List.
From Flocq Require Import Core.Core IEEE754.BinarySingleNaN.
From Verif Require Import NP NPReal NPFloat FloatBase NPB64 KeplerModel ConvModel ConvCols PropsFloat PropsB64 B64Sim B64Pi B64Lib.
Local Open Scope R_scope.

(** ** What is not a finite number stays so *)
Definition nf (x : num) : Prop := match x with Fin _ => False | _ => True end.
Section NF.
Context (rd : R -> R) (M : libm).
Notation N := (NP_rd rd M).
Ltac nft := cbn [add sub mul div opp NP_rd]; unfold rnum, num_sub, num_add, num_mul, num_div, num_opp, num_sign;
  repeat match goal with |- context [match ?x with _ => _ end] =>
    lazymatch x with context [match _ with _ => _ end] => fail | _ => destruct x end end; cbn; tauto.
Lemma nf_mul_l x y : nf x -> nf (@mul _ N x y). Proof. destruct x, y; nft. Qed.
Lemma nf_mul_r x y : nf y -> nf (@mul _ N x y). Proof. destruct x, y; nft. Qed.
Lemma nf_add_l x y : nf x -> nf (@add _ N x y). Proof. destruct x, y; nft. Qed.
Lemma nf_add_r x y : nf y -> nf (@add _ N x y). Proof. destruct x, y; nft. Qed.
Lemma nf_sub_r x y : nf y -> nf (@sub _ N x y). Proof. destruct x, y; nft. Qed.
Lemma nf_opp x : nf x -> nf (@opp _ N x). Proof. destruct x; nft. Qed.
Lemma nf_div0 x y : y = Fin 0 -> nf (@div _ N x y).
Proof.
  intros ->. destruct x as [x| | |]; cbn [div NP_rd num_div]; try exact I.
  - destruct (Req_EM_T 0 0) as [_|n]; [|now exfalso; apply n]. unfold num_sign.
    destruct (Rlt_dec 0 x), (Rlt_dec x 0); exact I.
  - destruct (Rlt_dec 0 0); exact I.
  - destruct (Rlt_dec 0 0); exact I.
Qed.
Lemma nf_acos x : nf x -> nf (@narccos _ N x). Proof. destruct x; intros H; [destruct H| | |]; exact I. Qed.
Lemma nf_not x y : x = Fin y -> nf x -> False. Proof. intros ->. auto. Qed.
End NF.

Section Ops2.
Context (L : blib).
Notation M := (real_lib L).
Notation B := (NP_b64 L).
Notation N := (NP_rd (rnd 53) M).
Lemma sim_val k m K b v : sim k m K b (Fin v) -> B2R b = v.
Proof. intros (_ & E & _). now injection E. Qed.
Lemma lit_1 : @lit _ N 1 = Fin 1.
Proof. cbn [lit NP_rd]. f_equal. assert (Q2R 1 = 1) as -> by (unfold Q2R; cbn; lra). apply (rnd_1 53 ltac:(lia)). Qed.
(** 1 - x and 1 + x are not tiny *)
Lemma one_sub (x : R) : fmt 53 x -> 1 - x = 0 \/ bp (-53) <= Rabs (1 - x).
Proof.
  intros F. destruct (Rle_lt_dec (bp (-1)) (Rabs x)) as [H|H].
  - apply grid_min. apply grid_add; [exists (2 ^ 53)%Z; cbn; lra|]. apply grid_opp. apply (float_grid (-1)); auto.
  - right. change (bp (-1)) with (/ 2) in H. apply Rabs_def2 in H. rewrite Rabs_pos_eq by lra.
    apply Rle_trans with (bp (-1)); [apply bpow_le; lia|]. change (bp (-1)) with (/ 2). lra.
Qed.
Lemma sim_1sub k m K b x : sim k m K b x -> (k <= 0)%Z -> (-1074 <= k)%Z -> (0 <= K <= 1022)%Z ->
  sim k (-53) (K + 1) (@sub _ B (@lit _ B 1) b) (@sub _ N (@lit _ N 1) x).
Proof.
  intros S Hk Hk' HK. pose proof (sim_sub L M _ _ _ _ _ _ _ _ _ _ (sim_1 L) S ltac:(lia) ltac:(lia)) as H.
  rewrite Z.min_r, Z.max_r in H by lia. apply (sim_low _ _ _ _ _ _ H).
  destruct S as (_ & -> & _). rewrite lit_1 in H. rewrite (sim_val _ _ _ _ _ H : _ = rnd 53 (1 - B2R b)). apply rnd_lo.
  apply one_sub, b64_fmt.
Qed.
Lemma sim_1add k m K b x : sim k m K b x -> (k <= 0)%Z -> (-1074 <= k)%Z -> (0 <= K <= 1022)%Z ->
  sim k (-53) (K + 1) (@add _ B (@lit _ B 1) b) (@add _ N (@lit _ N 1) x).
Proof.
  intros S Hk Hk' HK. pose proof (sim_add L M _ _ _ _ _ _ _ _ _ _ (sim_1 L) S ltac:(lia) ltac:(lia)) as H.
  rewrite Z.min_r, Z.max_r in H by lia. apply (sim_low _ _ _ _ _ _ H).
  destruct S as (_ & -> & _). rewrite lit_1 in H. rewrite (sim_val _ _ _ _ _ H : _ = rnd 53 (1 + B2R b)). apply rnd_lo.
  replace (1 + B2R b) with (1 - - B2R b) by ring. apply one_sub. apply (fmt_opp 53), b64_fmt.
Qed.
End Ops2.

(** Forward steps: the operation applied to two related pairs, with the ranges stated. *)
Ltac stepw H k1 m1 K1 := apply sim_weaken with (k' := k1) (m' := m1) (K' := K1) in H; [|lia|lia|lia].
Ltac sadd L X Y H k m K := pose proof (sim_add L (real_lib L) _ _ _ _ _ _ _ _ _ _ X Y ltac:(lia) ltac:(lia)) as H; stepw H k m K.
Ltac ssub L X Y H k m K := pose proof (sim_sub L (real_lib L) _ _ _ _ _ _ _ _ _ _ X Y ltac:(lia) ltac:(lia)) as H; stepw H k m K.
Ltac smul L X Y H k m K := pose proof (sim_mul L (real_lib L) _ _ _ _ _ _ _ _ _ _ X Y ltac:(lia) ltac:(lia)) as H; stepw H k m K.
Ltac sdiv L X Y Z H k m K := pose proof (sim_div L (real_lib L) _ _ _ _ _ _ _ _ _ _ X Y Z ltac:(lia) ltac:(lia)) as H; stepw H k m K.

Section K2C.
Context (L : blib) (HL : lib64 L).
Notation B := (NP_b64 L).
Notation N := (NP_rd (rnd 53) (real_lib L)).

(** total angular momentum *)
Definition momB (a e mu : b64) := if @eqb _ B e (@lit _ B 1) then @parabolic_total_angular_momentum _ B a mu else @orbit_total_angular_momentum _ B a e mu.
Definition momN (a e mu : num) := if @eqb _ N e (@lit _ N 1) then @parabolic_total_angular_momentum _ N a mu else @orbit_total_angular_momentum _ N a e mu.
Lemma sqrt_sim k m K m' K' b x : sim k m K b x -> ~ nf (@nsqrt _ N x) -> (2 * m' <= m)%Z -> (K <= 2 * K')%Z -> (-1022 <= m')%Z ->
  sim (m' - 52) m' K' (@nsqrt _ B b) (@nsqrt _ N x).
Proof using Type.
  intros S NF H1 H2 H3. apply (sim_sqrt L (real_lib L) k m K); auto. destruct S as (_ & -> & _).
  cbn [nsqrt NP_rd num_sqrt] in NF. destruct (Rlt_dec (B2R b) 0); [|lra]. exfalso. apply NF. exact I.
Qed.
Lemma mom_ok (a e mu : b64) (xa xe xmu : num) :
  sim (-152) (-100) 100 a xa -> sim (-152) (-100) 10 e xe -> sim (-152) (-100) 100 mu xmu -> ~ nf (momN xa xe xmu) ->
  sim (-179) (-127) 111 (momB a e mu) (momN xa xe xmu).
Proof using Type.
  intros Sa Se Sm NF. unfold momB, momN in *.
  rewrite (sim_eqb L (real_lib L) _ _ _ _ _ _ _ _ _ _ Se (sim_1 L)). destruct (@eqb _ N xe (@lit _ N 1)).
  - unfold parabolic_total_angular_momentum in *.
    smul L Sm (sim_2 L) S1 (-151)%Z (-99)%Z 101%Z. smul L S1 Sa S2 (-251)%Z (-199)%Z 201%Z.
    apply (sqrt_sim _ _ _ (-127)%Z 111%Z _ _ S2 NF); lia.
  - unfold orbit_total_angular_momentum, sq in *.
    smul L Sm Sa S1 (-252)%Z (-200)%Z 200%Z. smul L Se Se S2 (-252)%Z (-200)%Z 20%Z.
    pose proof (sim_1sub L _ _ _ _ _ S2 ltac:(lia) ltac:(lia) ltac:(lia)) as S3. smul L S1 S3 S4 (-305)%Z (-253)%Z 221%Z.
    apply (sqrt_sim _ _ _ (-127)%Z 111%Z _ _ S4 NF); lia.
Qed.

Definition simv (k m K : Z) (a : six b64) (x : six num) : Prop :=
  sim k m K (s0 a) (s0 x) /\ sim k m K (s1 a) (s1 x) /\ sim k m K (s2 a) (s2 x) /\
  sim k m K (s3 a) (s3 x) /\ sim k m K (s4 a) (s4 x) /\ sim k m K (s5 a) (s5 x).
Definition nf6 (x : six num) : Prop := ~ nf (s0 x) /\ ~ nf (s1 x) /\ ~ nf (s2 x) /\ ~ nf (s3 x) /\ ~ nf (s4 x) /\ ~ nf (s5 x).

Lemma fin_nz (b : b64) x k m K : sim k m K b x -> x <> Fin 0 -> B2R b <> 0.
Proof using Type. intros (_ & -> & _) H E. apply H. now rewrite E. Qed.

Context (cb : six b64) (mb : b64) (cx : six num) (mx : num).
Context (Sa : sim (-152) (-100) 100 (s0 cb) (s0 cx)) (Se : sim (-152) (-100) 10 (s1 cb) (s1 cx)) (Sm : sim (-152) (-100) 100 mb mx).
Notation trig b x := (sim (-152) (-100) 1 (@nsin _ B b) (@nsin _ N x) /\ sim (-152) (-100) 1 (@ncos _ B b) (@ncos _ N x)).
Context (Ti : trig (s2 cb) (s2 cx)) (To : trig (s3 cb) (s3 cx)) (TO : trig (s4 cb) (s4 cx)) (Tn : trig (s5 cb) (s5 cx)).

Lemma k2c_sim : nf6 (@k2c_col _ N cx mx) -> simv (-1074) (-1074) 1000 (@k2c_col _ B cb mb) (@k2c_col _ N cx mx).
Proof using Sa Se Sm Ti To TO Tn.
  intros (F0 & F1 & F2 & F3 & F4 & F5). clear F1 F2 F4 F5.
  destruct cb as [a e i om Om nu], cx as [xa xe xi xom xOm xnu]. cbn [s0 s1 s2 s3 s4 s5] in *.
  destruct Ti as [Si Ci], To as [So Co], TO as [SO CO], Tn as [Sn Cn].
  unfold k2c_col in *. cbv zeta in *. cbn [s0 s1 s2 s3 s4 s5] in *. 
  change (if @eqb _ N xe (@lit _ N 1) then @parabolic_total_angular_momentum _ N xa mx else @orbit_total_angular_momentum _ N xa xe mx)
    with (momN xa xe mx) in *.
  change (if @eqb _ B e (@lit _ B 1) then @parabolic_total_angular_momentum _ B a mb else @orbit_total_angular_momentum _ B a e mb)
    with (momB a e mb) in *.
  set (hx := momN xa xe mx) in *. set (hb := momB a e mb) in *.
  (* the momentum is a positive number *)
  assert (Nv : ~ nf (@div _ N mx hx)).
  { intros H. apply F3. apply nf_add_l, nf_mul_r, nf_mul_l, nf_opp. exact H. }
  assert (Sh : sim (-179) (-127) 111 hb hx).
  { apply mom_ok; auto. intros H. apply Nv. fold hx in H. destruct Sm as (_ & -> & _). revert H. unfold hx, momN.
    unfold parabolic_total_angular_momentum, orbit_total_angular_momentum.
    assert (Q : forall z, @nsqrt _ N z = PInf -> z = PInf).
    { intros [z| | |]; cbn; try discriminate; auto. destruct (Rlt_dec z 0); discriminate. }
    assert (Q' : forall z, nf (@nsqrt _ N z) -> z <> PInf -> nf (@div _ N (Fin (B2R mb)) (@nsqrt _ N z))).
    { intros z H1 H2. destruct (@nsqrt _ N z) eqn:E; [destruct H1| | |exact I].
      - apply Q in E. easy.
      - exfalso. destruct z as [z| | |]; cbn in E; try discriminate. destruct (Rlt_dec z 0); discriminate. }
    destruct Sa as (_ & -> & _). destruct Se as (_ & -> & _).
    destruct (@eqb _ N _ _); intros H; apply Q'; auto; discriminate. }
  assert (Zh : B2R hb <> 0).
  { apply (fin_nz _ hx _ _ _ Sh). intros E. apply Nv. now apply nf_div0. }
  (* the distance *)
  unfold orbital_distance, sq in *. cbv zeta iota in *.
  smul L Sh Sh Shh (-306)%Z (-254)%Z 222%Z. smul L Se Cn Sec (-252)%Z (-200)%Z 11%Z.
  pose proof (sim_1add L _ _ _ _ _ Sec ltac:(lia) ltac:(lia) ltac:(lia)) as Sd1. smul L Sm Sd1 Sd (-205)%Z (-153)%Z 112%Z.
  assert (Zd : B2R (@mul _ B mb (@add _ B (@lit _ B 1) (@mul _ B e (@ncos _ B nu)))) <> 0).
  { apply (fin_nz _ _ _ _ _ Sd). intros E. apply F0. apply nf_add_l, nf_mul_r, nf_mul_l. now apply nf_div0. }
  sdiv L Shh Sd Zd Srn (-418)%Z (-366)%Z 375%Z. clear Nv F0 F3 Zd Sd Sd1 Sec Shh.
  set (rb := @div _ B (@mul _ B hb hb) _) in *. set (rx := @div _ N (@mul _ N hx hx) _) in *. clearbody rb rx.
  smul L Srn Cn Srx (-518)%Z (-466)%Z 376%Z. smul L Srn Sn Sry (-518)%Z (-466)%Z 376%Z.
  sdiv L Sm Sh Zh Svn (-263)%Z (-211)%Z 227%Z. clearbody hb hx.
  pose proof (sim_opp L (real_lib L) _ _ _ _ _ Svn) as Svm. smul L Svm Sn Svx (-415)%Z (-363)%Z 238%Z.
  sadd L Se Cn Sec (-152)%Z (-152)%Z 11%Z. smul L Svn Sec Svy (-415)%Z (-363)%Z 238%Z.
  (* the rotation *)
  unfold euler_rotation_matrix. cbv zeta iota. unfold m00, m01, m10, m11, m20, m21. cbn [fst snd].
  set (BI := @nsin _ B i) in *. set (BIc := @ncos _ B i) in *. set (Bo := @nsin _ B om) in *. set (Boc := @ncos _ B om) in *.
  set (BO := @nsin _ B Om) in *. set (BOc := @ncos _ B Om) in *.
  set (NI := @nsin _ N xi) in *. set (NIc := @ncos _ N xi) in *. set (No := @nsin _ N xom) in *. set (Noc := @ncos _ N xom) in *.
  set (NO := @nsin _ N xOm) in *. set (NOc := @ncos _ N xOm) in *.
  set (bx := @mul _ B rb (@ncos _ B nu)) in *. set (by_ := @mul _ B rb (@nsin _ B nu)) in *.
  set (nx := @mul _ N rx (@ncos _ N xnu)) in *. set (ny := @mul _ N rx (@nsin _ N xnu)) in *.
  set (bvx := @mul _ B (@opp _ B (@div _ B mb hb)) (@nsin _ B nu)) in *. set (nvx := @mul _ N (@opp _ N (@div _ N mx hx)) (@nsin _ N xnu)) in *.
  set (bvy := @mul _ B (@div _ B mb hb) _) in *. set (nvy := @mul _ N (@div _ N mx hx) _) in *.
  clearbody BI BIc Bo Boc BO BOc NI NIc No Noc NO NOc bx by_ nx ny bvx nvx bvy nvy. clear Srn Svn Svm Sec Sh Sa Se Sm Ti To TO Tn Sn Cn Zh.
  smul L CO Co T1 (-252)%Z (-200)%Z 2%Z. smul L Ci SO T2 (-252)%Z (-200)%Z 2%Z. smul L T2 So T3 (-352)%Z (-300)%Z 3%Z.
  ssub L T1 T3 E00 (-352)%Z (-352)%Z 4%Z.
  pose proof (sim_opp L (real_lib L) _ _ _ _ _ CO) as T4. smul L T4 So T5 (-252)%Z (-200)%Z 2%Z. smul L Ci Co T6 (-252)%Z (-200)%Z 2%Z.
  smul L T6 SO T7 (-352)%Z (-300)%Z 3%Z. ssub L T5 T7 E01 (-352)%Z (-352)%Z 4%Z.
  smul L Co SO T8 (-252)%Z (-200)%Z 2%Z. smul L CO Ci T9 (-252)%Z (-200)%Z 2%Z. smul L T9 So T10 (-352)%Z (-300)%Z 3%Z.
  sadd L T8 T10 E10 (-352)%Z (-352)%Z 4%Z.
  smul L T9 Co T11 (-352)%Z (-300)%Z 3%Z. smul L SO So T12 (-252)%Z (-200)%Z 2%Z. ssub L T11 T12 E11 (-352)%Z (-352)%Z 4%Z.
  smul L Si So E20 (-352)%Z (-352)%Z 4%Z. smul L Co Si E21 (-352)%Z (-352)%Z 4%Z.
  clear T1 T2 T3 T4 T5 T6 T7 T8 T9 T10 T11 T12.
  unfold simv. cbn [s0 s1 s2 s3 s4 s5].
  smul L E00 Srx P1 (-870)%Z (-818)%Z 380%Z. smul L E01 Sry P2 (-870)%Z (-818)%Z 380%Z.
  smul L E10 Srx P3 (-870)%Z (-818)%Z 380%Z. smul L E11 Sry P4 (-870)%Z (-818)%Z 380%Z.
  smul L E20 Srx P5 (-870)%Z (-818)%Z 380%Z. smul L E21 Sry P6 (-870)%Z (-818)%Z 380%Z.
  smul L E00 Svx Q1 (-870)%Z (-818)%Z 380%Z. smul L E01 Svy Q2 (-870)%Z (-818)%Z 380%Z.
  smul L E10 Svx Q3 (-870)%Z (-818)%Z 380%Z. smul L E11 Svy Q4 (-870)%Z (-818)%Z 380%Z.
  smul L E20 Svx Q5 (-870)%Z (-818)%Z 380%Z. smul L E21 Svy Q6 (-870)%Z (-818)%Z 380%Z.
  sadd L P1 P2 W1 (-1074)%Z (-1074)%Z 1000%Z. sadd L P3 P4 W2 (-1074)%Z (-1074)%Z 1000%Z. sadd L P5 P6 W3 (-1074)%Z (-1074)%Z 1000%Z.
  sadd L Q1 Q2 W4 (-1074)%Z (-1074)%Z 1000%Z. sadd L Q3 Q4 W5 (-1074)%Z (-1074)%Z 1000%Z. sadd L Q5 Q6 W6 (-1074)%Z (-1074)%Z 1000%Z.
  exact (conj W1 (conj W2 (conj W3 (conj W4 (conj W5 W6))))).
Qed.
End K2C.
