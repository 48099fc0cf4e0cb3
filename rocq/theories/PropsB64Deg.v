(** * C92: degrees in IEEE binary64: the conversions and the Orbit object. *)
From Coq Require Import Bool ZArith QArith Qreals Reals Lra Lia List Arith.
From Flocq Require Import Core.Core IEEE754.BinarySingleNaN.
From Verif Require Import NP NPReal NPFloat FloatBase NPB64 KeplerModel ConvModel UnitModel OrbitModel Lists ConvCols ArraySpec PropsArray PropsAnomaly
  OrbitLists OrbitBase OrbitOps OrbitSetters OrbitGet OrbitSpec PropsOrbitWidth PropsOrbitDirect PropsOrbitLazy PropsOrbitWrite.
From Verif Require Import Spec RealBase KepReal PropsKep FloatAcc PropsFloat PropsFloatAcc PropsFloatC2K PropsFloatPropC PropsB64.
From Verif Require Import B64Sim B64Pi B64Lib B64K2C B64C2K PropsB64Conv PropsB64Orbit.
Import ListNotations.
Local Open Scope R_scope.

(** elements with angles in degrees: as [tame_kep], the sines and cosines are those of the computed radians *)
Definition tame_kep_deg (L : blib) (mu : b64) (k : six b64) : Prop :=
  sized (-100) 100 (s0 k) /\ sized (-100) 10 (s1 k) /\ sized (-100) 100 mu /\
  forall t, In t [s2 k; s3 k; s4 k; s5 k] -> sized (-100) 100 t /\ no_tiny L (@radians _ (NP_b64 L) t).

Section Columns.
Context (L : blib) (HL : lib64 L).
Notation B := (NP_b64 L).
Notation N := (NP_rd (rnd 53) (real_lib L)).
Lemma sim_180 : sim (-45) 7 8 (@lit _ B 180) (@lit _ N 180).
Proof using Type.
  assert (Q2R 180 = 180) as E by (unfold Q2R; cbn; lra).
  apply (sim_lit L 180 7 8); try (cbn; lia); rewrite E, Rabs_pos_eq by lra; [change (bp 7) with 128|change (bp 8) with 256]; lra.
Qed.
Lemma nz_of k m K b x : sim k m K b x -> x <> Fin 0 -> B2R b <> 0.
Proof using Type. intros (_ & -> & _) H E. apply H. now rewrite E. Qed.
Lemma rad_const : sim (-59) (-7) (-5) (@div _ B (@npi _ B) (@lit _ B 180)) (@div _ N (@npi _ N) (@lit _ N 180)).
Proof using Type.
  assert (Z : B2R (@lit _ B 180) <> 0).
  { destruct sim_180 as (_ & _ & _ & [E|E] & _); [|apply (big_nz 7 _ E)]. exfalso.
    pose proof sim_180 as S. destruct S as (_ & V & _). rewrite E in V. cbn [lit NP_rd] in V. injection V as V.
    assert (Q2R 180 = 180) as E1 by (unfold Q2R; cbn; lra). rewrite E1 in V. revert V. apply (rnd_neq 53 ltac:(lia)). lra. }
  sdiv L (sim_npi L) sim_180 Z T (-59)%Z (-7)%Z (-5)%Z. exact T.
Qed.
Lemma deg_const : sim (-47) 5 7 (@div _ B (@lit _ B 180) (@npi _ B)) (@div _ N (@lit _ N 180) (@npi _ N)).
Proof using Type.
  assert (Z : B2R (@npi _ B) <> 0).
  { change (@npi _ B) with bpi. rewrite (bpi_rnd). apply (rnd_neq 53 ltac:(lia)). pose proof PI_RGT_0. lra. }
  sdiv L sim_180 (sim_npi L) Z T (-47)%Z 5%Z 7%Z. exact T.
Qed.
Lemma rad_sim t : sized (-100) 100 t -> sim (-211) (-107) 95 (@radians _ B t) (@radians _ N (Fin (B2R t))).
Proof using Type. intros S. apply sized_sim in S. unfold radians. smul L S rad_const T (-211)%Z (-107)%Z 95%Z. exact T. Qed.
Lemma deg_sim b x : sim (-80) (-80) 10 b x -> sim (-1074) (-1074) 1000 (@degrees _ B b) (@degrees _ N x).
Proof using Type. intros S. unfold degrees. smul L S deg_const T (-1074)%Z (-1074)%Z 1000%Z. exact T. Qed.

Lemma k2c_deg64 k mu y : tame_kep_deg L mu k ->
  @k2c_col _ N (@edit_col _ N true (fin6 (real6 k))) (Fin (B2R mu)) = fin6 y ->
  fin64 (@k2c_col _ B (@edit_col _ B true k) mu) /\ real6 (@k2c_col _ B (@edit_col _ B true k) mu) = y.
Proof using HL.
  intros (Sa & Se & Sm & Sang) E. apply (simv_out (-1074) (-1074) 1000). rewrite <- E.
  apply sized_sim in Sa, Se, Sm.
  assert (T : forall t, In t [s2 k; s3 k; s4 k; s5 k] -> sim (-152) (-100) 1 (@nsin _ B (@radians _ B t)) (@nsin _ N (@radians _ N (Fin (B2R t))))
    /\ sim (-152) (-100) 1 (@ncos _ B (@radians _ B t)) (@ncos _ N (@radians _ N (Fin (B2R t))))).
  { intros t Ht. destruct (Sang t Ht) as [F Nt]. destruct (rad_sim t F) as (Fr & Vr & _). rewrite Vr. unfold no_tiny in Nt. clear Vr. set (z := @radians _ B t) in *. clearbody z.
    split; [apply (sim_sin L HL (-100))|apply (sim_cos L HL (-100))]; try exact Fr; apply Nt; [now left|right; now left]. }
  destruct k as [a e i om Om nu]. unfold edit_col, ang6, real6, fin6, map6. cbn [s0 s1 s2 s3 s4 s5] in *.
  pose proof (T i ltac:(cbn; tauto)) as Ti. pose proof (T om ltac:(cbn; tauto)) as To. pose proof (T Om ltac:(cbn; tauto)) as TO. pose proof (T nu ltac:(cbn; tauto)) as Tn.
  clear T Sang. apply k2c_sim; cbn [s0 s1 s2 s3 s4 s5]; first [exact Se|exact Sm|apply Ti|apply To|apply TO|apply Tn|idtac].
  - rewrite (sim_ltb L (real_lib L) _ _ _ _ _ _ _ _ _ _ (sim_1 L) Se). destruct (ltb _ _); [|exact Sa].
    smul L Sa (sim_m1 L) T1 (-152)%Z (-100)%Z 100%Z. exact T1.
  - unfold edit_col, ang6, real6, fin6, map6 in E. cbn [s0 s1 s2 s3 s4 s5] in E. rewrite E. apply nf6_fin.
Qed.
Lemma deg_out (c : six b64) (d : six NPReal.num) y : (nf6 d -> sime c d) -> @ang6 _ (@degrees _ N) d = fin6 y ->
  fin64 (@ang6 _ (@degrees _ B) c) /\ real6 (@ang6 _ (@degrees _ B) c) = y.
Proof using Type.
  intros S E. apply (simv_out (-1074) (-1074) 1000). rewrite <- E.
  assert (F : nf6 d).
  { pose proof (nf6_fin y) as Y. rewrite <- E in Y. destruct Y as (Y0 & Y1 & Y2 & Y3 & Y4 & Y5). unfold ang6 in *. cbn [s0 s1 s2 s3 s4 s5] in *.
    unfold nf6. split; [exact Y0|]. split; [exact Y1|].
    split; [|split; [|split]]; intros H; [apply Y2|apply Y3|apply Y4|apply Y5]; unfold degrees; now apply nf_mul_l. }
  destruct (S F) as (R0 & R1 & R2 & R3 & R4 & R5). unfold simv, ang6. cbn [s0 s1 s2 s3 s4 s5].
  exact (conj R0 (conj R1 (conj (deg_sim _ _ R2) (conj (deg_sim _ _ R3) (conj (deg_sim _ _ R4) (deg_sim _ _ R5)))))).
Qed.
Lemma c2k_ang {F} `{NP F} (c : six F) m : c2k_col true c m = ang6 degrees (c2k_col false c m).
Proof using Type. reflexivity. Qed.
Lemma c2k_deg64 x mu y : tame_cart mu x -> @c2k_col _ N true (fin6 (real6 x)) (Fin (B2R mu)) = fin6 y ->
  fin64 (@c2k_col _ B true x mu) /\ real6 (@c2k_col _ B true x mu) = y.
Proof using HL.
  intros T E. rewrite (@c2k_ang _ N) in E. rewrite (@c2k_ang _ B). apply (deg_out _ _ _ (c2k_sime L HL x mu T) E).
Qed.
End Columns.

(** ** The conversions.  [rad6] turns the angles into radians (exactly); [turns B]: every angle within B full turns *)
Lemma state_deg mu k x : state_of mu (rad6 k) x -> forall g, snd (kep_to_cart g (KVec (fin6 k)) (MuS (Fin mu)) true) = Ok (KVec (fin6 x)).
Proof.
  intros Sx g. rewrite <- (Sx g).
  destruct (kep_to_cart_vec g (fin6 k) (MuS (Fin mu)) true [Fin mu] eq_refl) as [m [Em ->]].
  destruct (kep_to_cart_vec g (fin6 (rad6 k)) (MuS (Fin mu)) false [Fin mu] eq_refl) as [m' [Em' ->]].
  assert (m = m') as -> by congruence. cbn [snd]. do 2 f_equal. unfold edit_col.
  replace (ang6 radians (fin6 k)) with (fin6 (rad6 k)); [reflexivity|].
  unfold ang6, fin6, map6, rad6. cbn [s0 s1 s2 s3 s4 s5]. now rewrite !Fin_radians.
Qed.
Theorem C92_kep_to_cart : forall L mu k K T x g, lib64 L -> tame_kep_deg L mu k -> 1 <= T -> turns T (real6 k) ->
  valid_kep (B2R mu) (rad6 (real6 k)) -> cond_ok (k_e (real6 k)) (k_nu (rad6 (real6 k))) K -> K * (27 * T * ulp1 53) <= / 10000 ->
  state_of (B2R mu) (rad6 (real6 k)) x ->
  exists y, snd (@kep_to_cart b64 (NP_b64 L) g (KVec k) (MuS mu) true) = Ok (KVec y) /\ fin64 y /\ close (3510 * T * (K * ulp1 53)) (real6 y) x.
Proof.
  intros L mu k K T x g HL Tk HT Ht V C HK Sx.
  destruct (C77_degrees (rnd 53) (ulp1 53) (real_lib L) (B2R mu) (real6 k) K T x (fun _ => NaN) (binary_rounding 53 ltac:(lia)) (real_trig_acc L HL) HT Ht V C HK (state_deg _ _ _ Sx))
    as (y & E & Cl).
  destruct (@kep_to_cart_vec NPReal.num (NP_rd (rnd 53) (real_lib L)) (fun _ => NaN) (fin6 (real6 k)) (MuS (Fin (B2R mu))) true [Fin (B2R mu)] eq_refl) as [m [Em Ev]].
  assert (m = Fin (B2R mu)) as -> by congruence. rewrite Ev in E. cbn [snd] in E. clear Ev Em.
  destruct (@kep_to_cart_vec b64 (NP_b64 L) g k (MuS mu) true [mu] eq_refl) as [m [Em Ev]]. assert (m = mu) as -> by congruence.
  rewrite Ev. cbn [snd]. eexists. split; [reflexivity|]. destruct (k2c_deg64 L HL k mu y Tk) as [F <-]; [congruence|]. auto.
Qed.
Theorem C92_cart_to_kep : forall L mu k x g, lib64 L -> tame_cart mu x ->
  valid_kep (B2R mu) k -> regular_kep (ulp1 53) k -> state_of (B2R mu) k (real6 x) ->
  exists k', snd (@cart_to_kep b64 (NP_b64 L) g (KVec x) (MuS mu) true) = Ok (KVec k') /\ fin64 k' /\ elements_within (ulp1 53) (rad6 (real6 k')) k.
Proof.
  intros L mu k x g HL T V C Sx.
  destruct (C83_degrees 53 (real_lib L) (B2R mu) k (real6 x) (fun _ _ => NaN) ltac:(lia) (real_acos_ok L HL) (real_acos_acc L HL) V C Sx) as (k' & E & Cl).
  destruct (@cart_to_kep_vec NPReal.num (NP_rd (rnd 53) (real_lib L)) (fun _ _ => NaN) (fin6 (real6 x)) (MuS (Fin (B2R mu))) true [Fin (B2R mu)] eq_refl) as [m [Em Ev]].
  assert (m = Fin (B2R mu)) as -> by congruence. rewrite Ev in E. cbn [snd] in E. clear Ev Em.
  destruct (@cart_to_kep_vec b64 (NP_b64 L) g x (MuS mu) true [mu] eq_refl) as [m [Em Ev]]. assert (m = mu) as -> by congruence.
  rewrite Ev. cbn [snd]. eexists. split; [reflexivity|]. destruct (c2k_deg64 L HL x mu k' T) as [F <-]; [congruence|]. auto.
Qed.

(** ** The object with degrees=True *)
Section Orbit.
Context (L : blib) (HL : lib64 L).
Notation B := (NP_b64 L).
Lemma tame_deg_fin mu k : tame_kep_deg L mu k -> fin64 k.
Proof using Type.
  intros ((A & _) & (C & _) & _ & H). unfold fin64. pose proof (fun t Ht => proj1 (proj1 (H t Ht))) as G. cbn [In] in G.
  split; [exact A|]. split; [exact C|]. split; [apply G; tauto|]. split; [apply G; tauto|]. split; apply G; tauto.
Qed.
Theorem C92_kepler : forall gb0 gb1 gb n v (s0 s : orb b64) ks j k m K T x, aligned n s0 -> wfv v -> @set_kepler b64 B gb0 v s0 = (s, Ok tt) ->
  oauto s0 = true \/ odirect s0 = true -> odeg s0 = true -> otype s0 = ATrue ->
  snd (@get_kepler b64 B gb1 s) = Ok ks -> nth_error ks j = Some k -> nth_error (om s0) j = Some m ->
  let mu := mu64 L s0 m in
  tame_kep_deg L mu k -> 1 <= T -> turns T (real6 k) -> valid_kep (B2R mu) (rad6 (real6 k)) -> cond_ok (k_e (real6 k)) (k_nu (rad6 (real6 k))) K ->
  K * (27 * T * ulp1 53) <= / 10000 -> state_of (B2R mu) (rad6 (real6 k)) x ->
  exists cs c, snd (@get_cartesian b64 B gb s) = Ok cs /\ nth_error cs j = Some c /\ fin64 c /\ close (3510 * T * (K * ulp1 53)) (real6 c) x.
Proof using HL.
  intros gb0 gb1 gb n v s0 s ks j k m K T x A Hv E Hau Hd Ht Hk Hj Hm mu Tk HT Htu V C HK Sx.
  destruct (@cart_after_kep b64 B gb0 gb1 gb n v s0 s ks j k m A Hv E Hau Hk Hj (fin_nan6 L k (tame_deg_fin mu k Tk)) Hm) as (_ & _ & _ & cs & g & Ec & Hc).
  exists cs, (@cconv b64 B s0 (@nu1 b64 B s0 g k) k m). split; [exact Ec|]. split; [exact Hc|].
  unfold cconv, nu1. rewrite Ht, Hd. change (@mu_of b64 B s0 m) with mu. assert (set5 k (s5 k) = k) as -> by now destruct k.
  destruct (C92_kep_to_cart L mu k K T x (fun _ => mu) HL Tk HT Htu V C HK Sx) as (y & Ey & Fy & Cl).
  destruct (@kep_to_cart_vec b64 B (fun _ => mu) k (MuS mu) true [mu] eq_refl) as [m' [Em Ev]]. assert (m' = mu) as -> by congruence.
  rewrite Ev in Ey. cbn [snd] in Ey. assert (@k2c_col b64 B (@edit_col b64 B true k) mu = y) as -> by congruence. auto.
Qed.
Theorem C92_cartesian : forall gb0 gb1 gb n v (s0 s : orb b64) cs j c m k, aligned n s0 -> wfv v -> @set_cartesian b64 B gb0 v s0 = (s, Ok tt) ->
  oauto s0 = true \/ odirect s0 = true -> odeg s0 = true -> otype s0 = ATrue ->
  snd (@get_cartesian b64 B gb1 s) = Ok cs -> nth_error cs j = Some c -> nth_error (om s0) j = Some m ->
  let mu := mu64 L s0 m in
  tame_cart mu c -> valid_kep (B2R mu) k -> regular_kep (ulp1 53) k -> state_of (B2R mu) k (real6 c) ->
  exists ks k', snd (@get_kepler b64 B gb s) = Ok ks /\ nth_error ks j = Some k' /\ fin64 k' /\ elements_within (ulp1 53) (rad6 (real6 k')) k.
Proof using HL.
  intros gb0 gb1 gb n v s0 s cs j c m k A Hv E Hau Hd Ht Hc Hj Hm mu T V C Sx.
  destruct (@kep_after_cart b64 B gb0 gb1 gb n v s0 s cs j c m A Hv E Hau Hc Hj (fin_nan6 L c (tame_cart_fin mu c T)) Hm) as (_ & _ & _ & ks & g & Ek & Hk).
  exists ks, (@kconv b64 B s0 g c m). split; [exact Ek|]. split; [exact Hk|].
  unfold kconv. rewrite Ht, Hd. change (@mu_of b64 B s0 m) with mu.
  destruct (C92_cart_to_kep L mu k c (fun _ _ => mu) HL T V C Sx) as (y & Ey & Fy & Cl).
  destruct (@cart_to_kep_vec b64 B (fun _ _ => mu) c (MuS mu) true [mu] eq_refl) as [m' [Em Ev]]. assert (m' = mu) as -> by congruence.
  rewrite Ev in Ey. cbn [snd] in Ey. assert (@c2k_col b64 B true c mu = y) as -> by congruence. auto.
Qed.
End Orbit.

(** ** Hypotheses met: all four angles 60 degrees, e = 1/2; and the state (1, 0, 0, 0, 1, 1) with mu = 3/2 *)
Definition ex_kd : six b64 := mk6 (bz 7000 0) (bz 1 (-1)) (bz 60 0) (bz 60 0) (bz 60 0) (bz 60 0).
Lemma ex_deg_ok : let k := mk6 7000 (/ 2) 60 60 60 60 in
  B2R ex_mu = 398600 /\ real6 ex_kd = k /\ valid_kep 398600 (rad6 k) /\ cond_ok (k_e k) (k_nu (rad6 k)) 3 /\ turns 1 k /\ tame_kep_deg lib_exact ex_mu ex_kd.
Proof.
  intros k. destruct ex_kep_ok as (Em & _ & _ & _ & Sa & Se & Sm & _).
  assert (E60 : B2R (bz 60 0) = 60) by (val 60%Z 0%Z; cbn; lra).
  assert (Ek : real6 ex_kd = k).
  { unfold real6, map6, ex_kd, k. cbn [s0 s1 s2 s3 s4 s5]. rewrite E60. val 7000%Z 0%Z. val 1%Z (-1)%Z. f_equal; cbn; lra. }
  assert (Hv : valid_kep 398600 (rad6 k)). { unfold valid_kep, rad6, k, k_a, k_e, k_nu. cbn [s0 s1 s5]. pose proof (COS_bound (60 * (PI / 180))). repeat split; lra. }
  assert (HK : cond_ok (k_e k) (k_nu (rad6 k)) 3).
  { replace 3 with ((1 + k_e k) / (1 - k_e k)) by (unfold k, k_e; cbn; field). apply C77_ellipse_K. unfold k, k_e. cbn. lra. }
  assert (Ht : turns 1 k). { unfold turns, k, k_i, k_om, k_Om, k_nu. cbn [s2 s3 s4 s5]. rewrite Rabs_pos_eq by lra. repeat split; lra. }
  assert (T : tame_kep_deg lib_exact ex_mu ex_kd).
  { split; [exact Sa|]. split; [exact Se|]. split; [exact Sm|]. intros t Ht'. unfold ex_kd in Ht'. cbn [In s2 s3 s4 s5] in Ht'.
    assert (t = bz 60 0) as -> by (destruct Ht' as [Q|[Q|[Q|[Q|[]]]]]; now rewrite <- Q). clear Ht'.
    assert (S60 : sized (-100) 100 (bz 60 0)).
    { apply sized_bz; try lia; replace (IZR 60 * bp 0) with 60 by (cbn; ring); rewrite Rabs_pos_eq by lra.
      - right. apply Rle_trans with (bp 0); [apply bpow_le; lia|cbn; lra].
      - apply Rle_trans with (bp 6); [cbn; lra|apply bpow_le; lia]. }
    split; [exact S60|]. destruct (rad_sim lib_exact _ S60) as (F & _).
    assert (V : exists m e, B2SF (@radians _ (NP_b64 lib_exact) (bz 60 0)) = SpecFloat.S754_finite false m e /\ 1 <= IZR (Zpos m) * bp e <= 11 / 10).
    { eexists. eexists. split; [vm_compute; reflexivity|]. cbn [bpow]. change (Z.pow_pos radix2 52) with 4503599627370496%Z. lra. }
    destruct V as (m & e & V & W).
    assert (R : 1 <= B2R (@radians _ (NP_b64 lib_exact) (bz 60 0)) <= 11 / 10).
    { set (z := @radians _ (NP_b64 lib_exact) (bz 60 0)) in *. clearbody z. destruct z as [| | |s mz ez Bz]; cbn [B2SF] in V; try discriminate.
      injection V as -> -> ->. cbn [B2R]. unfold F2R. cbn [Fnum Fexp cond_Zopp]. exact W. }
    set (z := @radians _ (NP_b64 lib_exact) (bz 60 0)) in *. clearbody z. apply no_tiny_far; [apply lib_exact_ok|exact F| |]; set (t := B2R z) in *; clearbody t.
    - pose proof (LagTrig.sin_ge t ltac:(lra)) as Q. assert (t ^ 3 <= 2) by (simpl; nra). assert (1 / 2 <= sin t) by lra.
      rewrite Rabs_pos_eq by lra. apply Rle_trans with (bp (-1)); [apply bpow_le; lia|]. cbn. lra.
    - pose proof (LagTrig.cos_ge t) as Q. assert (t ^ 2 <= 122 / 100) by (simpl; nra). assert (1 / 4 <= cos t) by lra.
      rewrite Rabs_pos_eq by lra. apply Rle_trans with (bp (-2)); [apply bpow_le; lia|]. cbn. lra. }
  exact (conj Em (conj Ek (conj Hv (conj HK (conj Ht T))))).
Qed.
Example C92_example : forall g, exists x y, state_of 398600 (mk6 7000 (/ 2) (60 * (PI / 180)) (60 * (PI / 180)) (60 * (PI / 180)) (60 * (PI / 180))) x /\
  snd (@kep_to_cart b64 (NP_b64 lib_exact) g (KVec ex_kd) (MuS ex_mu) true) = Ok (KVec y) /\ fin64 y /\ close (10530 * ulp1 53) (real6 y) x.
Proof.
  intros g. destruct ex_deg_ok as (Em & Ek & Hv & HK & Ht & T). set (k := mk6 7000 (/ 2) 60 60 60 60) in *.
  assert (U : 3 * (27 * 1 * ulp1 53) <= / 10000) by (pose proof ulp1_le; lra).
  pose proof (C92_kep_to_cart lib_exact ex_mu ex_kd 3 1 (peri_state 398600 (rad6 k)) g lib_exact_ok T ltac:(lra)) as Q.
  rewrite Em, Ek in Q. destruct (Q Ht Hv HK U (state_of_peri _ _ Hv)) as (y & E & F & C).
  exists (peri_state 398600 (rad6 k)), y. split; [exact (state_of_peri _ _ Hv)|]. split; [exact E|]. split; [exact F|].
  replace (10530 * ulp1 53) with (3510 * 1 * (3 * ulp1 53)) by ring. exact C.
Qed.
Example C92_cart_example : forall g, exists k', snd (@cart_to_kep b64 (NP_b64 lib_exact) g (KVec ex_x) (MuS (bz 3 (-1))) true) = Ok (KVec k') /\ fin64 k' /\
  elements_within (ulp1 53) (rad6 (real6 k')) (mk6 (3 / 2) (/ 3) (PI / 4) 0 0 0).
Proof.
  intros g. destruct ex_cart_ok as (Em & Ex & Hv & Rk & Sx & T). pose proof (C92_cart_to_kep lib_exact (bz 3 (-1)) (mk6 (3 / 2) (/ 3) (PI / 4) 0 0 0) ex_x g lib_exact_ok T) as C.
  rewrite Em, Ex in C. exact (C Hv Rk Sx).
Qed.
Definition new64_deg (direct : bool) (M0 : b64) : orb b64 :=
  let N := NP_b64 lib_exact in
  mkorb M0 (bz 1 0) true direct false false true ATrue (@default_options b64 N)
    [bz 0 0] [@nan6c b64 N] [@nan6c b64 N] [@nan b64 N] (fresh [1%nat] [@nan b64 N]) [@nan b64 N] [false] [false] None.
Lemma new64_deg_aligned d M0 : aligned 1 (new64_deg d M0).
Proof. split; [now constructor|]. exists [@nan b64 (NP_b64 lib_exact)]. split; reflexivity. Qed.
Example C92_object_example : forall gb d, exists s cs c x,
  @set_kepler b64 (NP_b64 lib_exact) gb (vec64 ex_kd) (new64_deg d ex_mu) = (s, Ok tt) /\ snd (@get_kepler b64 (NP_b64 lib_exact) gb s) = Ok [ex_kd] /\
  snd (@get_cartesian b64 (NP_b64 lib_exact) gb s) = Ok cs /\ nth_error cs 0 = Some c /\ fin64 c /\
  state_of 398600 (rad6 (mk6 7000 (/ 2) 60 60 60 60)) x /\ close (10530 * ulp1 53) (real6 c) x.
Proof.
  intros gb d. set (sa := new64_deg d ex_mu). destruct ex_deg_ok as (Em & Ek & Hv & HK & Ht & T). set (k := mk6 7000 (/ 2) 60 60 60 60) in *.
  pose proof (new64_deg_aligned d ex_mu) as A. fold sa in A.
  assert (W : @wfv b64 (vec64 ex_kd)) by (split; reflexivity).
  pose (s := @aft_kep b64 (NP_b64 lib_exact) gb (with_kep (fun _ => [ex_kd]) sa)).
  assert (E : @set_kepler b64 (NP_b64 lib_exact) gb (vec64 ex_kd) sa = (s, Ok tt)).
  { rewrite (@set_kepler_eq b64 (NP_b64 lib_exact) gb 1) by (auto; apply A). reflexivity. }
  assert (H1 : lens 1 (with_kep (fun _ => [ex_kd]) sa)) by (apply lens_with_kep; [apply A|reflexivity]).
  assert (Hks : snd (@get_kepler b64 (NP_b64 lib_exact) gb s) = Ok [ex_kd]).
  { rewrite (@get_kepler_eq b64 (NP_b64 lib_exact) gb 1) by now apply lens_aft_kep.
    rewrite (@kchk_keeps b64 (NP_b64 lib_exact) gb 1) by (try (now apply lens_aft_kep); apply (@after_kep_fresh b64 (NP_b64 lib_exact) gb 1); auto).
    unfold s. now rewrite (@aft_kep_okep b64 (NP_b64 lib_exact) gb 1). }
  assert (Mu : mu64 lib_exact sa (bz 0 0) = ex_mu) by (apply B2SF_inj; vm_compute; reflexivity).
  destruct (C92_kepler lib_exact lib_exact_ok gb gb gb 1 _ sa s _ 0 ex_kd (bz 0 0) 3 1 (peri_state 398600 (rad6 k)) A W E (or_introl eq_refl) eq_refl eq_refl Hks eq_refl eq_refl) as (cs & c & Ec & Hc & Fc & Cl);
    rewrite ?Mu, ?Em, ?Ek; auto; try lra.
  - pose proof ulp1_le. lra.
  - now apply state_of_peri.
  - exists s, cs, c, (peri_state 398600 (rad6 k)). repeat (split; [assumption|]). split; [now apply state_of_peri|].
    replace (10530 * ulp1 53) with (3510 * 1 * (3 * ulp1 53)) by ring. exact Cl.
Qed.
(** The same with M0 = 3/2 after orb.cartesian = (1, 0, 0, 0, 1, 1): the state of the orbit (3/2, 1/3, pi/4, 0, 0, 0) *)
Example C92_object_cart_example : forall gb d, exists s ks k',
  @set_cartesian b64 (NP_b64 lib_exact) gb (vec64 ex_x) (new64_deg d (bz 3 (-1))) = (s, Ok tt) /\ snd (@get_cartesian b64 (NP_b64 lib_exact) gb s) = Ok [ex_x] /\
  snd (@get_kepler b64 (NP_b64 lib_exact) gb s) = Ok ks /\ nth_error ks 0 = Some k' /\ fin64 k' /\
  elements_within (ulp1 53) (rad6 (real6 k')) (mk6 (3 / 2) (/ 3) (PI / 4) 0 0 0).
Proof.
  intros gb d. set (sa := new64_deg d (bz 3 (-1))). destruct ex_cart_ok as (Em & Ex & Hv & Rk & Sx & T). set (k := mk6 (3 / 2) (/ 3) (PI / 4) 0 0 0) in *.
  pose proof (new64_deg_aligned d (bz 3 (-1))) as A. fold sa in A.
  assert (W : @wfv b64 (vec64 ex_x)) by (split; reflexivity).
  pose (s := @aft_cart b64 (NP_b64 lib_exact) gb (with_cart (fun _ => [ex_x]) sa)).
  assert (E : @set_cartesian b64 (NP_b64 lib_exact) gb (vec64 ex_x) sa = (s, Ok tt)).
  { rewrite (@set_cartesian_eq b64 (NP_b64 lib_exact) gb 1) by (auto; apply A). reflexivity. }
  assert (H1 : lens 1 (with_cart (fun _ => [ex_x]) sa)) by (apply lens_with_cart; [apply A|reflexivity]).
  assert (Hcs : snd (@get_cartesian b64 (NP_b64 lib_exact) gb s) = Ok [ex_x]).
  { rewrite (@get_cartesian_eq b64 (NP_b64 lib_exact) gb 1) by now apply lens_aft_cart.
    rewrite (@cchk_keeps b64 (NP_b64 lib_exact) gb 1) by (try (now apply lens_aft_cart); apply (@after_cart_fresh b64 (NP_b64 lib_exact) gb 1); auto).
    unfold s. now rewrite (@aft_cart_ocart b64 (NP_b64 lib_exact) gb 1). }
  assert (Mu : mu64 lib_exact sa (bz 0 0) = bz 3 (-1)) by (apply B2SF_inj; vm_compute; reflexivity).
  destruct (C92_cartesian lib_exact lib_exact_ok gb gb gb 1 _ sa s _ 0 ex_x (bz 0 0) k A W E (or_introl eq_refl) eq_refl eq_refl Hcs eq_refl eq_refl) as (ks & k' & Ec & Hc & Fc & Cl);
    rewrite ?Mu, ?Em, ?Ex; auto.
  exists s, ks, k'. auto 10.
Qed.
