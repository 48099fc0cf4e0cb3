(** * C94 in IEEE binary64: changing the units by powers of two changes no digit, as long as the sizes stay moderate. *)
From Coq Require Import Bool ZArith QArith Qreals Reals Lra Lia List Arith.
From Flocq Require Import Core.Core IEEE754.BinarySingleNaN.
From Verif Require Import NP NPReal NPFloat FloatBase NPB64 KeplerModel ConvModel Lists ConvCols ArraySpec PropsArray RealBase Spec KepReal PropsKep.
From Verif Require Import FloatAcc PropsFloat PropsFloatAcc PropsFloatC2K PropsB64 B64Sim B64Pi B64Lib B64K2C B64C2K PropsB64Conv PropsFloatScale PropsB64Period.
Import ListNotations.
Local Open Scope R_scope.

(** the same states and elements in other units, as reals *)
Definition units_x (i j : Z) (x : six R) : six R :=
  mk6 (bp i * s0 x) (bp i * s1 x) (bp i * s2 x) (bp j * s3 x) (bp j * s4 x) (bp j * s5 x).
Definition units_k (i : Z) (k : six R) : six R := mk6 (bp i * s0 k) (s1 k) (s2 k) (s3 k) (s4 k) (s5 k).
Lemma units_x_fin i j x : fin6 (units_x i j x) = scx i j (fin6 x). Proof. reflexivity. Qed.
Lemma units_k_fin i k : fin6 (units_k i k) = sck i (fin6 k). Proof. reflexivity. Qed.

Theorem C94_kep_to_cart_b64 : forall L mu mu' k k' i j K x g g', lib64 L -> tame_kep L mu k -> tame_kep L mu' k' ->
  B2R mu' = bp (i + 2 * j) * B2R mu -> real6 k' = units_k i (real6 k) ->
  valid_kep (B2R mu) (real6 k) -> cond_ok (k_e (real6 k)) (k_nu (real6 k)) K -> K * ulp1 53 <= / 10000 -> state_of (B2R mu) (real6 k) x ->
  exists y y', snd (@kep_to_cart b64 (NP_b64 L) g (KVec k) (MuS mu) false) = Ok (KVec y) /\
    snd (@kep_to_cart b64 (NP_b64 L) g' (KVec k') (MuS mu') false) = Ok (KVec y') /\ fin64 y /\ fin64 y' /\ real6 y' = units_x i j (real6 y).
Proof.
  intros L mu mu' k k' i j K x g g' HL T T' Em Ek Hv HK HKu Sx.
  destruct (C77_kep_to_cart (rnd 53) (ulp1 53) (real_lib L) (B2R mu) (real6 k) K x (fun _ => NaN) (binary_rounding 53 ltac:(lia)) (real_trig_acc L HL) Hv HK HKu Sx)
    as (y & E & _).
  pose proof (C94_kep_to_cart (rnd 53) (real_lib L) i j (KVec (fin6 (real6 k))) (MuS (Fin (B2R mu))) false (fun _ => NaN) (fun _ => NaN) (digits_rnd 53 ltac:(reflexivity))) as S.
  rewrite E in S. cbn [on_in on_mu on_res scl] in S. rewrite <- units_k_fin, <- Ek, <- Em, <- units_x_fin in S.
  destruct (C90_same_kep_to_cart L mu k y g _ HL T E) as (z & Ez & F & Rz).
  destruct (C90_same_kep_to_cart L mu' k' _ g' _ HL T' S) as (z' & Ez' & F' & Rz'). exists z, z'. rewrite Rz, Rz'. auto 6.
Qed.
Theorem C94_cart_to_kep_b64 : forall L mu mu' x x' i j k g g', lib64 L -> tame_cart mu x -> tame_cart mu' x' ->
  B2R mu' = bp (i + 2 * j) * B2R mu -> real6 x' = units_x i j (real6 x) ->
  valid_kep (B2R mu) k -> regular_kep (ulp1 53) k -> state_of (B2R mu) k (real6 x) ->
  exists y y', snd (@cart_to_kep b64 (NP_b64 L) g (KVec x) (MuS mu) false) = Ok (KVec y) /\
    snd (@cart_to_kep b64 (NP_b64 L) g' (KVec x') (MuS mu') false) = Ok (KVec y') /\ fin64 y /\ fin64 y' /\ real6 y' = units_k i (real6 y).
Proof.
  intros L mu mu' x x' i j k g g' HL T T' Em Ex Hv Hk Sx.
  destruct (C83_cart_to_kep 53 (real_lib L) (B2R mu) k (real6 x) (fun _ _ => NaN) ltac:(lia) (real_acos_ok L HL) (real_acos_acc L HL) Hv Hk Sx) as (y & E & _).
  pose proof (C94_cart_to_kep (rnd 53) (real_lib L) i j (KVec (fin6 (real6 x))) (MuS (Fin (B2R mu))) false (fun _ _ => NaN) (fun _ _ => NaN) (digits_rnd 53 ltac:(reflexivity))) as S.
  rewrite E in S. cbn [on_in on_mu on_res scl] in S. rewrite <- units_x_fin, <- Ex, <- Em, <- units_k_fin in S.
  destruct (C90_same_cart_to_kep L mu x y g _ HL T E) as (z & Ez & F & Rz).
  destruct (C90_same_cart_to_kep L mu' x' _ g' _ HL T' S) as (z' & Ez' & F' & Rz'). exists z, z'. rewrite Rz, Rz'. auto 6.
Qed.
Theorem C94_period_b64 : forall L a a' mu mu' i j, sized (-100) 100 a -> sized (-100) 100 a' -> sized (-100) 100 mu -> sized (-100) 100 mu' ->
  0 < B2R a -> 0 < B2R mu -> B2R a' = bp i * B2R a -> B2R mu' = bp (i + 2 * j) * B2R mu ->
  B2R (@orbital_period _ (NP_b64 L) a' mu') = bp (i - j) * B2R (@orbital_period _ (NP_b64 L) a mu).
Proof.
  intros L a a' mu mu' i j Ha Ha' Hm Hm' Pa Pm Ea Em.
  assert (Pa' : 0 < B2R a') by (rewrite Ea; apply Rmult_lt_0_compat; auto; apply bpow_gt_0).
  assert (Pm' : 0 < B2R mu') by (rewrite Em; apply Rmult_lt_0_compat; auto; apply bpow_gt_0).
  destruct (period_sim L a mu Ha Hm Pa Pm) as (k & m & K & (_ & S & _)). destruct (period_sim L a' mu' Ha' Hm' Pa' Pm') as (k' & m' & K' & (_ & S' & _)).
  destruct (C94_period_speed (rnd 53) (real_lib L) i j (Fin (B2R a)) NaN (Fin (B2R mu)) (digits_rnd 53 ltac:(reflexivity))) as [E _].
  cbn [scl] in E. rewrite <- Ea, <- Em, S, S' in E. cbn [scl] in E. congruence.
Qed.

(** ** Hypotheses met: the example orbits of C90 with lengths times 1024 and speeds times 1/8 *)
Example C94_kep_example : forall g g', exists k' mu' y y', real6 k' = units_k 10 (real6 ex_k) /\ B2R mu' = bp 4 * 398600 /\
  snd (@kep_to_cart b64 (NP_b64 lib_exact) g (KVec ex_k) (MuS ex_mu) false) = Ok (KVec y) /\
  snd (@kep_to_cart b64 (NP_b64 lib_exact) g' (KVec k') (MuS mu') false) = Ok (KVec y') /\ fin64 y' /\ real6 y' = units_x 10 (-3) (real6 y).
Proof.
  intros g g'. destruct ex_kep_ok as (Em & Ek & Hv & HK & T). set (k := mk6 7000 (/ 2) 1 1 1 1) in *.
  pose (k' := mk6 (bz 7000 10) (s1 ex_k) (s2 ex_k) (s3 ex_k) (s4 ex_k) (s5 ex_k)). pose (mu' := bz 398600 4).
  assert (Ea : B2R (bz 7000 10) = bp 10 * 7000) by (destruct (bz_dyadic 7000 10 ltac:(lia) ltac:(lia)) as [_ ->]; ring).
  assert (Em' : B2R mu' = bp 4 * 398600) by (unfold mu'; destruct (bz_dyadic 398600 4 ltac:(lia) ltac:(lia)) as [_ ->]; ring).
  assert (E0 : B2R (s0 ex_k) = 7000) by (change (B2R (s0 ex_k)) with (s0 (real6 ex_k)); now rewrite Ek).
  assert (Ek' : real6 k' = units_k 10 (real6 ex_k)).
  { unfold real6, map6, units_k, k'. cbn [s0 s1 s2 s3 s4 s5]. f_equal. rewrite Ea. now rewrite <- E0. }
  assert (T' : tame_kep lib_exact mu' k').
  { destruct T as (A & B & C & D). split; [|split; [exact B|split; [|exact D]]].
    - apply sized_bz; [lia|lia|right|]; rewrite Rabs_pos_eq by (apply Rmult_le_pos; [lra|apply bpow_ge_0]).
      + apply Rle_trans with (1 * bp 10); [rewrite Rmult_1_l; apply bpow_le; lia|apply Rmult_le_compat_r; [apply bpow_ge_0|lra]].
      + apply Rle_trans with (bp 13 * bp 10); [apply Rmult_le_compat_r; [apply bpow_ge_0|cbn; lra]|rewrite <- bpow_plus; apply bpow_le; lia].
    - apply sized_bz; [lia|lia|right|]; rewrite Rabs_pos_eq by (apply Rmult_le_pos; [lra|apply bpow_ge_0]).
      + apply Rle_trans with (1 * bp 4); [rewrite Rmult_1_l; apply bpow_le; lia|apply Rmult_le_compat_r; [apply bpow_ge_0|lra]].
      + apply Rle_trans with (bp 20 * bp 4); [apply Rmult_le_compat_r; [apply bpow_ge_0|cbn; lra]|rewrite <- bpow_plus; apply bpow_le; lia]. }
  pose proof (C94_kep_to_cart_b64 lib_exact ex_mu mu' ex_k k' 10 (-3) 3 (peri_state 398600 k) g g' lib_exact_ok T T') as Q.
  rewrite Em, Ek in Q. rewrite Ek in Ek'. destruct (Q Em' Ek' Hv HK ltac:(pose proof ulp1_le; lra) (state_of_peri _ _ Hv)) as (y & y' & A & B & _ & F & R).
  exists k', mu', y, y'. rewrite Ek. auto 8.
Qed.
Example C94_cart_example : forall g g', exists x' mu' y y', real6 x' = units_x 10 (-3) (real6 ex_x) /\ B2R mu' = bp 4 * (3 / 2) /\
  snd (@cart_to_kep b64 (NP_b64 lib_exact) g (KVec ex_x) (MuS (bz 3 (-1))) false) = Ok (KVec y) /\
  snd (@cart_to_kep b64 (NP_b64 lib_exact) g' (KVec x') (MuS mu') false) = Ok (KVec y') /\ fin64 y' /\ real6 y' = units_k 10 (real6 y).
Proof.
  intros g g'. destruct ex_cart_ok as (Em & Ex & Hv & Rk & Sx & T). set (k := mk6 (3 / 2) (/ 3) (PI / 4) 0 0 0) in *.
  pose (x' := mk6 (bz 1 10) (bz 0 0) (bz 0 0) (bz 0 0) (bz 1 (-3)) (bz 1 (-3))). pose (mu' := bz 3 3).
  assert (E1 : B2R (bz 1 10) = bp 10) by (destruct (bz_dyadic 1 10 ltac:(lia) ltac:(lia)) as [_ ->]; ring).
  assert (E3 : B2R (bz 1 (-3)) = bp (-3)) by (destruct (bz_dyadic 1 (-3) ltac:(lia) ltac:(lia)) as [_ ->]; ring).
  assert (E0 : B2R (bz 0 0) = 0) by (destruct (bz_dyadic 0 0 ltac:(lia) ltac:(lia)) as [_ ->]; ring).
  assert (Em' : B2R mu' = bp 4 * (3 / 2)) by (unfold mu'; destruct (bz_dyadic 3 3 ltac:(lia) ltac:(lia)) as [_ ->]; cbn; lra).
  assert (Ex' : real6 x' = units_x 10 (-3) (mk6 1 0 0 0 1 1)).
  { unfold real6, map6, units_x, x'. cbn [s0 s1 s2 s3 s4 s5]. rewrite E1, E3, E0, !Rmult_0_r, !Rmult_1_r. reflexivity. }
  assert (T' : tame_cart mu' x').
  { exists 10%Z, (-3)%Z, 4%Z. do 4 (split; [lia|]).
    assert (V : forall i l, (-1000 <= i <= 900)%Z -> (forall c, In c l -> c = bz 1 i \/ c = bz 0 0) -> In (bz 1 i) l -> vec_size i l).
    { intros i l Hi H1 H2. split.
      - intros c Hc. destruct (H1 c Hc) as [-> | ->].
        + apply sized_bz; [lia|lia|right|]; rewrite Rmult_1_l, Rabs_pos_eq by apply bpow_ge_0; apply bpow_le; lia.
        + apply sized_bz; try lia. rewrite Rmult_0_l, Rabs_R0. apply bpow_ge_0.
      - exists (bz 1 i). split; [exact H2|]. destruct (bz_dyadic 1 i ltac:(lia) ltac:(lia)) as [_ ->]. rewrite Rmult_1_l, Rabs_pos_eq by apply bpow_ge_0. apply bpow_le. lia. }
    unfold x'. cbn [s0 s1 s2 s3 s4 s5]. split; [|split; [|split]].
    - apply V; [lia| |cbn [In]; tauto]. intros c [<- |[<- |[<- |[]]]]; auto.
    - apply V; [lia| |cbn [In]; tauto]. intros c [<- |[<- |[<- |[]]]]; auto.
    - apply (bz_dyadic 3 3); lia.
    - rewrite Em', Rabs_pos_eq by (apply Rmult_le_pos; [apply bpow_ge_0|lra]). change (4 + 1)%Z with (1 + 4)%Z. rewrite bpow_plus. change (bp 1) with 2. pose proof (bpow_gt_0 radix2 4). lra. }
  pose proof (C94_cart_to_kep_b64 lib_exact (bz 3 (-1)) mu' ex_x x' 10 (-3) k g g' lib_exact_ok T T') as Q.
  rewrite Em, Ex in Q. destruct (Q Em' Ex' Hv Rk Sx) as (y & y' & A & B & _ & F & R).
  exists x', mu', y, y'. rewrite Ex. auto 8.
Qed.
