(** * C85: the round trip Kepler - Cartesian - Kepler in floating point *)
From Coq Require Import Reals QArith Qreals ZArith Lra Lia Psatz Bool List.
From Verif Require Import NP NPReal NPFloat FloatBase KeplerModel ConvModel Lists ConvCols Spec RealBase KepReal CartReal PropsKep CartInv LagTrig LagRobust.
From Verif Require Import FloatAcc FloatVec PropsFloat PropsFloatAcc FloatC2K FloatC2KCol FloatC2KAcc PropsFloatC2K PropsFloatRT ElemPert.
From Flocq Require Core.
Import ListNotations.
Local Open Scope R_scope.

(** the condition number of the round trip *)
Definition rt_unit (u : R) (k : six R) : R := u / (k_e k * (1 - k_e k) * (1 - k_e k) * sin (k_i k)).
(** an inclined ellipse away from the special cases, a little further than in C83 *)
Definition regular_kep2 (u : R) (k : six R) : Prop :=
  0 < k_e k < 1 /\ 0 < k_i k < PI /\ rt_unit u k <= / 200000000 /\
  110 * (u / (1 - k_e k)) <= sin (k_i k) * sin (k_i k) /\ 2 / 100000000 <= sin (k_i k) /\ 3 / 1000000000 <= k_e k.
Definition returned (u : R) (k' k : six R) : Prop :=
  Rabs (k_a k' - k_a k) <= 1800 * (u / ((1 - k_e k) * (1 - k_e k))) * k_a k /\
  Rabs (k_e k' - k_e k) <= 2500 * (u / (1 - k_e k)) /\
  angle_within (9300 * rt_unit u k) (k_i k') (k_i k) /\ angle_within (9300 * rt_unit u k) (k_om k') (k_om k) /\
  angle_within (9300 * rt_unit u k) (k_Om k') (k_Om k) /\ angle_within (9300 * rt_unit u k) (k_nu k') (k_nu k).

Lemma within_compose W t' t2 t : 0 <= W -> W <= / 100000000 -> angle_within (1465 * W) t' t2 ->
  Rabs (cos t2 - cos t) <= 7800 * W -> Rabs (sin t2 - sin t) <= 7800 * W -> angle_within (9300 * W) t' t.
Proof.
  intros W0 W1 (A & B & C) HC HS. split; [|split].
  - replace (cos t' - cos t) with ((cos t' - cos t2) + (cos t2 - cos t)) by ring. eapply Rle_trans; [apply Rabs_triang|lra].
  - replace (sin t' - sin t) with ((sin t' - sin t2) + (sin t2 - sin t)) by ring. 
    pose proof (sqrt_c 1465 (3828 / 100) W W0 ltac:(lra) ltac:(lra) ltac:(lra)) as Q.
    pose proof (sqrt_pos W) as P. pose proof (sqrt_sqrt W W0) as S. assert (S1 : sqrt W <= / 10000) by nra.
    assert (L : W <= / 10000 * sqrt W) by nra.
    assert (Q2 : 96 * sqrt W <= sqrt (9300 * W)).
    { rewrite sqrt_mult by lra. apply Rmult_le_compat_r; [auto|]. rewrite <- (sqrt_square 96) by lra. apply sqrt_le_1_alt. lra. }
    eapply Rle_trans; [apply Rabs_triang|]. lra.
  - assert (S1 : Rabs (sin t) <= 1) by (apply Rabs_le, SIN_bound).
    assert (D : Rabs (sin t' - sin t) <= Rabs (sin t' - sin t2) + 7800 * W).
    { replace (sin t' - sin t) with ((sin t' - sin t2) + (sin t2 - sin t)) by ring. eapply Rle_trans; [apply Rabs_triang|lra]. }
    assert (T : Rabs (sin t) <= Rabs (sin t2) + 7800 * W).
    { replace (sin t) with (sin t2 - (sin t2 - sin t)) by ring. eapply Rle_trans; [apply Rabs_triang|]. rewrite Rabs_Ropp. lra. }
    assert (Z : Rabs (sin t' - sin t2) <= 2) by (pose proof (SIN_bound t'); pose proof (SIN_bound t2); apply Rabs_le; lra).
    pose proof (Rabs_pos (sin t)). pose proof (Rabs_pos (sin t' - sin t2)).
    assert (M1 : Rabs (sin t) * Rabs (sin t' - sin t) <= Rabs (sin t) * Rabs (sin t' - sin t2) + 7800 * W).
    { apply Rle_trans with (Rabs (sin t) * (Rabs (sin t' - sin t2) + 7800 * W)); [apply Rmult_le_compat_l; auto|]. nra. }
    assert (M2 : Rabs (sin t) * Rabs (sin t' - sin t2) <= (Rabs (sin t2) + 7800 * W) * Rabs (sin t' - sin t2)) by (apply Rmult_le_compat_r; auto).
    nra.
Qed.

Lemma lowmul a b A B ca cb c : 0 < a -> 0 < b -> 0 < ca -> 0 < cb -> a * ca <= A -> b * cb <= B -> c <= ca * cb -> a * b * c <= A * B.
Proof.
  intros Ha Hb Hca Hcb HA HB Hc. apply Rle_trans with ((a * ca) * (b * cb)).
  - replace (a * ca * (b * cb)) with (a * b * (ca * cb)) by ring. apply Rmult_le_compat_l; [|auto]. apply Rlt_le. now apply Rmult_lt_0_compat.
  - apply Rmult_le_compat; auto; apply Rlt_le; now apply Rmult_lt_0_compat.
Qed.
Lemma unit_ratio u a b : 0 < u -> 0 < b -> b * (999 / 1000) <= a -> u / a <= 1002 / 1000 * (u / b).
Proof.
  intros U Hb Hab. assert (Ha : 0 < a) by lra. assert (Hab2 : 0 < a * b) by (now apply Rmult_lt_0_compat).
  apply Rmult_le_reg_r with (a * b); [auto|]. replace (u / a * (a * b)) with (u * b) by (field; lra).
  replace (1002 / 1000 * (u / b) * (a * b)) with (u * (1002 / 1000 * a)) by (field; lra). apply Rmult_le_compat_l; lra.
Qed.
Lemma le1_mul W a : 0 <= W -> a <= 1 -> W * a <= W.
Proof. intros. rewrite <- (Rmult_1_r W) at 2. now apply Rmult_le_compat_l. Qed.

Theorem C85_roundtrip : forall p L mu k g g', (1 < p)%Z -> acos_ok p L -> acos_acc p L -> trig_acc (rnd p) (ulp1 p) L ->
  valid_kep mu k -> regular_kep2 (ulp1 p) k ->
  exists x k', snd (@kep_to_cart num (NP_rd (rnd p) L) g (KVec (fin6 k)) (MuS (Fin mu)) false) = Ok (KVec (fin6 x)) /\
    snd (@cart_to_kep num (NP_rd (rnd p) L) g' (KVec (fin6 x)) (MuS (Fin mu)) false) = Ok (KVec (fin6 k')) /\
    returned (ulp1 p) k' k.
Proof.
  intros p L mu k g g' Hp HL HA HT Hv (He & Hi & HW & Hinc & Hlim & Hel). unfold rt_unit, returned in *.
  set (u := ulp1 p) in *. assert (U : 0 < u) by apply Core.Raux.bpow_gt_0.
  set (e := k_e k) in *. assert (S : 0 < sin (k_i k) <= 1) by (split; [apply sin_gt_0; lra|apply SIN_bound]).
  set (W := u / (e * (1 - e) * (1 - e) * sin (k_i k))) in *. 
  assert (E1 : 0 < 1 - e < 1) by lra. assert (E0 : 0 < e < 1) by lra.
  assert (D1 : 0 < e * (1 - e)) by (apply Rmult_lt_0_compat; lra). assert (D2 : 0 < e * (1 - e) * (1 - e)) by (apply Rmult_lt_0_compat; lra).
  assert (D3 : 0 < e * (1 - e) * (1 - e) * sin (k_i k)) by (apply Rmult_lt_0_compat; lra).
  assert (W0 : 0 < W) by now apply Rdiv_lt_0_compat.
  (* the units in terms of W *)
  set (s := sin (k_i k)) in *.
  assert (Eu : u = W * (e * (1 - e) * (1 - e) * s)) by (unfold W; field; lra).
  set (K := (1 + e) / (1 - e)).
  assert (HK : cond_ok (k_e k) (k_nu k) K) by (apply (C77_ellipse_K e); lra).
  set (d := 260 * (u / (1 - e))).
  assert (Ed : d = 260 * W * (e * (1 - e) * s)) by (unfold d; rewrite Eu; field; lra).
  assert (d0 : 0 < d) by (unfold d; apply Rmult_lt_0_compat; [lra|]; apply Rdiv_lt_0_compat; lra).
  assert (KU : 0 <= K * u /\ 130 * (K * u) <= d).
  { unfold K, d. split; [apply Rmult_le_pos; [apply Rlt_le, Rdiv_lt_0_compat|]; lra|].
    replace ((1 + e) / (1 - e) * u) with ((1 + e) * (u / (1 - e))) by (field; lra). assert (0 < u / (1 - e)) by (apply Rdiv_lt_0_compat; lra). nra. }
  assert (es : e * (1 - e) * s <= 1) by (clear - E0 S; assert (e * (1 - e) <= 1) by nra; assert (0 <= e * (1 - e)) by nra; nra).
  assert (dW : d <= 260 * W) by (rewrite Ed; apply le1_mul; lra).
  destruct (C77_kep_to_cart (rnd p) u L mu k K _ g (binary_rounding p Hp) HT Hv HK ltac:(lra) (state_of_peri _ _ Hv)) as (x & Ex & Cp & Cv).
  assert (Cp' : norm (minus3 (pos x) (pos (peri_state mu k))) <= d * norm (pos (peri_state mu k))) by (eapply Rle_trans; [exact Cp|]; apply Rmult_le_compat_r; [apply norm_pos|lra]).
  assert (Cv' : norm (minus3 (vel x) (vel (peri_state mu k))) <= d * norm (vel (peri_state mu k))) by (eapply Rle_trans; [exact Cv|]; apply Rmult_le_compat_r; [apply norm_pos|lra]).
  assert (Hw : d / (k_e k * (1 - k_e k) * sin (k_i k)) <= / 10000).
  { fold e s. rewrite Ed. replace (260 * W * (e * (1 - e) * s) / (e * (1 - e) * s)) with (260 * W) by (field; lra). lra. }
  destruct (elem_pert mu k x d Hv He Hi Cp' Cv' d0 Hw) as (k2 & Hv2 & X2 & He2 & Hi2 & Pa & Pe & Ps & PA).
  fold e s in Pa, Pe, Ps. unfold angles_close in PA. fold e s in PA.
  replace (30 * (d / (e * (1 - e) * s))) with (7800 * W) in PA by (rewrite Ed; field; lra).
  assert (Ew1 : d / (1 - e) = 260 * W * (e * s)) by (rewrite Ed; field; lra).
  assert (Ha : 0 < k_a k) by apply Hv.
  (* k2 is regular *)
  apply abs_in in Pe. pose proof Ps as Ps'. apply abs_in in Ps'. rewrite Ew1 in Ps'.
  assert (F1 : k_e k2 >= e * (9999 / 10000)).
  { assert (H1 : (1 - e) * s <= 1) by (clear - E1 S; nra). assert (H2 : 0 <= W * e) by (apply Rmult_le_pos; lra).
    assert (H3 : d <= 260 * (W * e)) by (rewrite Ed; replace (260 * W * (e * (1 - e) * s)) with (260 * (W * e) * ((1 - e) * s)) by ring; clear - H1 H2; nra).
    assert (H4 : W * e <= / 200000000 * e) by (apply Rmult_le_compat_r; lra). lra. }
  assert (F2 : 1 - k_e k2 >= (1 - e) * (9999 / 10000)).
  { assert (H1 : e * s <= 1) by (clear - E0 S; nra). assert (H2 : 0 <= W * (1 - e)) by (apply Rmult_le_pos; lra).
    assert (H3 : d <= 260 * (W * (1 - e))) by (rewrite Ed; replace (260 * W * (e * (1 - e) * s)) with (260 * (W * (1 - e)) * (e * s)) by ring; clear - H1 H2; nra).
    assert (H4 : W * (1 - e) <= / 200000000 * (1 - e)) by (apply Rmult_le_compat_r; lra). lra. }
  assert (F3 : sin (k_i k2) >= s * (9999 / 10000)).
  { assert (H1 : 0 <= W * s) by (apply Rmult_le_pos; lra). assert (H2 : W * s * e <= W * s) by (apply le1_mul; lra).
    assert (H4 : W * s <= / 200000000 * s) by (apply Rmult_le_compat_r; lra). replace (260 * W * (e * s)) with (260 * (W * s * e)) in Ps' by ring. lra. }
  set (e2 := k_e k2) in *. set (s2 := sin (k_i k2)) in *.
  assert (F4 : e * (1 - e) * (9998 / 10000) <= e2 * (1 - e2)) by (apply lowmul with (9999 / 10000) (9999 / 10000); lra).
  assert (F5 : e * (1 - e) * s * (9997 / 10000) <= e2 * (1 - e2) * s2) by (apply lowmul with (9998 / 10000) (9999 / 10000); lra).
  assert (F6 : (1 - e) * s * (9998 / 10000) <= (1 - e2) * s2) by (apply lowmul with (9999 / 10000) (9999 / 10000); lra).
  assert (D0 : 0 < e * (1 - e) * s) by (apply Rmult_lt_0_compat; lra).
  assert (D0' : 0 < (1 - e) * s) by (apply Rmult_lt_0_compat; lra).
  assert (L1 : e * (1 - e) <= 1) by (apply Rle_trans with e; [apply le1_mul|]; lra).
  assert (L2 : (1 - e) * (1 - e) <= 1) by (apply Rle_trans with (1 - e); [apply le1_mul|]; lra).
  assert (L3 : (1 - e) * (1 - e) * s <= 1) by (apply Rle_trans with ((1 - e) * (1 - e)); [apply le1_mul; [apply Rmult_le_pos|]|]; lra).
  assert (Gw : u / (e2 * (1 - e2) * s2) <= 1002 / 1000 * W).
  { eapply Rle_trans; [apply (unit_ratio _ _ (e * (1 - e) * s)); lra|]. apply Rmult_le_compat_l; [lra|].
    replace (u / (e * (1 - e) * s)) with (W * (1 - e)) by (unfold W; field; lra). apply le1_mul; lra. }
  assert (Gw2 : u / ((1 - e2) * s2) <= 1002 / 1000 * W).
  { eapply Rle_trans; [apply (unit_ratio _ _ ((1 - e) * s)); lra|]. apply Rmult_le_compat_l; [lra|].
    replace (u / ((1 - e) * s)) with (W * (e * (1 - e))) by (unfold W; field; lra). apply le1_mul; lra. }
  assert (Gw1 : u / (1 - e2) <= 1002 / 1000 * (u / (1 - e))) by (apply unit_ratio; lra).
  assert (Gw0 : u / (1 - e) <= W).
  { replace (u / (1 - e)) with (W * (e * (1 - e) * s)) by (unfold W; field; lra). apply le1_mul; lra. }
  assert (Gn : u / e2 <= 1002 / 1000 * W).
  { eapply Rle_trans; [apply (unit_ratio _ _ e); lra|]. apply Rmult_le_compat_l; [lra|].
    replace (u / e) with (W * ((1 - e) * (1 - e) * s)) by (unfold W; field; lra). apply le1_mul; lra. }
  assert (Rk : regular_kep u k2).
  { unfold regular_kep. fold e2 s2. split; [exact He2|]. split; [exact Hi2|]. split; [lra|]. split.
    - assert (s * s * (9998 / 10000) <= s2 * s2) by (apply lowmul with (9999 / 10000) (9999 / 10000); lra).
      assert (0 < u / (1 - e)) by (apply Rdiv_lt_0_compat; lra). lra.
    - split; lra. }
  destruct (C83_cart_to_kep p L mu k2 x g' Hp HL HA Hv2 Rk) as (k' & Ek & A1 & A2 & A3 & A4 & A5 & A6).
  { rewrite <- X2. now apply state_of_peri. }
  fold u e2 s2 in A1, A2, A3, A4, A5, A6.
  exists x, k'. split; [exact Ex|]. split; [exact Ek|].
  destruct PA as (P1 & P2 & P3 & P4 & P5 & P6 & P7 & P8).
  assert (HW8 : W <= / 100000000) by lra.
  split; [|split; [|split; [|split; [|split]]]].
  - set (w1 := u / (1 - e)) in *. assert (w1p : 0 < w1) by (apply Rdiv_lt_0_compat; lra).
    assert (Q : u / ((1 - e) * (1 - e)) = w1 / (1 - e)) by (unfold w1; field; lra). rewrite Q.
    assert (Q2 : d / (1 - e) = 260 * (w1 / (1 - e))) by (unfold d; fold w1; field; lra). rewrite Q2 in Pa.
    assert (Q3 : w1 <= w1 / (1 - e)). { apply Rmult_le_reg_r with (1 - e); [lra|]. replace (w1 / (1 - e) * (1 - e)) with w1 by (field; lra). apply le1_mul; lra. }
    set (z := w1 / (1 - e)) in *. assert (zs : 260 * z <= 260 * / 200000000). { rewrite <- Q2, Ew1. apply Rle_trans with (260 * W); [apply le1_mul; [lra|]|lra]. clear - E0 S; nra. }
    assert (A1' : Rabs (k_a k' - k_a k2) <= 101 * z * k_a k2).
    { eapply Rle_trans; [exact A1|]. apply Rmult_le_compat_r; [apply Rlt_le, Hv2|]. lra. }
    assert (Pa' : k_a k2 <= 1001 / 1000 * k_a k).
    { apply abs_in in Pa. assert (63 / 10 * (260 * z) * k_a k <= / 1000 * k_a k) by (apply Rmult_le_compat_r; lra). lra. }
    replace (k_a k' - k_a k) with ((k_a k' - k_a k2) + (k_a k2 - k_a k)) by ring. eapply Rle_trans; [apply Rabs_triang|].
    assert (101 * z * k_a k2 <= 101 * z * (1001 / 1000 * k_a k)) by (apply Rmult_le_compat_l; lra).
    assert (0 < z * k_a k) by (apply Rmult_lt_0_compat; lra). lra.
  - replace (k_e k' - e) with ((k_e k' - e2) + (e2 - e)) by ring. eapply Rle_trans; [apply Rabs_triang|].
    assert (Rabs (e2 - e) <= 82 / 10 * d) by (apply Rabs_le; lra). unfold d in *.
    assert (u <= u / (1 - e)). { apply Rmult_le_reg_r with (1 - e); [lra|]. replace (u / (1 - e) * (1 - e)) with u by (field; lra). apply le1_mul; lra. } lra.
  - apply (within_compose W _ (k_i k2)); [lra|lra| |exact P1|exact P2]. eapply within_weak; [exact A3|]. lra.
  - apply (within_compose W _ (k_om k2)); [lra|lra| |exact P3|exact P4]. eapply within_weak; [exact A4|]. lra.
  - apply (within_compose W _ (k_Om k2)); [lra|lra| |exact P5|exact P6]. eapply within_weak; [exact A5|]. lra.
  - apply (within_compose W _ (k_nu k2)); [lra|lra| |exact P7|exact P8]. eapply within_weak; [exact A6|]. lra.
Qed.

(** in terms of the angles themselves, up to full turns *)
Theorem C85_angles : forall p L mu k g g', (1 < p)%Z -> acos_ok p L -> acos_acc p L -> trig_acc (rnd p) (ulp1 p) L ->
  valid_kep mu k -> regular_kep2 (ulp1 p) k ->
  exists x k', snd (@kep_to_cart num (NP_rd (rnd p) L) g (KVec (fin6 k)) (MuS (Fin mu)) false) = Ok (KVec (fin6 x)) /\
    snd (@cart_to_kep num (NP_rd (rnd p) L) g' (KVec (fin6 x)) (MuS (Fin mu)) false) = Ok (KVec (fin6 k')) /\
    forall t t', In (t, t') [(k_i k, k_i k'); (k_om k, k_om k'); (k_Om k, k_Om k'); (k_nu k, k_nu k')] ->
      exists n, cong2pi n t' /\ Rabs (n - t) <= 390 * sqrt (rt_unit (ulp1 p) k).
Proof.
  intros p L mu k g g' Hp HL HA HT Hv Hk.
  destruct (C85_roundtrip p L mu k g g' Hp HL HA HT Hv Hk) as (x & k' & E1 & E2 & _ & _ & A1 & A2 & A3 & A4).
  exists x, k'. split; [exact E1|]. split; [exact E2|]. destruct Hk as (He & Hi & Hw & _).
  assert (S : 0 < sin (k_i k)) by (apply sin_gt_0; lra).
  assert (U : 0 < ulp1 p) by apply Core.Raux.bpow_gt_0.
  assert (W0 : 0 < rt_unit (ulp1 p) k) by (unfold rt_unit; apply Rdiv_lt_0_compat; [auto|]; repeat apply Rmult_lt_0_compat; lra).
  set (W := rt_unit (ulp1 p) k) in *.
  assert (G : forall t' t, angle_within (9300 * W) t' t -> exists n, cong2pi n t' /\ Rabs (n - t) <= 390 * sqrt W).
  { intros t' t A. destruct (within_angle (9300 * W) t' t ltac:(lra) A) as (n & N1 & N2). exists n. split; [exact N1|].
    eapply Rle_trans; [exact N2|]. pose proof (sqrt_c 9300 (96437 / 1000) W ltac:(lra) ltac:(lra) ltac:(lra) ltac:(lra)). pose proof (sqrt_pos W). lra. }
  intros t t' [H|[H|[H|[H|[]]]]]; injection H as <- <-; auto.
Qed.
(** binary64: a = 7000, e = 1/2, i = om = Om = 1, nu = 2 come back; the semi major axis to eleven digits *)
Example C85_example : forall g g', exists x k',
  snd (@kep_to_cart num (NP_rd (rnd 53) libm0) g (KVec (fin6 c83_k)) (MuS (Fin 398600)) false) = Ok (KVec (fin6 x)) /\
  snd (@cart_to_kep num (NP_rd (rnd 53) libm0) g' (KVec (fin6 x)) (MuS (Fin 398600)) false) = Ok (KVec (fin6 k')) /\
  Rabs (k_a k' - 7000) <= / 50000000 /\ Rabs (k_e k' - / 2) <= / 500000000000 /\ Rabs (cos (k_nu k') - cos 2) <= / 10000000000.
Proof.
  intros g g'. assert (Hv : valid_kep 398600 c83_k).
  { unfold valid_kep, c83_k. cbn. pose proof (COS_bound 2). repeat split; lra. }
  assert (S : 8 / 10 <= sin 1) by (pose proof (sin_ge 1 ltac:(lra)); lra).
  assert (T : ulp1 53 <= / 4000000000000000) by (unfold ulp1; cbn; lra).
  assert (U0 : 0 < ulp1 53) by apply Core.Raux.bpow_gt_0.
  assert (W : rt_unit (ulp1 53) c83_k <= 10 * ulp1 53).
  { unfold rt_unit. change (k_e c83_k) with (/ 2). change (k_i c83_k) with 1.
    apply Rmult_le_reg_r with (/ 2 * (1 - / 2) * (1 - / 2) * sin 1); [lra|]. unfold Rdiv. rewrite Rmult_assoc, Rinv_l by lra. nra. }
  assert (Rk : regular_kep2 (ulp1 53) c83_k).
  { unfold regular_kep2. change (k_e c83_k) with (/ 2). change (k_i c83_k) with 1. pose proof PI_b.
    replace (ulp1 53 / (1 - / 2)) with (2 * ulp1 53) by field.
    split; [lra|]. split; [lra|]. split; [lra|]. split; [nra|]. split; lra. }
  destruct (C85_roundtrip 53 libm0 398600 c83_k g g' ltac:(lia) (libm0_ok 53 ltac:(lia)) (libm0_acos 53 ltac:(lia)) (binary_trig 53 ltac:(lia)) Hv Rk) as (x & k' & E1 & E2 & A1 & A2 & _ & _ & _ & (A6 & _)).
  exists x, k'. split; [exact E1|]. split; [exact E2|].
  change (k_a c83_k) with 7000 in A1. change (k_e c83_k) with (/ 2) in *. change (k_nu c83_k) with 2 in A6.
  replace (ulp1 53 / ((1 - / 2) * (1 - / 2))) with (4 * ulp1 53) in A1 by field.
  replace (ulp1 53 / (1 - / 2)) with (2 * ulp1 53) in A2 by field. assert (T2 : ulp1 53 <= / 4500000000000000) by (unfold ulp1; cbn; lra).
  split; [|split]; lra.
Qed.
