(** * C79: the Kepler solver converges in floating point arithmetic for eccentricities up to 1/4 *)
From Coq Require Import Reals QArith Qreals ZArith Lra Lia Psatz Bool List.
From Coquelicot Require Import Coquelicot.
From Verif Require Import NP NPReal NPFloat KeplerModel ConvModel Lists ArraySpec Spec RealBase AnomReal KepReal PropsKep EllState PropsNear OrbitReal PropsAnomaly LagReal PropsConverge FloatAcc PropsFloatAcc PropsFloatAnom FloatLag.
Local Open Scope R_scope.

Lemma PI_329 : PI <= 329 / 100.
Proof. destruct (PI_ineq 3) as [_ Q]. unfold tg_alt, PI_tg in Q. cbn -[IZR] in Q. rewrite ?INR_IZR_INZ in Q. cbn -[IZR] in Q. lra. Qed.
Section Guess.
Context (rd : R -> R) (u : R) (L : libm) (Hr : rounding rd u) (HL : lib_acc rd u L) (Hu : u <= / 1000000).
Context (B : R) (HB0 : 0 <= B) (HB : B * u <= / 1000).
#[local] Instance NPg : NP num := NP_rd rd L.
Local Lemma U0 : 0 <= u. Proof. apply Hr. Qed.
Lemma rdB x X : Rabs x <= X -> Rabs (rd x - x) <= u * X.
Proof. intros H. eapply Rle_trans; [apply (rr_err _ _ Hr)|]. apply Rmult_le_compat_l; [apply U0|auto]. Qed.
Lemma rd_sm x X : Rabs x <= X -> Rabs (rd x) <= X + u * X.
Proof. intros H. replace (rd x) with (x + (rd x - x)) by ring. apply abs_add_le; [auto|now apply rdB]. Qed.
Lemma u_small X : 0 <= X -> u * X <= X * / 1000000.
Proof. intros. rewrite Rmult_comm. apply Rmult_le_compat_l; auto. Qed.

(** the correction added to M *)
Definition inner (M' e : num) : num :=
  if ltb M' (lit 0.25) then add M' (div (mul e (nsin M')) (add (sub (lit 1) (nsin (add M' e))) (nsin M')))
  else if ltb M' (lit 2) then add M' e
  else add M' (div (mul e (sub npi M')) (add (lit 1) e)).
Lemma inner_acc x e : 0 <= e <= / 4 -> Rabs x <= B + 8 -> x <= 33 / 10 ->
  exists c, inner (Fin x) (Fin e) = Fin (rd (x + c)) /\ Rabs c <= 337 / 1000.
Proof.
  intros He Hx Hx2. pose proof U0 as u0. pose proof PI_4 as P4. pose proof PI2_3_2 as P3. unfold inner.
  change (ltb (Fin x) (lit 0.25)) with (Rltb x (rd (Q2R 0.25))).
  assert (L2 : lit 2 = Fin 2) by exact (b_2 rd u L Hr). rewrite L2. change (ltb (Fin x) (Fin 2)) with (Rltb x 2).
  assert (L1 : lit 1 = Fin 1) by exact (b_1 rd u L Hr). rewrite L1.
  assert (uB : u * (B + 9) <= 11 / 10000) by (pose proof (u_small 9); lra).
  destruct (Rltb_spec x (rd (Q2R 0.25))) as [_|_].
  - destruct (la_trig _ _ _ HL x) as [S _]. set (s := rd (l_sin L x)) in *. pose proof (SIN_bound x) as Sb.
    destruct (la_trig _ _ _ HL (rd (x + e))) as [T _]. set (s2 := rd (l_sin L (rd (x + e)))) in *.
    assert (X1 : Rabs (rd (x + e) - (x + e)) <= 11 / 10000).
    { eapply Rle_trans; [apply (rdB _ (B + 9)); replace (B + 9) with (B + 8 + 1) by ring; apply abs_add_le; [auto|rewrite Rabs_pos_eq; lra]|auto]. }
    pose proof (sin_lip (rd (x + e)) (x + e)) as S2. pose proof (sin_lip (x + e) x) as S3. replace (x + e - x) with e in S3 by ring.
    rewrite (Rabs_pos_eq e) in S3 by lra.
    apply abs_in in S. apply abs_in in T. assert (S2' : Rabs (sin (rd (x + e)) - sin (x + e)) <= 11 / 10000) by lra. apply abs_in in S2'. apply abs_in in S3.
    assert (D : 747 / 1000 <= 1 - s2 + s <= 3) by (pose proof (SIN_bound (rd (x + e))); lra).
    assert (Sa : Rabs s <= 1001 / 1000) by (apply Rabs_le; lra).
    assert (D1 : Rabs (1 - s2) <= 3) by (apply Rabs_le; pose proof (SIN_bound (rd (x + e))); lra).
    pose proof (rdB _ _ D1) as D2. pose proof (u_small 3 ltac:(lra)) as U3. set (d1 := rd (1 - s2)) in *. apply abs_in in D2.
    assert (D3 : Rabs (d1 + s) <= 4) by (apply Rabs_le; lra). pose proof (rdB _ _ D3) as D4. pose proof (u_small 4 ltac:(lra)) as U4.
    set (d := rd (d1 + s)) in *. apply abs_in in D4. assert (D5 : 746 / 1000 <= d) by lra.
    assert (N1 : Rabs (e * s) <= / 4 * (1001 / 1000)) by (rewrite Rabs_mult; apply Rmult_le_compat; auto using Rabs_pos; rewrite Rabs_pos_eq; lra).
    pose proof (rd_sm _ _ N1) as N2. pose proof (u_small (/ 4 * (1001 / 1000)) ltac:(lra)) as U5. set (n := rd (e * s)) in *.
    assert (Q : Rabs (n / d) <= 3365 / 10000).
    { unfold Rdiv at 1. rewrite Rabs_mult, (Rabs_pos_eq (/ d)) by (apply Rlt_le, Rinv_0_lt_compat; lra). apply div_le; lra. }
    exists (rd (n / d)). split.
    + change (mul (Fin e) (nsin (Fin x))) with (Fin n). change (add (sub (Fin 1) (nsin (add (Fin x) (Fin e)))) (nsin (Fin x))) with (Fin d).
      assert (DV : div (Fin n) (Fin d) = Fin (rd (n / d))) by (apply (b_div rd L); lra). rewrite DV. reflexivity.
    + eapply Rle_trans; [apply rd_sm; exact Q|]. pose proof (u_small (3365 / 10000)). lra.
  - destruct (Rltb_spec x 2) as [_|G].
    + exists e. split; [reflexivity|]. rewrite Rabs_pos_eq; lra.
    + pose proof (rdB PI 4 ltac:(rewrite Rabs_pos_eq; lra)) as Ep. pose proof (u_small 4 ltac:(lra)) as U4. set (pi' := rd PI) in *. apply abs_in in Ep.
      pose proof PI_329 as P32.
      assert (A1 : Rabs (pi' - x) <= 13 / 10) by (apply Rabs_le; lra).
      pose proof (rd_sm _ _ A1) as A2. pose proof (u_small (13 / 10) ltac:(lra)) as U1. set (m := rd (pi' - x)) in *.
      assert (A3 : Rabs (e * m) <= / 4 * (1301 / 1000)) by (rewrite Rabs_mult; apply Rmult_le_compat; auto using Rabs_pos; [rewrite Rabs_pos_eq; lra|lra]).
      pose proof (rd_sm _ _ A3) as A4. pose proof (u_small (/ 4 * (1301 / 1000)) ltac:(lra)) as U2. set (n := rd (e * m)) in *.
      pose proof (rdB (1 + e) 2 ltac:(rewrite Rabs_pos_eq; lra)) as A5. pose proof (u_small 2 ltac:(lra)) as U3. set (d := rd (1 + e)) in *. apply abs_in in A5.
      assert (Q : Rabs (n / d) <= 33 / 100).
      { unfold Rdiv at 1. rewrite Rabs_mult, (Rabs_pos_eq (/ d)) by (apply Rlt_le, Rinv_0_lt_compat; lra). apply div_le; lra. }
      exists (rd (n / d)). split.
      * change (mul (Fin e) (sub npi (Fin x))) with (Fin n). change (add (Fin 1) (Fin e)) with (Fin d).
        assert (DV : div (Fin n) (Fin d) = Fin (rd (n / d))) by (apply (b_div rd L); lra). rewrite DV. reflexivity.
      * eapply Rle_trans; [apply rd_sm; exact Q|]. pose proof (u_small (33 / 100)). lra.
Qed.
Lemma guess_acc M e y : 0 <= e <= / 4 -> Rabs M <= B -> y - e * sin y = M ->
  exists z, get_kepler_guess (Fin M) (Fin e) = Fin (rd z) /\ Rabs (rd z - y) <= 3 / 5.
Proof.
  intros He HM Hy. pose proof U0 as u0. pose proof PI_4 as P4. pose proof PI2_3_2 as P3.
  assert (Y : Rabs (y - M) <= / 4).
  { replace (y - M) with (e * sin y) by lra. rewrite Rabs_mult, (Rabs_pos_eq e) by lra. assert (Rabs (sin y) <= 1) by (apply Rabs_le, SIN_bound). pose proof (Rabs_pos (sin y)). nra. }
  assert (uB : forall k, 0 <= k <= 20 -> u * (B + k) <= 102 / 100000) by (intros k Hk; pose proof (u_small k); lra).
  change (get_kepler_guess (Fin M) (Fin e)) with
    (if ltb npi (Fin M) then sub n2pi (inner (if ltb npi (Fin M) then sub n2pi (Fin M) else Fin M) (Fin e)) else inner (if ltb npi (Fin M) then sub n2pi (Fin M) else Fin M) (Fin e)).
  change (ltb npi (Fin M)) with (Rltb (rd PI) M).
  pose proof (rdB PI 4 ltac:(rewrite Rabs_pos_eq; lra)) as Ep. pose proof (u_small 4 ltac:(lra)) as U4.
  pose proof PI_329 as P32.
  destruct (Rltb_spec (rd PI) M) as [G|G].
  - assert (L2 : lit 2 = Fin 2) by exact (b_2 rd u L Hr). unfold n2pi. rewrite L2. change (mul (Fin 2) npi) with (Fin (rd (2 * rd PI))).
    apply abs_in in Ep. set (pi' := rd PI) in *. pose proof (rdB (2 * pi') 9 ltac:(rewrite Rabs_pos_eq; lra)) as Et. pose proof (u_small 9 ltac:(lra)) as U9.
    set (tp := rd (2 * pi')) in *. apply abs_in in Et. change (sub (Fin tp) (Fin M)) with (Fin (rd (tp - M))).
    assert (A1 : Rabs (tp - M) <= B + 7) by (apply Rabs_le_between in HM; apply Rabs_le; lra).
    pose proof (rdB _ _ A1) as A2. pose proof (uB 7 ltac:(lra)) as V7. set (M' := rd (tp - M)) in *.
    destruct (inner_acc M' e He) as (c & Ec & Bc).
    + replace M' with ((tp - M) + (M' - (tp - M))) by ring. eapply Rle_trans; [apply abs_add_le; eassumption|lra].
    + apply abs_in in A2. lra.
    + rewrite Ec. exists (tp - rd (M' + c)). split; [reflexivity|].
      assert (A2' := A2). apply abs_in in A2'. apply Rabs_le_between in A1. apply Rabs_le_between in Bc.
      assert (A3 : Rabs (M' + c) <= B + 8) by (apply Rabs_le; lra). pose proof (rdB _ _ A3) as A4. pose proof (uB 8 ltac:(lra)) as V8. set (i := rd (M' + c)) in *. apply abs_in in A4.
      apply Rabs_le_between in A3. assert (A5 : Rabs (tp - i) <= B + 16) by (apply Rabs_le; lra). pose proof (rdB _ _ A5) as A6. pose proof (uB 16 ltac:(lra)) as V9. apply abs_in in A6.
      apply Rabs_le_between in Y. apply Rabs_le. lra.
  - destruct (inner_acc M e He) as (c & Ec & Bc); [lra|apply abs_in in Ep; lra|].
    exists (M + c). split; [exact Ec|]. assert (A : Rabs (M + c) <= B + 1) by (apply abs_add_le; lra).
    pose proof (rdB _ _ A) as A2. pose proof (uB 1 ltac:(lra)). replace (rd (M + c) - y) with ((rd (M + c) - (M + c)) + (c + - (y - M))) by ring.
    assert (Rabs (c + - (y - M)) <= 337 / 1000 + / 4) by (apply abs_add_le; [auto|now rewrite Rabs_Ropp]).
    eapply Rle_trans; [apply abs_add_le; eassumption|lra].
Qed.

(** the iteration *)
Definition ite (o : solver_options num) (M e : R) (E : num) : num := lag_step (Fin e) o E (lag_f (Fin M) (Fin e) E).
Lemma iter_acc (o : solver_options num) M e y z k : degree o = Fin 5 -> 0 <= e <= / 4 -> Rabs M <= B -> y - e * sin y = M -> Rabs (rd z - y) <= 3 / 5 ->
  exists w, Nat.iter k (ite o M e) (Fin (rd z)) = Fin (rd w) /\ Rabs (rd w - y) <= 3 / 5 * (/ 2) ^ k + 2 * ((65 + B) * u) /\ Rabs (rd w - y) <= 3 / 5.
Proof.
  intros Hn He HM Hy Hz. pose proof U0 as u0. pose proof (u_small 65 ltac:(lra)) as U65. assert (Eta : (65 + B) * u <= 11 / 10000) by lra.
  assert (Eta0 : 0 <= (65 + B) * u) by (apply Rmult_le_pos; lra).
  assert (Y : Rabs y <= B + / 4).
  { replace y with (M + e * sin y) by lra. apply abs_add_le; auto. rewrite Rabs_mult, (Rabs_pos_eq e) by lra. assert (Rabs (sin y) <= 1) by (apply Rabs_le, SIN_bound). pose proof (Rabs_pos (sin y)). nra. }
  induction k as [|k (w & W1 & W2 & W3)].
  - exists z. split; [reflexivity|]. cbn [pow]. split; lra.
  - destruct (step_acc rd u L Hr HL Hu o M e y (rd w) Hn He Hy W3) as (f & E' & F1 & F2 & _ & F4).
    assert (X : exists w', E' = rd w').
    { change (lag_step (Fin e) o (Fin (rd w)) (Fin f)) with
        (sub (Fin (rd w)) (let n := degree o in let fp_eval := lag_fp (Fin e) (Fin (rd w)) in
         let s := nsqrt (nabs (sub (mul (sq (sub n (lit 1))) (sq fp_eval)) (mul (mul (mul n (sub n (lit 1))) (Fin f)) (lag_fpp (Fin e) (Fin (rd w)))))) in
         if ltb (nabs (sub fp_eval s)) (nabs (add fp_eval s)) then div (mul n (Fin f)) (add fp_eval s) else div (mul n (Fin f)) (sub fp_eval s))) in F2.
      match type of F2 with sub _ ?d = _ => set (dd := d) in F2; clearbody dd; destruct dd as [v| | |] end; cbn in F2; try discriminate.
      exists (rd w - v). congruence. }
    destruct X as (w' & ->). exists w'. split; [|].
    + change (Nat.iter (S k) (ite o M e) (Fin (rd z))) with (ite o M e (Nat.iter k (ite o M e) (Fin (rd z)))). rewrite W1. unfold ite.
      change (@lag_f num (NPs rd L)) with (@lag_f num NPg) in F1. rewrite F1. exact F2.
    + pose proof (contract e y (rd w) He W3) as C.
      assert (A : Rabs (rd w) <= B + 1). { replace (rd w) with (y + (rd w - y)) by ring. eapply Rle_trans; [apply abs_add_le; eassumption|lra]. }
      assert (D : Rabs (rd w' - y) <= / 2 * Rabs (rd w - y) + (65 + B) * u).
      { replace (rd w' - y) with ((nextk e y (rd w) - y) + (rd w' - nextk e y (rd w))) by ring. apply abs_add_le; [exact C|].
        eapply Rle_trans; [exact F4|]. apply Rmult_le_compat_r; lra. }
      cbn [pow]. split; lra.
Qed.
Lemma lag_converges (o : solver_options num) M e y t m : degree o = Fin 5 -> tol o = Fin t -> 0 <= e <= / 4 -> Rabs M <= B -> y - e * sin y = M ->
  (340 + 5 * B) * u <= t -> 3 / 2 < t * 2 ^ m -> (Z.of_nat m < max_iter o)%Z ->
  exists w k, laguerre_solve_kepler (get_kepler_guess (Fin M) (Fin e)) (Fin M) (Fin e) o = (Fin (rd w), Z.of_nat k) /\ (k <= m)%nat.
Proof.
  intros Hn Ht He HM Hy Hut Htm Hm. pose proof U0 as u0. destruct (guess_acc M e y He HM Hy) as (z & Ez & Bz). rewrite Ez.
  destruct (C18_laguerre_terminates (Fin (rd z)) (Fin M) (Fin e) o) as (k & _ & K1 & _ & K2 & _).
  change (fun E => lag_step (Fin e) o E (lag_f (Fin M) (Fin e) E)) with (ite o M e) in *.
  destruct (iter_acc o M e y z k Hn He HM Hy Bz) as (w & W1 & _). rewrite W1 in K1. exists w, k. split; [exact K1|].
  destruct (le_lt_dec k m) as [|G]; [auto|exfalso]. specialize (K2 m G).
  destruct (iter_acc o M e y z m Hn He HM Hy Bz) as (v & V1 & V2 & V3). rewrite V1 in K2.
  destruct (step_acc rd u L Hr HL Hu o M e y (rd v) Hn He Hy V3) as (f & E' & F1 & _ & F3 & _).
  change (@lag_f num (NPs rd L)) with (@lag_f num NPg) in F1. rewrite F1, Ht in K2. change (Rleb t (Rabs f) = true) in K2.
  destruct (Rleb_spec t (Rabs f)) as [Q|]; [|easy].
  assert (P : 3 / 4 * (/ 2) ^ m < t / 2).
  { assert (0 < 2 ^ m) by (apply pow_lt; lra). apply (Rmult_lt_reg_r (2 ^ m)); [auto|]. rewrite Rmult_assoc, <- Rpow_mult_distr, Rinv_l, pow1 by lra. lra. }
  lra.
Qed.
End Guess.

Lemma kepler_root e M : 0 <= e < 1 -> exists y, y - e * sin y = M.
Proof.
  intros He. destruct (IVT_cor (fun y => y - e * sin y - M) (M - 1) (M + 1)) as [y [_ Hy]].
  - intros x. apply continuity_pt_minus; [apply continuity_pt_minus|]; [apply derivable_continuous_pt, derivable_pt_id| |apply continuity_pt_const; intros a b; reflexivity].
    apply continuity_pt_scal. apply derivable_continuous_pt, derivable_pt_sin.
  - lra.
  - pose proof (SIN_bound (M - 1)). pose proof (SIN_bound (M + 1)).
    assert (M - 1 - e * sin (M - 1) - M <= 0) by nra. assert (0 <= M + 1 - e * sin (M + 1) - M) by nra. nra.
  - exists y. lra.
Qed.

(** ** The theorems *)
(** degree 5, tolerance t reachable with roundoff u for anomalies up to B, enough iterations *)
Definition reachable (u B t : R) (o : solver_options num) : Prop :=
  degree o = Fin 5 /\ tol o = Fin t /\ (340 + 5 * B) * u <= t /\ exists m, 3 / 2 < t * 2 ^ m /\ (Z.of_nat m < max_iter o)%Z.
Theorem C79_converges : forall rd u L o t m M e B, rounding rd u -> lib_acc rd u L -> u <= / 1000000 -> 0 <= e <= / 4 ->
  Rabs M <= B -> B * u <= / 1000 -> degree o = Fin 5 -> tol o = Fin t -> (340 + 5 * B) * u <= t ->
  3 / 2 < t * 2 ^ m -> (Z.of_nat m < max_iter o)%Z ->
  let N := NP_rd rd L in
  exists E' k, @laguerre_solve_kepler num N (@get_kepler_guess num N (Fin M) (Fin e)) (Fin M) (Fin e) o = (Fin E', k) /\ (0 <= k <= Z.of_nat m)%Z.
Proof.
  intros rd u L o t m M e B Hr HL Hu He HM HB Hn Ht Hut Htm Hm N. destruct (kepler_root e M ltac:(lra)) as [y Hy].
  assert (HB0 : 0 <= B) by (pose proof (Rabs_pos M); lra).
  destruct (lag_converges rd u L Hr HL Hu B HB0 HB o M e y t m Hn Ht He HM Hy Hut Htm Hm) as (w & k & E & K).
  exists (rd w), (Z.of_nat k). split; [exact E|lia].
Qed.
Lemma m2e_el_float rd u L o t M e B : rounding rd u -> lib_acc rd u L -> u <= / 1000000 -> 0 <= e <= / 4 ->
  Rabs M <= B -> B * u <= / 1000 -> reachable u B t o ->
  exists E', @m2e_el num (NP_rd rd L) o (Fin M) (Fin e) = Fin E' /\ rd (E' * / 2) = E' * / 2 /\
    Rabs (E' - e * sin E' - M) <= (1 + 4 * u) * t + 6 * u * e.
Proof.
  intros Hr HL Hu He HM HB (Hn & Ht & Hut & m & Htm & Hm). destruct (kepler_root e M ltac:(lra)) as [y Hy].
  assert (HB0 : 0 <= B) by (pose proof (Rabs_pos M); lra).
  destruct (lag_converges rd u L Hr HL Hu B HB0 HB o M e y t m Hn Ht He HM Hy Hut Htm Hm) as (w & k & E & K).
  change (NPg rd L) with (NP_rd rd L) in E.
  exists (rd w). split; [|split; [apply (la_half _ _ _ HL)|]].
  - unfold m2e_el. assert (B1 : @lit num (NP_rd rd L) 1 = Fin 1) by exact (b_1 rd u L Hr). rewrite B1.
    change (@ltb num (NP_rd rd L) (Fin 1) (Fin e)) with (Rltb 1 e). change (@eqb num (NP_rd rd L) (Fin e) (Fin 1)) with (Reqb e 1).
    rewrite Rltb_false, Reqb_false by lra. rewrite E. reflexivity.
  - apply (stop_acc rd u L o t M e (rd w) Hr HL ltac:(lra) ltac:(lra) Ht); [rewrite E; reflexivity|].
    unfold stopped. rewrite E. cbn [snd]. lia.
Qed.
Lemma m2e_float rd u L o t M e B : rounding rd u -> lib_acc rd u L -> u <= / 1000000 -> 0 <= e <= / 4 ->
  Rabs M <= B -> B * u <= / 1000 -> reachable u B t o -> rd (M * / 2) = M * / 2 ->
  exists E', @mean_to_eccentric num (NP_rd rd L) (Sc (Fin M)) (Sc (Fin e)) o false = Ok (Sc (Fin E')) /\ rd (E' * / 2) = E' * / 2 /\
    Rabs (E' - e * sin E' - M) <= (1 + 4 * u) * t + 6 * u * e.
Proof.
  intros Hr HL Hu He HM HB Ho HF. pose proof (rr_u _ _ Hr) as U.
  assert (HB0 : 0 <= B) by (pose proof (Rabs_pos M); lra).
  assert (T0 : 0 <= t) by (destruct Ho as (_ & _ & Hut & _); assert (0 <= (340 + 5 * B) * u) by (apply Rmult_le_pos; lra); lra).
  unfold mean_to_eccentric. cbn [broadcast in_rad rbind]. destruct (@eqb num (NP_rd rd L) (Fin e) (@lit num (NP_rd rd L) 0)) eqn:Z.
  - exists M. split; [reflexivity|]. split; [exact HF|].
    assert (@lit num (NP_rd rd L) 0 = Fin (rd 0)) as Z0 by (cbn; do 2 f_equal; unfold Q2R; cbn; lra).
    assert (rd 0 = 0) as Z1 by (pose proof (rr_err _ _ Hr 0) as Q; rewrite Rabs_R0, Rmult_0_r in Q; apply abs_in in Q; lra).
    rewrite Z0, Z1 in Z. change (Reqb e 0 = true) in Z. destruct (Reqb_spec e 0) as [-> |]; [|easy].
    replace (M - 0 * sin M - M) with 0 by ring. rewrite Rabs_R0. assert (0 <= u * t) by nra. lra.
  - destruct (m2e_el_float rd u L o t M e B Hr HL Hu He HM HB Ho) as (E' & EE & R). exists E'. rewrite EE. auto.
Qed.
(** the true anomaly of a returned eccentric anomaly, by cosine and sine *)
Lemma nu_core rd u L t M e E' : rounding rd u -> lib_acc rd u L -> u <= / 1000000 -> 0 <= e <= / 4 -> 0 <= t ->
  rd (E' * / 2) = E' * / 2 -> Rabs (E' - e * sin E' - M) <= (1 + 4 * u) * t + 6 * u * e ->
  exists nu', (let N := NP_rd rd L in @wrap2pi num N (@by_cases num N (@e2t_hyp num N) (@e2t_per num N) (@e2t_eli num N) (Fin E') (Fin e))) = Fin nu' /\ rd (nu' * / 2) = nu' * / 2 /\
    forall E nu d, Rabs (E - e * sin E - M) <= d -> anomalies_ell e nu E ->
      Rabs (cos nu' - cos nu) <= 110 * u + 3 * t + 3 * d /\ Rabs (sin nu' - sin nu) <= 110 * u + 3 * t + 3 * d.
Proof.
  intros Hr HL Hu He T0 HH HR. pose proof (rr_u _ _ Hr) as U.
  destruct (acc_e2t rd u L Hr HL ltac:(lra) e E' ltac:(lra) HH) as (nu' & nu1 & F1 & (C1 & S1) & F3 & _ & F5).
  exists nu'. split; [exact F1|]. split; [exact F5|]. intros E nu d Hd (C0 & S0).
  set (q := (1 + 4 * u) * t + 6 * u * e) in *.
  assert (AE : Rabs (E' - E) <= 4 / 3 * (q + d)).
  { pose proof (kepler_lower e E' E ltac:(lra)) as K. assert (Rabs (E' - e * sin E' - (E - e * sin E)) <= q + d).
    { replace (E' - e * sin E' - (E - e * sin E)) with ((E' - e * sin E' - M) + - (E - e * sin E - M)) by ring. apply abs_add_le; [auto|now rewrite Rabs_Ropp]. }
    pose proof (Rabs_pos (E' - E)). nra. }
  assert (Ut : 0 <= u * t) by (apply Rmult_le_pos; lra). assert (Ut2 : u * t <= / 1000000 * t) by (apply Rmult_le_compat_r; lra). assert (Ue : u * e <= u * / 4) by (apply Rmult_le_compat_l; lra).
  assert (Q : 4 / 3 * (q + d) <= 1334 / 1000 * t + 2 * u + 4 / 3 * d) by (unfold q; lra). assert (d00 : 0 <= d) by (pose proof (Rabs_pos (E - e * sin E - M)); lra).
  set (D := Rabs (E' - E)) in *. pose proof (cos_lip E' E) as Lc. pose proof (sin_lip E' E) as Ls. fold D in Lc, Ls.
  pose proof (COS_bound E) as c0. pose proof (COS_bound E') as c1. pose proof (SIN_bound E) as s0. pose proof (SIN_bound E') as s1.
  assert (d0 : 3 / 4 <= 1 - e * cos E) by nra. assert (d1 : 3 / 4 <= 1 - e * cos E') by nra.
  assert (D0 : 0 <= D) by apply Rabs_pos.
  assert (DD : 9 / 16 <= (1 - e * cos E') * (1 - e * cos E)) by nra.
  assert (Cc : Rabs (cos nu1 - cos nu) <= 16 / 9 * D).
  { rewrite C1, C0. replace ((cos E' - e) / (1 - e * cos E') - (cos E - e) / (1 - e * cos E)) with ((1 - e * e) * (cos E' - cos E) / ((1 - e * cos E') * (1 - e * cos E))) by (field; lra).
    unfold Rdiv at 1. rewrite Rabs_mult, (Rabs_pos_eq (/ _)) by (apply Rlt_le, Rinv_0_lt_compat; lra). apply div_le; [lra|].
    rewrite Rabs_mult, (Rabs_pos_eq (1 - e * e)) by nra. apply Rle_trans with (1 * D); [apply Rmult_le_compat; try nra; apply Rabs_pos|]. nra. }
  assert (Cs : Rabs (sin nu1 - sin nu) <= 20 / 9 * D).
  { rewrite S1, S0. assert (W : 0 <= sqrt (1 - e * e) <= 1). { split; [apply sqrt_pos|]. rewrite <- sqrt_1 at 2. apply sqrt_le_1_alt. nra. }
    set (w := sqrt (1 - e * e)) in *.
    replace (w * sin E' / (1 - e * cos E') - w * sin E / (1 - e * cos E)) with (w * ((sin E' - sin E) + - (e * sin (E' - E))) / ((1 - e * cos E') * (1 - e * cos E))) by (rewrite sin_minus; field; lra).
    unfold Rdiv at 1. rewrite Rabs_mult, (Rabs_pos_eq (/ _)) by (apply Rlt_le, Rinv_0_lt_compat; lra). apply div_le; [lra|].
    assert (I : Rabs (sin (E' - E)) <= D) by (pose proof (sin_lip (E' - E) 0) as Q0; rewrite sin_0, !Rminus_0_r in Q0; exact Q0).
    rewrite Rabs_mult, (Rabs_pos_eq w) by lra.
    assert (J : Rabs ((sin E' - sin E) + - (e * sin (E' - E))) <= D + / 4 * D).
    { apply abs_add_le; [auto|]. rewrite Rabs_Ropp, Rabs_mult, (Rabs_pos_eq e) by lra. apply Rmult_le_compat; auto using Rabs_pos; lra. }
    apply Rle_trans with (1 * (D + / 4 * D)); [apply Rmult_le_compat; auto using Rabs_pos; lra|]. nra. }
  pose proof (cos_lip nu' nu1) as L1. pose proof (sin_lip nu' nu1) as L2. split.
  + replace (cos nu' - cos nu) with ((cos nu' - cos nu1) + (cos nu1 - cos nu)) by ring. eapply Rle_trans; [apply abs_add_le; [exact L1|exact Cc]|]. lra.
  + replace (sin nu' - sin nu) with ((sin nu' - sin nu1) + (sin nu1 - sin nu)) by ring. eapply Rle_trans; [apply abs_add_le; [exact L2|exact Cs]|]. lra.
Qed.
Theorem C79_mean_to_eccentric : forall rd u L o t M e B, rounding rd u -> lib_acc rd u L -> u <= / 1000000 -> 0 <= e <= / 4 ->
  Rabs M <= B -> B * u <= / 1000 -> reachable u B t o -> is_float rd M ->
  exists E', @mean_to_eccentric num (NP_rd rd L) (Sc (Fin M)) (Sc (Fin e)) o false = Ok (Sc (Fin E')) /\
    Rabs (E' - e * sin E' - M) <= (1 + 4 * u) * t + 6 * u * e /\
    forall E, E - e * sin E = M -> Rabs (E' - E) <= 4 / 3 * ((1 + 4 * u) * t + 6 * u * e).
Proof.
  intros rd u L o t M e B Hr HL Hu He HM HB Ho HF. pose proof (rr_u _ _ Hr) as U.
  destruct (m2e_float rd u L o t M e B Hr HL Hu He HM HB Ho (float_half _ _ _ _ HL HF)) as (E' & EE & _ & A). destruct Ho as (Hn & Ht & Hut & m & Htm & Hm).
  assert (HB0 : 0 <= B) by (pose proof (Rabs_pos M); lra). assert (T0 : 0 <= t) by (assert (0 <= (340 + 5 * B) * u) by (apply Rmult_le_pos; lra); lra).
  exists E'. split; [exact EE|]. split; [exact A|]. intros E HE. pose proof (kepler_lower e E' E ltac:(lra)) as C. rewrite HE in C.
  assert (P : 0 <= (1 + 4 * u) * t + 6 * u * e) by (assert (0 <= u * t) by (apply Rmult_le_pos; lra); assert (0 <= u * e) by (apply Rmult_le_pos; lra); lra).
  set (q := (1 + 4 * u) * t + 6 * u * e) in *. pose proof (Rabs_pos (E' - E)). nra.
Qed.
(** the true anomaly of a mean anomaly: cosine and sine *)
Theorem C79_mean_to_true : forall rd u L o t M e B g, rounding rd u -> lib_acc rd u L -> u <= / 1000000 -> 0 <= e <= / 4 ->
  Rabs M <= B -> B * u <= / 1000 -> reachable u B t o -> is_float rd M ->
  exists nu', @mean_to_true num (NP_rd rd L) g (Sc (Fin M)) (Sc (Fin e)) o false = Ok (Sc (Fin nu')) /\
    forall E nu, E - e * sin E = M -> anomalies_ell e nu E ->
      Rabs (cos nu' - cos nu) <= 110 * u + 3 * t /\ Rabs (sin nu' - sin nu) <= 110 * u + 3 * t.
Proof.
  intros rd u L o t M e B g Hr HL Hu He HM HB Ho HF. pose proof (rr_u _ _ Hr) as U.
  destruct (m2e_float rd u L o t M e B Hr HL Hu He HM HB Ho (float_half _ _ _ _ HL HF)) as (E' & EE & HH & AE).
  assert (T0 : 0 <= t) by (destruct Ho as (_ & _ & Hut & _); assert (0 <= (340 + 5 * B) * u) by (apply Rmult_le_pos; pose proof (Rabs_pos M); lra); lra).
  destruct (nu_core rd u L t M e E' Hr HL Hu He T0 HH AE) as (nu' & F1 & _ & F2).
  exists nu'. split.
  - unfold mean_to_true. cbn [in_rad]. rewrite EE. cbn [rbind].
    assert (K : @eccentric_to_true num (NP_rd rd L) g (Sc (Fin E')) (Sc (Fin e)) false = Ok (Sc (Fin nu'))) by (rewrite <- F1; reflexivity).
    rewrite K. reflexivity.
  - intros E nu HE A. destruct (F2 E nu 0 ltac:(rewrite HE, Rminus_diag_eq, Rabs_R0; lra) A). lra.
Qed.

(** ** Mean elements to a Cartesian state *)
(** the state depends on the cosine and sine of the anomaly with condition 2 *)
Lemma state_pert mu k nu nu' d : 0 < mu -> 0 < k_a k -> 0 <= k_e k <= / 4 -> Rabs (cos nu' - cos nu) <= d -> Rabs (sin nu' - sin nu) <= d ->
  close (2 * d) (peri_state mu (with_nu k nu')) (peri_state mu (with_nu k nu)).
Proof.
  intros Hm Ha He Hc Hs. assert (D0 : 0 <= d) by (pose proof (Rabs_pos (cos nu' - cos nu)); lra).
  pose proof (COS_bound nu) as c0. pose proof (COS_bound nu') as c1. pose proof (sin2_cos2 nu) as U0. pose proof (sin2_cos2 nu') as U1. unfold Rsqr in U0, U1.
  unfold close. rewrite !peri_pos, !peri_vel. 
  change (P_axis (with_nu k nu)) with (P_axis k). change (P_axis (with_nu k nu')) with (P_axis k).
  change (Q_axis (with_nu k nu)) with (Q_axis k). change (Q_axis (with_nu k nu')) with (Q_axis k).
  change (k_nu (with_nu k nu)) with nu. change (k_nu (with_nu k nu')) with nu'. change (k_e (with_nu k nu)) with (k_e k). change (k_e (with_nu k nu')) with (k_e k).
  change (peri_s mu (with_nu k nu')) with (peri_s mu k). change (peri_s mu (with_nu k nu)) with (peri_s mu k).
  assert (Rr : forall v, peri_r mu (with_nu k v) = semi_latus (k_a k) (k_e k) / (1 + k_e k * cos v)) by reflexivity.
  rewrite !Rr. pose proof (semi_latus_pos (k_a k) (k_e k) Ha (proj1 He)) as Pp. set (p := semi_latus _ _) in *. set (e := k_e k) in *.
  assert (d0 : 3 / 4 <= 1 + e * cos nu) by nra. assert (d1 : 3 / 4 <= 1 + e * cos nu') by nra.
  set (r := p / (1 + e * cos nu)). set (r' := p / (1 + e * cos nu')).
  assert (R0 : 0 < r) by (apply Rdiv_lt_0_compat; lra).
  apply abs_in in Hc as Hc'. apply abs_in in Hs as Hs'.
  assert (N0 : norm (scal3 r (plus3 (scal3 (cos nu) (P_axis k)) (scal3 (sin nu) (Q_axis k)))) = r).
  { rewrite norm_scal_abs, norm_PQ. replace (cos nu * cos nu + sin nu * sin nu) with 1 by lra. rewrite sqrt_1, Rabs_pos_eq; lra. }
  assert (S0 : 0 <= peri_s mu k) by (unfold peri_s; apply sqrt_pos).
  assert (Q : forall a b, Rabs a <= d -> Rabs b <= d -> sqrt (a * a + b * b) <= 3 / 2 * d).
  { intros a b A B. apply sqrt_le_of; [lra|]. apply abs_in in A. apply abs_in in B. nra. }
  split.
  - rewrite N0.
    replace (minus3 _ _) with (plus3 (scal3 (r' - r) (plus3 (scal3 (cos nu') (P_axis k)) (scal3 (sin nu') (Q_axis k))))
      (scal3 r (plus3 (scal3 (cos nu' - cos nu) (P_axis k)) (scal3 (sin nu' - sin nu) (Q_axis k))))) by (vunf; f_equal; [f_equal|]; ring).
    eapply Rle_trans; [apply norm_tri|]. rewrite !norm_scal_abs, !norm_PQ. replace (cos nu' * cos nu' + sin nu' * sin nu') with 1 by lra. rewrite sqrt_1, (Rabs_pos_eq r) by lra.
    assert (A : Rabs (r' - r) <= r * (/ 3 * d)).
    { replace (r' - r) with (r * (e * (cos nu - cos nu') / (1 + e * cos nu'))) by (unfold r, r'; field; lra).
      rewrite Rabs_mult, (Rabs_pos_eq r) by lra. apply Rmult_le_compat_l; [lra|]. unfold Rdiv. rewrite !Rabs_mult, (Rabs_pos_eq e), (Rabs_pos_eq (/ _)) by (try lra; apply Rlt_le, Rinv_0_lt_compat; lra).
      rewrite Rabs_minus_sym. apply div_le; [lra|]. assert (e * Rabs (cos nu' - cos nu) <= / 4 * d) by (apply Rmult_le_compat; try lra; apply Rabs_pos). nra. }
    pose proof (Q _ _ Hc Hs). nra.
  - replace (minus3 _ _) with (scal3 (peri_s mu k) (plus3 (scal3 (- (sin nu' - sin nu)) (P_axis k)) (scal3 (cos nu' - cos nu) (Q_axis k)))) by (vunf; f_equal; [f_equal|]; ring).
    rewrite !norm_scal_abs, !norm_PQ, (Rabs_pos_eq (peri_s mu k)) by auto.
    assert (A := Q _ _ (eq_ind_r (fun z => z <= d) Hs (Rabs_Ropp (sin nu' - sin nu))) Hc).
    assert (B : 3 / 4 <= sqrt (- sin nu * - sin nu + (e + cos nu) * (e + cos nu))).
    { apply Rle_trans with (sqrt (3 / 4 * (3 / 4))); [rewrite sqrt_square; lra|]. apply sqrt_le_1_alt. nra. }
    rewrite (Rmult_comm (2 * d)), Rmult_assoc. apply Rmult_le_compat_l; auto. nra.
Qed.
Lemma close_trans d d' x y z : 0 <= d -> close d x y -> close d' y z -> close (d + d' + d * d') x z.
Proof.
  intros D0 [A1 A2] [B1 B2].
  assert (G : forall a b c : vec, norm (minus3 a b) <= d * norm b -> norm (minus3 b c) <= d' * norm c -> norm (minus3 a c) <= (d + d' + d * d') * norm c).
  { intros a b c A B. replace (minus3 a c) with (plus3 (minus3 a b) (minus3 b c)) by (vunf; f_equal; [f_equal|]; ring).
    assert (norm b <= norm c + d' * norm c).
    { replace b with (plus3 c (minus3 b c)) at 1 by (vunf; destruct b as [[? ?] ?]; cbn; f_equal; [f_equal|]; ring). eapply Rle_trans; [apply norm_tri|lra]. }
    eapply Rle_trans; [apply norm_tri|]. assert (d * norm b <= d * (norm c + d' * norm c)) by (apply Rmult_le_compat_l; lra). lra. }
  split; [apply (G _ _ _ A1 B1)|apply (G _ _ _ A2 B2)].
Qed.
Lemma close_weak d d' x y : close d x y -> d <= d' -> close d' x y.
Proof.
  intros [A B] H. pose proof (sqrt_pos (dot (pos y) (pos y))). pose proof (sqrt_pos (dot (vel y) (vel y))). unfold close, norm in *. split; nra.
Qed.
(** [nu'] computed, [nu] exact: kep_to_cart of the one is the state at the other *)
Lemma cart_core rd u L mu k nu nu' d g : rounding rd u -> trig_acc rd u L -> u <= / 1000000 -> 0 < mu -> 0 < k_a k -> 0 <= k_e k <= / 4 -> d <= / 100 ->
  Rabs (cos nu' - cos nu) <= d -> Rabs (sin nu' - sin nu) <= d ->
  exists y, snd (@kep_to_cart num (NP_rd rd L) g (KVec (fin6 (with_nu k nu'))) (MuS (Fin mu)) false) = Ok (KVec (fin6 y)) /\
    close (222 * u + 2 * d) y (peri_state mu (with_nu k nu)).
Proof.
  intros Hr HL Hu Hm Ha He Hd Hc Hs. pose proof (rr_u _ _ Hr) as U.
  assert (V : valid_kep mu (with_nu k nu')).
  { unfold valid_kep. change (k_a (with_nu k nu')) with (k_a k). change (k_e (with_nu k nu')) with (k_e k). pose proof (COS_bound (k_nu (with_nu k nu'))). repeat split; try lra; nra. }
  pose proof (C77_ellipse_K (k_e k) nu' ltac:(lra)) as HK. assert (K5 : (1 + k_e k) / (1 - k_e k) <= 5 / 3) by (apply div_le; lra).
  assert (K0 : 0 <= (1 + k_e k) / (1 - k_e k)) by (apply Rlt_le, Rdiv_lt_0_compat; lra). set (K := (1 + k_e k) / (1 - k_e k)) in *.
  assert (Ku : K * u <= 5 / 3 * u) by (apply Rmult_le_compat_r; lra). assert (Ku0 : 0 <= K * u) by (apply Rmult_le_pos; lra).
  destruct (C77_kep_to_cart rd u L mu (with_nu k nu') K _ g Hr HL V HK ltac:(lra) (state_of_peri _ _ V)) as (y & E & C).
  exists y. split; [exact E|]. pose proof (state_pert mu k nu nu' d Hm Ha He Hc Hs) as P.
  assert (D0 : 0 <= d) by (pose proof (Rabs_pos (cos nu' - cos nu)); lra).
  eapply close_weak; [apply (close_trans (130 * (K * u)) (2 * d) _ _ _ ltac:(lra) C P)|].
  assert (130 * (K * u) * (2 * d) <= 217 * u * (2 / 100)) by (apply Rmult_le_compat; lra). lra.
Qed.
Theorem C79_mean_to_cart : forall rd u L o t B mu k M g g', rounding rd u -> lib_acc rd u L -> u <= / 1000000 -> t <= / 1000 ->
  0 < mu -> 0 < k_a k -> 0 <= k_e k <= / 4 -> Rabs M <= B -> B * u <= / 1000 -> reachable u B t o -> is_float rd M ->
  let N := NP_rd rd L in
  exists nu' y, @mean_to_true num N g (Sc (Fin M)) (Sc (Fin (k_e k))) o false = Ok (Sc (Fin nu')) /\
    snd (@kep_to_cart num N g' (KVec (fin6 (with_nu k nu'))) (MuS (Fin mu)) false) = Ok (KVec (fin6 y)) /\
    forall E nu x, E - k_e k * sin E = M -> anomalies_ell (k_e k) nu E -> state_of mu (with_nu k nu) x -> close (450 * u + 6 * t) y x.
Proof.
  intros rd u L o t B mu k M g g' Hr HL Hu Ht Hm Ha He HM HB Ho HF N. pose proof (rr_u _ _ Hr) as U.
  destruct (C79_mean_to_true rd u L o t M (k_e k) B g Hr HL Hu He HM HB Ho HF) as (nu' & E1 & A).
  destruct (kepler_root (k_e k) M ltac:(lra)) as [E0 HE0]. destruct (e2t_eli_real (k_e k) ltac:(lra) E0) as (nu0 & _ & _ & An).
  destruct (A E0 nu0 HE0 An) as [C S].
  assert (T0 : 0 <= t) by (destruct Ho as (_ & _ & Hut & _); assert (0 <= (340 + 5 * B) * u) by (apply Rmult_le_pos; pose proof (Rabs_pos M); lra); lra).
  destruct (cart_core rd u L mu k nu0 nu' (110 * u + 3 * t) g' Hr (la_trig _ _ _ HL) Hu Hm Ha He ltac:(lra) C S) as (y & E2 & Cl).
  exists nu', y. split; [exact E1|]. split; [exact E2|]. intros E nu x HE HA Sx.
  assert (E = E0) as ->.
  { pose proof (kepler_lower (k_e k) E E0 ltac:(lra)) as K. rewrite HE, HE0, (Rminus_diag_eq M M eq_refl), Rabs_R0 in K. pose proof (Rabs_pos (E - E0)) as P0.
    assert (Z : Rabs (E - E0) = 0) by nra. apply Rabs_eq_0 in Z. lra. }
  assert (V : valid_kep mu (with_nu k nu)).
  { unfold valid_kep. change (k_a (with_nu k nu)) with (k_a k). change (k_e (with_nu k nu)) with (k_e k). pose proof (COS_bound (k_nu (with_nu k nu))). repeat split; try lra; nra. }
  rewrite (state_of_inv _ _ _ V Sx). assert (Eq : peri_state mu (with_nu k nu) = peri_state mu (with_nu k nu0)).
  { unfold peri_state, peri_r, peri_s, with_nu, P_axis, Q_axis, W_axis, k_a, k_e, k_i, k_om, k_Om, k_nu. cbn [s0 s1 s2 s3 s4 s5].
    destruct HA as [H1 H2]. destruct An as [H3 H4]. unfold k_e in *. now rewrite H1, H2, <- H3, <- H4. }
  rewrite Eq. eapply close_weak; [exact Cl|]. lra.
Qed.

(** ** Concrete cases: double precision with the default options *)
Definition N64 : NP num := NP_rd (FloatBase.rnd 53) PropsFloat.libm0.
Definition u64 : R := Core.Raux.bpow Core.Zaux.radix2 (-53).
Lemma u64_eq : u64 = / 9007199254740992. Proof. unfold u64. cbn. lra. Qed.
Lemma tol64 : exists t, tol (@default_options num N64) = Fin t /\ 99 / 100 * / 1000000000000 <= t <= 101 / 100 * / 1000000000000.
Proof.
  exists (FloatBase.rnd 53 (Q2R 1e-12)). split; [reflexivity|]. replace (Q2R 1e-12) with (/ 1000000000000) by (unfold Q2R; cbn; lra).
  pose proof (rr_err _ _ (binary_rounding 53 ltac:(lia)) (/ 1000000000000)) as A. change (Core.Raux.bpow Core.Zaux.radix2 (- (53))) with u64 in A.
  rewrite u64_eq, (Rabs_pos_eq (/ 1000000000000)) in A by lra. apply abs_in in A. lra.
Qed.
Example C79_reachable_example : exists t, reachable u64 1000 t (@default_options num N64) /\ 0 < t <= 102 / 100 * / 1000000000000.
Proof.
  destruct tol64 as (t & E & T). exists t. split; [|lra]. split; [|split; [exact E|split]].
  - change (Fin (FloatBase.rnd 53 (Q2R 5)) = Fin 5). f_equal. replace (Q2R 5) with 5 by (unfold Q2R; cbn; lra).
    apply FloatBase.rnd_fmt, FloatBase.fmt_IZR; lia.
  - rewrite u64_eq. lra.
  - exists 42%nat. split; [cbn; lra|cbn; lia].
Qed.
Definition c79_k : six R := mk6 7000 (/ 8) 1 1 1 0.
Example C79_example : forall g, exists nu' y t, 0 < t <= 102 / 100 * / 1000000000000 /\
  @mean_to_true num N64 g (Sc (Fin 1)) (Sc (Fin (/ 8))) (@default_options num N64) false = Ok (Sc (Fin nu')) /\
  snd (@kep_to_cart num N64 g (KVec (fin6 (with_nu c79_k nu'))) (MuS (Fin 398600)) false) = Ok (KVec (fin6 y)) /\
  forall E nu x, E - / 8 * sin E = 1 -> anomalies_ell (/ 8) nu E -> state_of 398600 (with_nu c79_k nu) x -> close (450 * u64 + 6 * t) y x.
Proof.
  intros g. destruct C79_reachable_example as (t & Ho & T). pose proof u64_eq as U.
  destruct (C79_mean_to_cart _ u64 _ (@default_options num N64) t 1000 398600 c79_k 1 g g (binary_rounding 53 ltac:(lia)) (binary_lib 53 ltac:(lia))
    ltac:(lra) ltac:(lra) ltac:(lra) ltac:(unfold c79_k, k_a; cbn; lra) ltac:(unfold c79_k, k_e; cbn; lra) ltac:(rewrite Rabs_pos_eq; lra) ltac:(lra) Ho
    (FloatBase.rnd_1 53 ltac:(lia))) as (nu' & y & E1 & E2 & E3).
  exists nu', y, t. auto.
Qed.
Example C78_mean_to_eccentric_example : exists E', 
  @mean_to_eccentric num N64 (Sc (Fin 1)) (Sc (Fin (/ 8))) (@default_options num N64) false = Ok (Sc (Fin E')) /\ @stopped N64 (@default_options num N64) 1 (/ 8).
Proof.
  destruct C79_reachable_example as (t & Ho & T). pose proof u64_eq as U.
  assert (F1 : is_float (FloatBase.rnd 53) 1) by (apply FloatBase.rnd_1; lia).
  destruct (C79_mean_to_eccentric _ u64 _ _ t 1 (/ 8) 1000 (binary_rounding 53 ltac:(lia)) (binary_lib 53 ltac:(lia)) ltac:(lra) ltac:(lra) ltac:(rewrite Rabs_pos_eq; lra) ltac:(lra) Ho F1) as (E' & EE & _).
  exists E'. split; [exact EE|]. destruct Ho as (Hn & Ht & Hut & m & Htm & Hm).
  destruct (C79_converges _ u64 _ _ t m 1 (/ 8) 1000 (binary_rounding 53 ltac:(lia)) (binary_lib 53 ltac:(lia)) ltac:(lra) ltac:(lra) ltac:(rewrite Rabs_pos_eq; lra) ltac:(lra) Hn Ht Hut Htm Hm) as (E2 & k & Q & Hk).
  unfold stopped. change (NP_rd (FloatBase.rnd 53) PropsFloat.libm0) with N64 in Q. rewrite Q. cbn [snd]. lia.
Qed.
