(** * C81: the Kepler solver and the mean anomaly conversions in floating point, every eccentricity below one
    that the precision resolves: 80000000 u <= (1 - e)^4, which in binary64 is every e up to 0.99 *)
From Coq Require Import Reals QArith Qreals ZArith Lra Lia Psatz Bool List.
From Coquelicot Require Import Coquelicot.
From Verif Require Import NP NPReal NPFloat KeplerModel ConvModel Lists ArraySpec Spec RealBase AnomReal KepReal PropsKep EllState PropsNear OrbitReal PropsAnomaly LagReal
  PropsConverge FloatAcc PropsFloatAcc PropsFloatAnom FloatLag PropsFloatLag LagRobust FloatLagG FloatConvG.
Local Open Scope R_scope.

(** degree 5, tolerance [t] reachable with roundoff [u] at eccentricity [e], enough iterations *)
Definition reachableG (u e t : R) (o : solver_options num) : Prop :=
  degree o = Fin 5 /\ tol o = Fin t /\ 300 * u <= t /\
  exists m m2, 160 * (6 / 7) ^ m <= (1 - e) ^ 2 /\ 3 < t * 10 ^ m2 /\ (Z.of_nat (2 * m + 1 + m2) < max_iter o)%Z.
(** the eccentricity is resolved by the precision *)
Definition resolved (u e : R) : Prop := 0 <= e < 1 /\ 80000000 * u <= (1 - e) ^ 4.
(** condition of the true anomaly with respect to the eccentric one *)
Definition kappa (e : R) : R := sqrt ((1 + e) / (1 - e)).

Lemma resolved_facts u e : 0 <= u -> resolved u e -> 0 < 1 - e <= 1 /\ u <= / 80000000 /\ 80000000 * u <= 1 - e /\ 80000000 * u <= (1 - e) ^ 2 /\ 80000000 * u <= (1 - e) ^ 3.
Proof.
  intros U [He Hk]. set (k := 1 - e) in *. assert (K : 0 < k <= 1) by (unfold k; lra).
  assert (k ^ 2 <= k * 1) by (replace (k ^ 2) with (k * k) by ring; apply Rmult_le_compat_l; lra).
  assert (K2 : 0 <= k ^ 2) by apply pow2_ge_0.
  assert (k ^ 3 <= k ^ 2 * 1) by (replace (k ^ 3) with (k ^ 2 * k) by ring; apply Rmult_le_compat_l; lra).
  assert (k ^ 4 <= k ^ 3 * 1) by (replace (k ^ 4) with (k ^ 3 * k) by ring; apply Rmult_le_compat_l; [apply pow_le|]; lra).
  repeat split; lra.
Qed.
Lemma kappa_facts e : 0 <= e < 1 -> 1 <= kappa e /\ kappa e * (1 - e) <= 2.
Proof.
  intros He. assert (Q : 1 <= (1 + e) / (1 - e)) by (apply le_div; lra).
  assert (A : 1 <= kappa e) by (unfold kappa; rewrite <- sqrt_1 at 1; now apply sqrt_le_1_alt). split; [exact A|].
  assert (S : kappa e * kappa e = (1 + e) / (1 - e)) by (apply sqrt_sqrt; lra).
  assert (B : kappa e * 1 <= kappa e * kappa e) by (apply Rmult_le_compat_l; lra). rewrite S, Rmult_1_r in B.
  apply Rle_trans with ((1 + e) / (1 - e) * (1 - e)); [apply Rmult_le_compat_r; lra|]. replace ((1 + e) / (1 - e) * (1 - e)) with (1 + e) by (field; lra). lra.
Qed.

(** ** The solver *)
Theorem C81_converges : forall rd u L o t m m2 M e, rounding rd u -> lib_acc rd u L -> resolved u e -> 0 <= M <= 2 * PI + 30 * u ->
  degree o = Fin 5 -> tol o = Fin t -> 300 * u <= t -> 160 * (6 / 7) ^ m <= (1 - e) ^ 2 -> 3 < t * 10 ^ m2 -> (Z.of_nat (2 * m + 1 + m2) < max_iter o)%Z ->
  let N := NP_rd rd L in
  exists E' k, @laguerre_solve_kepler num N (@get_kepler_guess num N (Fin M) (Fin e)) (Fin M) (Fin e) o = (Fin E', k) /\ (0 <= k <= Z.of_nat (2 * m + 1 + m2))%Z.
Proof.
  intros rd u L o t m m2 M e Hr HL [He Hk] HM Hn Ht Hut Hm Hm2 Hmax N.
  destruct (lag_convergesG rd u L o t m m2 M e Hr HL He Hk HM Hn Ht Hut Hm Hm2 Hmax) as (w & k & E & K).
  exists (rd w), (Z.of_nat k). split; [exact E|lia].
Qed.
Lemma m2e_elG rd u L o t M e : rounding rd u -> lib_acc rd u L -> resolved u e -> 0 <= M <= 2 * PI + 30 * u -> reachableG u e t o ->
  exists E', @m2e_el num (NP_rd rd L) o (Fin M) (Fin e) = Fin E' /\ rd (E' * / 2) = E' * / 2 /\
    Rabs (E' - e * sin E' - M) <= (1 + 4 * u) * t + 6 * u * e.
Proof.
  intros Hr HL HR HM (Hn & Ht & Hut & m & m2 & Hm & Hm2 & Hmax). pose proof (rr_u _ _ Hr) as U0.
  destruct (resolved_facts u e U0 HR) as (K & Hu & _). destruct HR as [He Hk].
  destruct (lag_convergesG rd u L o t m m2 M e Hr HL He Hk HM Hn Ht Hut Hm Hm2 Hmax) as (w & k & E & Hkm).
  exists (rd w). split; [|split; [apply (la_half _ _ _ HL)|]].
  - unfold m2e_el. assert (B1 : @lit num (NP_rd rd L) 1 = Fin 1) by exact (b_1 rd u L Hr). rewrite B1.
    change (@ltb num (NP_rd rd L) (Fin 1) (Fin e)) with (Rltb 1 e). change (@eqb num (NP_rd rd L) (Fin e) (Fin 1)) with (Reqb e 1).
    rewrite Rltb_false, Reqb_false by lra. rewrite E. reflexivity.
  - apply (stop_acc rd u L o t M e (rd w) Hr HL ltac:(lra) ltac:(lra) Ht); [rewrite E; reflexivity|].
    unfold stopped. rewrite E. cbn [snd]. lia.
Qed.
Lemma m2eG rd u L o t M e : rounding rd u -> lib_acc rd u L -> resolved u e -> 0 <= M <= 2 * PI + 30 * u -> reachableG u e t o -> rd (M * / 2) = M * / 2 ->
  exists E', @mean_to_eccentric num (NP_rd rd L) (Sc (Fin M)) (Sc (Fin e)) o false = Ok (Sc (Fin E')) /\ rd (E' * / 2) = E' * / 2 /\
    Rabs (E' - e * sin E' - M) <= (1 + 4 * u) * t + 6 * u * e.
Proof.
  intros Hr HL HR HM Ho HF. pose proof (rr_u _ _ Hr) as U. assert (T0 : 0 <= t) by (destruct Ho as (_ & _ & Hut & _); lra).
  unfold mean_to_eccentric. cbn [broadcast in_rad rbind]. destruct (@eqb num (NP_rd rd L) (Fin e) (@lit num (NP_rd rd L) 0)) eqn:Z.
  - exists M. split; [reflexivity|]. split; [exact HF|].
    assert (@lit num (NP_rd rd L) 0 = Fin (rd 0)) as Z0 by (cbn; do 2 f_equal; unfold Q2R; cbn; lra).
    assert (rd 0 = 0) as Z1 by (pose proof (rr_err _ _ Hr 0) as Q; rewrite Rabs_R0, Rmult_0_r in Q; apply abs_in in Q; lra).
    rewrite Z0, Z1 in Z. change (Reqb e 0 = true) in Z. destruct (Reqb_spec e 0) as [-> |]; [|easy].
    replace (M - 0 * sin M - M) with 0 by ring. rewrite Rabs_R0. assert (0 <= u * t) by (apply Rmult_le_pos; lra). lra.
  - destruct (m2e_elG rd u L o t M e Hr HL HR HM Ho) as (E' & EE & R). exists E'. rewrite EE. auto.
Qed.
Theorem C81_mean_to_eccentric : forall rd u L o t M e, rounding rd u -> lib_acc rd u L -> resolved u e ->
  0 <= M <= 2 * PI + 30 * u -> reachableG u e t o -> is_float rd M ->
  exists E', @mean_to_eccentric num (NP_rd rd L) (Sc (Fin M)) (Sc (Fin e)) o false = Ok (Sc (Fin E')) /\
    Rabs (E' - e * sin E' - M) <= (1 + 4 * u) * t + 6 * u * e /\
    forall E, E - e * sin E = M -> Rabs (E' - E) <= ((1 + 4 * u) * t + 6 * u * e) / (1 - e).
Proof.
  intros rd u L o t M e Hr HL HR HM Ho HF.
  destruct (m2eG rd u L o t M e Hr HL HR HM Ho (float_half _ _ _ _ HL HF)) as (E' & EE & _ & A). destruct HR as [He _].
  exists E'. split; [exact EE|]. split; [exact A|]. intros E HE. pose proof (kepler_lower e E' E ltac:(lra)) as C. rewrite HE in C.
  apply le_div; [lra|]. rewrite Rmult_comm. eapply Rle_trans; [exact C|exact A].
Qed.

(** ** The true anomaly *)
Lemma Rabs_mult_self x : Rabs x * Rabs x = x * x.
Proof. symmetry. apply (Rsqr_abs x). Qed.
Lemma Rabs_le_sqr x b : 0 <= b -> x * x <= b * b -> Rabs x <= b.
Proof. intros H Q. pose proof (Rsqr_le_abs_0 x b Q) as P. rewrite (Rabs_pos_eq b H) in P. exact P. Qed.
Lemma chord_id e E E' nu nu' : 0 <= e < 1 -> anomalies_ell e nu E -> anomalies_ell e nu' E' ->
  (cos nu' - cos nu) * (cos nu' - cos nu) + (sin nu' - sin nu) * (sin nu' - sin nu) =
  (1 - e * e) * ((cos E' - cos E) * (cos E' - cos E) + (sin E' - sin E) * (sin E' - sin E)) / ((1 - e * cos E') * (1 - e * cos E)).
Proof.
  intros He [C0 S0] [C1 S1]. rewrite C0, S0, C1, S1. pose proof (COS_bound E) as c0. pose proof (COS_bound E') as c1.
  assert (d0 : 0 < 1 - e * cos E) by nra. assert (d1 : 0 < 1 - e * cos E') by nra.
  assert (W : sqrt (1 - e * e) * sqrt (1 - e * e) = 1 - e * e) by (apply sqrt_sqrt; nra). set (w := sqrt (1 - e * e)) in *.
  pose proof (sin2_cos2 E) as q. pose proof (sin2_cos2 E') as q'. unfold Rsqr in q, q'.
  set (c := cos E) in *. set (c' := cos E') in *. set (s := sin E) in *. set (s' := sin E') in *.
  set (d := 1 - e * c) in *. set (d' := 1 - e * c') in *.
  assert (X1 : (c' - e) / d' - (c - e) / d = (1 - e * e) * (c' - c) / (d' * d)) by (unfold d, d' in *; field; lra).
  assert (X2 : w * s' / d' - w * s / d = w * (s' * d - s * d') / (d' * d)) by (field; lra).
  rewrite X1, X2.
  replace ((1 - e * e) * (c' - c) / (d' * d) * ((1 - e * e) * (c' - c) / (d' * d)) + w * (s' * d - s * d') / (d' * d) * (w * (s' * d - s * d') / (d' * d))) with
    ((1 - e * e) * ((1 - e * e) * ((c' - c) * (c' - c)) + (w * w) / (1 - e * e) * ((s' * d - s * d') * (s' * d - s * d'))) / (d' * d * (d' * d))) by (field; nra).
  rewrite W. replace ((1 - e * e) / (1 - e * e)) with 1 by (field; nra).
  assert (P : (1 - e * e) * ((c' - c) * (c' - c)) + 1 * ((s' * d - s * d') * (s' * d - s * d')) = ((c' - c) * (c' - c) + (s' - s) * (s' - s)) * (d' * d)).
  { assert (Q1 : s * s = 1 - c * c) by lra. assert (Q2 : s' * s' = 1 - c' * c') by lra.
    transitivity ((1 - e * e) * ((c' - c) * (c' - c)) + (s' * s') * (d * d) + (s * s) * (d' * d') - 2 * (s * s') * (d * d')); [ring|].
    transitivity (((c' - c) * (c' - c) + (s' * s') + (s * s) - 2 * (s * s')) * (d' * d)); [|ring].
    rewrite Q1, Q2. unfold d, d'. ring. }
  rewrite P. field. lra.
Qed.
Lemma chord_le e E E' nu nu' : 0 <= e < 1 -> anomalies_ell e nu E -> anomalies_ell e nu' E' ->
  Rabs (cos nu' - cos nu) <= kappa e * Rabs (E' - E) /\ Rabs (sin nu' - sin nu) <= kappa e * Rabs (E' - E).
Proof.
  intros He A0 A1. pose proof (chord_id e E E' nu nu' He A0 A1) as C.
  pose proof (COS_bound E) as c0. pose proof (COS_bound E') as c1. pose proof (kappa_facts e He) as [K1 _].
  assert (d0 : 1 - e <= 1 - e * cos E) by nra. assert (d1 : 1 - e <= 1 - e * cos E') by nra.
  assert (KK : kappa e * kappa e = (1 + e) / (1 - e)) by (apply sqrt_sqrt, Rlt_le, Rdiv_lt_0_compat; lra).
  assert (Ch : (cos E' - cos E) * (cos E' - cos E) + (sin E' - sin E) * (sin E' - sin E) <= (E' - E) * (E' - E)).
  { replace ((cos E' - cos E) * (cos E' - cos E) + (sin E' - sin E) * (sin E' - sin E)) with (2 * sin ((E' - E) / 2) * (2 * sin ((E' - E) / 2))).
    - assert (I : Rabs (2 * sin ((E' - E) / 2)) <= Rabs (E' - E)).
      { rewrite Rabs_mult, (Rabs_pos_eq 2) by lra. pose proof (sin_lip ((E' - E) / 2) 0) as Q. rewrite sin_0, !Rminus_0_r in Q. unfold Rdiv in Q at 2.
        rewrite Rabs_mult, (Rabs_pos_eq (/ 2)) in Q by lra. lra. }
      rewrite <- (Rabs_mult_self (2 * sin _)), <- (Rabs_mult_self (E' - E)). apply Rmult_le_compat; auto using Rabs_pos.
    - assert (D : cos (E' - E) = 1 - 2 * sin ((E' - E) / 2) * sin ((E' - E) / 2)) by (replace (E' - E) with (2 * ((E' - E) / 2)) at 1 by field; apply cos_2a_sin).
      rewrite cos_minus in D. pose proof (sin2_cos2 E) as q. pose proof (sin2_cos2 E') as q'. unfold Rsqr in q, q'. lra. }
  assert (P : 0 < (1 - e * cos E') * (1 - e * cos E)) by (apply Rmult_lt_0_compat; lra).
  assert (P2 : (1 - e) * (1 - e) <= (1 - e * cos E') * (1 - e * cos E)) by (apply Rmult_le_compat; lra).
  assert (B : (cos nu' - cos nu) * (cos nu' - cos nu) + (sin nu' - sin nu) * (sin nu' - sin nu) <= (kappa e * Rabs (E' - E)) * (kappa e * Rabs (E' - E))).
  { rewrite C. replace (kappa e * Rabs (E' - E) * (kappa e * Rabs (E' - E))) with (kappa e * kappa e * (Rabs (E' - E) * Rabs (E' - E))) by ring. rewrite KK, Rabs_mult_self.
    apply div_le; [exact P|]. pose proof (Rle_0_sqr (E' - E)) as Q0. unfold Rsqr in Q0. set (D := (E' - E) * (E' - E)) in *.
    apply Rle_trans with ((1 - e * e) * D); [apply Rmult_le_compat_l; nra|].
    replace ((1 - e * e) * D) with ((1 + e) / (1 - e) * D * ((1 - e) * (1 - e))) by (field; lra). apply Rmult_le_compat_l; [|exact P2].
    apply Rmult_le_pos; [apply Rlt_le, Rdiv_lt_0_compat; lra|auto]. }
  assert (N : 0 <= kappa e * Rabs (E' - E)) by (apply Rmult_le_pos; [lra|apply Rabs_pos]).
  pose proof (Rle_0_sqr (cos nu' - cos nu)) as q1. pose proof (Rle_0_sqr (sin nu' - sin nu)) as q2. unfold Rsqr in q1, q2.
  split; apply Rabs_le_sqr; auto; lra.
Qed.
(** error in the cosine and the sine of the true anomaly when the mean anomaly is off by [d] *)
Definition nu_err (u e t d : R) : R := 100 * u + kappa e * ((1 + 4 * u) * t + 6 * u * e + d) / (1 - e).
Lemma nu_coreG rd u L t M e E' : rounding rd u -> lib_acc rd u L -> resolved u e -> 
  rd (E' * / 2) = E' * / 2 -> Rabs (E' - e * sin E' - M) <= (1 + 4 * u) * t + 6 * u * e ->
  exists nu', (let N := NP_rd rd L in @wrap2pi num N (@by_cases num N (@e2t_hyp num N) (@e2t_per num N) (@e2t_eli num N) (Fin E') (Fin e))) = Fin nu' /\ rd (nu' * / 2) = nu' * / 2 /\
    forall E nu d, Rabs (E - e * sin E - M) <= d -> anomalies_ell e nu E ->
      Rabs (cos nu' - cos nu) <= nu_err u e t d /\ Rabs (sin nu' - sin nu) <= nu_err u e t d.
Proof.
  intros Hr HL HR HH HE. pose proof (rr_u _ _ Hr) as U. destruct (resolved_facts u e U HR) as (K & Hu & _). destruct HR as [He _].
  destruct (acc_e2t rd u L Hr HL ltac:(lra) e E' ltac:(lra) HH) as (nu' & nu1 & F1 & A1 & F3 & _ & F5).
  exists nu'. split; [exact F1|]. split; [exact F5|]. intros E nu d Hd A0.
  set (q := (1 + 4 * u) * t + 6 * u * e) in *.
  assert (AE : Rabs (E' - E) <= (q + d) / (1 - e)).
  { pose proof (kepler_lower e E' E ltac:(lra)) as C. apply le_div; [lra|]. rewrite Rmult_comm. eapply Rle_trans; [exact C|].
    replace (E' - e * sin E' - (E - e * sin E)) with ((E' - e * sin E' - M) + - (E - e * sin E - M)) by ring. apply abs_add_le; [auto|now rewrite Rabs_Ropp]. }
  destruct (chord_le e E E' nu nu1 He A0 A1) as [Cc Cs]. pose proof (kappa_facts e He) as [K1 _].
  assert (KE : kappa e * Rabs (E' - E) <= kappa e * (q + d) / (1 - e)) by (unfold Rdiv; rewrite Rmult_assoc; apply Rmult_le_compat_l; [lra|exact AE]).
  pose proof (cos_lip nu' nu1) as L1. pose proof (sin_lip nu' nu1) as L2. unfold nu_err. fold q. split.
  + replace (cos nu' - cos nu) with ((cos nu' - cos nu1) + (cos nu1 - cos nu)) by ring. eapply Rle_trans; [apply abs_add_le; [exact L1|exact Cc]|]. lra.
  + replace (sin nu' - sin nu) with ((sin nu' - sin nu1) + (sin nu1 - sin nu)) by ring. eapply Rle_trans; [apply abs_add_le; [exact L2|exact Cs]|]. lra.
Qed.
Theorem C81_mean_to_true : forall rd u L o t M e g, rounding rd u -> lib_acc rd u L -> resolved u e ->
  0 <= M <= 2 * PI + 30 * u -> reachableG u e t o -> is_float rd M ->
  exists nu', @mean_to_true num (NP_rd rd L) g (Sc (Fin M)) (Sc (Fin e)) o false = Ok (Sc (Fin nu')) /\
    forall E nu, E - e * sin E = M -> anomalies_ell e nu E ->
      Rabs (cos nu' - cos nu) <= nu_err u e t 0 /\ Rabs (sin nu' - sin nu) <= nu_err u e t 0.
Proof.
  intros rd u L o t M e g Hr HL HR HM Ho HF.
  destruct (m2eG rd u L o t M e Hr HL HR HM Ho (float_half _ _ _ _ HL HF)) as (E' & EE & HH & AE).
  destruct (nu_coreG rd u L t M e E' Hr HL HR HH AE) as (nu' & F1 & _ & F2).
  exists nu'. split.
  - unfold mean_to_true. cbn [in_rad]. rewrite EE. cbn [rbind].
    assert (K : @eccentric_to_true num (NP_rd rd L) g (Sc (Fin E')) (Sc (Fin e)) false = Ok (Sc (Fin nu'))) by (rewrite <- F1; reflexivity).
    rewrite K. reflexivity.
  - intros E nu HE A. apply (F2 E nu 0 ltac:(rewrite HE, Rminus_diag_eq, Rabs_R0; lra) A).
Qed.

(** ** Mean elements to a Cartesian state *)
Lemma state_pertG mu k nu nu' d : 0 < mu -> 0 < k_a k -> 0 <= k_e k < 1 -> Rabs (cos nu' - cos nu) <= d -> Rabs (sin nu' - sin nu) <= d ->
  close (3 / 2 * d / (1 - k_e k)) (peri_state mu (with_nu k nu')) (peri_state mu (with_nu k nu)).
Proof.
  intros Hm Ha He Hc Hs. assert (D0 : 0 <= d) by (pose proof (Rabs_pos (cos nu' - cos nu)); lra).
  pose proof (COS_bound nu) as c0. pose proof (COS_bound nu') as c1. pose proof (sin2_cos2 nu) as U0. pose proof (sin2_cos2 nu') as U1. unfold Rsqr in U0, U1.
  unfold close. rewrite !peri_pos, !peri_vel.
  change (P_axis (with_nu k nu)) with (P_axis k). change (P_axis (with_nu k nu')) with (P_axis k).
  change (Q_axis (with_nu k nu)) with (Q_axis k). change (Q_axis (with_nu k nu')) with (Q_axis k).
  change (k_nu (with_nu k nu)) with nu. change (k_nu (with_nu k nu')) with nu'. change (k_e (with_nu k nu)) with (k_e k). change (k_e (with_nu k nu')) with (k_e k).
  change (peri_s mu (with_nu k nu')) with (peri_s mu k). change (peri_s mu (with_nu k nu)) with (peri_s mu k).
  assert (Rr : forall v, peri_r mu (with_nu k v) = semi_latus (k_a k) (k_e k) / (1 + k_e k * cos v)) by reflexivity.
  rewrite !Rr.
  pose proof (semi_latus_pos (k_a k) (k_e k) Ha (proj1 He)) as Pp.
  set (p := semi_latus _ _) in *. set (e := k_e k) in *.
  assert (d0 : 1 - e <= 1 + e * cos nu) by nra. assert (d1 : 1 - e <= 1 + e * cos nu') by nra.
  set (r := p / (1 + e * cos nu)). set (r' := p / (1 + e * cos nu')).
  assert (R0 : 0 < r) by (apply Rdiv_lt_0_compat; lra).
  assert (N0 : norm (scal3 r (plus3 (scal3 (cos nu) (P_axis k)) (scal3 (sin nu) (Q_axis k)))) = r).
  { rewrite norm_scal_abs, norm_PQ. replace (cos nu * cos nu + sin nu * sin nu) with 1 by lra. rewrite sqrt_1, Rabs_pos_eq; lra. }
  assert (S0 : 0 <= peri_s mu k) by (unfold peri_s; apply sqrt_pos).
  assert (Q : forall a b, Rabs a <= d -> Rabs b <= d -> sqrt (a * a + b * b) <= 3 / 2 * d).
  { intros a b A B. apply sqrt_le_of; [lra|]. apply abs_in in A. apply abs_in in B. nra. }
  set (X := d / (1 - e)). assert (EX : 3 / 2 * d / (1 - e) = 3 / 2 * X) by (unfold X; field; lra). rewrite EX.
  assert (dX : d = X * (1 - e)) by (unfold X; field; lra). assert (X0 : 0 <= X) by (unfold X; apply le_div; lra).
  split.
  - rewrite N0.
    replace (minus3 _ _) with (plus3 (scal3 (r' - r) (plus3 (scal3 (cos nu') (P_axis k)) (scal3 (sin nu') (Q_axis k))))
      (scal3 r (plus3 (scal3 (cos nu' - cos nu) (P_axis k)) (scal3 (sin nu' - sin nu) (Q_axis k))))) by (vunf; f_equal; [f_equal|]; ring).
    eapply Rle_trans; [apply norm_tri|]. rewrite !norm_scal_abs, !norm_PQ. replace (cos nu' * cos nu' + sin nu' * sin nu') with 1 by lra. rewrite sqrt_1, (Rabs_pos_eq r) by lra.
    assert (A : Rabs (r' - r) <= r * (e * X)).
    { replace (r' - r) with (r * (e * (cos nu - cos nu') / (1 + e * cos nu'))) by (unfold r, r'; field; lra).
      rewrite Rabs_mult, (Rabs_pos_eq r) by lra. apply Rmult_le_compat_l; [lra|]. unfold Rdiv. rewrite !Rabs_mult, (Rabs_pos_eq e), (Rabs_pos_eq (/ _)) by (try lra; apply Rlt_le, Rinv_0_lt_compat; lra).
      rewrite Rabs_minus_sym. apply div_le; [lra|]. rewrite Rmult_assoc. apply Rmult_le_compat_l; [lra|]. eapply Rle_trans; [exact Hc|]. rewrite dX. apply Rmult_le_compat_l; lra. }
    pose proof (Q _ _ Hc Hs) as Q1. assert (Q2 : r * sqrt ((cos nu' - cos nu) * (cos nu' - cos nu) + (sin nu' - sin nu) * (sin nu' - sin nu)) <= r * (3 / 2 * d)) by (apply Rmult_le_compat_l; lra).
    rewrite dX in Q2. assert (0 <= r * (e * X)) by (apply Rmult_le_pos; [lra|apply Rmult_le_pos; lra]). lra.
  - replace (minus3 _ _) with (scal3 (peri_s mu k) (plus3 (scal3 (- (sin nu' - sin nu)) (P_axis k)) (scal3 (cos nu' - cos nu) (Q_axis k)))) by (vunf; f_equal; [f_equal|]; ring).
    rewrite !norm_scal_abs, !norm_PQ, (Rabs_pos_eq (peri_s mu k)) by auto.
    assert (A := Q _ _ (eq_ind_r (fun z => z <= d) Hs (Rabs_Ropp (sin nu' - sin nu))) Hc).
    assert (B : 1 - e <= sqrt (- sin nu * - sin nu + (e + cos nu) * (e + cos nu))).
    { apply Rle_trans with (sqrt ((1 - e) * (1 - e))); [rewrite sqrt_square; lra|]. apply sqrt_le_1_alt. nra. }
    rewrite (Rmult_comm (3 / 2 * X)), Rmult_assoc. apply Rmult_le_compat_l; auto. eapply Rle_trans; [exact A|]. rewrite dX.
    replace (3 / 2 * (X * (1 - e))) with ((1 - e) * (3 / 2 * X)) by ring. apply Rmult_le_compat_r; lra.
Qed.
Lemma cart_coreG rd u L mu k nu nu' d g : rounding rd u -> trig_acc rd u L -> resolved u (k_e k) -> 0 < mu -> 0 < k_a k -> 100 * d <= 1 - k_e k ->
  Rabs (cos nu' - cos nu) <= d -> Rabs (sin nu' - sin nu) <= d ->
  exists y, snd (@kep_to_cart num (NP_rd rd L) g (KVec (fin6 (with_nu k nu'))) (MuS (Fin mu)) false) = Ok (KVec (fin6 y)) /\
    close ((265 * u + 3 / 2 * d) / (1 - k_e k)) y (peri_state mu (with_nu k nu)).
Proof.
  intros Hr HL HR Hm Ha Hd Hc Hs. pose proof (rr_u _ _ Hr) as U. destruct (resolved_facts u _ U HR) as (K1 & Hu & KU & _). destruct HR as [He _].
  assert (V : valid_kep mu (with_nu k nu')).
  { unfold valid_kep. change (k_a (with_nu k nu')) with (k_a k). change (k_e (with_nu k nu')) with (k_e k). pose proof (COS_bound (k_nu (with_nu k nu'))). repeat split; try lra; nra. }
  pose proof (C77_ellipse_K (k_e k) nu' ltac:(lra)) as HK. set (e := k_e k) in *. set (q := u / (1 - e)).
  assert (q0 : 0 <= q) by (unfold q; apply le_div; lra). assert (q1 : q <= / 80000000) by (unfold q; apply div_le; lra).
  assert (Ku : (1 + e) / (1 - e) * u <= 2 * q) by (replace ((1 + e) / (1 - e) * u) with ((1 + e) * q) by (unfold q; field; lra); apply Rmult_le_compat_r; lra).
  assert (K0 : 0 <= (1 + e) / (1 - e)) by (apply Rlt_le, Rdiv_lt_0_compat; lra). set (K := (1 + e) / (1 - e)) in *.
  assert (Ku0 : 0 <= K * u) by (apply Rmult_le_pos; lra).
  destruct (C77_kep_to_cart rd u L mu (with_nu k nu') K _ g Hr HL V HK ltac:(lra) (state_of_peri _ _ V)) as (y & E & C).
  exists y. split; [exact E|]. pose proof (state_pertG mu k nu nu' d Hm Ha He Hc Hs) as P. fold e in P.
  assert (D0 : 0 <= d) by (pose proof (Rabs_pos (cos nu' - cos nu)); lra). set (X := 3 / 2 * d / (1 - e)) in *.
  assert (X1 : 0 <= X <= 3 / 200) by (unfold X; split; [apply le_div|apply div_le]; lra).
  eapply close_weak; [apply (close_trans (130 * (K * u)) X _ _ _ ltac:(lra) C P)|].
  replace ((265 * u + 3 / 2 * d) / (1 - e)) with (265 * q + X) by (unfold q, X; field; lra).
  assert (130 * (K * u) * X <= 260 * q * (3 / 200)) by (apply Rmult_le_compat; lra). lra.
Qed.
(** relative error of the state: kep_to_cart, the anomaly, and a mean anomaly that is off by [d] *)
Definition cart_err (u e t d : R) : R := (265 * u + 3 / 2 * nu_err u e t d) / (1 - e).
Lemma nu_err_small u e t d : 0 <= u -> resolved u e -> 0 <= t -> 0 <= d -> 1000 * (t + d) <= (1 - e) ^ 3 -> 100 * nu_err u e t d <= 1 - e.
Proof.
  intros U HR T D H. destruct (resolved_facts u e U HR) as (K & Hu & K1 & K2 & K3). destruct HR as [He _]. destruct (kappa_facts e He) as [A B].
  assert (Ut : u * t <= / 80000000 * t) by (apply Rmult_le_compat_r; lra). assert (Ue : u * e <= u * 1) by (apply Rmult_le_compat_l; lra).
  assert (Ue0 : 0 <= u * e) by (apply Rmult_le_pos; lra). assert (Ut0 : 0 <= u * t) by (apply Rmult_le_pos; lra).
  set (q := (1 + 4 * u) * t + 6 * u * e + d). set (k := 1 - e) in *.
  assert (Q : 0 <= q <= 2 / 1000 * (k ^ 3)) by (unfold q; lra).
  assert (X : kappa e * q / k <= 4 / 1000 * k).
  { apply div_le; [lra|]. apply Rle_trans with (kappa e * (2 / 1000 * (k ^ 3))); [apply Rmult_le_compat_l; lra|].
    replace (kappa e * (2 / 1000 * k ^ 3)) with (kappa e * k * (2 / 1000 * (k * k))) by ring.
    replace (4 / 1000 * k * k) with (2 * (2 / 1000 * (k * k))) by field. apply Rmult_le_compat_r; [|exact B]. assert (0 <= k * k) by (apply Rmult_le_pos; lra). lra. }
  unfold nu_err. fold q. fold k. lra.
Qed.
Theorem C81_mean_to_cart : forall rd u L o t mu k M g g', rounding rd u -> lib_acc rd u L -> resolved u (k_e k) -> 1000 * t <= (1 - k_e k) ^ 3 ->
  0 < mu -> 0 < k_a k -> 0 <= M <= 2 * PI + 30 * u -> reachableG u (k_e k) t o -> is_float rd M ->
  let N := NP_rd rd L in
  exists nu' y, @mean_to_true num N g (Sc (Fin M)) (Sc (Fin (k_e k))) o false = Ok (Sc (Fin nu')) /\
    snd (@kep_to_cart num N g' (KVec (fin6 (with_nu k nu'))) (MuS (Fin mu)) false) = Ok (KVec (fin6 y)) /\
    forall E nu x, E - k_e k * sin E = M -> anomalies_ell (k_e k) nu E -> state_of mu (with_nu k nu) x -> close (cart_err u (k_e k) t 0) y x.
Proof.
  intros rd u L o t mu k M g g' Hr HL HR Ht Hm Ha HM Ho HF N. pose proof (rr_u _ _ Hr) as U. assert (He := proj1 HR).
  destruct (C81_mean_to_true rd u L o t M (k_e k) g Hr HL HR HM Ho HF) as (nu' & E1 & A).
  destruct (kepler_root (k_e k) M ltac:(lra)) as [E0 HE0]. destruct (e2t_eli_real (k_e k) ltac:(lra) E0) as (nu0 & _ & _ & An).
  destruct (A E0 nu0 HE0 An) as [C S]. assert (T0 : 0 <= t) by (destruct Ho as (_ & _ & Hut & _); lra).
  destruct (cart_coreG rd u L mu k nu0 nu' (nu_err u (k_e k) t 0) g' Hr (la_trig _ _ _ HL) HR Hm Ha (nu_err_small u (k_e k) t 0 U HR T0 (Rle_refl 0) ltac:(lra)) C S) as (y & E2 & Cl).
  exists nu', y. split; [exact E1|]. split; [exact E2|]. intros E nu x HE HA Sx.
  assert (E = E0) as ->.
  { pose proof (kepler_lower (k_e k) E E0 ltac:(lra)) as K. rewrite HE, HE0, (Rminus_diag_eq M M eq_refl), Rabs_R0 in K. pose proof (Rabs_pos (E - E0)) as P0.
    assert (Z : Rabs (E - E0) = 0) by nra. apply Rabs_eq_0 in Z. lra. }
  assert (V : valid_kep mu (with_nu k nu)).
  { unfold valid_kep. change (k_a (with_nu k nu)) with (k_a k). change (k_e (with_nu k nu)) with (k_e k). pose proof (COS_bound (k_nu (with_nu k nu))). repeat split; try lra; nra. }
  rewrite (state_of_inv _ _ _ V Sx). assert (Eq : peri_state mu (with_nu k nu) = peri_state mu (with_nu k nu0)).
  { unfold peri_state, peri_r, peri_s, with_nu, P_axis, Q_axis, W_axis, k_a, k_e, k_i, k_om, k_Om, k_nu. cbn [s0 s1 s2 s3 s4 s5].
    destruct HA as [H1 H2]. destruct An as [H3 H4]. unfold k_e in *. now rewrite H1, H2, <- H3, <- H4. }
  rewrite Eq. exact Cl.
Qed.

(** ** Concrete cases: double precision with the default options *)
Example C81_resolved_example : resolved u64 (99 / 100).
Proof. split; [lra|]. rewrite u64_eq. lra. Qed.
Lemma reachable64 e : 0 <= e <= 99 / 100 -> exists t, reachableG u64 e t (@default_options num N64) /\ 0 < t <= 102 / 100 * / 1000000000000.
Proof.
  intros He. destruct tol64 as (t & E & T). exists t. split; [|lra]. split; [|split; [exact E|split]].
  - change (Fin (FloatBase.rnd 53 (Q2R 5)) = Fin 5). f_equal. replace (Q2R 5) with 5 by (unfold Q2R; cbn; lra).
    apply FloatBase.rnd_fmt, FloatBase.fmt_IZR; lia.
  - rewrite u64_eq. lra.
  - exists 120%nat, 13%nat. split; [|split; [cbn; lra|cbn; lia]].
    apply Rle_trans with (/ 10000); [|replace (/ 10000) with (/ 100 * / 100) by lra; replace ((1 - e) ^ 2) with ((1 - e) * (1 - e)) by ring; apply Rmult_le_compat; lra].
    replace 120%nat with (10 * 12)%nat by reflexivity. rewrite pow_mult. assert (A : (6 / 7) ^ 10 <= 22 / 100) by (cbn; lra).
    assert (B : ((6 / 7) ^ 10) ^ 12 <= (22 / 100) ^ 12) by (apply pow_incr; split; [apply pow_le; lra|exact A]). assert (C : (22 / 100) ^ 12 <= / 10000000) by (cbn; lra). lra.
Qed.
(** an orbit of eccentricity 0.9 (a comet or a transfer orbit), mean anomaly 1 *)
Definition c81_k : six R := mk6 24000 (9 / 10) 1 1 1 0.
Example C81_example : forall g, exists nu' y t, 0 < t <= 102 / 100 * / 1000000000000 /\
  @mean_to_true num N64 g (Sc (Fin 1)) (Sc (Fin (9 / 10))) (@default_options num N64) false = Ok (Sc (Fin nu')) /\
  snd (@kep_to_cart num N64 g (KVec (fin6 (with_nu c81_k nu'))) (MuS (Fin 398600)) false) = Ok (KVec (fin6 y)) /\
  cart_err u64 (9 / 10) t 0 <= / 1000000000 /\
  forall E nu x, E - 9 / 10 * sin E = 1 -> anomalies_ell (9 / 10) nu E -> state_of 398600 (with_nu c81_k nu) x -> close (cart_err u64 (9 / 10) t 0) y x.
Proof.
  intros g. destruct (reachable64 (9 / 10) ltac:(lra)) as (t & Ho & T). pose proof u64_eq as U. pose proof PI_b as PB.
  destruct (C81_mean_to_cart _ u64 _ (@default_options num N64) t 398600 c81_k 1 g g (binary_rounding 53 ltac:(lia)) (binary_lib 53 ltac:(lia))
    ltac:(unfold c81_k, k_e; cbn [s1]; split; [lra|rewrite U; lra]) ltac:(unfold c81_k, k_e; cbn [s1]; lra) ltac:(lra) ltac:(unfold c81_k, k_a; cbn; lra) ltac:(rewrite U; lra) Ho
    (FloatBase.rnd_1 53 ltac:(lia))) as (nu' & y & E1 & E2 & E3).
  exists nu', y, t. split; [exact T|]. split; [exact E1|]. split; [exact E2|]. split; [|exact E3].
  unfold cart_err, nu_err. assert (K : kappa (9 / 10) <= 5).
  { unfold kappa. rewrite <- (sqrt_square 5) by lra. apply sqrt_le_1_alt. lra. }
  assert (K0 : 0 <= kappa (9 / 10)) by apply sqrt_pos.
  assert (Ut : 0 <= u64 * t <= / 1000000 * t) by (rewrite U; split; [apply Rmult_le_pos; lra|apply Rmult_le_compat_r; lra]).
  assert (B : kappa (9 / 10) * ((1 + 4 * u64) * t + 6 * u64 * (9 / 10) + 0) <= 5 * (11 / 10 * / 1000000000000)) by (apply Rmult_le_compat; rewrite ?U in *; lra).
  rewrite U in *. lra.
Qed.
