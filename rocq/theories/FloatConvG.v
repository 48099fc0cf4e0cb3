(** * Convergence of the Kepler solver in floating point for any elliptic orbit *)
From Coq Require Import Reals QArith Qreals ZArith Lra Lia Psatz Bool List.
From Coquelicot Require Import Coquelicot.
From Verif Require Import NP NPReal NPFloat KeplerModel Spec RealBase AnomReal PropsAnomaly LagTrig LagReal LagRobust PropsConverge FloatAcc PropsFloatAcc PropsFloatAnom FloatLag FloatLagG PropsFloatLag.
Local Open Scope R_scope.

(** the half orbit the computed mean anomaly lies in *)
Definition om (fl : bool) (E : R) : R := if fl then 2 * PI - E else E.
Lemma om_dist fl x y : Rabs (om fl x - om fl y) = Rabs (x - y).
Proof. destruct fl; cbn; [|reflexivity]. rewrite <- Rabs_Ropp. f_equal. ring. Qed.
Lemma om_om fl x : om fl (om fl x) = x. Proof. destruct fl; cbn; ring. Qed.
Lemma om_step fl e M E : om fl (stepM e (om fl M) E) = stepM e M (om fl E).
Proof.
  destruct fl; [|reflexivity]. unfold om. pose proof (stepM_mirror e (2 * PI - M) E) as H.
  replace (2 * PI - (2 * PI - M)) with M in H by ring. now rewrite H.
Qed.
Lemma cos_om fl E : cos (om fl E) = cos E.
Proof. destruct fl; cbn; [|reflexivity]. rewrite cos_minus, cos_2PI, sin_2PI. ring. Qed.
Lemma sin_om fl E : sin (om fl E) = if fl then - sin E else sin E.
Proof. destruct fl; cbn; [|reflexivity]. rewrite sin_minus, cos_2PI, sin_2PI. ring. Qed.
(** residual and step of the reference problem *)
Lemma om_res fl e M E : om fl E - e * sin (om fl E) - M = if fl then - (E - e * sin E - om fl M) else E - e * sin E - om fl M.
Proof. rewrite sin_om. destruct fl; cbn; ring. Qed.
Lemma om_abs fl e M E : Rabs (E - e * sin E - om fl M) = Rabs (om fl E - e * sin (om fl E) - M).
Proof. rewrite om_res. destruct fl; [now rewrite Rabs_Ropp|reflexivity]. Qed.
Lemma om_disc fl e M E : (E - e * sin E - om fl M) * (e * sin E) = (om fl E - e * sin (om fl E) - M) * (e * sin (om fl E)).
Proof. rewrite om_res, sin_om. destruct fl; ring. Qed.
Lemma om_root fl e M E : root5 (1 - e * cos E) (e * sin E) (E - e * sin E - om fl M) =
  root5 (1 - e * cos (om fl E)) (e * sin (om fl E)) (om fl E - e * sin (om fl E) - M).
Proof. unfold root5. rewrite cos_om, !Rmult_assoc, om_disc. reflexivity. Qed.
Lemma om_step5 fl e M E : Rabs (step5 (1 - e * cos E) (e * sin E) (E - e * sin E - om fl M)) =
  Rabs (step5 (1 - e * cos (om fl E)) (e * sin (om fl E)) (om fl E - e * sin (om fl E) - M)).
Proof.
  unfold step5. rewrite <- (om_root fl e M E), cos_om. unfold Rdiv. rewrite !Rabs_mult, om_abs. reflexivity.
Qed.

Section Guess.
Context (rd : R -> R) (u : R) (L : libm) (Hr : rounding rd u) (HL : lib_acc rd u L) (Hu : u <= / 80000000).
#[local] Instance NPh : NP num := NP_rd rd L.
Local Lemma U0 : 0 <= u. Proof. apply Hr. Qed.
Local Lemma Hu6 : u <= / 1000000. Proof. lra. Qed.
Local Lemma rB x X : Rabs x <= X -> Rabs (rd x - x) <= u * X.
Proof. exact (rdB rd u Hr x X). Qed.
Context (e y : R) (He : 0 <= e < 1) (Hk : 80000000 * u <= (1 - e) ^ 4) (Hy : 0 <= y <= PI).
Let k := 1 - e.
Let r := k / 40.
Let eta := k ^ 2 / 6800.
Lemma K01 : 0 < k <= 1. Proof using He. unfold k. lra. Qed.
Lemma k2u : 80000000 * u <= k ^ 2 * k ^ 2. Proof using Hk. replace (k ^ 2 * k ^ 2) with ((1 - e) ^ 4) by (unfold k; ring). exact Hk. Qed.
Lemma k2b : 0 < k ^ 2 <= k. Proof using He. pose proof K01. nra. Qed.
Lemma ku : 80000000 * u <= k ^ 2. Proof using He Hk. pose proof k2u. pose proof k2b. pose proof K01. nra. Qed.
(** errors of [C u / k] and [C u / k ^ 2] are far below eta *)
Lemma eta_k2 c : 0 <= c <= 11700 -> c * u / k ^ 2 <= eta.
Proof using He Hk Hr.
  intros Hc. pose proof k2u. pose proof k2b. pose proof U0. unfold eta. apply div_le; [lra|].
  assert (c * u <= 11700 * u) by (apply Rmult_le_compat_r; lra). lra.
Qed.
Lemma eta_k c : 0 <= c <= 11700 -> c * u / k <= eta.
Proof using He Hk Hr.
  intros Hc. pose proof k2b. pose proof K01. pose proof U0. eapply Rle_trans; [|apply (eta_k2 c Hc)].
  unfold Rdiv. apply Rmult_le_compat_l; [apply Rmult_le_pos; lra|]. apply Rinv_le_contravar; lra.
Qed.
Lemma eta_0 c : 0 <= c <= 11700 -> c * u <= eta.
Proof using He Hk Hr.
  intros Hc. pose proof K01. pose proof U0. eapply Rle_trans; [|apply (eta_k c Hc)].
  apply le_div; [lra|]. assert (0 <= c * u) by (apply Rmult_le_pos; lra). nra.
Qed.
Lemma eta_pos : 0 <= eta. Proof using He. pose proof k2b. unfold eta. lra. Qed.
Lemma eta_r : 170 * eta <= r. Proof using He. pose proof k2b. unfold eta, r. lra. Qed.
Lemma eta_kr : 25 * eta <= (1 - e) * r. Proof using He. pose proof k2b. unfold eta, r. fold k. nra. Qed.
Lemma r_40 : r <= / 40. Proof using He. pose proof K01. unfold r. lra. Qed.

Variable x : R.
Hypothesis Hx : x = y - e * sin y.
Local Notation Start := (start e y r).
Local Lemma xb : 0 <= x <= PI.
Proof using He Hy Hx. pose proof (M_pos e y He Hy x Hx). lra. Qed.
Lemma inner_start x' : Rabs (x' - x) <= 50 * u -> (2 <= x' -> 2 <= x) -> (x' < 2 -> x <= 2) ->
  exists z, inner rd L (Fin x') (Fin e) = Fin (rd z) /\ Rabs (rd z) <= 5 /\ forall E, Rabs (E - rd z) <= 30 * u -> Start E.
Proof using Hr HL Hu He Hk Hy Hx.
  intros Dx H2 H2'. pose proof U0 as u0. pose proof PI_b as PB. pose proof xb as XB. pose proof K01 as K. pose proof ku as KU. pose proof k2b as KB.
  pose proof eta_pos as ET. pose proof eta_r as ER. pose proof eta_kr as EK. pose proof r_40 as R4.
  assert (Dx' := Dx). apply abs_in in Dx'. unfold inner. change (NPg rd L) with NPh.
  change (ltb (Fin x') (lit 0.25)) with (Rltb x' (rd (Q2R 0.25))).
  assert (L2 : lit 2 = Fin 2) by exact (b_2 rd u L Hr). rewrite L2. change (ltb (Fin x') (Fin 2)) with (Rltb x' 2).
  assert (L1 : lit 1 = Fin 1) by exact (b_1 rd u L Hr). rewrite L1.
  assert (Q4 : Rabs (rd (Q2R 0.25) - / 4) <= u * 1) by (replace (Q2R 0.25) with (/ 4) by (unfold Q2R; cbn; lra); apply rB; rewrite Rabs_pos_eq; lra).
  apply abs_in in Q4. destruct (Rltb_spec x' (rd (Q2R 0.25))) as [B|B]; [|destruct (Rltb_spec x' 2) as [B2|B2]].
  - (* small *)
    destruct (la_trig _ _ _ HL x') as [S _]. set (s := rd (l_sin L x')) in *. pose proof (SIN_bound x) as Sb.
    assert (S1 : Rabs (s - sin x) <= 52 * u).
    { replace (s - sin x) with ((s - sin x') + (sin x' - sin x)) by ring. eapply Rle_trans; [apply abs_add_le; [exact S|eapply Rle_trans; [apply sin_lip|exact Dx]]|lra]. }
    assert (A1 : Rabs (x' + e) <= 2) by (apply Rabs_le; lra). pose proof (rB _ _ A1) as A2. set (xe := rd (x' + e)) in *.
    assert (A3 : Rabs (xe - (x + e)) <= 52 * u).
    { replace (xe - (x + e)) with ((xe - (x' + e)) + (x' - x)) by ring. eapply Rle_trans; [apply abs_add_le; eassumption|lra]. }
    destruct (la_trig _ _ _ HL xe) as [S' _]. set (s2 := rd (l_sin L xe)) in *. pose proof (SIN_bound (x + e)) as Sb2.
    assert (S2 : Rabs (s2 - sin (x + e)) <= 54 * u).
    { replace (s2 - sin (x + e)) with ((s2 - sin xe) + (sin xe - sin (x + e))) by ring. eapply Rle_trans; [apply abs_add_le; [exact S'|eapply Rle_trans; [apply sin_lip|exact A3]]|lra]. }
    assert (S1' := S1). assert (S2' := S2). apply abs_in in S1'. apply abs_in in S2'.
    assert (D1 : Rabs (1 - s2) <= 3) by (apply Rabs_le; lra). pose proof (rB _ _ D1) as D2. set (d1 := rd (1 - s2)) in *. assert (D2' := D2). apply abs_in in D2'.
    assert (D3 : Rabs (d1 + s) <= 4) by (apply Rabs_le; lra). pose proof (rB _ _ D3) as D4. set (d := rd (d1 + s)) in *.
    set (D := 1 - sin (x + e) + sin x) in *.
    assert (D5 : Rabs (d - D) <= 113 * u).
    { apply abs_in in D4. apply Rabs_le. unfold D. lra. }
    assert (DK : k <= D).
    { unfold D, k. pose proof (sin_lip1 (x + e) x) as Q. replace (x + e - x) with e in Q by ring. rewrite (Rabs_pos_eq e) in Q by lra. apply abs_in in Q. lra. }
    assert (D6 : 99 / 100 * k <= d) by (apply abs_in in D5; lra).
    assert (S0 : 0 <= sin x) by (apply sin_ge_0; lra).
    assert (LD : sin x <= D) by (unfold D; lra).
    assert (N1 : Rabs (e * s - e * sin x) <= 52 * u).
    { replace (e * s - e * sin x) with (e * (s - sin x)) by ring. replace (52 * u) with (1 * (52 * u)) by ring. apply abs_mul_le; [rewrite Rabs_pos_eq; lra|exact S1]. }
    assert (N2 : Rabs (e * s) <= 2) by (replace 2 with (1 * 2) by ring; apply abs_mul_le; [rewrite Rabs_pos_eq; lra|apply Rabs_le; lra]).
    pose proof (rd_within rd u Hr _ _ _ _ N1 N2) as N3. set (n := rd (e * s)) in *.
    set (l := e * sin x / D) in *. assert (Ll : 0 <= l <= 1) by (assert (0 <= e * sin x <= 1 * sin x) by (split; [apply Rmult_le_pos|apply Rmult_le_compat_r]; lra); unfold l; split; [apply le_div; lra|apply div_le; lra]).
    assert (QQ : Rabs (n / d - l) <= 170 * u / k).
    { replace (n / d - l) with (((n - e * sin x) - l * (d - D)) / d) by (unfold l; field; lra).
      unfold Rdiv at 1. rewrite Rabs_mult, (Rabs_pos_eq (/ d)) by (apply Rlt_le, Rinv_0_lt_compat; lra). apply div_le; [lra|].
      apply Rle_trans with (167 * u).
      - unfold Rminus at 1. eapply Rle_trans; [apply abs_add_le; [exact N3|rewrite Rabs_Ropp; apply (abs_mul_le _ _ 1 (113 * u)); [rewrite Rabs_pos_eq; lra|exact D5]]|]. lra.
      - apply Rle_trans with (170 * u / k * (99 / 100 * k)); [replace (170 * u / k * (99 / 100 * k)) with (1683 / 10 * u) by (field; lra); lra|].
        apply Rmult_le_compat_l; [apply le_div; lra|lra]. }
    pose proof (eta_k 300 ltac:(lra)) as EE. set (w := u / k) in *. assert (W : u <= w) by (unfold w; apply le_div; [lra|]; assert (u * k <= u * 1) by (apply Rmult_le_compat_l; lra); lra).
    replace (170 * u / k) with (170 * w) in QQ by (unfold w, Rdiv; ring). replace (300 * u / k) with (300 * w) in EE by (unfold w, Rdiv; ring).
    assert (Wb : w <= / 80000000) by (unfold w; apply div_le; lra).
    assert (Q2 : Rabs (n / d) <= 2) by (replace (n / d) with (l + (n / d - l)) by ring; eapply Rle_trans; [apply abs_add_le; [rewrite Rabs_pos_eq; [apply Ll|lra]|exact QQ]|lra]).
    pose proof (rd_within rd u Hr _ _ _ _ QQ Q2) as Q3. set (c := rd (n / d)) in *.
    assert (Z : Rabs (x' + c - (x + l)) <= 222 * w).
    { replace (x' + c - (x + l)) with ((x' - x) + (c - l)) by ring. eapply Rle_trans; [apply abs_add_le; eassumption|]. lra. }
    assert (Z2 : Rabs (x' + c) <= 3) by (apply abs_in in Z; apply Rabs_le; lra).
    pose proof (rd_within rd u Hr _ _ _ _ Z Z2) as Z3.
    exists (x' + c). split; [|split].
    + change (mul (Fin e) (nsin (Fin x'))) with (Fin n). change (add (sub (Fin 1) (nsin (add (Fin x') (Fin e)))) (nsin (Fin x'))) with (Fin d).
      assert (DV : div (Fin n) (Fin d) = Fin c) by (apply (b_div rd L); lra). rewrite DV. reflexivity.
    + apply abs_in in Z3. apply abs_in in Z. apply Rabs_le. lra.
    + intros E HE. apply (robust_small e y He Hy r eta ET ER EK R4 x Hx E); [lra|]. fold D. fold l.
      replace (E - (x + l)) with ((E - rd (x' + c)) + (rd (x' + c) - (x + l))) by ring. eapply Rle_trans; [apply abs_add_le; eassumption|]. lra.
  - (* mid *)
    assert (A1 : Rabs (x' + e) <= 4) by (apply Rabs_le; lra). pose proof (rB _ _ A1) as A2. pose proof (eta_0 100 ltac:(lra)) as EE.
    assert (A3 : Rabs (rd (x' + e) - (x + e)) <= 54 * u).
    { replace (rd (x' + e) - (x + e)) with ((rd (x' + e) - (x' + e)) + (x' - x)) by ring. eapply Rle_trans; [apply abs_add_le; eassumption|lra]. }
    assert (ST : forall E, Rabs (E - rd (x' + e)) <= 30 * u -> Rabs (E - (x + e)) <= eta).
    { intros E HE. replace (E - (x + e)) with ((E - rd (x' + e)) + (rd (x' + e) - (x + e))) by ring. eapply Rle_trans; [apply abs_add_le; eassumption|lra]. }
    exists (x' + e). split; [reflexivity|]. split; [apply abs_in in A3; apply Rabs_le; lra|].
    intros E HE. apply (robust_mid e y He Hy r eta ET ER EK R4 x Hx E); [specialize (H2' B2); lra|auto].
  - (* large *)
    specialize (H2 ltac:(lra)). pose proof (eta_0 200 ltac:(lra)) as EE.
    pose proof (rB PI 4 ltac:(rewrite Rabs_pos_eq; lra)) as Ep. set (pi' := rd PI) in *.
    assert (A1 : Rabs (pi' - x' - (PI - x)) <= 54 * u).
    { replace (pi' - x' - (PI - x)) with ((pi' - PI) + - (x' - x)) by ring. eapply Rle_trans; [apply abs_add_le; [exact Ep|rewrite Rabs_Ropp; exact Dx]|lra]. }
    assert (A1m : Rabs (pi' - x') <= 2) by (apply abs_in in Ep; apply Rabs_le; lra).
    pose proof (rd_within rd u Hr _ _ _ _ A1 A1m) as A2. set (m := rd (pi' - x')) in *.
    assert (A3 : Rabs (e * m - e * (PI - x)) <= 56 * u).
    { replace (e * m - e * (PI - x)) with (e * (m - (PI - x))) by ring. replace (56 * u) with (1 * (56 * u)) by ring. apply abs_mul_le; [rewrite Rabs_pos_eq; lra|lra]. }
    assert (A3m : Rabs (e * m) <= 2) by (replace 2 with (1 * 2) by ring; apply abs_mul_le; [rewrite Rabs_pos_eq; lra|apply abs_in in A2; apply Rabs_le; lra]).
    pose proof (rd_within rd u Hr _ _ _ _ A3 A3m) as A4. set (n := rd (e * m)) in *.
    pose proof (rB (1 + e) 2 ltac:(rewrite Rabs_pos_eq; lra)) as A5. set (d := rd (1 + e)) in *.
    assert (D6 : 99 / 100 <= d) by (apply abs_in in A5; lra).
    set (l := e * (PI - x) / (1 + e)) in *.
    assert (Ll : 0 <= l <= 2).
    { assert (0 <= e * (PI - x) <= 1 * (PI - x)) by (split; [apply Rmult_le_pos|apply Rmult_le_compat_r]; lra). unfold l. split; [apply le_div; lra|apply div_le; lra]. }
    assert (QQ : Rabs (n / d - l) <= 70 * u).
    { replace (n / d - l) with (((n - e * (PI - x)) - l * (d - (1 + e))) / d) by (unfold l; field; lra).
      unfold Rdiv at 1. rewrite Rabs_mult, (Rabs_pos_eq (/ d)) by (apply Rlt_le, Rinv_0_lt_compat; lra). apply div_le; [lra|].
      apply Rle_trans with (70 * u * (99 / 100)); [|apply Rmult_le_compat_l; lra].
      unfold Rminus at 1. eapply Rle_trans; [apply abs_add_le; [exact A4|rewrite Rabs_Ropp; apply (abs_mul_le _ _ 2 (u * 2)); [rewrite Rabs_pos_eq; lra|exact A5]]|]. lra. }
    assert (Q2 : Rabs (n / d) <= 3) by (apply abs_in in QQ; apply Rabs_le; lra).
    pose proof (rd_within rd u Hr _ _ _ _ QQ Q2) as Q3. set (c := rd (n / d)) in *.
    assert (Z : Rabs (x' + c - (x + l)) <= 123 * u).
    { replace (x' + c - (x + l)) with ((x' - x) + (c - l)) by ring. eapply Rle_trans; [apply abs_add_le; eassumption|]. lra. }
    assert (Lp : x + l <= PI).
    { assert (l <= PI - x); [|lra]. unfold l. apply div_le; [lra|]. assert (0 <= PI - x) by lra. nra. }
    assert (Z2 : Rabs (x' + c) <= 4) by (apply abs_in in Z; apply Rabs_le; lra).
    pose proof (rd_within rd u Hr _ _ _ _ Z Z2) as Z3.
    exists (x' + c). split; [|split].
    + change (mul (Fin e) (sub npi (Fin x'))) with (Fin n). change (add (Fin 1) (Fin e)) with (Fin d).
      assert (DV : div (Fin n) (Fin d) = Fin c) by (apply (b_div rd L); lra). rewrite DV. reflexivity.
    + apply abs_in in Z3. apply abs_in in Z. apply Rabs_le. lra.
    + intros E HE. apply (robust_large e y He Hy r eta ET ER EK R4 x Hx E); [lra|]. fold l.
      replace (E - (x + l)) with ((E - rd (x' + c)) + (rd (x' + c) - (x + l))) by ring. eapply Rle_trans; [apply abs_add_le; eassumption|]. lra.
Qed.
End Guess.

Lemma om_range fl E : - / 2 <= om fl E <= 4 -> Rabs E <= 8.
Proof. intros H. pose proof PI_b. unfold om in H. destruct fl; apply Rabs_le; lra. Qed.
Lemma om_range7 fl y d E : 0 <= y <= PI -> d <= / 40 -> Rabs (om fl E - y) <= d -> Rabs E <= 7.
Proof. intros H D HE. pose proof PI_b. unfold om in HE. apply Rabs_le_between in HE. destruct fl; apply Rabs_le; lra. Qed.
(** ** The guess *)
Section Conv.
Context (rd : R -> R) (u : R) (L : libm) (Hr : rounding rd u) (HL : lib_acc rd u L) (Hu : u <= / 80000000).
#[local] Instance NPi : NP num := NP_rd rd L.
Local Lemma V0 : 0 <= u. Proof. apply Hr. Qed.
Context (e : R) (He : 0 <= e < 1) (Hk : 80000000 * u <= (1 - e) ^ 4).
Let k := 1 - e.
Let r := k / 40.
Let eta := k ^ 2 / 6800.
Lemma guess_ref M : 0 <= M <= 2 * PI + 30 * u -> exists fl x y z, 0 <= y <= PI /\ x = y - e * sin y /\ Rabs (M - om fl x) <= 50 * u /\
  get_kepler_guess (Fin M) (Fin e) = Fin (rd z) /\ start e y r (om fl (rd z)).
Proof using Hr HL Hu He Hk.
  intros HM. pose proof V0 as u0. pose proof PI_b as PB.
  change (get_kepler_guess (Fin M) (Fin e)) with
    (if ltb npi (Fin M) then sub n2pi (inner rd L (if ltb npi (Fin M) then sub n2pi (Fin M) else Fin M) (Fin e)) else inner rd L (if ltb npi (Fin M) then sub n2pi (Fin M) else Fin M) (Fin e)).
  change (ltb npi (Fin M)) with (Rltb (rd PI) M).
  pose proof (rdB rd u Hr PI (33 / 10) ltac:(rewrite Rabs_pos_eq; lra)) as Ep. apply abs_in in Ep. set (pi' := rd PI) in *.
  destruct (Rltb_spec pi' M) as [G|G].
  - assert (L2 : lit 2 = Fin 2) by exact (b_2 rd u L Hr). unfold n2pi. rewrite L2. change (mul (Fin 2) npi) with (Fin (rd (2 * pi'))).
    pose proof (rdB rd u Hr (2 * pi') 7 ltac:(rewrite Rabs_pos_eq; lra)) as Et. set (tp := rd (2 * pi')) in *. apply abs_in in Et.
    change (sub (Fin tp) (Fin M)) with (Fin (rd (tp - M))).
    pose proof (rdB rd u Hr (tp - M) (7 / 2) ltac:(apply Rabs_le; lra)) as Em. set (M' := rd (tp - M)) in *. apply abs_in in Em.
    set (x := Rmax 0 (Rmin PI M')).
    assert (X : 0 <= x <= PI /\ Rabs (M' - x) <= 50 * u /\ Rabs (M - (2 * PI - x)) <= 50 * u /\ (2 <= M' -> 2 <= x) /\ (M' < 2 -> x <= 2)).
    { unfold x, Rmax, Rmin. destruct (Rle_dec PI M'); destruct (Rle_dec 0 _); repeat split; try lra; apply Rabs_le; lra. }
    clearbody x. destruct X as (X0 & X1 & X2 & X3 & X4). destruct (half_root e x He X0) as [y [Hy Hx]].
    destruct (inner_start rd u L Hr HL Hu e y He Hk Hy x Hx M' X1 X3 X4) as (z & E1 & E2 & E3).
    rewrite E1. exists true, x, y, (tp - rd z). split; [exact Hy|]. split; [exact Hx|]. split; [exact X2|]. split; [reflexivity|].
    apply E3. unfold om. apply Rabs_le_between in E2.
    pose proof (rdB rd u Hr (tp - rd z) 12 ltac:(apply Rabs_le; lra)) as Ez. apply abs_in in Ez. apply Rabs_le. lra.
  - set (x := Rmax 0 (Rmin PI M)).
    assert (X : 0 <= x <= PI /\ Rabs (M - x) <= 50 * u /\ (2 <= M -> 2 <= x) /\ (M < 2 -> x <= 2)).
    { unfold x, Rmax, Rmin. destruct (Rle_dec PI M); destruct (Rle_dec 0 _); repeat split; try lra; apply Rabs_le; lra. }
    clearbody x. destruct X as (X0 & X1 & X3 & X4). destruct (half_root e x He X0) as [y [Hy Hx]].
    destruct (inner_start rd u L Hr HL Hu e y He Hk Hy x Hx M X1 X3 X4) as (z & E1 & E2 & E3).
    exists false, x, y, z. split; [exact Hy|]. split; [exact Hx|]. split; [exact X1|]. split; [exact E1|].
    apply E3. unfold om. rewrite Rminus_diag_eq, Rabs_R0; lra.
Qed.

(** ** The iteration *)
Context (o : solver_options num) (Hn : degree o = Fin 5) (M x y : R) (fl : bool) (Hy : 0 <= y <= PI) (Hx : x = y - e * sin y) (HM : Rabs (M - om fl x) <= 50 * u).
Variable m : nat.
Hypothesis Hm : 4 * (6 / 7) ^ m <= (1 - e) * r.
Let A := 1 - e * cos y.
Definition inv (n : nat) (E : R) : Prop := ((n <= 2 * m + 1)%nat /\ phase e y r m n E) \/
  exists j, (n <= 2 * m + 1 + j)%nat /\ near y r E /\ A * Rabs (E - y) <= (/ 10) ^ j + 110 * u.
Lemma res_gk E : om fl E - e * sin (om fl E) - x = gk e y (om fl E).
Proof using Hx. unfold gk. rewrite Hx. ring. Qed.
Lemma far_step E : good e y (om fl E) ->
  exists f E', lag_f (Fin M) (Fin e) (Fin E) = Fin f /\ lag_step (Fin e) o (Fin E) (Fin f) = Fin (rd E') /\
    Rabs (om fl (rd E') - nextk e y (om fl E)) <= eta.
Proof using Hr HL Hu He Hk Hn Hx HM.
  intros (D & RE & RG & RS). pose proof V0 as u0. pose proof (om_range fl E RE) as HE.
  assert (RG' : Rabs (E - e * sin E - om fl x) <= 7) by (rewrite om_abs, res_gk; exact RG).
  assert (RS' : Rabs (step5 (1 - e * cos E) (e * sin E) (E - e * sin E - om fl x)) <= 22 / 5).
  { rewrite om_step5, res_gk, <- Rabs_Ropp. unfold nextk in RS. eapply Rle_trans; [|exact RS]. right. f_equal. ring. }
  assert (D' : (1 - e * cos E) ^ 2 <= 16 * (1 - e * cos E) ^ 2 - 20 * (E - e * sin E - om fl x) * (e * sin E)).
  { rewrite Rmult_assoc, om_disc, res_gk, <- Rmult_assoc. rewrite cos_om in D. exact D. }
  destruct (stepG rd u L Hr HL Hu o M (om fl x) e E 7 Hn He Hk HM D' RG' ltac:(lra) HE RS') as (f & E' & F1 & F2 & _ & F4).
  exists f, E'. split; [exact F1|]. split; [exact F2|].
  replace (nextk e y (om fl E)) with (om fl (stepM e (om fl x) E)) by (rewrite om_step, Hx; apply stepM_next). rewrite om_dist.
  eapply Rle_trans; [exact F4|]. pose proof (eta_k2 rd u Hr e He Hk 10000 ltac:(lra)) as EK. fold k in EK. fold eta in EK. eapply Rle_trans; [|exact EK].
  set (s := step5 _ _ _) in *. set (b := root5 _ _ _) in *. set (a := 1 - e * cos E) in *.
  pose proof (COS_bound E) as CB. assert (K : 0 < k <= 1) by (unfold k; lra). assert (Ha : k <= a) by (unfold a, k; nra).
  assert (Hb : a <= b).
  { apply sq_le_lin; [apply root5_ge0|]. unfold b. rewrite root5_sq; [exact D'|]. pose proof (pow2_ge_0 a). fold a. lra. }
  set (i := / k). assert (Ik : i * k = 1) by (unfold i; field; lra). assert (I1 : 1 <= i) by (unfold i; rewrite <- Rinv_1; apply Rinv_le_contravar; lra).
  assert (B1 : 4052 / b <= 4052 * i) by (unfold Rdiv, i; apply Rmult_le_compat_l; [lra|apply Rinv_le_contravar; lra]).
  assert (B2 : / (a + b) <= i / 2) by (replace (i / 2) with (/ (2 * k)) by (unfold i; field; lra); apply Rinv_le_contravar; lra).
  assert (B20 : 0 <= / (a + b)) by (apply Rlt_le, Rinv_0_lt_compat; lra). assert (B10 : 0 <= 4052 / b) by (apply le_div; lra).
  pose proof (Rabs_pos s) as S0.
  assert (T1 : Rabs s * (4052 / b + 42) <= 22 / 5 * (4094 * i)) by (apply Rmult_le_compat; lra).
  assert (T10 : 0 <= Rabs s * (4052 / b + 42)) by (apply Rmult_le_pos; lra).
  assert (T2 : (30 * 7 + 281 + Rabs s * (4052 / b + 42)) * (101 / 100) / (a + b) <= 18600 * i * (101 / 100) * (i / 2)).
  { unfold Rdiv at 1. apply Rmult_le_compat; lra. }
  replace (10000 * u / k ^ 2) with (u * (10000 * (i * i))) by (unfold i; field; lra). apply Rmult_le_compat_l; [lra|].
  assert (1 <= i * i) by nra. lra.
Qed.
Lemma near_step E : near y r (om fl E) ->
  exists f E', lag_f (Fin M) (Fin e) (Fin E) = Fin f /\ lag_step (Fin e) o (Fin E) (Fin f) = Fin (rd E') /\
    Rabs f <= 21 / 20 * (A * Rabs (om fl E - y)) + 57 * u /\ Rabs (om fl (rd E') - nextk e y (om fl E)) <= 90 * u / A /\
    Rabs (nextk e y (om fl E) - y) <= / 10 * Rabs (om fl E - y).
Proof using Hr HL Hu He Hk Hn Hx HM Hy.
  intros NE. pose proof V0 as u0. pose proof PI_b as PB. unfold near, r, k in NE.
  pose proof (local_step e y (om fl E) He NE) as LS. cbv zeta in LS. fold A in LS. destruct LS as (L1 & _ & L3 & L4 & L5 & L6).
  pose proof (COS_bound y) as CB. assert (KA : k <= A <= 2) by (unfold A, k; nra). assert (K : 0 < k <= 1) by (unfold k; lra). fold k in NE.
  pose proof (Rabs_pos (om fl E - y)) as D0. set (d := Rabs (om fl E - y)) in *.
  assert (DA : A * d <= A * (A / 40)) by (apply Rmult_le_compat_l; lra). assert (DA2 : A * d <= 2 * / 40) by (apply Rmult_le_compat; lra).
  assert (RE : - / 2 <= om fl E <= 4) by (apply Rabs_le_between in NE; lra). pose proof (om_range fl E RE) as HE.
  set (g := gk e y (om fl E)) in *.
  assert (L1' := L1). apply Rabs_le_between in L1'. rewrite cos_om in L1'.
  rewrite cos_om in L4. set (a := 1 - e * cos E) in *.
  assert (EB : root5 a (e * sin E) (E - e * sin E - om fl x) = root5 a (e * sin (om fl E)) g) by (unfold a; rewrite om_root, res_gk, cos_om; reflexivity).
  set (b := root5 a (e * sin (om fl E)) g) in *.
  assert (SG : Rabs (step5 a (e * sin E) (E - e * sin E - om fl x)) <= 6 / 5 * d).
  { unfold step5. rewrite EB. unfold Rdiv. rewrite !Rabs_mult, (Rabs_pos_eq 5), (Rabs_pos_eq (/ (a + b))) by (try lra; apply Rlt_le, Rinv_0_lt_compat; lra).
    rewrite om_abs, res_gk. fold g. apply div_le; [lra|]. assert (d * (89 / 20 * A) <= d * (a + b)) by (apply Rmult_le_compat_l; lra).
    assert (0 <= A * d) by (apply Rmult_le_pos; lra). lra. }
  set (s := step5 a (e * sin E) (E - e * sin E - om fl x)) in *.
  assert (RG' : Rabs (E - e * sin E - om fl x) <= 6 / 100) by (rewrite om_abs, res_gk; fold g; lra).
  assert (D' : a ^ 2 <= 16 * a ^ 2 - 20 * (E - e * sin E - om fl x) * (e * sin E)).
  { rewrite Rmult_assoc, om_disc, res_gk, <- Rmult_assoc. rewrite cos_om in L5. exact L5. }
  destruct (stepG rd u L Hr HL Hu o M (om fl x) e E (6 / 100) Hn He Hk HM D' RG' ltac:(lra) HE) as (f & E' & F1 & F2 & F3 & F4); [fold a s; lra|].
  fold a in F4. fold s in F4. rewrite EB in F4.
  exists f, E'. split; [exact F1|]. split; [exact F2|]. split; [|split; [|exact L6]].
  - replace f with ((f - - (E - e * sin E - om fl x)) + - (E - e * sin E - om fl x)) by ring.
    eapply Rle_trans; [apply abs_add_le; [exact F3|rewrite Rabs_Ropp, om_abs, res_gk; exact L3]|]. fold d. lra.
  - replace (nextk e y (om fl E)) with (om fl (stepM e (om fl x) E)) by (rewrite om_step, Hx; apply stepM_next). rewrite om_dist.
    eapply Rle_trans; [exact F4|]. set (i := / A). assert (Ia : i * A = 1) by (unfold i; field; lra). assert (I0 : 0 < i) by (apply Rinv_0_lt_compat; lra).
    assert (B1 : 4052 / b <= 1158 * i).
    { apply div_le; [lra|]. assert (i * (7 / 2 * A) <= i * b) by (apply Rmult_le_compat_l; lra). lra. }
    assert (B2 : / (a + b) <= i * (100 / 445)) by (replace (i * (100 / 445)) with (/ (445 / 100 * A)) by (unfold i; field; lra); apply Rinv_le_contravar; lra).
    assert (B20 : 0 <= / (a + b)) by (apply Rlt_le, Rinv_0_lt_compat; lra). assert (B10 : 0 <= 4052 / b) by (apply le_div; lra).
    pose proof (Rabs_pos s) as S0. assert (I42 : 42 <= 84 * i) by nra.
    assert (T1 : Rabs s * (4052 / b + 42) <= 3 / 100 * A * (1242 * i)) by (apply Rmult_le_compat; lra).
    assert (T1' : 3 / 100 * A * (1242 * i) = 3726 / 100) by (replace (3 / 100 * A * (1242 * i)) with (3726 / 100 * (i * A)) by field; rewrite Ia; lra).
    assert (T10 : 0 <= Rabs s * (4052 / b + 42)) by (apply Rmult_le_pos; lra).
    assert (T2 : (30 * (6 / 100) + 281 + Rabs s * (4052 / b + 42)) * (101 / 100) / (a + b) <= 321 * (101 / 100) * (i * (100 / 445))).
    { unfold Rdiv at 1. apply Rmult_le_compat; lra. }
    replace (90 * u / A) with (u * (90 * i)) by (unfold i; field; lra). apply Rmult_le_compat_l; [lra|].
    pose proof (om_range7 fl y (k / 40) E Hy ltac:(lra) NE) as EE.
    assert (1 <= 2 * i) by nra. lra.
Qed.
Lemma inv_step n E : inv n (om fl E) ->
  exists f E', lag_f (Fin M) (Fin e) (Fin E) = Fin f /\ lag_step (Fin e) o (Fin E) (Fin f) = Fin (rd E') /\ inv (S n) (om fl (rd E')).
Proof using Hr HL Hu He Hk Hn Hx HM Hy Hm.
  intros H. pose proof V0 as u0. pose proof (COS_bound y) as CB. assert (K : 0 < k <= 1) by (unfold k; lra). assert (KA : k <= A <= 2) by (unfold A, k; nra).
  pose proof (eta_pos e He) as ET. pose proof (eta_r e He) as ER. pose proof (eta_kr e He) as EK. pose proof (r_40 e He) as R4. pose proof (ku u e He Hk) as KU. pose proof (k2b e He) as KB.
  fold k in ET, ER, EK, KU, KB. fold r in ER, EK. fold eta in ET, ER, EK. change ((1 - e) / 40) with r in R4.
  assert (NS : forall j, near y r (om fl E) -> A * Rabs (om fl E - y) <= (/ 10) ^ j + 110 * u -> (n <= 2 * m + 1 + j)%nat ->
    exists f E', lag_f (Fin M) (Fin e) (Fin E) = Fin f /\ lag_step (Fin e) o (Fin E) (Fin f) = Fin (rd E') /\ inv (S n) (om fl (rd E'))).
  { intros j NE W Hj. destruct (near_step E NE) as (f & E' & F1 & F2 & _ & F4 & F5). exists f, E'. split; [exact F1|]. split; [exact F2|].
    right. exists (S j). split; [lia|]. set (E1 := om fl (rd E')) in *. set (N := nextk e y (om fl E)) in *.
    assert (D : Rabs (E1 - y) <= / 10 * Rabs (om fl E - y) + 90 * u / A).
    { replace (E1 - y) with ((N - y) + (E1 - N)) by ring. apply abs_add_le; auto. }
    split.
    - unfold near in *. eapply Rle_trans; [exact D|]. assert (90 * u / A <= r / 2); [|lra]. apply div_le; [lra|]. unfold r.
      assert (k * k <= k * A) by (apply Rmult_le_compat_l; lra). lra.
    - cbn [pow]. apply Rle_trans with (A * (/ 10 * Rabs (om fl E - y) + 90 * u / A)); [apply Rmult_le_compat_l; lra|].
      replace (A * (/ 10 * Rabs (om fl E - y) + 90 * u / A)) with (/ 10 * (A * Rabs (om fl E - y)) + 90 * u) by (field; lra). lra. }
  assert (N0 : near y r (om fl E) -> A * Rabs (om fl E - y) <= (/ 10) ^ 0 + 110 * u).
  { unfold near. intros NE. cbn [pow]. assert (A * Rabs (om fl E - y) <= 2 * r); [|lra]. apply Rmult_le_compat; try lra; apply Rabs_pos. }
  destruct H as [[Hn1 P]|[j [Hj [NE W]]]]; [|eapply NS; eauto].
  destruct (near_dec y r (om fl E)) as [NE|NN]; [apply (NS 0%nat NE (N0 NE)); lia|].
  destruct (phase_good e y He Hy r eta ET ER m n _ P) as [NE|GD]; [tauto|].
  destruct (far_step E GD) as (f & E' & F1 & F2 & F3). exists f, E'. split; [exact F1|]. split; [exact F2|]. left.
  destruct (Nat.eq_dec n (2 * m + 1)) as [->|X]; [exfalso; apply NN; exact (phase_near e y He Hy r eta ET ER m Hm _ P)|]. split; [lia|].
  destruct (phase_step e y He Hy r eta ET ER EK R4 m Hm n _ _ P F3) as [NE|P']; [tauto|exact P'].
Qed.
Lemma inv_iter z n : start e y r (om fl (rd z)) -> exists w, Nat.iter n (ite rd L o M e) (Fin (rd z)) = Fin (rd w) /\ inv n (om fl (rd w)).
Proof using Hr HL Hu He Hk Hn Hx HM Hy Hm.
  intros S. induction n as [|n (w & W1 & W2)].
  - exists z. split; [reflexivity|]. left. split; [lia|]. now apply phase_start.
  - destruct (inv_step n (rd w) W2) as (f & E' & F1 & F2 & F3). exists E'. split; [|exact F3].
    change (Nat.iter (Datatypes.S n) (ite rd L o M e) (Fin (rd z))) with (ite rd L o M e (Nat.iter n (ite rd L o M e) (Fin (rd z)))). rewrite W1. unfold ite.
    change (NPg rd L) with NPi. rewrite F1. exact F2.
Qed.
End Conv.

(** ** The solver stops *)
Lemma lag_convergesG rd u L o t m m2 M e : rounding rd u -> lib_acc rd u L -> 0 <= e < 1 -> 80000000 * u <= (1 - e) ^ 4 -> 0 <= M <= 2 * PI + 30 * u ->
  degree o = Fin 5 -> tol o = Fin t -> 300 * u <= t -> 160 * (6 / 7) ^ m <= (1 - e) ^ 2 -> 3 < t * 10 ^ m2 -> (Z.of_nat (2 * m + 1 + m2) < max_iter o)%Z ->
  let N := NP_rd rd L in
  exists w k, @laguerre_solve_kepler num N (@get_kepler_guess num N (Fin M) (Fin e)) (Fin M) (Fin e) o = (Fin (rd w), Z.of_nat k) /\ (k <= 2 * m + 1 + m2)%nat.
Proof.
  intros Hr HL He Hk HM Hn Ht Hut Hm Hm2 Hmax N. pose proof (rr_u _ _ Hr) as u0.
  assert (K1 : (1 - e) ^ 4 <= 1) by (assert (0 <= (1 - e) ^ 2 <= 1) by (split; nra); replace ((1 - e) ^ 4) with ((1 - e) ^ 2 * (1 - e) ^ 2) by ring; nra).
  assert (Hu : u <= / 80000000) by lra.
  destruct (guess_ref rd u L Hr HL Hu e He Hk M HM) as (fl & x & y & z & Hy & Hx & Hd & Ez & St).
  change (NPi rd L) with N in Ez. rewrite Ez.
  assert (Hm' : 4 * (6 / 7) ^ m <= (1 - e) * ((1 - e) / 40)) by (replace ((1 - e) * ((1 - e) / 40)) with ((1 - e) ^ 2 / 40) by field; lra).
  destruct (@C18_laguerre_terminates num N (Fin (rd z)) (Fin M) (Fin e) o) as (k & _ & K2 & _ & K3 & _).
  change (fun E => @lag_step num N (Fin e) o E (@lag_f num N (Fin M) (Fin e) E)) with (ite rd L o M e) in *.
  pose proof (inv_iter rd u L Hr HL Hu e He Hk o Hn M x y fl Hy Hx Hd m Hm' z) as IT.
  destruct (IT k St) as (w & W1 & _). rewrite W1 in K2. exists w, k. split; [exact K2|].
  destruct (le_lt_dec k (2 * m + 1 + m2)) as [|G]; [auto|exfalso]. specialize (K3 _ G).
  destruct (IT (2 * m + 1 + m2)%nat St) as (v & V1 & V2). rewrite V1 in K3.
  assert (NW : near y ((1 - e) / 40) (om fl (rd v)) /\ (1 - e * cos y) * Rabs (om fl (rd v) - y) <= (/ 10) ^ m2 + 110 * u).
  { pose proof (COS_bound y) as CB. destruct V2 as [[V2 V3]|[j [V2 [V3 V4]]]].
    - assert (m2 = 0)%nat as -> by lia. replace (2 * m + 1 + 0)%nat with (2 * m + 1)%nat in V3 by lia.
      pose proof (phase_near e y He Hy _ _ (eta_pos e He) (eta_r e He) m Hm' _ V3) as NE. split; [exact NE|]. cbn [pow]. unfold near in NE.
      assert ((1 - e * cos y) * Rabs (om fl (rd v) - y) <= 2 * ((1 - e) / 40)); [|lra]. apply Rmult_le_compat; try nra; apply Rabs_pos.
    - split; [exact V3|]. assert ((/ 10) ^ j <= (/ 10) ^ m2) by (apply pow_low; [lra|lia]). lra. }
  destruct NW as [NE W]. destruct (near_step rd u L Hr HL Hu e He Hk o Hn M x y fl Hy Hx Hd (rd v) NE) as (f & E' & F1 & _ & F3 & _).
  change (NPi rd L) with N in F1. rewrite F1, Ht in K3. change (Rleb t (Rabs f) = true) in K3.
  destruct (Rleb_spec t (Rabs f)) as [Q|]; [|easy].
  assert (P : 3 * (/ 10) ^ m2 < t).
  { assert (0 < 10 ^ m2) by (apply pow_lt; lra). apply (Rmult_lt_reg_r (10 ^ m2)); [auto|]. rewrite Rmult_assoc, <- Rpow_mult_distr, Rinv_l, pow1 by lra. lra. }
  lra.
Qed.
