(** * C87: propagation returns the solution of Newton's equation that starts at the given state *)
From Coq Require Import Reals QArith Qreals ZArith Lra Lia Psatz Bool List Arith.
From Verif Require Import NP KeplerModel ConvModel UnitModel OrbitModel Lists ConvCols ArraySpec NPReal NPFloat FloatBase RealBase Spec AnomReal KepReal CartReal PropsKep
  PropsAnomaly PropsAnomalyR EllState OrbitLists OrbitBase OrbitOps OrbitSetters OrbitGet OrbitSpec PropsOrbitWidth PropsOrbitDirect PropsOrbitLazy PropsOrbitWrite OrbitReal PropsScalar PropsCart PropsArray PropsOrbitCalc CartInv
  PropsEquiCart PropsOrbitType PropsOrbitProp PropsOrbitPropR PropsNewton PropsOrbitNewton NewtonUniq PropsConverge PropsConvergeOrbit PropsConvergeHyp PropsConvergeHypOrbit
  FloatAcc FloatVec PropsFloat PropsFloatAcc PropsFloatAnom FloatLag PropsFloatLag
  PropsFloatLagG PropsFloatProp PropsFloatPropG LagTrig LagRobust FloatC2K FloatC2KCol FloatC2KAcc PropsFloatC2K PropsFloatRT ElemPert FlowPert FlowTraj PropsFloatPropC.
Import ListNotations.
Local Open Scope R_scope.
Notation orb := (OrbitModel.orb num).

(** ** The equation has one solution through each state with r x v <> 0 *)
Theorem C87_unique : forall mu lo hi X Y s, 0 < mu -> newton_on mu lo hi X -> newton_on mu lo hi Y -> lo < s < hi ->
  X s = Y s -> ang_mom (X s) <> (0, 0, 0) -> forall t, lo < t < hi -> X t = Y t.
Proof. intros mu lo hi X Y s Hm HX HY Hs E Hn t Ht. exact (newton_unique mu lo hi X Y s t Hm HX HY Hs Ht E Hn). Qed.
Lemma follows_start mu k M nu E X : 0 < mu -> 0 < k_a k -> 0 <= k_e k -> anomalies (k_e k) nu E -> same_mean (k_e k) (kepler_M (k_e k) E) M ->
  follows mu k M X -> X 0 = peri_state mu (with_nu k nu).
Proof.
  intros Hm Ha He A S Fo. destruct (Fo 0) as (nu' & E' & A' & S' & St'). pose proof (anom_valid mu k nu' E' Hm Ha He A') as V'. apply state_of_inv in St'; [|auto]. rewrite St'.
  destruct (conic_state mu k nu E Hm Ha He A) as (P1 & P2 & _). destruct (conic_state mu k nu' E' Hm Ha He A') as (P1' & P2' & _).
  assert (SS : same_mean (k_e k) (kepler_M (k_e k) E) (kepler_M (k_e k) E')).
  { rewrite Rmult_0_r, Rplus_0_r in S'. unfold same_mean in *. destruct (Rlt_dec (k_e k) 1); [|congruence]. eapply cong_trans; [exact S|]. now apply cong_sym. }
  destruct (conic_same (k_e k) (k_a k) E E' He SS) as (Q1 & Q2 & Q3 & Q4 & Q5).
  apply six_eq; [now rewrite P1, P1', Q1, Q2|now rewrite P2, P2', Q3, Q4, Q5].
Qed.
(** Every motion obeying Newton's law follows Kepler's equation: the converse of C56_newton *)
Theorem C87_motion : forall mu lo hi k M nu E X Y, 0 < mu -> 0 < k_a k -> 0 <= k_e k ->
  anomalies (k_e k) nu E -> same_mean (k_e k) (kepler_M (k_e k) E) M ->
  newton_on mu lo hi Y -> lo < 0 < hi -> state_of mu (with_nu k nu) (Y 0) ->
  follows mu k M X -> forall t, lo < t < hi -> Y t = X t.
Proof.
  intros mu lo hi k M nu E X Y Hm Ha He A S HY H0 St Fo t Ht. pose proof (anom_valid mu k nu E Hm Ha He A) as V.
  apply state_of_inv in St; [|auto].
  assert (E0 : Y 0 = X 0).
  { rewrite St. symmetry. now apply (follows_start mu k M nu E). }
  apply (newton_unique mu lo hi Y X 0 t Hm HY); auto.
  - apply newton_all. now apply (C56_newton mu k M).
  - rewrite St. now apply peri_h_nz.
Qed.
(** so that "the" orbit through a state is well defined, and is a Kepler orbit *)
Theorem C87_follows : forall mu k nu E Y, 0 < mu -> 0 < k_a k -> 0 <= k_e k -> anomalies (k_e k) nu E ->
  newton mu Y -> state_of mu (with_nu k nu) (Y 0) -> follows mu k (kepler_M (k_e k) E) Y.
Proof.
  intros mu k nu E Y Hm Ha He A HY St. destruct (C56_trajectory mu k (kepler_M (k_e k) E) Hm Ha He) as (X & HX & _).
  assert (EQ : forall t, Y t = X t).
  { intros t. apply (C87_motion mu (- (Rabs t + 1)) (Rabs t + 1) k (kepler_M (k_e k) E) nu E X Y); auto.
    - unfold same_mean. destruct (Rlt_dec (k_e k) 1); [apply cong_refl|reflexivity].
    - now apply newton_all.
    - pose proof (Rabs_pos t). lra.
    - pose proof (Rle_abs t). pose proof (Rle_abs (- t)). rewrite Rabs_Ropp in *. lra. }
  intros t. rewrite EQ. apply HX.
Qed.

(** ** Exact arithmetic, elliptic orbits *)
Lemma body_mean t e x nu M : 0 <= e < 1 -> body t e x nu -> mean_of t e x M ->
  exists E, anomalies e nu E /\ same_mean e (kepler_M e E) M.
Proof.
  intros He B HM. apply HM in B. destruct B as (E & C & A). exists E. unfold anomalies, same_mean, kepler_M.
  destruct (Rlt_dec e 1); [|lra]. split; [exact A|]. now apply cong_sym.
Qed.
(** the elements held by the object are those of the state Y 0; the state read after propagate(d) is Y d *)
Theorem C87_propagate : forall gb gb' n dt (s s' : orb) ks j (k : six R) m mu d tl nu lo hi Y,
  aligned n s -> wfv dt -> propagate gb dt s = (s', Ok tt) ->
  snd (get_kepler gb s) = Ok ks -> nth_error ks j = Some (fin6 k) -> nth_error (om s) j = Some (Fin m) ->
  entry1 dt j (Fin d) -> 0 < mu -> mu_real s m mu -> 0 < s0 k -> 0 <= s1 k < 1 -> conv_opts (oopts s) tl ->
  oauto s = true \/ odirect s = true ->
  body (otype s) (s1 k) (ang (odeg s) (s5 k)) nu -> state_of mu (radk (odeg s) k nu) (Y 0) ->
  newton_on mu lo hi Y -> lo < 0 < hi -> lo < d < hi ->
  exists cs x, snd (get_cartesian gb' s') = Ok cs /\ nth_error cs j = Some (fin6 x)
  /\ norm (minus3 (pos x) (pos (Y d))) <= s0 k / (1 - s1 k) * tl
  /\ norm (minus3 (vel x) (vel (Y d))) <= 3 * sqrt (mu / s0 k) / ((1 - s1 k) * (1 - s1 k) * (1 - s1 k)) * tl.
Proof.
  intros gb gb' n dt s s' ks j k m mu d tl nu lo hi Y A W E Ek Hj Hm Hd Hmu Em Ha He Hop Hau B St HY H0 Hd2.
  destruct (mean_of_ex (otype s) (s1 k) (ang (odeg s) (s5 k)) He) as [M HM].
  destruct (body_mean _ _ _ nu M He B HM) as (E0 & AE & SE). set (kr := radk (odeg s) k 0).
  destruct (C56_trajectory mu kr M Hmu Ha (proj1 He)) as (X & HX & _).
  rewrite (C87_motion mu lo hi kr M nu E0 X Y Hmu Ha (proj1 He) AE SE HY H0 St HX d Hd2).
  exact (C66_propagate gb gb' n dt s s' ks j k m mu d tl A W E Ek Hj Hm Hd Hmu Em Ha He Hop Hau M X HM HX).
Qed.
(** *** From orb.cartesian to orb.cartesian *)
Lemma held_real (s : orb) g mu m x i : 0 < mu -> mu_real s m mu -> ang_mom x <> (0, 0, 0) -> energy mu x < 0 ->
  angle_between (ang_mom x) (0, 0, 1) i -> planar_orbit i \/ inclined_orbit i ->
  norm (ecc_vec mu x) = 0 \/ eccentric_orbit (norm (ecc_vec mu x)) ->
  exists k nu, kconv s g (fin6 x) (Fin m) = fin6 k /\ s0 k = mu / (- 2 * energy mu x) /\ s1 k = norm (ecc_vec mu x)
  /\ body (otype s) (s1 k) (ang (odeg s) (s5 k)) nu /\ state_of mu (radk (odeg s) k nu) x.
Proof.
  intros Hmu Em Hh Hen Hi Hin Hec. destruct (C09_roundtrip mu x i Hmu Hh ltac:(lra) Hi Hec Hin) as (kr & El & St).
  assert (Ec : c2k_col false (fin6 x) (Fin mu) = fin6 kr).
  { pose proof (El (fun _ _ => NaN)) as Q1. rewrite (elements_of_col mu x (fun _ _ => NaN)) in Q1. congruence. }
  destruct (C06_elements mu x Hmu Hh) as (a & e & i' & om & Om & nu & El' & Ee & Ea & _).
  destruct (Ea ltac:(lra)) as [Ea1 _]. clear Ea.
  assert (Ek : mk6 a (Fin e) (Fin i') (Fin om) (Fin Om) (Fin nu) = fin6 kr).
  { pose proof (El (fun _ _ => NaN)) as Q1. rewrite (El' (fun _ _ => NaN)) in Q1. congruence. }
  subst a. destruct kr as [a e' i1 om1 Om1 nu1]. unfold fin6, map6 in Ek. cbn [s0 s1 s2 s3 s4 s5] in Ek. injection Ek as Ea Eee _ _ _ _.
  assert (Ea' : a = mu / (- 2 * energy mu x)).
  { rewrite <- Ea. rewrite Rabs_left.
    - field. lra.
    - unfold Rdiv. apply Ropp_lt_cancel. rewrite Ropp_0, <- Ropp_mult_distr_r_reverse. apply Rmult_lt_0_compat; [lra|].
      replace (- / (2 * energy mu x)) with (/ (- 2 * energy mu x)) by (field; lra). apply Rinv_0_lt_compat. lra. }
  assert (He : 0 <= e' < 1). { rewrite <- Eee, Ee. split; [apply sqrt_pos|now apply elliptic_elements]. }
  unfold mu_real in Em. unfold kconv, mu_of. rewrite Em.
  assert (Ecd : c2k_col (odeg s) (fin6 x) (Fin mu) = fin6 (mk6 a e' (unang (odeg s) i1) (unang (odeg s) om1) (unang (odeg s) Om1) (unang (odeg s) nu1))).
  { unfold unang. destruct (odeg s); [|exact Ec]. rewrite c2k_deg, Ec. unfold fin6, map6. cbn [s0 s1 s2 s3 s4 s5]. now rewrite !Fin_degrees. }
  rewrite Ecd. unfold fin6, map6. cbn [s0 s1 s2 s3 s4 s5].
  assert (RK : forall z, radk (odeg s) (mk6 a e' (unang (odeg s) i1) (unang (odeg s) om1) (unang (odeg s) Om1) z) nu1 = mk6 a e' i1 om1 Om1 nu1).
  { intros z. unfold radk. cbn [s0 s1 s2 s3 s4]. now rewrite !ang_unang. }
  destruct (otype s) eqn:Ety.
  - exists (mk6 a e' (unang (odeg s) i1) (unang (odeg s) om1) (unang (odeg s) Om1) (unang (odeg s) nu1)), nu1. split; [reflexivity|]. cbn [s0 s1 s5]. split; [auto|]. split; [congruence|].
    split; [cbn [body]; rewrite ang_unang; apply cong_refl|now rewrite RK].
  - destruct (t2e1_ell (fst g) (odeg s) (unang (odeg s) nu1) e' He) as (E0 & -> & _ & A). rewrite ang_unang in A.
    exists (mk6 a e' (unang (odeg s) i1) (unang (odeg s) om1) (unang (odeg s) Om1) E0), nu1. split; [reflexivity|]. cbn [s0 s1 s5]. split; [auto|]. split; [congruence|]. split; [exact A|now rewrite RK].
  - destruct (t2m1_ell g (odeg s) (unang (odeg s) nu1) e' He) as (E0 & -> & _ & A). rewrite ang_unang in A.
    exists (mk6 a e' (unang (odeg s) i1) (unang (odeg s) om1) (unang (odeg s) Om1) (unang (odeg s) (E0 - e' * sin E0))), nu1. split; [reflexivity|]. cbn [s0 s1 s5]. split; [auto|]. split; [congruence|].
    split; [cbn [body]; exists E0; rewrite ang_unang; split; [apply cong_refl|exact A]|now rewrite RK].
Qed.
Theorem C87_propagate_cartesian : forall gb0 gb1 gb gb' n v dt (sa s s' : orb) cs j (x : six R) i m mu d tl lo hi Y,
  aligned n sa -> wfv v -> wfv dt ->
  (* orb.cartesian = v; orb.propagate(dt) *)
  set_cartesian gb0 v sa = (s, Ok tt) -> propagate gb dt s = (s', Ok tt) ->
  (* object j starts at x, advances by d *)
  snd (get_cartesian gb1 s) = Ok cs -> nth_error cs j = Some (fin6 x) -> nth_error (om sa) j = Some (Fin m) -> entry1 dt j (Fin d) ->
  0 < mu -> mu_real sa m mu -> conv_opts (oopts sa) tl -> oauto sa = true \/ odirect sa = true ->
  (* a bound orbit away from the thresholds of cart_to_kep *)
  ang_mom x <> (0, 0, 0) -> energy mu x < 0 -> angle_between (ang_mom x) (0, 0, 1) i -> planar_orbit i \/ inclined_orbit i ->
  let a := mu / (- 2 * energy mu x) in let e := norm (ecc_vec mu x) in e = 0 \/ eccentric_orbit e ->
  (* Y solves Newton's equation around the times 0 and d, starting at x *)
  newton_on mu lo hi Y -> lo < 0 < hi -> lo < d < hi -> Y 0 = x ->
  exists cs' y, snd (get_cartesian gb' s') = Ok cs' /\ nth_error cs' j = Some (fin6 y)
  /\ norm (minus3 (pos y) (pos (Y d))) <= a / (1 - e) * tl
  /\ norm (minus3 (vel y) (vel (Y d))) <= 3 * sqrt (mu / a) / ((1 - e) * (1 - e) * (1 - e)) * tl.
Proof.
  intros gb0 gb1 gb gb' n v dt sa s s' cs j x i m mu d tl lo hi Y A Hv Hdt Es Ep Hc Hj Hm Hd Hmu Em Hop Hau Hh Hen Hi Hin a e Hec HY H0 Hd2 Y0.
  destruct (kep_after_cart gb0 gb1 gb n v sa s cs j _ (Fin m) A Hv Es Hau Hc Hj (PropsOrbitType.fin6_nan _) Hm) as (A' & St & Om & ks & g & Hks & Hkj).
  destruct (held_real sa g mu m x i Hmu Em Hh Hen Hi Hin Hec) as (k & nu & Ek & Ea & Ee & B & S). fold a in Ea. fold e in Ee.
  rewrite Ek in Hkj. apply settings_eq in St. destruct St as (S1 & S2 & S3 & S4 & _ & _ & S7 & S8 & S9).
  assert (Ha : 0 < s0 k) by (rewrite Ea; apply Rdiv_lt_0_compat; lra).
  assert (He : 0 <= s1 k < 1). { rewrite Ee. split; [apply sqrt_pos|now apply elliptic_elements]. }
  rewrite <- Ea, <- Ee. apply (C87_propagate gb gb' n dt s s' ks j k m mu d tl nu lo hi Y); auto; try congruence.
Qed.

(** ** Exact arithmetic, hyperbolic orbits after periapsis: the state is that of Y at a time within the tolerance of d *)
Theorem C87_propagate_hyperbola : forall gb gb' n dt (s s' : orb) ks j (k : six R) m mu d tl E nu Y,
  aligned n s -> wfv dt -> propagate gb dt s = (s', Ok tt) ->
  snd (get_kepler gb s) = Ok ks -> nth_error ks j = Some (fin6 k) -> nth_error (om s) j = Some (Fin m) ->
  entry1 dt j (Fin d) -> 0 < mu -> mu_real s m mu -> 0 < s0 k -> 1 < s1 k -> oauto s = true \/ odirect s = true ->
  place (otype s) (s1 k) (ang (odeg s) (s5 k)) E -> (otype s = ATrue -> in_circle E) ->
  let T := s1 k * sinh E - E + rate mu (s0 k) * d in in_circle T -> hyp_opts (oopts s) tl T (s1 k) ->
  anomalies_hyp (s1 k) nu E -> state_of mu (radk (odeg s) k nu) (Y 0) -> newton mu Y ->
  exists cs d', snd (get_cartesian gb' s') = Ok cs /\ nth_error cs j = Some (fin6 (Y d')) /\ rate mu (s0 k) * Rabs (d' - d) < tl.
Proof.
  intros gb gb' n dt s s' ks j k m mu d tl E nu Y A W Ep Ek Hj Hm Hd Hmu Em Ha He Hau Hp Hc T HT Ho An St HY.
  destruct (C70_propagate gb gb' n dt s s' ks j k m mu d tl E A W Ep Ek Hj Hm Hd Hmu Em Ha He Hp Hc HT Ho) as [_ Q].
  apply (Q Hau Y). set (kr := radk (odeg s) k 0). assert (KM : kepler_M (k_e kr) E = s1 k * sinh E - E).
  { change (k_e kr) with (s1 k). unfold kepler_M. destruct (Rlt_dec (s1 k) 1); [lra|]. destruct (Rlt_dec 1 (s1 k)); [reflexivity|lra]. }
  rewrite <- KM. apply (C87_follows mu kr nu E Y); auto.
  - change (k_e kr) with (s1 k). lra.
  - change (k_e kr) with (s1 k). unfold anomalies. destruct (Rlt_dec (s1 k) 1); [lra|]. destruct (Rlt_dec 1 (s1 k)); [exact An|lra].
Qed.

(** ** Floating point arithmetic *)
Theorem C87_float_kepler : forall rd u L gb gb' n dt (s s' : orb) ks j (k : six R) m mu d t nu lo hi Y, rounding rd u -> lib_acc rd u L ->
  let N := NP_rd rd L in
  aligned n s -> wfv dt -> @propagate num N gb dt s = (s', Ok tt) ->
  snd (@get_kepler num N gb s) = Ok ks -> nth_error ks j = Some (fin6 k) -> nth_error (om s) j = Some (Fin m) -> entry1 dt j (Fin d) ->
  @mul num N (oG s) (@add num N (oM0 s) (Fin m)) = Fin mu -> 0 < mu -> 0 < s0 k -> resolved u (s1 k) -> is_float rd (s5 k) ->
  odeg s = false -> oauto s = true \/ odirect s = true -> reachableG u (s1 k) t (oopts s) ->
  1000 * (t + mean_err u (s5 k) (rate mu (s0 k) * d)) <= (1 - s1 k) ^ 3 ->
  body (otype s) (s1 k) (s5 k) nu -> state_of mu (with_nu k nu) (Y 0) -> newton_on mu lo hi Y -> lo < 0 < hi -> lo < d < hi ->
  exists cs y, snd (@get_cartesian num N gb' s') = Ok cs /\ nth_error cs j = Some (fin6 y) /\
    close (cart_err u (s1 k) t (mean_err u (s5 k) (rate mu (s0 k) * d))) y (Y d).
Proof.
  intros rd u L gb gb' n dt s s' ks j k m mu d t nu lo hi Y Hr HL N A Hd E Ek Hj Hm Hdt Em Hmu Ha HR HF Hg Hau Ho Hb0 B St HY H0 Hd2.
  assert (He : 0 <= s1 k < 1) by apply HR. destruct (mean_of_ex (otype s) (s1 k) (s5 k) He) as [M HM].
  destruct (body_mean _ _ _ nu M He B HM) as (E0 & AE & SE).
  destruct (C56_trajectory mu (with_nu k 0) M Hmu Ha (proj1 He)) as (X & HX & _).
  rewrite (C87_motion mu lo hi (with_nu k 0) M nu E0 X Y Hmu Ha (proj1 He) AE SE HY H0 St HX d Hd2).
  exact (C82_propagate rd u L gb gb' n dt s s' ks j k m mu d t Hr HL A Hd E Ek Hj Hm Hdt Em Hmu Ha HR HF Hg Hau Ho Hb0 M X HM HX).
Qed.
Theorem C87_float_cartesian : forall p L gb0 gb1 gb gb' n v dt (sa s s' : orb) cs j (k : six R) m mu d t lo hi Y,
  (1 < p)%Z -> acos_ok p L -> acos_acc p L -> lib_acc (rnd p) (ulp1 p) L ->
  let N := NP_rd (rnd p) L in let u := ulp1 p in
  aligned n sa -> wfv v -> wfv dt ->
  @set_cartesian num N gb0 v sa = (s, Ok tt) -> @propagate num N gb dt s = (s', Ok tt) ->
  snd (@get_cartesian num N gb1 s) = Ok cs -> nth_error cs j = Some (fin6 (Y 0)) -> nth_error (om sa) j = Some (Fin m) -> entry1 dt j (Fin d) ->
  @mul num N (oG sa) (@add num N (oM0 sa) (Fin m)) = Fin mu -> valid_kep mu k -> state_of mu k (Y 0) -> regular_kep u k ->
  odeg sa = false -> oauto sa = true \/ odirect sa = true ->
  let nd := rate mu (k_a k) * d in
  resolved u (e_up u k) -> reachableG u (e_up u k) t (oopts sa) -> 1000 * (t + adv_err u nd) <= (1 - e_up u k) ^ 3 -> elem_err u k nd <= / 10 ->
  newton_on mu lo hi Y -> lo < 0 < hi -> lo < d < hi ->
  let D := elem_err u k nd + 11 / 10 * cart_err u (e_up u k) t (adv_err u nd) in
  exists cs' y, snd (@get_cartesian num N gb' s') = Ok cs' /\ nth_error cs' j = Some (fin6 y) /\ near D D y (Y d).
Proof.
  intros p L gb0 gb1 gb gb' n v dt sa s s' cs j k m mu d t lo hi Y Hp HLo HA HT N u A Hv Hdt Es Ep Hc Hj Hm Hd Em Hk Hx Hrg Hg Hau nd HR Ho Hb HB HY H0 Hd2 D.
  assert (He : 0 <= k_e k < 1) by (pose proof Hrg as (Q & _); lra). pose proof (proj1 Hk) as Hmu. pose proof (proj1 (proj2 Hk)) as Ha.
  destruct (mean_of_ex ATrue (k_e k) (k_nu k) He) as [M HM].
  destruct (body_mean ATrue (k_e k) (k_nu k) (k_nu k) M He (cong_refl _) HM) as (E0 & AE & SE).
  destruct (C56_trajectory mu (with_nu k 0) M Hmu Ha (proj1 He)) as (X & HX & _).
  assert (Hx' : state_of mu (with_nu (with_nu k 0) (k_nu k)) (Y 0)) by (replace (with_nu (with_nu k 0) (k_nu k)) with k by (now destruct k); exact Hx).
  rewrite (C87_motion mu lo hi (with_nu k 0) M (k_nu k) E0 X Y Hmu Ha (proj1 He) AE SE HY H0 Hx' HX d Hd2).
  exact (C86_propagate_cartesian p L gb0 gb1 gb gb' n v dt sa s s' cs j k (Y 0) m mu d t Hp HLo HA HT A Hv Hdt Es Ep Hc Hj Hm Hd Em Hk Hx Hrg Hg Hau HR Ho Hb HB M X HM HX).
Qed.

(** ** Examples *)
(** the circular orbit of radius 1 about mu = 1: orb.cartesian = (1,0,0,0,1,0); orb.propagate(2) in lazy mode with the default options
    gives (cos 2, sin 2, 0, - sin 2, cos 2, 0) up to 1e-12 *)
Definition circ (t : R) : six R := mk6 (cos t) (sin t) 0 (- sin t) (cos t) 0.
Lemma circ_newton : newton 1 circ.
Proof. apply (C56_newton 1 (mk6 1 0 0 0 0 0) 0); try (unfold k_a, k_e; cbn; lra). exact C56_circle. Qed.
Example C87_example : forall gb, exists s s' cs y,
  set_cartesian gb (kvec (mk6 1 0 0 0 1 0)) (s_new true false) = (s, Ok tt) /\ propagate gb (Sc (Fin 2)) s = (s', Ok tt)
  /\ snd (get_cartesian gb s') = Ok cs /\ nth_error cs 0 = Some (fin6 y)
  /\ norm (minus3 (pos y) (cos 2, sin 2, 0)) <= / 1000000000000 /\ norm (minus3 (vel y) (- sin 2, cos 2, 0)) <= 3 / 1000000000000.
Proof.
  intros gb. set (x := mk6 1 0 0 0 1 0). pose (sa := s_new true false).
  assert (A0 : aligned 1 sa) by (split; [now constructor|exists [nan]; auto]).
  pose (s := aft_cart gb (with_cart (fun _ => [fin6 x]) sa)).
  assert (A : aligned 1 s) by (split; [now constructor|exists [nan]; auto]).
  destruct (propagate_spec gb 1 (Sc (Fin 2)) [Fin 2] s A) as [s' [_ [E _]]]; [exact I|reflexivity|reflexivity|].
  assert (P : norm (pos x) = 1). { unfold norm, dot, pos, x, vx, vy, vz. cbn [fst snd s0 s1 s2]. replace (1 * 1 + 0 * 0 + 0 * 0) with 1 by ring. apply sqrt_1. }
  assert (Hh : ang_mom x = (0, 0, 1)) by (unfold ang_mom, cross, pos, vel, x, vx, vy, vz; cbn [fst snd s0 s1 s2 s3 s4 s5]; f_equal; [f_equal|]; ring).
  assert (En : energy 1 x = - (1 / 2)) by (unfold energy; rewrite P; unfold dot, vel, x, vx, vy, vz; cbn [fst snd s0 s1 s2 s3 s4 s5]; field).
  assert (Ec : norm (ecc_vec 1 x) = 0).
  { unfold ecc_vec. rewrite P, Hh. unfold norm, dot, minus3, scal3, cross, pos, vel, x, vx, vy, vz. cbn [fst snd s0 s1 s2 s3 s4 s5].
    match goal with |- sqrt ?q = 0 => replace q with 0 by field end. apply sqrt_0. }
  assert (N1 : norm (0, 0, 1) = 1). { unfold norm, dot, vx, vy, vz. cbn [fst snd]. replace (0 * 0 + 0 * 0 + 1 * 1) with 1 by ring. apply sqrt_1. }
  destruct (C87_propagate_cartesian gb gb gb gb 1 (kvec x) (Sc (Fin 2)) sa s s' [fin6 x] 0 x 0 0 1 2 (/ 1000000000000) (-1) 3 circ) as (cs & y & C1 & C2 & C3 & C4); auto; try reflexivity; try lra.
  - split; reflexivity.
  - cbn [om sa s_new nth_error]. now rewrite (lit_0 : lit 0 = Fin 0).
  - unfold mu_real, sa. cbn [oG oM0 s_new]. num. f_equal. ring.
  - exact conv_opts_default.
  - rewrite Hh. intros Q. injection Q. lra.
  - rewrite Hh. split; [pose proof PI_RGT_0; lra|]. rewrite N1, cos_0. unfold dot, vx, vy, vz. cbn [fst snd]. ring.
  - left. now left.
  - apply newton_all. exact circ_newton.
  - unfold circ, x. rewrite cos_0, sin_0. f_equal; ring.
  - exists s, s', cs, y. rewrite Ec, En in C3, C4. replace (1 / (-2 * - (1 / 2))) with 1 in C3, C4 by field.
    replace (1 / 1) with 1 in C4 by field. rewrite sqrt_1 in C4. split; [reflexivity|]. split; [exact E|]. split; [exact C1|]. split; [exact C2|].
    split; [change (cos 2, sin 2, 0) with (pos (circ 2)); lra|change (- sin 2, cos 2, 0) with (vel (circ 2)); lra].
Qed.
(** double precision: the orbit k86 (a = 1, e = 1/2, i = omega = Omega = 1, nu = 2; mu = 1) two time units later *)
Example C87_float_example : forall gb, exists Y s s' cs y,
  newton 1 Y /\ state_of 1 k86 (Y 0) /\ @set_cartesian num N64 gb (kvec (Y 0)) s64 = (s, Ok tt) /\ @propagate num N64 gb (Sc (Fin 2)) s = (s', Ok tt)
  /\ snd (@get_cartesian num N64 gb s') = Ok cs /\ nth_error cs 0 = Some (fin6 y) /\ near (2 / 10000) (2 / 10000) y (Y 2).
Proof.
  intros gb. destruct (C86_example gb) as (x & s & s' & X & cs & y & t & Sx & E1 & E2 & (M & HM & HX) & HN & C1 & C2 & C3 & _).
  assert (Hv : valid_kep 1 k86). { unfold valid_kep, k86. cbn. pose proof (COS_bound 2). repeat split; lra. }
  destruct (body_mean ATrue (/ 2) 2 2 M ltac:(lra) (cong_refl _) HM) as (E0 & AE & SE).
  assert (X0 : X 0 = x).
  { rewrite (follows_start 1 (with_nu k86 0) M 2 E0 X); auto; try (unfold k_a, k_e; cbn; lra). symmetry. exact (state_of_inv 1 k86 x Hv Sx). }
  exists X, s, s', cs, y. rewrite X0. auto 10.
Qed.
(** a = 1, e = 2, i = 1, eccentric anomaly 1, mu = 1, default options: propagate(1) *)
Example C87_hyperbola_example : forall gb, exists s s' Y nu cs d',
  set_kepler gb (kvec (mk6 1 2 1 0 0 1)) (with_type AEcc (s_new true false)) = (s, Ok tt) /\ propagate gb (Sc (Fin 1)) s = (s', Ok tt)
  /\ anomalies_hyp 2 nu 1 /\ state_of 1 (mk6 1 2 1 0 0 nu) (Y 0) /\ newton 1 Y
  /\ snd (get_cartesian gb s') = Ok cs /\ nth_error cs 0 = Some (fin6 (Y d')) /\ Rabs (d' - 1) < / 1000000000000.
Proof.
  intros gb. destruct (C70_propagate_example gb) as (s & s' & X & cs & d' & E1 & E2 & HX & HN & C1 & C2 & C3).
  destruct (anomalies_ex 2 1 ltac:(lra)) as (nu & (_ & A) & _). pose (k := mk6 1 2 1 0 0 0).
  assert (KM : kepler_M 2 1 = 2 * sinh 1 - 1). { unfold kepler_M. destruct (Rlt_dec 2 1); [lra|]. destruct (Rlt_dec 1 2); [reflexivity|lra]. }
  assert (V : valid_kep 1 (with_nu k nu)) by (apply (anom_valid 1 k nu 1); auto; unfold k_a, k_e; cbn; lra).
  assert (X0 : X 0 = peri_state 1 (with_nu k nu)).
  { apply (follows_start 1 k (2 * sinh 1 - 1) nu 1); auto; try (unfold k_a, k_e; cbn; lra).
    change (k_e k) with 2. rewrite KM. unfold same_mean. destruct (Rlt_dec 2 1); [lra|reflexivity]. }
  exists s, s', X, nu, cs, d'. split; [exact E1|]. split; [exact E2|].
  split; [unfold anomalies in A; destruct (Rlt_dec 2 1); [lra|]; destruct (Rlt_dec 1 2); [exact A|lra]|].
  split; [rewrite X0; now apply state_of_peri|]. auto.
Qed.
