(** * C80: Orbit.propagate in floating point arithmetic *)
From Coq Require Import Reals QArith Qreals ZArith Lra Lia Psatz Bool List Arith.
From Coquelicot Require Import Coquelicot.
From Verif Require Import NP KeplerModel ConvModel UnitModel OrbitModel Lists ConvCols ArraySpec NPReal NPFloat RealBase Spec AnomReal KepReal PropsKep
  PropsAnomaly EllState OrbitLists OrbitBase OrbitOps OrbitSetters OrbitGet OrbitSpec PropsOrbitWidth PropsOrbitDirect PropsOrbitLazy PropsOrbitWrite OrbitReal PropsScalar PropsCart PropsArray PropsOrbitCalc CartInv
  PropsOrbitType PropsOrbitProp PropsOrbitPropR PropsNewton PropsOrbitNewton FloatAcc PropsFloatAcc PropsFloatAnom FloatLag PropsFloatLag.
Import ListNotations.
Local Open Scope R_scope.

Section FloatProp.
Context (rd : R -> R) (u : R) (L : libm) (Hr : rounding rd u) (HL : lib_acc rd u L) (Hu : u <= / 1000000).
#[local] Instance NPp : NP num := NP_rd rd L.
Local Lemma U0 : 0 <= u. Proof. apply Hr. Qed.
Local Lemma U4 : u <= / 10000. Proof. lra. Qed.
Notation rel := (rel u).
Lemma r_pi : rel (rd PI) PI (1 + / 50). Proof. apply (rel1 rd u Hr U4). Qed.
Lemma r_mul x' x y' y D D' D2 : rel x' x D -> rel y' y D' -> 0 <= D <= 40 -> 0 <= D' <= 40 -> D + D' + 2 <= D2 -> rel (rd (x' * y')) (x * y) D2.
Proof. intros A B C C' E. eapply rel_weak; [apply Hr|apply Rle_refl|apply (rel_mul rd u Hr u (Rle_refl u) U4 _ _ _ _ _ _ A B C C')|auto]. Qed.

(** mean motion *)
Lemma motion_acc (s : orb) a m mu : odeg s = false -> mu_of s (Fin m) = Fin mu -> 0 < a -> 0 < mu ->
  exists n', motion1 s (Fin a) (Fin m) = Fin n' /\ rel n' (rate mu a) 20.
Proof.
  intros Hg Em Ha Hm. pose proof PI_RGT_0 as Hp. unfold motion1, circle, orbital_period. rewrite Hg, Em.
  assert (L2 : lit 2 = Fin 2) by exact (b_2 rd u L Hr). rewrite L2. unfold cube.
  change (mul npi (Fin 2)) with (Fin (rd (rd PI * 2))). change (mul (Fin 2) npi) with (Fin (rd (2 * rd PI))).
  change (mul (mul (Fin a) (Fin a)) (Fin a)) with (Fin (rd (rd (a * a) * a))).
  assert (A3 : rel (rd (rd (a * a) * a)) (a * a * a) 4).
  { apply (r_mul _ _ _ _ 2 0); try lra; [apply (r_mul _ _ _ _ 0 0); try lra; apply rel_refl|apply rel_refl]. }
  assert (P3 : 0 < a * a * a) by (repeat apply Rmult_lt_0_compat; lra).
  destruct (rel_div rd u Hr u (Rle_refl u) U4 _ _ _ _ _ _ A3 (rel_refl u mu) ltac:(lra) ltac:(lra) ltac:(lra)) as [N0 Q].
  assert (DV : div (Fin (rd (rd (a * a) * a))) (Fin mu) = Fin (rd (rd (rd (a * a) * a) / mu))) by (apply (b_div rd L); lra). rewrite DV.
  assert (QP : 0 < a * a * a / mu) by now apply Rdiv_lt_0_compat.
  destruct (rel_sqrt rd u Hr u (Rle_refl u) U4 _ _ _ QP Q ltac:(lra)) as [SP SQ].
  assert (NS : nsqrt (Fin (rd (rd (rd (a * a) * a) / mu))) = Fin (rd (sqrt (rd (rd (rd (a * a) * a) / mu))))) by (apply (b_sqrt rd L); lra). rewrite NS.
  set (sq' := rd (sqrt (rd (rd (rd (a * a) * a) / mu)))) in *.
  change (mul (Fin (rd (2 * rd PI))) (Fin sq')) with (Fin (rd (rd (2 * rd PI) * sq'))).
  assert (T1 : rel (rd (2 * rd PI)) (2 * PI) 4) by (apply (r_mul _ _ _ _ 0 (1 + / 50)); try lra; [apply rel_refl|apply r_pi]).
  assert (T2 : rel (rd (rd PI * 2)) (PI * 2) 4) by (apply (r_mul _ _ _ _ (1 + / 50) 0); try lra; [apply r_pi|apply rel_refl]).
  pose proof (r_mul _ _ _ _ _ _ 14 T1 SQ ltac:(lra) ltac:(lra) ltac:(lra)) as T3.
  assert (SP0 : 0 < sqrt (a * a * a / mu)) by now apply sqrt_lt_R0.
  assert (NZ : 2 * PI * sqrt (a * a * a / mu) <> 0) by (apply Rgt_not_eq, Rmult_lt_0_compat; lra).
  destruct (rel_div rd u Hr u (Rle_refl u) U4 _ _ _ _ _ _ T2 T3 NZ ltac:(lra) ltac:(lra)) as [N1 Q1].
  assert (DV2 : div (Fin (rd (rd PI * 2))) (Fin (rd (rd (2 * rd PI) * sq'))) = Fin (rd (rd (rd PI * 2) / rd (rd (2 * rd PI) * sq')))) by (apply (b_div rd L); auto).
  rewrite DV2. eexists. split; [reflexivity|].
  assert (ER : PI * 2 / (2 * PI * sqrt (a * a * a / mu)) = rate mu a).
  { unfold rate. replace (mu / (a * a * a)) with (/ (a * a * a / mu)) by (field; repeat split; lra). rewrite sqrt_inv. field. repeat split; lra. }
  rewrite ER in Q1. eapply rel_weak; [apply Hr|apply Rle_refl|exact Q1|lra].
Qed.
(** the new mean anomaly *)
Lemma adv_acc (s : orb) M1 a m mu d : odeg s = false -> mu_of s (Fin m) = Fin mu -> 0 < a -> 0 < mu ->
  exists M2 z, adv s (Fin M1) (Fin a) (Fin m) (Fin d) = Fin M2 /\ 0 <= M2 <= 2 * PI + 30 * u /\
    Rabs (M2 - (M1 + rate mu a * d + 2 * PI * IZR z)) <= u * (6 * Rabs M1 + 29 * Rabs (rate mu a * d) + 36).
Proof.
  intros Hg Em Ha Hm. pose proof U0 as u0. pose proof PI_RGT_0. pose proof PI_329 as P4. pose proof PI2_3_2 as P3.
  destruct (motion_acc s a m mu Hg Em Ha Hm) as (n' & En & Rn). unfold adv. rewrite En, Hg.
  assert (L2 : lit 2 = Fin 2) by exact (b_2 rd u L Hr). rewrite L2. change (mul (Fin 2) npi) with (Fin (rd (2 * rd PI))).
  change (mul (Fin n') (Fin d)) with (Fin (rd (n' * d))). pose proof (r_mul _ _ _ _ _ _ 22 Rn (rel_refl u d) ltac:(lra) ltac:(lra) ltac:(lra)) as Rd.
  set (nd := rate mu a * d) in *. set (nd' := rd (n' * d)) in *. unfold FloatAcc.rel in Rd.
  change (add (Fin M1) (Fin nd')) with (Fin (rd (M1 + nd'))).
  assert (T1 : rel (rd (2 * rd PI)) (2 * PI) (302 / 100)).
  { apply (r_mul _ _ _ _ 0 (1 + / 50)); try lra; [apply rel_refl|apply r_pi]. }
  set (tp := rd (2 * rd PI)) in *. unfold FloatAcc.rel in T1. rewrite (Rabs_pos_eq (2 * PI)) in T1 by lra.
  assert (T : Rabs (tp - 2 * PI) <= 20 * u) by (eapply Rle_trans; [exact T1|]; replace (302 / 100 * u * (2 * PI)) with (u * (302 / 100 * 2 * PI)) by ring; rewrite (Rmult_comm 20); apply Rmult_le_compat_l; lra).
  pose proof (Rabs_pos nd) as A0. pose proof (Rabs_pos M1) as A1.
  assert (X0 : Rabs (M1 + nd' - (M1 + nd)) <= 22 * u * Rabs nd) by (replace (M1 + nd' - (M1 + nd)) with (nd' - nd) by ring; exact Rd).
  assert (X1 : Rabs (M1 + nd') <= Rabs M1 + Rabs nd + 22 * u * Rabs nd).
  { replace (M1 + nd') with ((M1 + nd) + (M1 + nd' - (M1 + nd))) by ring. apply abs_add_le; [apply Rabs_triang|auto]. }
  pose proof (rd_within rd u Hr _ _ _ _ X0 X1) as X2. set (x := rd (M1 + nd')) in *.
  assert (uu : 0 <= u * u * Rabs nd <= / 1000000 * (u * Rabs nd)).
  { split; [apply Rmult_le_pos; [apply Rmult_le_pos; lra|lra]|]. rewrite Rmult_assoc. apply Rmult_le_compat_r; [apply Rmult_le_pos; lra|lra]. }
  assert (X3 : Rabs (x - (M1 + nd)) <= u * Rabs M1 + 24 * (u * Rabs nd)) by (eapply Rle_trans; [exact X2|]; lra).
  assert (uM : 0 <= u * Rabs M1 <= / 1000000 * Rabs M1) by (split; [apply Rmult_le_pos|apply Rmult_le_compat_r]; lra).
  assert (un : 0 <= u * Rabs nd <= / 1000000 * Rabs nd) by (split; [apply Rmult_le_pos|apply Rmult_le_compat_r]; lra).
  assert (X4 : Rabs x <= 101 / 100 * (Rabs M1 + Rabs nd)).
  { replace x with ((M1 + nd) + (x - (M1 + nd))) by ring. eapply Rle_trans; [apply abs_add_le; [apply Rabs_triang|exact X3]|]. lra. }
  pose proof (abs_in _ _ T) as T'. assert (Tp : 59 / 10 <= tp <= 66 / 10) by lra.
  destruct (la_mod _ _ _ HL x tp ltac:(lra)) as [Hm2 [k Hk]].
  assert (Mo : nmod (Fin x) (Fin tp) = Fin (rd (l_mod L x tp))) by (cbn; destruct Req_EM_T; [lra|reflexivity]). rewrite Mo.
  exists (rd (l_mod L x tp)), (- k)%Z. split; [reflexivity|].
  pose proof (rr_err _ _ Hr (l_mod L x tp)) as G. rewrite (Rabs_pos_eq (l_mod L x tp)) in G by lra.
  assert (G2 : u * l_mod L x tp <= u * (66 / 10)) by (apply Rmult_le_compat_l; lra).
  split.
  { apply abs_in in G. assert (u * l_mod L x tp <= 1 * l_mod L x tp) by (apply Rmult_le_compat_r; lra). lra. }
  assert (Kb : Rabs (IZR k) <= / 5 * Rabs x + 14 / 10).
  { assert (Kt : Rabs (IZR k * tp) <= Rabs x + 66 / 10).
    { replace (IZR k * tp) with (x + - l_mod L x tp) by lra. apply abs_add_le; [lra|]. rewrite Rabs_Ropp, Rabs_pos_eq; lra. }
    rewrite Rabs_mult, (Rabs_pos_eq tp) in Kt by lra. assert (Rabs (IZR k) * (59 / 10) <= Rabs (IZR k) * tp) by (apply Rmult_le_compat_l; [apply Rabs_pos|lra]). pose proof (Rabs_pos x). lra. }
  replace (rd (l_mod L x tp) - (M1 + nd + 2 * PI * IZR (- k))) with
    ((rd (l_mod L x tp) - l_mod L x tp) + ((x - (M1 + nd)) + - (IZR k * (tp - 2 * PI)))) by (rewrite Hk, opp_IZR; ring).
  assert (KT : Rabs (- (IZR k * (tp - 2 * PI))) <= (/ 5 * Rabs x + 14 / 10) * (20 * u)).
  { rewrite Rabs_Ropp, Rabs_mult. apply Rmult_le_compat; auto using Rabs_pos. }
  assert (KX : / 5 * Rabs x * (20 * u) <= 404 / 100 * (u * Rabs M1 + u * Rabs nd)).
  { replace (/ 5 * Rabs x * (20 * u)) with (4 * u * Rabs x) by field. replace (404 / 100 * (u * Rabs M1 + u * Rabs nd)) with (4 * u * (101 / 100 * (Rabs M1 + Rabs nd))) by field.
    apply Rmult_le_compat_l; lra. }
  eapply Rle_trans; [apply abs_add_le; [exact G|apply abs_add_le; [exact X3|exact KT]]|]. lra.
Qed.

(** the mean anomaly of the stored place *)
Lemma br g (fh fp fe : num -> num -> num) x e : e < 1 -> branch g fh fp fe x (Fin e) = by_cases fh fp fe x (Fin e).
Proof.
  intros He. symmetry. apply by_cases_branch. unfold ordered1. assert (E1 : lit 1 = Fin 1) by exact (b_1 rd u L Hr). rewrite E1.
  change (ltb (Fin 1) (Fin e)) with (Rltb 1 e). change (eqb (Fin e) (Fin 1)) with (Reqb e 1). change (ltb (Fin e) (Fin 1)) with (Rltb e 1).
  rewrite (Rltb_false 1 e), Reqb_false, (Rltb_true e 1) by lra. exact I.
Qed.
Lemma mean_acc (s : orb) g (k : six R) : odeg s = false -> 0 <= s1 k <= / 4 -> rd (s5 k * / 2) = s5 k * / 2 -> u * Rabs (s5 k) <= / 100000 ->
  exists M1 Mx, ma1 s g (fin6 k) = Fin M1 /\ mean_of (otype s) (s1 k) (s5 k) Mx /\
    Rabs (M1 - Mx) <= u * (150 + 2 * Rabs (s5 k)) /\ Rabs M1 <= Rabs (s5 k) + 12.
Proof.
  intros Hg He Hh Hx. pose proof U0 as u0. set (e := s1 k) in *. set (x := s5 k) in *. pose proof (Rabs_pos x) as X0.
  assert (SE : forall E, Rabs (E - e * sin E) <= Rabs E + / 4).
  { intros E. replace (E - e * sin E) with (E + - (e * sin E)) by ring. apply abs_add_le; [lra|]. rewrite Rabs_Ropp. replace (/ 4) with (/ 4 * 1) by ring. apply abs_mul_le; [rewrite Rabs_pos_eq; lra|].
    pose proof (SIN_bound E). apply Rabs_le. lra. }
  unfold ma1. rewrite Hg. replace (s5 (fin6 k)) with (Fin x) by now destruct k. replace (s1 (fin6 k)) with (Fin e) by now destruct k.
  destruct (otype s) eqn:Et.
  - unfold t2m1, e2m1, t2e1. cbn [inr outd]. rewrite !br by lra. destruct (acc_t2e rd u L Hr HL ltac:(lra) e x ltac:(lra) Hh) as (E' & E & F1 & F2 & F3 & F4 & _).
    change (NPa rd L) with NPp in F1. rewrite F1. destruct (acc_e2m rd u L Hr HL ltac:(lra) e E' ltac:(lra)) as (M' & G1 & G2). change (NPa rd L) with NPp in G1. rewrite G1.
    exists M', (E - e * sin E). split; [reflexivity|]. split.
    { intros nu. apply (body_same e ltac:(lra) ATrue x AMean _ x (cong_refl _)). exists E. split; [apply cong_refl|exact F2]. }
    pose proof (SE E') as S1.
    assert (Q : 11 / 10 * u * Rabs (E' - e * sin E') + 4 * u * e <= 13 * u).
    { assert (u * Rabs (E' - e * sin E') <= u * (103 / 10)) by (apply Rmult_le_compat_l; lra). assert (u * e <= u * / 4) by (apply Rmult_le_compat_l; lra). lra. }
    split.
    + assert (K : Rabs ((E' - e * sin E') - (E - e * sin E)) <= 5 / 4 * (100 * u)).
      { replace ((E' - e * sin E') - (E - e * sin E)) with ((E' - E) + - (e * (sin E' - sin E))) by ring.
        replace (5 / 4 * (100 * u)) with (100 * u + / 4 * (100 * u)) by field. apply abs_add_le; [exact F3|]. rewrite Rabs_Ropp. apply abs_mul_le; [rewrite Rabs_pos_eq; lra|].
        eapply Rle_trans; [apply sin_lip|exact F3]. }
      replace (M' - (E - e * sin E)) with ((M' - (E' - e * sin E')) + ((E' - e * sin E') - (E - e * sin E))) by ring.
      eapply Rle_trans; [apply abs_add_le; [exact G2|exact K]|]. assert (0 <= u * Rabs x) by (apply Rmult_le_pos; lra). lra.
    + replace M' with ((M' - (E' - e * sin E')) + (E' - e * sin E')) by ring. eapply Rle_trans; [apply abs_add_le; [exact G2|exact S1]|]. lra.
  - unfold e2m1. cbn [inr outd]. rewrite !br by lra. destruct (acc_e2m rd u L Hr HL ltac:(lra) e x ltac:(lra)) as (M' & G1 & G2). change (NPa rd L) with NPp in G1. rewrite G1.
    exists M', (x - e * sin x). split; [reflexivity|]. pose proof (SE x) as S1.
    assert (Q : 11 / 10 * u * Rabs (x - e * sin x) + 4 * u * e <= 11 / 10 * (u * Rabs x) + 2 * u).
    { assert (u * Rabs (x - e * sin x) <= u * (Rabs x + / 4)) by (apply Rmult_le_compat_l; lra). assert (u * e <= u * / 4) by (apply Rmult_le_compat_l; lra). lra. }
    split; [|split].
    + destruct (body_ex e ltac:(lra) AEcc x) as [nu0 Hn]. intros nu. apply (body_same e ltac:(lra) AEcc x AMean _ nu0 Hn). exists x. split; [apply cong_refl|exact Hn].
    + eapply Rle_trans; [exact G2|]. assert (0 <= u * Rabs x) by (apply Rmult_le_pos; lra). lra.
    + replace M' with ((M' - (x - e * sin x)) + (x - e * sin x)) by ring. eapply Rle_trans; [apply abs_add_le; [exact G2|exact S1]|]. lra.
  - exists x, x. split; [reflexivity|]. split; [intros nu; tauto|]. rewrite Rminus_diag_eq by auto. rewrite Rabs_R0. split; [apply Rmult_le_pos; lra|lra].
Qed.
(** the place of the body after the solver has run and the result was stored, read as a true anomaly *)
Lemma nu_acc (s : orb) g g' (k : six R) M2 t : odeg s = false -> 0 <= s1 k <= / 4 -> Rabs M2 <= 7 -> reachable u 7 t (oopts s) ->
  exists x nu', back1 s g' (Fin M2) (Fin (s1 k)) = Fin x /\ nu1 s g (fin6 (with_nu k x)) = Fin nu' /\
    forall E nu d, Rabs (E - s1 k * sin E - M2) <= d -> anomalies_ell (s1 k) nu E ->
      Rabs (cos nu' - cos nu) <= 110 * u + 3 * t + 3 * d /\ Rabs (sin nu' - sin nu) <= 110 * u + 3 * t + 3 * d.
Proof.
  intros Hg He HM Ho. pose proof U0 as u0. set (e := s1 k) in *.
  destruct (m2e_el_float rd u L (oopts s) t M2 e 7 Hr HL Hu He HM ltac:(lra) Ho) as (E' & EE & HH & AE).
  assert (T0 : 0 <= t) by (destruct Ho as (_ & _ & Hut & _); lra).
  destruct (nu_core rd u L t M2 e E' Hr HL Hu He T0 HH AE) as (nu' & F1 & _ & F2). cbv zeta in F1.
  change (@m2e_el num NPp (oopts s) (Fin M2) (Fin e) = Fin E') in EE. change (wrap2pi (by_cases e2t_hyp e2t_per e2t_eli (Fin E') (Fin e)) = Fin nu') in F1.
  assert (S : forall x, s5 (fin6 (with_nu k x)) = Fin x) by (now intros; destruct k).
  assert (S1 : forall x, s1 (fin6 (with_nu k x)) = Fin e) by (now intros; destruct k).
  assert (E2 : forall g, e2t1 g false (Fin E') (Fin e) = Fin nu') by (intros h; unfold e2t1; cbn [inr outd]; rewrite br by lra; exact F1).
  assert (M1 : m2e1 (oopts s) false (Fin M2) (Fin e) = Fin E') by exact EE.
  assert (M3 : forall g, m2t1 g (oopts s) false (Fin M2) (Fin e) = Fin nu') by (intros h; unfold m2t1; cbn [inr outd]; rewrite M1; apply E2).
  unfold back1, nu1. rewrite Hg. destruct (otype s).
  - exists nu', nu'. rewrite M3, S. auto.
  - exists E', nu'. rewrite M1, S, S1, E2. auto.
  - exists M2, nu'. rewrite S, S1, M3. auto.
Qed.
Lemma fin6_nanp (k : six R) : nan6 (fin6 k) = false.
Proof. destruct k as [a b c d e f]. unfold nan6, isnan, fin6, map6. cbn [s0 s1 s2 s3 s4 s5]. cbn. now rewrite !Reqb_true by auto. Qed.
End FloatProp.

(** ** The theorem *)
(** [X] is any Newtonian motion that starts at the stored place (C56_newton, C56_trajectory); the state
    read after propagate(d) is [X d] to within the stated relative error. *)
Theorem C80_propagate : forall rd u L gb gb' n dt (s s' : orb) ks j (k : six R) m mu d t, rounding rd u -> lib_acc rd u L -> u <= / 1000000 ->
  let N := NP_rd rd L in
  aligned n s -> wfv dt -> @propagate num N gb dt s = (s', Ok tt) ->
  snd (@get_kepler num N gb s) = Ok ks -> nth_error ks j = Some (fin6 k) -> nth_error (om s) j = Some (Fin m) -> entry1 dt j (Fin d) ->
  @mul num N (oG s) (@add num N (oM0 s) (Fin m)) = Fin mu -> 0 < mu -> 0 < s0 k -> 0 <= s1 k <= / 4 -> is_float rd (s5 k) ->
  odeg s = false -> oauto s = true \/ odirect s = true -> reachable u 7 t (oopts s) -> t <= / 1000 ->
  u * (Rabs (s5 k) + Rabs (rate mu (s0 k) * d)) <= / 100000 ->
  forall M X, mean_of (otype s) (s1 k) (s5 k) M -> follows mu (with_nu k 0) M X ->
  exists cs y, snd (@get_cartesian num N gb' s') = Ok cs /\ nth_error cs j = Some (fin6 y) /\
    close (u * (2400 + 200 * (Rabs (s5 k) + Rabs (rate mu (s0 k) * d))) + 6 * t) y (X d).
Proof.
  intros rd u L gb gb' n dt s s' ks j k m mu d t Hr HL Hu N A Hd E Ek Hj Hm Hdt Em Hmu Ha He HF Hg Hau Ho Ht Hb0 M X HM HX.
  pose proof (rr_u _ _ Hr) as u0.
  destruct (@propagate_ok num N gb n dt s s' A Hd E) as [Hok [ds Hb]].
  destruct (@propagate_spec num N gb n dt ds s A Hd Hok Hb) as [s2 [vs [E2 [A2 [Es [Eo [Eke [Lv [V [_ [_ Rc]]]]]]]]]]].
  assert (s2 = s') by congruence. subst s2.
  rewrite (@get_kepler_eq num N gb n) in Ek by apply A. cbn [snd] in Ek. injection Ek as Ek. rewrite <- Ek in Hj.
  assert (Ld : length ds = n) by (eapply bcast1_length; eauto using wfv_wf).
  assert (Hjn : (j < n)%nat) by (rewrite <- (l_k n _ (@lens_kchk num N gb n s (proj1 A))); eapply nth_error_lt; eauto).
  assert (Hdj : nth_error ds j = Some (Fin d)).
  { destruct (nth_error ds j) as [y|] eqn:Ey; [|apply nth_error_None in Ey; lia].
    pose proof (bcast1_entry n dt ds j y Hd Hb Ey) as Q. destruct dt; cbn [entry1] in *; congruence. }
  destruct (V j _ _ _ Hj Hm Hdj) as [g [g' Hv]].
  pose proof (Rabs_pos (s5 k)) as X5. set (nd := rate mu (s0 k) * d) in *. pose proof (Rabs_pos nd) as Xn.
  assert (Hx5 : 0 <= u * Rabs (s5 k)) by (apply Rmult_le_pos; lra). assert (Hxn : 0 <= u * Rabs nd) by (apply Rmult_le_pos; lra).
  destruct (mean_acc rd u L Hr HL Hu s g k Hg He (float_half _ _ _ _ HL HF) ltac:(lra)) as (M1 & Mx & EM & HMx & DM & BM).
  destruct (adv_acc rd u L Hr HL Hu s M1 (s0 k) m mu d Hg Em Ha Hmu) as (M2 & z & EA & B20 & DA). fold nd in DA.
  assert (B2 : Rabs M2 <= 7) by (pose proof PI_329; apply Rabs_le; lra).
  change (NPp rd L) with N in EM, EA. rewrite EM in Hv. replace (s0 (fin6 k)) with (Fin (s0 k)) in Hv by now destruct k. rewrite EA in Hv.
  replace (s1 (fin6 k)) with (Fin (s1 k)) in Hv by now destruct k.
  assert (Hz : lazy s = true \/ odirect s = true).
  { unfold lazy. destruct (odirect s); [auto|]. destruct Hau as [-> |?]; [auto|discriminate]. }
  assert (Q : exists x, @back1 num N s g' (Fin M2) (Fin (s1 k)) = Fin x) by (destruct (nu_acc rd u L Hr HL Hu s NaN g' k M2 t Hg He B2 Ho) as (x & nu' & Q & _); exists x; exact Q).
  destruct Q as [x Qx]. rewrite Qx in Hv.
  assert (J' : nth_error (okep s') j = Some (fin6 (with_nu k x))) by (rewrite Eke, (set_row_nth 5 _ _ _ _ _ Hj Hv); f_equal; apply set5_fin).
  destruct (Rc Hz gb' j _ _ J' (fin6_nanp rd L _) Hm) as [c [Hc [h Cc]]].
  rewrite (@get_cartesian_eq num N gb' n) by apply A2. cbn [snd].
  destruct (nu_acc rd u L Hr HL Hu s h g' k M2 t Hg He B2 Ho) as (x0 & nu' & Q1 & Q2 & Q3). change (NPp rd L) with N in Q1, Q2.
  assert (x0 = x) by congruence. subst x0. rewrite Q2 in Cc.
  (* the motion *)
  destruct (HX d) as [nu0 [E0 [An [Sm St]]]]. change (k_e (with_nu k 0)) with (s1 k) in *. change (k_a (with_nu k 0)) with (s0 k) in Sm.
  pose proof (anom_valid mu (with_nu k 0) nu0 E0 Hmu Ha (proj1 He) An) as V0.
  rewrite (state_of_inv mu _ (X d) V0 St).
  unfold anomalies, same_mean, mean_rate, kepler_M in An, Sm. destruct (Rlt_dec (s1 k) 1); [|lra].
  change (sqrt (mu / (s0 k * s0 k * s0 k))) with (rate mu (s0 k)) in Sm. fold nd in Sm.
  destruct (mean_of_unique (otype s) (s1 k) (s5 k) M Mx ltac:(lra) HM HMx) as [w Hw]. destruct Sm as [w' Hw'].
  set (z' := (z - w - w')%Z). set (E1 := E0 + 2 * PI * IZR z').
  assert (KE : E1 - s1 k * sin E1 = Mx + nd + 2 * PI * IZR z) by (unfold E1; rewrite kepler_turn; unfold z'; rewrite !minus_IZR, Hw', Hw; ring).
  assert (An1 : anomalies_ell (s1 k) nu0 E1) by (apply (ell_compat (s1 k) nu0 nu0 E0); [apply cong_refl|apply cong_sym; now exists z'|auto]).
  set (dd := u * (260 + 30 * (Rabs (s5 k) + Rabs nd))).
  assert (DD : Rabs (E1 - s1 k * sin E1 - M2) <= dd).
  { rewrite KE, Rabs_minus_sym. replace (M2 - (Mx + nd + 2 * PI * IZR z)) with ((M2 - (M1 + nd + 2 * PI * IZR z)) + (M1 - Mx)) by ring.
    eapply Rle_trans; [apply abs_add_le; [exact DA|exact DM]|]. unfold dd.
    assert (u * Rabs M1 <= u * (Rabs (s5 k) + 12)) by (apply Rmult_le_compat_l; lra). lra. }
  destruct (Q3 E1 nu0 dd DD An1) as [Cc1 Cs1].
  destruct (cart_core rd u L mu k nu0 nu' (110 * u + 3 * t + 3 * dd) (fun _ => NaN) Hr (la_trig _ _ _ HL) Hu Hmu Ha He ltac:(unfold dd; lra) Cc1 Cs1) as (y & Ey & Cy).
  exists (ocart (@cchk num N gb' s')), y. split; [reflexivity|]. split.
  - rewrite Hc. f_equal. rewrite Cc. unfold cconv. rewrite Hg. unfold mu_of. rewrite Em.
    destruct (@kep_to_cart_vec num N (fun _ => NaN) (fin6 (with_nu k nu')) (MuS (Fin mu)) false [Fin mu] eq_refl) as [m' [Em' Ev]].
    assert (m' = Fin mu) as -> by congruence. change (NP_rd rd L) with N in Ey. rewrite Ev in Ey. cbn [snd] in Ey.
    assert (forall a b, Ok (KVec a) = Ok (KVec b) :> res (kinput num) -> a = b) as IJ by (intros ? ? [= Q]; exact Q). rewrite <- (IJ _ _ Ey).
    replace (set5 (fin6 (with_nu k x)) (Fin nu')) with (fin6 (with_nu k nu')) by now destruct k. reflexivity.
  - change (with_nu (with_nu k 0) nu0) with (with_nu k nu0). eapply close_weak; [exact Cy|]. unfold dd. lra.
Qed.

(** ** Binary64, default solver options, mu = 1, lazy object of type eccentric *)
Definition s64 : orb := mkorb (Fin 1) (Fin 1) true false false false false AEcc (@default_options num N64)
  [@lit num N64 0] [@nan6c num N64] [@nan6c num N64] [@nan num N64] (fresh [1%nat] [@nan num N64]) [@nan num N64] [false] [false] None.
Definition k80 : six R := mk6 1 (/ 8) 1 0 0 1.
Example C80_example : forall gb, exists s s' X cs y t,
  @set_kepler num N64 gb (kvec k80) s64 = (s, Ok tt) /\ @propagate num N64 gb (Sc (Fin 2)) s = (s', Ok tt) /\
  follows 1 k80 (1 - / 8 * sin 1) X /\ newton 1 X /\ snd (@get_cartesian num N64 gb s') = Ok cs /\ nth_error cs 0 = Some (fin6 y) /\
  close (3000 * u64 + 6 * t) y (X 2) /\ 0 < t <= 102 / 100 * / 1000000000000.
Proof.
  intros gb. pose proof u64_eq as U. destruct C79_reachable_example as (t & Ho & T).
  pose (s := @aft_kep num N64 gb (with_kep (fun _ => [fin6 k80]) s64)).
  assert (A : aligned 1 s) by (split; [now constructor|exists [nan]; auto]).
  destruct (C56_trajectory 1 (with_nu k80 0) (1 - / 8 * sin 1)) as (X & HX & HN); try (unfold k_a, k_e; cbn; lra).
  destruct (@propagate_spec num N64 gb 1 (Sc (Fin 2)) [Fin 2] s A) as [s' [_ [E _]]]; [exact I|reflexivity|reflexivity|].
  assert (R1 : rate 1 1 = 1) by (unfold rate; replace (1 / (1 * 1 * 1)) with 1 by field; apply sqrt_1).
  assert (Hk : snd (@get_kepler num N64 gb s) = Ok [fin6 k80]).
  { rewrite (@get_kepler_eq num N64 gb 1) by apply A. reflexivity. }
  assert (R0 : FloatBase.rnd 53 (Q2R 0) = 0) by (replace (Q2R 0) with 0 by (unfold Q2R; cbn; lra); apply FloatBase.rnd_0).
  destruct (C80_propagate (FloatBase.rnd 53) u64 PropsFloat.libm0 gb gb 1 (Sc (Fin 2)) s s' [fin6 k80] 0 k80 0 1 2 t
    (binary_rounding 53 ltac:(lia)) (binary_lib 53 ltac:(lia)) ltac:(lra) A I E Hk eq_refl) with (M := 1 - / 8 * sin 1) (X := X)
    as (cs & y & C1 & C2 & C3); try (cbn; lra); try reflexivity; auto.
  - change (Some (Fin (FloatBase.rnd 53 (Q2R 0))) = Some (Fin 0)). now rewrite R0.
  - change (Fin (FloatBase.rnd 53 (1 * FloatBase.rnd 53 (1 + 0))) = Fin 1). f_equal. rewrite Rplus_0_r, FloatBase.rnd_1, Rmult_1_l by lia. apply FloatBase.rnd_1. lia.
  - apply FloatBase.rnd_1. lia.
  - destruct Ho as (O1 & O2 & O3 & O4). split; [exact O1|]. split; [exact O2|]. split; [|exact O4]. rewrite U in *. lra.
  - cbn [k80 s5 s0]. rewrite R1, U, !Rabs_pos_eq; lra.
  - intros nu. destruct (body_ex (/ 8) ltac:(lra) AEcc 1) as [nu0 Hn]. apply (body_same (/ 8) ltac:(lra) AEcc 1 AMean _ nu0 Hn). exists 1. split; [apply cong_refl|exact Hn].
  - exists s, s', X, cs, y, t. split; [reflexivity|]. split; [exact E|]. split; [exact HX|]. split; [exact HN|]. split; [exact C1|]. split; [exact C2|]. split; [|lra].
    eapply close_weak; [exact C3|]. cbn [k80 s5 s0]. rewrite R1, U, !Rabs_pos_eq by lra. lra.
Qed.
