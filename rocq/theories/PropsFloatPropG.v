(** * C82: Orbit.propagate in floating point arithmetic, every eccentricity below one that the precision resolves *)
From Coq Require Import Reals QArith Qreals ZArith Lra Lia Psatz Bool List Arith.
From Coquelicot Require Import Coquelicot.
From Verif Require Import NP KeplerModel ConvModel UnitModel OrbitModel Lists ConvCols ArraySpec NPReal NPFloat RealBase Spec AnomReal KepReal PropsKep
  PropsAnomaly EllState OrbitLists OrbitBase OrbitOps OrbitSetters OrbitGet OrbitSpec PropsOrbitWidth PropsOrbitDirect PropsOrbitLazy PropsOrbitWrite OrbitReal PropsScalar PropsCart PropsArray PropsOrbitCalc CartInv
  PropsOrbitType PropsOrbitProp PropsOrbitPropR PropsNewton PropsOrbitNewton FloatAcc PropsFloatAcc PropsFloatAnom FloatLag PropsFloatLag
  PropsFloatLagG PropsFloatProp.
Import ListNotations.
Local Open Scope R_scope.

(** error of the mean anomaly after the advance: [x] the stored anomaly, [nd] the advance *)
Definition mean_err (u x nd : R) : R := u * (380 + 30 * (Rabs x + Rabs nd)).
Section FloatPropG.
Context (rd : R -> R) (u : R) (L : libm) (Hr : rounding rd u) (HL : lib_acc rd u L).
#[local] Instance NPp : NP num := NP_rd rd L.
Lemma mean_accG (s : orb) g (k : six R) : u <= / 1000000 -> odeg s = false -> 0 <= s1 k < 1 -> rd (s5 k * / 2) = s5 k * / 2 -> u * Rabs (s5 k) <= / 30000 ->
  exists M1 Mx, ma1 s g (fin6 k) = Fin M1 /\ mean_of (otype s) (s1 k) (s5 k) Mx /\
    Rabs (M1 - Mx) <= u * (250 + 2 * Rabs (s5 k)) /\ Rabs M1 <= Rabs (s5 k) + 13.
Proof.
  intros Hu Hg He Hh Hx. pose proof (rr_u _ _ Hr) as u0. set (e := s1 k) in *. set (x := s5 k) in *. pose proof (Rabs_pos x) as X0.
  assert (SE : forall E, Rabs (E - e * sin E) <= Rabs E + 1).
  { intros E. replace (E - e * sin E) with (E + - (e * sin E)) by ring. apply abs_add_le; [lra|]. rewrite Rabs_Ropp. replace 1 with (1 * 1) by ring. apply abs_mul_le; [rewrite Rabs_pos_eq; lra|].
    pose proof (SIN_bound E). apply Rabs_le. lra. }
  unfold ma1. rewrite Hg. replace (s5 (fin6 k)) with (Fin x) by now destruct k. replace (s1 (fin6 k)) with (Fin e) by now destruct k.
  destruct (otype s) eqn:Et.
  - unfold t2m1, e2m1, t2e1. cbn [inr outd]. rewrite !(br rd u L Hr) by lra. change (PropsFloatProp.NPp rd L) with NPp. destruct (acc_t2e rd u L Hr HL ltac:(lra) e x ltac:(lra) Hh) as (E' & E & F1 & F2 & F3 & F4 & _).
    change (NPa rd L) with NPp in F1. rewrite F1. destruct (acc_e2m rd u L Hr HL ltac:(lra) e E' ltac:(lra)) as (M' & G1 & G2). change (NPa rd L) with NPp in G1. rewrite G1.
    exists M', (E - e * sin E). split; [reflexivity|]. split.
    { intros nu. apply (body_same e ltac:(lra) ATrue x AMean _ x (cong_refl _)). exists E. split; [apply cong_refl|exact F2]. }
    pose proof (SE E') as S1.
    assert (Q : 11 / 10 * u * Rabs (E' - e * sin E') + 4 * u * e <= 18 * u).
    { assert (u * Rabs (E' - e * sin E') <= u * 11) by (apply Rmult_le_compat_l; lra). assert (u * e <= u * 1) by (apply Rmult_le_compat_l; lra). lra. }
    split.
    + assert (K : Rabs ((E' - e * sin E') - (E - e * sin E)) <= 2 * (100 * u)).
      { replace ((E' - e * sin E') - (E - e * sin E)) with ((E' - E) + - (e * (sin E' - sin E))) by ring.
        replace (2 * (100 * u)) with (100 * u + 1 * (100 * u)) by ring. apply abs_add_le; [exact F3|]. rewrite Rabs_Ropp. apply abs_mul_le; [rewrite Rabs_pos_eq; lra|].
        eapply Rle_trans; [apply sin_lip|exact F3]. }
      replace (M' - (E - e * sin E)) with ((M' - (E' - e * sin E')) + ((E' - e * sin E') - (E - e * sin E))) by ring.
      eapply Rle_trans; [apply abs_add_le; [exact G2|exact K]|]. assert (0 <= u * Rabs x) by (apply Rmult_le_pos; lra). lra.
    + replace M' with ((M' - (E' - e * sin E')) + (E' - e * sin E')) by ring. eapply Rle_trans; [apply abs_add_le; [exact G2|exact S1]|]. lra.
  - unfold e2m1. cbn [inr outd]. rewrite !(br rd u L Hr) by lra. change (PropsFloatProp.NPp rd L) with NPp. destruct (acc_e2m rd u L Hr HL ltac:(lra) e x ltac:(lra)) as (M' & G1 & G2). change (NPa rd L) with NPp in G1. rewrite G1.
    exists M', (x - e * sin x). split; [reflexivity|]. pose proof (SE x) as S1.
    assert (Q : 11 / 10 * u * Rabs (x - e * sin x) + 4 * u * e <= 11 / 10 * (u * Rabs x) + 6 * u).
    { assert (u * Rabs (x - e * sin x) <= u * (Rabs x + 1)) by (apply Rmult_le_compat_l; lra). assert (u * e <= u * 1) by (apply Rmult_le_compat_l; lra). lra. }
    split; [|split].
    + destruct (body_ex e ltac:(lra) AEcc x) as [nu0 Hn]. intros nu. apply (body_same e ltac:(lra) AEcc x AMean _ nu0 Hn). exists x. split; [apply cong_refl|exact Hn].
    + eapply Rle_trans; [exact G2|]. assert (0 <= u * Rabs x) by (apply Rmult_le_pos; lra). lra.
    + replace M' with ((M' - (x - e * sin x)) + (x - e * sin x)) by ring. eapply Rle_trans; [apply abs_add_le; [exact G2|exact S1]|]. lra.
  - exists x, x. split; [reflexivity|]. split; [intros nu; tauto|]. rewrite Rminus_diag_eq by auto. rewrite Rabs_R0. split; [apply Rmult_le_pos; lra|lra].
Qed.
Lemma nu_accG (s : orb) g g' (k : six R) M2 t : odeg s = false -> resolved u (s1 k) -> 0 <= M2 <= 2 * PI + 30 * u -> reachableG u (s1 k) t (oopts s) ->
  exists x nu', back1 s g' (Fin M2) (Fin (s1 k)) = Fin x /\ nu1 s g (fin6 (with_nu k x)) = Fin nu' /\
    forall E nu d, Rabs (E - s1 k * sin E - M2) <= d -> anomalies_ell (s1 k) nu E ->
      Rabs (cos nu' - cos nu) <= nu_err u (s1 k) t d /\ Rabs (sin nu' - sin nu) <= nu_err u (s1 k) t d.
Proof.
  intros Hg HR HM Ho. pose proof (rr_u _ _ Hr) as u0. assert (He := proj1 HR). set (e := s1 k) in *.
  destruct (m2e_elG rd u L (oopts s) t M2 e Hr HL HR HM Ho) as (E' & EE & HH & AE).
  destruct (nu_coreG rd u L t M2 e E' Hr HL HR HH AE) as (nu' & F1 & _ & F2). cbv zeta in F1.
  change (@m2e_el num NPp (oopts s) (Fin M2) (Fin e) = Fin E') in EE. change (wrap2pi (by_cases e2t_hyp e2t_per e2t_eli (Fin E') (Fin e)) = Fin nu') in F1.
  assert (S : forall x, s5 (fin6 (with_nu k x)) = Fin x) by (now intros; destruct k).
  assert (S1 : forall x, s1 (fin6 (with_nu k x)) = Fin e) by (now intros; destruct k).
  assert (E2 : forall g, e2t1 g false (Fin E') (Fin e) = Fin nu') by (intros h; unfold e2t1; cbn [inr outd]; rewrite (br rd u L Hr) by lra; change (PropsFloatProp.NPp rd L) with NPp; exact F1).
  assert (M1 : m2e1 (oopts s) false (Fin M2) (Fin e) = Fin E') by exact EE.
  assert (M3 : forall g, m2t1 g (oopts s) false (Fin M2) (Fin e) = Fin nu') by (intros h; unfold m2t1; cbn [inr outd]; rewrite M1; apply E2).
  unfold back1, nu1. rewrite Hg. destruct (otype s).
  - exists nu', nu'. rewrite M3, S. auto.
  - exists E', nu'. rewrite M1, S, S1, E2. auto.
  - exists M2, nu'. rewrite S, S1, M3. auto.
Qed.
End FloatPropG.

(** ** The theorem *)
Theorem C82_propagate : forall rd u L gb gb' n dt (s s' : orb) ks j (k : six R) m mu d t, rounding rd u -> lib_acc rd u L ->
  let N := NP_rd rd L in
  aligned n s -> wfv dt -> @propagate num N gb dt s = (s', Ok tt) ->
  snd (@get_kepler num N gb s) = Ok ks -> nth_error ks j = Some (fin6 k) -> nth_error (om s) j = Some (Fin m) -> entry1 dt j (Fin d) ->
  @mul num N (oG s) (@add num N (oM0 s) (Fin m)) = Fin mu -> 0 < mu -> 0 < s0 k -> resolved u (s1 k) -> is_float rd (s5 k) ->
  odeg s = false -> oauto s = true \/ odirect s = true -> reachableG u (s1 k) t (oopts s) ->
  1000 * (t + mean_err u (s5 k) (rate mu (s0 k) * d)) <= (1 - s1 k) ^ 3 ->
  forall M X, mean_of (otype s) (s1 k) (s5 k) M -> follows mu (with_nu k 0) M X ->
  exists cs y, snd (@get_cartesian num N gb' s') = Ok cs /\ nth_error cs j = Some (fin6 y) /\
    close (cart_err u (s1 k) t (mean_err u (s5 k) (rate mu (s0 k) * d))) y (X d).
Proof.
  intros rd u L gb gb' n dt s s' ks j k m mu d t Hr HL N A Hd E Ek Hj Hm Hdt Em Hmu Ha HR HF Hg Hau Ho Hb0 M X HM HX.
  pose proof (rr_u _ _ Hr) as u0. destruct (resolved_facts u _ u0 HR) as (Kk & Hu8 & _). assert (He := proj1 HR). assert (Hu : u <= / 1000000) by lra.
  assert (T0 : 0 <= t) by (destruct Ho as (_ & _ & Hut & _); lra).
  destruct (@propagate_ok num N gb n dt s s' A Hd E) as [Hok [ds Hb]].
  destruct (@propagate_spec num N gb n dt ds s A Hd Hok Hb) as [s2 [vs [E2 [A2 [Es [Eo [Eke [Lv [V [_ [_ Rc]]]]]]]]]]].
  assert (s2 = s') by congruence. subst s2.
  rewrite (@get_kepler_eq num N gb n) in Ek by apply A. cbn [snd] in Ek. injection Ek as Ek. rewrite <- Ek in Hj.
  assert (Ld : length ds = n) by (eapply bcast1_length; eauto using wfv_wf).
  assert (Hjn : (j < n)%nat) by (rewrite <- (l_k n _ (@lens_kchk num N gb n s (proj1 A))); eapply nth_error_lt; eauto).
  assert (Hdj : nth_error ds j = Some (Fin d)).
  { destruct (nth_error ds j) as [y|] eqn:Ey; [|apply nth_error_None in Ey; lia].
    pose proof (bcast1_entry n dt ds j y Hd Hb Ey) as Q. destruct dt; cbn [entry1] in *; congruence. }
  destruct (V j _ _ _ Hj Hm Hdj) as [g [g' Hv]].
  pose proof (Rabs_pos (s5 k)) as X5. set (nd := rate mu (s0 k) * d) in *. unfold mean_err in *. pose proof (Rabs_pos nd) as Xn.
  assert (Hx5 : 0 <= u * Rabs (s5 k)) by (apply Rmult_le_pos; lra). assert (Hxn : 0 <= u * Rabs nd) by (apply Rmult_le_pos; lra).
  assert (Hx50 : u * Rabs (s5 k) <= / 30000).
  { assert ((1 - s1 k) ^ 3 <= 1) by (replace 1 with (1 ^ 3) at 2 by ring; apply pow_incr; lra). lra. }
  destruct (mean_accG rd u L Hr HL s g k Hu Hg He (float_half _ _ _ _ HL HF) Hx50) as (M1 & Mx & EM & HMx & DM & BM).
  destruct (adv_acc rd u L Hr HL Hu s M1 (s0 k) m mu d Hg Em Ha Hmu) as (M2 & z & EA & B20 & DA). fold nd in DA.
  change (NPp rd L) with N in EM. change (PropsFloatProp.NPp rd L) with N in EA. rewrite EM in Hv. replace (s0 (fin6 k)) with (Fin (s0 k)) in Hv by now destruct k. rewrite EA in Hv.
  replace (s1 (fin6 k)) with (Fin (s1 k)) in Hv by now destruct k.
  assert (Hz : lazy s = true \/ odirect s = true).
  { unfold lazy. destruct (odirect s); [auto|]. destruct Hau as [-> |?]; [auto|discriminate]. }
  assert (Q : exists x, @back1 num N s g' (Fin M2) (Fin (s1 k)) = Fin x) by (destruct (nu_accG rd u L Hr HL s NaN g' k M2 t Hg HR B20 Ho) as (x & nu' & Q & _); exists x; exact Q).
  destruct Q as [x Qx]. rewrite Qx in Hv.
  assert (J' : nth_error (okep s') j = Some (fin6 (with_nu k x))) by (rewrite Eke, (set_row_nth 5 _ _ _ _ _ Hj Hv); f_equal; apply set5_fin).
  destruct (Rc Hz gb' j _ _ J' (fin6_nanp rd L _) Hm) as [c [Hc [h Cc]]].
  rewrite (@get_cartesian_eq num N gb' n) by apply A2. cbn [snd].
  destruct (nu_accG rd u L Hr HL s h g' k M2 t Hg HR B20 Ho) as (x0 & nu' & Q1 & Q2 & Q3). change (NPp rd L) with N in Q1, Q2.
  assert (x0 = x) by congruence. subst x0. rewrite Q2 in Cc.
  (* the motion *)
  destruct (HX d) as [nu0 [E0 [An [Sm St]]]]. change (k_e (with_nu k 0)) with (s1 k) in *. change (k_a (with_nu k 0)) with (s0 k) in Sm.
  pose proof (anom_valid mu (with_nu k 0) nu0 E0 Hmu Ha (proj1 He) An) as V0.
  rewrite (state_of_inv mu _ (X d) V0 St).
  unfold anomalies, same_mean, mean_rate, kepler_M in An, Sm. destruct (Rlt_dec (s1 k) 1); [|lra].
  change (sqrt (mu / (s0 k * s0 k * s0 k))) with (rate mu (s0 k)) in Sm. fold nd in Sm.
  destruct (mean_of_unique (otype s) (s1 k) (s5 k) M Mx ltac:(lra) HM HMx) as [w Hw]. destruct Sm as [w' Hw'].
  set (z' := (z - w - w')%Z). set (E1 := E0 + 2 * PI * IZR z').
  assert (KE : E1 - s1 k * sin E1 = Mx + nd + 2 * PI * IZR z) by (unfold E1; rewrite kepler_turn; unfold z'; rewrite !minus_IZR, Hw', Hw; ring).
  assert (An1 : anomalies_ell (s1 k) nu0 E1) by (apply (ell_compat (s1 k) nu0 nu0 E0); [apply cong_refl|apply cong_sym; now exists z'|auto]).
  set (dd := u * (380 + 30 * (Rabs (s5 k) + Rabs nd))).
  assert (DD : Rabs (E1 - s1 k * sin E1 - M2) <= dd).
  { rewrite KE, Rabs_minus_sym. replace (M2 - (Mx + nd + 2 * PI * IZR z)) with ((M2 - (M1 + nd + 2 * PI * IZR z)) + (M1 - Mx)) by ring.
    eapply Rle_trans; [apply abs_add_le; [exact DA|exact DM]|]. unfold dd.
    assert (u * Rabs M1 <= u * (Rabs (s5 k) + 13)) by (apply Rmult_le_compat_l; lra). lra. }
  destruct (Q3 E1 nu0 dd DD An1) as [Cc1 Cs1].
  assert (DD0 : 0 <= dd) by (eapply Rle_trans; [apply Rabs_pos|exact DD]).
  destruct (cart_coreG rd u L mu k nu0 nu' (nu_err u (s1 k) t dd) (fun _ => NaN) Hr (la_trig _ _ _ HL) HR Hmu Ha (nu_err_small u (s1 k) t dd u0 HR T0 DD0 Hb0) Cc1 Cs1) as (y & Ey & Cy).
  exists (ocart (@cchk num N gb' s')), y. split; [reflexivity|]. split.
  - rewrite Hc. f_equal. rewrite Cc. unfold cconv. rewrite Hg. unfold mu_of. rewrite Em.
    destruct (@kep_to_cart_vec num N (fun _ => NaN) (fin6 (with_nu k nu')) (MuS (Fin mu)) false [Fin mu] eq_refl) as [m' [Em' Ev]].
    assert (m' = Fin mu) as -> by congruence. change (NP_rd rd L) with N in Ey. rewrite Ev in Ey. cbn [snd] in Ey.
    assert (forall a b, Ok (KVec a) = Ok (KVec b) :> res (kinput num) -> a = b) as IJ by (intros ? ? [= Q]; exact Q). rewrite <- (IJ _ _ Ey).
    replace (set5 (fin6 (with_nu k x)) (Fin nu')) with (fin6 (with_nu k nu')) by now destruct k. reflexivity.
  - change (with_nu (with_nu k 0) nu0) with (with_nu k nu0). exact Cy.
Qed.

(** ** Binary64, default solver options, mu = 1, eccentricity 0.9 *)
Definition k82 : six R := mk6 1 (9 / 10) 1 0 0 1.
Example C82_example : forall gb, exists s s' X cs y t,
  @set_kepler num N64 gb (kvec k82) s64 = (s, Ok tt) /\ @propagate num N64 gb (Sc (Fin 2)) s = (s', Ok tt) /\
  follows 1 k82 (1 - 9 / 10 * sin 1) X /\ newton 1 X /\ snd (@get_cartesian num N64 gb s') = Ok cs /\ nth_error cs 0 = Some (fin6 y) /\
  close (cart_err u64 (9 / 10) t (mean_err u64 1 2)) y (X 2) /\ 0 < t <= 102 / 100 * / 1000000000000 /\ cart_err u64 (9 / 10) t (mean_err u64 1 2) <= / 1000000000.
Proof.
  intros gb. pose proof u64_eq as U. destruct (reachable64 (9 / 10) ltac:(lra)) as (t & Ho & T).
  pose (s := @aft_kep num N64 gb (with_kep (fun _ => [fin6 k82]) s64)).
  assert (A : aligned 1 s) by (split; [now constructor|exists [nan]; auto]).
  destruct (C56_trajectory 1 (with_nu k82 0) (1 - 9 / 10 * sin 1)) as (X & HX & HN); try (unfold k_a, k_e; cbn; lra).
  destruct (@propagate_spec num N64 gb 1 (Sc (Fin 2)) [Fin 2] s A) as [s' [_ [E _]]]; [exact I|reflexivity|reflexivity|].
  assert (R1 : rate 1 1 = 1) by (unfold rate; replace (1 / (1 * 1 * 1)) with 1 by field; apply sqrt_1).
  assert (Hk : snd (@get_kepler num N64 gb s) = Ok [fin6 k82]).
  { rewrite (@get_kepler_eq num N64 gb 1) by apply A. reflexivity. }
  assert (R0 : FloatBase.rnd 53 (Q2R 0) = 0) by (replace (Q2R 0) with 0 by (unfold Q2R; cbn; lra); apply FloatBase.rnd_0).
  assert (ME : mean_err u64 1 2 = u64 * 470) by (unfold mean_err; rewrite !Rabs_pos_eq by lra; ring).
  destruct (C82_propagate (FloatBase.rnd 53) u64 PropsFloat.libm0 gb gb 1 (Sc (Fin 2)) s s' [fin6 k82] 0 k82 0 1 2 t
    (binary_rounding 53 ltac:(lia)) (binary_lib 53 ltac:(lia)) A I E Hk eq_refl) with (M := 1 - 9 / 10 * sin 1) (X := X)
    as (cs & y & C1 & C2 & C3); try (cbn; lra); try reflexivity; auto.
  - change (Some (Fin (FloatBase.rnd 53 (Q2R 0))) = Some (Fin 0)). now rewrite R0.
  - change (Fin (FloatBase.rnd 53 (1 * FloatBase.rnd 53 (1 + 0))) = Fin 1). f_equal. rewrite Rplus_0_r, FloatBase.rnd_1, Rmult_1_l by lia. apply FloatBase.rnd_1. lia.
  - cbn [k82 s1]. split; [lra|rewrite U; lra].
  - apply FloatBase.rnd_1. lia.
  - cbn [k82 s5 s0 s1]. rewrite R1, Rmult_1_l, ME, U. lra.
  - intros nu. destruct (body_ex (9 / 10) ltac:(lra) AEcc 1) as [nu0 Hn]. apply (body_same (9 / 10) ltac:(lra) AEcc 1 AMean _ nu0 Hn). exists 1. split; [apply cong_refl|exact Hn].
  - exists s, s', X, cs, y, t. split; [reflexivity|]. split; [exact E|]. split; [exact HX|]. split; [exact HN|]. split; [exact C1|]. split; [exact C2|].
    cbn [k82 s5 s0 s1] in C3. rewrite R1, Rmult_1_l in C3. split; [exact C3|]. split; [lra|].
    unfold cart_err, nu_err. assert (K : kappa (9 / 10) <= 5) by (unfold kappa; rewrite <- (sqrt_square 5) by lra; apply sqrt_le_1_alt; lra).
    assert (K0 : 0 <= kappa (9 / 10)) by apply sqrt_pos.
    assert (Ut : 0 <= u64 * t <= / 1000000 * t) by (rewrite U; split; [apply Rmult_le_pos; lra|apply Rmult_le_compat_r; lra]). rewrite ME.
    assert (B : kappa (9 / 10) * ((1 + 4 * u64) * t + 6 * u64 * (9 / 10) + u64 * 470) <= 5 * (12 / 10 * / 1000000000000)) by (apply Rmult_le_compat; rewrite ?U in *; lra).
    rewrite U in *. lra.
Qed.
