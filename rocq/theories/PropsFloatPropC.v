(** * C86: propagating a Cartesian state in floating point arithmetic: assign orb.cartesian, orb.propagate(dt), read orb.cartesian *)
From Coq Require Import Reals QArith Qreals ZArith Lra Lia Psatz Bool List Arith.
From Verif Require Import NP KeplerModel ConvModel UnitModel OrbitModel Lists ConvCols ArraySpec NPReal NPFloat FloatBase RealBase Spec AnomReal KepReal CartReal PropsKep
  PropsAnomaly EllState OrbitLists OrbitBase OrbitOps OrbitSetters OrbitGet OrbitSpec PropsOrbitWidth PropsOrbitDirect PropsOrbitLazy PropsOrbitWrite OrbitReal PropsScalar PropsCart PropsArray PropsOrbitCalc CartInv
  PropsOrbitType PropsOrbitProp PropsOrbitPropR PropsNewton PropsOrbitNewton FloatAcc FloatVec PropsFloat PropsFloatAcc PropsFloatAnom FloatLag PropsFloatLag
  PropsFloatLagG PropsFloatProp PropsFloatPropG LagTrig LagRobust FloatC2K FloatC2KCol FloatC2KAcc PropsFloatC2K PropsFloatRT ElemPert FlowPert FlowTraj.
Import ListNotations.
Local Open Scope R_scope.

(** ** Reading the Kepler elements after an assignment to orb.cartesian, any scalar type *)
Section Read.
Context {F : Type} `{NP F}.
Lemma kep_after_cart gb0 gb1 gb n v (s0 s : OrbitModel.orb F) cs j c m : aligned n s0 -> wfv v -> set_cartesian gb0 v s0 = (s, Ok tt) ->
  oauto s0 = true \/ odirect s0 = true -> snd (get_cartesian gb1 s) = Ok cs -> nth_error cs j = Some c -> nan6 c = false -> nth_error (om s0) j = Some m ->
  aligned n s /\ settings s = settings s0 /\ om s = om s0 /\ exists ks g, snd (get_kepler gb s) = Ok ks /\ nth_error ks j = Some (kconv s0 g c m).
Proof.
  intros A Hv E Hau Hc Hj Hn Hm. pose proof A as [Hs HE]. rewrite (set_cartesian_eq gb0 n) in E by auto. destruct (ocro s0); [discriminate|].
  destruct (whole_value n v) as [cs0|] eqn:Ew; [|discriminate]. injection E as E. assert (L : length cs0 = n) by (eapply whole_value_length; eauto).
  set (t := with_cart (fun _ => cs0) s0) in *. assert (At : aligned n t) by now apply aligned_with_cart.
  assert (A' : aligned n s) by (rewrite <- E; now apply aligned_aft_cart). pose proof (proj1 At) as Ht. pose proof (proj1 A') as Hs'.
  assert (St : settings s = settings t) by (rewrite <- E; now apply (aft_cart_settings gb0 n)). assert (S0 : settings t = settings s0) by reflexivity.
  assert (Om : om s = om t). { rewrite <- E. unfold aft_cart. destruct (kall_spec gb0 n t Ht) as [_ [_ [_ [_ [X _]]]]]. destruct (odirect t); auto. }
  split; [auto|]. split; [congruence|]. split; [exact Om|].
  assert (Cs : cs = cs0).
  { rewrite (get_cartesian_eq gb1 n) in Hc by auto. cbn [snd] in Hc. injection Hc as Hc. rewrite <- Hc.
    rewrite (cchk_keeps gb1 n) by (auto; rewrite <- E; now apply (after_cart_fresh gb0 n)). rewrite <- E. rewrite (aft_cart_ocart gb0 n) by auto. reflexivity. }
  subst cs0. rewrite (get_kepler_eq gb n) by auto. cbn [snd]. exists (okep (kchk gb s)).
  assert (Hjn : (j < n)%nat) by (rewrite <- L; eapply nth_error_lt; eauto).
  destruct (kchk_spec gb n s Hs') as [_ [_ KS]]. destruct KS as (_ & _ & _ & _ & _ & _ & KS).
  destruct (odirect s0) eqn:Ed.
  - (* the elements were computed by the assignment *)
    assert (Es : s = kall gb0 t) by (rewrite <- E; unfold aft_cart; change (odirect t) with (odirect s0); now rewrite Ed).
    destruct (col_ex n t j Ht Hjn) as (c1 & k1 & m1 & cb & kb & C).
    destruct (kall_spec gb0 n t Ht) as [_ [_ (_ & _ & _ & _ & _ & _ & KA)]]. destruct (KA _ _ _ _ _ _ C) as (c' & k' & cb' & kb' & C' & -> & -> & _ & R).
    assert (c1 = c) by (destruct C as [Q _ _ _ _]; change (ocart t) with cs in Q; congruence). assert (m1 = m) by (destruct C as [_ _ Q _ _]; change (om t) with (om s0) in Q; congruence). subst c1 m1.
    destruct (R Hn) as [(g & ->) ->]. rewrite <- Es in C'. destruct (KS _ _ _ _ _ _ C') as (c'' & k'' & cb'' & kb'' & C'' & _ & _ & N1 & _).
    assert (Z : lazy s && negb true && negb (nan6 c) = false) by (rewrite andb_false_r; reflexivity). destruct (N1 Z) as [-> _].
    exists g. split; [reflexivity|]. rewrite (col_k _ _ _ _ _ _ _ C''). f_equal.
  - (* the reading computes them *)
    assert (Es : s = with_cf all_true (with_kf all_false t)) by (rewrite <- E; unfold aft_cart; change (odirect t) with (odirect s0); now rewrite Ed).
    assert (Ea : oauto s0 = true) by (destruct Hau; congruence).
    destruct (col_ex n s j Hs' Hjn) as (c1 & k1 & m1 & cb & kb & C).
    assert (c1 = c) by (destruct C as [Q _ _ _ _]; rewrite Es in Q; change (nth_error cs j = Some c1) in Q; congruence).
    assert (m1 = m) by (destruct C as [_ _ Q _ _]; rewrite Es in Q; change (nth_error (om s0) j = Some m1) in Q; congruence). subst c1 m1.
    assert (Kb : kb = false). { destruct C as [_ _ _ _ Q]. rewrite Es in Q. change (nth_error (all_false (okf s0)) j = Some kb) in Q. unfold all_false in Q. rewrite nth_error_map in Q. destruct (nth_error (okf s0) j); [|discriminate]. cbn in Q. congruence. }
    subst kb. destruct (KS _ _ _ _ _ _ C) as (c'' & k'' & cb'' & kb'' & C'' & _ & _ & _ & N2).
    assert (Z : lazy s && negb false && negb (nan6 c) = true) by (rewrite Hn; unfold lazy; pose proof (settings_eq _ _ St) as (_ & _ & -> & -> & _); change (oauto t) with (oauto s0); change (odirect t) with (odirect s0); now rewrite Ea, Ed).
    destruct (N2 Z) as [(g & ->) _]. exists g. split; [reflexivity|]. rewrite (col_k _ _ _ _ _ _ _ C''). f_equal. apply kconv_settings. congruence.
Qed.
End Read.

(** ** The element the Orbit holds after the assignment *)
Section Held.
Context (p : Z) (Hp : (1 < p)%Z) (L : libm) (HLo : acos_ok p L) (HA : acos_acc p L) (HT : lib_acc (rnd p) (ulp1 p) L).
Let rd := rnd p.
Let u := ulp1 p.
#[local] Instance NPh : NP num := NP_rd rd L.
Lemma rd_idem x : rd (rd x) = rd x.
Proof. apply rnd_fmt, fmt_rnd. lia. Qed.
Lemma lib2_float f ex b c y : lib2 rd f ex b c = Fin y -> rd y = y.
Proof. unfold lib2. destruct b, c, (ex _ _); cbn [rnum]; intros Q; try discriminate Q; injection Q as <-; apply rd_idem. Qed.
Lemma wrap_float a y : wrap2pi a = Fin y -> rd y = y.
Proof. apply lib2_float. Qed.
Lemma sub_float a b y : @sub num NPh a b = Fin y -> rd y = y.
Proof. change (rnum rd (num_sub a b) = Fin y -> rd y = y). destruct (num_sub a b); cbn [rnum]; intros Q; try discriminate Q; injection Q as <-; apply rd_idem. Qed.
Lemma held (s : OrbitModel.orb num) g mu m k : odeg s = false -> mu_of s (Fin m) = Fin mu -> valid_kep mu k -> regular_kep u k -> u <= / 1000000 ->
  exists k' x M' Mx, kconv s g (fin6 (peri_state mu k)) (Fin m) = fin6 (with_nu k' x) /\ elements_within u k' k /\ is_float rd x /\ Rabs x <= 13 /\
    mean_of (otype s) (k_e k') x M' /\ mean_of ATrue (k_e k') (k_nu k') Mx /\ Rabs (M' - Mx) <= 220 * u.
Proof.
  intros Hg Em Hv Hk Hu6. pose proof (binary_rounding p Hp) as Hr. change (Core.Raux.bpow Core.Zaux.radix2 (- p)) with u in Hr. pose proof (rr_u _ _ Hr) as u0.
  destruct (column p L mu k Hp HLo HA Hv Hk) as (k' & E & W & _ & _ & _ & _ & B5). exists k'.
  pose proof Hk as (He & Hi & Hw & Hinc & Hlim & Hel).
  assert (Fl : is_float rd (k_nu k')).
  { destruct (col_acc p Hp L HLo HA mu k Hv He Hi Hw Hinc Hlim Hel) as [E' _].
    rewrite E in E'. apply (f_equal (fun c => match s5 c with Fin r => r | _ => 0 end)) in E'. assert (Q : k_nu k' = f_nu p L (peri_state mu k) mu) by exact E'.
    rewrite Q. unfold is_float, f_nu, flipF. destruct (Rltb _ _); apply rd_idem. }
  assert (He' : 0 <= k_e k' < 1).
  { destruct W as (_ & De & _). apply abs_in in De. fold u in De, Hw. destruct (units_le p k He Hi) as (_ & W1 & W2 & W3 & W4 & W5). fold u in W1, W2, W3, W4, W5.
    assert (Q : u / k_e k <= / 100000000) by lra. assert (Q1 : u / (1 - k_e k) <= / 100000000) by lra.
    assert (u <= / 100000000 * k_e k). { replace u with (u / k_e k * k_e k) by (field; lra). apply Rmult_le_compat_r; lra. }
    assert (u <= / 100000000 * (1 - k_e k)). { replace u with (u / (1 - k_e k) * (1 - k_e k)) at 1 by (field; lra). apply Rmult_le_compat_r; lra. }
    lra. }
  assert (Hcol : kconv s g (fin6 (peri_state mu k)) (Fin m) = match otype s with ATrue => fin6 k' | AEcc => set5 (fin6 k') (t2e1 (fst g) false (Fin (k_nu k')) (Fin (k_e k'))) | AMean => set5 (fin6 k') (t2m1 g false (Fin (k_nu k')) (Fin (k_e k'))) end).
  { unfold kconv. rewrite Hg, Em. change (c2k_col false (fin6 (peri_state mu k)) (Fin mu)) with (@c2k_col num (NP_rd (rnd p) L) false (fin6 (peri_state mu k)) (Fin mu)). rewrite E. destruct (otype s), k'; reflexivity. }
  destruct (acc_t2e rd u L Hr HT ltac:(lra) (k_e k') (k_nu k') He' (float_half _ _ _ _ HT Fl)) as (E' & E0 & F1 & F2 & F3 & F4 & _). change (NPa rd L) with NPh in F1.
  destruct (acc_e2m rd u L Hr HT ltac:(lra) (k_e k') E' He') as (M' & G1 & G2). change (NPa rd L) with NPh in G1.
  assert (MT : mean_of ATrue (k_e k') (k_nu k') (E0 - k_e k' * sin E0)).
  { intros nu. apply (body_same (k_e k') He' ATrue _ AMean _ (k_nu k') (cong_refl _)). exists E0. split; [apply cong_refl|exact F2]. }
  assert (T2E : t2e1 (fst g) false (Fin (k_nu k')) (Fin (k_e k')) = Fin E') by (unfold t2e1; cbn [inr outd]; rewrite (br rd u L Hr) by lra; exact F1).
  assert (T2M : t2m1 g false (Fin (k_nu k')) (Fin (k_e k')) = Fin M').
  { unfold t2m1, e2m1. cbn [inr outd]. rewrite T2E, (br rd u L Hr) by lra. exact G1. }
  assert (D : Rabs (E' - k_e k' * sin E' - (E0 - k_e k' * sin E0)) <= 200 * u).
  { pose proof (kepler_dir (k_e k') (k_e k') E0 E' (100 * u) ltac:(lra) F3) as Q. rewrite (Rminus_diag_eq (k_e k')), Rabs_R0 in Q by auto. lra. }
  assert (SE : Rabs (E' - k_e k' * sin E') <= 11).
  { replace (E' - k_e k' * sin E') with (E' + - (k_e k' * sin E')) by ring. replace 11 with (10 + 1 * 1) by ring. apply abs_add_le; [exact F4|]. rewrite Rabs_Ropp. apply abs_mul_le; [rewrite Rabs_pos_eq; lra|]. pose proof (SIN_bound E'). apply Rabs_le. lra. }
  destruct (otype s) eqn:Et; rewrite Hcol.
  - exists (k_nu k'), (E0 - k_e k' * sin E0), (E0 - k_e k' * sin E0). split; [now destruct k'|]. split; [exact W|]. split; [exact Fl|]. split; [lra|]. split; [exact MT|]. split; [exact MT|].
    rewrite Rminus_diag_eq, Rabs_R0 by auto. lra.
  - exists E', (E' - k_e k' * sin E'), (E0 - k_e k' * sin E0). rewrite T2E. split; [now destruct k'|]. split; [exact W|]. split; [apply (wrap_float _ _ F1)|]. split; [lra|].
    split; [|split; [exact MT|lra]]. destruct (body_ex (k_e k') He' AEcc E') as [nu0 Hn]. intros nu. apply (body_same (k_e k') He' AEcc E' AMean _ nu0 Hn). exists E'. split; [apply cong_refl|exact Hn].
  - exists M', M', (E0 - k_e k' * sin E0). rewrite T2M. split; [now destruct k'|]. split; [exact W|]. 
    assert (Q : 11 / 10 * u * Rabs (E' - k_e k' * sin E') + 4 * u * k_e k' <= 18 * u).
    { assert (u * Rabs (E' - k_e k' * sin E') <= u * 11) by (apply Rmult_le_compat_l; lra). assert (u * k_e k' <= u * 1) by (apply Rmult_le_compat_l; lra). lra. }
    split. { unfold is_float. rewrite (a_branch rd u L Hr) in G1 by lra. apply (sub_float _ _ _ G1). }
    split. { replace M' with ((M' - (E' - k_e k' * sin E')) + (E' - k_e k' * sin E')) by ring. eapply Rle_trans; [apply abs_add_le; [exact G2|exact SE]|]. lra. }
    split; [intros nu; tauto|]. split; [exact MT|].
    replace (M' - (E0 - k_e k' * sin E0)) with ((M' - (E' - k_e k' * sin E')) + (E' - k_e k' * sin E' - (E0 - k_e k' * sin E0))) by ring.
    eapply Rle_trans; [apply abs_add_le; [exact G2|exact D]|]. lra.
Qed.
End Held.

(** ** Bounds, monotone in the eccentricity *)
Lemma kappa_mono e' e : 0 <= e' <= e -> e < 1 -> kappa e' <= kappa e.
Proof.
  intros H1 H2. unfold kappa. apply sqrt_le_1_alt. apply Rmult_le_reg_r with ((1 - e) * (1 - e')); [apply Rmult_lt_0_compat; lra|].
  replace ((1 + e') / (1 - e') * ((1 - e) * (1 - e'))) with ((1 + e') * (1 - e)) by (field; lra).
  replace ((1 + e) / (1 - e) * ((1 - e) * (1 - e'))) with ((1 + e) * (1 - e')) by (field; lra). lra.
Qed.
Lemma div_mono a' a e' e : 0 <= a' <= a -> e' <= e -> e < 1 -> a' / (1 - e') <= a / (1 - e).
Proof. intros Ha He H. apply Rmult_le_compat; try lra; [apply Rlt_le, Rinv_0_lt_compat; lra|apply Rinv_le_contravar; lra]. Qed.
Lemma cart_err_mono u e' e t d' d : 0 <= u -> 0 <= t -> 0 <= e' <= e -> e < 1 -> 0 <= d' <= d -> 0 <= cart_err u e' t d' <= cart_err u e t d.
Proof.
  intros Hu Ht He H Hd. assert (K := kappa_mono e' e He H). assert (K0 : 0 <= kappa e') by apply sqrt_pos.
  assert (ut : 0 <= u * t) by now apply Rmult_le_pos. assert (ue : 0 <= u * e' <= u * e) by (split; [apply Rmult_le_pos|apply Rmult_le_compat_l]; lra).
  assert (N : 0 <= kappa e' * ((1 + 4 * u) * t + 6 * u * e' + d') / (1 - e') <= kappa e * ((1 + 4 * u) * t + 6 * u * e + d) / (1 - e)).
  { split; [apply Rmult_le_pos; [apply Rmult_le_pos; lra|apply Rlt_le, Rinv_0_lt_compat; lra]|]. apply div_mono; try lra. split; [apply Rmult_le_pos; lra|apply Rmult_le_compat; lra]. }
  unfold cart_err, nu_err. split; [apply Rmult_le_pos; [lra|apply Rlt_le, Rinv_0_lt_compat; lra]|]. apply div_mono; lra.
Qed.
Lemma reachable_mono u e' e t o : e' <= e -> e < 1 -> reachableG u e t o -> reachableG u e' t o.
Proof.
  intros H H1 (A & B & C & m & m2 & D1 & D2 & D3). split; [auto|]. split; [auto|]. split; [auto|]. exists m, m2. split; [|auto].
  eapply Rle_trans; [exact D1|]. apply pow_incr. lra.
Qed.

(** ** The theorem *)
(** the largest eccentricity cart_to_kep can return for the elements k *)
Definition e_up (u : R) (k : six R) : R := k_e k + 290 * u.
(** error of the elements, carried along by the motion: nd the advance of the mean anomaly *)
Definition elem_err (u : R) (k : six R) (nd : R) : R :=
  let e := k_e k in (1710 * sqrt (u / (e * (1 - e) * sin (k_i k))) + 720 * (u / (1 - e)) * Rabs nd) / ((1 - e) * (1 - e)).
Definition adv_err (u nd : R) : R := u * (800 + 31 * Rabs nd).
Theorem C86_propagate_cartesian : forall p L gb0 gb1 gb gb' n v dt (sa s s' : OrbitModel.orb num) cs j (k x : six R) m mu d t,
  (1 < p)%Z -> acos_ok p L -> acos_acc p L -> lib_acc (rnd p) (ulp1 p) L ->
  let N := NP_rd (rnd p) L in let u := ulp1 p in
  aligned n sa -> wfv v -> wfv dt ->
  (* orb.cartesian = v; orb.propagate(dt) *)
  @set_cartesian num N gb0 v sa = (s, Ok tt) -> @propagate num N gb dt s = (s', Ok tt) ->
  (* object j: state x, of the Kepler elements k, to be advanced by d *)
  snd (@get_cartesian num N gb1 s) = Ok cs -> nth_error cs j = Some (fin6 x) -> nth_error (om sa) j = Some (Fin m) -> entry1 dt j (Fin d) ->
  @mul num N (oG sa) (@add num N (oM0 sa) (Fin m)) = Fin mu -> valid_kep mu k -> state_of mu k x -> regular_kep u k ->
  odeg sa = false -> oauto sa = true \/ odirect sa = true ->
  (* the precision resolves the orbit, the solver reaches its tolerance *)
  let nd := rate mu (k_a k) * d in
  resolved u (e_up u k) -> reachableG u (e_up u k) t (oopts sa) -> 1000 * (t + adv_err u nd) <= (1 - e_up u k) ^ 3 -> elem_err u k nd <= / 10 ->
  (* the exact motion *)
  forall M X, mean_of ATrue (k_e k) (k_nu k) M -> follows mu (with_nu k 0) M X ->
  let D := elem_err u k nd + 11 / 10 * cart_err u (e_up u k) t (adv_err u nd) in
  exists cs' y, snd (@get_cartesian num N gb' s') = Ok cs' /\ nth_error cs' j = Some (fin6 y) /\ near D D y (X d).
Proof.
  intros p L gb0 gb1 gb gb' n v dt sa s s' cs j k x m mu d t Hp HLo HA HT N u A Hv Hdt Es Ep Hc Hj Hm Hd Em Hk Hx Hrg Hg Hau nd HR Ho Hb HB M X HM HX D.
  pose proof (state_of_inv mu k x Hk Hx) as ->. pose proof (binary_rounding p Hp) as Hr. change (Core.Raux.bpow Core.Zaux.radix2 (- p)) with u in Hr. pose proof (rr_u _ _ Hr) as u0'.
  destruct (resolved_facts u _ u0' HR) as (Kk & Hu8 & Hu1 & Hu2 & _).
  destruct (@kep_after_cart num N gb0 gb1 gb n v sa s cs j _ (Fin m) A Hv Es Hau Hc Hj (PropsOrbitType.fin6_nan _) Hm) as (A' & St & Om & ks & g & Hks & Hkj).
  destruct (held p Hp L HLo HA HT sa g mu m k Hg Em Hk Hrg ltac:(fold u; lra)) as (k' & z & M' & Mx & Ek & W & Fz & Bz & MM & MT & DM). change (NPh p L) with N in Ek. fold u in W, DM.
  rewrite Ek in Hkj. apply settings_eq in St. destruct St as (S1 & S2 & S3 & S4 & _ & _ & S7 & S8 & S9).
  pose proof Hrg as (He & Hi & Hw & Hinc & Hlim & Hel). destruct (units_le p k He Hi) as (U & W1 & W2 & W3 & W4 & W5). fold u in U, W1, W2, W3, W4, W5.
  set (e := k_e k) in *. set (e' := k_e k') in *. set (w := u / (e * (1 - e) * sin (k_i k))) in *. set (w1 := u / (1 - e)) in *.
  pose proof W as (Da & De & _). fold e e' w1 in Da, De. assert (De' := De). apply abs_in in De'.
  assert (Hue : u <= / 100000000 * e). { assert (Q : u / e <= / 100000000) by lra. replace u with (u / e * e) at 1 by (field; lra). apply Rmult_le_compat_r; lra. }
  assert (Eup : e_up u k = e + 290 * u) by reflexivity.
  assert (He' : 0 <= e' <= e_up u k) by (rewrite Eup; lra).
  assert (Ha' : 0 < k_a k'). { destruct Hk as (_ & Hp' & _). apply abs_in in Da. assert (100 * w1 * k_a k <= / 1000 * k_a k) by (apply Rmult_le_compat_r; lra). lra. }
  pose proof (proj1 Hk) as Hmu. pose proof (proj1 (proj2 Hk)) as Ha.
  assert (R' : resolved u e'). { split; [lra|]. eapply Rle_trans; [apply (proj2 HR)|]. apply pow_incr. lra. }
  assert (Dn : Rabs (rate mu (k_a k') * d) <= 1001 / 1000 * Rabs nd).
  { unfold nd. rewrite !Rabs_mult, <- Rmult_assoc. apply Rmult_le_compat_r; [apply Rabs_pos|].
    pose proof (rate_pert mu (k_a k) (k_a k') (100 * w1) Hmu Ha ltac:(lra) Da) as Q. pose proof (sqrt_pos (mu / (k_a k * k_a k * k_a k))) as P. change (0 <= rate mu (k_a k)) in P.
    rewrite (Rabs_pos_eq (rate mu (k_a k))), (Rabs_pos_eq (rate mu (k_a k'))) by apply sqrt_pos. apply abs_in in Q.
    assert (31 / 10 * (100 * w1) * rate mu (k_a k) <= / 1000 * rate mu (k_a k)) by (apply Rmult_le_compat_r; lra). lra. }
  assert (MD : 0 <= mean_err u z (rate mu (k_a k') * d) <= adv_err u nd).
  { unfold mean_err, adv_err. pose proof (Rabs_pos z). pose proof (Rabs_pos nd). pose proof (Rabs_pos (rate mu (k_a k') * d)). split; [apply Rmult_le_pos; lra|apply Rmult_le_compat_l; lra]. }
  assert (T0 : 0 <= t) by (destruct Ho as (_ & _ & Hut & _); lra).
  destruct (C56_trajectory mu (with_nu k' 0) M' Hmu Ha' (proj1 He')) as (X' & HX' & _).
  destruct (C82_propagate (rnd p) u L gb gb' n dt s s' ks j (with_nu k' z) m mu d t Hr HT A' Hdt Ep Hks Hkj) with (M := M') (X := X') as (cs' & y & C1 & C2 & C3); auto.
  - now rewrite Om.
  - rewrite S1, S2. exact Em.
  - rewrite S7. exact Hg.
  - rewrite S3, S4. exact Hau.
  - rewrite S9. apply (reachable_mono u e' (e_up u k)); auto; lra.
  - change (s1 (with_nu k' z)) with e'. change (s0 (with_nu k' z)) with (k_a k'). change (s5 (with_nu k' z)) with z. apply Rle_trans with ((1 - e_up u k) ^ 3); [lra|]. apply pow_incr. lra.
  - rewrite S8. exact MM.
  - exists cs', y. split; [exact C1|]. split; [exact C2|].
    change (s1 (with_nu k' z)) with e' in C3. change (s0 (with_nu k' z)) with (k_a k') in C3. change (s5 (with_nu k' z)) with z in C3.
    pose proof (cart_err_mono u e' (e_up u k) t _ _ u0' T0 He' ltac:(lra) MD) as [K0 K1].
    assert (Hw2 : w1 <= (1 - e) / 100000).
    { unfold w1. apply Rmult_le_reg_r with (1 - e); [lra|]. replace (u / (1 - e) * (1 - e)) with u by (field; lra).
      assert ((1 - e_up u k) ^ 2 <= (1 - e) ^ 2) by (apply pow_incr; rewrite Eup; lra). lra. }
    pose proof (flow mu u k k' Hk He Hi U Hw Hw2 W (proj1 He') M Mx M' X X' d (220 * u) HM MT ltac:(lra) (ex_intro _ M' (conj (cong_refl _) DM)) HX HX') as FL. cbv zeta in FL. fold nd in FL.
    assert (FE : 0 <= flow_err u k (220 * u) nd <= elem_err u k nd).
    { unfold flow_err, elem_err. cbv zeta. fold e w w1. pose proof (Rabs_pos nd) as P. assert (0 <= w1 * Rabs nd) by (apply Rmult_le_pos; lra). pose proof (sqrt_pos w) as Q.
      assert (Qw : w <= / 10000 * sqrt w).
      { pose proof (sqrt_sqrt w ltac:(lra)) as QQ. assert (sqrt w <= / 10000) by (apply Rsqr_incr_0_var; [unfold Rsqr; rewrite QQ; lra|lra]). rewrite <- QQ at 1. apply Rmult_le_compat_r; auto. }
      assert (I2 : 0 < / ((1 - e) * (1 - e))) by (apply Rinv_0_lt_compat, Rmult_lt_0_compat; lra).
      split; [apply Rmult_le_pos; lra|]. apply Rmult_le_compat_r; [lra|]. lra. }
    specialize (FL ltac:(lra)). pose proof (near_close _ _ _ _ _ _ FL C3 K0) as NC.
    set (B := flow_err u k (220 * u) nd) in *. set (ce := cart_err u e' t (mean_err u z (rate mu (k_a k') * d))) in *.
    assert (ce * (1 + B) <= ce * (11 / 10)) by (apply Rmult_le_compat_l; lra).
    eapply near_weak; [exact NC| |]; unfold D; lra.
Qed.

(** ** Binary64, default solver options, mu = 1, lazy object of type eccentric *)
Definition k86 : six R := mk6 1 (/ 2) 1 1 1 2.
Example C86_example : forall gb, exists x s s' X cs y t,
  state_of 1 k86 x /\ @set_cartesian num N64 gb (kvec x) s64 = (s, Ok tt) /\ @propagate num N64 gb (Sc (Fin 2)) s = (s', Ok tt) /\
  (exists M, mean_of ATrue (/ 2) 2 M /\ follows 1 (with_nu k86 0) M X) /\ newton 1 X /\ snd (@get_cartesian num N64 gb s') = Ok cs /\ nth_error cs 0 = Some (fin6 y) /\
  near (2 / 10000) (2 / 10000) y (X 2) /\ 0 < t <= 102 / 100 * / 1000000000000.
Proof.
  intros gb. pose proof u64_eq as U. assert (Hv : valid_kep 1 k86). { unfold valid_kep, k86. cbn. pose proof (COS_bound 2). repeat split; lra. }
  assert (S : 8 / 10 <= sin 1 <= 1) by (pose proof (sin_ge 1 ltac:(lra)); pose proof (SIN_bound 1); lra).
  assert (W : 0 < u64 / (/ 2 * (1 - / 2) * sin 1) <= 5 * u64).
  { split; [apply Rdiv_lt_0_compat; lra|]. apply Rmult_le_reg_r with (/ 2 * (1 - / 2) * sin 1); [lra|]. unfold Rdiv. rewrite Rmult_assoc, Rinv_l by lra. rewrite U. lra. }
  assert (Rk : regular_kep u64 k86).
  { unfold regular_kep. change (k_e k86) with (/ 2). change (k_i k86) with 1. pose proof PI_b. replace (u64 / (1 - / 2)) with (2 * u64) by field.
    assert (8 / 10 * (8 / 10) <= sin 1 * sin 1) by (apply Rmult_le_compat; lra).
    split; [lra|]. split; [lra|]. split; [rewrite U in *; lra|]. split; [rewrite U in *; lra|]. split; lra. }
  set (x := peri_state 1 k86) in *. assert (Sx : state_of 1 k86 x) by now apply state_of_peri.
  assert (A0 : aligned 1 s64) by (split; [now constructor|exists [nan]; auto]).
  pose (s := @aft_cart num N64 gb (with_cart (fun _ => [fin6 x]) s64)).
  assert (A : aligned 1 s) by (split; [now constructor|exists [nan]; auto]).
  destruct (t2e_eli_real (/ 2) ltac:(lra) 2) as (E0 & _ & _ & AE0). set (M := E0 - / 2 * sin E0).
  assert (HM : mean_of ATrue (/ 2) 2 M) by (intros nu; apply (body_same (/ 2) ltac:(lra) ATrue _ AMean _ 2 (cong_refl _)); exists E0; split; [apply cong_refl|exact AE0]).
  destruct (C56_trajectory 1 (with_nu k86 0) M) as (X & HX & HN); try (unfold k_a, k_e; cbn; lra).
  destruct (@propagate_spec num N64 gb 1 (Sc (Fin 2)) [Fin 2] s A) as [s' [_ [E _]]]; [exact I|reflexivity|reflexivity|].
  assert (R1 : rate 1 (k_a k86) = 1) by (unfold rate; change (k_a k86) with 1; replace (1 / (1 * 1 * 1)) with 1 by field; apply sqrt_1).
  assert (EU : e_up u64 k86 = / 2 + 290 * u64) by reflexivity.
  destruct (reachable64 (e_up u64 k86) ltac:(rewrite EU, U; lra)) as (t & Ho & T).
  assert (R0 : rnd 53 (Q2R 0) = 0) by (replace (Q2R 0) with 0 by (unfold Q2R; cbn; lra); apply rnd_0).
  assert (ND : rate 1 (k_a k86) * 2 = 2) by (rewrite R1; lra).
  assert (AD : adv_err u64 2 = u64 * 862) by (unfold adv_err; rewrite Rabs_pos_eq by lra; ring).
  assert (EE : 0 <= elem_err u64 k86 2 <= 17 / 100000).
  { unfold elem_err. cbv zeta. change (k_e k86) with (/ 2). change (k_i k86) with 1. rewrite (Rabs_pos_eq 2) by lra.
    assert (Q : sqrt (u64 / (/ 2 * (1 - / 2) * sin 1)) <= 236 / 10000000000).
    { apply Rsqr_incr_0_var; [|lra]. unfold Rsqr. rewrite sqrt_sqrt by lra. rewrite U in *. lra. }
    pose proof (sqrt_pos (u64 / (/ 2 * (1 - / 2) * sin 1))) as Q0. set (q := sqrt _) in *.
    replace ((1710 * q + 720 * (u64 / (1 - / 2)) * 2) / ((1 - / 2) * (1 - / 2))) with (4 * (1710 * q + 2880 * u64)) by field. rewrite U. lra. }
  destruct (C86_propagate_cartesian 53 libm0 gb gb gb gb 1 (kvec x) (Sc (Fin 2)) s64 s s' [fin6 x] 0 k86 x 0 1 2 t ltac:(lia) (libm0_ok 53 ltac:(lia)) (libm0_acos 53 ltac:(lia)) (binary_lib 53 ltac:(lia))
    A0) with (M := M) (X := X) as (cs & y & C1 & C2 & C3); try change (ulp1 53) with u64; auto; try reflexivity.
  - split; reflexivity.
  - change (Some (Fin (rnd 53 (Q2R 0))) = Some (Fin 0)). now rewrite R0.
  - change (Fin (rnd 53 (1 * rnd 53 (1 + 0))) = Fin 1). f_equal. rewrite Rplus_0_r, rnd_1, Rmult_1_l by lia. apply rnd_1. lia.
  - rewrite EU. split; rewrite U; lra.
  - rewrite ND, AD, EU, U. lra.
  - rewrite ND. lra.
  - rewrite ND in C3. exists x, s, s', X, cs, y, t. split; [exact Sx|]. split; [reflexivity|]. split; [exact E|]. split; [exists M; auto|]. split; [exact HN|]. split; [exact C1|]. split; [exact C2|]. split; [|exact T].
    assert (CE : 0 <= cart_err u64 (e_up u64 k86) t (adv_err u64 2) <= / 100000).
    { destruct (cart_err_mono u64 (e_up u64 k86) (3 / 5) t (adv_err u64 2) (adv_err u64 2)) as [Q1 Q2]; try (rewrite ?AD, ?EU, ?U; lra). split; [exact Q1|]. eapply Rle_trans; [exact Q2|].
      unfold cart_err, nu_err, kappa. replace ((1 + 3 / 5) / (1 - 3 / 5)) with (2 * 2) by field. rewrite sqrt_square by lra. rewrite AD.
      assert (0 <= u64 * t <= 1 * t) by (rewrite U; split; [apply Rmult_le_pos; lra|apply Rmult_le_compat_r; lra]). rewrite U in *. lra. }
    change (ulp1 53) with u64 in C3. eapply near_weak; [exact C3| |]; lra.
Qed.
