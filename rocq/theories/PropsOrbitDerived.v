(** * C58 - C61: period, mean motion, velocity, speed and apsides of Orbit *)
From Coq Require Import Reals Lra List Bool Arith Lia ZArith QArith.
From Verif Require Import NP KeplerModel ConvModel UnitModel OrbitModel Lists ConvCols ArraySpec
  NPReal RealBase Spec AnomReal KepReal PropsKep CartReal CartInv PropsAnomaly PropsAnomalyR PropsSolver PropsScalar PropsCart
  OrbitLists OrbitBase OrbitOps OrbitSetters OrbitGet OrbitSpec PropsOrbitWidth PropsOrbitDirect PropsOrbitLazy
  PropsOrbitWrite OrbitReal PropsOrbitType PropsOrbitProp PropsOrbitPropR.
Import ListNotations.
Local Open Scope R_scope.

(** ** C58 *)
(** Assigning period or mean_motion always raises and changes nothing (any arithmetic). *)
Theorem C58_refuted : forall (F : Type) (H : NP F) gb v (s : OrbitModel.orb F),
  (exists e, set_period v s = (s, Raise e)) /\ (exists e, set_mean_motion gb v s = (s, Raise e)).
Proof.
  intros F H gb v s. split; [now exists TypeError|]. unfold set_mean_motion. rewrite bind_get.
  destruct (okro s); [now exists AttributeError|]. exists TypeError. reflexivity.
Qed.
(** What works: assigning a = semi_major_axis(P, mu); then period reads P and mean_motion a circle over P. *)
Theorem C58_through_a : forall gb gb' n v (s s' : orb) j m mu P,
  lens n s -> wfv v -> set_kep_row gb 0 v s = (s', Ok tt) -> nth_error (om s) j = Some (Fin m) ->
  0 < mu -> mu_real s m mu -> 0 < P -> entry1 v j (semi_major_axis (Fin P) (Fin mu)) ->
  (lazy_mode s -> kep_fresh s) ->
  exists ps ns, snd (get_period gb' s') = Ok ps /\ nth_error ps j = Some (Fin P)
  /\ snd (get_mean_motion gb' s') = Ok ns /\ nth_error ns j = Some (Fin (turn (odeg s) / P)).
Proof.
  intros gb gb' n v s s' j m mu P Hs Hv E Hm Hmu Em HP He Hf.
  destruct (C44_kep_row_partial gb gb' n 0 v s s' Hs Hv Hf E) as [vs [Ev [Lv Hvs]]].
  rewrite (set_kep_row_eq gb n) in E by auto. destruct (okro s); [discriminate|].
  destruct (bcast1 n v) as [ws|] eqn:Eb; [|discriminate]. 
  assert (Lw : length ws = n) by (eapply bcast1_length; eauto using wfv_wf).
  assert (H1 : lens n (with_kep (fun c => set_row 0 c ws) s)).
  { apply lens_with_kep; auto. rewrite set_row_length, (l_k n s Hs). lia. }
  assert (H2 : lens n s') by (replace s' with (aft_keprow gb (with_kep (fun c => set_row 0 c ws) s)) by congruence; now apply lens_aft_keprow).
  assert (Es : settings s' = settings s).
  { replace s' with (aft_keprow gb (with_kep (fun c => set_row 0 c ws) s)) by congruence. now rewrite (aft_keprow_settings gb n). }
  assert (Eo : om s' = om s).
  { replace s' with (aft_keprow gb (with_kep (fun c => set_row 0 c ws) s)) by congruence. now rewrite (aft_keprow_om gb n). }
  clear E. rewrite (get_kep_row_spec gb' n) in Ev by auto. cbn [snd] in Ev. injection Ev as Ev.
  assert (Hj : (j < n)%nat) by (rewrite <- (l_m n s Hs); eapply nth_error_lt; eauto).
  destruct (nth_error vs j) as [a|] eqn:Ea; [|apply nth_error_None in Ea; lia].
  pose proof (Hvs j a Ea) as Q. assert (a = semi_major_axis (Fin P) (Fin mu)) by (destruct v; cbn [entry1] in *; congruence).
  subst a. destruct (C27_kepler_three mu Hmu) as [_ [K _]]. destruct (K P HP) as [a [Ha [K1 K2]]].
  apply settings_eq in Es. destruct Es as [S1 [S2 [_ [_ [_ [_ [S3 _]]]]]]].
  assert (Em' : mu_of s' (Fin m) = Fin mu) by (unfold mu_of; rewrite S1, S2; exact Em).
  eexists _, _. split; [rewrite (get_period_eq gb' n) by auto; reflexivity|]. split.
  { rewrite Ev, nth_error_map2, Ea, Eo, nth_error_map, Hm. cbn [option_map]. rewrite Em', K1, K2. reflexivity. }
  split; [rewrite (get_mean_motion_eq gb' n) by auto; reflexivity|].
  rewrite Ev, nth_error_map2, Ea, Eo, Hm. unfold motion1. rewrite Em', K1, K2, circle_real, Fin_div by lra. now rewrite S3.
Qed.
(** P = 1, mu = 1 in manual mode *)
Example C58_example : forall gb, exists s s' a, set_kepler gb (kvec (ktp 0)) (s_new false false) = (s, Ok tt)
  /\ semi_major_axis (Fin 1) (Fin 1) = Fin a /\ 0 < a /\ set_kep_row gb 0 (Sc (Fin a)) s = (s', Ok tt)
  /\ snd (get_period gb s') = Ok [Fin 1].
Proof.
  intros gb. pose (s := aft_kep gb (with_kep (fun _ => [fin6 (ktp 0)]) (s_new false false))).
  assert (A : lens 1 s) by now constructor.
  destruct (C27_kepler_three 1) as [_ [K _]]; [lra|]. destruct (K 1) as [a [Ha [K1 K2]]]; [lra|].
  pose proof (set_kep_row_eq gb 1 0 (Sc (Fin a)) s A I) as E. cbn [okro s] in E. change (okro s) with false in E.
  change (bcast1 1 (Sc (Fin a))) with (Ok [Fin a]) in E.
  exists s. eexists. exists a. split; [reflexivity|]. split; [auto|]. split; [auto|]. split; [exact E|].
  assert (Hm : nth_error (om s) 0 = Some (Fin 0)) by (unfold s; cbn; num; repeat f_equal; lra).
  destruct (C58_through_a gb gb 1 (Sc (Fin a)) _ _ 0%nat 0 1 1 A I E Hm) as [ps [ns [P1 [P2 _]]]]; try lra.
  - unfold mu_real, s. cbn. num. f_equal. lra.
  - cbn [entry1]. congruence.
  - intros [Q _]. discriminate.
  - rewrite P1. rewrite (get_period_eq gb 1) in P1 by (apply lens_aft_keprow; now constructor). cbn [snd] in P1.
    assert (L : length ps = 1%nat).
    { match type of P1 with Ok ?l = Ok ps => assert (X : length l = 1%nat); [|replace ps with l by congruence; exact X] end.
      rewrite map2_length, !map_length, (l_k 1), (aft_keprow_om gb 1); try reflexivity.
      2: apply lens_kchk, lens_aft_keprow. all: now constructor. }
    destruct ps as [|p [|p2 ps]]; try discriminate. cbn in P2. congruence.
Qed.

(** ** C59 *)
(** the Cartesian elements of orbit [j] are what the first read says (lazy mode) *)
Definition settled (s : orb) (j : nat) : Prop :=
  lazy_mode s -> otype s = ATrue \/ nth_error (ocf s) j = Some true
                 \/ exists k, nth_error (okep s) j = Some k /\ ~ has_nan k.
Lemma typed_true {F} `{NP F} (s : OrbitModel.orb F) : otype s = ATrue -> typed s = false. Proof. unfold typed. now intros ->. Qed.
Lemma cchk_settled gb n (s : orb) j c : lens n s -> settled s j -> nth_error (ocart (cchk gb s)) j = Some c ->
  nth_error (ocart (cchk gb (cchk gb s))) j = Some c.
Proof.
  intros Hs Hf Hc. destruct (cchk_spec gb n s Hs) as [_ E1]. pose proof (lens_cchk gb n s Hs) as H1.
  destruct (cchk_spec gb n _ H1) as [_ E2]. pose proof (lens_cchk gb n _ H1) as H2.
  assert (Hj : (j < n)%nat) by (apply nth_error_lt in Hc; destruct H1; lia).
  destruct (col_ex n _ j H2 Hj) as [c2 [k2 [m2 [cb2 [kb2 C2]]]]].
  destruct (colstep_col _ _ _ _ _ _ _ _ _ _ H1 E2 C2) as [c1 [k1 [cb1 [kb1 [C1 R2]]]]].
  destruct (colstep_col _ _ _ _ _ _ _ _ _ _ Hs E1 C1) as [c0 [k0 [cb0 [kb0 [C0 R1]]]]].
  assert (c1 = c) by (destruct C1; congruence). subst c1. rewrite (col_c _ _ _ _ _ _ _ C2). f_equal.
  assert (L1 : lazy (cchk gb s) = lazy s) by (apply settings_lazy; eapply settings_step; eauto).
  destruct R2 as [_ [[_ [-> _]]|[Q1 [Q2 [Q3 Q4]]]]]; [reflexivity|]. exfalso.
  rewrite L1 in Q1. apply andb_true_iff in Q1. destruct Q1 as [L Q1]. apply negb_true_iff in Q1. subst cb1.
  unfold Cstep in R1. rewrite L in R1. destruct R1 as [R1 [[R3 [_ <-]]|[_ [_ [X _]]]]]; [|discriminate].
  destruct R3 as [R3|R3]; [cbn in R3; discriminate|].
  destruct (Hf ltac:(now apply lazy_mode_iff)) as [T|[T|[k [T1 T2]]]].
  - destruct R1 as [[-> _]|[_ [T' _]]]; [congruence|]. rewrite typed_true in T' by auto. discriminate.
  - destruct C0. congruence.
  - apply T2. apply has_nan_iff. destruct C0. congruence.
Qed.
(** The position stays, the velocity becomes parallel to the old one with length the assigned value. *)
Theorem C59_velocity : forall gb gb' n v (s s' : orb) cs j (c : six R) sp,
  lens n s -> wfv v -> set_velocity gb v s = (s', Ok tt) ->
  snd (get_cartesian gb s) = Ok cs -> nth_error cs j = Some (fin6 c) -> settled s j ->
  entry1 v j (Fin sp) -> norm (vel c) <> 0 ->
  exists cs' c', snd (get_cartesian gb' s') = Ok cs' /\ nth_error cs' j = Some (fin6 c')
  /\ pos c' = pos c /\ vel c' = scal3 (sp / norm (vel c)) (vel c) /\ norm (vel c') = Rabs sp
  /\ settings s' = settings s /\ om s' = om s.
Proof.
  intros gb gb' n v s s' cs j c sp Hs Hv E Ec Hj Hst Hsp Hn.
  destruct (set_velocity_eq gb n v s Hs Hv) as [vs [Eq Hvs]]. rewrite Eq in E. clear Eq.
  destruct (ocro s); [discriminate|]. destruct (bcast1 n v) as [sps|] eqn:Eb; [|discriminate].
  assert (Ls : length sps = n) by (eapply bcast1_length; eauto using wfv_wf).
  destruct (Hvs sps Ls) as [Lf Hf]. clear Hvs.
  rewrite (get_cartesian_eq gb n) in Ec by auto. cbn [snd] in Ec. injection Ec as Ec. rewrite <- Ec in Hj.
  pose proof (cchk_settled gb n s j _ Hs Hst Hj) as Hj2.
  pose proof (lens_cchk gb n s Hs) as H1. pose proof (lens_cchk gb n _ H1) as H2.
  set (sx2 := cchk gb (cchk gb s)) in *. set (sx3 := with_cart (fun x => map2 set_bot x (vs sps)) sx2) in *.
  assert (H3 : lens n sx3) by (apply lens_with_cart; auto; rewrite map2_length, (l_c n sx2 H2); lia).
  pose proof (lens_aft_cart gb n sx3 H3) as H4. pose proof (lens_aft_cartrow gb n _ H4) as H5.
  assert (Es' : s' = aft_cartrow gb (aft_cart gb sx3)) by congruence. clear E.
  assert (Hjn : (j < n)%nat) by (apply nth_error_lt in Hj2; destruct H2; lia).
  assert (Hsj : nth_error sps j = Some (Fin sp)).
  { destruct (nth_error sps j) as [y|] eqn:Ey; [|apply nth_error_None in Ey; lia].
    pose proof (bcast1_entry n v sps j y Hv Eb Ey) as Q. destruct v; cbn [entry1] in *; congruence. }
  destruct (nth_error (vs sps) j) as [f|] eqn:Ef; [|apply nth_error_None in Ef; lia].
  set (q := sp / norm (vel c)).
  assert (Hu : nth_error (vel_value (ocart (cchk gb s)) (ocart sx2) sps) j
     = Some (Fin (s3 c * q), Fin (s4 c * q), Fin (s5 c * q))).
  { unfold vel_value. rewrite nth_error_map2, nth_error_map, Hj, nth_error_map2, Hsj, !nth_error_map, Hj2. cbn [option_map].
    replace (vel_of (fin6 c)) with (fin3 (vel c)) by now destruct c. rewrite vnorm_fin, Fin_div by auto.
    unfold fin3, c0, c1, c2. cbn [fst snd]. rewrite !Fin_mul. destruct c; reflexivity. }
  destruct (Hf j _ f Hu Ef) as [F0 [F1 F2]]. cbn [c0 c1 c2 fst snd] in F0, F1, F2.
  set (c' := mk6 (s0 c) (s1 c) (s2 c) (s3 c * q) (s4 c * q) (s5 c * q)).
  exists (ocart s'), c'.
  assert (Oc : ocart s' = ocart sx3) by (rewrite Es', (aft_cartrow_ocart gb n), (aft_cart_ocart gb n); auto).
  assert (Hs' : lens n s') by now rewrite Es'.
  assert (Se : settings s' = settings s).
  { rewrite Es', (aft_cartrow_settings gb n), (aft_cart_settings gb n) by auto.
    change (settings sx3) with (settings sx2). unfold sx2.
    destruct (cchk_spec gb n s Hs) as [_ X]. destruct (cchk_spec gb n _ H1) as [_ Y].
    rewrite (settings_step _ _ _ _ Y). exact (settings_step _ _ _ _ X). }
  split.
  { rewrite (get_cartesian_eq gb' n) by auto. cbn [snd]. f_equal. apply (cchk_keeps gb' n); auto. intros Lz i k Hk. left.
    assert (D : odirect sx3 = false).
    { rewrite (settings_direct s' sx3); [apply Lz|]. rewrite Se. change (settings sx3) with (settings sx2). unfold sx2.
      destruct (cchk_spec gb n s Hs) as [_ X]. destruct (cchk_spec gb n _ H1) as [_ Y].
      rewrite (settings_step _ _ _ _ Y). exact (settings_step _ _ _ _ X). }
    assert (Hi : (i < n)%nat) by (apply nth_error_lt in Hk; destruct Hs'; lia).
    rewrite Es'. unfold aft_cartrow, aft_cart. rewrite D. change (odirect (with_cf all_true (with_kf all_false sx3))) with (odirect sx3).
    rewrite D. cbn [ocf with_cf with_kf]. apply nth_all_true_ex. destruct H3. lia. }
  split.
  { rewrite Oc. unfold sx3. cbn [ocart with_cart]. rewrite nth_error_map2, Hj2, Ef. f_equal. unfold set_bot. rewrite F0, F1, F2. destruct c; reflexivity. }
  split; [reflexivity|].
  assert (Ev : vel c' = scal3 q (vel c)) by (unfold c', q, vel, scal3, vx, vy, vz; cbn [s3 s4 s5 fst snd]; apply f_equal2; [apply f_equal2|]; ring).
  split; [exact Ev|]. split.
  { rewrite Ev. unfold norm. rewrite dot_scal_l, dot_scal_r. unfold q. fold (norm (vel c)).
    replace (sp / norm (vel c) * (sp / norm (vel c) * dot (vel c) (vel c))) with (sp * sp).
    - apply sqrt_Rsqr_abs.
    - replace (dot (vel c) (vel c)) with (norm (vel c) * norm (vel c)) by (apply sqrt_sqrt, dot_pos). field. auto. }
  split; [exact Se|]. rewrite Es'.
  assert (Om : forall t : orb, lens n t -> om (aft_cartrow gb t) = om t /\ om (aft_cart gb t) = om t).
  { intros t Ht. unfold aft_cartrow, aft_cart. destruct (kall_spec gb n t Ht) as [_ [_ [_ [_ [X _]]]]]. destruct (odirect t); auto. }
  rewrite (proj1 (Om _ H4)), (proj2 (Om _ H3)). change (om sx3) with (om sx2). unfold sx2.
  destruct (cchk_spec gb n s Hs) as [_ [_ [_ [X _]]]]. destruct (cchk_spec gb n _ H1) as [_ [_ [_ [Y _]]]]. congruence.
Qed.
(** a lazy object with a Cartesian state at speed 1, velocity set to 3 *)
Example C59_example : forall gb, exists s s' c, norm (vel c) = 1 /\
  set_cartesian gb (kvec c) (s_new true false) = (s, Ok tt) /\ lens 1 s /\ settled s 0
  /\ set_velocity gb (Sc (Fin 3)) s = (s', Ok tt) /\ snd (get_cartesian gb s) = Ok [fin6 c].
Proof.
  intros gb. pose (c := mk6 1 0 0 0 1 0). pose (s := aft_cart gb (with_cart (fun _ => [fin6 c]) (s_new true false))).
  assert (A : lens 1 s) by now constructor.
  destruct (set_velocity_eq gb 1 (Sc (Fin 3)) s A I) as [vs [E _]]. change (ocro s) with false in E.
  change (bcast1 1 (Sc (Fin 3))) with (Ok [Fin 3]) in E. exists s. eexists. exists c.
  split; [unfold norm, dot, c, vel, vx, vy, vz; cbn [s3 s4 s5 fst snd]; replace (0 * 0 + 1 * 1 + 0 * 0) with 1 by ring; apply sqrt_1|].
  split; [reflexivity|]. split; [exact A|]. split; [intros _; now left|]. split; [exact E|].
  rewrite (get_cartesian_eq gb 1) by auto. cbn [snd]. apply f_equal, (cchk_keeps gb 1); auto.
  intros _ [|[|j]] k Hk; try discriminate. now left.
Qed.

(** ** C60 *)
Section Speed.
Context {F : Type} `{NP F}.
Lemma get_speed_spec gb n (s : OrbitModel.orb F) : aligned n s -> exists sp, snd (get_speed gb s) = Ok sp /\ length sp = n
  /\ forall j k m, nth_error (okep (kchk gb s)) j = Some k -> nth_error (om s) j = Some m ->
     exists g, nth_error sp j = Some (orbital_speed (elliptic_radius (ec1 s g k) (s0 k) (s1 k) (odeg s)) (s0 k) (mu_of s m)).
Proof.
  intros A. pose proof A as [Hs HE]. destruct (kchk_spec gb n s Hs) as [E [_ Sk]]. pose proof (lens_kchk gb n s Hs) as Hk.
  assert (A1 : aligned n (kchk gb s)).
  { split; [auto|]. destruct Sk as [_ [_ [_ [X _]]]]. destruct HE as [d HE]. exists d. now rewrite X. }
  unfold get_speed. rewrite (bind_ok _ _ _ _ _ E).
  destruct (get_ecc_spec gb n (kchk gb s) A1) as [sa [Es [E1 [C1 [Aa [Le Ve]]]]]]. rewrite (bind_ok _ _ _ _ _ E1).
  pose proof (kchk_core gb gb n (kchk gb s) sa Hk (proj1 Aa) C1) as Ka.
  rewrite (kchk_kchk gb n s Hs) in C1, Le, Ve.
  assert (Ck : okep sa = okep (kchk gb s)) by (unfold core in C1; congruence).
  pose proof (kchk_settings gb n s Hs) as S1. assert (S2 : settings sa = settings s) by (unfold core in C1; congruence).
  assert (Cm : om sa = om s) by (destruct Sk as [_ [_ [X _]]]; unfold core in C1; congruence).
  rewrite (get_row_bind gb n) by apply Aa. rewrite Ka. unfold get_e. rewrite (get_row_bind gb n) by apply Aa. rewrite Ka, bind_get, bind_lift.
  rewrite map_length, Ck, (l_k n _ Hk), bcast1_fresh by (rewrite Le; apply (l_k n _ Hk)).
  rewrite (get_row_bind gb n) by apply Aa. rewrite Ka, bind_get, Ck, Cm.
  eexists. split; [reflexivity|]. split.
  { rewrite (map3_length _ _ _ _ n); auto; [|now rewrite map_length, (l_k n _ Hk)|now rewrite map_length, (l_m n s Hs)].
    apply map3_length; rewrite ?map_length; try apply (l_k n _ Hk). rewrite Le. apply (l_k n _ Hk). }
  intros j k m Hj Hm. destruct (Ve j k Hj) as [g Hg]. exists (fst g).
  apply settings_eq in S1. apply settings_eq in S2.
  assert (X1 : odeg sa = odeg s) by tauto. assert (X2 : mu_of sa m = mu_of s m).
  { unfold mu_of. replace (oG sa) with (oG s) by (symmetry; tauto). replace (oM0 sa) with (oM0 s) by (symmetry; tauto). reflexivity. }
  assert (X3 : anom1 AEcc (kchk gb s) g k = ec1 s (fst g) k).
  { unfold anom1, ec1. replace (odeg (kchk gb s)) with (odeg s) by (symmetry; tauto).
    replace (otype (kchk gb s)) with (otype s) by (symmetry; tauto). replace (oopts (kchk gb s)) with (oopts s) by (symmetry; tauto). reflexivity. }
  rewrite X3 in Hg.
  erewrite nth_error_map3; [reflexivity| | |].
  - erewrite nth_error_map3; [rewrite X1; reflexivity|exact Hg| |]; rewrite nth_error_map, Hj; reflexivity.
  - rewrite nth_error_map, Hj. reflexivity.
  - rewrite nth_error_map, Hm. cbn [option_map]. now rewrite X2.
Qed.
Lemma get_velocity_eq gb n (s : OrbitModel.orb F) : lens n s ->
  get_velocity gb s = (cchk gb (cchk gb s), Ok (map vnorm (map vel_of (ocart (cchk gb (cchk gb s)))))).
Proof.
  intros Hs. unfold get_velocity. destruct (cchk_spec gb n s Hs) as [E _]. rewrite (bind_ok _ _ _ _ _ E).
  unfold get_v. destruct (cchk_spec gb n _ (lens_cchk gb n s Hs)) as [E' _].
  rewrite (bind_ok _ (fun v => ret (map vnorm v)) (cchk gb s) (cchk gb (cchk gb s)) (map vel_of (ocart (cchk gb (cchk gb s))))); [reflexivity|].
  rewrite (bind_ok _ _ _ _ _ E'). reflexivity.
Qed.
End Speed.
(** the true and eccentric anomaly computed for a stored column belong together, also when the solver gave up *)
Lemma nu_ec_real (s : orb) (k : six R) g g' tl : 0 <= s1 k < 1 -> opts_ok (oopts s) tl ->
  exists nu E, nu1 s g (fin6 k) = Fin nu /\ ec1 s g' (fin6 k) = Fin E
  /\ anomalies_ell (s1 k) (ang (odeg s) nu) (ang (odeg s) E).
Proof.
  intros He Ho. unfold nu1, ec1. rewrite row5_fin, row1_fin. destruct (otype s).
  - destruct (t2e1_ell g' (odeg s) (s5 k) (s1 k) He) as [E [-> [_ X]]]. exists (s5 k), E. auto.
  - destruct (e2t1_ell g (odeg s) (s5 k) (s1 k) He) as [nu [-> [_ X]]]. exists nu, (s5 k). auto.
  - destruct (m2e_el_ell (oopts s) tl (ang (odeg s) (s5 k)) (s1 k) He Ho) as [E [X _]].
    unfold m2e1, m2t1. rewrite !inr_fin, X, outd_fin.
    destruct (e2t1_ell g false E (s1 k) He) as [nu [Y [_ Z]]]. cbn [ang] in Z.
    exists (unang (odeg s) nu), (unang (odeg s) E). rewrite !ang_unang. split; [|auto].
    unfold m2e1. rewrite inr_fin. cbn [ang]. rewrite X, outd_fin. cbn [unang]. now rewrite Y, outd_fin.
Qed.
(** Elliptic orbits, every type, degrees or radians: when the Cartesian elements are those of the Kepler
    elements, speed and velocity are the same number. *)
Theorem C60_elliptic : forall gb gb' gc n (s : orb) ks c j (k : six R) m mu tl,
  aligned n s -> snd (get_kepler gb s) = Ok ks -> nth_error ks j = Some (fin6 k) ->
  nth_error (ocart (fst (get_velocity gb' s))) j = Some c -> nth_error (om s) j = Some (Fin m) ->
  0 < mu -> mu_real s m mu -> 0 < s0 k -> 0 <= s1 k < 1 -> opts_ok (oopts s) tl ->
  cartesian_of gc s (fin6 k) (Fin m) c ->
  exists sp ve w, snd (get_speed gb s) = Ok sp /\ snd (get_velocity gb' s) = Ok ve
  /\ nth_error sp j = Some (Fin w) /\ nth_error ve j = Some (Fin w).
Proof.
  intros gb gb' gc n s ks c j k m mu tl A Ek Hj Hc Hm Hmu Em Ha He Ho Co.
  rewrite (get_kepler_eq gb n) in Ek by apply A. cbn [snd] in Ek. injection Ek as Ek. rewrite <- Ek in Hj.
  destruct (get_speed_spec gb n s A) as [sp [E1 [_ V]]]. destruct (V j _ _ Hj Hm) as [g' Hg].
  rewrite (get_velocity_eq gb' n) in Hc |- * by apply A. cbn [fst snd] in *.
  destruct (cartesian_of_Cc gc s _ _ _ Co) as [g Ec].
  destruct (nu_ec_real s k g g' tl He Ho) as [nu [E [N1 [N2 N3]]]].
  rewrite N1, (cconv_real s k nu m mu) in Ec by auto. subst c.
  set (kr := radk (odeg s) k (ang (odeg s) nu)) in *.
  assert (Vk : valid_kep mu kr).
  { unfold valid_kep, kr, radk, k_a, k_e, k_nu. cbn [s0 s1 s5]. pose proof (COS_bound (ang (odeg s) nu)). repeat split; try lra. nra. }
  exists sp. eexists. exists (norm (vel (peri_state mu kr))). split; [exact E1|]. split; [reflexivity|]. split.
  - rewrite Hg, N2. replace (s0 (fin6 k)) with (Fin (s0 k)) by now destruct k. rewrite row1_fin.
    change (mu_of s (Fin m)) with (mul (oG s) (add (oM0 s) (Fin m))). unfold mu_real in Em. rewrite Em. f_equal.
    rewrite <- (C28_elliptic mu kr _ (ang (odeg s) E) Vk (state_of_peri mu kr Vk)).
    + unfold kr, radk, k_a, k_e. cbn [s0 s1]. f_equal. unfold elliptic_radius, ang. destruct (odeg s); [|reflexivity].
      now rewrite Fin_radians.
    + unfold kr, radk, k_e. cbn. lra.
    + exact N3.
  - rewrite !nth_error_map, Hc. cbn [option_map]. f_equal.
    replace (vel_of (fin6 (peri_state mu kr))) with (fin3 (vel (peri_state mu kr))) by (destruct (peri_state mu kr); reflexivity).
    apply vnorm_fin.
Qed.
(** Hyperbolic orbits: on the arc around the periapsis where e cos E > 1 speed is NaN, for every a > 0, e > 1
    (type eccentric, radians or degrees); C28_speed shows what it should be. *)
Theorem C60_hyperbolic_refuted : forall gb n (s : orb) ks j (k : six R) m mu,
  aligned n s -> snd (get_kepler gb s) = Ok ks -> nth_error ks j = Some (fin6 k) ->
  nth_error (om s) j = Some (Fin m) -> 0 < mu -> mu_real s m mu -> 0 < s0 k -> 1 < s1 k ->
  otype s = AEcc -> 1 < s1 k * cos (ang (odeg s) (s5 k)) ->
  exists sp, snd (get_speed gb s) = Ok sp /\ nth_error sp j = Some NaN.
Proof.
  intros gb n s ks j k m mu A Ek Hj Hm Hmu Em Ha He Ht Hc.
  rewrite (get_kepler_eq gb n) in Ek by apply A. cbn [snd] in Ek. injection Ek as Ek. rewrite <- Ek in Hj.
  destruct (get_speed_spec gb n s A) as [sp [E1 [_ V]]]. destruct (V j _ _ Hj Hm) as [g' Hg].
  exists sp. split; [auto|]. rewrite Hg. f_equal. unfold ec1. rewrite Ht, row5_fin, row1_fin.
  replace (s0 (fin6 k)) with (Fin (s0 k)) by now destruct k.
  change (mu_of s (Fin m)) with (mul (oG s) (add (oM0 s) (Fin m))). unfold mu_real in Em. rewrite Em.
  assert (R : elliptic_radius (Fin (s5 k)) (Fin (s0 k)) (Fin (s1 k)) (odeg s) = Fin (s0 k * (1 - s1 k * cos (ang (odeg s) (s5 k))))).
  { unfold elliptic_radius, ang. rewrite lit_1. destruct (odeg s); rewrite ?Fin_radians; reflexivity. }
  rewrite R. set (r := s0 k * _). assert (Hr : r < 0) by (unfold r; nra).
  unfold orbital_speed. num. rewrite !Fin_div by lra. num.
  assert (X : mu * (2 / r - 1 / s0 k) < 0).
  { assert (2 / r < 0) by (unfold Rdiv; pose proof (Rinv_lt_0_compat r Hr); nra).
    assert (0 < 1 / s0 k) by (apply Rdiv_lt_0_compat; lra). nra. }
  change (num_sqrt (Fin (mu * (2 / r - 1 / s0 k))) = NaN). unfold num_sqrt. destruct (Rlt_dec (mu * (2 / r - 1 / s0 k)) 0); [reflexivity|lra].
Qed.
(** an elliptic orbit in direct mode and a hyperbolic one at its periapsis *)
Example C60_example : forall gb, exists s t, 
  set_kepler gb (kvec (ktp (PI/2))) (s_new true true) = (s, Ok tt) /\ aligned 1 s
  /\ snd (get_speed gb s) = snd (get_velocity gb s) /\ (exists w, snd (get_speed gb s) = Ok [Fin w])
  /\ set_kepler gb (kvec (mk6 1 2 0 0 0 0)) (with_type AEcc (s_new true false)) = (t, Ok tt)
  /\ snd (get_speed gb t) = Ok [NaN].
Proof.
  intros gb. pose (sa := with_kep (fun _ => [fin6 (ktp (PI/2))]) (s_new true true)).
  assert (A0 : aligned 1 sa) by (split; [now constructor|exists [nan]; auto]).
  assert (M0 : om sa = [Fin 0]) by (unfold sa, s_new; cbn [om with_kep]; now rewrite lit_0).
  destruct (direct_call gb sa (ktp (PI/2)) 0 A0 eq_refl eq_refl M0) as [c [A1 [S1 [K1 [M1 [C1 R1]]]]]].
  set (s := call_ gb sa) in *. apply (Cc_settings sa s) in R1; [|now symmetry].
  assert (Lz : lazy s = false) by (rewrite (settings_lazy sa s) by auto; reflexivity).
  assert (Ho : forall t : orb, oopts t = default_options -> opts_ok (oopts t) 1e-12).
  { intros t ->. split; [cbn; num; f_equal; lra|]. split; [lra|]. exists 5. split; [cbn; num; f_equal; lra|lra]. }
  pose proof S1 as S1'. apply settings_eq in S1'. destruct S1' as [X1 [X2 [_ [_ [_ [_ [_ [_ X3]]]]]]]].
  assert (Hk : snd (get_kepler gb s) = Ok [fin6 (ktp (PI/2))]).
  { rewrite (get_kepler_eq gb 1), kchk_id by (auto; apply A1). cbn [snd]. now rewrite K1. }
  assert (Hc : nth_error (ocart (fst (get_velocity gb s))) 0 = Some c).
  { rewrite (get_velocity_eq gb 1) by apply A1. cbn [fst]. rewrite !cchk_id by (rewrite ?cchk_id; auto). now rewrite C1. }
  assert (Hm : nth_error (om s) 0 = Some (Fin 0)) by now rewrite M1.
  assert (Em : mu_real s 0 1) by (unfold mu_real; rewrite X1, X2; cbn [oG oM0 sa with_kep s_new]; num; f_equal; lra).
  destruct (C60_elliptic gb gb gb 1 s _ c 0 (ktp (PI/2)) 0 1 1e-12 A1 Hk eq_refl Hc Hm) as [sp [ve [w [E1 [E2 [E3 E4]]]]]];
    auto; try (cbn; lra).
  { apply Cc_cartesian_of; [apply nan_arith_num|apply fin6_nan|exact R1]. }
  pose (t := aft_kep gb (with_kep (fun _ => [fin6 (mk6 1 2 0 0 0 0)]) (with_type AEcc (s_new true false)))).
  assert (A2 : aligned 1 t) by (split; [now constructor|exists [nan]; auto]).
  exists s, t. split.
  { pose proof (set_kepler_eq gb 1 (kvec (ktp (PI/2))) (s_new true true)) as Es.
    change (okro (s_new true true)) with false in Es. change (whole_value 1 (kvec (ktp (PI/2)))) with (Ok [fin6 (ktp (PI/2))]) in Es.
    apply Es; [now constructor|now vm_compute]. }
  split; [auto|].
  assert (Lsp : sp = [Fin w]).
  { destruct (get_speed_spec gb 1 s A1) as [sp' [Q1 [Q2 _]]]. assert (sp' = sp) by congruence. subst sp'.
    destruct sp as [|a [|]]; try discriminate. cbn in E3. congruence. }
  assert (Lve : ve = [Fin w]).
  { rewrite (get_velocity_eq gb 1) in E2 by apply A1. cbn [snd] in E2. rewrite !cchk_id in E2 by (rewrite ?cchk_id; auto).
    rewrite C1 in E2. cbn [map] in E2. destruct ve as [|a [|]]; try discriminate. cbn in E4. congruence. }
  split; [congruence|]. split; [exists w; congruence|]. split; [reflexivity|].
  assert (Hk2 : snd (get_kepler gb t) = Ok [fin6 (mk6 1 2 0 0 0 0)]).
  { rewrite (get_kepler_eq gb 1) by apply A2. cbn [snd]. apply f_equal, (kchk_keeps gb 1); [apply A2|].
    intros _ [|[|j]] x Hx; try discriminate. now left. }
  destruct (C60_hyperbolic_refuted gb 1 t _ 0 (mk6 1 2 0 0 0 0) 0 1 A2 Hk2 eq_refl) as [sp2 [Q1 Q2]]; auto; try (cbn; lra).
  - unfold t. cbn. num. repeat f_equal; lra.
  - unfold mu_real, t. cbn. num. f_equal. lra.
  - cbn. rewrite cos_0. lra.
  - destruct (get_speed_spec gb 1 t A2) as [sp' [Q3 [Q4 _]]]. assert (sp' = sp2) by congruence. subst sp'.
    rewrite Q3. destruct sp2 as [|a [|]]; try discriminate. cbn in Q2. congruence.
Qed.

(** ** C61 *)
Lemma apsides_real gb n (s : orb) ks j (k : six R) :
  lens n s -> snd (get_kepler gb s) = Ok ks -> nth_error ks j = Some (fin6 k) ->
  exists ps qs, snd (get_periapsis gb s) = Ok ps /\ nth_error ps j = Some (Fin ((1 - s1 k) * s0 k))
  /\ snd (get_apoapsis gb s) = Ok qs /\ nth_error qs j = Some (Fin ((1 + s1 k) * s0 k)).
Proof.
  intros Hs Ek Hj. rewrite (get_kepler_eq gb n) in Ek by auto. cbn [snd] in Ek. injection Ek as Ek. rewrite <- Ek in Hj.
  unfold get_periapsis, get_apoapsis, get_e.
  rewrite (get_row_bind gb n), (get_row_bind' gb n) by auto.
  rewrite (get_row_bind gb n), (get_row_bind' gb n) by auto. cbn [snd ret]. eexists _, _.
  split; [reflexivity|]. split; [|split; [reflexivity|]]; rewrite nth_error_map2, !nth_error_map, Hj; cbn [option_map];
    rewrite lit_1; now destruct k.
Qed.
Lemma dist_real mu deg k nu x : 0 < mu -> 0 < s0 k -> 0 <= s1 k -> 0 < 1 + s1 k * cos nu ->
  state_of mu (radk deg k nu) x -> norm (pos x) = semi_latus (s0 k) (s1 k) / (1 + s1 k * cos nu).
Proof.
  intros Hm Ha He Hn S. assert (V : valid_kep mu (radk deg k nu)).
  { unfold valid_kep, radk, k_a, k_e, k_nu. cbn [s0 s1 s5]. auto. }
  rewrite (state_of_inv mu _ x V S). rewrite peri_norm by auto. reflexivity.
Qed.
Theorem C61_ellipse : forall gb n (s : orb) ks j (k : six R) mu,
  lens n s -> snd (get_kepler gb s) = Ok ks -> nth_error ks j = Some (fin6 k) -> 0 < mu -> 0 < s0 k -> 0 <= s1 k < 1 ->
  exists ps qs p q, snd (get_periapsis gb s) = Ok ps /\ nth_error ps j = Some (Fin p)
  /\ snd (get_apoapsis gb s) = Ok qs /\ nth_error qs j = Some (Fin q)
  /\ (forall nu x, state_of mu (radk (odeg s) k nu) x -> p <= norm (pos x) <= q)
  /\ (forall x, state_of mu (radk (odeg s) k 0) x -> norm (pos x) = p)
  /\ (forall x, state_of mu (radk (odeg s) k PI) x -> norm (pos x) = q).
Proof.
  intros gb n s ks j k mu Hs Ek Hj Hmu Ha He. destruct (apsides_real gb n s ks j k Hs Ek Hj) as [ps [qs [P1 [P2 [P3 P4]]]]].
  exists ps, qs, ((1 - s1 k) * s0 k), ((1 + s1 k) * s0 k). split; [auto|]. split; [auto|]. split; [auto|]. split; [auto|].
  assert (D : forall nu x, state_of mu (radk (odeg s) k nu) x -> norm (pos x) = s0 k * (1 - s1 k * s1 k) / (1 + s1 k * cos nu)).
  { intros nu x S. pose proof (COS_bound nu). rewrite (dist_real mu (odeg s) k nu x) by (auto; try lra; nra).
    unfold semi_latus. destruct (Rlt_dec (s1 k) 1); [reflexivity|lra]. }
  split.
  { intros nu x S. rewrite (D nu x S). pose proof (COS_bound nu) as [B1 B2]. set (a := s0 k) in *. set (e := s1 k) in *.
    assert (Q : 0 < 1 + e * cos nu) by nra. split.
    - apply Rmult_le_reg_r with (1 + e * cos nu); [auto|].
      replace (a * (1 - e * e) / (1 + e * cos nu) * (1 + e * cos nu)) with (a * (1 - e * e)) by (field; lra).
      assert (0 <= a * (1 - e)) by nra. assert (0 <= e * (1 - cos nu)) by nra. nra.
    - apply Rmult_le_reg_r with (1 + e * cos nu); [auto|].
      replace (a * (1 - e * e) / (1 + e * cos nu) * (1 + e * cos nu)) with (a * (1 - e * e)) by (field; lra).
      assert (0 <= a * (1 + e)) by nra. assert (0 <= e * (1 + cos nu)) by nra. nra. }
  split; intros x S; rewrite (D _ x S).
  - rewrite cos_0. field. lra.
  - rewrite cos_PI. field. lra.
Qed.
(** Hyperbolas: periapsis is negative, the least distance is a (e - 1). *)
Theorem C61_hyperbola_refuted : forall gb n (s : orb) ks j (k : six R) mu,
  lens n s -> snd (get_kepler gb s) = Ok ks -> nth_error ks j = Some (fin6 k) -> 0 < mu -> 0 < s0 k -> 1 < s1 k ->
  exists ps p, snd (get_periapsis gb s) = Ok ps /\ nth_error ps j = Some (Fin p) /\ p < 0
  /\ forall x, state_of mu (radk (odeg s) k 0) x -> norm (pos x) = s0 k * (s1 k - 1) /\ norm (pos x) <> p.
Proof.
  intros gb n s ks j k mu Hs Ek Hj Hmu Ha He. destruct (apsides_real gb n s ks j k Hs Ek Hj) as [ps [qs [P1 [P2 _]]]].
  exists ps, ((1 - s1 k) * s0 k). split; [auto|]. split; [auto|]. split; [nra|]. intros x S.
  assert (D : norm (pos x) = s0 k * (s1 k - 1)).
  { rewrite (dist_real mu (odeg s) k 0 x) by (auto; try lra; rewrite cos_0; lra). rewrite cos_0. unfold semi_latus.
    destruct (Rlt_dec (s1 k) 1); [lra|]. destruct (Rlt_dec 1 (s1 k)); [|lra]. field. lra. }
  split; [exact D|]. rewrite D. nra.
Qed.
(** Parabolas: periapsis is 0, the least distance is a = q. *)
Theorem C61_parabola_refuted : forall gb n (s : orb) ks j (k : six R) mu,
  lens n s -> snd (get_kepler gb s) = Ok ks -> nth_error ks j = Some (fin6 k) -> 0 < mu -> 0 < s0 k -> s1 k = 1 ->
  exists ps, snd (get_periapsis gb s) = Ok ps /\ nth_error ps j = Some (Fin 0)
  /\ forall x, state_of mu (radk (odeg s) k 0) x -> norm (pos x) = s0 k /\ norm (pos x) <> 0.
Proof.
  intros gb n s ks j k mu Hs Ek Hj Hmu Ha He. destruct (apsides_real gb n s ks j k Hs Ek Hj) as [ps [qs [P1 [P2 _]]]].
  exists ps. split; [auto|]. split; [rewrite P2; do 2 f_equal; rewrite He; ring|]. intros x S.
  assert (D : norm (pos x) = s0 k).
  { rewrite (dist_real mu (odeg s) k 0 x) by (auto; try lra; rewrite cos_0; lra). rewrite cos_0. unfold semi_latus.
    destruct (Rlt_dec (s1 k) 1); [lra|]. destruct (Rlt_dec 1 (s1 k)); [lra|]. rewrite He. field. }
  split; [exact D|]. lra.
Qed.
(** e = 1/2, e = 2 and e = 1, lazy mode *)
Example C61_example : forall gb e, exists s, set_kepler gb (kvec (mk6 1 e 0 0 0 1)) (s_new true false) = (s, Ok tt)
  /\ lens 1 s /\ snd (get_kepler gb s) = Ok [fin6 (mk6 1 e 0 0 0 1)]
  /\ snd (get_periapsis gb s) = Ok [Fin (1 - e)] /\ snd (get_apoapsis gb s) = Ok [Fin (1 + e)].
Proof.
  intros gb e. pose (k := mk6 1 e 0 0 0 1). pose (s := aft_kep gb (with_kep (fun _ => [fin6 k]) (s_new true false))).
  assert (A : lens 1 s) by now constructor.
  assert (Hk : okep (kchk gb s) = [fin6 k]).
  { rewrite (kchk_keeps gb 1); [reflexivity|auto|]. intros _ [|[|j]] x Hx; try discriminate. now left. }
  exists s. split; [reflexivity|]. split; [auto|].
  split; [rewrite (get_kepler_eq gb 1) by auto; cbn [snd]; now rewrite Hk|].
  unfold get_periapsis, get_apoapsis, get_e.
  split; (rewrite (get_row_bind gb 1), (get_row_bind' gb 1), Hk by auto; cbn [snd ret map map2]; rewrite lit_1; unfold k, fin6, map6; cbn [row_get s0 s1 s2 s3 s4 s5]; num; do 3 f_equal; ring).
Qed.
