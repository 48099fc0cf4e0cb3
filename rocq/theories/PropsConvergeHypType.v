(** * C70 for the Orbit class: anomalies of another type and type changes of hyperbolic orbits *)
From Coq Require Import String Reals Lra List Bool Arith Lia ZArith QArith.
From Verif Require Import NP KeplerModel ConvModel UnitModel OrbitModel Lists ConvCols ArraySpec
  NPReal RealBase Spec AnomReal KepReal PropsKep CartInv PropsAnomaly PropsAnomalyR PropsSolver PropsScalar PropsCart
  EllState OrbitLists OrbitBase OrbitOps OrbitSetters OrbitGet OrbitSpec PropsOrbitWidth PropsOrbitDirect
  PropsOrbitLazy PropsOrbitWrite OrbitReal PropsOrbitType PropsOrbitProp PropsOrbitPropR PropsOrbitAnomaly PropsNewton
  PropsConvergeHyp PropsConvergeHypOrbit.
Import ListNotations.
Local Open Scope R_scope.

Definition hyp_M (e E : R) : R := e * sinh E - E.
Lemma hyp_M_mono e E E' : 1 < e -> E < E' -> hyp_M e E < hyp_M e E'.
Proof.
  intros He H. assert (K : forall z, kepler_M e z = hyp_M e z).
  { intros. unfold kepler_M, hyp_M. destruct (Rlt_dec e 1); [lra|]. destruct (Rlt_dec 1 e); lra. }
  rewrite <- !K. apply kepler_incr; lra.
Qed.
Lemma hyp_M_nonneg e E : 1 < e -> 0 <= E -> 0 <= hyp_M e E.
Proof.
  intros He [H| <-].
  - apply (hyp_M_mono e) in H; auto. unfold hyp_M in H at 1. rewrite sinh_0 in H. lra.
  - unfold hyp_M. rewrite sinh_0. lra.
Qed.
Lemma abs0 x t : 0 < t -> Rabs (x - x) < t.
Proof. intros. replace (x - x) with 0 by ring. rewrite Rabs_R0. lra. Qed.
(** an eccentric anomaly whose mean anomaly keeps a distance from both ends stays inside one turn *)
Lemma hyp_margin e E M t : 1 < e -> t <= M -> M + t <= hyp_M e (2 * PI) -> Rabs (hyp_M e E - M) < t -> in_circle E.
Proof.
  intros He H1 H2 H3. apply Rabs_def2 in H3. split.
  - destruct (Rle_dec 0 E) as [|N]; [auto|]. exfalso. assert (L : E < 0) by lra. apply (hyp_M_mono e) in L; auto.
    unfold hyp_M in L at 2. rewrite sinh_0 in L. lra.
  - destruct (Rlt_dec E (2 * PI)) as [|N]; [auto|]. exfalso.
    assert (L : 2 * PI <= E) by lra. destruct L as [L|L]; [apply (hyp_M_mono e) in L; auto; lra|]. rewrite <- L in H3. lra.
Qed.

(** ** Writing an anomaly of another type *)
(** Every mode, degrees or radians: an anomaly on the outgoing leg with eccentric anomaly X in [0, 2 pi)
    reads back as an anomaly of a place whose mean anomaly differs by less than the tolerance; exactly
    as the same place when no mean anomaly is involved.  (Mean anomaly into type true: not closer than
    the tolerance to the ends of that range.)  On the incoming leg see C44_incoming_refuted. *)
Theorem C70_anomaly_other : forall gb gb' n w v (s s' : orb) ks j (k : six R) x tl X,
  aligned n s -> wfv v -> c_order v -> w <> otype s -> set_of gb w v s = (s', Ok tt) ->
  snd (get_kepler gb s) = Ok ks -> nth_error ks j = Some (fin6 k) -> 1 < s1 k -> entry1 v j (Fin x) ->
  place w (s1 k) (ang (odeg s) x) X -> in_circle X -> hyp_opts (oopts s) tl (hyp_M (s1 k) X) (s1 k) ->
  (w = AMean -> otype s = ATrue -> tl <= hyp_M (s1 k) X /\ hyp_M (s1 k) X + tl <= hyp_M (s1 k) (2 * PI)) ->
  exists ks' vs z y Y, snd (get_kepler gb' s') = Ok ks' /\ nth_error ks' j = Some (fin6 (with_nu k z))
  /\ snd (get_of gb' w s') = Ok vs /\ nth_error vs j = Some (Fin y)
  /\ place w (s1 k) (ang (odeg s) y) Y /\ Rabs (hyp_M (s1 k) Y - hyp_M (s1 k) X) < tl
  /\ (w <> AMean -> otype s <> AMean -> Y = X).
Proof.
  intros gb gb' n w v s s' ks j k x tl X A W C Hw E Ek Hj He Hx Px Cx Ho Hm.
  pose proof (hyp_M_nonneg (s1 k) X He (proj1 Cx)) as Mp. pose proof (hyp_opts_pos _ _ _ _ He Mp Ho) as Tp.
  destruct (set_other_spec gb n w v s s' A W C Hw E) as [vs [A' [Es [Lv [Ke [V Kp]]]]]].
  rewrite (get_kepler_eq gb n) in Ek by apply A. cbn [snd] in Ek. injection Ek as Ek. rewrite <- Ek in Hj.
  destruct (V j _ _ Hj Hx) as [g Hv]. rewrite row1_fin in Hv.
  destruct (get_of_spec gb' n w s' A') as [s2 [us [E2 [_ [_ [Lu U]]]]]].
  rewrite Kp, Ke in U. rewrite (get_kepler_eq gb' n) by apply A'. cbn [snd]. rewrite Kp, Ke, E2.
  set (d := odeg s) in *. set (e := s1 k) in *.
  assert (Q : exists z, put1 w s g (Fin x) (Fin e) = Fin z /\ forall g', exists y Y, anom1 w s g' (fin6 (with_nu k z)) = Fin y
    /\ place w e (ang d y) Y /\ Rabs (hyp_M e Y - hyp_M e X) < tl /\ (w <> AMean -> otype s <> AMean -> Y = X)).
  { unfold anom1, put1, nu1, ec1, ma1. fold d. destruct w, (otype s) eqn:Et; try congruence; cbn [place] in Px |- *.
    - rewrite (t2e1_hyp (fst g) d x e X) by auto. exists (unang d X). split; [auto|]. intros g'. rewrite row5_fin, row1_fin.
      change (s1 (with_nu k (unang d X))) with e. change (s5 (with_nu k (unang d X))) with (unang d X).
      destruct (e2t1_hyp (fst g') d (unang d X) e He) as [y [-> [_ B]]]. rewrite ang_unang in B. exists y, X.
      split; [auto|]. split; [auto|]. split; [now apply abs0|auto].
    - rewrite (t2m1_hyp g d x e X) by auto. fold (hyp_M e X). exists (unang d (hyp_M e X)). split; [auto|]. intros g'. rewrite row5_fin, row1_fin.
      change (s1 (with_nu k (unang d (hyp_M e X)))) with e. change (s5 (with_nu k (unang d (hyp_M e X)))) with (unang d (hyp_M e X)).
      destruct (m2t1_hyp (fst g') (oopts s) tl d (unang d (hyp_M e X)) e He) as [y [Y [-> [_ [B R]]]]]; rewrite ?ang_unang; auto.
      rewrite ang_unang in R. exists y, Y. split; [auto|]. split; [auto|]. split; [auto|congruence].
    - destruct (e2t1_hyp (fst g) d x e He) as [z [-> [_ B]]]. exists z. split; [auto|]. intros g'. rewrite row5_fin, row1_fin.
      change (s1 (with_nu k z)) with e. change (s5 (with_nu k z)) with z. rewrite <- Px in B.
      rewrite (t2e1_hyp (fst g') d z e X) by auto. exists (unang d X), X. rewrite ang_unang.
      split; [auto|]. split; [auto|]. split; [now apply abs0|auto].
    - rewrite e2m1_hyp, <- Px by auto. fold (hyp_M e X). eexists. split; [reflexivity|]. intros g'. rewrite row5_fin, row1_fin.
      change (s1 (with_nu k (unang d (hyp_M e X)))) with e. change (s5 (with_nu k (unang d (hyp_M e X)))) with (unang d (hyp_M e X)).
      destruct (m2e1_hyp (oopts s) tl d (unang d (hyp_M e X)) e He) as [y [-> R]]; rewrite ?ang_unang; auto.
      rewrite ang_unang in R. exists y, (ang d y). split; [auto|]. split; [auto|]. split; [auto|congruence].
    - fold (hyp_M e X) in Px. destruct (m2t1_hyp (fst g) (oopts s) tl d x e He) as [z [Y [-> [_ [B R]]]]]; [rewrite <- Px; auto..|].
      exists z. split; [auto|]. intros g'. rewrite row5_fin, row1_fin.
      change (s1 (with_nu k z)) with e. change (s5 (with_nu k z)) with z. rewrite <- Px in R. fold (hyp_M e Y) in R.
      destruct (Hm eq_refl eq_refl) as [M1 M2]. pose proof (hyp_margin e Y _ tl He M1 M2 R) as CY.
      rewrite (t2m1_hyp g' d z e Y) by auto. exists (unang d (hyp_M e Y)), Y. rewrite ang_unang.
      split; [auto|]. split; [auto|]. split; [auto|congruence].
    - fold (hyp_M e X) in Px. destruct (m2e1_hyp (oopts s) tl d x e He) as [z [-> R]]; [rewrite <- Px; auto..|].
      exists z. split; [auto|]. intros g'. rewrite row5_fin, row1_fin.
      change (s1 (with_nu k z)) with e. change (s5 (with_nu k z)) with z. rewrite <- Px in R. fold (hyp_M e (ang d z)) in R.
      rewrite e2m1_hyp by auto. exists (unang d (hyp_M e (ang d z))), (ang d z). rewrite ang_unang.
      split; [auto|]. split; [auto|]. split; [auto|congruence]. }
  destruct Q as [z [Hz Q]]. rewrite Hz in Hv.
  pose proof (set_row_nth 5 _ _ _ _ _ Hj Hv) as Hr. rewrite set5_fin in Hr.
  destruct (U j _ Hr) as [g' Hu]. destruct (Q g') as [y [Y [Ey Q']]].
  rewrite (anom1_settings w s' s g' _ Es), Ey in Hu.
  exists (set_row 5 (okep (kchk gb s)) vs), us, z, y, Y. split; [auto|]. split; [auto|]. split; [auto|]. split; [auto|]. exact Q'.
Qed.

(** The incoming leg: the eccentric anomaly x < 0 assigned to an object of type true reads back as
    x + 2 pi, the anomaly of a different place on the outgoing leg. *)
Theorem C44_incoming_refuted : forall gb gb' n v (s s' : orb) ks j (k : six R) x,
  aligned n s -> wfv v -> c_order v -> otype s = ATrue -> set_of gb AEcc v s = (s', Ok tt) ->
  snd (get_kepler gb s) = Ok ks -> nth_error ks j = Some (fin6 k) -> 1 < s1 k -> entry1 v j (Fin x) ->
  - 2 * PI <= ang (odeg s) x < 0 ->
  exists vs y, snd (get_of gb' AEcc s') = Ok vs /\ nth_error vs j = Some (Fin y)
  /\ ang (odeg s) y = ang (odeg s) x + 2 * PI.
Proof.
  intros gb gb' n v s s' ks j k x A W C Et E Ek Hj He Hx Rx. assert (Hw : AEcc <> otype s) by (rewrite Et; discriminate).
  destruct (set_other_spec gb n AEcc v s s' A W C Hw E) as [vs [A' [Es [Lv [Ke [V Kp]]]]]].
  rewrite (get_kepler_eq gb n) in Ek by apply A. cbn [snd] in Ek. injection Ek as Ek. rewrite <- Ek in Hj.
  destruct (V j _ _ Hj Hx) as [g Hv]. rewrite row1_fin in Hv.
  destruct (get_of_spec gb' n AEcc s' A') as [s2 [us [E2 [_ [_ [Lu U]]]]]].
  rewrite Kp, Ke in U. rewrite E2. set (d := odeg s) in *. set (e := s1 k) in *.
  unfold put1 in Hv. rewrite Et in Hv. fold d in Hv. destruct (e2t1_hyp (fst g) d x e He) as [z [Ez [_ B]]]. rewrite Ez in Hv.
  pose proof (set_row_nth 5 _ _ _ _ _ Hj Hv) as Hr. rewrite set5_fin in Hr. destruct (U j _ Hr) as [g' Hu].
  rewrite (anom1_settings AEcc s' s g' _ Es) in Hu. unfold anom1, ec1 in Hu. rewrite Et, row5_fin, row1_fin in Hu. fold d in Hu.
  change (s1 (with_nu k z)) with e in Hu. change (s5 (with_nu k z)) with z in Hu.
  unfold t2e1 in Hu. rewrite inr_fin, branch_hyp in Hu by lra. destruct (hyp_inv e He _ _ B) as [P _].
  destruct (t2e_hyp_real e He (ang d z) P) as [E0 [E0' [B0 _]]]. rewrite E0' in Hu. rewrite (hyp_unique e _ E0 (ang d x) He B0 B) in Hu.
  destruct (wrap_fin (ang d x)) as [y [Y1 [Y2 Y3]]]. rewrite Y1, outd_fin in Hu. exists us, (unang d y). rewrite ang_unang.
  split; [auto|]. split; [auto|]. apply circle_eq; auto.
  - split; lra.
  - apply (cong_trans _ _ _ Y3). exists (-1)%Z. lra.
Qed.

(** ** Changing the type *)
Theorem C70_type : forall gb gb' n val t (s s' : orb) ks j (k : six R) tl X,
  aligned n s -> odirect s = false -> anomaly_of (strip (lower val)) = Some t -> otype s <> t ->
  set_type gb val s = (s', Ok tt) ->
  snd (get_kepler gb s) = Ok ks -> nth_error ks j = Some (fin6 k) -> 1 < s1 k ->
  place (otype s) (s1 k) (ang (odeg s) (s5 k)) X -> in_circle X -> hyp_opts (oopts s) tl (hyp_M (s1 k) X) (s1 k) ->
  otype s' = t /\ ocart s' = ocart s
  /\ exists ks' x Y, snd (get_kepler gb' s') = Ok ks' /\ nth_error ks' j = Some (fin6 (with_nu k x))
  /\ place t (s1 k) (ang (odeg s) x) Y /\ Rabs (hyp_M (s1 k) Y - hyp_M (s1 k) X) < tl /\ (otype s <> AMean -> Y = X).
Proof.
  intros gb gb' n val t s s' ks j k tl X A D Ea Et E Ek Hj He Px Cx Hop.
  pose proof (hyp_M_nonneg (s1 k) X He (proj1 Cx)) as Mp. pose proof (hyp_opts_pos _ _ _ _ He Mp Hop) as Tp.
  destruct (okro s) eqn:Ho.
  { destruct (set_type_ro gb n val t s A Ea Et Ho) as [s1 [_ [_ E']]]. congruence. }
  destruct (set_type_getter gb n val t s A Ea Et) as [sa [xa [Ga [_ [_ [V [_ _]]]]]]].
  destruct (C48_values gb n val t s A Ea Et Ho) as [sx [xs [s2 [G [E2 [Es [Em [L [Ek' [Er [Ec Eg]]]]]]]]]]].
  assert (s2 = s') by congruence. subst s2. assert (sa = sx) by congruence. assert (xa = xs) by congruence. subst sa xa.
  assert (ks = okep sx) by congruence. subst ks.
  rewrite (get_kepler_eq gb n) in Er by apply A. cbn [snd] in Er. injection Er as Er. rewrite Er in V.
  destruct V as [_ V]. destruct (V j _ Hj) as [g Hx].
  set (d := odeg s) in *. set (e := s1 k) in *.
  assert (Q : exists x Y, anom1 t s g (fin6 k) = Fin x /\ place t e (ang d x) Y /\ Rabs (hyp_M e Y - hyp_M e X) < tl /\ (otype s <> AMean -> Y = X)).
  { unfold anom1, nu1, ec1, ma1. rewrite row5_fin, row1_fin. fold d e. destruct t, (otype s) eqn:Es'; try congruence; cbn [place] in Px |- *.
    - destruct (e2t1_hyp (fst g) d (s5 k) e He) as [x [-> [_ B]]]. rewrite <- Px in B. exists x, X.
      split; [auto|]. split; [auto|]. split; [now apply abs0|auto].
    - fold (hyp_M e X) in Px. destruct (m2t1_hyp (fst g) (oopts s) tl d (s5 k) e He) as [x [Y [-> [_ [B R]]]]]; [rewrite <- Px; auto..|].
      rewrite <- Px in R. exists x, Y. split; [auto|]. split; [auto|]. split; [auto|congruence].
    - rewrite (t2e1_hyp (fst g) d (s5 k) e X) by auto. exists (unang d X), X. rewrite ang_unang. split; [auto|]. split; [auto|]. split; [now apply abs0|auto].
    - fold (hyp_M e X) in Px. destruct (m2e1_hyp (oopts s) tl d (s5 k) e He) as [x [-> R]]; [rewrite <- Px; auto..|].
      rewrite <- Px in R. exists x, (ang d x). split; [auto|]. split; [auto|]. split; [auto|congruence].
    - rewrite (t2m1_hyp g d (s5 k) e X) by auto. exists (unang d (hyp_M e X)), X. rewrite ang_unang. split; [auto|]. split; [auto|]. split; [now apply abs0|auto].
    - rewrite e2m1_hyp, <- Px by auto. exists (unang d (hyp_M e X)), X. rewrite ang_unang. split; [auto|]. split; [auto|]. split; [now apply abs0|auto]. }
  destruct Q as [x [Y [Ex Q]]]. rewrite Ex in Hx. pose proof Es as Es'. apply settings_eq in Es'. cbn [oM0 oG odeg otype with_type] in Es'.
  split; [apply Es'|]. split; [auto|]. exists (okep s'), x, Y. split; [auto|]. split; [|exact Q].
  rewrite Ek', (set_row_nth 5 (okep sx) xs j (fin6 k) (Fin x)); auto.
Qed.

(** ** A lazy object with a = 1, e = 2 *)
Lemma hyp_ready gb t x : exists s, set_kepler gb (kvec (mk6 1 2 1 0 0 x)) (with_type t (s_new true false)) = (s, Ok tt)
  /\ aligned 1 s /\ otype s = t /\ odeg s = false /\ odirect s = false /\ okro s = false /\ oopts s = default_options
  /\ snd (get_kepler gb s) = Ok [fin6 (mk6 1 2 1 0 0 x)].
Proof.
  destruct (propagate_ready gb t true (mk6 1 2 1 0 0 x)) as [s [E [A [Ht [Hg [_ [_ [_ [Hk _]]]]]]]]].
  exists s. split; [auto|]. split; [auto|]. split; [auto|]. split; [auto|].
  cbv in E. apply (f_equal fst) in E. cbn [fst] in E. subst s. repeat split; auto.
Qed.
Lemma sc_ready gb x (s : orb) : aligned 1 s -> otype s = ATrue -> odeg s = false -> okro s = false ->
  exists s', set_of gb AEcc (Sc (Fin x)) s = (s', Ok tt).
Proof.
  intros A Ht Hg Hro. rewrite (set_of_eq gb 1), Hro by (try exact I; apply A). unfold anom_arg. rewrite Ht.
  set (e := map _ _). assert (Le : length e = 1%nat) by (unfold e; rewrite map_length; apply (l_k 1 _ (lens_kchk gb 1 s (proj1 A)))).
  rewrite Le. unfold eccentric_to_true. rewrite Hg. cbn [in_rad out_deg]. unfold fresh at 1. cbn [broadcast rbind].
  destruct e as [|e0 [|]]; try discriminate. cbn [map]. unfold fresh, amap.
  rewrite by_masks_imap by reflexivity. cbn [imap2 map bcast1 strip_ones length Nat.eqb]. eauto.
Qed.
Lemma circle_1 : in_circle 1.
Proof. pose proof PI2_1 as H. unfold PI2 in H. split; lra. Qed.
Lemma default_1 : hyp_opts default_options (/ 1000000000000) (hyp_M 2 1) 2.
Proof.
  apply hyp_opts_default. pose proof (HypTrig.sh_u 1 ltac:(lra)) as S. unfold hyp_M.
  apply Rle_trans with (10 ^ 4); [lra|]. apply Rle_pow; [lra|]. repeat constructor.
Qed.
(** eccentric_anomaly = 1 on an object of type true reads back 1 *)
Example C70_other_example : forall gb, exists s s' vs,
  set_kepler gb (kvec (mk6 1 2 1 0 0 0)) (with_type ATrue (s_new true false)) = (s, Ok tt)
  /\ set_eccentric_anomaly gb (Sc (Fin 1)) s = (s', Ok tt)
  /\ snd (get_of gb AEcc s') = Ok vs /\ nth_error vs 0 = Some (Fin 1).
Proof.
  intros gb. destruct (hyp_ready gb ATrue 0) as [s [E [A [Ht [Hg [Hd [Hro [Hop Hk]]]]]]]].
  destruct (sc_ready gb 1 s A Ht Hg Hro) as [s' S]. exists s, s'.
  destruct (C70_anomaly_other gb gb 1 AEcc (Sc (Fin 1)) s s' _ 0 (mk6 1 2 1 0 0 0) 1 (/ 1000000000000) 1 A I I ltac:(rewrite Ht; discriminate) S Hk eq_refl)
    as [ks' [vs [z [y [Y [_ [_ [Ev [Hv [P [_ Q]]]]]]]]]]]; auto; try (cbn; lra).
  - reflexivity.
  - rewrite Hg. reflexivity.
  - apply circle_1.
  - rewrite Hop. apply default_1.
  - discriminate.
  - exists vs. split; [auto|]. split; [exact S|]. split; [auto|]. rewrite Hv. rewrite Hg in P. cbn [place ang] in P.
    rewrite <- P, Q; auto; [discriminate|rewrite Ht; discriminate].
Qed.
(** eccentric_anomaly = -1 reads back 2 pi - 1 *)
Example C44_incoming_example : forall gb, exists s s' vs y,
  set_kepler gb (kvec (mk6 1 2 1 0 0 0)) (with_type ATrue (s_new true false)) = (s, Ok tt)
  /\ set_eccentric_anomaly gb (Sc (Fin (-1))) s = (s', Ok tt)
  /\ snd (get_of gb AEcc s') = Ok vs /\ nth_error vs 0 = Some (Fin y) /\ y = -1 + 2 * PI.
Proof.
  intros gb. destruct (hyp_ready gb ATrue 0) as [s [E [A [Ht [Hg [Hd [Hro [Hop Hk]]]]]]]].
  destruct (sc_ready gb (-1) s A Ht Hg Hro) as [s' S]. exists s, s'.
  destruct (C44_incoming_refuted gb gb 1 (Sc (Fin (-1))) s s' _ 0 (mk6 1 2 1 0 0 0) (-1) A I I Ht S Hk eq_refl)
    as [vs [y [V1 [V2 V3]]]]; auto; try (cbn; lra).
  - reflexivity.
  - rewrite Hg. cbn [ang]. pose proof PI2_1 as H. unfold PI2 in H. lra.
  - exists vs, y. rewrite Hg in V3. auto.
Qed.
(** from eccentric anomaly 1 to type true *)
Example C70_type_example : forall gb, exists s s' ks' x,
  set_kepler gb (kvec (mk6 1 2 1 0 0 1)) (with_type AEcc (s_new true false)) = (s, Ok tt)
  /\ set_type gb " True"%string s = (s', Ok tt)
  /\ snd (get_kepler gb s') = Ok ks' /\ nth_error ks' 0 = Some (fin6 (mk6 1 2 1 0 0 x)) /\ anomalies_hyp 2 x 1.
Proof.
  intros gb. destruct (hyp_ready gb AEcc 1) as [s [E [A [Ht [Hg [Hd [Hro [Hop Hk]]]]]]]].
  assert (Et : otype s <> ATrue) by (rewrite Ht; discriminate).
  destruct (C48_values gb 1 " True"%string ATrue s A eq_refl Et Hro) as [_ [_ [s' [_ [S _]]]]]. exists s, s'.
  destruct (C70_type gb gb 1 " True"%string ATrue s s' _ 0 (mk6 1 2 1 0 0 1) (/ 1000000000000) 1 A Hd eq_refl Et S Hk eq_refl)
    as [_ [_ [ks' [x [Y [K1 [K2 [P [_ Q]]]]]]]]]; auto; try (cbn; lra).
  - rewrite Ht, Hg. reflexivity.
  - apply circle_1.
  - rewrite Hop. apply default_1.
  - exists ks', x. rewrite Hg, Q in P by (rewrite Ht; discriminate). auto.
Qed.
