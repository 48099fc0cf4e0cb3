(** * C75: changing M0, G, degrees or solver_options of a live object *)
From Coq Require Import String List Bool Arith Lia ZArith QArith.
From Verif Require Import NP KeplerModel ConvModel UnitModel OrbitModel Lists ConvCols ArraySpec
  PropsAnomaly OrbitLists OrbitBase OrbitOps OrbitSetters OrbitInv OrbitSpec NPToyN PropsOrbitWidth OrbitGet
  PropsOrbitDirect PropsOrbitLazy PropsOrbitWrite LiveModel.
Import ListNotations.
Local Open Scope nat_scope.

Section Live.
Context {F : Type} `{NP F}.
Notation orb := (orb F).

(** ** Specification *)
(** a whole-state assignment [orb.kepler = v] or [orb.cartesian = v] that does not raise *)
Definition whole_write gb (v : arg F) (s s' : orb) : Prop :=
  set_kepler gb v s = (s', Ok tt) \/ set_cartesian gb v s = (s', Ok tt).

(** ** Proof *)
Lemma al_attr a (s : orb) : al s -> al (set_attr a s).
Proof. intros [n [A E]]. exists n. split; [destruct A; now constructor|exact E]. Qed.
Lemma al_live p : forall s : orb, al s -> live_ok width_ok p s -> al (live_run p s).
Proof.
  induction p as [|[gb o|a] p IH]; intros s A K; auto; destruct K as [K1 K2]; cbn [live_run]; apply IH; auto.
  - now apply C41_step.
  - now apply al_attr.
Qed.
(** the arrays keep one entry per orbit whatever attributes are assigned in between *)
Theorem C75_width : forall gb M0 c kw (s : orb) p, init gb M0 c kw = Ok s -> live_ok width_ok p s -> same_width (live_run p s).
Proof. intros gb M0 c kw s p E K. apply al_width, al_live; auto. eapply al_init; eauto. Qed.

Lemma whole_lazy gb v (s s' : orb) : al s -> wfv v -> lazy_mode s -> whole_write gb v s s' -> linv s'.
Proof.
  intros [n [Hs HE]] Hv L [E|E].
  - rewrite (set_kepler_eq gb n) in E by auto. destruct (okro s); [discriminate|].
    destruct (whole_value n v) as [cs|] eqn:Ew; [|discriminate]. injection E as <-.
    assert (Lc : length cs = n) by (eapply whole_value_length; eauto).
    set (t := with_kep (fun _ => cs) s). assert (Ht : lens n t) by now apply lens_with_kep.
    assert (D : aft_kep gb t = with_kf all_true (with_cf all_false t)).
    { unfold aft_kep. change (odirect t) with (odirect s). now rewrite (lazy_mode_direct s L). }
    pose proof (lens_aft_kep gb n t Ht) as H2. rewrite D in *. split; [exists n; split; [exact H2|exact HE]|].
    split; [now apply lazy_mode_iff in L|]. intros j c k m cb kb C. right. right.
    assert (kb = true) as ->.
    { pose proof (col_kb _ _ _ _ _ _ _ C) as Q. cbn in Q. apply nth_error_In in Q. unfold all_true in Q. apply in_map_iff in Q. destruct Q as [? [? _]]; auto. }
    split; [|auto]. intros ->. exfalso. pose proof (col_cb _ _ _ _ _ _ _ C) as Q. cbn in Q. apply nth_error_In in Q. unfold all_false in Q.
    apply in_map_iff in Q. destruct Q as [? [? _]]. discriminate.
  - rewrite (set_cartesian_eq gb n) in E by auto. destruct (ocro s); [discriminate|].
    destruct (whole_value n v) as [cs|] eqn:Ew; [|discriminate]. injection E as <-.
    assert (Lc : length cs = n) by (eapply whole_value_length; eauto).
    set (t := with_cart (fun _ => cs) s). assert (Ht : lens n t) by now apply lens_with_cart.
    assert (D : aft_cart gb t = with_cf all_true (with_kf all_false t)).
    { unfold aft_cart. change (odirect t) with (odirect s). now rewrite (lazy_mode_direct s L). }
    pose proof (lens_aft_cart gb n t Ht) as H2. rewrite D in *. split; [exists n; split; [exact H2|exact HE]|].
    split; [now apply lazy_mode_iff in L|]. intros j c k m cb kb C. right. right.
    assert (cb = true) as ->.
    { pose proof (col_cb _ _ _ _ _ _ _ C) as Q. cbn in Q. apply nth_error_In in Q. unfold all_true in Q. apply in_map_iff in Q. destruct Q as [? [? _]]; auto. }
    split; [|auto]. intros _ ->. exfalso. pose proof (col_kb _ _ _ _ _ _ _ C) as Q. cbn in Q. apply nth_error_In in Q. unfold all_false in Q.
    apply in_map_iff in Q. destruct Q as [? [? _]]. discriminate.
Qed.
Lemma whole_direct gb v (s s' : orb) : al s -> wfv v -> odirect s = true -> whole_write gb v s s' -> dinv s'.
Proof.
  intros [n [Hs HE]] Hv Dr [E|E].
  - rewrite (set_kepler_eq gb n) in E by auto. destruct (okro s); [discriminate|].
    destruct (whole_value n v) as [cs|] eqn:Ew; [|discriminate]. injection E as <-.
    assert (Lc : length cs = n) by (eapply whole_value_length; eauto).
    set (t := with_kep (fun _ => cs) s). assert (Ht : lens n t) by now apply lens_with_kep.
    assert (D : aft_kep gb t = call_ gb t) by (unfold aft_kep; change (odirect t) with (odirect s); now rewrite Dr). rewrite D.
    destruct (call_spec gb n t Ht) as [_ R]. pose proof (settings_step _ _ _ _ R) as Es.
    assert (L0 : lazy t = false) by now apply lazy_direct.
    split; [exists n; eapply al_step; [|exact R]; now split|]. split; [now rewrite (direct_settings t)|].
    intros j c k m cb kb C. destruct (colstep_col _ _ _ _ _ _ _ _ _ _ Ht R C) as [c0 [k0 [cb0 [kb0 [C0 [R1 R2]]]]]].
    apply (good_settings t); auto. destruct R1 as [[-> ->]|[R1 _]]; [|congruence].
    destruct R2 as [[[R2|R2] _]|[_ [_ [_ R2]]]]; [discriminate|right; left; auto|]. right. right. right.
    apply R2. now rewrite L0.
  - rewrite (set_cartesian_eq gb n) in E by auto. destruct (ocro s); [discriminate|].
    destruct (whole_value n v) as [cs|] eqn:Ew; [|discriminate]. injection E as <-.
    assert (Lc : length cs = n) by (eapply whole_value_length; eauto).
    set (t := with_cart (fun _ => cs) s). assert (Ht : lens n t) by now apply lens_with_cart.
    assert (D : aft_cart gb t = kall gb t) by (unfold aft_cart; change (odirect t) with (odirect s); now rewrite Dr). rewrite D.
    destruct (kall_spec gb n t Ht) as [_ [_ R]]. pose proof (settings_step _ _ _ _ R) as Es.
    split; [exists n; eapply al_step; [|exact R]; now split|]. split; [now rewrite (direct_settings t)|].
    intros j c k m cb kb C. destruct (colstep_col _ _ _ _ _ _ _ _ _ _ Ht R C) as [c0 [k0 [cb0 [kb0 [C0 [-> [-> [R1 R2]]]]]]]].
    apply (good_settings t); auto. destruct (nan6 c0) eqn:En; [left; auto|]. right. right. left. now apply R2.
Qed.

(** Whatever happened before (attribute and mode changes included), a whole-state assignment makes the
    object consistent under the attributes it has then, and it stays so.
    Full claim: also without the whole-state assignment; refuted below. *)
Theorem C75_recover_lazy_partial : nan_arith (F := F) -> forall gb0 M0 c kw (s0 : orb) p gb v s' h,
  init gb0 M0 c kw = Ok s0 -> live_ok width_ok p s0 -> wfv v -> lazy_mode (live_run p s0) ->
  whole_write gb v (live_run p s0) s' -> steps_ok lazy_ok h s' ->
  (forall g1 g2, exists s1 cs s2 ks, get_cartesian g1 (run h s') = (s1, Ok cs)
     /\ get_kepler g2 s1 = (s2, Ok ks) /\ pair_consistent (run h s') cs ks)
  /\ (forall g1 g2, exists s1 ks s2 cs, get_kepler g1 (run h s') = (s1, Ok ks)
     /\ get_cartesian g2 s1 = (s2, Ok cs) /\ pair_consistent (run h s') cs ks).
Proof.
  intros NA gb0 M0 c kw s0 p gb v s' h E K Hv L W Hh.
  assert (A : al (live_run p s0)) by (apply al_live; auto; eapply al_init; eauto).
  assert (I : linv (run h s')) by (apply linv_run; auto; eapply whole_lazy; eauto).
  split; intros; [now apply read_ck|now apply read_kc].
Qed.
Theorem C75_recover_direct_partial : nan_arith (F := F) -> forall gb0 M0 c kw (s0 : orb) p gb v s' h,
  init gb0 M0 c kw = Ok s0 -> live_ok width_ok p s0 -> wfv v -> odirect (live_run p s0) = true ->
  whole_write gb v (live_run p s0) s' -> steps_ok direct_ok h s' -> all_consistent (run h s').
Proof.
  intros NA gb0 M0 c kw s0 p gb v s' h E K Hv L W Hh.
  assert (A : al (live_run p s0)) by (apply al_live; auto; eapply al_init; eauto).
  apply dinv_consistent; auto. apply dinv_run; auto. eapply whole_direct; eauto.
Qed.
End Live.

Section Examples.
#[local] Existing Instance NP_toyn.
(** after the program [p] on a new object in lazy mode, reading cartesian and then kepler gives these *)
Definition live_reads (M0 : Z) (t : string) (p : list (live Z)) (s : orb Z) (cs ks : list (six Z)) : Prop :=
  exists s0, init gd M0 (cfgl t 2) (kwd matd) = Ok s0 /\ live_ok width_ok p s0 /\ s = live_run p s0
  /\ exists s1 s2, get_cartesian gd s = (s1, Ok cs) /\ get_kepler gd s1 = (s2, Ok ks).
Ltac contradictory j :=
  eexists _, _, _; split;
  [eexists; split; [vm_compute; reflexivity|]; split; [vm_compute; tauto|]; split; [vm_compute; reflexivity|];
   eexists _, _; split; [vm_compute; reflexivity|vm_compute; reflexivity]|];
  intros [_ [_ C]]; destruct (C j _ _ _ eq_refl eq_refl eq_refl) as [N|[N|[N|N]]];
  [vm_compute in N; intuition discriminate|vm_compute in N; intuition discriminate
  |destruct (N gd) as [k0 [N1 N2]]; vm_compute in N1; injection N1 as <-; vm_compute in N2;
   congruence || (destruct N2 as [x [N2 N3]]; congruence)
  |destruct (N gd) as [nu [N1 N2]]; vm_compute in N1; (subst nu || injection N1 as <-); vm_compute in N2; congruence].
(** Both sides calculated, then an attribute changes: nothing becomes stale.  Integer arithmetic [NP_toyn]:
    the control flow is the same in every arithmetic. *)
Theorem C75_M0_refuted : exists s cs ks,
  live_reads 1000%Z "true" [LOp gd OGetCart; LSet (AM0 100000%Z)] s cs ks /\ ~ pair_consistent s cs ks.
Proof. contradictory 0. Qed.
Theorem C75_G_refuted : exists s cs ks,
  live_reads 1000%Z "true" [LOp gd OGetCart; LSet (AG 100%Z)] s cs ks /\ ~ pair_consistent s cs ks.
Proof. contradictory 0. Qed.
Theorem C75_degrees_refuted : exists s cs ks,
  live_reads 1000%Z "true" [LOp gd OGetCart; LSet (ADegrees true)] s cs ks /\ ~ pair_consistent s cs ks.
Proof. contradictory 0. Qed.
(** the same with [direct_update]: the stored pair contradicts the new attribute until the next assignment *)
Theorem C75_direct_refuted : exists s0, init gd 1000%Z (cfgd "true" 2) (kwd matd) = Ok s0
  /\ odirect s0 = true /\ all_consistent s0 /\ ~ all_consistent (set_attr (AM0 100000%Z) s0).
Proof.
  eexists. split; [vm_compute; reflexivity|]. split; [vm_compute; reflexivity|]. split.
  - apply dinv_consistent; [exact nan_arith_toyn|]. eapply (dinv_init nan_arith_toyn gd 1000%Z (cfgd "true" 2) (kwd matd)); [reflexivity|].
    vm_compute. reflexivity.
  - intros C. destruct (C 0 _ _ _ eq_refl eq_refl eq_refl) as [N|[N|[N|N]]].
    + vm_compute in N. intuition discriminate.
    + vm_compute in N. intuition discriminate.
    + specialize (N gd). vm_compute in N. destruct N as [k0 [N1 N2]]. congruence.
    + specialize (N gd). vm_compute in N. destruct N as [nu [N1 N2]]. subst nu. vm_compute in N2. congruence.
Qed.
(** [p75]: a read, an attribute change, an element assignment and two more attribute changes *)
Definition p75 : list (live Z) :=
  [LOp gd OGetCart; LSet (AM0 100000%Z); LOp gd (OSetKepRow 1 (Sc 0%Z)); LSet (ADegrees true); LSet (AG 3%Z)].
Example C75_recover_example : exists s0 s', init gd 1000%Z (cfgl "true" 2) (kwd matd) = Ok s0
  /\ live_ok width_ok p75 s0 /\ lazy_mode (live_run p75 s0) /\ whole_write gd matd (live_run p75 s0) s'
  /\ steps_ok lazy_ok [(gd, OGetCart); (gd, OGetKep)] s' /\ oM0 s' = 100000%Z /\ odeg s' = true.
Proof.
  eexists _, _. split; [vm_compute; reflexivity|]. split; [vm_compute; tauto|]. split; [vm_compute; tauto|].
  split; [left; vm_compute; reflexivity|]. split; [vm_compute; tauto|]. split; vm_compute; reflexivity.
Qed.
Example C75_recover_direct_example : exists s0 s', init gd 1000%Z (cfgd "true" 2) (kwd matd) = Ok s0
  /\ live_ok width_ok p75 s0 /\ odirect (live_run p75 s0) = true /\ whole_write gd matd (live_run p75 s0) s'
  /\ steps_ok direct_ok [(gd, OSetKepRow 0 (Sc 7%Z))] s' /\ oG s' = 3%Z.
Proof.
  eexists _, _. split; [vm_compute; reflexivity|]. split; [vm_compute; tauto|]. split; [vm_compute; reflexivity|].
  split; [left; vm_compute; reflexivity|]. split; [vm_compute; repeat (split; auto)|]. vm_compute; reflexivity.
Qed.
End Examples.
