(** * C46, C47: manual update mode and the read-only flags. *)
From Coq Require Import String List Bool Arith Lia ZArith QArith.
From Verif Require Import NP KeplerModel ConvModel UnitModel OrbitModel Lists ConvCols ArraySpec
  PropsAnomaly OrbitLists OrbitBase OrbitOps OrbitSetters OrbitInv OrbitSpec NPToyN PropsOrbitWidth OrbitGet
  PropsOrbitDirect PropsOrbitLazy PropsOrbitWrite PropsOrbitLost.
Import ListNotations.
Local Open Scope nat_scope.

Section Modes.
Context {F : Type} `{NP F}.
Notation orb := (orb F).

(** ** C46 *)
Definition manual (s : orb) : Prop := oauto s = false /\ odirect s = false.
(** operations on the Kepler (Cartesian) side and reads; calculate_*, mass changes, the mode flags and
    changes of the number of orbits are not among them *)
Definition kep_side (o : op F) : Prop :=
  match o with
  | OSetKepRow _ _ | OSetKep _ | OSetTrue _ | OSetEcc _ | OSetMean _ | OSetPeriod _ | OSetMeanMotion _
  | OSetEqui _ | OSetType _ | OPropagate _ => True
  | OUpdate _ kw => kw_cartesian kw = None /\ some6 (kw_c kw) = false
  | _ => reader o = true
  end.
Definition cart_side (o : op F) : Prop :=
  match o with
  | OSetCartRow _ _ | OSetCart _ | OSetR _ | OSetV _ | OSetVelocity _ => True
  | OUpdate _ kw => (kw_cartesian kw <> None \/ kw_kepler kw = None) /\ some6 (kw_k kw) = false
  | _ => reader o = true
  end.

Lemma manual_lazy (s : orb) : manual s -> lazy s = false.
Proof. intros [E _]. unfold lazy. now rewrite E. Qed.
Lemma manual_kchk gb n (s : orb) : lens n s -> manual s -> kchk gb s = s.
Proof.
  intros Hs M. unfold kchk, kep_check, bind, get. destruct M as [-> _]. reflexivity.
Qed.
Lemma manual_cchk gb (s : orb) : manual s -> cchk gb s = s.
Proof. intros M. apply cchk_id. now apply manual_lazy. Qed.
Lemma manual_aft gb (s : orb) : manual s ->
  aft_keprow gb s = with_cf all_false s /\ aft_kep gb s = with_kf all_true (with_cf all_false s)
  /\ aft_cartrow gb s = with_kf all_false s /\ aft_cart gb s = with_cf all_true (with_kf all_false s).
Proof. intros [_ M]. unfold aft_keprow, aft_kep, aft_cartrow, aft_cart. rewrite M. auto. Qed.

(** [Q]: what an operation of the Kepler side may change *)
Definition keepC (s s' : orb) : Prop := ocart s' = ocart s /\ oauto s' = oauto s /\ odirect s' = odirect s.
Definition keepK (s s' : orb) : Prop := okep s' = okep s /\ oauto s' = oauto s /\ odirect s' = odirect s.
Lemma keepC_refl s : keepC s s. Proof. now repeat split. Qed.
Lemma keepK_refl s : keepK s s. Proof. now repeat split. Qed.
Lemma keepC_trans a b c : keepC a b -> keepC b c -> keepC a c.
Proof. unfold keepC. intros [? [? ?]] [? [? ?]]. repeat split; congruence. Qed.
Lemma reader_keeps gb o n (s : orb) : lens n s -> manual s -> reader o = true ->
  keepC s (fst (run_op gb o s)) /\ keepK s (fst (run_op gb o s)).
Proof.
  intros Hs M Ho.
  set (P := fun s' : orb => lens n s' /\ ocart s' = ocart s /\ okep s' = okep s /\ oauto s' = oauto s /\ odirect s' = odirect s).
  assert (G : P (run [(gb, o)] s)).
  { apply readers_run; unfold P.
    - intros s0 [? _]. eauto.
    - intros g s0 [L [? [? [? ?]]]]. rewrite (manual_kchk g n); auto. destruct M. split; congruence.
    - intros g s0 [L [? [? [? ?]]]]. rewrite (manual_cchk g); auto. destruct M. split; congruence.
    - intros n' s0 s' E L [L0 [? [? [? ?]]]]. unfold core, settings in E. split; [destruct L, L0; constructor; congruence|].
      repeat split; congruence.
    - repeat constructor. exact Ho.
    - repeat (split; auto). }
  cbn in G. destruct G as [_ [? [? [? ?]]]]. now repeat split.
Qed.
Lemma keepC_set_of gb w v n (s : orb) : lens n s -> manual s -> wfv v -> keepC s (fst (set_of gb w v s)).
Proof.
  intros Hs M Hv. rewrite (set_of_eq gb n) by auto. destruct (okro s); [apply keepC_refl|].
  assert (Eb : base gb w s = s) by (unfold base; destruct (anomaly_eqb w (otype s)); auto; now apply (manual_kchk gb n)).
  rewrite Eb. destruct (anom_arg gb w s v) as [x|e]; [|apply keepC_refl]. destruct (bcast1 n x) as [vs|e]; [|apply keepC_refl].
  cbn [fst]. set (s1 := with_kep _ s). assert (M1 : manual s1) by exact M.
  destruct (manual_aft gb s1 M1) as [-> _]. assert (M2 : manual (with_cf all_false s1)) by exact M.
  destruct (manual_aft gb _ M2) as [-> _]. repeat split.
Qed.
Lemma keepC_update gb inds kw (s : orb) : manual s -> kw_cartesian kw = None -> some6 (kw_c kw) = false ->
  keepC s (fst (update gb inds kw s)).
Proof.
  intros [Ma Md] E1 E2. unfold update. rewrite bind_get, E1, E2. cbn [andb].
  assert (G : forall s' : orb, odirect s' = false -> keepC s' (fst (mark_kep gb inds s'))).
  { intros s' Hd. unfold mark_kep. rewrite bind_get, Hd, bind_lift. destruct (flag _ _ _); [|apply keepC_refl].
    rewrite bind_modify, bind_get || rewrite bind_modify. rewrite bind_lift. destruct (flag _ _ _); repeat split. }
  destruct (kw_kepler kw) as [v|].
  { destruct (okro s); [apply keepC_refl|]. rewrite bind_lift. destruct (assign_cols _ _ _) as [cs|]; [|apply keepC_refl].
    rewrite bind_modify. eapply keepC_trans; [|now apply G]. repeat split. }
  cbv zeta. destruct (some6 (kw_k kw) && okro s); [apply keepC_refl|]. rewrite andb_false_r.
  assert (R : forall s' : orb, odirect s' = false -> keepC s' (fst (bind (ret tt) (fun _ : unit =>
      if some6 (kw_k kw) then bind (fun s => let '(cs, r) := assign_keys (keys (kw_k kw)) (okep s) inds in
                     (with_kep (fun _ => cs) s, r)) (fun _ => mark_kep gb inds) else ret tt) s'))).
  { intros s' Hd. rewrite bind_ret. destruct (some6 (kw_k kw)); [|apply keepC_refl].
    unfold bind at 1. destruct (assign_keys _ _ _) as [cs [[]|e]]; [|repeat split].
    eapply keepC_trans; [|now apply G]. repeat split. }
  destruct (kw_m kw) as [v|]; [|rewrite bind_ret; now apply R].
  rewrite Md. rewrite bind_assoc, bind_lift. destruct (assign _ _ _) as [row|]; [|apply keepC_refl].
  rewrite bind_modify. eapply keepC_trans; [|now apply R]. repeat split.
Qed.
Lemma keepK_trans a b c : keepK a b -> keepK b c -> keepK a c.
Proof. unfold keepK. intros [? [? ?]] [? [? ?]]. repeat split; congruence. Qed.
Lemma keepK_update gb inds kw (s : orb) : manual s -> kw_cartesian kw <> None \/ kw_kepler kw = None -> some6 (kw_k kw) = false ->
  keepK s (fst (update gb inds kw s)).
Proof.
  intros [Ma Md] E1 E2. unfold update. rewrite bind_get.
  assert (G : forall s' : orb, odirect s' = false -> keepK s' (fst (mark_cart gb inds s'))).
  { intros s' Hd. unfold mark_cart. rewrite bind_get, Hd, bind_lift. destruct (flag _ _ _); [|apply keepK_refl].
    rewrite bind_modify, bind_lift. destruct (flag _ _ _); repeat split. }
  destruct (kw_cartesian kw) as [v|].
  { destruct (ocro s); [apply keepK_refl|]. rewrite bind_lift. destruct (assign_cols _ _ _) as [cs|]; [|apply keepK_refl].
    rewrite bind_modify. eapply keepK_trans; [|now apply G]. repeat split. }
  destruct E1 as [E1|E1]; [congruence|]. rewrite E1, E2. cbv zeta. cbn [andb].
  destruct (some6 (kw_c kw) && ocro s); [apply keepK_refl|].
  assert (R : forall s' : orb, odirect s' = false -> keepK s' (fst (bind (
      if some6 (kw_c kw) then bind (fun s => let '(cs, r) := assign_keys (keys (kw_c kw)) (ocart s) inds in
                     (with_cart (fun _ => cs) s, r)) (fun _ => mark_cart gb inds) else ret tt) (fun _ => ret tt) s'))).
  { intros s' Hd. destruct (some6 (kw_c kw)); [|rewrite bind_ret; apply keepK_refl].
    rewrite bind_assoc. unfold bind at 1. destruct (assign_keys _ _ _) as [cs [[]|e]]; [|repeat split].
    eapply keepK_trans; [|unfold bind; pose proof (G (with_cart (fun _ => cs) s') Hd) as Q;
      destruct (mark_cart gb inds (with_cart (fun _ => cs) s')) as [s2 [[]|e]]; exact Q]. repeat split. }
  destruct (kw_m kw) as [v|]; [|rewrite bind_ret; now apply R].
  rewrite Md. rewrite bind_assoc, bind_lift. destruct (assign _ _ _) as [row|]; [|apply keepK_refl].
  rewrite bind_modify. eapply keepK_trans; [|now apply R]. repeat split.
Qed.
Lemma core_keepC gb n (s s1 : orb) : lens n s -> manual s -> core s1 = core (kchk gb s) -> keepC s s1.
Proof. intros Hs M E. rewrite (manual_kchk gb n) in E by auto. unfold core, settings in E. repeat split; congruence. Qed.
Lemma kep_side_step gb o (s : orb) : al s -> manual s -> wf_op o -> kep_side o -> keepC s (fst (run_op gb o s)).
Proof.
  intros [n A] M Hw Ho. pose proof A as [Hs HE].
  destruct (reader o) eqn:Er; [now apply (reader_keeps gb o n s)|].
  destruct o; cbn [kep_side] in Ho; try discriminate Er; try discriminate Ho; clear Er; cbn [run_op wf_op] in *.
  - rewrite (set_kep_row_eq gb n) by auto. destruct (okro s); [apply keepC_refl|].
    destruct (bcast1 n v) as [vs|]; [|apply keepC_refl]. cbn [fst].
    destruct (manual_aft gb (with_kep (fun c => set_row k c vs) s) M) as [-> _]. repeat split.
  - rewrite (set_kepler_eq gb n) by auto. destruct (okro s); [apply keepC_refl|].
    destruct (whole_value n v) as [vs|]; [|apply keepC_refl]. cbn [fst].
    destruct (manual_aft gb (with_kep (fun _ => vs) s) M) as [_ [-> _]]. repeat split.
  - now apply (keepC_set_of gb ATrue v n).
  - now apply (keepC_set_of gb AEcc v n).
  - now apply (keepC_set_of gb AMean v n).
  - apply keepC_refl.
  - unfold set_mean_motion. rewrite bind_get. destruct (okro s); apply keepC_refl.
  - destruct (set_equi_cases gb n v s Hs) as [[e E]|[kep' [v' [Lk [Wv E]]]]]; rewrite E; [apply keepC_refl|].
    eapply keepC_trans; [|apply (keepC_set_of gb AMean v' n)]; auto. { repeat split. } { now apply lens_with_kep. }
  - rename s0 into val. destruct (anomaly_of (strip (lower val))) as [t|] eqn:Ea.
    2:{ rewrite set_type_bad by auto. apply keepC_refl. }
    destruct (anomaly_dec (otype s) t) as [Et|Et].
    { rewrite (set_type_same gb val t) by auto. apply keepC_refl. }
    destruct (okro s) eqn:Ek.
    { destruct (set_type_ro gb n val t s A Ea Et Ek) as [s1 [C [A1 ->]]]. now apply (core_keepC gb n). }
    destruct (set_type_spec gb n val t s A Ea Et Ek) as [s1 [xs [C [A1 [_ [Lx ->]]]]]]. cbn [fst].
    assert (K : keepC s s1) by now apply (core_keepC gb n). apply (keepC_trans _ _ _ K).
    assert (M1 : manual s1) by (destruct K as [_ [? ?]], M; split; congruence).
    destruct (manual_aft gb (with_kep (fun c => set_row 5 c xs) s1) M1) as [-> _]. repeat split.
  - destruct Ho. now apply keepC_update.
  - unfold propagate. rewrite bind_get. cbv zeta.
    change (get_mean_anomaly gb) with (get_of gb AMean).
    destruct (get_of_spec gb n AMean s A) as [s1 [ms [E1 [C1 [A1 _]]]]]. rewrite (bind_ok _ _ _ _ _ E1).
    assert (K1 : keepC s s1) by now apply (core_keepC gb n).
    assert (M1 : manual s1) by (destruct K1 as [_ [? ?]], M; split; congruence).
    assert (Emm : exists x, get_mean_motion gb s1 = (kchk gb s1, Ok x)).
    { pose proof A1 as [H1 _]. unfold get_mean_motion. rewrite bind_get. unfold get_period.
      destruct (kchk_spec gb n s1 H1) as [E _]. rewrite bind_assoc, (bind_ok _ _ _ _ _ E).
      rewrite bind_assoc, (get_row_bind' gb n) by auto. eexists. reflexivity. }
    destruct Emm as [nn Emm]. rewrite (bind_ok _ _ _ _ _ Emm), bind_lift. rewrite (manual_kchk gb n) by (auto; apply A1).
    destruct (bcast1 _ dt) as [dts|]; [|exact K1]. apply (keepC_trans _ _ _ K1).
    set (x := map3 _ ms nn dts). change (set_mean_anomaly gb) with (set_of gb AMean).
    pose proof (keepC_set_of gb AMean (fresh [length x] x) n s1 (proj1 A1) M1 (wfv_fresh1 _ x eq_refl)) as K2.
    unfold bind at 1. destruct (set_of gb AMean (fresh [length x] x) s1) as [s2 [[]|e]]; [|exact K2]. cbn [fst] in K2.
    rewrite bind_get. destruct K2 as [Q1 [Q2 Q3]]. replace (odirect s2) with false by (destruct M1; congruence).
    now repeat split.
Qed.
Lemma cart_side_step gb o (s : orb) : al s -> manual s -> wf_op o -> cart_side o -> keepK s (fst (run_op gb o s)).
Proof.
  intros [n A] M Hw Ho. pose proof A as [Hs HE].
  destruct (reader o) eqn:Er; [now apply (reader_keeps gb o n s)|].
  destruct o; cbn [cart_side] in Ho; try discriminate Er; try discriminate Ho; clear Er; cbn [run_op wf_op] in *.
  - rewrite (set_cart_row_eq gb n) by auto. destruct (ocro s); [apply keepK_refl|].
    destruct (bcast1 n v) as [vs|]; [|apply keepK_refl]. cbn [fst].
    destruct (manual_aft gb (with_cart (fun c => set_row k c vs) s) M) as [_ [_ [-> _]]]. repeat split.
  - rewrite (set_r_eq gb n) by auto. destruct (ocro s); [apply keepK_refl|].
    destruct (bcast2 3 n v) as [vs|]; [|apply keepK_refl]. cbn [fst].
    destruct (manual_aft gb (with_cart (fun c => map2 set_top c vs) s) M) as [_ [_ [_ ->]]]. repeat split.
  - rewrite (set_v_eq gb n) by auto. destruct (ocro s); [apply keepK_refl|].
    destruct (bcast2 3 n v) as [vs|]; [|apply keepK_refl]. cbn [fst].
    destruct (manual_aft gb (with_cart (fun c => map2 set_bot c vs) s) M) as [_ [_ [_ ->]]]. repeat split.
  - rewrite (set_cartesian_eq gb n) by auto. destruct (ocro s); [apply keepK_refl|].
    destruct (whole_value n v) as [vs|]; [|apply keepK_refl]. cbn [fst].
    destruct (manual_aft gb (with_cart (fun _ => vs) s) M) as [_ [_ [_ ->]]]. repeat split.
  - destruct (set_velocity_eq gb n v s Hs Hw) as [vs [-> Hvs]]. destruct (ocro s); [apply keepK_refl|].
    assert (Ec : cchk gb s = s) by now apply manual_cchk. rewrite !Ec.
    destruct (bcast1 n v) as [sp|] eqn:Eb; cbn [fst]; [|apply keepK_refl].
    set (s1 := with_cart _ s). assert (M1 : manual s1) by exact M.
    destruct (manual_aft gb s1 M1) as [_ [_ [_ ->]]]. assert (M2 : manual (with_cf all_true (with_kf all_false s1))) by exact M.
    destruct (manual_aft gb _ M2) as [_ [_ [-> _]]]. repeat split.
  - destruct Ho. now apply keepK_update.
Qed.

Lemma manual_get gb n (s : orb) : lens n s -> manual s ->
  snd (get_cartesian gb s) = Ok (ocart s) /\ snd (get_kepler gb s) = Ok (okep s).
Proof.
  intros Hs M. rewrite (get_cartesian_eq gb n), (get_kepler_eq gb n) by auto. cbn [snd].
  now rewrite (manual_cchk gb), (manual_kchk gb n).
Qed.
(** any history of Kepler-side operations leaves the Cartesian state that is read as it was *)
Theorem C46_kepler_side (s : orb) h gb gb' : al s -> manual s ->
  steps_ok (fun gb o s => width_ok gb o s /\ kep_side o) h s ->
  snd (get_cartesian gb (run h s)) = snd (get_cartesian gb' s).
Proof.
  intros A M Hh. assert (G : al (run h s) /\ manual (run h s) /\ ocart (run h s) = ocart s).
  { revert s A M Hh. induction h as [|[g o] h IH]; cbn [run steps_ok]; intros s A M Hh; [auto|].
    destruct Hh as [[W K] Hh]. pose proof (kep_side_step g o s A M (proj1 W) K) as [Q1 [Q2 Q3]].
    assert (M1 : manual (fst (run_op g o s))) by (destruct M; split; congruence).
    destruct (IH _ (C41_step g o s A W) M1 Hh) as [R1 [R2 R3]]. repeat split; auto; try apply R2. congruence. }
  destruct G as [[n G1] [G2 G3]]. destruct A as [n' A].
  destruct (manual_get gb n _ (proj1 G1) G2) as [-> _]. destruct (manual_get gb' n' s (proj1 A) M) as [-> _]. now rewrite G3.
Qed.
Theorem C46_cartesian_side (s : orb) h gb gb' : al s -> manual s ->
  steps_ok (fun gb o s => width_ok gb o s /\ cart_side o) h s ->
  snd (get_kepler gb (run h s)) = snd (get_kepler gb' s).
Proof.
  intros A M Hh. assert (G : al (run h s) /\ manual (run h s) /\ okep (run h s) = okep s).
  { revert s A M Hh. induction h as [|[g o] h IH]; cbn [run steps_ok]; intros s A M Hh; [auto|].
    destruct Hh as [[W K] Hh]. pose proof (cart_side_step g o s A M (proj1 W) K) as [Q1 [Q2 Q3]].
    assert (M1 : manual (fst (run_op g o s))) by (destruct M; split; congruence).
    destruct (IH _ (C41_step g o s A W) M1 Hh) as [R1 [R2 R3]]. repeat split; auto; try apply R2. congruence. }
  destruct G as [[n G1] [G2 G3]]. destruct A as [n' A].
  destruct (manual_get gb n _ (proj1 G1) G2) as [_ ->]. destruct (manual_get gb' n' s (proj1 A) M) as [_ ->]. now rewrite G3.
Qed.
(** ... and calculate_cartesian (calculate_kepler) then converts exactly the selected orbits *)
Theorem C46_calculate_cartesian gb n inds ps (s s' : orb) : nan_arith (F := F) -> lens n s -> manual s -> resolve n inds = Ok ps ->
  calculate_cartesian gb inds s = (s', Ok tt) ->
  okep s' = okep s /\ forall j c k m, nth_error (ocart s) j = Some c -> nth_error (okep s) j = Some k -> nth_error (om s) j = Some m ->
    exists c', nth_error (ocart s') j = Some c' /\
      (In j ps /\ ~ has_nan k -> forall gb', cartesian_of gb' s k m c') /\ (~ In j ps \/ has_nan k -> c' = c).
Proof.
  intros NA Hs M Hr E. destruct (calcC gb n s inds ps Hs Hr) as [_ St]. rewrite E in St. cbn [fst] in St.
  pose proof St as [Hl [_ [_ [_ [_ [_ St']]]]]]. assert (Lz : lazy s = false) by now apply manual_lazy.
  assert (K : forall j c k m cb kb, col s j c k m cb kb -> exists c' cb' kb', col s' j c' k m cb' kb'
     /\ (mem j ps = true -> nan6 k = false -> Cc s k m c') /\ (mem j ps = false \/ nan6 k = true -> c' = c)).
  { intros j c k m cb kb C. destruct (St' _ _ _ _ _ _ C) as [c' [k' [cb' [kb' [C' [R1 R2]]]]]].
    destruct R1 as [[-> ->]|[R1 _]]; [|congruence]. exists c', cb', kb. split; [auto|].
    destruct R2 as [[R2 [-> ->]]|[R3 [R4 [_ R2]]]].
    - split; [|auto]. intros Q1 Q2. destruct R2; congruence.
    - rewrite Lz in R2. destruct (R2 eq_refl) as [_ R5]. split; [auto|]. intros [Q|Q]; congruence. }
  split.
  - apply nth_error_ext. intros j. destruct (lt_dec j n) as [Hj|Hj].
    + destruct (col_ex n s j Hs Hj) as [c [k [m [cb [kb C]]]]]. destruct (K _ _ _ _ _ _ C) as [c' [cb' [kb' [C' _]]]].
      destruct C, C'. congruence.
    + transitivity (@None (six F)); [|symmetry]; apply nth_error_None; destruct Hl, Hs; lia.
  - intros j c k m H1 H2 H3. assert (Hj : j < n) by (apply nth_error_lt in H1; destruct Hs; lia).
    destruct (col_ex n s j Hs Hj) as [c0 [k0 [m0 [cb [kb C]]]]]. pose proof C as [A1 A2 A3 _ _].
    assert (c0 = c) by congruence. assert (k0 = k) by congruence. assert (m0 = m) by congruence. subst.
    destruct (K _ _ _ _ _ _ C) as [c' [cb' [kb' [C' [Q1 Q2]]]]]. exists c'. split; [apply C'|]. rewrite !has_nan_iff. split.
    + intros [I1 I2]. assert (Nk : nan6 k = false) by (destruct (nan6 k); congruence).
      apply Cc_cartesian_of; auto. apply Q1; auto. now apply mem_in.
    + intros [I|I]; apply Q2; auto. left. now apply mem_false.
Qed.
Theorem C46_calculate_kepler gb n inds ps (s s' : orb) : nan_arith (F := F) -> lens n s -> manual s -> resolve n inds = Ok ps ->
  calculate_kepler gb inds s = (s', Ok tt) ->
  ocart s' = ocart s /\ forall j c k m, nth_error (ocart s) j = Some c -> nth_error (okep s) j = Some k -> nth_error (om s) j = Some m ->
    exists k', nth_error (okep s') j = Some k' /\
      (In j ps /\ ~ has_nan c -> has_nan k' \/ forall gb', kepler_of gb' s c m k') /\ (~ In j ps \/ has_nan c -> k' = k).
Proof.
  intros NA Hs M Hr E. destruct (calcK gb n s inds ps Hs Hr) as [_ [_ St]]. rewrite E in St. cbn [fst] in St.
  pose proof St as [Hl [_ [_ [_ [_ [_ St']]]]]]. assert (Lz : lazy s = false) by now apply manual_lazy.
  assert (K : forall j c k m cb kb, col s j c k m cb kb -> exists k' cb' kb', col s' j c k' m cb' kb'
     /\ (mem j ps = true -> nan6 c = false -> Kc s c m k') /\ (mem j ps = false \/ nan6 c = true -> k' = k)).
  { intros j c k m cb kb C. destruct (St' _ _ _ _ _ _ C) as [c' [k' [cb' [kb' [C' [-> [-> R2]]]]]]].
    exists k', cb, kb'. split; [auto|].
    destruct R2 as [[R2 [-> ->]]|[R3 [R4 [R5 ->]]]].
    - split; [|auto]. intros Q1 Q2. rewrite (R2 Q1) in Q2. discriminate.
    - split; [auto|]. intros [Q|Q]; [|congruence]. destruct (R4 Q); congruence. }
  split.
  - apply nth_error_ext. intros j. destruct (lt_dec j n) as [Hj|Hj].
    + destruct (col_ex n s j Hs Hj) as [c [k [m [cb [kb C]]]]]. destruct (K _ _ _ _ _ _ C) as [c' [cb' [kb' [C' _]]]].
      destruct C, C'. congruence.
    + transitivity (@None (six F)); [|symmetry]; apply nth_error_None; destruct Hl, Hs; lia.
  - intros j c k m H1 H2 H3. assert (Hj : j < n) by (apply nth_error_lt in H1; destruct Hs; lia).
    destruct (col_ex n s j Hs Hj) as [c0 [k0 [m0 [cb [kb C]]]]]. pose proof C as [A1 A2 A3 _ _].
    assert (c0 = c) by congruence. assert (k0 = k) by congruence. assert (m0 = m) by congruence. subst.
    destruct (K _ _ _ _ _ _ C) as [k' [cb' [kb' [C' [Q1 Q2]]]]]. exists k'. split; [apply C'|]. rewrite !has_nan_iff. split.
    + intros [I1 I2]. assert (Nc : nan6 c = false) by (destruct (nan6 c); congruence).
      destruct (nan6 k') eqn:Nk; [auto|]. right. apply Kc_kepler_of; auto. apply Q1; auto. now apply mem_in.
    + intros [I|I]; apply Q2; auto. left. now apply mem_false.
Qed.

(** ** C47 *)
(** the setters of a side: for these the claim holds completely *)
Definition kep_setter (o : op F) : bool :=
  match o with
  | OSetKepRow _ _ | OSetKep _ | OSetTrue _ | OSetEcc _ | OSetMean _ | OSetMeanMotion _ => true
  | OUpdate _ kw => match kw_cartesian kw, kw_kepler kw with
                    | Some _, _ => false | None, Some _ => true
                    | None, None => some6 (kw_k kw) end
  | _ => false
  end.
Definition cart_setter (o : op F) : bool :=
  match o with
  | OSetCartRow _ _ | OSetCart _ | OSetR _ | OSetV _ | OSetVelocity _ => true
  | OUpdate _ kw => match kw_cartesian kw, kw_kepler kw with
                    | Some _, _ => true | None, Some _ => false
                    | None, None => some6 (kw_c kw) end
  | _ => false
  end.
Theorem C47_kepler_partial gb o n (s : orb) : lens n s -> wf_op o -> okro s = true -> kep_setter o = true ->
  run_op gb o s = (s, Raise AttributeError).
Proof.
  intros Hs Hw Hr Ho. destruct o; try discriminate Ho; cbn [run_op kep_setter wf_op] in *.
  - rewrite (set_kep_row_eq gb n) by auto. now rewrite Hr.
  - rewrite (set_kepler_eq gb n) by auto. now rewrite Hr.
  - change (set_true_anomaly gb) with (set_of gb ATrue). rewrite (set_of_eq gb n) by auto. now rewrite Hr.
  - change (set_eccentric_anomaly gb) with (set_of gb AEcc). rewrite (set_of_eq gb n) by auto. now rewrite Hr.
  - change (set_mean_anomaly gb) with (set_of gb AMean). rewrite (set_of_eq gb n) by auto. now rewrite Hr.
  - unfold set_mean_motion. now rewrite bind_get, Hr.
  - unfold update. rewrite bind_get. destruct (kw_cartesian kw); [discriminate|]. destruct (kw_kepler kw); [now rewrite Hr|].
    cbv zeta. rewrite Ho, Hr. cbn [andb]. now destruct (some6 (kw_c kw) && ocro s).
Qed.
Theorem C47_cartesian gb o n (s : orb) : lens n s -> wf_op o -> ocro s = true -> cart_setter o = true ->
  run_op gb o s = (s, Raise AttributeError).
Proof.
  intros Hs Hw Hr Ho. destruct o; try discriminate Ho; cbn [run_op cart_setter wf_op] in *.
  - rewrite (set_cart_row_eq gb n) by auto. now rewrite Hr.
  - rewrite (set_r_eq gb n) by auto. now rewrite Hr.
  - rewrite (set_v_eq gb n) by auto. now rewrite Hr.
  - rewrite (set_cartesian_eq gb n) by auto. now rewrite Hr.
  - unfold set_velocity. now rewrite bind_get, Hr.
  - unfold update. rewrite bind_get. destruct (kw_cartesian kw); [now rewrite Hr|]. destruct (kw_kepler kw); [discriminate|].
    cbv zeta. rewrite Ho, Hr. reflexivity.
Qed.
(** propagate, the type setter: AttributeError, Cartesian and (up to stale columns being refreshed) Kepler elements unchanged *)
Theorem C47_type_partial gb val n (s : orb) : aligned n s -> okro s = true ->
  (forall t, anomaly_of (strip (lower val)) = Some t -> otype s <> t) ->
  exists s', set_type gb val s = (s', Raise (match anomaly_of (strip (lower val)) with None => ValueError | Some _ => AttributeError end))
    /\ settings s' = settings s /\ ocart s' = ocart s /\ (lazy s = false -> okep s' = okep s).
Proof.
  intros A Hr Ht. destruct (anomaly_of (strip (lower val))) as [t|] eqn:Ea.
  - destruct (set_type_ro gb n val t s A Ea (Ht t eq_refl) Hr) as [s1 [C [A1 ->]]]. exists s1. split; [auto|].
    pose proof A as [Hs _]. pose proof (core_settings gb n s s1 Hs C) as Es. split; [exact Es|]. unfold core in C.
    assert (Eo : ocart (kchk gb s) = ocart s).
    { destruct (kchk_spec gb n s Hs) as [_ [_ E]]. apply nth_error_ext. intros j. pose proof (lens_kchk gb n s Hs) as Hl.
      destruct (lt_dec j n) as [Hj|Hj].
      + destruct (col_ex n _ j Hl Hj) as [c2 [k2 [m2 [cb2 [kb2 C2]]]]].
        destruct (colstep_col _ _ _ _ _ _ _ _ _ _ Hs E C2) as [c1 [k1 [cb1 [kb1 [C1 [-> _]]]]]]. destruct C1, C2. congruence.
      + transitivity (@None (six F)); [|symmetry]; apply nth_error_None; destruct Hl, Hs; lia. }
    split; [congruence|]. intros L. assert (okep s1 = okep (kchk gb s)) as -> by congruence. apply (kchk_keeps gb n); auto.
    rewrite lazy_mode_iff. congruence.
  - rewrite set_type_bad by auto. exists s. auto.
Qed.
End Modes.

Section Examples.
#[local] Existing Instance NP_toyn.
Definition cfgm (t : string) n (kro cro : bool) : config Z :=
  mkconfig false false 1%Z {| tol := 0%Z; max_iter := 3%Z; degree := 5%Z |} false t n kro cro.
Definition kwa (v : Z) : kws Z := mkkws None None None no6 (mk6 (Some (Sc v)) None None None None None).
Definition hm : history Z :=
  [(gd, OGetMean); (gd, OSetKepRow 0 (Sc 3%Z)); (gd, OSetType "mean"); (gd, OUpdate (IInt 1) (kwa 5%Z));
   (gd, OGetKep); (gd, OPropagate (Sc 1%Z)); (gd, OGetVelocity); (gd, OSetTrue (fresh [2] [1; 2]%Z))].
Example C46_kepler_side_example : exists s, init gd 1%Z (cfgm "eccentric" 2 false false) (kwd matd) = Ok s
  /\ al s /\ manual s /\ steps_ok (fun gb o s => width_ok gb o s /\ kep_side o) hm s
  /\ okep s <> okep (run hm s).
Proof.
  eexists. split; [vm_compute; reflexivity|].
  split; [exists 2; split; [apply toy_lens; vm_compute; reflexivity|exists [-99; -99]%Z; split; [vm_compute; reflexivity|reflexivity]]|].
  split; [now split|]. split; [|vm_compute; congruence]. unfold hm.
  repeat (match goal with |- steps_ok ?ok ((?g, ?o) :: ?t) ?s => change (ok g o s /\ steps_ok ok t (fst (run_op g o s))) end; split; [split; [vm_compute; tauto|vm_compute; tauto]
     |match goal with |- steps_ok _ _ ?s => let v := eval vm_compute in s in replace s with v by (vm_compute; reflexivity) end]).
  exact I.
Qed.
Definition hmc : history Z :=
  [(gd, OGetCart); (gd, OSetCart (fresh [6] [1; 2; 3; 4; 5; 6]%Z)); (gd, OSetV (Sc 3%Z)); (gd, OSetVelocity (Sc 5%Z)); (gd, OGetEqui)].
Example C46_cartesian_side_example : exists s, init gd 1%Z (cfgm "eccentric" 2 false false) (kwd matd) = Ok s
  /\ al s /\ manual s /\ steps_ok (fun gb o s => width_ok gb o s /\ cart_side o) hmc s
  /\ ocart s <> ocart (run hmc s).
Proof.
  eexists. split; [vm_compute; reflexivity|].
  split; [exists 2; split; [apply toy_lens; vm_compute; reflexivity|exists [-99; -99]%Z; split; [vm_compute; reflexivity|reflexivity]]|].
  split; [now split|]. split; [|vm_compute; congruence]. unfold hmc.
  repeat (match goal with |- steps_ok ?ok ((?g, ?o) :: ?t) ?s => change (ok g o s /\ steps_ok ok t (fst (run_op g o s))) end; split; [split; [vm_compute; tauto|vm_compute; tauto]
     |match goal with |- steps_ok _ _ ?s => let v := eval vm_compute in s in replace s with v by (vm_compute; reflexivity) end]).
  exact I.
Qed.
Example C46_calculate_example : exists s s1 s2, init gd 1%Z (cfgm "eccentric" 2 false false) (kwd matd) = Ok s
  /\ lens 2 s /\ manual s /\ calculate_cartesian gd (IInt 1) s = (s1, Ok tt) /\ calculate_kepler gd (IInt 1) s1 = (s2, Ok tt)
  /\ map nan6 (ocart s1) = [true; false].
Proof.
  eexists _, _, _. split; [vm_compute; reflexivity|]. split; [apply toy_lens; vm_compute; reflexivity|]. split; [now split|].
  split; [vm_compute; reflexivity|]. split; [vm_compute; reflexivity|vm_compute; reflexivity].
Qed.
Example C47_example : exists s, init gd 1%Z (cfgm "true" 2 true true) (kwd matd) = Ok s /\ lens 2 s
  /\ okro s = true /\ ocro s = true
  /\ snd (run_op gd (OSetMean (Sc 3%Z)) s) = Raise AttributeError /\ snd (run_op gd (OSetVelocity (Sc 3%Z)) s) = Raise AttributeError.
Proof.
  eexists. split; [vm_compute; reflexivity|]. split; [apply toy_lens; vm_compute; reflexivity|].
  split; [reflexivity|]. split; [reflexivity|]. split; [vm_compute; reflexivity|vm_compute; reflexivity].
Qed.
(** the equinoctial setter of a read-only orbit raises only after it has overwritten a, e, i, omega, Omega *)
Theorem C47_equinoctial_refuted : exists s s', init gd 1%Z (cfgm "true" 2 true true) (kwd matd) = Ok s
  /\ okro s = true /\ set_equinoctial gd (KVec (mk6 4 0 0 0 0 1)%Z) s = (s', Raise AttributeError)
  /\ snd (get_kepler gd s') <> snd (get_kepler gd s).
Proof.
  eexists _, _. split; [vm_compute; reflexivity|]. split; [reflexivity|]. split; [vm_compute; reflexivity|]. vm_compute. congruence.
Qed.
(** the period setter of a read-only orbit raises TypeError, like that of any orbit *)
Theorem C47_period_refuted : exists s, init gd 1%Z (cfgm "true" 2 true true) (kwd matd) = Ok s
  /\ okro s = true /\ run_op gd (OSetPeriod (Sc 3%Z)) s = (s, Raise TypeError).
Proof. eexists. split; [vm_compute; reflexivity|]. split; [reflexivity|vm_compute; reflexivity]. Qed.
End Examples.
