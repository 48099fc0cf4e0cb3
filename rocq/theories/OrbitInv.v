(** * Invariants of the Orbit class: one induction over all public operations.
    [op_inv]: a property that survives the elementary actions survives every operation. *)
From Coq Require Import List Bool Arith Lia ZArith QArith.
From Verif Require Import NP KeplerModel ConvModel UnitModel OrbitModel Lists ConvCols ArraySpec
  PropsAnomaly OrbitLists OrbitBase OrbitOps OrbitSetters.
Import ListNotations.
Local Open Scope nat_scope.

Section Inv.
Context {F : Type} `{NP F}.
Variable gb : nat -> nat -> F.
Notation orb := (orb F).
Notation kchk := (kchk gb).
Notation cchk := (cchk gb).

(** array arguments hold as many entries as their shape says *)
Definition wf_op (o : op F) : Prop :=
  match o with
  | OSetCartRow _ v | OSetKepRow _ v | OSetR v | OSetV v | OSetCart v | OSetKep v
  | OSetTrue v | OSetEcc v | OSetMean v | OSetVelocity v | OPropagate v => wfv v
  | _ => True
  end.

Variables (P rowC rowK : orb -> Prop) (okE okC : Idx -> orb -> Prop) (okM okF okT okFl : Prop).
Hypothesis Pa : forall s, P s -> exists n, aligned n s.
Hypothesis Pk : forall s, P s -> P (kchk s).
Hypothesis Pc : forall s, P s -> P (cchk s).
Hypothesis Pnu : forall n s l, P s -> lens n s -> length l = n -> P (with_nu (fun _ => l) s).
Hypothesis PMa : forall n s l, P s -> lens n s -> length l = n -> P (with_Ma (fun _ => l) s).
Hypothesis Pit : forall s i, P s -> P (with_it i s).
Hypothesis PE : forall i s, P s -> okE i s -> P (fst (calc_eccentric_anomaly gb i s)).
Hypothesis okAll : forall s, okE IAll s.
Hypothesis HwC : forall n s cs, P s -> lens n s -> length cs = n -> P (aft_cart gb (with_cart (fun _ => cs) s)).
Hypothesis HwK : forall n s cs, P s -> lens n s -> length cs = n -> P (aft_kep gb (with_kep (fun _ => cs) s)).
Hypothesis HrC : forall n s cs, P s -> rowC s -> lens n s -> length cs = n -> P (aft_cartrow gb (with_cart (fun _ => cs) s)).
Hypothesis HrK : forall n s cs, P s -> rowK s -> lens n s -> length cs = n -> P (aft_keprow gb (with_kep (fun _ => cs) s)).
Hypothesis rowC_aft : forall n s, lens n s -> rowC (aft_cart gb s).
Hypothesis rowK_kchk : forall s, P s -> rowK (kchk s).
Hypothesis rowK_keep : forall n s cs, rowK s -> lens n s -> length cs = n -> rowK (aft_keprow gb (with_kep (fun _ => cs) s)).
Hypothesis Heq : forall n s kep' vs, P s -> rowK s -> lens n s -> length kep' = n -> length vs = n ->
  let s1 := with_kep (fun c => set_row 5 c vs) (base gb AMean (with_kep (fun _ => kep') s)) in
  P (aft_keprow gb s1) /\ rowK (aft_keprow gb s1).
Hypothesis HuC : forall n s cs inds ps, P s -> lens n s -> length cs = n -> resolve n inds = Ok ps ->
  same_out ps (ocart s) cs -> P (aft_cart_at gb ps (with_cart (fun _ => cs) s)).
Hypothesis HuK : forall n s cs inds ps, P s -> lens n s -> length cs = n -> resolve n inds = Ok ps ->
  same_out ps (okep s) cs -> P (aft_kep_at gb ps (with_kep (fun _ => cs) s)).
Hypothesis Hm : forall n s l, okM -> P s -> lens n s -> length l = n -> P (with_m (fun _ => l) s).
Hypothesis HfC : forall n s cs, okF -> P s -> lens n s -> length cs = n -> P (with_cart (fun _ => cs) s).
Hypothesis HfK : forall n s cs, okF -> P s -> lens n s -> length cs = n -> P (with_kep (fun _ => cs) s).
Hypothesis HfR : okF -> forall s, rowK s.
Hypothesis Hdel : forall n s ps, P s -> aligned n s -> P (del_state ps s).
Hypothesis Hadd : forall n s k row, P s -> aligned n s -> length row = n + k ->
  (forall j, j < n -> nth_error row j = nth_error (om s) j) -> P (with_m (fun _ => row) (app_state k s)).
Hypothesis Hall : forall s n, P s -> P (fst (allocate n s)).
Hypothesis HtR : okT -> forall s, rowK s.
Hypothesis Hty : forall s t, okT -> P s -> P (with_type t s).
Hypothesis Hfl : forall s a d k c, okFl -> P s -> P (with_flags a d k c s).
Hypothesis okCd : forall s, odirect s = true -> okC IAll s.
Hypothesis HcC : forall s i, P s -> okC i s -> P (fst (calculate_cartesian gb i s)).
Hypothesis HcK : forall s i, P s -> P (fst (calculate_kepler gb i s)).

Let Pl : forall s, P s -> exists n, lens n s.
Proof. intros s Ps. destruct (Pa s Ps) as [n [Hs _]]. eauto. Qed.
Let Pget_true := P_get_true gb P Pl Pk Pnu.
Let Pget_mean := P_get_mean gb P Pl Pk PMa.
Let Pget_ecc := P_get_ecc gb P Pl Pk okE PE okAll.

Definition ok_op (o : op F) (s : orb) : Prop :=
  match o with
  | OSetCartRow _ _ => rowC s
  | OSetKepRow _ _ => rowK s
  | OSetTrue _ => otype s = ATrue -> rowK s
  | OSetEcc _ => otype s = AEcc -> rowK s
  | OSetMean _ => otype s = AMean -> rowK s
  | OSetEqui _ => (okF \/ snd (run_op gb o s) = Ok tt) /\ rowK s
  | OSetType _ => okT
  | OSetM _ _ => okM
  | OSetFlags _ _ _ _ => okFl
  | OUpdate _ kw => (kw_m kw = None \/ odirect s = true \/ okM) /\ (okF \/ snd (run_op gb o s) = Ok tt)
  | OAdd _ _ => okF \/ snd (run_op gb o s) = Ok tt
  | OCalcEcc i => okE i s
  | OCalcCart i => okC i s
  | _ => True
  end.

Lemma set_row_const n k (s : orb) vs : lens n s -> length vs = n ->
  length (set_row k (okep s) vs) = n /\ with_kep (fun c => set_row k c vs) s = with_kep (fun _ => set_row k (okep s) vs) s.
Proof. intros Hs Hv. rewrite set_row_length, (l_k n s Hs), Hv, Nat.min_id. auto. Qed.
Lemma P_base w s : P s -> P (base gb w s).
Proof. intros Ps. unfold base. destruct (anomaly_eqb _ _); auto. Qed.
Lemma rowK_base w s : P s -> (otype s = w -> rowK s) -> rowK (base gb w s).
Proof.
  intros Ps Hr. unfold base. destruct (anomaly_eqb w (otype s)) eqn:E; auto.
  apply Hr. destruct w, (otype s); (reflexivity || discriminate).
Qed.
Lemma P_set_of w v s : P s -> wfv v -> (otype s = w -> rowK s) -> P (fst (set_of gb w v s)).
Proof.
  intros Ps Hv Hr. destruct (Pl s Ps) as [n Hs]. rewrite (set_of_eq gb n) by auto.
  destruct (okro s); [exact Ps|]. destruct (anom_arg gb w s v) as [x|e] eqn:Ea; [|now apply P_base].
  destruct (bcast1 n x) as [vs|e] eqn:Eb; [|now apply P_base]. cbn [fst].
  pose proof (lens_base gb n w s Hs) as Hb.
  assert (Hx : wfv x) by exact (anom_arg_wf gb n w s v x Hs Hv Ea).
  destruct (set_row_const n 5 (base gb w s) vs Hb) as [L1 ->]; [eapply bcast1_length; eauto using wfv_wf|].
  set (s1 := with_kep (fun _ => set_row 5 (okep (base gb w s)) vs) (base gb w s)) in *.
  assert (P1 : P (aft_keprow gb s1)) by (apply (HrK n); auto using P_base, rowK_base).
  assert (R1 : rowK (aft_keprow gb s1)) by (apply (rowK_keep n); auto using rowK_base).
  rewrite <- (with_kep_id (aft_keprow gb s1)). apply (HrK n); auto; [apply lens_aft_keprow; unfold s1; now apply lens_with_kep|].
  apply l_k, lens_aft_keprow. unfold s1. now apply lens_with_kep.
Qed.
Lemma P_update inds kw s : P s -> (kw_m kw = None \/ odirect s = true \/ okM) ->
  (okF \/ snd (update gb inds kw s) = Ok tt) -> P (fst (update gb inds kw s)).
Proof.
  intros Ps Ho Hf. destruct (Pl s Ps) as [n Hs].
  destruct (update_cases gb n inds kw s Hs) as [m' [Lm [Em [Sm U]]]].
  assert (Pm : P (with_m (fun _ => m') s)).
  { destruct Ho as [Ho|[Ho|Ho]].
    - rewrite Em by auto. now rewrite with_m_id.
    - rewrite Em by auto. now rewrite with_m_id.
    - eapply Hm; eauto. }
  assert (Lm' : lens n (with_m (fun _ => m') s)) by now apply lens_with_m.
  destruct U as [e E|E1 E2|cs ps L1 Hp S1 Eo|cs e L1 Eo S1|cs ps L1 Hp S1 Eo|cs e L1 Eo S1]; cbn [fst snd] in *.
  - exact Ps.
  - exact Pm.
  - eapply HuC; eauto.
  - destruct Hf as [Hf|Hf]; [|discriminate]. eapply HfC; eauto.
  - eapply HuK; eauto.
  - destruct Hf as [Hf|Hf]; [|discriminate]. eapply HfK; eauto.
Qed.
Theorem op_inv o s : P s -> wf_op o -> ok_op o s -> P (fst (run_op gb o s)).
Proof.
  intros Ps Hw Ho. destruct (Pa s Ps) as [n [Hs HE]].
  destruct (reader o) eqn:Er.
  { apply (reader_inv gb P Pl Pk Pc Pnu PMa Pit okE PE okAll); auto. intros i ->. exact Ho. }
  destruct o; try discriminate Er; clear Er; cbn [run_op wf_op ok_op] in *.
  - rewrite (set_cart_row_eq gb n) by auto. destruct (ocro s); [exact Ps|].
    destruct (bcast1 n v) as [vs|] eqn:Eb; [|exact Ps]. cbn [fst].
    assert (L : length (set_row k (ocart s) vs) = n).
    { rewrite set_row_length, (bcast1_length n v vs), (l_c n s Hs); auto using wfv_wf. lia. }
    exact (HrC n s (set_row k (ocart s) vs) Ps Ho Hs L).
  - rewrite (set_kep_row_eq gb n) by auto. destruct (okro s); [exact Ps|].
    destruct (bcast1 n v) as [vs|] eqn:Eb; [|exact Ps]. cbn [fst].
    assert (L : length (set_row k (okep s) vs) = n).
    { rewrite set_row_length, (bcast1_length n v vs), (l_k n s Hs); auto using wfv_wf. lia. }
    exact (HrK n s (set_row k (okep s) vs) Ps Ho Hs L).
  - rewrite (set_r_eq gb n) by auto. destruct (ocro s); [exact Ps|].
    destruct (bcast2 3 n v) as [vs|] eqn:Eb; [|exact Ps]. cbn [fst].
    assert (L : length (map2 set_top (ocart s) vs) = n).
    { rewrite map2_length, (bcast2_length 3 n v vs), (l_c n s Hs); auto using wfv_wf. lia. }
    exact (HwC n s _ Ps Hs L).
  - rewrite (set_v_eq gb n) by auto. destruct (ocro s); [exact Ps|].
    destruct (bcast2 3 n v) as [vs|] eqn:Eb; [|exact Ps]. cbn [fst].
    assert (L : length (map2 set_bot (ocart s) vs) = n).
    { rewrite map2_length, (bcast2_length 3 n v vs), (l_c n s Hs); auto using wfv_wf. lia. }
    exact (HwC n s _ Ps Hs L).
  - rewrite (set_cartesian_eq gb n) by auto. destruct (ocro s); [exact Ps|].
    destruct (whole_value n v) as [cs|] eqn:Eb; [|exact Ps]. cbn [fst].
    apply (HwC n); auto. eapply whole_value_length; eauto.
  - rewrite (set_kepler_eq gb n) by auto. destruct (okro s); [exact Ps|].
    destruct (whole_value n v) as [cs|] eqn:Eb; [|exact Ps]. cbn [fst].
    apply (HwK n); auto. eapply whole_value_length; eauto.
  - now apply (P_set_of ATrue).
  - now apply (P_set_of AEcc).
  - now apply (P_set_of AMean).
  - exact Ps.
  - unfold set_mean_motion. rewrite bind_get. now destruct (okro s).
  - destruct (set_equi_cases gb n v s Hs) as [[e E]|[kep' [v' [Lk [Wv E]]]]]; rewrite E in *; [exact Ps|].
    destruct Ho as [Ho Hrk]. set (s1 := with_kep (fun _ => kep') s) in *.
    assert (Hs1 : lens n s1) by now apply lens_with_kep.
    change (set_mean_anomaly gb v') with (set_of gb AMean v') in *.
    destruct Ho as [Ho|Ho]. { apply P_set_of; auto. eapply HfK; eauto. }
    rewrite (set_of_eq gb n) in * by auto. destruct (okro s1); [discriminate|].
    destruct (anom_arg gb AMean s1 v') as [x|e] eqn:Ea; [|discriminate].
    destruct (bcast1 n x) as [vs|e] eqn:Eb; [|discriminate]. cbn [fst].
    assert (Hx : wfv x) by exact (anom_arg_wf gb n AMean s1 v' x Hs1 Wv Ea).
    assert (Lv : length vs = n) by (eapply bcast1_length; eauto using wfv_wf).
    destruct (Heq n s kep' vs Ps Hrk Hs Lk Lv) as [Q1 Q2]. fold s1 in Q1, Q2.
    set (s2 := with_kep (fun c => set_row 5 c vs) (base gb AMean s1)) in *.
    pose proof (lens_base gb n AMean s1 Hs1) as Hb.
    assert (Hs2 : lens n s2).
    { apply lens_with_kep; auto. now destruct (set_row_const n 5 (base gb AMean s1) vs Hb Lv). }
    rewrite <- (with_kep_id (aft_keprow gb s2)). apply (HrK n); auto using lens_aft_keprow.
    now apply l_k, lens_aft_keprow.
  - destruct (set_velocity_eq gb n v s Hs Hw) as [vs [-> Hvs]]. destruct (ocro s); [exact Ps|].
    destruct (bcast1 n v) as [sp|] eqn:Eb; cbn [fst]; [|auto].
    assert (Lsp : length sp = n) by (eapply bcast1_length; eauto using wfv_wf).
    destruct (Hvs sp Lsp) as [Lv _]. set (s2 := cchk (cchk s)).
    assert (P2 : P s2) by (unfold s2; auto).
    assert (H2 : lens n s2) by (unfold s2; auto using lens_cchk).
    assert (L : length (map2 set_bot (ocart s2) (vs sp)) = n).
    { rewrite map2_length, Lv, (l_c n s2 H2). lia. }
    pose proof (HwC n s2 _ P2 H2 L) as P3.
    set (s3 := aft_cart gb (with_cart (fun _ => map2 set_bot (ocart s2) (vs sp)) s2)) in *.
    change (P (aft_cartrow gb s3)). rewrite <- (with_cart_id s3).
    assert (H3 : lens n s3) by now apply lens_aft_cart, lens_with_cart.
    apply (HrC n); auto. { eapply rowC_aft. apply lens_with_cart; eauto. } now apply l_c.
  - unfold set_type. destruct (anomaly_of _) as [t|]; [|exact Ps]. rewrite bind_get.
    destruct (anomaly_eqb (otype s) t) eqn:Et; [exact Ps|].
    apply (P_bind P).
    2:{ intros [] s' P'. cbn. now apply Hty. }
    assert (G : forall x s', P s' -> wfv x -> P (fst (set_anom gb x s'))).
    { intros x s' P' Wx. destruct (Pl s' P') as [n' H']. unfold set_anom.
      rewrite (set_kep_row_eq gb n') by auto. destruct (okro s'); [exact P'|].
      destruct (bcast1 n' x) as [vs|] eqn:Eb; [|exact P']. cbn [fst].
      destruct (set_row_const n' 5 s' vs H') as [L ->]; [eapply bcast1_length; eauto using wfv_wf|].
      apply (HrK n'); auto. }
    destruct t.
    + apply (P_bind P); [now apply Pget_true|]. intros x s' P'. apply G; auto. now apply wfv_fresh1.
    + unfold get_eccentric_anomaly. rewrite bind_assoc, bind_get.
      pose proof (PE IAll s Ps (okAll s)) as Pe.
      destruct (otype s); try discriminate Et; rewrite bind_assoc;
        (apply (P_bind P); [exact Pe|]; intros [] s' P'; rewrite bind_assoc, bind_get, bind_ret;
         apply G; auto; destruct (Pa s' P') as [n' [_ [d [-> Ld]]]]; now apply wfv_fresh1).
    + apply (P_bind P); [now apply Pget_mean|]. intros x s' P'. apply G; auto. now apply wfv_fresh1.
  - unfold set_m. rewrite bind_get, bind_lift. destruct (assign _ _ _) as [row|] eqn:Ea; [|exact Ps].
    cbn. apply assign_length in Ea. eapply Hm; eauto. rewrite Ea. now destruct Hs.
  - now apply Hfl.
  - apply P_update; tauto.
  - now apply HcC.
  - now apply HcK.
  - unfold propagate. rewrite bind_get. cbv zeta.
    apply (P_bind P); [now apply Pget_mean|]. intros m s1 P1. destruct (Pl s1 P1) as [n1 H1].
    assert (Emm : exists x, get_mean_motion gb s1 = (kchk s1, Ok x)).
    { unfold get_mean_motion. rewrite bind_get. unfold get_period.
      destruct (kchk_spec gb n1 s1 H1) as [E _]. rewrite bind_assoc, (bind_ok _ _ _ _ _ E).
      rewrite bind_assoc, (get_row_bind' gb n1) by auto. eexists. reflexivity. }
    destruct Emm as [nn Emm]. rewrite (bind_ok _ _ _ _ _ Emm), bind_lift.
    destruct (bcast1 _ dt) as [dts|]; [|now apply Pk].
    apply (P_bind P). { apply (P_set_of AMean); auto. now apply wfv_fresh1. }
    intros [] s2 P2. rewrite bind_get. destruct (odirect s2) eqn:Ed2; [apply HcC; auto|exact P2].
  - rewrite (delete_eq n) by (split; auto). destruct (resolve_del n inds); [|exact Ps].
    eapply Hdel; eauto. split; eauto.
  - assert (Hal : aligned n s) by (split; auto). rewrite (add_eq gb n) in * by auto.
    assert (Padd : forall row, length row = n + n0 -> (forall j, j < n -> nth_error row j = nth_error (om s) j) ->
       P (with_m (fun _ => row) (app_state n0 s))) by (intros; eapply Hadd; eauto).
    assert (P0 : P (app_state n0 s)).
    { rewrite <- (with_m_id (app_state n0 s)). apply Padd.
      - destruct (app_aligned n n0 s Hal) as [[] _]. auto.
      - intros j Hj. cbn. apply nth_error_app1. destruct Hs. lia. }
    destruct (kw_m kw) as [v|].
    + destruct (assign _ _ v) as [row|] eqn:Ea; [|exact P0].
      apply P_update; auto. apply Padd.
      * apply assign_length in Ea. rewrite Ea, app_length, repeat_length. destruct Hs. lia.
      * intros j Hj. unfold assign, resolve in Ea. cbn [resolve_gen rbind] in Ea.
        destruct (bcast1 _ v); [|discriminate]. cbn [rbind] in Ea. injection Ea as <-.
        rewrite put_other; [apply nth_error_app1; destruct Hs; lia|]. rewrite in_seq. lia.
    + apply P_update; auto.
  - now apply Hall.
Qed.
End Inv.
