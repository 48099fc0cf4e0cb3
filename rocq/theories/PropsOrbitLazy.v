(** * C43: with direct_update=False and auto_update=True the pair of element sets that is read is
    never contradictory, over every history. *)
From Coq Require Import String List Bool Arith Lia ZArith QArith.
From Verif Require Import NP KeplerModel ConvModel UnitModel OrbitModel Lists ConvCols ArraySpec
  PropsAnomaly OrbitLists OrbitBase OrbitOps OrbitSetters OrbitInv OrbitSpec NPToyN PropsOrbitWidth OrbitGet
  PropsOrbitDirect.
Import ListNotations.
Local Open Scope nat_scope.

Section Lazy.
Context {F : Type} `{NP F}.
Notation orb := (orb F).
Hypothesis NA : nan_arith (F := F).

(** one column: contradictory values are never both marked fresh; with an eccentric or mean
    anomaly at least one side is fresh *)
Definition lgood (s : orb) (c k : six F) (m : F) (cb kb : bool) : Prop :=
  nan6 c = true \/ nan6 k = true
  \/ ((cb = true -> kb = true -> Kc s c m k \/ Cc s k m c) /\ (typed s = true -> cb = true \/ kb = true)).
Definition lcol (s : orb) : Prop := forall j c k m cb kb, col s j c k m cb kb -> lgood s c k m cb kb.
Definition linv (s : orb) : Prop := al s /\ lazy s = true /\ lcol s.
(** the Cartesian (Kepler) side of every orbit is fresh, or the other side has NaN *)
Definition fresh_cart (s : orb) : Prop :=
  lazy s = true -> typed s = true -> forall j c k m cb kb, col s j c k m cb kb -> cb = true \/ nan6 k = true.
Definition fresh_kep (s : orb) : Prop :=
  lazy s = true -> typed s = true -> forall j c k m cb kb, col s j c k m cb kb -> kb = true \/ nan6 c = true.

Lemma lazy_settings (s s' : orb) : settings s = settings s' -> lazy s = lazy s'.
Proof. intros E. apply settings_eq in E. unfold lazy. destruct E as [_ [_ [-> [-> _]]]]. reflexivity. Qed.
Lemma typed_settings (s s' : orb) : settings s = settings s' -> typed s = typed s'.
Proof. intros E. apply settings_eq in E. unfold typed. destruct E as [_ [_ [_ [_ [_ [_ [_ [-> _]]]]]]]]. reflexivity. Qed.
Lemma lazy_not_direct (s : orb) : lazy s = true -> odirect s = false.
Proof. unfold lazy. intros E. apply andb_true_iff in E. destruct E as [_ E]. now apply negb_true_iff in E. Qed.
Lemma lgood_settings (s s' : orb) c k m cb kb : settings s = settings s' -> lgood s c k m cb kb -> lgood s' c k m cb kb.
Proof.
  intros E [?|[?|[A B]]]; unfold lgood; auto. right. right. rewrite <- (typed_settings s s' E). split; [|auto].
  intros X Y. destruct (A X Y); eauto using Kc_settings, Cc_settings.
Qed.
Lemma linv_core (s s' : orb) n : core s' = core s -> aligned n s' -> linv s -> linv s'.
Proof.
  intros E A [_ [L D]]. unfold core in E.
  assert (Es : settings s = settings s') by congruence. split; [now exists n|].
  split; [rewrite <- L; symmetry; now apply lazy_settings|]. intros j c k m cb kb [C1 C2 C3 C4 C5].
  apply (lgood_settings s); auto. apply (D j). constructor; congruence.
Qed.

Lemma linv_kchk gb (s : orb) : linv s -> linv (kchk gb s).
Proof.
  intros [[n A] [L D]]. split; [exists n; now apply aligned_kchk|]. destruct A as [Hs _].
  destruct (kchk_spec gb n s Hs) as [_ [_ E]]. pose proof (settings_step _ _ _ _ E) as Es.
  split; [now rewrite (lazy_settings _ s)|]. intros j c k m cb kb C.
  destruct (colstep_col _ _ _ _ _ _ _ _ _ _ Hs E C) as [c0 [k0 [cb0 [kb0 [C0 [-> [-> [R1 R2]]]]]]]].
  apply (lgood_settings s); auto. rewrite L in *. pose proof (D _ _ _ _ _ _ C0) as G.
  destruct (negb kb0 && negb (nan6 c0)) eqn:W; cbn [andb] in *.
  - destruct (R2 W) as [R3 ->]. unfold lgood. right. right. split; auto.
  - destruct (R1 W) as [-> ->]. exact G.
Qed.
Lemma kchk_fresh gb n (s : orb) j c k m cb kb : lens n s -> lazy s = true -> col (kchk gb s) j c k m cb kb ->
  kb = true \/ nan6 c = true.
Proof.
  intros Hs L C. destruct (kchk_spec gb n s Hs) as [_ [_ E]].
  destruct (colstep_col _ _ _ _ _ _ _ _ _ _ Hs E C) as [c0 [k0 [cb0 [kb0 [C0 [-> [-> [R1 R2]]]]]]]]. rewrite L in *.
  destruct kb0; cbn in *; [destruct (R1 eq_refl); auto|].
  destruct (nan6 c0) eqn:En; cbn in *; [auto|]. destruct (R2 eq_refl); auto.
Qed.
(** the general effect of a Cartesian recalculation of the columns [sel] *)
Lemma lgood_Cstep (s : orb) sl j c k m cb kb c' k' cb' kb' :
  lgood s c k m cb kb -> (typed s = true -> sl j = true -> cb = false \/ kb = true \/ nan6 c = true) ->
  Cstep s sl j c k m cb kb c' k' cb' kb' -> lgood s c' k' m cb' kb'.
Proof.
  intros G Ht [R1 R2]. unfold lgood in *.
  destruct R2 as [[_ [-> ->]]|[Hsel [Nk [-> R2]]]].
  - destruct R1 as [[-> ->]|[_ [_ [_ [_ [R1 ->]]]]]]; auto.
  - destruct (typed s) eqn:Et.
    2:{ rewrite andb_false_r in R2. cbn in R2. destruct R2 as [-> R2]; [reflexivity|]. right. right. split; auto. }
    destruct (lazy s && true && negb kb && negb (nan6 c)) eqn:W.
    2:{ destruct (R2 eq_refl) as [-> R3]. right. right. auto. }
    apply andb_true_iff in W. destruct W as [W Wn]. apply andb_true_iff in W. destruct W as [_ Wk].
    apply negb_true_iff in Wn. apply negb_true_iff in Wk. subst kb.
    destruct G as [G|[G|[_ G]]]; [congruence|congruence|].
    destruct (Ht eq_refl Hsel) as [Q|[Q|Q]]; [|discriminate|congruence]. subst cb.
    destruct (G eq_refl); discriminate.
Qed.
Lemma linv_cchk gb (s : orb) : linv s -> linv (cchk gb s).
Proof.
  intros [[n A] [L D]]. split; [exists n; now apply aligned_cchk|]. destruct A as [Hs _].
  destruct (cchk_spec gb n s Hs) as [_ E]. pose proof (settings_step _ _ _ _ E) as Es.
  split; [now rewrite (lazy_settings _ s)|]. intros j c k m cb kb C.
  destruct (colstep_col _ _ _ _ _ _ _ _ _ _ Hs E C) as [c0 [k0 [cb0 [kb0 [C0 R]]]]].
  apply (lgood_settings s); auto. eapply lgood_Cstep; [eauto| |exact R]. cbn.
  intros _ W. apply andb_true_iff in W. destruct W as [_ W]. apply negb_true_iff in W. auto.
Qed.

(** the operations of the claim.  Not included (each refuted below): mass changes, the mode flags, calls
    that raised half-way, and - with an eccentric or mean anomaly - assigning single elements of a
    side that is stale and calling calculate_cartesian while the Kepler elements are stale. *)
Definition lazy_ok (gb : nat -> nat -> F) (o : op F) (s : orb) : Prop :=
  width_ok gb o s /\
  match o with
  | OSetCartRow _ _ => fresh_cart s
  | OSetKepRow _ _ | OSetEqui _ => fresh_kep s
  | OSetTrue _ => otype s = ATrue -> fresh_kep s
  | OSetEcc _ => otype s = AEcc -> fresh_kep s
  | OSetMean _ => otype s = AMean -> fresh_kep s
  | OCalcCart _ => fresh_kep s
  | _ => True
  end /\
  match o with
  | OSetM _ _ | OSetFlags _ _ _ _ => False
  | OUpdate _ kw => kw_m kw = None /\ snd (run_op gb o s) = Ok tt
  | OSetEqui _ | OAdd _ _ => snd (run_op gb o s) = Ok tt
  | _ => True
  end.

Lemma fresh_kep_id gb n (s : orb) : lens n s -> lazy s = true -> typed s = true -> fresh_kep s -> kchk gb s = s.
Proof.
  intros Hs L T Hf. unfold kchk. rewrite (kep_check_fresh gb n s Hs); [reflexivity|].
  intros j c b Hc Hb. assert (Hj : j < n) by (apply nth_error_lt in Hc; destruct Hs; lia).
  destruct (col_ex n s j Hs Hj) as [c' [k [m [cb [kb C]]]]]. pose proof C as [E1 _ _ _ E5].
  assert (c' = c /\ kb = b) as [-> ->] by (split; congruence).
  destruct (Hf L T _ _ _ _ _ _ C) as [->|E]; [reflexivity|]. rewrite E. apply orb_true_r.
Qed.
Lemma base_fresh_kep gb n (s : orb) : lens n s -> fresh_kep s -> fresh_kep (base gb AMean s).
Proof.
  intros Hs Hf. unfold base. destruct (anomaly_eqb AMean (otype s)); auto. intros L T.
  assert (Es : settings (kchk gb s) = settings s) by now apply (kchk_settings gb n).
  rewrite (lazy_settings _ s Es) in L. rewrite (typed_settings _ s Es) in T.
  rewrite (fresh_kep_id gb n) by auto. now apply Hf.
Qed.
Lemma nth_all_false (l : list bool) j b : nth_error (all_false l) j = Some b -> b = false.
Proof. unfold all_false. rewrite nth_error_map. destruct (nth_error l j); cbn; congruence. Qed.
Lemma nth_all_true (l : list bool) j b : nth_error (all_true l) j = Some b -> b = true.
Proof. unfold all_true. rewrite nth_error_map. destruct (nth_error l j); cbn; congruence. Qed.
Lemma put_const_in (b : bool) ps l j : j < length l -> In j ps -> nth_error (put ps (repeat b (length ps)) l) j = Some b.
Proof.
  intros Hj Hi. apply (put_const (fun _ => b)); auto; [apply repeat_length|].
  intros i p v _ Hv. now apply nth_error_In, repeat_spec in Hv.
Qed.
Lemma linv_keprow gb n (s : orb) cs : lens n s -> lazy s = true -> fresh_kep s -> length cs = n -> aligned n s ->
  linv (aft_keprow gb (with_kep (fun _ => cs) s)).
Proof.
  intros Hs L R Lc A. pose proof (lazy_not_direct s L) as Hd. unfold aft_keprow. cbn [odirect with_kep]. rewrite Hd.
  split; [|split; [exact L|]].
  { exists n. destruct (aligned_with_kep n s cs A Lc) as [A1 A2]. split; [|exact A2].
    apply lens_with_cf; auto. rewrite all_false_length. now destruct A1. }
  intros j c k m cb kb [C1 C2 C3 C4 C5]. cbn in C1, C2, C3, C4, C5. apply nth_all_false in C4. subst cb.
  assert (Hj : j < n) by (apply nth_error_lt in C1; destruct Hs; lia).
  destruct (col_ex n s j Hs Hj) as [c' [k' [m' [cb' [kb' C]]]]]. pose proof C as [E1 E2 E3 E4 E5].
  assert (c' = c /\ kb' = kb) as [-> ->] by (split; congruence).
  unfold lgood. destruct (typed s) eqn:T.
  - destruct (R L T _ _ _ _ _ _ C) as [->|?]; [|auto]. right. right. split; [discriminate|auto].
  - right. right. split; [discriminate|]. change (typed _) with (typed s). congruence.
Qed.

Theorem C43_step gb o (s : orb) : linv s -> lazy_ok gb o s -> linv (fst (run_op gb o s)).
Proof.
  intros Hs [[Hw Ho] [Hr Hk]].
  destruct (match o with OSetType _ => true | _ => false end) eqn:Eo.
  { destruct o; try discriminate Eo. rename s0 into val. clear Eo Hr Hk Ho Hw. cbn [run_op]. pose proof Hs as [[n A] [L D]].
    destruct (anomaly_of (strip (lower val))) as [t|] eqn:Ea.
    2:{ rewrite set_type_bad by auto. exact Hs. }
    destruct (anomaly_dec (otype s) t) as [Et|Et].
    { rewrite (set_type_same gb val t) by auto. exact Hs. }
    assert (K : linv (kchk gb s)) by now apply linv_kchk.
    destruct (okro s) eqn:Er.
    { destruct (set_type_ro gb n val t s A Ea Et Er) as [s1 [C [A1 ->]]]. cbn [fst]. eapply linv_core; eauto. }
    destruct (set_type_spec gb n val t s A Ea Et Er) as [s1 [xs [C [A1 [_ [Lx ->]]]]]]. cbn [fst].
    pose proof A as [Hn _]. pose proof A1 as [Hn1 _].
    assert (L1 : lazy s1 = true) by (rewrite (lazy_settings s1 s); auto; eapply core_settings; eauto).
    unfold aft_keprow. cbn [odirect with_kep]. rewrite (lazy_not_direct _ L1).
    split; [|split; [exact L1|]].
    { exists n. destruct A1 as [Q1 Q2]. split; [|exact Q2]. destruct Q1. constructor; cbn; auto.
      - rewrite set_row_length. lia.
      - rewrite all_false_length. auto. }
    intros j c k m cb kb [C1 C2 C3 C4 C5]. cbn in C1, C2, C3, C4, C5. apply nth_all_false in C4. subst cb.
    assert (Hj : j < n) by (apply nth_error_lt in C1; destruct Hn1; lia).
    destruct (col_ex n s1 j Hn1 Hj) as [c' [k' [m' [cb' [kb' Cj]]]]]. pose proof Cj as [E1 E2 E3 E4 E5].
    assert (c' = c /\ kb' = kb) as [-> ->] by (split; congruence).
    assert (Cj' : col (kchk gb s) j c k' m' cb' kb) by (unfold core in C; constructor; congruence).
    destruct (kchk_fresh gb n s j _ _ _ _ _ Hn L Cj') as [->|?]; unfold lgood; [|auto].
    right. right. split; [discriminate|auto]. }
  assert (AL : forall n (s : orb), linv s -> lens n s -> aligned n s).
  { intros n s0 [[m A] _] Hl. now rewrite <- (aligned_lens m n s0 A Hl). }
  apply (op_inv gb linv fresh_cart fresh_kep
           (fun i s => otype s = AMean -> i = IAll) (fun _ s => odirect s = true \/ fresh_kep s) False False False False); auto; try tauto.
  - intros s0 [A _]. exact A.
  - apply linv_kchk.
  - apply linv_cchk.
  - intros n s0 l D Hl Ll. pose proof (AL n s0 D Hl) as A. apply (linv_core s0 _ n); [reflexivity| |exact D].
    destruct A. split; auto. now apply lens_with_nu.
  - intros n s0 l D Hl Ll. pose proof (AL n s0 D Hl) as A. apply (linv_core s0 _ n); [reflexivity| |exact D].
    destruct A. split; auto. now apply lens_with_Ma.
  - intros s0 i D. pose proof D as [[m [A1 A2]] _]. apply (linv_core s0 _ m); [reflexivity| |exact D].
    split; [destruct A1; now constructor|exact A2].
  - intros i s0 D Hi. pose proof D as [[n [A1 A2]] _]. destruct (calc_ecc_cases gb n s0 i A1 A2 Hi) as [d [Ld [->| ->]]].
    + now apply linv_kchk.
    + apply (linv_core (kchk gb s0) _ n); [reflexivity| |now apply linv_kchk].
      split; [destruct (lens_kchk gb n s0 A1); now constructor|]. exists d. auto.
  - intros n s0 cs D Hl Ll. pose proof (AL n s0 D Hl) as A. pose proof D as [_ [L _]].
    split; [exists n; now apply aligned_aft_cart, aligned_with_cart|].
    unfold aft_cart. cbn [odirect with_cart]. rewrite (lazy_not_direct _ L). split; [exact L|].
    intros j c k m cb kb [C1 C2 C3 C4 C5]. cbn in C4, C5. apply nth_all_true in C4. apply nth_all_false in C5. subst.
    right. right. split; [discriminate|auto].
  - intros n s0 cs D Hl Ll. pose proof (AL n s0 D Hl) as A. pose proof D as [_ [L _]].
    split; [exists n; now apply aligned_aft_kep, aligned_with_kep|].
    unfold aft_kep. cbn [odirect with_kep]. rewrite (lazy_not_direct _ L). split; [exact L|].
    intros j c k m cb kb [C1 C2 C3 C4 C5]. cbn in C4, C5. apply nth_all_false in C4. apply nth_all_true in C5. subst.
    right. right. split; [discriminate|auto].
  - intros n s0 cs D R Hl Ll. pose proof (AL n s0 D Hl) as A. pose proof D as [_ [L _]].
    split; [exists n; now apply aligned_aft_cartrow, aligned_with_cart|].
    unfold aft_cartrow. cbn [odirect with_cart]. rewrite (lazy_not_direct _ L). split; [exact L|].
    intros j c k m cb kb [C1 C2 C3 C4 C5]. cbn in C1, C2, C3, C4, C5. apply nth_all_false in C5. subst kb.
    assert (Hj : j < n) by (apply nth_error_lt in C2; destruct Hl; lia).
    destruct (col_ex n s0 j Hl Hj) as [c' [k' [m' [cb' [kb' C]]]]]. pose proof C as [E1 E2 E3 E4 E5].
    assert (k' = k /\ cb' = cb) as [-> ->] by (split; congruence).
    unfold lgood. destruct (typed s0) eqn:T.
    + destruct (R L T _ _ _ _ _ _ C) as [->|?]; [|auto]. right. right. split; [discriminate|auto].
    + right. right. split; [discriminate|]. change (typed _) with (typed s0). congruence.
  - intros n s0 cs D R Hl Ll. apply (linv_keprow gb n); auto. now destruct D as [_ [? _]].
  - intros n s0 Hl L T j c k m cb kb [C1 C2 C3 C4 C5]. assert (L0 : lazy s0 = true).
    { rewrite <- L. symmetry. apply lazy_settings. now apply (aft_cart_settings gb n). }
    unfold aft_cart in C4. rewrite (lazy_not_direct _ L0) in C4. cbn in C4. apply nth_all_true in C4. auto.
  - intros s0 [[n [Hl _]] [L _]] _ T j c k m cb kb C. eapply kchk_fresh; eauto.
  - intros n s0 cs R Hl Ll L T j c k m cb kb [C1 C2 C3 C4 C5].
    assert (L0 : odirect s0 = false).
    { destruct (odirect s0) eqn:Ed; auto. exfalso. assert (Es : settings (aft_keprow gb (with_kep (fun _ => cs) s0)) = settings s0).
      { unfold aft_keprow. cbn [odirect with_kep]. rewrite Ed.
        assert (Hl' : lens n (with_kep (fun _ => cs) s0)) by now apply lens_with_kep.
        destruct (call_spec gb n _ Hl') as [_ E]. apply settings_step in E. exact E. }
      rewrite (lazy_settings _ _ Es) in L. apply lazy_not_direct in L. congruence. }
    unfold aft_keprow in *. cbn [odirect with_kep] in *. rewrite L0 in *. cbn in C1, C2, C3, C4, C5, L, T.
    assert (Hj : j < n) by (apply nth_error_lt in C1; destruct Hl; lia).
    destruct (col_ex n s0 j Hl Hj) as [c' [k' [m' [cb' [kb' C]]]]]. pose proof C as [E1 E2 E3 E4 E5].
    assert (c' = c /\ kb' = kb) as [-> ->] by (split; congruence). apply (R L T _ _ _ _ _ _ C).
  - intros n s0 kep' vs D R Hl Lk Lv. pose proof (AL n s0 D Hl) as A. pose proof D as [_ [L _]]. cbv zeta.
    set (sb := base gb AMean (with_kep (fun _ => kep') s0)).
    assert (Hl' : lens n (with_kep (fun _ => kep') s0)) by now apply lens_with_kep.
    assert (R' : fresh_kep (with_kep (fun _ => kep') s0)).
    { intros L' T' j c k m cb kb [C1 C2 C3 C4 C5]. cbn in C1, C2, C3, C4, C5.
      assert (Hj : j < n) by (apply nth_error_lt in C1; destruct Hl; lia).
      destruct (col_ex n s0 j Hl Hj) as [c' [k' [m' [cb' [kb' C]]]]]. pose proof C as [E1 E2 E3 E4 E5].
      assert (c' = c /\ kb' = kb) as [-> ->] by (split; congruence). apply (R L' T' _ _ _ _ _ _ C). }
    assert (Rb : fresh_kep sb) by now apply (base_fresh_kep gb n).
    assert (Ab : aligned n sb) by now apply aligned_base, aligned_with_kep.
    assert (Lb : lazy sb = true).
    { rewrite <- L. transitivity (lazy (with_kep (fun _ => kep') s0)); [|reflexivity]. apply lazy_settings. now apply (base_settings gb n). }
    pose proof Ab as [Hb _]. destruct (set_row_const n 5 sb vs Hb Lv) as [Ls ->].
    pose proof (linv_keprow gb n sb (set_row 5 (okep sb) vs) Hb Lb Rb Ls Ab) as Q. split; [exact Q|].
    intros L' T' j c k m cb kb [C1 C2 C3 C4 C5]. unfold aft_keprow in *. cbn [odirect with_kep] in *.
    rewrite (lazy_not_direct _ Lb) in *. cbn in C1, C2, C3, C4, C5, L', T'.
    assert (Hj : j < n) by (apply nth_error_lt in C1; destruct Hb; lia).
    destruct (col_ex n sb j Hb Hj) as [c' [k' [m' [cb' [kb' C]]]]]. pose proof C as [E1 E2 E3 E4 E5].
    assert (c' = c /\ kb' = kb) as [-> ->] by (split; congruence). apply (Rb L' T' _ _ _ _ _ _ C).
  - intros n s0 cs i ps D Hl Ll Hp So. pose proof (AL n s0 D Hl) as A. pose proof D as [_ [L G]].
    split; [exists n; now apply aligned_aft_cart_at, aligned_with_cart|].
    unfold aft_cart_at. cbn [odirect with_cart]. rewrite (lazy_not_direct _ L). split; [exact L|].
    intros j c k m cb kb [C1 C2 C3 C4 C5]. cbn in C1, C2, C3, C4, C5.
    assert (Hj : j < n) by (apply nth_error_lt in C3; destruct Hl; lia). destruct (in_dec Nat.eq_dec j ps) as [Hi|Hi].
    + rewrite put_const_in in C4 by (auto; now rewrite (l_cf n s0 Hl)).
      rewrite put_const_in in C5 by (auto; now rewrite (l_kf n s0 Hl)).
      replace cb with true by congruence. replace kb with false by congruence.
      right. right. split; [discriminate|auto].
    + rewrite put_other in C4 by auto. rewrite put_other in C5 by auto. rewrite So in C1 by auto.
      apply (G j c k m cb kb). now constructor.
  - intros n s0 cs i ps D Hl Ll Hp So. pose proof (AL n s0 D Hl) as A. pose proof D as [_ [L G]].
    split; [exists n; now apply aligned_aft_kep_at, aligned_with_kep|].
    unfold aft_kep_at. cbn [odirect with_kep]. rewrite (lazy_not_direct _ L). split; [exact L|].
    intros j c k m cb kb [C1 C2 C3 C4 C5]. cbn in C1, C2, C3, C4, C5.
    assert (Hj : j < n) by (apply nth_error_lt in C3; destruct Hl; lia). destruct (in_dec Nat.eq_dec j ps) as [Hi|Hi].
    + rewrite put_const_in in C4 by (auto; now rewrite (l_cf n s0 Hl)).
      rewrite put_const_in in C5 by (auto; now rewrite (l_kf n s0 Hl)).
      replace cb with false by congruence. replace kb with true by congruence.
      right. right. split; [discriminate|auto].
    + rewrite put_other in C4 by auto. rewrite put_other in C5 by auto. rewrite So in C2 by auto.
      apply (G j c k m cb kb). now constructor.
  - intros n s0 ps [_ [L G]] A. split; [eexists; eapply del_aligned; eauto|]. split; [exact L|].
    intros j c k m cb kb C. destruct A as [A _]. destruct (del_col n ps s0 j c k m cb kb A C) as [i C'].
    apply (G i c k m cb kb C').
  - intros n s0 k row [_ [L G]] A Lr Hrow. split; [exists (n + k); apply aligned_with_m; auto; now apply app_aligned|].
    split; [exact L|]. intros j c ke m cb kb [C1 C2 C3 C4 C5]. cbn [ocart okep om ocf okf with_m] in C1, C2, C3, C4, C5.
    destruct A as [A AE]. assert (Hj : j < n + k). { apply nth_error_lt in C3. lia. }
    destruct (col_ex (n + k) (app_state k s0) j) as [c' [k' [m' [cb' [kb' C']]]]]; [exact (proj1 (app_aligned n k s0 (conj A AE)))|auto|].
    pose proof C' as [E1 E2 E3 E4 E5].
    destruct (app_col n k s0 j c' k' m' cb' kb' A C') as [[Hjn C0]|[Hjn [-> [-> _]]]].
    + assert (c' = c /\ k' = ke /\ m' = m /\ cb' = cb /\ kb' = kb) as [-> [-> [-> [-> ->]]]].
      { rewrite Hrow in C3 by auto. destruct C0 as [Q1 Q2 Q3 _ _]. repeat split; congruence. }
      apply (G _ _ _ _ _ _ C0).
    + left. replace c with (nan6c : six F) by congruence. now apply nan6_nan.
  - intros s0 n [_ [L G]]. split; [exists n; apply aligned_alloc|]. split; [exact L|].
    intros j c k m cb kb [C1 _ _ _ _]. cbn in C1. apply nth_error_In, repeat_spec in C1. subst c. left. now apply nan6_nan.
  - intros s0 i D Hc. pose proof D as [[n A] [L G]]. destruct A as [Hl HE]. destruct (resolve n i) as [ps|e] eqn:Er.
    + destruct (calcC gb n s0 i ps Hl Er) as [_ E]. pose proof (settings_step _ _ _ _ E) as Es.
      split; [exists n; eapply al_step; [split; eauto|eauto]|]. split; [now rewrite (lazy_settings _ s0)|].
      intros j c k m cb kb C. destruct (colstep_col _ _ _ _ _ _ _ _ _ _ Hl E C) as [c0 [k0 [cb0 [kb0 [C0 R]]]]].
      apply (lgood_settings s0); auto. eapply lgood_Cstep; [eauto| |exact R]. intros T _.
      destruct Hc as [Hc|Hc]; [apply lazy_not_direct in L; congruence|]. right. apply (Hc L T _ _ _ _ _ _ C0).
    + rewrite (calculate_cartesian_raise gb n s0 i e Hl Er). exact D.
  - intros s0 i D. pose proof D as [[n A] [L G]]. destruct A as [Hl HE]. destruct (resolve n i) as [ps|e] eqn:Er.
    + destruct (calcK gb n s0 i ps Hl Er) as [_ [_ E]]. pose proof (settings_step _ _ _ _ E) as Es.
      split; [exists n; eapply al_step; [split; eauto|eauto]|]. split; [now rewrite (lazy_settings _ s0)|].
      intros j c k m cb kb C. destruct (colstep_col _ _ _ _ _ _ _ _ _ _ Hl E C) as [c0 [k0 [cb0 [kb0 [C0 [-> [-> R]]]]]]].
      apply (lgood_settings s0); auto. pose proof (G _ _ _ _ _ _ C0) as G0.
      destruct R as [[_ [-> ->]]|[_ [_ [R ->]]]]; auto. right. right. auto.
    + rewrite (calculate_kepler_raise gb n s0 i e Hl Er). exact D.
  - destruct o; cbn [ok_op]; cbn in Hk, Ho, Hr; auto; try tauto; try discriminate Eo.
Qed.

(** what two successive reads return *)
Definition pair_consistent (s : orb) (cs ks : list (six F)) : Prop :=
  length cs = num s /\ length ks = num s /\
  forall j c k m, nth_error cs j = Some c -> nth_error ks j = Some k -> nth_error (om s) j = Some m ->
    has_nan c \/ has_nan k \/ consistent s c k m.
Lemma good_consistent (s : orb) c k m : good s c k m -> has_nan c \/ has_nan k \/ consistent s c k m.
Proof.
  intros G. rewrite !has_nan_iff. destruct (nan6 k) eqn:En; [auto|].
  destruct G as [Q|[Q|[Q|Q]]]; [auto|congruence| |].
  - right. right. left. now apply Kc_kepler_of.
  - right. right. right. now apply Cc_cartesian_of.
Qed.
Lemma get_cartesian_eq gb n (s : orb) : lens n s -> get_cartesian gb s = (cchk gb s, Ok (ocart (cchk gb s))).
Proof. intros Hs. unfold get_cartesian. destruct (cchk_spec gb n s Hs) as [E _]. now rewrite (bind_ok _ _ _ _ _ E). Qed.
Lemma get_kepler_eq gb n (s : orb) : lens n s -> get_kepler gb s = (kchk gb s, Ok (okep (kchk gb s))).
Proof. intros Hs. unfold get_kepler. destruct (kchk_spec gb n s Hs) as [E _]. now rewrite (bind_ok _ _ _ _ _ E). Qed.
Lemma read_ck gb gb' (s : orb) : linv s -> exists s1 cs s2 ks, get_cartesian gb s = (s1, Ok cs)
  /\ get_kepler gb' s1 = (s2, Ok ks) /\ pair_consistent s cs ks.
Proof.
  intros I. pose proof I as [[n [Hs HE]] [L D]]. pose proof (lens_cchk gb n s Hs) as Hs1.
  pose proof (linv_cchk gb s I) as [_ [L1 D1]].
  eexists _, _, _, _. split; [now apply (get_cartesian_eq gb n)|]. split; [now apply (get_kepler_eq gb' n)|].
  destruct (cchk_spec gb n s Hs) as [_ E]. pose proof (settings_step _ _ _ _ E) as Es.
  destruct (kchk_spec gb' n (cchk gb s) Hs1) as [_ [_ E']]. pose proof (settings_step _ _ _ _ E') as Es'.
  pose proof (lens_kchk gb' n _ Hs1) as Hs2.
  split; [unfold num; rewrite (l_k n s Hs); now destruct Hs1|]. split; [unfold num; rewrite (l_k n s Hs); now destruct Hs2|].
  intros j c k m C1 C2 C3. assert (Hj : j < n) by (apply nth_error_lt in C3; destruct Hs; lia).
  destruct (col_ex n _ j Hs2 Hj) as [c2 [k2 [m2 [cb2 [kb2 Q2]]]]].
  destruct (colstep_col _ _ _ _ _ _ _ _ _ _ Hs1 E' Q2) as [c1 [k1 [cb1 [kb1 [Q1 [-> [-> [R1 R2]]]]]]]].
  destruct (colstep_col _ _ _ _ _ _ _ _ _ _ Hs E Q1) as [c0 [k0 [cb0 [kb0 [Q0 R]]]]].
  assert (c1 = c /\ k2 = k /\ m2 = m) as [-> [-> ->]].
  { destruct Q2 as [A1 A2 A3 _ _], Q1 as [B1 _ _ _ _], Q0 as [_ _ B3 _ _]. repeat split; congruence. }
  apply good_consistent. rewrite L1 in R1, R2. pose proof (D1 _ _ _ _ _ _ Q1) as G.
  destruct (negb kb1 && negb (nan6 c)) eqn:W; cbn [andb] in R1, R2.
  { destruct (R2 W) as [K _]. right. right. left. eapply Kc_settings; [|exact K]. congruence. }
  destruct (R1 W) as [-> ->]. destruct (nan6 c) eqn:En; [now left|]. destruct kb1; [|discriminate].
  destruct G as [G|[G|[G _]]]; [now left; congruence|now right; left|].
  destruct cb1.
  - right. right. destruct (G eq_refl eq_refl); [left; eapply Kc_settings|right; eapply Cc_settings]; eauto.
  - destruct R as [R R']. destruct R' as [[Z [-> <-]]|[_ [_ [? _]]]]; [|discriminate].
    destruct R as [[-> _]|[_ [_ [_ [_ [K _]]]]]]; [|now right; right; left].
    destruct Z as [Z|Z]; [|now right; left]. rewrite L in Z. discriminate.
Qed.
Lemma read_kc gb gb' (s : orb) : linv s -> exists s1 ks s2 cs, get_kepler gb s = (s1, Ok ks)
  /\ get_cartesian gb' s1 = (s2, Ok cs) /\ pair_consistent s cs ks.
Proof.
  intros I. pose proof I as [[n [Hs HE]] [L D]]. pose proof (lens_kchk gb n s Hs) as Hs1.
  pose proof (linv_kchk gb s I) as [_ [L1 D1]].
  eexists _, _, _, _. split; [now apply (get_kepler_eq gb n)|]. split; [now apply (get_cartesian_eq gb' n)|].
  destruct (kchk_spec gb n s Hs) as [_ [_ E]]. pose proof (settings_step _ _ _ _ E) as Es.
  destruct (cchk_spec gb' n (kchk gb s) Hs1) as [_ E']. pose proof (settings_step _ _ _ _ E') as Es'.
  pose proof (lens_cchk gb' n _ Hs1) as Hs2.
  split; [unfold num; rewrite (l_k n s Hs); now destruct Hs2|]. split; [unfold num; rewrite (l_k n s Hs); now destruct Hs1|].
  intros j c k m C1 C2 C3. assert (Hj : j < n) by (apply nth_error_lt in C3; destruct Hs; lia).
  destruct (col_ex n _ j Hs2 Hj) as [c2 [k2 [m2 [cb2 [kb2 Q2]]]]].
  destruct (colstep_col _ _ _ _ _ _ _ _ _ _ Hs1 E' Q2) as [c1 [k1 [cb1 [kb1 [Q1 [R1 R2]]]]]].
  destruct (colstep_col _ _ _ _ _ _ _ _ _ _ Hs E Q1) as [c0 [k0 [cb0 [kb0 [Q0 _]]]]].
  assert (c2 = c /\ k1 = k /\ m2 = m) as [-> [-> ->]].
  { destruct Q2 as [A1 A2 A3 _ _], Q1 as [_ B1 _ _ _], Q0 as [_ _ B3 _ _]. repeat split; congruence. }
  apply good_consistent. pose proof (D1 _ _ _ _ _ _ Q1) as G. rewrite L1 in *.
  pose proof (kchk_fresh gb n s j _ _ _ _ _ Hs L Q1) as Fk.
  destruct R2 as [[Z [-> ->]]|[_ [Nk [-> R2]]]].
  - destruct G as [G|[G|[G _]]]; [now left|now right; left|].
    destruct Z as [Z|Z]; [|now right; left]. cbn in Z. apply negb_false_iff in Z. subst cb1.
    destruct Fk as [->|?]; [|now left]. right. right.
    destruct (G eq_refl eq_refl); [left; eapply Kc_settings|right; eapply Cc_settings]; eauto.
  - destruct R2 as [_ R2]. { destruct Fk as [->| ->]; cbn; now rewrite ?andb_false_r. }
    right. right. right. eapply Cc_settings; eauto.
Qed.

Lemma linv_run h : forall s : orb, linv s -> steps_ok lazy_ok h s -> linv (run h s).
Proof.
  induction h as [|[gb o] h IH]; intros s Hs Hok; auto. destruct Hok as [H1 H2]. cbn [run].
  apply IH; auto. now apply C43_step.
Qed.
Lemma linv_flags a d k c (s : orb) : a = true -> d = false -> linv s -> linv (with_flags a d k c s).
Proof.
  intros -> -> [[n [A1 A2]] [D1 D2]]. split; [|split; [reflexivity|]].
  - exists n. split; [destruct A1; now constructor|exact A2].
  - intros j cc ke m cb kb []. assert (C : col s j cc ke m cb kb) by now constructor.
    destruct (D2 _ _ _ _ _ _ C) as [?|[?|[X Y]]]; [now left|now right; left|]. right. right. split; [|exact Y].
    intros C4 C5. destruct (X C4 C5) as [[g ->]|[g ->]]; [left|right]; now exists g.
Qed.
Lemma linv_init gb M0 c kw (s : orb) : cf_auto c = true -> cf_direct c = false -> init gb M0 c kw = Ok s -> linv s.
Proof.
  intros Ha Hd. unfold init. destruct (anomaly_of (cf_type c)) as [t|]; [|discriminate]. set (s0 := mkorb _ _ _ _ _ _ _ _ _ _ _ _ _ _ _ _ _ _).
  destruct (bind _ _ s0) as [s1 [[]|]] eqn:Eb; [|discriminate]. injection 1 as <-.
  apply linv_flags; auto. unfold bind at 1 in Eb. cbn [allocate modify] in Eb.
  set (s2 := mkorb _ _ _ _ _ _ _ _ _ _ _ _ _ _ _ _ _ _) in Eb.
  assert (A0 : forall row, length row = cf_num c -> linv (with_m (fun _ => row) s2)).
  { intros row L. split; [|split; [unfold lazy; cbn; now rewrite Ha, Hd|]].
    - exists (cf_num c). apply aligned_with_m; auto. apply (aligned_alloc (cf_num c) s0).
    - intros j c0 k m cb kb [C1 _ _ _ _]. cbn in C1. apply nth_error_In, repeat_spec in C1. subst c0. left. now apply nan6_nan. }
  assert (U : forall s3, linv s3 -> (if Nat.eqb (cf_num c) 0 then ret tt else update gb IAll (drop_m kw)) s3 = (s1, Ok tt) -> linv s1).
  { intros s3 D3 E3. destruct (Nat.eqb _ _); [injection E3 as <-; exact D3|].
    change s1 with (fst (s1, Ok tt : res unit)). rewrite <- E3. apply (C43_step gb (OUpdate IAll (drop_m kw))); auto.
    split; [split; cbn; auto|]. split; [exact I|]. split; [reflexivity|]. cbn [run_op]. now rewrite E3. }
  unfold bind in Eb. destruct (kw_m kw) as [v|].
  - unfold set_m, bind, get, lift in Eb. destruct (assign (om s2) IAll v) as [row|] eqn:Ea; [|discriminate].
    cbn [modify] in Eb. eapply U; [|exact Eb]. apply A0. apply assign_length in Ea. rewrite Ea. apply repeat_length.
  - eapply U; [|exact Eb]. rewrite <- (with_m_id s2). apply A0. apply repeat_length.
Qed.

(** Full claim: for every history.  Missing: the operations excluded by [lazy_ok], for which it is
    false (refuted below). *)
Theorem C43_reads_partial gb M0 c kw (s : orb) h : cf_auto c = true -> cf_direct c = false ->
  init gb M0 c kw = Ok s -> steps_ok lazy_ok h s ->
  (forall g1 g2, exists s1 cs s2 ks, get_cartesian g1 (run h s) = (s1, Ok cs)
     /\ get_kepler g2 s1 = (s2, Ok ks) /\ pair_consistent (run h s) cs ks)
  /\ (forall g1 g2, exists s1 ks s2 cs, get_kepler g1 (run h s) = (s1, Ok ks)
     /\ get_cartesian g2 s1 = (s2, Ok cs) /\ pair_consistent (run h s) cs ks).
Proof.
  intros Ha Hd Hi Hh. assert (I : linv (run h s)) by (apply linv_run; auto; eapply linv_init; eauto).
  split; intros; [now apply read_ck|now apply read_kc].
Qed.
(** with type "true" single elements of either side may be assigned in any order *)
Lemma fresh_true (s : orb) : otype s = ATrue -> fresh_cart s /\ fresh_kep s.
Proof. intros E. unfold fresh_cart, fresh_kep, typed. rewrite E. split; intros _ T; discriminate T. Qed.
End Lazy.

Section Examples.
#[local] Existing Instance NP_toyn.
Definition cfgl (t : string) n : config Z :=
  mkconfig true false 1%Z {| tol := 0%Z; max_iter := 3%Z; degree := 5%Z |} false t n false false.
Definition hl : history Z :=
  [(gd, OGetCart); (gd, OSetCartRow 0 (Sc 3%Z)); (gd, OGetKep); (gd, OSetKepRow 1 (Sc 0%Z));
   (gd, OAdd 1 (kwd (fresh [6; 1] [7; 0; 1; 1; 1; 1]%Z))); (gd, OSetType "mean"); (gd, OSetV (Sc 2%Z)); (gd, OGetVelocity);
   (gd, ODelete (IInt 0)); (gd, OPropagate (Sc 1%Z))].
Example C43_reads_example : exists s, init gd 1%Z (cfgl "eccentric" 2) (kwd matd) = Ok s
  /\ steps_ok lazy_ok hl s /\ OrbitModel.num (run hl s) = 2.
Proof.
  eexists. split; [vm_compute; reflexivity|]. split; [|vm_compute; reflexivity].
  assert (FC : forall s : orb Z, forallb (fun b => b) (ocf s) = true -> fresh_cart s).
  { intros s Hb _ _ j c k m cb kb [_ _ _ C _]. left. rewrite forallb_forall in Hb. apply Hb. eapply nth_error_In; eauto. }
  assert (FK : forall s : orb Z, forallb (fun b => b) (okf s) = true -> fresh_kep s).
  { intros s Hb _ _ j c k m cb kb [_ _ _ _ C]. left. rewrite forallb_forall in Hb. apply Hb. eapply nth_error_In; eauto. }
  unfold hl.
  repeat (match goal with |- steps_ok ?ok ((?g, ?o) :: ?t) ?s => change (ok g o s /\ steps_ok ok t (fst (run_op g o s))) end; split; [split; [vm_compute; tauto|split; [try exact I; try (apply FC; vm_compute; reflexivity); try (apply FK; vm_compute; reflexivity);
     try (intros _; apply FK; vm_compute; reflexivity)|vm_compute; tauto]]
     |match goal with |- steps_ok _ _ ?s => let v := eval vm_compute in s in replace s with v by (vm_compute; reflexivity) end]).
  exact I.
Qed.
(** [reads M0 t kw h cs ks]: after the history [h] on a new object, reading cartesian and then kepler gives these *)
Definition reads (M0 : Z) (t : string) (h : history Z) (s : orb Z) (cs ks : list (six Z)) : Prop :=
  exists s0, init gd M0 (cfgl t 2) (kwd matd) = Ok s0 /\ steps_ok width_ok h s0 /\ s = run h s0
  /\ exists s1 s2, get_cartesian gd s = (s1, Ok cs) /\ get_kepler gd s1 = (s2, Ok ks).
Ltac contradictory j :=
  eexists _, _, _; split;
  [eexists; split; [vm_compute; reflexivity|]; split; [vm_compute; tauto|]; split; [vm_compute; reflexivity|];
   eexists _, _; split; [vm_compute; reflexivity|vm_compute; reflexivity]|];
  intros [_ [_ C]]; destruct (C j _ _ _ eq_refl eq_refl eq_refl) as [N|[N|[N|N]]];
  [vm_compute in N; intuition discriminate|vm_compute in N; intuition discriminate
  |destruct (N gd) as [k0 [N1 N2]]; vm_compute in N1; injection N1 as <-; vm_compute in N2;
   congruence || (destruct N2 as [x [N2 N3]]; congruence)
  |destruct (N gd) as [nu [N1 N2]]; vm_compute in N1; (subst nu || injection N1 as <-); vm_compute in N2; congruence].
(** mass change: [orb.m\[:\] = ...] makes neither side stale *)
Theorem C43_mass_refuted : exists s cs ks,
  reads 1000%Z "true" [(gd, OGetCart); (gd, OSetM IAll (Sc 100000%Z))] s cs ks /\ ~ pair_consistent s cs ks.
Proof. contradictory 0. Qed.
(** a failed update *)
Theorem C43_failed_update_refuted : exists s cs ks,
  reads 1%Z "true" ((gd, OGetCart) :: hf) s cs ks /\ ~ pair_consistent s cs ks.
Proof. contradictory 0. Qed.
(** eccentric anomaly, both sides stale: orb.cartesian = ..., then orb.a = ... *)
Theorem C43_stale_rows_refuted : exists s cs ks,
  reads 1%Z "eccentric" [(gd, OSetCart (fresh [6; 1] [1; 2; 3; 4; 5; 6]%Z)); (gd, OSetKepRow 0 (Sc 6%Z))] s cs ks
  /\ ~ pair_consistent s cs ks.
Proof. contradictory 1. Qed.
(** calculate_cartesian() while the Kepler elements are stale *)
Theorem C43_calculate_refuted : exists s cs ks,
  reads 1%Z "eccentric" [(gd, OSetCart (fresh [6; 1] [1; 2; 3; 4; 5; 6]%Z)); (gd, OCalcCart IAll)] s cs ks
  /\ ~ pair_consistent s cs ks.
Proof. contradictory 1. Qed.
End Examples.
