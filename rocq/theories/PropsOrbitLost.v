(** * C45: with direct_update=False and auto_update=True a read starts from the side written last. *)
From Coq Require Import String List Bool Arith Lia ZArith QArith.
From Verif Require Import NP KeplerModel ConvModel UnitModel OrbitModel Lists ConvCols ArraySpec
  PropsAnomaly OrbitLists OrbitBase OrbitOps OrbitSetters OrbitInv OrbitSpec NPToyN PropsOrbitWidth OrbitGet
  PropsOrbitDirect PropsOrbitLazy PropsOrbitWrite.
Import ListNotations.
Local Open Scope nat_scope.

Section Lost.
Context {F : Type} `{NP F}.
Notation orb := (orb F).

(** any number of reads, in any order *)
Definition reads_only (h : history F) : Prop := Forall (fun go => reader (snd go) = true) h.
Lemma readers_run (P : orb -> Prop) :
  (forall s, P s -> exists n, lens n s) ->
  (forall gb s, P s -> P (kchk gb s)) -> (forall gb s, P s -> P (cchk gb s)) ->
  (forall n s s', core s' = core s -> lens n s' -> P s -> P s') ->
  forall h s, reads_only h -> P s -> P (run h s).
Proof.
  intros Pl Pk Pc Pcore h. induction h as [|[gb o] h IH]; cbn; intros s R Ps; [exact Ps|].
  inversion R as [|? ? R1 R2]; subst. apply IH; [exact R2|]. cbn in R1.
  apply (reader_inv gb P) with (okE := fun _ _ => True); auto.
  - intros n s0 l P0 Hl Ll. apply (Pcore n s0); auto. now apply lens_with_nu.
  - intros n s0 l P0 Hl Ll. apply (Pcore n s0); auto. now apply lens_with_Ma.
  - intros s0 i P0. destruct (Pl s0 P0) as [n Hl]. apply (Pcore n s0); auto. destruct Hl; now constructor.
  - intros i s0 P0 _. destruct (Pl s0 P0) as [n Hl]. destruct (calc_ecc_any gb n s0 i Hl) as [->|[x ->]]; auto.
    apply (Pcore n (kchk gb s0)); auto. destruct (lens_kchk gb n s0 Hl). now constructor.
Qed.

(** column [j] holds the Cartesian [c], which was written after the Kepler elements or from which they
    were calculated *)
Definition cart_rules n (S : orb) (m : F) (j : nat) (c : six F) (s : orb) : Prop :=
  lens n s /\ settings s = settings S /\ exists k kb, col s j c k m true kb /\ (kb = false \/ Kc S c m k).
Definition kep_rules n (S : orb) (m : F) (j : nat) (k : six F) (s : orb) : Prop :=
  lens n s /\ settings s = settings S /\ exists c cb, col s j c k m cb true /\ (cb = false \/ Cc S k m c).
Lemma cart_rules_kchk gb n S m j c (s : orb) : cart_rules n S m j c s -> cart_rules n S m j c (kchk gb s).
Proof.
  intros [Hs [Es [k [kb [C Q]]]]]. destruct (kchk_spec gb n s Hs) as [_ [_ E]].
  split; [now apply lens_kchk|]. split; [rewrite <- Es; now apply settings_step in E|].
  destruct E as [_ [_ [_ [_ [_ [_ E]]]]]]. destruct (E _ _ _ _ _ _ C) as [c' [k' [cb' [kb' [C' [-> [-> [R1 R2]]]]]]]].
  exists k', kb'. split; [auto|]. destruct (lazy s && negb kb && negb (nan6 c)) eqn:W.
  - destruct (R2 eq_refl) as [R _]. right. now apply (Kc_settings s).
  - destruct (R1 eq_refl) as [-> ->]. auto.
Qed.
Lemma cart_rules_cchk gb n S m j c (s : orb) : cart_rules n S m j c s -> cart_rules n S m j c (cchk gb s).
Proof.
  intros [Hs [Es [k [kb [C Q]]]]]. destruct (cchk_spec gb n s Hs) as [_ E].
  split; [now apply lens_cchk|]. split; [rewrite <- Es; now apply settings_step in E|].
  destruct E as [_ [_ [_ [_ [_ [_ E]]]]]]. destruct (E _ _ _ _ _ _ C) as [c' [k' [cb' [kb' [C' [R1 R2]]]]]].
  destruct R2 as [[_ [-> ->]]|[R2 _]]; [|cbn in R2; rewrite andb_false_r in R2; discriminate].
  exists k', kb'. split; [auto|]. destruct R1 as [[-> ->]|[_ [_ [_ [_ [R1 ->]]]]]]; [auto|]. right. now apply (Kc_settings s).
Qed.
Lemma kep_rules_kchk gb n S m j k (s : orb) : kep_rules n S m j k s -> kep_rules n S m j k (kchk gb s).
Proof.
  intros [Hs [Es [c [cb [C Q]]]]]. destruct (kchk_spec gb n s Hs) as [_ [_ E]].
  split; [now apply lens_kchk|]. split; [rewrite <- Es; now apply settings_step in E|].
  destruct E as [_ [_ [_ [_ [_ [_ E]]]]]]. destruct (E _ _ _ _ _ _ C) as [c' [k' [cb' [kb' [C' [-> [-> [R1 R2]]]]]]]].
  cbn [negb] in R1. rewrite andb_false_r in R1. destruct (R1 eq_refl) as [-> ->]. eauto.
Qed.
Lemma kep_rules_cchk gb n S m j k (s : orb) : kep_rules n S m j k s -> kep_rules n S m j k (cchk gb s).
Proof.
  intros [Hs [Es [c [cb [C Q]]]]]. destruct (cchk_spec gb n s Hs) as [_ E].
  split; [now apply lens_cchk|]. split; [rewrite <- Es; now apply settings_step in E|].
  destruct E as [_ [_ [_ [_ [_ [_ E]]]]]]. destruct (E _ _ _ _ _ _ C) as [c' [k' [cb' [kb' [C' [R1 R2]]]]]].
  destruct R1 as [[-> ->]|[_ [_ [R1 _]]]]; [|discriminate].
  exists c', cb'. split; [auto|]. destruct R2 as [[_ [-> ->]]|[_ [_ [_ R2]]]]; [auto|].
  right. destruct R2 as [_ R2]; [cbn [negb]; rewrite !andb_false_r; reflexivity|]. now apply (Cc_settings s).
Qed.
Lemma cart_rules_run n S m j c h (s : orb) : reads_only h -> cart_rules n S m j c s -> cart_rules n S m j c (run h s).
Proof.
  apply (readers_run (cart_rules n S m j c)); auto using cart_rules_kchk, cart_rules_cchk.
  - intros s0 [Hs _]. eauto.
  - intros n' s0 s' E L [Hs [Es [k [kb [C Q]]]]]. unfold core in E. split.
    { destruct L, Hs. constructor; congruence. }
    split; [congruence|]. exists k, kb. split; [|auto]. destruct C. constructor; congruence.
Qed.
Lemma kep_rules_run n S m j k h (s : orb) : reads_only h -> kep_rules n S m j k s -> kep_rules n S m j k (run h s).
Proof.
  apply (readers_run (kep_rules n S m j k)); auto using kep_rules_kchk, kep_rules_cchk.
  - intros s0 [Hs _]. eauto.
  - intros n' s0 s' E L [Hs [Es [c [cb [C Q]]]]]. unfold core in E. split.
    { destruct L, Hs. constructor; congruence. }
    split; [congruence|]. exists c, cb. split; [|auto]. destruct C. constructor; congruence.
Qed.

(** what reading gives for column [j] *)
Definition read_from_cart (S : orb) (m : F) (j : nat) (c : six F) (s : orb) : Prop :=
  forall gb, exists cs ks k, snd (get_cartesian gb s) = Ok cs /\ snd (get_kepler gb s) = Ok ks
   /\ nth_error cs j = Some c /\ nth_error ks j = Some k /\ (has_nan c \/ has_nan k \/ forall gb', kepler_of gb' S c m k).
Definition read_from_kep (S : orb) (m : F) (j : nat) (k : six F) (s : orb) : Prop :=
  forall gb, exists cs ks c, snd (get_cartesian gb s) = Ok cs /\ snd (get_kepler gb s) = Ok ks
   /\ nth_error ks j = Some k /\ nth_error cs j = Some c /\ (has_nan k \/ forall gb', cartesian_of gb' S k m c).
Lemma cart_rules_read n S m j c (s : orb) : nan_arith (F := F) -> lazy_mode s -> cart_rules n S m j c s -> read_from_cart S m j c s.
Proof.
  intros NA Lz [Hs [Es [k [kb [C Q]]]]] gb. rewrite (get_cartesian_eq gb n), (get_kepler_eq gb n) by auto. cbn [snd].
  destruct (cart_rules_cchk gb n S m j c s) as [_ [_ [k1 [kb1 [C1 _]]]]].
  { split; [auto|]. split; [auto|]. eauto. }
  destruct (kchk_spec gb n s Hs) as [_ [_ E]]. destruct E as [_ [_ [_ [_ [_ [_ E]]]]]].
  destruct (E _ _ _ _ _ _ C) as [c' [k' [cb' [kb' [C' [-> [-> [R1 R2]]]]]]]].
  exists (ocart (cchk gb s)), (okep (kchk gb s)), k'. split; [auto|]. split; [auto|]. split; [apply C1|]. split; [apply C'|].
  rewrite !has_nan_iff. destruct (nan6 c) eqn:Nc; [auto|]. destruct (nan6 k') eqn:Nk; [auto|]. right. right.
  apply Kc_kepler_of; auto. assert (Lb : lazy s = true) by now apply lazy_mode_iff. rewrite Lb in *. cbn in R1, R2.
  rewrite andb_true_r in *. destruct kb; cbn in *.
  - destruct (R1 eq_refl) as [-> _]. destruct Q; [discriminate|auto].
  - destruct (R2 eq_refl) as [R _]. now apply (Kc_settings s).
Qed.
Lemma kep_rules_read n S m j k (s : orb) : nan_arith (F := F) -> lazy_mode s -> kep_rules n S m j k s -> read_from_kep S m j k s.
Proof.
  intros NA Lz [Hs [Es [c [cb [C Q]]]]] gb. rewrite (get_cartesian_eq gb n), (get_kepler_eq gb n) by auto. cbn [snd].
  destruct (kep_rules_kchk gb n S m j k s) as [_ [_ [c1 [cb1 [C1 _]]]]].
  { split; [auto|]. split; [auto|]. eauto. }
  destruct (cchk_spec gb n s Hs) as [_ E]. destruct E as [_ [_ [_ [_ [_ [_ E]]]]]].
  destruct (E _ _ _ _ _ _ C) as [c' [k' [cb' [kb' [C' [_ R2]]]]]].
  exists (ocart (cchk gb s)), (okep (kchk gb s)), c'. split; [auto|]. split; [auto|]. split; [apply C1|]. split; [apply C'|].
  rewrite !has_nan_iff. destruct (nan6 k) eqn:Nk; [auto|]. right.
  apply Cc_cartesian_of; auto. assert (Lb : lazy s = true) by now apply lazy_mode_iff. rewrite Lb in *. cbn in R2.
  destruct R2 as [[[R2|R2] [-> ->]]|[_ [_ [_ R2]]]].
  - apply negb_false_iff in R2. subst cb. destruct Q; [discriminate|auto].
  - congruence.
  - destruct R2 as [_ R2]; [rewrite !andb_false_r; reflexivity|]. now apply (Cc_settings s).
Qed.

(** ** The writes *)
Definition writes_cart (o : op F) : bool :=
  match o with OSetCart _ | OSetCartRow _ _ | OSetR _ | OSetV _ => true | _ => false end.
Definition writes_kep (o : op F) : bool :=
  match o with OSetKep _ | OSetKepRow _ _ => true | _ => false end.
Lemma cart_rules_lazy n S m j c (s : orb) : lazy_mode S -> cart_rules n S m j c s -> lazy_mode s.
Proof. intros L [_ [E _]]. now apply (settings_lazy_mode s S). Qed.
Lemma kep_rules_lazy n S m j c (s : orb) : lazy_mode S -> kep_rules n S m j c s -> lazy_mode s.
Proof. intros L [_ [E _]]. now apply (settings_lazy_mode s S). Qed.
Lemma nth_all_false_ex (l : list bool) j : j < length l -> nth_error (all_false l) j = Some false.
Proof.
  intros Hj. unfold all_false. rewrite nth_error_map. destruct (nth_error_some l j Hj) as [b ->]. reflexivity.
Qed.
Lemma wrote_cart_rules gb n m j cs (s : orb) : lens n s -> lazy_mode s -> length cs = n -> nth_error (om s) j = Some m ->
  (exists c, nth_error cs j = Some c /\ cart_rules n s m j c (aft_cart gb (with_cart (fun _ => cs) s))).
Proof.
  intros Hs Lz L Hm. assert (Hj : j < n) by (apply nth_error_lt in Hm; destruct Hs; lia).
  destruct (nth_error_some cs j) as [c Hc]; [lia|]. exists c. split; [auto|].
  assert (H1 : lens n (with_cart (fun _ => cs) s)) by now apply lens_with_cart.
  split; [now apply lens_aft_cart|]. split; [now rewrite (aft_cart_settings gb n)|].
  unfold aft_cart. cbn [odirect with_cart]. rewrite (lazy_mode_direct s Lz).
  destruct (nth_error_some (okep s) j) as [k Hk]; [destruct Hs; lia|].
  exists k, false. split; [|auto]. constructor; cbn; auto.
  - apply nth_all_true_ex. destruct Hs; lia.
  - apply nth_all_false_ex. destruct Hs; lia.
Qed.
Lemma wrote_cartrow_rules gb n m j cs (s : orb) : lens n s -> lazy_mode s -> length cs = n -> nth_error (om s) j = Some m ->
  nth_error (ocf s) j = Some true ->
  (exists c, nth_error cs j = Some c /\ cart_rules n s m j c (aft_cartrow gb (with_cart (fun _ => cs) s))).
Proof.
  intros Hs Lz L Hm Hf. assert (Hj : j < n) by (apply nth_error_lt in Hm; destruct Hs; lia).
  destruct (nth_error_some cs j) as [c Hc]; [lia|]. exists c. split; [auto|].
  assert (H1 : lens n (with_cart (fun _ => cs) s)) by now apply lens_with_cart.
  split; [now apply lens_aft_cartrow|]. split; [now rewrite (aft_cartrow_settings gb n)|].
  unfold aft_cartrow. cbn [odirect with_cart]. rewrite (lazy_mode_direct s Lz).
  destruct (nth_error_some (okep s) j) as [k Hk]; [destruct Hs; lia|].
  exists k, false. split; [|auto]. constructor; cbn; auto. apply nth_all_false_ex. destruct Hs; lia.
Qed.
Lemma wrote_kep_rules gb n m j cs (s : orb) : lens n s -> lazy_mode s -> length cs = n -> nth_error (om s) j = Some m ->
  (exists c, nth_error cs j = Some c /\ kep_rules n s m j c (aft_kep gb (with_kep (fun _ => cs) s))).
Proof.
  intros Hs Lz L Hm. assert (Hj : j < n) by (apply nth_error_lt in Hm; destruct Hs; lia).
  destruct (nth_error_some cs j) as [c Hc]; [lia|]. exists c. split; [auto|].
  assert (H1 : lens n (with_kep (fun _ => cs) s)) by now apply lens_with_kep.
  split; [now apply lens_aft_kep|]. split; [now rewrite (aft_kep_settings gb n)|].
  unfold aft_kep. cbn [odirect with_kep]. rewrite (lazy_mode_direct s Lz).
  destruct (nth_error_some (ocart s) j) as [k Hk]; [destruct Hs; lia|].
  exists k, false. split; [|auto]. constructor; cbn; auto.
  - apply nth_all_false_ex. destruct Hs; lia.
  - apply nth_all_true_ex. destruct Hs; lia.
Qed.
Lemma wrote_keprow_rules gb n m j cs (s : orb) : lens n s -> lazy_mode s -> length cs = n -> nth_error (om s) j = Some m ->
  nth_error (okf s) j = Some true ->
  (exists c, nth_error cs j = Some c /\ kep_rules n s m j c (aft_keprow gb (with_kep (fun _ => cs) s))).
Proof.
  intros Hs Lz L Hm Hf. assert (Hj : j < n) by (apply nth_error_lt in Hm; destruct Hs; lia).
  destruct (nth_error_some cs j) as [c Hc]; [lia|]. exists c. split; [auto|].
  assert (H1 : lens n (with_kep (fun _ => cs) s)) by now apply lens_with_kep.
  split; [now apply lens_aft_keprow|]. split; [now rewrite (aft_keprow_settings gb n)|].
  unfold aft_keprow. cbn [odirect with_kep]. rewrite (lazy_mode_direct s Lz).
  destruct (nth_error_some (ocart s) j) as [k Hk]; [destruct Hs; lia|].
  exists k, false. split; [|auto]. constructor; cbn; auto. apply nth_all_false_ex. destruct Hs; lia.
Qed.

(** ** C45, whole-state assignment: complete *)
Theorem C45_cartesian gb n v (s s1 : orb) h : nan_arith (F := F) -> lens n s -> lazy_mode s -> wfv v ->
  set_cartesian gb v s = (s1, Ok tt) -> reads_only h ->
  exists cs, state_values v n cs /\
    forall j c m, nth_error cs j = Some c -> nth_error (om s) j = Some m -> read_from_cart s m j c (run h s1).
Proof.
  intros NA Hs Lz Hv E Hh. rewrite (set_cartesian_eq gb n) in E by auto. destruct (ocro s); [discriminate|].
  destruct (whole_value n v) as [cs|] eqn:Ew; [|discriminate]. injection E as <-. exists cs.
  assert (L : length cs = n) by (eapply whole_value_length; eauto).
  split; [split; [auto|]; intros i j c Hi Hj; eapply whole_entry; eauto|]. intros j c m Hc Hm.
  destruct (wrote_cart_rules gb n m j cs s Hs Lz L Hm) as [c' [Hc' R]]. assert (c' = c) as -> by congruence.
  apply (cart_rules_run n s m j c h) in R; auto. eapply cart_rules_read; eauto. eapply cart_rules_lazy; eauto.
Qed.
Theorem C45_kepler gb n v (s s1 : orb) h : nan_arith (F := F) -> lens n s -> lazy_mode s -> wfv v ->
  set_kepler gb v s = (s1, Ok tt) -> reads_only h ->
  exists ks, state_values v n ks /\
    forall j k m, nth_error ks j = Some k -> nth_error (om s) j = Some m -> read_from_kep s m j k (run h s1).
Proof.
  intros NA Hs Lz Hv E Hh. rewrite (set_kepler_eq gb n) in E by auto. destruct (okro s); [discriminate|].
  destruct (whole_value n v) as [cs|] eqn:Ew; [|discriminate]. injection E as <-. exists cs.
  assert (L : length cs = n) by (eapply whole_value_length; eauto).
  split; [split; [auto|]; intros i j c Hi Hj; eapply whole_entry; eauto|]. intros j c m Hc Hm.
  destruct (wrote_kep_rules gb n m j cs s Hs Lz L Hm) as [c' [Hc' R]]. assert (c' = c) as -> by congruence.
  apply (kep_rules_run n s m j c h) in R; auto. eapply kep_rules_read; eauto. eapply kep_rules_lazy; eauto.
Qed.
(** ** C45, element assignment.  Missing: the assigned side was stale (refuted below). *)
Theorem C45_cart_elements_partial gb n o (s s1 : orb) h j c m : nan_arith (F := F) -> lens n s -> lazy_mode s -> wf_op o ->
  writes_cart o = true -> run_op gb o s = (s1, Ok tt) -> reads_only h ->
  nth_error (ocf s) j = Some true -> nth_error (om s) j = Some m -> nth_error (ocart s1) j = Some c ->
  read_from_cart s m j c (run h s1).
Proof.
  intros NA Hs Lz Hv Ho E Hh Hf Hm Hc.
  assert (G : cart_rules n s m j c s1).
  { destruct o; try discriminate Ho; cbn [run_op wf_op] in *.
    - rewrite (set_cart_row_eq gb n) in E by auto. destruct (ocro s); [discriminate|].
      destruct (bcast1 n v) as [vs|] eqn:Eb; [|discriminate]. injection E as <-.
      assert (L : length vs = n) by (eapply bcast1_length; eauto using wfv_wf).
      destruct (wrote_cartrow_rules gb n m j (set_row k (ocart s) vs) s) as [c' [Hc' R]]; auto.
      { rewrite set_row_length, (l_c n s Hs). lia. }
      rewrite (aft_cartrow_ocart gb n) in Hc by (apply lens_with_cart; auto; rewrite set_row_length, (l_c n s Hs); lia).
      cbn in Hc. assert (c' = c) as <- by congruence. exact R.
    - rewrite (set_r_eq gb n) in E by auto. destruct (ocro s); [discriminate|].
      destruct (bcast2 3 n v) as [vs|] eqn:Eb; [|discriminate]. injection E as <-.
      assert (L : length vs = n) by (eapply bcast2_length; eauto using wfv_wf).
      destruct (wrote_cart_rules gb n m j (map2 set_top (ocart s) vs) s) as [c' [Hc' R]]; auto.
      { rewrite map2_length, (l_c n s Hs). lia. }
      rewrite (aft_cart_ocart gb n) in Hc by (apply lens_with_cart; auto; rewrite map2_length, (l_c n s Hs); lia).
      cbn in Hc. assert (c' = c) as <- by congruence. exact R.
    - rewrite (set_v_eq gb n) in E by auto. destruct (ocro s); [discriminate|].
      destruct (bcast2 3 n v) as [vs|] eqn:Eb; [|discriminate]. injection E as <-.
      assert (L : length vs = n) by (eapply bcast2_length; eauto using wfv_wf).
      destruct (wrote_cart_rules gb n m j (map2 set_bot (ocart s) vs) s) as [c' [Hc' R]]; auto.
      { rewrite map2_length, (l_c n s Hs). lia. }
      rewrite (aft_cart_ocart gb n) in Hc by (apply lens_with_cart; auto; rewrite map2_length, (l_c n s Hs); lia).
      cbn in Hc. assert (c' = c) as <- by congruence. exact R.
    - rewrite (set_cartesian_eq gb n) in E by auto. destruct (ocro s); [discriminate|].
      destruct (whole_value n v) as [cs|] eqn:Ew; [|discriminate]. injection E as <-.
      assert (L : length cs = n) by (eapply whole_value_length; eauto).
      destruct (wrote_cart_rules gb n m j cs s) as [c' [Hc' R]]; auto.
      rewrite (aft_cart_ocart gb n) in Hc by now apply lens_with_cart.
      cbn in Hc. assert (c' = c) as <- by congruence. exact R. }
  apply (cart_rules_run n s m j c h) in G; auto. eapply cart_rules_read; eauto. eapply cart_rules_lazy; eauto.
Qed.
Theorem C45_kep_elements_partial gb n o (s s1 : orb) h j k m : nan_arith (F := F) -> lens n s -> lazy_mode s -> wf_op o ->
  writes_kep o = true -> run_op gb o s = (s1, Ok tt) -> reads_only h ->
  nth_error (okf s) j = Some true -> nth_error (om s) j = Some m -> nth_error (okep s1) j = Some k ->
  read_from_kep s m j k (run h s1).
Proof.
  intros NA Hs Lz Hv Ho E Hh Hf Hm Hc.
  assert (G : kep_rules n s m j k s1).
  { destruct o; try discriminate Ho; cbn [run_op wf_op] in *.
    - rewrite (set_kep_row_eq gb n) in E by auto. destruct (okro s); [discriminate|].
      destruct (bcast1 n v) as [vs|] eqn:Eb; [|discriminate]. injection E as <-.
      assert (L : length vs = n) by (eapply bcast1_length; eauto using wfv_wf).
      destruct (wrote_keprow_rules gb n m j (set_row k0 (okep s) vs) s) as [c' [Hc' R]]; auto.
      { rewrite set_row_length, (l_k n s Hs). lia. }
      rewrite (aft_keprow_okep gb n) in Hc by (apply lens_with_kep; auto; rewrite set_row_length, (l_k n s Hs); lia).
      cbn in Hc. assert (c' = k) as <- by congruence. exact R.
    - rewrite (set_kepler_eq gb n) in E by auto. destruct (okro s); [discriminate|].
      destruct (whole_value n v) as [cs|] eqn:Ew; [|discriminate]. injection E as <-.
      assert (L : length cs = n) by (eapply whole_value_length; eauto).
      destruct (wrote_kep_rules gb n m j cs s) as [c' [Hc' R]]; auto.
      rewrite (aft_kep_okep gb n) in Hc by now apply lens_with_kep.
      cbn in Hc. assert (c' = k) as <- by congruence. exact R. }
  apply (kep_rules_run n s m j k h) in G; auto. eapply kep_rules_read; eauto. eapply kep_rules_lazy; eauto.
Qed.
End Lost.

Section Examples.
#[local] Existing Instance NP_toyn.
Definition kw0 : kws Z := mkkws None None None no6 no6.
Definition h45 : history Z := [(gd, OGetKep); (gd, OGetCart); (gd, OGetMean); (gd, OGetKep); (gd, OCalcEcc (IInt 0))].
Example C45_whole_example : exists s s1, init gd 1%Z (cfgl "eccentric" 2) (kwd matd) = Ok s /\ lens 2 s /\ lazy_mode s
  /\ set_cartesian gd (fresh [6; 1] [1; 2; 3; 4; 5; 6]%Z) s = (s1, Ok tt) /\ reads_only h45
  /\ snd (get_cartesian gd (run h45 s1)) = Ok [mk6 1 2 3 4 5 6; mk6 1 2 3 4 5 6]%Z.
Proof.
  eexists _, _. split; [vm_compute; reflexivity|]. split; [apply toy_lens; vm_compute; reflexivity|]. split; [now split|].
  split; [vm_compute; reflexivity|]. split; [repeat constructor|vm_compute; reflexivity].
Qed.
Example C45_elements_example : exists s s0 s1, init gd 1%Z (cfgl "eccentric" 2) (kwd matd) = Ok s0 /\ s = run [(gd, OGetCart)] s0
  /\ lens 2 s /\ lazy_mode s /\ run_op gd (OSetV (Sc 2%Z)) s = (s1, Ok tt)
  /\ nth_error (ocf s) 1 = Some true /\ nth_error (okf s) 1 = Some true /\ length (ocart s1) = 2.
Proof.
  eexists _, _, _. split; [vm_compute; reflexivity|]. split; [vm_compute; reflexivity|].
  split; [apply toy_lens; vm_compute; reflexivity|]. split; [now split|].
  split; [vm_compute; reflexivity|]. repeat split; vm_compute; reflexivity.
Qed.
(** orb.a = 1 and then orb.r = ...: the velocity that is read is not the one of the orbit with a = 1 *)
Theorem C45_stale_r_refuted : exists s0 s1 s2 vs vs',
  init gd 1000%Z (cfgl "true" 2) (kwd matd) = Ok s0
  /\ s1 = run [(gd, OGetCart); (gd, OSetKepRow 0 (Sc 1%Z))] s0
  /\ s2 = run [(gd, OSetR (Sc 3%Z))] s1
  /\ snd (get_v gd s1) = Ok vs /\ snd (get_v gd s2) = Ok vs' /\ vs <> vs'.
Proof.
  eexists _, _, _, _, _. split; [vm_compute; reflexivity|]. split; [vm_compute; reflexivity|]. split; [vm_compute; reflexivity|].
  split; [vm_compute; reflexivity|]. split; [vm_compute; reflexivity|]. vm_compute. congruence.
Qed.
(** a new object whose Kepler elements are assigned one by one: reading cartesian and then kepler does
    not give them back *)
Definition by_one : history Z :=
  [(gd, OSetKepRow 0 (Sc 9%Z)); (gd, OSetKepRow 1 (Sc 0%Z)); (gd, OSetKepRow 2 (Sc 2%Z)); (gd, OSetKepRow 3 (Sc 3%Z));
   (gd, OSetKepRow 4 (Sc 4%Z)); (gd, OSetKepRow 5 (Sc 5%Z))].
Theorem C45_one_by_one_refuted : exists s s1 cs s2 ks, init gd 1%Z (cfgl "true" 1) kw0 = Ok s
  /\ okep (run by_one s) = [mk6 9 0 2 3 4 5]%Z
  /\ get_cartesian gd (run by_one s) = (s1, Ok cs) /\ get_kepler gd s1 = (s2, Ok ks) /\ ks <> [mk6 9 0 2 3 4 5]%Z.
Proof.
  eexists _, _, _, _, _. split; [vm_compute; reflexivity|]. split; [vm_compute; reflexivity|].
  split; [vm_compute; reflexivity|]. split; [vm_compute; reflexivity|]. vm_compute. discriminate.
Qed.
End Examples.
