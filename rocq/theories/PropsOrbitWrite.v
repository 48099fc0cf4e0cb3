(** * C44, C45: what is written is what is read, and no update is lost. *)
From Coq Require Import String List Bool Arith Lia ZArith QArith.
From Verif Require Import NP KeplerModel ConvModel UnitModel OrbitModel Lists ConvCols ArraySpec
  PropsAnomaly OrbitLists OrbitBase OrbitOps OrbitSetters OrbitInv OrbitSpec NPToyN PropsOrbitWidth OrbitGet
  PropsOrbitDirect PropsOrbitLazy.
Import ListNotations.
Local Open Scope nat_scope.

Section Write.
Context {F : Type} `{NP F}.
Notation orb := (orb F).

(** ** What an assigned value means for orbit [j] (numpy broadcasting) *)
(** of a row: a number, an array with one entry, or one entry per orbit *)
Definition entry1 (v : arg F) (j : nat) (x : F) : Prop :=
  match v with
  | Sc y => x = y
  | Arr _ _ d => nth_error d (if Nat.eqb (length d) 1 then 0 else j) = Some x
  end.
(** of row [i] of an (r,N) block: a number, one entry, one entry per orbit, (r,1) or (r,N) *)
Definition entry2 (v : arg F) (i j : nat) (x : F) : Prop :=
  match v with
  | Sc y => x = y
  | Arr s _ d =>
      match strip_ones s with
      | [] => nth_error d 0 = Some x
      | [_] => nth_error d j = Some x
      | [_; l] => nth_error d (if Nat.eqb l 1 then i else i * l + j) = Some x
      | _ => False
      end
  end.
(** of a whole state: like an (6,N) block, a (6,) vector is one column for every orbit *)
Definition entry6 (v : arg F) (i j : nat) (x : F) : Prop :=
  match v with
  | Arr [k] m d => entry2 (Arr [k; 1] m d) i j x
  | _ => entry2 v i j x
  end.

Lemma nth_nth_error {A} (d : list A) i z : i < length d -> nth_error d i = Some (nth i d z).
Proof. intros Hi. now apply nth_error_nth'. Qed.
Lemma strip_size s : size (strip_ones s) = size s. Proof. apply strip_ones_size. Qed.
Lemma bcast1_entry n (v : arg F) vs j x : wfv v -> bcast1 n v = Ok vs -> nth_error vs j = Some x -> entry1 v j x.
Proof.
  destruct v as [y|s m d]; intros W E Hj.
  - cbn in E. injection E as <-. apply nth_error_In, repeat_spec in Hj. exact Hj.
  - apply wfv_wf in W. cbn in W. cbn [bcast1] in E. unfold entry1. rewrite <- strip_size in W.
    destruct (strip_ones s) as [|k [|]] eqn:Es; cbn [size fold_right] in W.
    + injection E as <-. apply nth_error_In, repeat_spec in Hj. subst x.
      replace (Nat.eqb (length d) 1) with true by now rewrite W. apply nth_nth_error. rewrite W. cbn. lia.
    + destruct (Nat.eqb k n) eqn:Ek; [|discriminate]. injection E as <-.
      destruct (Nat.eqb (length d) 1) eqn:E1; auto.
      apply Nat.eqb_eq in E1. apply nth_error_lt in Hj as Hl. replace j with 0 in Hj by lia. exact Hj.
    + discriminate.
Qed.
Lemma bcast2_entry r n (v : arg F) vs i j f : wfv v -> i < r -> bcast2 r n v = Ok vs -> nth_error vs j = Some f -> entry2 v i j (f i).
Proof.
  destruct v as [y|s m d]; intros W Hi E Hj.
  - cbn in E. injection E as <-. apply nth_error_In, repeat_spec in Hj. now subst f.
  - apply wfv_wf in W. cbn in W. cbn [bcast2] in E. unfold entry2. rewrite <- strip_size in W.
    destruct (strip_ones s) as [|k [|l [|]]] eqn:Es; cbn [size fold_right] in W.
    + injection E as <-. apply nth_error_In, repeat_spec in Hj. subst f. apply nth_nth_error. rewrite W. cbn. lia.
    + destruct (Nat.eqb k n) eqn:Ek; [|discriminate]. injection E as <-. rewrite nth_error_map in Hj.
      destruct (nth_error d j); [|discriminate]. cbn in Hj. injection Hj as <-. auto.
    + destruct (Nat.eqb_spec k r) as [->|]; cbn [negb] in E; [|discriminate].
      destruct (Nat.eqb_spec l n) as [->|].
      * injection E as <-. rewrite nth_error_map in Hj. destruct (nth_error (seq 0 n) j) as [j'|] eqn:Ej; [|discriminate].
        cbn in Hj. injection Hj as <-. apply nth_error_lt in Ej as Hl. rewrite seq_length in Hl.
        apply (nth_error_nth (seq 0 n) j 0) in Ej. rewrite seq_nth in Ej by auto. cbn in Ej. subst j'.
        assert (i * n + j < length d) by (rewrite W; nia).
        destruct (Nat.eqb_spec n 1) as [->|]; [|now apply nth_nth_error].
        replace (i * 1 + j) with i in * by lia. now apply nth_nth_error.
      * destruct (Nat.eqb_spec l 1) as [->|]; [|discriminate]. injection E as <-.
        apply nth_error_In, repeat_spec in Hj. subst f. cbn [Nat.eqb]. apply nth_nth_error. rewrite W. lia.
    + discriminate.
Qed.
Lemma row_six_of (f : nat -> F) i : i < 6 -> row_get i (six_of f) = f i.
Proof. intros. do 6 (destruct i as [|i]; [reflexivity|]). lia. Qed.
Lemma whole_entry n (v : arg F) cs i j c : wfv v -> i < 6 -> whole_value n v = Ok cs -> nth_error cs j = Some c ->
  entry6 v i j (row_get i c).
Proof.
  intros W Hi E Hj. unfold whole_value in E.
  assert (G : forall w, wfv w -> (rlet cs := bcast2 6 n w in Ok (map six_of cs)) = Ok cs -> entry2 w i j (row_get i c)).
  { intros w Hw Ew. destruct (bcast2 6 n w) as [l|] eqn:Eb; [|discriminate]. cbn [rbind] in Ew. injection Ew as <-.
    rewrite nth_error_map in Hj. destruct (nth_error l j) as [f|] eqn:Ef; [|discriminate]. cbn in Hj. injection Hj as <-.
    rewrite row_six_of by auto. eapply bcast2_entry; eauto. }
  destruct v as [x|[|k [|]] m d]; [now apply G|discriminate| |now apply G].
  apply G; auto.
Qed.

(** ** Reads that trigger no conversion *)
(** every orbit's Cartesian (Kepler) side is fresh or cannot be recalculated *)
Definition cart_fresh (s : orb) : Prop :=
  forall j k, nth_error (okep s) j = Some k -> nth_error (ocf s) j = Some true \/ has_nan k.
Definition kep_fresh (s : orb) : Prop :=
  forall j c, nth_error (ocart s) j = Some c -> nth_error (okf s) j = Some true \/ has_nan c.
Definition lazy_mode (s : orb) : Prop := oauto s = true /\ odirect s = false.
Lemma lazy_mode_iff (s : orb) : lazy_mode s <-> lazy s = true.
Proof. unfold lazy_mode, lazy. rewrite andb_true_iff, negb_true_iff. tauto. Qed.
Lemma lazy_dec (s : orb) : lazy s = false \/ lazy_mode s.
Proof. rewrite lazy_mode_iff. destruct (lazy s); auto. Qed.
Lemma cchk_keeps gb n (s : orb) : lens n s -> (lazy_mode s -> cart_fresh s) -> ocart (cchk gb s) = ocart s.
Proof.
  intros Hs Hf. destruct (cchk_spec gb n s Hs) as [_ E]. apply nth_error_ext. intros j.
  destruct (nth_error (ocart (cchk gb s)) j) as [c'|] eqn:Ej.
  - assert (Hl : lens n (cchk gb s)) by now apply lens_cchk.
    assert (Hj : j < n) by (apply nth_error_lt in Ej; destruct Hl; lia).
    destruct (col_ex n _ j Hl Hj) as [c2 [k2 [m2 [cb2 [kb2 C2]]]]].
    destruct (colstep_col _ _ _ _ _ _ _ _ _ _ Hs E C2) as [c1 [k1 [cb1 [kb1 [C1 R]]]]].
    assert (c2 = c') by (destruct C2; congruence). subst c2. destruct C1 as [A1 A2 A3 A4 A5]. rewrite A1. f_equal.
    destruct R as [_ [[_ [-> _]]|[Hsel [Nk _]]]]; [reflexivity|]. exfalso.
    destruct (lazy s) eqn:L; [|discriminate]. cbn in Hsel. apply negb_true_iff in Hsel. subst cb1.
    assert (LM : lazy_mode s) by now apply lazy_mode_iff.
    destruct (Hf LM j k1 A2) as [Q|Q]; [congruence|]. apply has_nan_iff in Q. congruence.
  - symmetry. apply nth_error_None in Ej. apply nth_error_None.
    assert (Hl : lens n (cchk gb s)) by now apply lens_cchk. destruct Hl, Hs. lia.
Qed.
Lemma kchk_keeps gb n (s : orb) : lens n s -> (lazy_mode s -> kep_fresh s) -> okep (kchk gb s) = okep s.
Proof.
  intros Hs Hf. destruct (kchk_spec gb n s Hs) as [_ [_ E]]. apply nth_error_ext. intros j.
  destruct (nth_error (okep (kchk gb s)) j) as [k'|] eqn:Ej.
  - assert (Hl : lens n (kchk gb s)) by now apply lens_kchk.
    assert (Hj : j < n) by (apply nth_error_lt in Ej; destruct Hl; lia).
    destruct (col_ex n _ j Hl Hj) as [c2 [k2 [m2 [cb2 [kb2 C2]]]]].
    destruct (colstep_col _ _ _ _ _ _ _ _ _ _ Hs E C2) as [c1 [k1 [cb1 [kb1 [C1 R]]]]].
    assert (k2 = k') by (destruct C2; congruence). subst k2. destruct C1 as [A1 A2 A3 A4 A5]. rewrite A2. f_equal.
    destruct R as [-> [-> [R _]]]. destruct R as [-> _]; [|reflexivity].
    destruct (lazy s) eqn:L; [|reflexivity]. assert (LM : lazy_mode s) by now apply lazy_mode_iff.
    destruct (Hf LM j c1 A1) as [Q|Q]; [replace kb1 with true by congruence; reflexivity|].
    apply has_nan_iff in Q. rewrite Q. apply andb_false_r.
  - symmetry. apply nth_error_None in Ej. apply nth_error_None.
    assert (Hl : lens n (kchk gb s)) by now apply lens_kchk. destruct Hl, Hs. lia.
Qed.
Lemma get_cart_row_eq gb n k (s : orb) : lens n s -> get_cart_row gb k s = (cchk gb s, Ok (map (row_get k) (ocart (cchk gb s)))).
Proof. intros Hs. unfold get_cart_row. destruct (cchk_spec gb n s Hs) as [E _]. now rewrite (bind_ok _ _ _ _ _ E). Qed.

(** after a write in direct mode the written side is as written *)
Lemma kall_ocart gb n (s : orb) : lens n s -> ocart (kall gb s) = ocart s.
Proof.
  intros Hs. destruct (kall_spec gb n s Hs) as [_ [_ E]]. pose proof (lens_kall gb n s Hs) as Hl.
  apply nth_error_ext. intros j. destruct (lt_dec j n) as [Hj|Hj].
  - destruct (col_ex n _ j Hl Hj) as [c2 [k2 [m2 [cb2 [kb2 C2]]]]].
    destruct (colstep_col _ _ _ _ _ _ _ _ _ _ Hs E C2) as [c1 [k1 [cb1 [kb1 [C1 [-> _]]]]]].
    destruct C1, C2. congruence.
  - transitivity (@None (six F)); [|symmetry]; apply nth_error_None; destruct Hl, Hs; lia.
Qed.
Lemma call_okep gb n (s : orb) : lens n s -> lazy s = false -> okep (call_ gb s) = okep s.
Proof.
  intros Hs L. destruct (call_spec gb n s Hs) as [_ E]. pose proof (lens_call gb n s Hs) as Hl.
  apply nth_error_ext. intros j. destruct (lt_dec j n) as [Hj|Hj].
  - destruct (col_ex n _ j Hl Hj) as [c2 [k2 [m2 [cb2 [kb2 C2]]]]].
    destruct (colstep_col _ _ _ _ _ _ _ _ _ _ Hs E C2) as [c1 [k1 [cb1 [kb1 [C1 [R _]]]]]].
    destruct R as [[-> _]|[L' _]]; [|congruence]. destruct C1, C2. congruence.
  - transitivity (@None (six F)); [|symmetry]; apply nth_error_None; destruct Hl, Hs; lia.
Qed.
Lemma direct_not_lazy (s : orb) : odirect s = true -> lazy s = false.
Proof. intros E. unfold lazy. rewrite E. apply andb_false_r. Qed.
Lemma aft_cartrow_ocart gb n (s : orb) : lens n s -> ocart (aft_cartrow gb s) = ocart s.
Proof. intros Hs. unfold aft_cartrow. destruct (odirect s); [now apply (kall_ocart gb n)|reflexivity]. Qed.
Lemma aft_cart_ocart gb n (s : orb) : lens n s -> ocart (aft_cart gb s) = ocart s.
Proof. intros Hs. unfold aft_cart. destruct (odirect s); [now apply (kall_ocart gb n)|reflexivity]. Qed.
Lemma aft_keprow_okep gb n (s : orb) : lens n s -> okep (aft_keprow gb s) = okep s.
Proof. intros Hs. unfold aft_keprow. destruct (odirect s) eqn:E; [apply (call_okep gb n); auto using direct_not_lazy|reflexivity]. Qed.
Lemma aft_kep_okep gb n (s : orb) : lens n s -> okep (aft_kep gb s) = okep s.
Proof. intros Hs. unfold aft_kep. destruct (odirect s) eqn:E; [apply (call_okep gb n); auto using direct_not_lazy|reflexivity]. Qed.

(** ** C44 *)
(** [vs] are the [n] values that [v] assigns to row entries *)
Definition row_values (v : arg F) (n : nat) (vs : list F) : Prop :=
  length vs = n /\ forall j x, nth_error vs j = Some x -> entry1 v j x.
(** ... and the [n] columns that [v] assigns to the rows below [r] *)
Definition block_values (r : nat) (v : arg F) (n : nat) (cs : list (nat -> F)) : Prop :=
  length cs = n /\ forall i j f, i < r -> nth_error cs j = Some f -> entry2 v i j (f i).
Definition state_values (v : arg F) (n : nat) (cs : list (six F)) : Prop :=
  length cs = n /\ forall i j c, i < 6 -> nth_error cs j = Some c -> entry6 v i j (row_get i c).
Lemma row_get_set k (c : six F) x : row_get k (row_set k c x) = x.
Proof. destruct c. do 6 (destruct k as [|k]; [reflexivity|]). reflexivity. Qed.
Lemma set_row_get k (cs : list (six F)) vs : length vs = length cs -> map (row_get k) (set_row k cs vs) = vs.
Proof.
  unfold set_row. revert vs. induction cs as [|c cs IH]; destruct vs as [|v vs]; cbn; try discriminate; auto.
  intros E. rewrite row_get_set, IH by lia. reflexivity.
Qed.
Lemma settings_lazy_mode (s s' : orb) : settings s = settings s' -> lazy_mode s' -> lazy_mode s.
Proof. intros E. rewrite !lazy_mode_iff. now rewrite (lazy_settings s s' E). Qed.
Lemma aft_cartrow_settings gb n (s : orb) : lens n s -> settings (aft_cartrow gb s) = settings s.
Proof.
  intros Hs. unfold aft_cartrow. destruct (odirect s); [|reflexivity].
  destruct (kall_spec gb n s Hs) as [_ [_ E]]. now apply settings_step in E.
Qed.
Lemma aft_keprow_settings gb n (s : orb) : lens n s -> settings (aft_keprow gb s) = settings s.
Proof.
  intros Hs. unfold aft_keprow. destruct (odirect s); [|reflexivity].
  destruct (call_spec gb n s Hs) as [_ E]. now apply settings_step in E.
Qed.
Lemma aft_kep_settings gb n (s : orb) : lens n s -> settings (aft_kep gb s) = settings s.
Proof.
  intros Hs. unfold aft_kep. destruct (odirect s); [|reflexivity].
  destruct (call_spec gb n s Hs) as [_ E]. now apply settings_step in E.
Qed.
Lemma lazy_mode_direct (s : orb) : lazy_mode s -> odirect s = false. Proof. now intros []. Qed.
Lemma nth_all_true_ex (l : list bool) j : j < length l -> nth_error (all_true l) j = Some true.
Proof.
  intros Hj. unfold all_true. rewrite nth_error_map. destruct (nth_error_some l j Hj) as [b ->]. reflexivity.
Qed.

(** whole-state setters, in every update mode *)
Lemma after_cart_fresh gb n (s : orb) : lens n s -> lazy_mode (aft_cart gb s) -> cart_fresh (aft_cart gb s).
Proof.
  intros Hs L j k Hj. left. apply (settings_lazy_mode s) in L; [|symmetry; now apply (aft_cart_settings gb n)].
  assert (Hj' : j < n). { apply nth_error_lt in Hj. pose proof (lens_aft_cart gb n s Hs) as []. lia. }
  unfold aft_cart. rewrite (lazy_mode_direct s L). apply nth_all_true_ex. cbn. destruct Hs. lia.
Qed.
Lemma after_kep_fresh gb n (s : orb) : lens n s -> lazy_mode (aft_kep gb s) -> kep_fresh (aft_kep gb s).
Proof.
  intros Hs L j k Hj. left. apply (settings_lazy_mode s) in L; [|symmetry; now apply (aft_kep_settings gb n)].
  assert (Hj' : j < n). { apply nth_error_lt in Hj. pose proof (lens_aft_kep gb n s Hs) as []. lia. }
  unfold aft_kep. rewrite (lazy_mode_direct s L). apply nth_all_true_ex. cbn. destruct Hs. lia.
Qed.
Theorem C44_cartesian gb gb' n v (s s' : orb) : lens n s -> wfv v -> set_cartesian gb v s = (s', Ok tt) ->
  exists cs, snd (get_cartesian gb' s') = Ok cs /\ state_values v n cs.
Proof.
  intros Hs Hv E. rewrite (set_cartesian_eq gb n) in E by auto. destruct (ocro s); [discriminate|].
  destruct (whole_value n v) as [cs|] eqn:Ew; [|discriminate]. injection E as <-. exists cs.
  assert (L : length cs = n) by (eapply whole_value_length; eauto).
  assert (H1 : lens n (with_cart (fun _ => cs) s)) by now apply lens_with_cart.
  rewrite (get_cartesian_eq gb' n) by now apply lens_aft_cart.
  rewrite (cchk_keeps gb' n) by (auto using lens_aft_cart; apply (after_cart_fresh gb n); auto).
  rewrite (aft_cart_ocart gb n) by auto. split; [reflexivity|]. split; [auto|]. intros i j c Hi Hj. eapply whole_entry; eauto.
Qed.
Theorem C44_kepler gb gb' n v (s s' : orb) : lens n s -> wfv v -> set_kepler gb v s = (s', Ok tt) ->
  exists cs, snd (get_kepler gb' s') = Ok cs /\ state_values v n cs.
Proof.
  intros Hs Hv E. rewrite (set_kepler_eq gb n) in E by auto. destruct (okro s); [discriminate|].
  destruct (whole_value n v) as [cs|] eqn:Ew; [|discriminate]. injection E as <-. exists cs.
  assert (L : length cs = n) by (eapply whole_value_length; eauto).
  assert (H1 : lens n (with_kep (fun _ => cs) s)) by now apply lens_with_kep.
  rewrite (get_kepler_eq gb' n) by now apply lens_aft_kep.
  rewrite (kchk_keeps gb' n) by (auto using lens_aft_kep; apply (after_kep_fresh gb n); auto).
  rewrite (aft_kep_okep gb n) by auto. split; [reflexivity|]. split; [auto|]. intros i j c Hi Hj. eapply whole_entry; eauto.
Qed.
(** [u] holds the three values of column [f] *)
Definition is3 (f : nat -> F) (u : v3 F) : Prop := c0 u = f 0 /\ c1 u = f 1 /\ c2 u = f 2.
Lemma is3_map2 (g : six F -> v3 F) (h : six F -> (nat -> F) -> six F) (cs : list (six F)) fs :
  length fs = length cs -> (forall c f, is3 f (g (h c f))) -> Forall2 is3 fs (map g (map2 h cs fs)).
Proof.
  intros L G. revert fs L. induction cs as [|c cs IH]; destruct fs as [|f fs]; cbn; try discriminate; constructor; auto.
Qed.
Theorem C44_r gb gb' n v (s s' : orb) : lens n s -> wfv v -> set_r gb v s = (s', Ok tt) ->
  exists rs fs, snd (get_r gb' s') = Ok rs /\ Forall2 is3 fs rs /\ block_values 3 v n fs.
Proof.
  intros Hs Hv E. rewrite (set_r_eq gb n) in E by auto. destruct (ocro s); [discriminate|].
  destruct (bcast2 3 n v) as [fs|] eqn:Eb; [|discriminate]. injection E as <-.
  assert (L : length fs = n) by (eapply bcast2_length; eauto using wfv_wf).
  set (s1 := with_cart (fun c => map2 set_top c fs) s).
  assert (H1 : lens n s1) by (apply lens_with_cart; auto; rewrite map2_length, (l_c n s Hs); lia).
  assert (H2 : lens n (aft_cart gb s1)) by now apply lens_aft_cart.
  exists (map pos_of (map2 set_top (ocart s) fs)), fs.
  unfold get_r. destruct (cchk_spec gb' n _ H2) as [E _]. rewrite (bind_ok _ _ _ _ _ E).
  unfold bind, get, ret. cbn [snd]. rewrite (cchk_keeps gb' n) by (auto; apply (after_cart_fresh gb n); auto).
  rewrite (aft_cart_ocart gb n) by auto. split; [reflexivity|]. split.
  - apply is3_map2; [destruct Hs; lia|]. intros c f. repeat split.
  - split; [auto|]. intros i j f Hi Hj. eapply bcast2_entry; eauto.
Qed.
Theorem C44_v gb gb' n v (s s' : orb) : lens n s -> wfv v -> set_v gb v s = (s', Ok tt) ->
  exists rs fs, snd (get_v gb' s') = Ok rs /\ Forall2 is3 fs rs /\ block_values 3 v n fs.
Proof.
  intros Hs Hv E. rewrite (set_v_eq gb n) in E by auto. destruct (ocro s); [discriminate|].
  destruct (bcast2 3 n v) as [fs|] eqn:Eb; [|discriminate]. injection E as <-.
  assert (L : length fs = n) by (eapply bcast2_length; eauto using wfv_wf).
  set (s1 := with_cart (fun c => map2 set_bot c fs) s).
  assert (H1 : lens n s1) by (apply lens_with_cart; auto; rewrite map2_length, (l_c n s Hs); lia).
  assert (H2 : lens n (aft_cart gb s1)) by now apply lens_aft_cart.
  exists (map vel_of (map2 set_bot (ocart s) fs)), fs.
  unfold get_v. destruct (cchk_spec gb' n _ H2) as [E _]. rewrite (bind_ok _ _ _ _ _ E).
  unfold bind, get, ret. cbn [snd]. rewrite (cchk_keeps gb' n) by (auto; apply (after_cart_fresh gb n); auto).
  rewrite (aft_cart_ocart gb n) by auto. split; [reflexivity|]. split.
  - apply is3_map2; [destruct Hs; lia|]. intros c f. repeat split.
  - split; [auto|]. intros i j f Hi Hj. eapply bcast2_entry; eauto.
Qed.

(** Single elements: full claim in every state.  Missing: lazy mode with the assigned side stale (refuted
    below, [C44_stale_cart_lost], [C44_stale_kep_lost]). *)
Theorem C44_cart_row_partial gb gb' n i v (s s' : orb) : lens n s -> wfv v -> (lazy_mode s -> cart_fresh s) ->
  set_cart_row gb i v s = (s', Ok tt) ->
  exists vs, snd (get_cart_row gb' i s') = Ok vs /\ row_values v n vs.
Proof.
  intros Hs Hv Hf E. rewrite (set_cart_row_eq gb n) in E by auto. destruct (ocro s); [discriminate|].
  destruct (bcast1 n v) as [vs|] eqn:Eb; [|discriminate]. injection E as <-. exists vs.
  assert (L : length vs = n) by (eapply bcast1_length; eauto using wfv_wf).
  set (s1 := with_cart (fun c => set_row i c vs) s).
  assert (H1 : lens n s1) by (apply lens_with_cart; auto; rewrite set_row_length, (l_c n s Hs); lia).
  assert (H2 : lens n (aft_cartrow gb s1)) by now apply lens_aft_cartrow.
  rewrite (get_cart_row_eq gb' n) by auto. rewrite (cchk_keeps gb' n).
  - rewrite (aft_cartrow_ocart gb n) by auto. cbn [snd ocart s1 with_cart].
    rewrite set_row_get by (destruct Hs; lia). split; [reflexivity|]. split; [auto|].
    intros j x Hj. eapply bcast1_entry; eauto.
  - auto.
  - intros Lz j k Hj. assert (Lz0 : lazy_mode s).
    { apply (settings_lazy_mode s) in Lz; auto. symmetry. transitivity (settings s1); [now apply (aft_cartrow_settings gb n)|reflexivity]. }
    unfold aft_cartrow in *. change (odirect s1) with (odirect s) in *. rewrite (lazy_mode_direct s Lz0) in *.
    exact (Hf Lz0 j k Hj).
Qed.
Theorem C44_kep_row_partial gb gb' n i v (s s' : orb) : lens n s -> wfv v -> (lazy_mode s -> kep_fresh s) ->
  set_kep_row gb i v s = (s', Ok tt) ->
  exists vs, snd (get_kep_row gb' i s') = Ok vs /\ row_values v n vs.
Proof.
  intros Hs Hv Hf E. rewrite (set_kep_row_eq gb n) in E by auto. destruct (okro s); [discriminate|].
  destruct (bcast1 n v) as [vs|] eqn:Eb; [|discriminate]. injection E as <-. exists vs.
  assert (L : length vs = n) by (eapply bcast1_length; eauto using wfv_wf).
  set (s1 := with_kep (fun c => set_row i c vs) s).
  assert (H1 : lens n s1) by (apply lens_with_kep; auto; rewrite set_row_length, (l_k n s Hs); lia).
  assert (H2 : lens n (aft_keprow gb s1)) by now apply lens_aft_keprow.
  rewrite (get_kep_row_spec gb' n) by auto. cbn [snd]. rewrite (kchk_keeps gb' n).
  - rewrite (aft_keprow_okep gb n) by auto. cbn [snd okep s1 with_kep].
    rewrite set_row_get by (destruct Hs; lia). split; [reflexivity|]. split; [auto|].
    intros j x Hj. eapply bcast1_entry; eauto.
  - auto.
  - intros Lz j k Hj. assert (Lz0 : lazy_mode s).
    { apply (settings_lazy_mode s) in Lz; auto. symmetry. transitivity (settings s1); [now apply (aft_keprow_settings gb n)|reflexivity]. }
    unfold aft_keprow in *. change (odirect s1) with (odirect s) in *. rewrite (lazy_mode_direct s Lz0) in *.
    exact (Hf Lz0 j k Hj).
Qed.
(** the anomaly of the configured type *)
Lemma own_values w (s : orb) l vs : otype s = w -> vals_of w s l vs -> vs = map (row_get 5) l.
Proof.
  intros E [L V]. apply nth_error_ext. intros j. rewrite nth_error_map. destruct (nth_error l j) as [k|] eqn:Ek.
  - destruct (V j k Ek) as [g ->]. cbn. f_equal. unfold anom1, nu1, ec1, ma1. destruct w; now rewrite E.
  - apply nth_error_None. apply nth_error_None in Ek. lia.
Qed.
Theorem C44_anomaly_partial gb gb' n v (s s' : orb) : aligned n s -> wfv v -> (lazy_mode s -> kep_fresh s) ->
  set_of gb (otype s) v s = (s', Ok tt) ->
  exists vs, snd (get_of gb' (otype s) s') = Ok vs /\ row_values v n vs.
Proof.
  intros [Hs HE] Hv Hf E. rewrite (set_of_eq gb n) in E by auto. destruct (okro s); [discriminate|].
  assert (Ea : anom_arg gb (otype s) s v = Ok v) by (unfold anom_arg; now destruct (otype s)). rewrite Ea in E.
  assert (Eb : base gb (otype s) s = s) by (unfold base; now destruct (otype s)). rewrite Eb in E.
  destruct (bcast1 n v) as [vs|] eqn:Ebc; [|discriminate]. injection E as <-. exists vs.
  assert (L : length vs = n) by (eapply bcast1_length; eauto using wfv_wf).
  set (s1 := with_kep (fun c => set_row 5 c vs) s).
  assert (H1 : aligned n s1) by (split; [apply lens_with_kep; auto; rewrite set_row_length, (l_k n s Hs); lia|exact HE]).
  assert (H2 : aligned n (aft_keprow gb (aft_keprow gb s1))) by now apply aligned_aft_keprow, aligned_aft_keprow.
  assert (Es : settings (aft_keprow gb (aft_keprow gb s1)) = settings s).
  { rewrite (aft_keprow_settings gb n) by now apply lens_aft_keprow, H1.
    rewrite (aft_keprow_settings gb n) by apply H1. reflexivity. }
  assert (Et : otype (aft_keprow gb (aft_keprow gb s1)) = otype s).
  { apply settings_eq in Es. tauto. }
  destruct (get_of_spec gb' n (otype s) _ H2) as [s2 [ws [E1 [_ [_ V]]]]]. rewrite E1. cbn [snd].
  apply own_values in V; auto. rewrite (kchk_keeps gb' n) in V; [|apply H2|].
  - rewrite (aft_keprow_okep gb n), (aft_keprow_okep gb n) in V by (try apply H1; now apply lens_aft_keprow, H1).
    cbn [okep s1 with_kep] in V. rewrite set_row_get in V by (destruct Hs; lia). subst ws.
    split; [reflexivity|]. split; [auto|]. intros j x Hj. eapply bcast1_entry; eauto.
  - intros Lz j k Hj. assert (Lz0 : lazy_mode s) by (eapply settings_lazy_mode; [symmetry|]; eauto).
    assert (Ed : aft_keprow gb (aft_keprow gb s1) = with_cf all_false (with_cf all_false s1)).
    { pose proof (lazy_mode_direct s Lz0) as Q. unfold aft_keprow. change (odirect s1) with (odirect s). rewrite Q.
      change (odirect (with_cf all_false s1)) with (odirect s). now rewrite Q. }
    rewrite Ed in *. exact (Hf Lz0 j k Hj).
Qed.

(** The missing case: lazy mode, the assigned side stale and the other side convertible.  What is read
    does not depend on what was assigned. *)
Theorem C44_stale_cart_lost gb gb' n i j k m (s : orb) : lens n s -> lazy_mode s -> otype s = ATrue ->
  nth_error (ocf s) j = Some false -> nth_error (okep s) j = Some k -> nth_error (om s) j = Some m -> ~ has_nan k ->
  exists x, forall v s', wfv v -> set_cart_row gb i v s = (s', Ok tt) ->
    exists vs, snd (get_cart_row gb' i s') = Ok vs /\ nth_error vs j = Some x.
Proof.
  intros Hs Lz Ht Hcf Hk Hm Hn. exists (row_get i (cconv s (nu1 s nan k) k m)). intros v s' Hv E.
  rewrite (set_cart_row_eq gb n) in E by auto. destruct (ocro s); [discriminate|].
  destruct (bcast1 n v) as [vs|] eqn:Eb; [|discriminate]. injection E as <-.
  assert (L : length vs = n) by (eapply bcast1_length; eauto using wfv_wf).
  set (s1 := with_cart (fun c => set_row i c vs) s).
  assert (H1 : lens n s1) by (apply lens_with_cart; auto; rewrite set_row_length, (l_c n s Hs); lia).
  assert (H2 : lens n (aft_cartrow gb s1)) by now apply lens_aft_cartrow.
  rewrite (get_cart_row_eq gb' n) by auto. eexists. split; [reflexivity|]. rewrite nth_error_map.
  assert (Hj : j < n) by (apply nth_error_lt in Hk; destruct Hs; lia).
  pose proof (aft_cartrow_settings gb n s1 H1 : _ = settings s) as Es.
  destruct (col_ex n _ j H2 Hj) as [c1 [k1 [m1 [cb1 [kb1 C]]]]].
  destruct (cchk_spec gb' n _ H2) as [_ [_ [_ [_ [_ [_ [_ St]]]]]]].
  destruct (St _ _ _ _ _ _ C) as [c' [k' [cb' [kb' [C' [_ R]]]]]].
  assert (Ek : okep (aft_cartrow gb s1) = okep s /\ ocf (aft_cartrow gb s1) = ocf s /\ om (aft_cartrow gb s1) = om s).
  { unfold aft_cartrow. change (odirect s1) with (odirect s). rewrite (lazy_mode_direct s Lz). auto. }
  destruct Ek as [Ek [Ec Em]]. destruct C as [_ C2 C3 C4 _]. rewrite Ek in C2. rewrite Ec in C4. rewrite Em in C3.
  assert (cb1 = false) by congruence. assert (k1 = k) by congruence. assert (m1 = m) by congruence. subst cb1 k1 m1.
  rewrite (lazy_settings _ s Es) in R. assert (Lb : lazy s = true) by now apply lazy_mode_iff.
  assert (Nk : nan6 k = false). { destruct (nan6 k) eqn:W; auto. exfalso. apply Hn. now apply has_nan_iff. }
  destruct R as [[[R|R] _]|[_ [_ [_ R]]]]; [rewrite Lb in R; discriminate|congruence|].
  rewrite (typed_settings _ s Es) in R. destruct R as [_ R].
  { unfold typed. rewrite Ht. cbn. now rewrite andb_false_r. }
  destruct R as [g ->]. rewrite (col_c _ _ _ _ _ _ _ C'). cbn. f_equal.
  f_equal. rewrite (cconv_settings _ s) by auto. f_equal. unfold nu1.
  apply settings_eq in Es. destruct Es as [_ [_ [_ [_ [_ [_ [_ [Et _]]]]]]]]. now rewrite Et, Ht.
Qed.
Theorem C44_stale_kep_lost gb gb' n i j c m (s : orb) : lens n s -> lazy_mode s -> otype s = ATrue ->
  nth_error (okf s) j = Some false -> nth_error (ocart s) j = Some c -> nth_error (om s) j = Some m -> ~ has_nan c ->
  exists x, forall v s', wfv v -> set_kep_row gb i v s = (s', Ok tt) ->
    exists vs, snd (get_kep_row gb' i s') = Ok vs /\ nth_error vs j = Some x.
Proof.
  intros Hs Lz Ht Hcf Hk Hm Hn. exists (row_get i (kconv s (nan, nan) c m)). intros v s' Hv E.
  rewrite (set_kep_row_eq gb n) in E by auto. destruct (okro s); [discriminate|].
  destruct (bcast1 n v) as [vs|] eqn:Eb; [|discriminate]. injection E as <-.
  assert (L : length vs = n) by (eapply bcast1_length; eauto using wfv_wf).
  set (s1 := with_kep (fun c => set_row i c vs) s).
  assert (H1 : lens n s1) by (apply lens_with_kep; auto; rewrite set_row_length, (l_k n s Hs); lia).
  assert (H2 : lens n (aft_keprow gb s1)) by now apply lens_aft_keprow.
  rewrite (get_kep_row_spec gb' n) by auto. eexists. split; [reflexivity|]. rewrite nth_error_map.
  assert (Hj : j < n) by (apply nth_error_lt in Hk; destruct Hs; lia).
  pose proof (aft_keprow_settings gb n s1 H1 : _ = settings s) as Es.
  destruct (col_ex n _ j H2 Hj) as [c1 [k1 [m1 [cb1 [kb1 C]]]]].
  destruct (kchk_spec gb' n _ H2) as [_ [_ [_ [_ [_ [_ [_ [_ St]]]]]]]].
  destruct (St _ _ _ _ _ _ C) as [c' [k' [cb' [kb' [C' [_ [_ [_ R]]]]]]]].
  assert (Ek : ocart (aft_keprow gb s1) = ocart s /\ okf (aft_keprow gb s1) = okf s /\ om (aft_keprow gb s1) = om s).
  { unfold aft_keprow. change (odirect s1) with (odirect s). rewrite (lazy_mode_direct s Lz). auto. }
  destruct Ek as [Ek [Ec Em]]. destruct C as [C1 _ C3 _ C5]. rewrite Ek in C1. rewrite Ec in C5. rewrite Em in C3.
  assert (kb1 = false) by congruence. assert (c1 = c) by congruence. assert (m1 = m) by congruence. subst kb1 c1 m1.
  rewrite (lazy_settings _ s Es) in R. assert (Lb : lazy s = true) by now apply lazy_mode_iff.
  assert (Nk : nan6 c = false). { destruct (nan6 c) eqn:W; auto. exfalso. apply Hn. now apply has_nan_iff. }
  rewrite Lb, Nk in R. destruct (R eq_refl) as [[g ->] _]. rewrite (col_k _ _ _ _ _ _ _ C'). cbn. f_equal.
  f_equal. rewrite (kconv_settings _ s) by auto. unfold kconv. now rewrite Ht.
Qed.
End Write.

(** ** Cases meeting the hypotheses *)
Section Examples.
#[local] Existing Instance NP_toyn.
Lemma toy_lens (s : orb Z) n : forallb (Nat.eqb n) [length (om s); length (ocart s); length (okep s); length (onu s); length (oMa s); length (ocf s); length (okf s)] = true -> lens n s.
Proof.
  cbn [forallb]. rewrite !andb_true_iff, !Nat.eqb_eq. intros [? [? [? [? [? [? [? _]]]]]]]. constructor; congruence.
Qed.
(** lazy mode, both sides fresh: assign [x] of two orbits, then [e] of both *)
Example C44_rows_example : exists s s1 s2, init gd 1%Z (cfgl "true" 2) (kwd matd) = Ok s /\ s1 = run [(gd, OGetCart)] s
  /\ lens 2 s1 /\ cart_fresh s1 /\ kep_fresh s1 /\ lazy_mode s1
  /\ set_cart_row gd 0 (fresh [2] [3; 4]%Z) s1 = (s2, Ok tt)
  /\ snd (get_cart_row gd 0 s2) = Ok [3; 4]%Z.
Proof.
  eexists _, _, _. split; [vm_compute; reflexivity|]. split; [vm_compute; reflexivity|].
  split; [apply toy_lens; vm_compute; reflexivity|].
  split; [intros [|[|]] k Hk; try discriminate Hk; [now left|now left|vm_compute in Hk; destruct n; discriminate Hk]|].
  split; [intros [|[|]] k Hk; try discriminate Hk; [now left|now left|vm_compute in Hk; destruct n; discriminate Hk]|].
  split; [now split|]. split; [vm_compute; reflexivity|vm_compute; reflexivity].
Qed.
(** direct mode, mean anomalies *)
Example C44_whole_example : exists s s1, init gd 1%Z (cfgd "mean" 2) (kwd matd) = Ok s
  /\ aligned 2 s /\ set_of gd AMean (Sc 5%Z) s = (s1, Ok tt) /\ snd (get_of gd AMean s1) = Ok [5; 5]%Z
  /\ exists s2, set_kepler gd (fresh [6] [1; 2; 3; 4; 5; 6]%Z) s = (s2, Ok tt) /\ snd (get_kepler gd s2) = Ok [mk6 1 2 3 4 5 6; mk6 1 2 3 4 5 6]%Z.
Proof.
  eexists _, _. split; [vm_compute; reflexivity|].
  split; [split; [apply toy_lens; vm_compute; reflexivity|exists [-99; -99]%Z; split; [vm_compute; reflexivity|reflexivity]]|].
  split; [vm_compute; reflexivity|]. split; [vm_compute; reflexivity|].
  eexists. split; [vm_compute; reflexivity|vm_compute; reflexivity].
Qed.
(** lazy mode, Kepler elements just assigned: [orb.x = 3] is lost *)
Theorem C44_stale_row_refuted : exists s s', init gd 1%Z (cfgl "true" 2) (kwd matd) = Ok s
  /\ set_cart_row gd 0 (Sc 3%Z) s = (s', Ok tt)
  /\ exists vs, snd (get_cart_row gd 0 s') = Ok vs /\ ~ row_values (Sc 3%Z) 2 vs.
Proof.
  eexists _, _. split; [vm_compute; reflexivity|]. split; [vm_compute; reflexivity|]. eexists. split; [vm_compute; reflexivity|].
  intros [_ R]. specialize (R 0 _ eq_refl). discriminate R.
Qed.
End Examples.
