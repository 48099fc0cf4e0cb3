(** * C100: orbits stored in one object do not influence one another *)
From Coq Require Import String List Bool Arith Lia ZArith QArith.
From Verif Require Import NP KeplerModel ConvModel UnitModel OrbitModel Lists ConvCols ArraySpec
  PropsAnomaly OrbitLists OrbitBase OrbitOps OrbitSetters OrbitInv OrbitGet OrbitSpec NPToyN PropsOrbitWidth PropsOrbitDirect PropsOrbitLazy
  PropsOrbitWrite PropsOrbitType PropsOrbitProp PropsOrbitLost PropsOrbitCalc PropsOrbitRead PropsOrbitUpdate PropsOrbitItem PropsFloatPropC PropsB64Orbit PropsOrbitAnomaly.
Import ListNotations.
Local Open Scope nat_scope.

Section Alone.
Context {F : Type} `{NP F}.
Notation orb := (OrbitModel.orb F).

(** ** Specification *)
(** any reads of the object; calc_eccentric_anomaly of all orbits only (C41: otherwise the object may be broken) *)
Definition whole_reads (h : history F) : Prop :=
  reads_only h /\ Forall (fun go => match snd go with OCalcEcc i => i = IAll | _ => True end) h.
(** lazy mode: the Kepler elements of orbit [j] are current, or can be calculated from current Cartesian elements *)
Definition ready (s : orb) (j : nat) : Prop := lazy_mode s ->
  nth_error (okf s) j = Some true \/ nth_error (ocf s) j = Some true /\ exists c, nth_error (ocart s) j = Some c /\ ~ has_nan c.
(** reading orb.kepler, orb.cartesian gives [k], [c] for orbit [j] *)
Definition kep_shown gb (s : orb) j k : Prop := exists ks, snd (get_kepler gb s) = Ok ks /\ nth_error ks j = Some k.
Definition cart_shown gb (s : orb) j c : Prop := exists cs, snd (get_cartesian gb s) = Ok cs /\ nth_error cs j = Some c.
(** the Kepler elements of orbit [j] are numbers *)
Definition numbers (s : orb) j : Prop := exists gb k, kep_shown gb s j k /\ ~ has_nan k.
(** the array [v] assigned to orb.kepler or orb.cartesian contains [x] for orbit [j] *)
Definition assigns (v : arg F) j (x : six F) : Prop := forall r, r < 6 -> entry6 v r j (row_get r x).
(** lazy mode: the Kepler elements of orbit [j] are current (they are after reading them) *)
Definition current (s : orb) j : Prop := lazy_mode s -> nth_error (okf s) j = Some true.
(** the same for the Cartesian elements; they are numbers *)
Definition current_cart (s : orb) j : Prop := (lazy_mode s -> nth_error (ocf s) j = Some true) /\ exists c, nth_error (ocart s) j = Some c /\ ~ has_nan c.
(** orb.r = v, orb.v = v *)
Definition set_half (top : bool) gb (v : arg F) : M (F := F) unit := if top then set_r gb v else set_v gb v.
(** deleting the orbits [x] of [n] moves orbit [j] to position [a]: the [a]-th of those that are left, in order *)
Definition left_at (n : nat) (x : Idx) (j a : nat) : Prop := exists q, (forall p, In p q <-> p < n /\ ~ selected n x p)
  /\ (forall b c y z, nth_error q b = Some y -> nth_error q c = Some z -> b < c -> y < z) /\ nth_error q a = Some j.
(** Two programs on two objects [s], [t] that treat orbit [j] of [s] and orbit [i] of [t] in the same way; what
    they do to the other orbits, and which reads they make, is independent. Other orbits may be added and deleted;
    [j'], [i'] are the positions of the two orbits at the end. *)
Inductive both : nat -> nat -> orb -> orb -> nat -> nat -> orb -> orb -> Prop :=
| both_end j i s t : both j i s t j i s t
| both_reads_l j i h s t j' i' s' t' : whole_reads h -> both j i (run h s) t j' i' s' t' -> both j i s t j' i' s' t'
| both_reads_r j i h s t j' i' s' t' : whole_reads h -> both j i s (run h t) j' i' s' t' -> both j i s t j' i' s' t'
| both_propagate j i gb gb' dt dt' d s t s1 t1 j' i' s' t' : wfv dt -> wfv dt' -> entry1 dt j d -> entry1 dt' i d ->
    propagate gb dt s = (s1, Ok tt) -> propagate gb' dt' t = (t1, Ok tt) -> numbers s1 j -> both j i s1 t1 j' i' s' t' -> both j i s t j' i' s' t'
| both_kepler j i gb gb' v v' k s t s1 t1 j' i' s' t' : wfv v -> wfv v' -> assigns v j k -> assigns v' i k -> ~ has_nan k ->
    set_kepler gb v s = (s1, Ok tt) -> set_kepler gb' v' t = (t1, Ok tt) -> both j i s1 t1 j' i' s' t' -> both j i s t j' i' s' t'
| both_cartesian j i gb gb' v v' c s t s1 t1 j' i' s' t' : wfv v -> wfv v' -> assigns v j c -> assigns v' i c -> ~ has_nan c ->
    set_cartesian gb v s = (s1, Ok tt) -> set_cartesian gb' v' t = (t1, Ok tt) -> numbers s1 j -> both j i s1 t1 j' i' s' t' -> both j i s t j' i' s' t'
| both_element j i gb gb' r v v' x s t s1 t1 j' i' s' t' : r < 6 -> wfv v -> wfv v' -> entry1 v j x -> entry1 v' i x -> isnan x = false -> current s j -> current t i ->
    set_kep_row gb r v s = (s1, Ok tt) -> set_kep_row gb' r v' t = (t1, Ok tt) -> both j i s1 t1 j' i' s' t' -> both j i s t j' i' s' t'
| both_coordinate j i gb gb' r v v' x s t s1 t1 j' i' s' t' : r < 6 -> wfv v -> wfv v' -> entry1 v j x -> entry1 v' i x -> isnan x = false -> current_cart s j -> current_cart t i ->
    set_cart_row gb r v s = (s1, Ok tt) -> set_cart_row gb' r v' t = (t1, Ok tt) -> numbers s1 j -> both j i s1 t1 j' i' s' t' -> both j i s t j' i' s' t'
| both_anomaly j i gb gb' w v v' x s t s1 t1 j' i' s' t' : wfv v -> wfv v' -> c_order v -> c_order v' -> entry1 v j x -> entry1 v' i x ->
    (w = otype s -> current s j /\ current t i) ->
    set_of gb w v s = (s1, Ok tt) -> set_of gb' w v' t = (t1, Ok tt) -> numbers s1 j -> both j i s1 t1 j' i' s' t' -> both j i s t j' i' s' t'
| both_half j i top gb gb' v v' x s t s1 t1 j' i' s' t' : wfv v -> wfv v' ->
    (forall r, r < 3 -> entry2 v r j (x r) /\ entry2 v' r i (x r) /\ isnan (x r) = false) -> current_cart s j -> current_cart t i ->
    set_half top gb v s = (s1, Ok tt) -> set_half top gb' v' t = (t1, Ok tt) -> numbers s1 j -> both j i s1 t1 j' i' s' t' -> both j i s t j' i' s' t'
| both_add_l j i gb k kw s t s1 j' i' s' t' : odirect s = false \/ kw = no_kws -> add_orbits gb k kw s = (s1, Ok tt) ->
    both j i s1 t j' i' s' t' -> both j i s t j' i' s' t'
| both_add_r j i gb k kw s t t1 j' i' s' t' : odirect t = false \/ kw = no_kws -> add_orbits gb k kw t = (t1, Ok tt) ->
    both j i s t1 j' i' s' t' -> both j i s t j' i' s' t'
| both_delete_l j i x a s t s1 j' i' s' t' : valid_index (OrbitModel.num s) x -> left_at (OrbitModel.num s) x j a -> delete x s = (s1, Ok tt) ->
    both a i s1 t j' i' s' t' -> both j i s t j' i' s' t'
| both_delete_r j i x a s t t1 j' i' s' t' : valid_index (OrbitModel.num t) x -> left_at (OrbitModel.num t) x i a -> delete x t = (t1, Ok tt) ->
    both j a s t1 j' i' s' t' -> both j i s t j' i' s' t'.

(** ** Proof *)
Lemma no_nan (c : six F) : ~ has_nan c <-> nan6 c = false.
Proof. rewrite has_nan_iff. destruct (nan6 c); split; congruence. Qed.
Lemma no_nan_ordered (k : six F) : nan_arith (F := F) -> ~ has_nan k -> ordered1 (s1 k).
Proof. intros [_ N] K. apply N. destruct (isnan (s1 k)) eqn:E; [|reflexivity]. exfalso. apply K. unfold has_nan. tauto. Qed.
Lemma propagate_flags gb n dt (s s' : orb) : aligned n s -> wfv dt -> propagate gb dt s = (s', Ok tt) -> lazy s = true ->
  okf s' = okf (kchk gb s).
Proof.
  intros A Hd E Lz. pose proof A as [Hs HE]. unfold propagate in E. rewrite bind_get in E. cbv zeta in E.
  change (get_mean_anomaly gb) with (get_of gb AMean) in E.
  destruct (get_of_spec gb n AMean s A) as [sa [ms [E1 [C1 [A1 [Lm Vm]]]]]]. rewrite (bind_ok _ _ _ _ _ E1) in E.
  pose proof A1 as [H1 _]. pose proof (core_settings gb n s sa Hs C1) as Es.
  pose proof (kchk_core gb gb n s sa Hs H1 C1) as Ka.
  pose proof (get_mean_motion_eq gb n sa H1) as Emm. rewrite Ka in Emm. rewrite (bind_ok _ _ _ _ _ Emm), bind_lift in E.
  revert E. set (nn := map2 _ _ _). destruct (bcast1 _ dt) as [ds|er]; [|discriminate].
  change (set_mean_anomaly gb) with (set_of gb AMean). set (x := map3 _ _ _ _). intros E.
  pose proof (set_of_eq gb n AMean (fresh [length x] x) sa H1 (wfv_fresh1 _ x eq_refl)) as Est.
  assert (Bs : base gb AMean sa = sa) by (unfold base; rewrite Ka; now destruct (anomaly_eqb _ _)).
  assert (Da : odirect sa = false).
  { apply lazy_mode_iff in Lz. rewrite (settings_direct s sa) by auto. apply Lz. }
  destruct (okro sa); [rewrite (bind_err _ _ _ _ _ Est) in E; discriminate|].
  destruct (anom_arg gb AMean sa (fresh [length x] x)) as [v|er]; [|rewrite (bind_err _ _ _ _ _ Est) in E; discriminate].
  destruct (bcast1 n v) as [vs|er]; [|rewrite (bind_err _ _ _ _ _ Est) in E; discriminate].
  rewrite (bind_ok _ _ _ _ _ Est), bind_get, Bs in E. unfold aft_keprow in E. cbn [odirect with_kep with_cf] in E.
  repeat (cbn [odirect with_kep with_cf] in E; rewrite Da in E). unfold ret in E. injection E as <-. cbn [okf with_kep with_cf].
  unfold core in C1. congruence.
Qed.
Lemma kchk_ready gb n (s : orb) j : lens n s -> (j < n)%nat -> lazy s = true -> ready s j -> nth_error (okf (kchk gb s)) j = Some true.
Proof.
  intros Hs Hj L R. destruct (col_ex n s j Hs Hj) as [c [k [m [cb [kb C]]]]].
  destruct (kchk_spec gb n s Hs) as [_ [_ E]]. destruct E as [_ [_ [_ [_ [_ [_ E]]]]]].
  destruct (E _ _ _ _ _ _ C) as [c' [k' [cb' [kb' [C' [-> [-> [R1 R2]]]]]]]]. rewrite L in R1, R2. cbn [andb] in R1, R2.
  rewrite (col_kb _ _ _ _ _ _ _ C'). f_equal. destruct kb; [now destruct (R1 eq_refl)|].
  destruct (R (proj2 (lazy_mode_iff s) L)) as [Q|[Q [c1 [Q1 Q2]]]].
  - rewrite (col_kb _ _ _ _ _ _ _ C) in Q. discriminate.
  - rewrite (col_c _ _ _ _ _ _ _ C) in Q1. injection Q1 as <-. apply no_nan in Q2. rewrite Q2 in R2. now destruct (R2 eq_refl).
Qed.
Lemma propagate_ready_after gb n dt (s s' : orb) j : aligned n s -> wfv dt -> propagate gb dt s = (s', Ok tt) -> (j < n)%nat -> ready s j ->
  ready s' j.
Proof.
  intros A Hd E Hj R L. destruct (propagate_ok gb n dt s s' A Hd E) as [Ho [ds Hb]].
  destruct (propagate_spec gb n dt ds s A Hd Ho Hb) as [s2 [vs [E2 [_ [Es _]]]]]. assert (s2 = s') by congruence. subst s2.
  apply lazy_mode_iff in L. rewrite (settings_lazy s s') in L by auto. left.
  rewrite (propagate_flags gb n dt s s' A Hd E L). apply (kchk_ready gb n); auto. apply A.
Qed.
Lemma reads_aligned n h (s : orb) : whole_reads h -> aligned n s -> aligned n (run h s).
Proof.
  intros [R W]. revert s. induction h as [|[gb o] h IH]; intros s A; [exact A|]. cbn [run].
  inversion R as [|? ? R1 R2]; subst. inversion W as [|? ? W1 W2]; subst. cbn [snd] in R1, W1. apply IH; auto.
  assert (Hw : width_ok gb o s).
  { split; [destruct o; try discriminate; exact I|]. destruct o; try exact I. intros _. exact W1. }
  destruct (C41_step gb o s (ex_intro _ n A) Hw) as [n' A']. enough (n' = n) as -> by exact A'.
  assert (Q : lens n (run [(gb, o)] s)).
  { apply (readers_run (fun t => lens n t)); [eauto| | | | |apply A].
    - intros. now apply lens_kchk.
    - intros. now apply lens_cchk.
    - intros m t t' Ec L L'. now apply (pin_core (fun _ => True) n m t t').
    - constructor; [exact R1|constructor]. }
  cbn [run] in Q. now apply (aligned_lens n' n (fst (run_op gb o s))).
Qed.
Lemma ready_not_stale (s : orb) j : ready s j -> not_both_stale s j.
Proof. intros R L. destruct (R L) as [Q|[Q _]]; auto. Qed.
Lemma reads_keep n h (s : orb) j : whole_reads h -> aligned n s -> (j < n)%nat -> ready s j ->
  settings (run h s) = settings s /\ nth_error (om (run h s)) j = nth_error (om s) j /\ ready (run h s) j.
Proof.
  intros [R _] [Hs _] Hj Rd. destruct (col_ex n s j Hs Hj) as [c [k [m [cb [kb C]]]]]. destruct (lazy s) eqn:L.
  2:{ destruct (idle_run n s h s R L Hs eq_refl) as [E _]. unfold core in E. assert (Q : settings (run h s) = settings s) by congruence.
      split; [auto|]. split; [congruence|]. intros Lr. apply lazy_mode_iff in Lr. rewrite (settings_lazy s) in Lr by auto. congruence. }
  rewrite (col_m _ _ _ _ _ _ _ C). destruct (Rd (proj2 (lazy_mode_iff s) L)) as [Q|[Q [c1 [Q1 Q2]]]].
  - rewrite (col_kb _ _ _ _ _ _ _ C) in Q. injection Q as ->.
    assert (P : pinK n s j c k m cb s) by (split; [auto|]; split; [auto|]; exists c, cb; auto).
    destruct (pinK_run n s j c k m cb h s R P) as [_ [S [? [? [[] _]]]]]. split; [auto|]. split; [auto|]. intros _. now left.
  - rewrite (col_cb _ _ _ _ _ _ _ C) in Q. injection Q as ->. rewrite (col_c _ _ _ _ _ _ _ C) in Q1. injection Q1 as <-.
    assert (P : pinC n s j c k m kb s) by (split; [auto|]; split; [auto|]; exists k, kb; auto).
    destruct (pinC_run n s j c k m kb h s R P) as [_ [S [? [? [[] _]]]]]. split; [auto|]. split; [auto|]. intros _. right. eauto.
Qed.

(** ** What one object shows *)
Section One.
Variables (n j : nat).
Definition shows (S : orb) (m : F) k c (s : orb) : Prop := aligned n s /\ settings s = settings S /\ nth_error (om s) j = Some m /\ ready s j
  /\ forall gb, kep_shown gb s j k /\ cart_shown gb s j c.
Lemma shows_lt S m k c s : shows S m k c s -> j < n.
Proof. intros [[Hs _] [_ [Q _]]]. apply nth_error_lt in Q. destruct Hs. lia. Qed.
Lemma shows_start m k c gb gb' s : aligned n s -> ready s j -> nth_error (om s) j = Some m -> ordered1 (s1 k) ->
  kep_shown gb s j k -> cart_shown gb' s j c -> shows s m k c s.
Proof.
  intros A Rd Hm O [ks [Ek Hk]] [cs [Ec Hc]]. assert (Hj : j < n) by (apply nth_error_lt in Hm; destruct A as [[] _]; lia).
  split; [auto|]. split; [auto|]. split; [auto|]. split; [auto|]. intros g.
  assert (Hs : lens n s) by apply A. assert (R0 : reads_only (F := F) []) by constructor.
  destruct (C71_reads_partial gb g n s [] j Hs Hj R0 (ready_not_stale s j Rd)) as (csa & ksa & csb & ksb & ca & ka & cb & kb & Q1 & Q2 & Q3 & Q4 & Q5 & Q6 & Q7 & Q8 & Q9).
  destruct (C71_reads_partial gb' gb n s [] j Hs Hj R0 (ready_not_stale s j Rd)) as (csx & ksx & csy & ksy & cx & kx & cy & ky & P1 & P2 & P3 & P4 & P5 & P6 & P7 & P8 & P9).
  cbn [run] in *.
  assert (ka = k) by congruence. subst ka. destruct (Q9 O) as [-> ->]. assert (ky = k) by congruence. subst ky. assert (cx = c) by congruence. subst cx.
  assert (Ok : ordered1 (s1 kx)).
  { destruct (C71_reads_partial gb gb' n s [] j Hs Hj R0 (ready_not_stale s j Rd)) as (? & ? & ? & ? & ? & k1 & ? & k2 & T1 & T2 & T3 & T4 & T5 & T6 & T7 & T8 & T9).
    cbn [run] in *. assert (k1 = k) by congruence. subst k1. destruct (T9 O) as [_ ->]. assert (kx = k) by congruence. now subst. }
  destruct (P9 Ok) as [Ec' _]. split; [exists ksb; auto|]. exists csb. split; [auto|]. rewrite Q7. congruence.
Qed.
Lemma shows_reads S m k c h s : ordered1 (s1 k) -> whole_reads h -> shows S m k c s -> shows S m k c (run h s).
Proof.
  intros O W Hh. pose proof (shows_lt S m k c s Hh) as Hj. destruct Hh as [A [Es [Hm [Rd Hk]]]].
  destruct (reads_keep n h s j W A Hj Rd) as [R1 [R2 R3]]. split; [now apply reads_aligned|]. split; [congruence|]. split; [congruence|]. split; [auto|].
  intros gb. destruct (Hk gb) as [[ks [K1 K2]] [cs [C1 C2]]].
  destruct (C71_reads_partial gb gb n s h j (proj1 A) Hj (proj1 W) (ready_not_stale s j Rd)) as (csa & ksa & csb & ksb & ca & ka & cb & kb & Q1 & Q2 & Q3 & Q4 & Q5 & Q6 & Q7 & Q8 & Q9).
  assert (ka = k) by congruence. subst ka. destruct (Q9 O) as [-> ->]. assert (ca = c) by congruence. subst ca.
  split; eexists; eauto.
Qed.
Lemma entry6_fun (v : arg F) r x y : entry6 v r j x -> entry6 v r j y -> x = y.
Proof.
  unfold entry6, entry2. destruct v as [z|sh mm d]; [congruence|].
  repeat (match goal with |- context [match ?a with _ => _ end] => destruct a end; try congruence; try tauto).
Qed.
Lemma assigned (v : arg F) cs x y : state_values v n cs -> nth_error cs j = Some y -> assigns v j x -> y = x.
Proof.
  intros [_ V] Hy Hx. assert (Q : forall r, r < 6 -> row_get r y = row_get r x) by (intros r Hr; apply (entry6_fun v r); auto).
  pose proof (Q 0 ltac:(lia)). pose proof (Q 1 ltac:(lia)). pose proof (Q 2 ltac:(lia)). pose proof (Q 3 ltac:(lia)). pose proof (Q 4 ltac:(lia)).
  pose proof (Q 5 ltac:(lia)). destruct x, y. cbn in *. congruence.
Qed.
(** after propagate *)
Lemma shows_propagate gb dt d S m k c s s' : oauto S = true \/ odirect S = true -> ordered1 (s1 k) -> wfv dt -> entry1 dt j d ->
  propagate gb dt s = (s', Ok tt) -> numbers s' j -> shows S m k c s ->
  exists g g' c', let k' := set5 k (back1 S g' (adv S (ma1 S g k) (s0 k) m d) (s1 k)) in
    shows S m k' c' s' /\ ~ has_nan k' /\ Cc S k' m c'.
Proof.
  intros Hau O Wd Hd E Nn Hh. pose proof (shows_lt S m k c s Hh) as Hj. destruct Hh as [A [Es [Hm [Rd Hk]]]].
  destruct (propagate_ok gb n dt s s' A Wd E) as [Ho [ds Hb]].
  destruct (propagate_spec gb n dt ds s A Wd Ho Hb) as [s2 [vs [E2 [A2 [Es2 [Eo [Eke [Lv [V [Rk [_ Rc]]]]]]]]]]]. assert (s2 = s') by congruence. subst s2.
  destruct (Hk gb) as [[ks [K1 K2]] _]. rewrite (get_kepler_eq gb n) in K1 by apply A. cbn [snd] in K1. injection K1 as <-.
  assert (Ld : length ds = n) by (eapply bcast1_length; eauto using wfv_wf).
  assert (Hdj : nth_error ds j = Some d).
  { destruct (nth_error ds j) as [y|] eqn:Ey; [|apply nth_error_None in Ey; lia].
    pose proof (bcast1_entry n dt ds j y Wd Hb Ey) as Q. destruct dt; cbn [entry1] in *; congruence. }
  destruct (V j _ _ _ K2 Hm Hdj) as [g [g' Hv]].
  assert (Hk' : nth_error (okep s') j = Some (set5 k (back1 s g' (adv s (ma1 s g k) (s0 k) m d) (s1 k)))).
  { rewrite Eke, (set_row_nth 5 _ _ _ _ _ K2 Hv). reflexivity. }
  assert (EB : back1 s g' (adv s (ma1 s g k) (s0 k) m d) (s1 k) = back1 S g' (adv S (ma1 S g k) (s0 k) m d) (s1 k)).
  { pose proof Es as Q. apply settings_eq in Q. destruct Q as (Q1 & Q2 & Q3 & Q4 & Q5 & Q6 & Q7 & Q8 & Q9).
    unfold back1, adv, motion1, mu_of, ma1. now rewrite Q1, Q2, Q7, Q8, Q9. }
  rewrite EB in Hk'. set (k' := set5 k _) in Hk'.
  assert (Nk : ~ has_nan k').
  { destruct Nn as [gn [kn [[ksn [N1 N2]] N3]]]. rewrite Rk in N1. assert (kn = k') by congruence. now subst. }
  assert (O' : ordered1 (s1 k')) by (unfold k'; rewrite s1_set5; exact O).
  assert (Hz : lazy s = true \/ odirect s = true).
  { pose proof Es as Q. apply settings_eq in Q. destruct Q as (_ & _ & Q3 & Q4 & _). unfold lazy. rewrite Q3, Q4.
    destruct (odirect S); [auto|]. destruct Hau as [-> |?]; [auto|discriminate]. }
  destruct (Rc Hz gb j k' m Hk' (proj1 (no_nan k') Nk) Hm) as [c' [Hc' Cc']].
  exists g, g', c'. cbv zeta. fold k'. split; [|split; [auto|now apply (Cc_settings s S)]].
  split; [auto|]. split; [congruence|]. split; [congruence|]. split; [now apply (propagate_ready_after gb n dt s s' j)|].
  intros g2. split; [exists (okep s'); auto|]. destruct (Rc Hz g2 j k' m Hk' (proj1 (no_nan k') Nk) Hm) as [c2 [Hc2 Cc2]].
  exists (ocart (cchk g2 s')). split; [rewrite (get_cartesian_eq g2 n) by apply A2; reflexivity|]. rewrite Hc2. f_equal. now apply (Cc_det1 s c' m k' c2).
Qed.
(** after orb.kepler = v *)
Lemma shows_kepler gb v x S m k c s s' : nan_arith (F := F) -> oauto S = true \/ odirect S = true -> wfv v -> assigns v j x -> ~ has_nan x ->
  set_kepler gb v s = (s', Ok tt) -> shows S m k c s -> exists c', shows S m x c' s' /\ Cc S x m c'.
Proof.
  intros Na Hau Wv Hx Nx E Hh. pose proof (shows_lt S m k c s Hh) as Hj. destruct Hh as [A [Es [Hm [Rd Hk]]]].
  assert (Hau' : oauto s = true \/ odirect s = true) by (apply settings_eq in Es; destruct Es as (_ & _ & -> & -> & _); exact Hau).
  assert (K : forall g, kep_shown g s' j x).
  { intros g. destruct (C44_kepler gb g n v s s' (proj1 A) Wv E) as [ks [K1 K2]]. exists ks. split; [auto|].
    destruct (nth_error ks j) as [y|] eqn:Ey; [|apply nth_error_None in Ey; destruct K2; lia]. f_equal. now apply (assigned v ks). }
  assert (C : forall g, aligned n s' /\ settings s' = settings s /\ om s' = om s /\ exists c', cart_shown g s' j c' /\ Cc s x m c').
  { intros g. destruct (K g) as [ks [K1 K2]].
    destruct (cart_after_kep gb g g n v s s' ks j x m A Wv E Hau' K1 K2 (proj1 (no_nan x) Nx) Hm) as (Q1 & Q2 & Q3 & cs & gg & Q4 & Q5).
    split; [auto|]. split; [auto|]. split; [auto|]. eexists. split; [exists cs; eauto|]. now exists gg. }
  destruct (C gb) as (Q1 & Q2 & Q3 & c' & _ & Cc'). exists c'. split; [|now apply (Cc_settings s S)].
  split; [auto|]. split; [congruence|]. split; [congruence|]. split.
  - intros L. left. rewrite (set_kepler_eq gb n) in E by (auto; apply A). destruct (okro s); [discriminate|].
    destruct (whole_value n v) as [cs|]; [|discriminate]. injection E as <-. unfold aft_kep in L |- *.
    destruct L as [_ L]. apply settings_eq in Q2. unfold aft_kep in Q2. destruct (odirect (with_kep (fun _ => cs) s)) eqn:D.
    + destruct Q2 as (_ & _ & _ & Q2 & _). cbn [with_kep odirect] in D. congruence.
    + cbn. unfold all_true. rewrite nth_error_map. destruct (nth_error (okf s) j) eqn:Ef; [reflexivity|]. apply nth_error_None in Ef. destruct A as [[] _]. lia.
  - intros g. split; [apply K|]. destruct (C g) as (_ & _ & _ & c2 & C2 & Cc2). rewrite <- (Cc_det1 s c' m x c2); auto. now apply no_nan_ordered.
Qed.
(** after orb.cartesian = v *)
Lemma shows_cartesian gb v x S m k c s s' : nan_arith (F := F) -> oauto S = true \/ odirect S = true -> wfv v -> assigns v j x -> ~ has_nan x ->
  set_cartesian gb v s = (s', Ok tt) -> numbers s' j -> shows S m k c s -> exists k', shows S m k' x s' /\ ~ has_nan k' /\ Kc S x m k'.
Proof.
  intros Na Hau Wv Hx Nx E Nn Hh. pose proof (shows_lt S m k c s Hh) as Hj. destruct Hh as [A [Es [Hm [Rd Hk]]]].
  assert (Hau' : oauto s = true \/ odirect s = true) by (apply settings_eq in Es; destruct Es as (_ & _ & -> & -> & _); exact Hau).
  assert (K : forall g, cart_shown g s' j x).
  { intros g. destruct (C44_cartesian gb g n v s s' (proj1 A) Wv E) as [ks [K1 K2]]. exists ks. split; [auto|].
    destruct (nth_error ks j) as [y|] eqn:Ey; [|apply nth_error_None in Ey; destruct K2; lia]. f_equal. now apply (assigned v ks). }
  assert (C : forall g, aligned n s' /\ settings s' = settings s /\ om s' = om s /\ exists k', kep_shown g s' j k' /\ Kc s x m k').
  { intros g. destruct (K g) as [ks [K1 K2]].
    destruct (kep_after_cart gb g g n v s s' ks j x m A Wv E Hau' K1 K2 (proj1 (no_nan x) Nx) Hm) as (Q1 & Q2 & Q3 & cs & gg & Q4 & Q5).
    split; [auto|]. split; [auto|]. split; [auto|]. eexists. split; [exists cs; eauto|]. now exists gg. }
  destruct Nn as [gn [k' [N1 N2]]]. destruct (C gn) as (Q1 & Q2 & Q3 & k1 & C1 & Kc').
  assert (k1 = k') by (destruct N1 as [? [? ?]], C1 as [? [? ?]]; congruence). subst k1.
  exists k'. split; [|split; [auto|now apply (Kc_settings s S)]].
  split; [auto|]. split; [congruence|]. split; [congruence|]. split.
  - intros L. right. rewrite (set_cartesian_eq gb n) in E by (auto; apply A). destruct (ocro s); [discriminate|].
    destruct (whole_value n v) as [cs|] eqn:Ew; [|discriminate]. injection E as <-. unfold aft_cart in L, K |- *.
    destruct L as [_ L]. apply settings_eq in Q2. unfold aft_cart in Q2. destruct (odirect (with_cart (fun _ => cs) s)) eqn:D.
    + destruct Q2 as (_ & _ & _ & Q2 & _). cbn [with_cart odirect] in D. congruence.
    + cbn. split.
      * unfold all_true. rewrite nth_error_map. destruct (nth_error (ocf s) j) eqn:Ef; [reflexivity|]. apply nth_error_None in Ef. destruct A as [[] _]. lia.
      * exists x. split; [|auto]. assert (Lc : length cs = n) by (eapply whole_value_length; eauto).
        destruct (nth_error cs j) as [y|] eqn:Ey; [|apply nth_error_None in Ey; lia]. f_equal. apply (assigned v cs); auto.
        split; [auto|]. intros r p z Hr Hz. eapply whole_entry; eauto.
  - intros g. split; [|apply K]. destruct (C g) as (_ & _ & _ & c2 & C2 & Cc2). rewrite <- (Kc_det1 s x m k' c2); auto. now apply no_nan_ordered.
Qed.
(** after orb.a = v, orb.e = v, ... *)
Lemma set_no_nan r (k : six F) x : ~ has_nan k -> isnan x = false -> ~ has_nan (row_set r k x).
Proof.
  rewrite !no_nan. unfold nan6. rewrite !orb_false_iff. intros [[[[[Q0 Q1] Q2] Q3] Q4] Q5] Hx.
  do 5 (destruct r as [|r]; [cbn; tauto|]). cbn. tauto.
Qed.
Lemma shows_element gb r v x S m k c s s' : nan_arith (F := F) -> oauto S = true \/ odirect S = true -> wfv v -> entry1 v j x -> isnan x = false ->
  ~ has_nan k -> current s j -> set_kep_row gb r v s = (s', Ok tt) -> shows S m k c s ->
  exists c', shows S m (row_set r k x) c' s' /\ Cc S (row_set r k x) m c'.
Proof.
  intros Na Hau Wv Hx Nx Nk Cu E Hh. pose proof (shows_lt S m k c s Hh) as Hj. destruct Hh as [A [Es [Hm [Rd Hk]]]]. pose proof A as [Hs _].
  pose proof (set_no_nan r k x Nk Nx) as Nk'. set (k' := row_set r k x) in *. pose proof (proj1 (no_nan k') Nk') as Nb.
  assert (Hst : nth_error (okep s) j = Some k).
  { destruct (Hk gb) as [[ks [K1 K2]] _]. rewrite (get_kepler_eq gb n) in K1 by auto. cbn [snd] in K1. injection K1 as <-.
    destruct (col_ex n s j Hs Hj) as [c0 [k0 [m0 [cb [kb C]]]]]. destruct (kchk_spec gb n s Hs) as [_ [_ (_ & _ & _ & _ & _ & _ & KA)]].
    destruct (KA _ _ _ _ _ _ C) as (c1 & k1 & cb1 & kb1 & C1 & _ & _ & R & _).
    assert (Z : lazy s && negb kb && negb (nan6 c0) = false).
    { destruct (lazy s) eqn:L; [|reflexivity]. pose proof (Cu (proj2 (lazy_mode_iff s) L)) as Q. rewrite (col_kb _ _ _ _ _ _ _ C) in Q. injection Q as ->. reflexivity. }
    destruct (R Z) as [-> _]. rewrite (col_k _ _ _ _ _ _ _ C1) in K2. injection K2 as <-. apply C. }
  rewrite (set_kep_row_eq gb n) in E by auto. destruct (okro s); [discriminate|].
  destruct (bcast1 n v) as [vs|] eqn:Eb; [|discriminate]. injection E as E.
  assert (L : length vs = n) by (eapply bcast1_length; eauto using wfv_wf).
  assert (Hvs : nth_error vs j = Some x).
  { destruct (nth_error vs j) as [y|] eqn:Ey; [|apply nth_error_None in Ey; lia].
    pose proof (bcast1_entry n v vs j y Wv Eb Ey) as Q. destruct v; cbn [entry1] in *; congruence. }
  set (t := with_kep (fun q => set_row r q vs) s) in *.
  assert (At : aligned n t) by (apply aligned_with_kep; auto; rewrite set_row_length, (l_k n s Hs); lia). pose proof (proj1 At) as Ht.
  assert (Kt : nth_error (okep t) j = Some k') by (exact (set_row_nth r _ _ _ _ _ Hst Hvs)).
  assert (A' : aligned n s') by (rewrite <- E; now apply aligned_aft_keprow). pose proof (proj1 A') as Hs'.
  assert (S' : settings s' = settings s) by (change (settings s) with (settings t); rewrite <- E; now apply (aft_keprow_settings gb n)).
  assert (M' : om s' = om s) by (change (om s) with (om t); rewrite <- E; now apply (aft_keprow_om gb n)).
  assert (K' : okep s' = okep t) by (rewrite <- E; now apply (aft_keprow_okep gb n)).
  assert (Lz : lazy s' = lazy s) by now apply settings_lazy.
  assert (Fl : lazy s' = true -> s' = with_cf all_false t).
  { intros Z. rewrite Lz in Z. apply lazy_mode_iff in Z. rewrite <- E. unfold aft_keprow. change (odirect t) with (odirect s). now rewrite (lazy_mode_direct s Z). }
  assert (Fk : lazy s' = true -> nth_error (okf s') j = Some true).
  { intros Z. rewrite (Fl Z). cbn. apply Cu. apply lazy_mode_iff. congruence. }
  destruct (col_ex n s' j Hs' Hj) as [c0 [k0 [m0 [cb [kb C]]]]].
  assert (k0 = k') by (pose proof (col_k _ _ _ _ _ _ _ C); congruence). assert (m0 = m) by (pose proof (col_m _ _ _ _ _ _ _ C); congruence). subst k0 m0.
  assert (Kb : lazy s' = true -> kb = true) by (intros Z; pose proof (Fk Z); pose proof (col_kb _ _ _ _ _ _ _ C); congruence).
  assert (G : forall g, exists c', cart_shown g s' j c' /\ Cc s k' m c').
  { intros g. unfold cart_shown. rewrite (get_cartesian_eq g n) by auto. cbn [snd]. destruct (lazy s') eqn:Z.
    - specialize (Kb eq_refl). subst kb. destruct (cchk_spec g n s' Hs') as [_ (_ & _ & _ & _ & _ & _ & KS)].
      destruct (KS _ _ _ _ _ _ C) as (c'' & k'' & cb'' & kb'' & C'' & _ & R).
      assert (Cb : cb = false).
      { pose proof (col_cb _ _ _ _ _ _ _ C) as Q. rewrite (Fl eq_refl) in Q. cbn in Q. unfold all_false in Q. rewrite nth_error_map in Q.
        destruct (nth_error (ocf s) j); cbn in Q; congruence. }
      subst cb. rewrite Z in R. cbn [andb negb] in R. destruct R as [[[R|R] _]|(_ & _ & _ & R)]; [discriminate|congruence|].
      rewrite andb_false_r in R. destruct (R eq_refl) as [_ R']. exists c''. split; [eexists; split; [reflexivity|apply (col_c _ _ _ _ _ _ _ C'')]|].
      now apply (Cc_settings s' s).
    - assert (D : odirect s = true).
      { clear Z. rename Lz into Z. unfold lazy in Z. pose proof Es as Q. apply settings_eq in Q. destruct Q as (_ & _ & Q3 & Q4 & _). rewrite Q3, Q4 in Z. rewrite Q4. clear - Z Hau.
        destruct (odirect S); [reflexivity|]. destruct Hau as [Hau|Hau]; [|exact Hau]. rewrite Hau in Z. cbn in Z. exact Z. }
      assert (Es' : s' = call_ gb t) by (rewrite <- E; unfold aft_keprow; change (odirect t) with (odirect s); now rewrite D).
      destruct (col_ex n t j Ht Hj) as (ct & kt & mt & cbt & kbt & Ct).
      assert (kt = k') by (pose proof (col_k _ _ _ _ _ _ _ Ct); congruence).
      assert (mt = m) by (pose proof (col_m _ _ _ _ _ _ _ Ct) as Q; change (om t) with (om s) in Q; congruence). subst kt mt.
      destruct (call_spec gb n t Ht) as [_ (_ & _ & _ & _ & _ & _ & KA)]. destruct (KA _ _ _ _ _ _ Ct) as (c'' & k'' & cb'' & kb'' & C'' & _ & R).
      destruct R as [[[R|R] _]|(_ & _ & _ & R)]; [discriminate|congruence|].
      assert (Y : lazy t && typed t && negb kbt && negb (nan6 ct) = false).
      { unfold lazy. change (odirect t) with (odirect s). rewrite D. cbn. rewrite andb_false_r. reflexivity. }
      destruct (R Y) as [_ R']. rewrite cchk_id by auto. exists c''. split; [|now apply (Cc_settings t s)].
      exists (ocart s'). split; [reflexivity|]. rewrite Es'. apply (col_c _ _ _ _ _ _ _ C''). }
  destruct (G gb) as [c' [_ Cc']]. exists c'. split; [|now apply (Cc_settings s S)].
  split; [auto|]. split; [congruence|]. split; [congruence|]. split; [intros Z; left; apply Fk; now apply lazy_mode_iff|].
  intros g. split.
  - exists (okep (kchk g s')). split; [now rewrite (get_kepler_eq g n)|].
    destruct (kchk_spec g n s' Hs') as [_ [_ (_ & _ & _ & _ & _ & _ & KA)]]. destruct (KA _ _ _ _ _ _ C) as (c1 & k1 & cb1 & kb1 & C1 & _ & _ & R & _).
    destruct R as [-> _]; [|apply C1]. destruct (lazy s') eqn:Z; [|reflexivity]. now rewrite (Kb eq_refl).
  - destruct (G g) as [c2 [C2 Cc2]]. rewrite <- (Cc_det1 s c' m k' c2); auto. now apply no_nan_ordered.
Qed.
Lemma cart_stored S m k c s : shows S m k c s -> current_cart s j -> nth_error (ocart s) j = Some c /\ ~ has_nan c.
Proof.
  intros Hh [Cu [c1 [Cst Nc]]]. pose proof (shows_lt S m k c s Hh) as Hj. destruct Hh as [A [Es [Hm [Rd Hk]]]]. pose proof A as [Hs _].
  enough (c1 = c) by (now subst). specialize (Hk (fun _ _ => nan)). destruct Hk as [_ [cs [K1 K2]]]. rewrite (get_cartesian_eq _ n) in K1 by auto. cbn [snd] in K1. injection K1 as <-.
  destruct (col_ex n s j Hs Hj) as [c0 [k0 [m0 [cb [kb C]]]]]. destruct (cchk_spec (fun _ _ => nan) n s Hs) as [_ (_ & _ & _ & _ & _ & _ & KA)].
  destruct (KA _ _ _ _ _ _ C) as (c2 & k2 & cb2 & kb2 & C2 & _ & R).
  assert (Z : lazy s && negb cb = false).
  { destruct (lazy s) eqn:L; [|reflexivity]. pose proof (Cu (proj2 (lazy_mode_iff s) L)) as Q. rewrite (col_cb _ _ _ _ _ _ _ C) in Q. injection Q as ->. reflexivity. }
  destruct R as [(_ & -> & _)|(R & _)]; [|congruence]. rewrite (col_c _ _ _ _ _ _ _ C2) in K2. rewrite (col_c _ _ _ _ _ _ _ C) in Cst. congruence.
Qed.
(** after orb.r = v, orb.v = v: the same as assigning whole states *)
Lemma whole_of (cs : list (six F)) : length cs = n -> exists V : arg F, wfv V /\ whole_value n V = Ok cs.
Proof.
  intros L. set (d := map s0 cs ++ (map s1 cs ++ (map s2 cs ++ (map s3 cs ++ (map s4 cs ++ map s5 cs))))). exists (fresh [6; n] d).
  split; [apply wfv_fresh; unfold d; rewrite !app_length, !map_length; cbn; lia|].
  unfold whole_value, fresh, bcast2. cbn [strip_ones Nat.eqb negb]. rewrite Nat.eqb_refl. cbn [rbind]. f_equal. rewrite map_map.
  apply nth_error_ext. intros p. rewrite nth_error_map. destruct (Nat.lt_ge_cases p n) as [Hp|Hp].
  - rewrite (nth_error_nth' (seq 0 n) 0) by (rewrite seq_length; lia). rewrite seq_nth by auto. cbn [option_map]. destruct (nth_error cs p) as [c|] eqn:Ec; [|apply nth_error_None in Ec; lia]. f_equal.
    assert (G : forall f : six F -> F, nth p (map f cs) nan = f c) by (intros f; apply nth_error_nth; now rewrite nth_error_map, Ec).
    assert (P : forall (f : six F -> F) l q, nth (n + q) (map f cs ++ l) nan = nth q l nan).
    { intros f l q. rewrite app_nth2; rewrite map_length; [f_equal|]; lia. }
    assert (A : forall (f : six F -> F) l, nth p (map f cs ++ l) nan = f c) by (intros f l; rewrite app_nth1 by (rewrite map_length; lia); apply G).
    unfold six_of, d. cbn [Nat.mul Nat.add]. rewrite <- !Nat.add_assoc. cbn [Nat.add]. rewrite ?P, ?A, ?G. now destruct c.
  - rewrite (proj2 (nth_error_None cs p)) by lia. rewrite (proj2 (nth_error_None (seq 0 n) p)) by (rewrite seq_length; lia). reflexivity.
Qed.
Lemma half_whole top gb v x S m k c s s' : wfv v ->
  (forall r, r < 3 -> entry2 v r j (x r) /\ isnan (x r) = false) -> current_cart s j -> set_half top gb v s = (s', Ok tt) -> shows S m k c s ->
  let c' := if top then mk6 (x 0) (x 1) (x 2) (s3 c) (s4 c) (s5 c) else mk6 (s0 c) (s1 c) (s2 c) (x 0) (x 1) (x 2) in
  ~ has_nan c' /\ exists V, wfv V /\ assigns V j c' /\ set_cartesian gb V s = (s', Ok tt).
Proof.
  intros Wv Hx Cu E Hh c'. destruct (cart_stored S m k c s Hh Cu) as [Cst Nc]. pose proof (shows_lt S m k c s Hh) as Hj.
  pose proof Hh as [[Hs _] _].
  assert (G : forall h : six F -> (nat -> F) -> six F, (forall y, (forall r, r < 3 -> y r = x r) -> h c y = c') ->
    (if ocro s then (s, Raise AttributeError) else match bcast2 3 n v with Raise e => (s, Raise e) | Ok vs => (aft_cart gb (with_cart (fun q => map2 h q vs) s), Ok tt) end) = (s', Ok tt) ->
    exists V, wfv V /\ assigns V j c' /\ set_cartesian gb V s = (s', Ok tt)).
  { intros h Hh' Q. destruct (ocro s) eqn:Ho; [discriminate|]. destruct (bcast2 3 n v) as [vs|] eqn:Eb; [|discriminate]. injection Q as Q.
    assert (L : length vs = n) by (eapply bcast2_length; eauto using wfv_wf).
    assert (Lc : length (map2 h (ocart s) vs) = n) by (rewrite map2_length, (l_c n s Hs); lia).
    destruct (whole_of _ Lc) as [V [WV EV]]. exists V. split; [auto|]. split.
    - intros r Hr. apply (whole_entry n V (map2 h (ocart s) vs)); auto.
      destruct (nth_error vs j) as [y|] eqn:Ey; [|apply nth_error_None in Ey; lia]. rewrite nth_error_map2, Cst, Ey. f_equal. apply Hh'.
      intros p Hp. pose proof (bcast2_entry 3 n v vs p j y Wv Hp Eb Ey) as Z. destruct (Hx p Hp) as [Z' _].
      unfold entry2 in Z, Z'. destruct v as [z|sh mm d]; [congruence|]. destruct (strip_ones sh) as [|a [|b [|]]]; try tauto; congruence.
    - rewrite (set_cartesian_eq gb n), Ho, EV by auto. rewrite <- Q. reflexivity. }
  assert (Nx : forall r, r < 3 -> isnan (x r) = false) by (intros r Hr; apply (Hx r Hr)).
  pose proof (Nx 0 ltac:(lia)) as N0. pose proof (Nx 1 ltac:(lia)) as N1. pose proof (Nx 2 ltac:(lia)) as N2.
  apply no_nan in Nc. unfold nan6 in Nc. rewrite !orb_false_iff in Nc.
  unfold set_half in E. destruct top.
  - split; [apply no_nan; unfold nan6, c'; cbn; rewrite !orb_false_iff; tauto|].
    rewrite (set_r_eq gb n) in E by auto. apply (G set_top); [|exact E]. intros y Hy. unfold set_top, c'. now rewrite !Hy by lia.
  - split; [apply no_nan; unfold nan6, c'; cbn; rewrite !orb_false_iff; tauto|].
    rewrite (set_v_eq gb n) in E by auto. apply (G set_bot); [|exact E]. intros y Hy. unfold set_bot, c'. now rewrite !Hy by lia.
Qed.
(** after orb.x = v, orb.y = v, ... *)
Lemma coordinate_after gb r v x S m k c s s' : oauto S = true \/ odirect S = true -> wfv v -> entry1 v j x -> isnan x = false ->
  current_cart s j -> set_cart_row gb r v s = (s', Ok tt) -> shows S m k c s -> let c' := row_set r c x in
  ~ has_nan c' /\ aligned n s' /\ settings s' = settings s /\ om s' = om s /\ ready s' j
  /\ forall g, cart_shown g s' j c' /\ exists k', kep_shown g s' j k' /\ Kc s c' m k'.
Proof.
  intros Hau Wv Hx Nx [Cu [c1 [Cst Nc]]] E Hh. pose proof (shows_lt S m k c s Hh) as Hj. destruct Hh as [A [Es [Hm [Rd Hk]]]]. pose proof A as [Hs _].
  assert (c1 = c).
  { destruct (Hk gb) as [_ [cs [K1 K2]]]. rewrite (get_cartesian_eq gb n) in K1 by auto. cbn [snd] in K1. injection K1 as <-.
    destruct (col_ex n s j Hs Hj) as [c0 [k0 [m0 [cb [kb C]]]]]. destruct (cchk_spec gb n s Hs) as [_ (_ & _ & _ & _ & _ & _ & KA)].
    destruct (KA _ _ _ _ _ _ C) as (c2 & k2 & cb2 & kb2 & C2 & _ & R).
    assert (Z : lazy s && negb cb = false).
    { destruct (lazy s) eqn:L; [|reflexivity]. pose proof (Cu (proj2 (lazy_mode_iff s) L)) as Q. rewrite (col_cb _ _ _ _ _ _ _ C) in Q. injection Q as ->. reflexivity. }
    destruct R as [(_ & -> & _)|(R & _)]; [|congruence]. rewrite (col_c _ _ _ _ _ _ _ C2) in K2. rewrite (col_c _ _ _ _ _ _ _ C) in Cst. congruence. }
  subst c1. pose proof (set_no_nan r c x Nc Nx) as Nc'. cbv zeta. set (c' := row_set r c x) in *. pose proof (proj1 (no_nan c') Nc') as Nb.
  rewrite (set_cart_row_eq gb n) in E by auto. destruct (ocro s); [discriminate|].
  destruct (bcast1 n v) as [vs|] eqn:Eb; [|discriminate]. injection E as E.
  assert (L : length vs = n) by (eapply bcast1_length; eauto using wfv_wf).
  assert (Hvs : nth_error vs j = Some x).
  { destruct (nth_error vs j) as [y|] eqn:Ey; [|apply nth_error_None in Ey; lia].
    pose proof (bcast1_entry n v vs j y Wv Eb Ey) as Q. destruct v; cbn [entry1] in *; congruence. }
  set (t := with_cart (fun q => set_row r q vs) s) in *.
  assert (At : aligned n t) by (apply aligned_with_cart; auto; rewrite set_row_length, (l_c n s Hs); lia). pose proof (proj1 At) as Ht.
  assert (Ct : nth_error (ocart t) j = Some c') by (exact (set_row_nth r _ _ _ _ _ Cst Hvs)).
  assert (A' : aligned n s') by (rewrite <- E; now apply aligned_aft_cartrow). pose proof (proj1 A') as Hs'.
  assert (S' : settings s' = settings s) by (change (settings s) with (settings t); rewrite <- E; now apply (aft_cartrow_settings gb n)).
  assert (M' : om s' = om s).
  { change (om s) with (om t). rewrite <- E. unfold aft_cartrow. destruct (kall_spec gb n t Ht) as [_ [_ [_ [_ [X _]]]]]. destruct (odirect t); auto. }
  assert (C' : ocart s' = ocart t) by (rewrite <- E; now apply (aft_cartrow_ocart gb n)).
  assert (Lz : lazy s' = lazy s) by now apply settings_lazy.
  assert (Fl : lazy s' = true -> s' = with_kf all_false t).
  { intros Z. rewrite Lz in Z. apply lazy_mode_iff in Z. rewrite <- E. unfold aft_cartrow. change (odirect t) with (odirect s). now rewrite (lazy_mode_direct s Z). }
  assert (Fc : lazy s' = true -> nth_error (ocf s') j = Some true).
  { intros Z. rewrite (Fl Z). cbn. apply Cu. apply lazy_mode_iff. congruence. }
  destruct (col_ex n s' j Hs' Hj) as [c0 [k0 [m0 [cb [kb C]]]]].
  assert (c0 = c') by (pose proof (col_c _ _ _ _ _ _ _ C); congruence). assert (m0 = m) by (pose proof (col_m _ _ _ _ _ _ _ C); congruence). subst c0 m0.
  assert (Cb : lazy s' = true -> cb = true) by (intros Z; pose proof (Fc Z); pose proof (col_cb _ _ _ _ _ _ _ C); congruence).
  split; [auto|]. split; [auto|]. split; [auto|]. split; [auto|]. split.
  { intros Z. right. apply lazy_mode_iff in Z. split; [auto|]. exists c'. split; [congruence|auto]. }
  intros g. split.
  - exists (ocart (cchk g s')). split; [now rewrite (get_cartesian_eq g n)|].
    destruct (cchk_spec g n s' Hs') as [_ (_ & _ & _ & _ & _ & _ & KA)]. destruct (KA _ _ _ _ _ _ C) as (c2 & k2 & cb2 & kb2 & C2 & _ & R).
    destruct R as [(_ & -> & _)|(R & _)]; [apply C2|]. apply andb_true_iff in R. destruct R as [R1 R2]. rewrite (Cb R1) in R2. discriminate.
  - unfold kep_shown. rewrite (get_kepler_eq g n) by auto. cbn [snd]. destruct (lazy s') eqn:Z.
    + destruct (kchk_spec g n s' Hs') as [_ [_ (_ & _ & _ & _ & _ & _ & KA)]]. destruct (KA _ _ _ _ _ _ C) as (c2 & k2 & cb2 & kb2 & C2 & _ & _ & _ & R).
      assert (Kb : kb = false).
      { pose proof (col_kb _ _ _ _ _ _ _ C) as Q. rewrite (Fl eq_refl) in Q. cbn in Q. unfold all_false in Q. rewrite nth_error_map in Q.
        destruct (nth_error (okf s) j); cbn in Q; congruence. }
      subst kb. rewrite Z, Nb in R. destruct (R eq_refl) as [R' _]. exists k2. split; [eexists; split; [reflexivity|apply C2]|]. now apply (Kc_settings s' s).
    + assert (D : odirect s = true).
      { clear Z. rename Lz into Z. unfold lazy in Z. pose proof Es as Q. apply settings_eq in Q. destruct Q as (_ & _ & Q3 & Q4 & _). rewrite Q3, Q4 in Z. rewrite Q4. clear - Z Hau.
        destruct (odirect S); [reflexivity|]. destruct Hau as [Hau|Hau]; [|exact Hau]. rewrite Hau in Z. cbn in Z. exact Z. }
      assert (Es' : s' = kall gb t) by (rewrite <- E; unfold aft_cartrow; change (odirect t) with (odirect s); now rewrite D).
      destruct (col_ex n t j Ht Hj) as (ct & kt & mt & cbt & kbt & Ctt).
      assert (ct = c') by (pose proof (col_c _ _ _ _ _ _ _ Ctt); congruence).
      assert (mt = m) by (pose proof (col_m _ _ _ _ _ _ _ Ctt) as Q; change (om t) with (om s) in Q; congruence). subst ct mt.
      destruct (kall_spec gb n t Ht) as [_ [_ (_ & _ & _ & _ & _ & _ & KA)]]. destruct (KA _ _ _ _ _ _ Ctt) as (c2 & k2 & cb2 & kb2 & C2 & _ & _ & _ & R).
      destruct (R Nb) as [R' _]. rewrite kchk_id by auto. exists k2. split; [|now apply (Kc_settings t s)].
      exists (okep s'). split; [reflexivity|]. rewrite Es'. apply C2.
Qed.
Lemma shows_coordinate gb r v x S m k c s s' : nan_arith (F := F) -> oauto S = true \/ odirect S = true -> wfv v -> entry1 v j x -> isnan x = false ->
  current_cart s j -> set_cart_row gb r v s = (s', Ok tt) -> numbers s' j -> shows S m k c s ->
  exists k', shows S m k' (row_set r c x) s' /\ ~ has_nan k' /\ Kc S (row_set r c x) m k'.
Proof.
  intros Na Hau Wv Hx Nx Cu E Nn Hh. destruct (coordinate_after gb r v x S m k c s s' Hau Wv Hx Nx Cu E Hh) as (Nc & A' & S' & M' & Rd' & G).
  destruct Hh as [A [Es [Hm [Rd Hk]]]]. destruct Nn as [gn [k' [N1 N2]]]. destruct (G gn) as [_ [k1 [K1 Kc']]].
  assert (k1 = k') by (destruct N1 as [? [? ?]], K1 as [? [? ?]]; congruence). subst k1.
  exists k'. split; [|split; [auto|now apply (Kc_settings s S)]].
  split; [auto|]. split; [congruence|]. split; [congruence|]. split; [auto|].
  intros g. destruct (G g) as [G1 [k2 [K2 Kc2]]]. split; [|auto]. rewrite <- (Kc_det1 s _ m k' k2 (no_nan_ordered k' Na N2) Kc' Kc2). auto.
Qed.
(** after orb.true_anomaly = v, ... *)
Lemma put1_det w (S : orb) g g' x e : ordered1 e -> put1 w S g x e = put1 w S g' x e.
Proof.
  intros O. unfold put1. destruct w, (otype S); try reflexivity; unfold t2m1, m2t1, t2e1, e2t1, e2m1; repeat rewrite (branch_ordered (fst g) (fst g')) by auto;
    repeat rewrite (branch_ordered (snd g) (snd g')) by auto; reflexivity.
Qed.
Lemma put1_settings w (s S : orb) g x e : settings s = settings S -> put1 w s g x e = put1 w S g x e.
Proof. intros E. apply settings_eq in E. destruct E as (_ & _ & _ & _ & _ & _ & Q7 & Q8 & Q9). unfold put1. now rewrite Q7, Q8, Q9. Qed.
Lemma current_kchk g s k : aligned n s -> j < n -> current s j -> nth_error (okep (kchk g s)) j = Some k <-> nth_error (okep s) j = Some k.
Proof.
  intros [Hs _] Hj Cu. destruct (col_ex n s j Hs Hj) as [c0 [k0 [m0 [cb [kb C]]]]]. destruct (kchk_spec g n s Hs) as [_ [_ (_ & _ & _ & _ & _ & _ & KA)]].
  destruct (KA _ _ _ _ _ _ C) as (c1 & k1 & cb1 & kb1 & C1 & _ & _ & R & _).
  assert (Z : lazy s && negb kb && negb (nan6 c0) = false).
  { destruct (lazy s) eqn:L; [|reflexivity]. pose proof (Cu (proj2 (lazy_mode_iff s) L)) as Q. rewrite (col_kb _ _ _ _ _ _ _ C) in Q. injection Q as ->. reflexivity. }
  destruct (R Z) as [-> _]. rewrite (col_k _ _ _ _ _ _ _ C), (col_k _ _ _ _ _ _ _ C1). tauto.
Qed.
Lemma current_shown g s k : aligned n s -> j < n -> current s j -> kep_shown g s j k <-> nth_error (okep s) j = Some k.
Proof.
  intros A Hj Cu. rewrite <- (current_kchk g s k A Hj Cu). unfold kep_shown. rewrite (get_kepler_eq g n) by apply A. cbn [snd]. split.
  - intros [ks [Q1 Q2]]. congruence.
  - eauto.
Qed.
Lemma element_stored gb r v x k s s' : aligned n s -> j < n -> nth_error (okep s) j = Some k -> current s j -> wfv v -> entry1 v j x ->
  set_kep_row gb r v s = (s', Ok tt) -> aligned n s' /\ nth_error (okep s') j = Some (row_set r k x) /\ current s' j /\ settings s' = settings s.
Proof.
  intros A Hj Hst Cu Wv Hx E. pose proof A as [Hs _]. rewrite (set_kep_row_eq gb n) in E by auto. destruct (okro s); [discriminate|].
  destruct (bcast1 n v) as [vs|] eqn:Eb; [|discriminate]. injection E as E.
  assert (L : length vs = n) by (eapply bcast1_length; eauto using wfv_wf).
  assert (Hvs : nth_error vs j = Some x).
  { destruct (nth_error vs j) as [y|] eqn:Ey; [|apply nth_error_None in Ey; lia].
    pose proof (bcast1_entry n v vs j y Wv Eb Ey) as Q. destruct v; cbn [entry1] in *; congruence. }
  set (t := with_kep (fun q => set_row r q vs) s) in *.
  assert (At : aligned n t) by (apply aligned_with_kep; auto; rewrite set_row_length, (l_k n s Hs); lia). pose proof (proj1 At) as Ht.
  assert (S' : settings s' = settings s) by (change (settings s) with (settings t); rewrite <- E; now apply (aft_keprow_settings gb n)).
  split; [rewrite <- E; now apply aligned_aft_keprow|]. split; [|split; [|auto]].
  - rewrite <- E, (aft_keprow_okep gb n) by auto. exact (set_row_nth r _ _ _ _ _ Hst Hvs).
  - intros Z. apply lazy_mode_iff in Z. rewrite (settings_lazy s s') in Z by auto. apply lazy_mode_iff in Z. rewrite <- E. unfold aft_keprow.
    change (odirect t) with (odirect s). rewrite (lazy_mode_direct s Z). cbn. now apply Cu.
Qed.
Lemma set_row_idem r (l : list (six F)) vs : set_row r (set_row r l vs) vs = set_row r l vs.
Proof.
  revert vs. induction l as [|c l IH]; intros [|x vs]; try reflexivity. unfold set_row in *. cbn [map2]. f_equal; [|apply IH].
  do 5 (destruct r as [|r]; [reflexivity|]). reflexivity.
Qed.
Lemma anomaly_steps gb w v x S m k c s s' : wfv v -> c_order v -> entry1 v j x -> ordered1 (s1 k) -> (w = otype s -> current s j) ->
  set_of gb w v s = (s', Ok tt) -> shows S m k c s ->
  exists b vs g s1, shows S m k c b /\ current b j /\ length vs = n /\ nth_error vs j = Some (put1 w S g x (NP.s1 k))
  /\ set_kep_row gb 5 (fresh [n] vs) b = (s1, Ok tt) /\ set_kep_row gb 5 (fresh [n] vs) s1 = (s', Ok tt).
Proof.
  intros Wv Cv Hx O Cu E Hh. pose proof (shows_lt S m k c s Hh) as Hj. pose proof Hh as [A [Es [Hm [Rd Hk]]]]. pose proof A as [Hs _].
  assert (Hb : shows S m k c (base gb w s) /\ current (base gb w s) j).
  { unfold base. destruct (anomaly_eqb w (otype s)) eqn:Ew.
    - split; [auto|]. apply Cu. now destruct w, (otype s).
    - assert (K : run [(gb, OGetKep)] s = kchk gb s).
      { cbn [run]. change (fst (bind (get_kepler gb) (fun _ => ret tt) s) = kchk gb s) || idtac. cbn [run_op]. unfold bind. rewrite (get_kepler_eq gb n) by auto. reflexivity. }
      rewrite <- K. split; [apply shows_reads; auto; split; repeat constructor|]. rewrite K. intros L. apply lazy_mode_iff in L.
      rewrite (settings_lazy s) in L by (now apply (kchk_settings gb n)). now apply (kchk_ready gb n). }
  destruct Hb as [Hb Cb]. pose proof Hb as [Ab [Eb _]]. pose proof Ab as [Hlb _].
  assert (Kk : nth_error (okep (kchk gb s)) j = Some k).
  { destruct (Hk gb) as [[ks [K1 K2]] _]. rewrite (get_kepler_eq gb n) in K1 by auto. cbn [snd] in K1. congruence. }
  rewrite (set_of_eq gb n) in E by auto. destruct (okro s) eqn:Ho; [discriminate|]. destruct (anom_arg gb w s v) as [y|] eqn:Ey; [|discriminate].
  destruct (bcast1 n y) as [vs|] eqn:Ebc; [|discriminate]. injection E as E.
  assert (Wy : wfv y) by exact (anom_arg_wf gb n w s v y Hs Wv Ey). assert (L : length vs = n) by (eapply bcast1_length; eauto using wfv_wf).
  assert (V : exists g, nth_error vs j = Some (put1 w S g x (s1 k))).
  { destruct (anomaly_eqb w (otype s)) eqn:Ew.
    - exists (x, x). assert (y = v) by (unfold anom_arg in Ey; destruct w, (otype s); cbn in Ew; congruence). subst y.
      replace (put1 w S (x, x) x (s1 k)) with x; [|rewrite <- (put1_settings w s S) by auto; unfold put1; now destruct w, (otype s)].
      destruct (nth_error vs j) as [z|] eqn:Ez; [|apply nth_error_None in Ez; lia].
      pose proof (bcast1_entry n v vs j z Wv Ebc Ez) as Q. destruct v; cbn [entry1] in *; congruence.
    - destruct (anom_arg_spec gb n w v s y Hs Wv Cv Ey) as [vs' [-> [L' V]]]; [now destruct w, (otype s)|].
      rewrite bcast1_fresh in Ebc by auto. injection Ebc as ->. destruct (V j k x Kk Hx) as [g Q]. exists g. now rewrite <- (put1_settings w s S). }
  destruct V as [g V]. exists (base gb w s), vs, g. set (b := base gb w s) in *.
  assert (Hob : okro b = false) by (assert (Q : settings b = settings s) by congruence; apply settings_eq in Q; destruct Q as (_ & _ & _ & _ & Q & _); congruence).
  pose proof (wfv_fresh1 n vs L) as Wf. set (t := with_kep (fun q => set_row 5 q vs) b) in *.
  assert (At : aligned n t) by (apply aligned_with_kep; auto; rewrite set_row_length, (l_k n b Hlb); lia). pose proof (proj1 At) as Ht.
  exists (aft_keprow gb t). split; [auto|]. split; [auto|]. split; [auto|]. split; [auto|]. split.
  - rewrite (set_kep_row_eq gb n), Hob, bcast1_fresh by auto. reflexivity.
  - assert (A1 : aligned n (aft_keprow gb t)) by now apply aligned_aft_keprow.
    assert (Q : settings (aft_keprow gb t) = settings b) by (change (settings b) with (settings t); now apply (aft_keprow_settings gb n)).
    assert (Ho1 : okro (aft_keprow gb t) = false) by (apply settings_eq in Q; destruct Q as (_ & _ & _ & _ & Q & _); congruence).
    rewrite (set_kep_row_eq gb n), Ho1, bcast1_fresh by (auto; apply A1). rewrite <- E. do 2 f_equal.
    transitivity (with_kep (fun _ => okep (aft_keprow gb t)) (aft_keprow gb t)); [|apply with_kep_id].
    assert (X : set_row 5 (okep (aft_keprow gb t)) vs = okep (aft_keprow gb t)) by (rewrite (aft_keprow_okep gb n) by auto; apply set_row_idem).
    unfold with_kep. now rewrite X.
Qed.
Lemma shows_anomaly gb w v x S m k c s s' : nan_arith (F := F) -> oauto S = true \/ odirect S = true -> wfv v -> c_order v -> entry1 v j x -> ~ has_nan k ->
  (w = otype s -> current s j) -> set_of gb w v s = (s', Ok tt) -> shows S m k c s -> exists g, let k' := set5 k (put1 w S g x (s1 k)) in
  (numbers s' j -> ~ has_nan k') /\ (~ has_nan k' -> exists c', shows S m k' c' s' /\ Cc S k' m c').
Proof.
  intros Na Hau Wv Cv Hx Nk Cu E Hh. pose proof (shows_lt S m k c s Hh) as Hj. pose proof (no_nan_ordered k Na Nk) as O.
  destruct (anomaly_steps gb w v x S m k c s s' Wv Cv Hx O Cu E Hh) as (b & vs & g & s1 & Hb & Cb & L & V & E1 & E2).
  exists g. cbv zeta. set (y := put1 w S g x (NP.s1 k)) in *. change (set5 k y) with (row_set 5 k y). pose proof (wfv_fresh1 n vs L) as Wf.
  assert (Hy : entry1 (fresh [n] vs) j y).
  { unfold fresh, entry1. destruct (Nat.eqb_spec (length vs) 1) as [Q|]; [|auto]. assert (Z : j = 0) by lia. rewrite Z in V. exact V. }
  pose proof Hb as [Ab [_ [_ [_ Hkb]]]]. pose proof (proj1 (current_shown gb b k Ab Hj Cb) (proj1 (Hkb gb))) as Kb.
  destruct (element_stored gb 5 (fresh [n] vs) y k b s1 Ab Hj Kb Cb Wf Hy E1) as (A1 & K1 & C1 & _).
  destruct (element_stored gb 5 (fresh [n] vs) y _ s1 s' A1 Hj K1 C1 Wf Hy E2) as (A2 & K2 & C2 & _).
  change (row_set 5 (row_set 5 k y) y) with (row_set 5 k y) in K2. split.
  - intros [gn [kn [N1 N2]]]. apply (current_shown gn s' kn A2 Hj C2) in N1. assert (kn = row_set 5 k y) by congruence. now subst.
  - intros N. assert (Ny : isnan y = false) by (destruct (isnan y) eqn:Q; [exfalso; apply N; unfold has_nan; cbn; tauto|reflexivity]).
    destruct (shows_element gb 5 (fresh [n] vs) y S m k c b s1 Na Hau Wf Hy Ny Nk Cb E1 Hb) as [c1 [H1 _]].
    exact (shows_element gb 5 (fresh [n] vs) y S m (row_set 5 k y) c1 s1 s' Na Hau Wf Hy Ny N C1 E2 H1).
Qed.
End One.

(** ** The other orbits: added, deleted *)
Lemma shows_same n n2 j a S m k c (s s2 : orb) : same_orbit s j s2 a -> settings s2 = settings s -> aligned n2 s2 -> ordered1 (s1 k) ->
  shows n j S m k c s -> shows n2 a S m k c s2.
Proof.
  intros [c0 [k0 [m0 [cb [kb [C D]]]]]] E A2 O Hh. pose proof (shows_lt n j S m k c s Hh) as Hj. destruct Hh as [A [Es [Hm [Rd Hk]]]].
  pose proof A as [Hs _]. pose proof A2 as [Hs2 _]. pose proof (settings_lazy s s2 E) as Lz.
  assert (m0 = m) by (pose proof (col_m _ _ _ _ _ _ _ C); congruence). subst m0.
  assert (Rd2 : ready s2 a).
  { intros L. apply lazy_mode_iff in L. rewrite Lz in L. apply lazy_mode_iff in L. destruct (Rd L) as [Q|[Q [c1 [Q1 Q2]]]].
    - left. rewrite (col_kb _ _ _ _ _ _ _ C) in Q. now rewrite (col_kb _ _ _ _ _ _ _ D).
    - right. rewrite (col_cb _ _ _ _ _ _ _ C) in Q. rewrite (col_c _ _ _ _ _ _ _ C) in Q1. rewrite (col_cb _ _ _ _ _ _ _ D), (col_c _ _ _ _ _ _ _ D). eauto. }
  split; [auto|]. split; [congruence|]. split; [apply D|]. split; [auto|]. intros g. destruct (Hk g) as [[ks [K1 K2]] [cs [C1 C2]]].
  rewrite (get_kepler_eq g n) in K1 by auto. rewrite (get_cartesian_eq g n) in C1 by auto. cbn [snd] in K1, C1. injection K1 as <-. injection C1 as <-.
  destruct (kchk_spec g n s Hs) as [_ [_ (_ & _ & _ & _ & _ & _ & KA)]]. destruct (KA _ _ _ _ _ _ C) as (c1 & k1 & cb1 & kb1 & Q1 & _ & _ & N1 & R1).
  destruct (kchk_spec g n2 s2 Hs2) as [_ [_ (_ & _ & _ & _ & _ & _ & KB)]]. destruct (KB _ _ _ _ _ _ D) as (c2 & k2 & cb2 & kb2 & Q2 & _ & _ & N2 & R2).
  assert (k1 = k) by (pose proof (col_k _ _ _ _ _ _ _ Q1); congruence). subst k1. rewrite Lz in N2, R2. split.
  - exists (okep (kchk g s2)). split; [now rewrite (get_kepler_eq g n2)|]. rewrite (col_k _ _ _ _ _ _ _ Q2). f_equal.
    destruct (lazy s && negb kb && negb (nan6 c0)) eqn:Z.
    + destruct (R1 eq_refl) as [X1 _]. destruct (R2 eq_refl) as [X2 _]. apply (Kc_det1 s c0 m k k2 O X1). now apply (Kc_settings s2 s).
    + destruct (N1 eq_refl) as [X1 _]. destruct (N2 eq_refl) as [X2 _]. congruence.
  - exists (ocart (cchk g s2)). split; [now rewrite (get_cartesian_eq g n2)|].
    destruct (cchk_spec g n s Hs) as [_ (_ & _ & _ & _ & _ & _ & CA)]. destruct (CA _ _ _ _ _ _ C) as (c3 & k3 & cb3 & kb3 & Q3 & _ & R3).
    destruct (cchk_spec g n2 s2 Hs2) as [_ (_ & _ & _ & _ & _ & _ & CB)]. destruct (CB _ _ _ _ _ _ D) as (c4 & k4 & cb4 & kb4 & Q4 & _ & R4).
    rewrite (col_c _ _ _ _ _ _ _ Q4). assert (c3 = c) by (pose proof (col_c _ _ _ _ _ _ _ Q3); congruence). subst c3. f_equal. rewrite Lz in R4.
    destruct R3 as [(X3 & Y3 & _)|(X3 & Y3 & _ & Z3)], R4 as [(X4 & Y4 & _)|(X4 & Y4 & _ & Z4)]; [congruence|destruct X3; congruence|destruct X4; congruence|].
    apply andb_true_iff in X3. destruct X3 as [L X3]. destruct cb; [discriminate|].
    assert (kb = true).
    { destruct (Rd (proj2 (lazy_mode_iff s) L)) as [Q|[Q _]]; [rewrite (col_kb _ _ _ _ _ _ _ C) in Q; congruence|].
      rewrite (col_cb _ _ _ _ _ _ _ C) in Q. discriminate. }
    subst kb. rewrite andb_false_r in Z3, Z4. destruct (Z3 eq_refl) as [_ W3]. destruct (Z4 eq_refl) as [_ W4].
    assert (k0 = k) by (destruct N1 as [X _]; [now rewrite andb_false_r|congruence]). subst k0.
    apply (Cc_det1 s c m k c4); auto. now apply (Cc_settings s2 s).
Qed.
Lemma shows_add n j S m k c gb q kw (s s1 : orb) : ordered1 (NP.s1 k) -> odirect s = false \/ kw = no_kws -> add_orbits gb q kw s = (s1, Ok tt) ->
  shows n j S m k c s -> shows (n + q) j S m k c s1.
Proof.
  intros O Hd E Hh. pose proof (shows_lt n j S m k c s Hh) as Hj. pose proof Hh as [A _]. destruct Hd as [Hd|Hd].
  - pose proof (C51_add_keeps gb n q kw s A Hd) as Q. cbv zeta in Q. rewrite E in Q. cbn [fst] in Q. destruct Q as [L [Es K]].
    apply (shows_same n _ j j S m k c s s1); auto.
    destruct (C41_step gb (OAdd q kw) s (ex_intro _ n A)) as [n' A']; [now split|]. cbn [run_op] in A'. rewrite E in A'. cbn [fst] in A'.
    rewrite <- (aligned_lens n' (n + q) s1 A' L). exact A'.
  - subst kw. destruct (C51_add_empty gb n q s A) as (s2 & E2 & A2 & Es & K & _). assert (s2 = s1) by congruence. subst s2.
    apply (shows_same n _ j j S m k c s s1); auto.
Qed.
Lemma increasing_unique (q q' : list nat) : (forall p, In p q <-> In p q') ->
  (forall b c y z, nth_error q b = Some y -> nth_error q c = Some z -> b < c -> y < z) ->
  (forall b c y z, nth_error q' b = Some y -> nth_error q' c = Some z -> b < c -> y < z) -> q = q'.
Proof.
  revert q'. induction q as [|x q IH]; intros [|y q'] M I I'; [reflexivity|exfalso; apply (proj2 (M y)); now left|exfalso; apply (proj1 (M x)); now left|].
  assert (T : forall u (l : list nat), (forall b c y z, nth_error (u :: l) b = Some y -> nth_error (u :: l) c = Some z -> b < c -> y < z) ->
    (forall p, In p l -> u < p) /\ (forall b c y z, nth_error l b = Some y -> nth_error l c = Some z -> b < c -> y < z)).
  { intros u l Q. split.
    - intros p Hp. apply In_nth_error in Hp. destruct Hp as [b Hb]. apply (Q 0 (S b)); auto. lia.
    - intros b c z w Hb Hc Hbc. apply (Q (S b) (S c)); auto. lia. }
  destruct (T x q I) as [T1 T2]. destruct (T y q' I') as [T3 T4].
  assert (x = y).
  { destruct (proj1 (M x) (or_introl eq_refl)) as [Q|Q]; [auto|]. destruct (proj2 (M y) (or_introl eq_refl)) as [Q'|Q']; [auto|].
    apply T3 in Q. apply T1 in Q'. lia. }
  subst y. f_equal. apply IH; auto. intros p. split; intros Hp.
  - destruct (proj1 (M p) (or_intror Hp)) as [<-|]; [apply T1 in Hp; lia|auto].
  - destruct (proj2 (M p) (or_intror Hp)) as [<-|]; [apply T3 in Hp; lia|auto].
Qed.
Lemma shows_delete n j S m k c x a (s s1 : orb) : ordered1 (NP.s1 k) -> valid_index (OrbitModel.num s) x -> left_at (OrbitModel.num s) x j a ->
  delete x s = (s1, Ok tt) -> shows n j S m k c s -> exists n1, shows n1 a S m k c s1.
Proof.
  intros O V [q [Q1 [Q2 Q3]]] E Hh. pose proof Hh as [A _]. assert (N : OrbitModel.num s = n) by (unfold OrbitModel.num; apply A). rewrite N in *.
  destruct (C51_delete n x s A V) as (s2 & q2 & E2 & A2 & Es & P1 & P2 & P3). assert (s2 = s1) by congruence. subst s2.
  assert (q = q2) by (apply increasing_unique; auto; intros p; rewrite Q1, P1; tauto). subst q2.
  exists (length q). apply (shows_same n _ j a S m k c s s1); auto.
Qed.

(** ** Two objects *)
Lemma adv_det (S : orb) m d k g g' h h' : ordered1 (s1 k) ->
  back1 S g' (adv S (ma1 S g k) (s0 k) m d) (s1 k) = back1 S h' (adv S (ma1 S h k) (s0 k) m d) (s1 k).
Proof.
  intros O. pose proof (anom1_det AMean S S h g k eq_refl O) as Q. cbn [anom1] in Q. rewrite Q.
  unfold back1. destruct (otype S); try reflexivity. unfold m2t1, e2t1. now rewrite (branch_ordered g' h').
Qed.
Lemma cartesian_step n n' j i S m k c gb gb' v v' x (s t s1 t1 : orb) : nan_arith (F := F) -> oauto S = true \/ odirect S = true ->
  wfv v -> wfv v' -> assigns v j x -> assigns v' i x -> ~ has_nan x -> set_cartesian gb v s = (s1, Ok tt) -> set_cartesian gb' v' t = (t1, Ok tt) ->
  numbers s1 j -> shows n j S m k c s -> shows n' i S m k c t -> exists k1, ~ has_nan k1 /\ shows n j S m k1 x s1 /\ shows n' i S m k1 x t1.
Proof.
  intros Na Hau W1 W2 D1 D2 Nx P1 P2 Nn Hs Ht.
  destruct (shows_cartesian n j gb v x S m k c s s1 Na Hau W1 D1 Nx P1 Nn Hs) as [k1 [Hs' [N1 C1]]].
  assert (Nt : numbers t1 i).
  { pose proof Ht as [A [Es [Hm [_ Hk]]]].
    assert (Hau' : oauto t = true \/ odirect t = true) by (apply settings_eq in Es; destruct Es as (_ & _ & -> & -> & _); exact Hau).
    destruct (C44_cartesian gb' gb' n' v' t t1 (proj1 A) W2 P2) as [cs [K1 K2]].
    assert (Hin : i < n') by (apply (shows_lt n' i S m k c t Ht)).
    destruct (nth_error cs i) as [y|] eqn:Ey; [|apply nth_error_None in Ey; destruct K2; lia].
    assert (y = x) by now apply (assigned n' i v' cs). subst y.
    destruct (kep_after_cart gb' gb' gb' n' v' t t1 cs i x m A W2 P2 Hau' K1 Ey (proj1 (no_nan x) Nx) Hm) as (Q1 & Q2 & Q3 & ks & gg & Q4 & Q5).
    exists gb', k1. split; [|auto]. exists ks. split; [auto|]. rewrite Q5. f_equal.
    apply (Kc_det1 S x m k1); auto; [now apply no_nan_ordered|]. apply (Kc_settings t S); auto. now exists gg. }
  destruct (shows_cartesian n' i gb' v' x S m k c t t1 Na Hau W2 D2 Nx P2 Nt Ht) as [k2 [Ht' [_ C2]]].
  assert (k2 = k1) as -> by (apply (Kc_det1 S x m k1 k2); auto; now apply no_nan_ordered). eauto.
Qed.
Lemma both_shows j i j' i' S m (s t s' t' : orb) : nan_arith (F := F) -> oauto S = true \/ odirect S = true -> both j i s t j' i' s' t' ->
  forall n n' k c, ~ has_nan k -> shows n j S m k c s -> shows n' i S m k c t ->
  exists m' m'' k' c', ~ has_nan k' /\ shows m' j' S m k' c' s' /\ shows m'' i' S m k' c' t'.
Proof.
  intros Na Hau B. induction B as [j i s t|j i h s t j' i' s' t' W B IH|j i h s t j' i' s' t' W B IH|j i gb gb' dt dt' d s t s1 t1 j' i' s' t' W1 W2 D1 D2 P1 P2 Nn B IH
    |j i gb gb' v v' x s t s1 t1 j' i' s' t' W1 W2 D1 D2 Nx P1 P2 B IH|j i gb gb' v v' x s t s1 t1 j' i' s' t' W1 W2 D1 D2 Nx P1 P2 Nn B IH
    |j i gb gb' r v v' x s t s1 t1 j' i' s' t' Hr W1 W2 D1 D2 Nx U1 U2 P1 P2 B IH|j i gb gb' r v v' x s t s1 t1 j' i' s' t' Hr W1 W2 D1 D2 Nx U1 U2 P1 P2 Nn B IH
    |j i gb gb' w v v' x s t s1 t1 j' i' s' t' W1 W2 V1 V2 D1 D2 U P1 P2 Nn B IH
    |j i top gb gb' v v' x s t s1 t1 j' i' s' t' W1 W2 Hx U1 U2 P1 P2 Nn B IH|j i gb q kw s t s1 j' i' s' t' Hd P1 B IH|j i gb q kw s t t1 j' i' s' t' Hd P1 B IH|j i x a s t s1 j' i' s' t' V L P1 B IH|j i x a s t t1 j' i' s' t' V L P1 B IH]; intros n n' k c Nk Hs Ht.
  - eauto 8.
  - apply (IH n n' k c); auto. apply shows_reads; auto. now apply no_nan_ordered.
  - apply (IH n n' k c); auto. apply shows_reads; auto. now apply no_nan_ordered.
  - pose proof (no_nan_ordered k Na Nk) as O.
    destruct (shows_propagate n j gb dt d S m k c s s1 Hau O W1 D1 P1 Nn Hs) as (g & g' & c' & Hs' & Nk' & Cs).
    set (k' := set5 k _) in *.
    assert (Nt : numbers t1 i).
    { pose proof Ht as [A [Es [Hm [_ Hk]]]]. destruct (propagate_ok gb' n' dt' t t1 A W2 P2) as [Ho [ds Hb]].
      destruct (propagate_spec gb' n' dt' ds t A W2 Ho Hb) as [s2 [vs [E2 [A2 [Es2 [Eo [Eke [Lv [V [Rk _]]]]]]]]]]. assert (s2 = t1) by congruence. subst s2.
      destruct (Hk gb') as [[ks [K1 K2]] _]. rewrite (get_kepler_eq gb' n') in K1 by apply A. cbn [snd] in K1. injection K1 as <-.
      assert (Hin : i < n') by (apply (shows_lt n' i S m k c t Ht)).
      assert (Ld : length ds = n') by (eapply bcast1_length; eauto using wfv_wf).
      assert (Hdi : nth_error ds i = Some d).
      { destruct (nth_error ds i) as [y|] eqn:Ey; [|apply nth_error_None in Ey; lia].
        pose proof (bcast1_entry n' dt' ds i y W2 Hb Ey) as Q. destruct dt'; cbn [entry1] in *; congruence. }
      destruct (V i _ _ _ K2 Hm Hdi) as [h [h' Hv]].
      exists gb', k'. split; [|auto]. exists (okep t1). split; [auto|]. rewrite Eke, (set_row_nth 5 _ _ _ _ _ K2 Hv). unfold k'. f_equal.
      cbn [row_set]. unfold set5. f_equal.
      assert (EB : back1 t h' (adv t (ma1 t h k) (s0 k) m d) (NP.s1 k) = back1 S h' (adv S (ma1 S h k) (s0 k) m d) (NP.s1 k)).
      { apply settings_eq in Es. destruct Es as (Q1 & Q2 & Q3 & Q4 & Q5 & Q6 & Q7 & Q8 & Q9). unfold back1, adv, motion1, mu_of, ma1. now rewrite Q1, Q2, Q7, Q8, Q9. }
      rewrite EB. now apply adv_det. }
    destruct (shows_propagate n' i gb' dt' d S m k c t t1 Hau O W2 D2 P2 Nt Ht) as (h & h' & c2 & Ht' & _ & Ct).
    rewrite (adv_det S m d k h h' g g' O) in Ht', Ct. fold k' in Ht', Ct.
    assert (c2 = c') as -> by (apply (Cc_det1 S c' m k' c2); auto; now apply no_nan_ordered).
    now apply (IH n n' k' c').
  - destruct (shows_kepler n j gb v x S m k c s s1 Na Hau W1 D1 Nx P1 Hs) as [c1 [Hs' C1]].
    destruct (shows_kepler n' i gb' v' x S m k c t t1 Na Hau W2 D2 Nx P2 Ht) as [c2 [Ht' C2]].
    assert (c2 = c1) as -> by (apply (Cc_det1 S c1 m x c2); auto; now apply no_nan_ordered). now apply (IH n n' x c1).
  - destruct (cartesian_step n n' j i S m k c gb gb' v v' x s t s1 t1) as (k1 & N1 & Hs' & Ht'); auto. now apply (IH n n' k1 x).
  - destruct (shows_element n j gb r v x S m k c s s1 Na Hau W1 D1 Nx Nk U1 P1 Hs) as [c1 [Hs' C1]].
    destruct (shows_element n' i gb' r v' x S m k c t t1 Na Hau W2 D2 Nx Nk U2 P2 Ht) as [c2 [Ht' C2]].
    pose proof (set_no_nan r k x Nk Nx) as Nk'.
    assert (c2 = c1) as -> by (apply (Cc_det1 S c1 m (row_set r k x) c2); auto; now apply no_nan_ordered). now apply (IH n n' (row_set r k x) c1).
  - destruct (shows_coordinate n j gb r v x S m k c s s1 Na Hau W1 D1 Nx U1 P1 Nn Hs) as [k1 [Hs' [N1 C1]]].
    assert (Nt : numbers t1 i).
    { destruct (coordinate_after n' i gb' r v' x S m k c t t1 Hau W2 D2 Nx U2 P2 Ht) as (_ & _ & _ & _ & _ & G).
      destruct (G gb') as [_ [k2 [K2 Kc2]]]. exists gb', k2. split; [auto|]. pose proof Ht as [_ [Es _]].
      now rewrite (Kc_det1 S (row_set r c x) m k1 k2 (no_nan_ordered k1 Na N1) C1 (Kc_settings t S _ _ _ Es Kc2)). }
    destruct (shows_coordinate n' i gb' r v' x S m k c t t1 Na Hau W2 D2 Nx U2 P2 Nt Ht) as [k2 [Ht' [_ C2]]].
    assert (k2 = k1) as -> by (apply (Kc_det1 S (row_set r c x) m k1 k2); auto; now apply no_nan_ordered). now apply (IH n n' k1 (row_set r c x)).
  - pose proof (no_nan_ordered k Na Nk) as O. pose proof Hs as [_ [Es _]]. pose proof Ht as [_ [Et _]].
    assert (Ot : otype t = otype s) by (apply settings_eq; congruence).
    destruct (shows_anomaly n j gb w v x S m k c s s1 Na Hau W1 V1 D1 Nk (fun q => proj1 (U q)) P1 Hs) as [g [G1 G2]].
    destruct (shows_anomaly n' i gb' w v' x S m k c t t1 Na Hau W2 V2 D2 Nk (fun q => proj2 (U (eq_trans q Ot))) P2 Ht) as [g' [G3 G4]].
    cbv zeta in *. rewrite (put1_det w S g' g x (NP.s1 k) O) in G3, G4. set (k' := set5 k _) in *. pose proof (G1 Nn) as Nk'.
    destruct (G2 Nk') as [c1 [Hs' C1]]. destruct (G4 Nk') as [c2 [Ht' C2]].
    assert (c2 = c1) as -> by (apply (Cc_det1 S c1 m k' c2); auto; now apply no_nan_ordered). now apply (IH n n' k' c1).
  - destruct (half_whole n j top gb v x S m k c s s1 W1 (fun r Hr => conj (proj1 (Hx r Hr)) (proj2 (proj2 (Hx r Hr)))) U1 P1 Hs) as [Nc [V [WV [DV EV]]]].
    destruct (half_whole n' i top gb' v' x S m k c t t1 W2 (fun r Hr => proj2 (Hx r Hr)) U2 P2 Ht) as [_ [V' [WV' [DV' EV']]]]. set (c' := if top then _ else _) in *.
    destruct (cartesian_step n n' j i S m k c gb gb' V V' c' s t s1 t1) as (k1 & N1 & Hs' & Ht'); auto. now apply (IH n n' k1 c').
  - apply (IH (n + q) n' k c); auto. apply (shows_add n j S m k c gb q kw s s1); auto. now apply no_nan_ordered.
  - apply (IH n (n' + q) k c); auto. apply (shows_add n' i S m k c gb q kw t t1); auto. now apply no_nan_ordered.
  - destruct (shows_delete n j S m k c x a s s1) as [n1 Hn]; auto; [now apply no_nan_ordered|]. now apply (IH n1 n' k c).
  - destruct (shows_delete n' i S m k c x a t t1) as [n1 Hn]; auto; [now apply no_nan_ordered|]. now apply (IH n n1 k c).
Qed.
(** Every arithmetic in which numbers other than NaN compare (binary64: C88_arith), direct and lazy mode, degrees
    or radians, every anomaly type: let two objects with the same settings show the same elements for orbit [j] of
    the one and orbit [i] of the other. After any programs of assignments to orb.kepler, orb.cartesian, orb.r, orb.v, a single
    Kepler or Cartesian element or an anomaly, calls of propagate, reads, and additions and deletions of other orbits that treat these
    two orbits alike, whatever the number and the values of the other orbits,
    they show the same Kepler elements, the same Cartesian elements and the same three anomalies, digit for digit. *)
Theorem C100_alone : forall n n' j i j' i' (s t s' t' : orb) m k c g1 g2 g3 g4, nan_arith (F := F) ->
  aligned n s -> aligned n' t -> settings t = settings s -> oauto s = true \/ odirect s = true -> ready s j -> ready t i ->
  nth_error (om s) j = Some m -> nth_error (om t) i = Some m ->
  kep_shown g1 s j k -> kep_shown g2 t i k -> ~ has_nan k -> cart_shown g3 s j c -> cart_shown g4 t i c ->
  both j i s t j' i' s' t' -> forall gb gb',
  (exists k', kep_shown gb s' j' k' /\ kep_shown gb' t' i' k') /\ (exists c', cart_shown gb s' j' c' /\ cart_shown gb' t' i' c')
  /\ forall w, exists vs vs' x, snd (get_of gb w s') = Ok vs /\ snd (get_of gb' w t') = Ok vs' /\ nth_error vs j' = Some x /\ nth_error vs' i' = Some x.
Proof.
  intros n n' j i j' i' s t s' t' m k c g1 g2 g3 g4 Na As At St Hau Rs Rt Ms Mt K1 K2 Nk C1 C2 B gb gb'.
  pose proof (no_nan_ordered k Na Nk) as O.
  pose proof (shows_start n j m k c g1 g3 s As Rs Ms O K1 C1) as Hs.
  assert (Ht : shows n' i s m k c t).
  { destruct (shows_start n' i m k c g2 g4 t At Rt Mt O K2 C2) as [Q1 [Q2 Q3]]. split; [auto|]. split; auto. }
  destruct (both_shows j i j' i' s m s t s' t' Na Hau B n n' k c Nk Hs Ht) as (n1 & n2 & k' & c' & Nk' & Hs' & Ht').
  pose proof Hs' as [A' [S' [_ [_ H1]]]]. pose proof Ht' as [B' [T' [_ [_ H2]]]]. destruct (H1 gb) as [P1 P2]. destruct (H2 gb') as [P3 P4].
  split; [eauto|]. split; [eauto|]. intros w.
  destruct (get_of_spec gb n1 w s' A') as [sa [vs [E1 [_ [_ [_ V1]]]]]]. destruct (get_of_spec gb' n2 w t' B') as [sb [vs' [E2 [_ [_ [_ V2]]]]]].
  destruct P1 as [ks [X1 X2]]. rewrite (get_kepler_eq gb n1) in X1 by apply A'. cbn [snd] in X1. injection X1 as <-.
  destruct P3 as [ks' [Y1 Y2]]. rewrite (get_kepler_eq gb' n2) in Y1 by apply B'. cbn [snd] in Y1. injection Y1 as <-.
  destruct (V1 j' k' X2) as [g V1']. destruct (V2 i' k' Y2) as [g' V2'].
  exists vs, vs', (anom1 w s' g k'). rewrite E1, E2. split; [auto|]. split; [auto|]. split; [auto|]. rewrite V2'. f_equal.
  apply anom1_det; [congruence|]. now apply no_nan_ordered.
Qed.
(** In direct mode the objects may be [orb] and [orb\[idx\]]: taking an orbit out of an object and working with it
    alone gives what working with the whole object gives (in lazy mode [orb\[idx\]] does not copy the flags, C49). *)
Theorem C100_item : forall n idx a p a' p' (s t s' t' : orb) k g, nan_arith (F := F) ->
  aligned n s -> odirect s = true -> getitem idx s = Ok t -> nth_selected n idx a p -> kep_shown g s p k -> ~ has_nan k ->
  both p a s t p' a' s' t' -> forall gb gb',
  (exists k', kep_shown gb s' p' k' /\ kep_shown gb' t' a' k') /\ (exists c', cart_shown gb s' p' c' /\ cart_shown gb' t' a' c')
  /\ forall w, exists vs vs' x, snd (get_of gb w s') = Ok vs /\ snd (get_of gb' w t') = Ok vs' /\ nth_error vs p' = Some x /\ nth_error vs' a' = Some x.
Proof.
  intros n idx a p a' p' s t s' t' k g Na A D E Hp Hk Nk B. pose proof A as [Hs _].
  destruct (C49_stored n idx s t Hs E) as [S [Tm [Tc [Tk [q [At _]]]]]].
  assert (Ls : lazy s = false) by (unfold lazy; rewrite D; apply andb_false_r).
  assert (Lt : lazy t = false) by (rewrite <- Ls; apply lazy_settings; congruence).
  destruct Hk as [ks [K1 K2]]. rewrite (get_kepler_eq g n) in K1 by auto. rewrite kchk_id in K1 by auto. cbn [snd] in K1. injection K1 as <-.
  assert (Hn : p < n) by (apply nth_error_lt in K2; destruct Hs; lia).
  destruct (col_ex n s p Hs Hn) as [c [k0 [m [cb [kb [C1 C2 C3 C4 C5]]]]]].
  apply (C100_alone n q p a p' a' s t s' t' m k c g g g g Na A At S (or_intror D)); auto.
  - intros L. apply lazy_mode_iff in L. congruence.
  - intros L. apply lazy_mode_iff in L. congruence.
  - now apply (Tm a p).
  - exists (okep s). rewrite (get_kepler_eq g n), kchk_id by auto. auto.
  - exists (okep t). rewrite (get_kepler_eq g q), kchk_id by (auto; apply At). split; [auto|]. now apply (Tk a p).
  - exists (ocart s). rewrite (get_cartesian_eq g n), cchk_id by auto. auto.
  - exists (ocart t). rewrite (get_cartesian_eq g q), cchk_id by (auto; apply At). split; [auto|]. now apply (Tc a p).
Qed.
End Alone.

Section Examples.
#[local] Existing Instance NP_toyn.
(** two orbits of type eccentric in lazy mode and an object with the second one only; both are read, propagated
    (the first orbit by another interval), given a new Cartesian state, then another x coordinate,
    then another velocity *)
Definition h100 : history Z := [(gd, OGetKep); (gd, OGetCart); (gd, OGetMean)].
Example C100_example : exists s t s1 t1 s2 t2 s3 t3 s4 t4 k c, init gd 1%Z (cfgl "eccentric" 2) (kwd matd) = Ok s
  /\ init gd 1%Z (cfgl "eccentric" 1) (kwd (fresh [6; 1] [8; 0; 2; 3; 4; 6]%Z)) = Ok t
  /\ aligned 2 s /\ aligned 1 t /\ settings t = settings s /\ lazy_mode s /\ ready s 1 /\ ready t 0 /\ nth_error (om s) 1 = nth_error (om t) 0
  /\ kep_shown gd s 1 k /\ kep_shown gd t 0 k /\ ~ has_nan k /\ cart_shown gd s 1 c /\ cart_shown gd t 0 c
  /\ propagate gd (fresh [2] [1; 2]%Z) (run h100 s) = (s1, Ok tt) /\ propagate gd (Sc 2%Z) t = (t1, Ok tt)
  /\ set_cartesian gd (fresh [6; 2] [3; 1; 3; 2; 3; 3; 3; 4; 3; 5; 3; 6]%Z) s1 = (s2, Ok tt)
  /\ set_cartesian gd (fresh [6] [1; 2; 3; 4; 5; 6]%Z) t1 = (t2, Ok tt)
  /\ set_cart_row gd 0 (fresh [2] [4; 2]%Z) s2 = (s3, Ok tt) /\ set_cart_row gd 0 (Sc 2%Z) t2 = (t3, Ok tt)
  /\ set_v gd (fresh [3; 2] [4; 2; 4; 3; 4; 5]%Z) s3 = (s4, Ok tt) /\ set_v gd (fresh [3; 1] [2; 3; 5]%Z) t3 = (t4, Ok tt)
  /\ both 1 0 s t 1 0 s4 t4 /\ okep s2 <> okep s.
Proof.
  eexists _, _, _, _, _, _, _, _, _, _, _, _. split; [vm_compute; reflexivity|]. split; [vm_compute; reflexivity|].
  split; [split; [apply toy_lens; vm_compute; reflexivity|match goal with |- alE _ ?x => exists (entries (oE x)) end; split; vm_compute; reflexivity]|].
  split; [split; [apply toy_lens; vm_compute; reflexivity|match goal with |- alE _ ?x => exists (entries (oE x)) end; split; vm_compute; reflexivity]|].
  split; [reflexivity|]. split; [now split|]. split; [intros _; left; reflexivity|]. split; [intros _; left; reflexivity|]. split; [reflexivity|].
  split; [eexists; split; vm_compute; reflexivity|]. split; [eexists; split; vm_compute; reflexivity|].
  split; [rewrite has_nan_iff; vm_compute; discriminate|].
  split; [eexists; split; vm_compute; reflexivity|]. split; [eexists; split; vm_compute; reflexivity|].
  do 8 (split; [vm_compute; reflexivity|]). split; [|vm_compute; discriminate].
  apply (both_reads_l 1 0 h100); [split; repeat constructor|].
  eapply (both_propagate 1 0 gd gd (fresh [2] [1; 2]%Z) (Sc 2%Z) 2%Z); try (vm_compute; reflexivity).
  - repeat constructor. - exists gd. eexists. split; [eexists; split; vm_compute; reflexivity|rewrite has_nan_iff; vm_compute; discriminate].
  - eapply (both_cartesian 1 0 gd gd (fresh [6; 2] [3; 1; 3; 2; 3; 3; 3; 4; 3; 5; 3; 6]%Z) (fresh [6] [1; 2; 3; 4; 5; 6]%Z) (mk6 1 2 3 4 5 6)%Z).
    + apply wfv_fresh. reflexivity.
    + apply wfv_fresh. reflexivity.
    + intros r Hr. do 6 (destruct r as [|r]; [reflexivity|]). lia.
    + intros r Hr. do 6 (destruct r as [|r]; [reflexivity|]). lia.
    + rewrite has_nan_iff. vm_compute. discriminate.
    + vm_compute. reflexivity.
    + vm_compute. reflexivity.
    + exists gd. eexists. split; [eexists; split; vm_compute; reflexivity|rewrite has_nan_iff; vm_compute; discriminate].
    + eapply (both_coordinate 1 0 gd gd 0 (fresh [2] [4; 2]%Z) (Sc 2%Z) 2%Z); try (vm_compute; reflexivity); [lia|repeat constructor| | | |].
      * split; [intros _; reflexivity|]. eexists. split; [reflexivity|rewrite has_nan_iff; vm_compute; discriminate].
      * split; [intros _; reflexivity|]. eexists. split; [reflexivity|rewrite has_nan_iff; vm_compute; discriminate].
      * exists gd. eexists. split; [eexists; split; vm_compute; reflexivity|rewrite has_nan_iff; vm_compute; discriminate].
      * eapply (both_half 1 0 false gd gd (fresh [3; 2] [4; 2; 4; 3; 4; 5]%Z) (fresh [3; 1] [2; 3; 5]%Z) (fun r => nth r [2; 3; 5] 0)%Z).
        -- apply wfv_fresh. reflexivity.
        -- apply wfv_fresh. reflexivity.
        -- intros r Hr. do 3 (destruct r as [|r]; [now split|]). lia.
        -- split; [intros _; reflexivity|]. eexists. split; [reflexivity|rewrite has_nan_iff; vm_compute; discriminate].
        -- split; [intros _; reflexivity|]. eexists. split; [reflexivity|rewrite has_nan_iff; vm_compute; discriminate].
        -- vm_compute. reflexivity.
        -- vm_compute. reflexivity.
        -- exists gd. eexists. split; [eexists; split; vm_compute; reflexivity|rewrite has_nan_iff; vm_compute; discriminate].
        -- apply both_end.
Qed.
(** the first of two orbits is deleted, the second moves to position 0; an orbit is added to the other object *)
Example C100_structure_example : exists s t s1 t1, init gd 1%Z (cfgl "eccentric" 2) (kwd matd) = Ok s
  /\ init gd 1%Z (cfgl "eccentric" 1) (kwd (fresh [6; 1] [8; 0; 2; 3; 4; 6]%Z)) = Ok t
  /\ delete (IInt 0) s = (s1, Ok tt) /\ add_orbits gd 1 (kwd (fresh [6; 1] [9; 0; 2; 3; 4; 6]%Z)) t = (t1, Ok tt)
  /\ both 1 0 s t 0 0 s1 t1 /\ length (okep s1) = 1 /\ length (okep t1) = 2.
Proof.
  eexists _, _, _, _. do 4 (split; [vm_compute; reflexivity|]). split; [|now split].
  eapply (both_delete_l 1 0 (IInt 0) 0).
  - exists 0. split; [vm_compute; lia|]. now left.
  - exists [1]. split; [|split; [|reflexivity]].
    + intros p. change (OrbitModel.num _) with 2. unfold selected, is_index. split.
      * intros [<-|[]]. split; [lia|]. intros [_ Q]. lia.
      * intros [Hp Q]. destruct p as [|[|p]]; [exfalso; apply Q; lia|now left|lia].
    + intros b c y z Hb Hc Hl. destruct c as [|c]; [lia|]. destruct c; discriminate.
  - vm_compute. reflexivity.
  - eapply (both_add_r 0 0 gd 1 (kwd (fresh [6; 1] [9; 0; 2; 3; 4; 6]%Z))); [left; reflexivity|vm_compute; reflexivity|apply both_end].
Qed.
(** direct mode: [orb] with two orbits and [orb\[1\]], both propagated, given a new semi-major axis and another
    eccentric anomaly *)
Example C100_item_example : exists s t s1 t1 s2 t2 s3 t3 k, init gd 1%Z (cfgd "true" 2) (kwd matd) = Ok s /\ aligned 2 s /\ odirect s = true
  /\ getitem (IInt 1) s = Ok t /\ nth_selected 2 (IInt 1) 0 1 /\ kep_shown gd s 1 k /\ ~ has_nan k
  /\ propagate gd (fresh [2] [1; 2]%Z) s = (s1, Ok tt) /\ propagate gd (Sc 2%Z) t = (t1, Ok tt) 
  /\ set_kep_row gd 0 (fresh [2] [9; 7]%Z) s1 = (s2, Ok tt) /\ set_kep_row gd 0 (Sc 7%Z) t1 = (t2, Ok tt)
  /\ set_of gd AEcc (fresh [2] [5; 3]%Z) s2 = (s3, Ok tt) /\ set_of gd AEcc (Sc 3%Z) t2 = (t3, Ok tt)
  /\ both 1 0 s t 1 0 s3 t3 /\ okep s3 <> okep s.
Proof.
  eexists _, _, _, _, _, _, _, _, _. split; [vm_compute; reflexivity|].
  split; [split; [apply toy_lens; vm_compute; reflexivity|match goal with |- alE _ ?x => exists (entries (oE x)) end; split; vm_compute; reflexivity]|].
  split; [reflexivity|]. split; [vm_compute; reflexivity|]. split; [split; [lia|]; split; [reflexivity|]; left; reflexivity|].
  split; [eexists; split; vm_compute; reflexivity|]. split; [rewrite has_nan_iff; vm_compute; discriminate|].
  do 6 (split; [vm_compute; reflexivity|]). split; [|vm_compute; discriminate].
  eapply (both_propagate 1 0 gd gd (fresh [2] [1; 2]%Z) (Sc 2%Z) 2%Z); try (vm_compute; reflexivity).
  - repeat constructor.
  - exists gd. eexists. split; [eexists; split; vm_compute; reflexivity|rewrite has_nan_iff; vm_compute; discriminate].
  - eapply (both_element 1 0 gd gd 0 (fresh [2] [9; 7]%Z) (Sc 7%Z) 7%Z); try (vm_compute; reflexivity); [lia|repeat constructor| | |].
    + intros [_ Q]. discriminate Q.
    + intros [_ Q]. discriminate Q.
    + eapply (both_anomaly 1 0 gd gd AEcc (fresh [2] [5; 3]%Z) (Sc 3%Z) 3%Z); try (vm_compute; reflexivity); [repeat constructor| | |apply both_end].
      * intros Q. discriminate Q.
      * exists gd. eexists. split; [eexists; split; vm_compute; reflexivity|rewrite has_nan_iff; vm_compute; discriminate].
Qed.
End Examples.
