(** * C71: reading an attribute does not change what the other attributes return *)
From Coq Require Import String List Bool Arith Lia ZArith QArith.
From Verif Require Import NP KeplerModel ConvModel UnitModel OrbitModel Lists ConvCols ArraySpec
  PropsAnomaly OrbitLists OrbitBase OrbitOps OrbitSetters OrbitInv OrbitSpec NPToyN PropsOrbitWidth OrbitGet
  PropsOrbitDirect PropsOrbitLazy PropsOrbitWrite PropsOrbitLost PropsOrbitCalc.
Import ListNotations.
Local Open Scope nat_scope.

Section Read.
Context {F : Type} `{NP F}.
Notation orb := (orb F).

(** ** Specification *)
(** in lazy mode: at least one of the two element sets of orbit [j] is marked as calculated *)
Definition not_both_stale (s : orb) (j : nat) : Prop :=
  lazy_mode s -> nth_error (ocf s) j = Some true \/ nth_error (okf s) j = Some true.

(** ** Proof *)
Lemma Kc_det1 (s : orb) c m k k' : ordered1 (s1 k) -> Kc s c m k -> Kc s c m k' -> k' = k.
Proof.
  intros O [g ->] [g' ->]. unfold kconv in *. set (k0 := c2k_col _ _ _) in *.
  assert (O' : ordered1 (s1 k0)) by (destruct (otype s); rewrite ?s1_set5 in O; exact O).
  destruct (otype s); [reflexivity| |]; f_equal.
  - unfold t2e1. now rewrite (branch_ordered (fst g') (fst g)).
  - unfold t2m1, t2e1, e2m1. now rewrite (branch_ordered (fst g') (fst g)), (branch_ordered (snd g') (snd g)).
Qed.
Lemma Cc_det1 (s : orb) c m k c' : ordered1 (s1 k) -> Cc s k m c -> Cc s k m c' -> c' = c.
Proof.
  intros O [g ->] [g' ->]. f_equal. unfold nu1. destruct (otype s); [reflexivity| |].
  - unfold e2t1. now rewrite (branch_ordered g' g).
  - unfold m2t1, e2t1. now rewrite (branch_ordered g' g).
Qed.
(** the Kepler side of column [j] is fresh and stays; the other side stays or is calculated from it *)
Definition pinK n (S : orb) j c k m cb (s : orb) : Prop :=
  lens n s /\ settings s = settings S /\ exists c' cb', col s j c' k m cb' true
  /\ (c' = c /\ cb' = cb \/ cb = false /\ nan6 k = false /\ cb' = true /\ Cc S k m c').
Definition pinC n (S : orb) j c k m kb (s : orb) : Prop :=
  lens n s /\ settings s = settings S /\ exists k' kb', col s j c k' m true kb'
  /\ (k' = k /\ kb' = kb \/ kb = false /\ nan6 c = false /\ kb' = true /\ Kc S c m k').
Lemma pinK_kchk gb n S j c k m cb (s : orb) : pinK n S j c k m cb s -> pinK n S j c k m cb (kchk gb s).
Proof.
  intros [Hs [Es [c1 [cb1 [C Q]]]]]. destruct (kchk_spec gb n s Hs) as [_ [_ E]].
  split; [now apply lens_kchk|]. split; [rewrite <- Es; now apply settings_step in E|].
  destruct E as [_ [_ [_ [_ [_ [_ E]]]]]]. destruct (E _ _ _ _ _ _ C) as [c' [k' [cb' [kb' [C' [-> [-> [R1 R2]]]]]]]].
  cbn [negb] in R1. rewrite andb_false_r in R1. destruct (R1 eq_refl) as [-> ->]. eauto.
Qed.
Lemma pinC_cchk gb n S j c k m kb (s : orb) : pinC n S j c k m kb s -> pinC n S j c k m kb (cchk gb s).
Proof.
  intros [Hs [Es [k1 [kb1 [C Q]]]]]. destruct (cchk_spec gb n s Hs) as [_ E].
  split; [now apply lens_cchk|]. split; [rewrite <- Es; now apply settings_step in E|].
  destruct E as [_ [_ [_ [_ [_ [_ E]]]]]]. destruct (E _ _ _ _ _ _ C) as [c' [k' [cb' [kb' [C' [R1 R2]]]]]].
  destruct R2 as [[_ [-> ->]]|[R2 _]]; [|cbn in R2; rewrite andb_false_r in R2; discriminate].
  exists k', kb'. split; [auto|]. destruct R1 as [[-> ->]|[_ [_ [R0 [Rn [R1 ->]]]]]]; [auto|]. right.
  destruct Q as [[-> ->]|Q]; [|exfalso; destruct Q as [_ [_ [Q _]]]; congruence]. repeat (split; [assumption || reflexivity|]).
  now apply (Kc_settings s).
Qed.
Lemma pinK_cchk gb n S j c k m cb (s : orb) : pinK n S j c k m cb s -> pinK n S j c k m cb (cchk gb s)
  /\ (lazy s = true -> exists c', nth_error (ocart (cchk gb s)) j = Some c' /\ (cb = true /\ c' = c \/ cb = false /\ (nan6 k = true /\ c' = c \/ nan6 k = false /\ Cc S k m c'))).
Proof.
  intros [Hs [Es [c1 [cb1 [C Q]]]]]. destruct (cchk_spec gb n s Hs) as [_ E].
  assert (Q0 : settings (cchk gb s) = settings S) by (rewrite <- Es; now apply settings_step in E).
  destruct E as [_ [_ [_ [_ [_ [_ E]]]]]]. destruct (E _ _ _ _ _ _ C) as [c' [k' [cb' [kb' [C' [R1 R2]]]]]].
  destruct R1 as [[-> ->]|[_ [_ [R1 _]]]]; [|discriminate]. destruct R2 as [[R0 [-> ->]]|[R0 [Rn [-> R2]]]].
  - split; [split; [now apply lens_cchk|]; split; eauto|]. intros L. rewrite L in R0. exists c1. split; [apply C'|].
    destruct Q as [[-> ->]|[-> [Qn [-> Qc]]]]; [|right; auto]. destruct cb; [now left|]. right. split; [auto|]. left.
    destruct R0 as [R0|R0]; [discriminate|auto].
  - destruct R2 as [_ R2]; [cbn [negb]; rewrite !andb_false_r; reflexivity|]. apply (Cc_settings s S) in R2; [|auto].
    assert (cb = false) as ->.
    { apply andb_true_iff in R0. destruct R0 as [_ R0]. apply negb_true_iff in R0. destruct Q as [[_ ->]|[-> _]]; auto. }
    split; [split; [now apply lens_cchk|]; split; [auto|]; exists c', true; split; [auto|]; right; auto|].
    intros _. exists c'. split; [apply C'|]. right. auto.
Qed.
Lemma pinC_kchk gb n S j c k m kb (s : orb) : pinC n S j c k m kb s -> pinC n S j c k m kb (kchk gb s)
  /\ (lazy s = true -> exists k', nth_error (okep (kchk gb s)) j = Some k' /\ (kb = true /\ k' = k \/ kb = false /\ (nan6 c = true /\ k' = k \/ nan6 c = false /\ Kc S c m k'))).
Proof.
  intros [Hs [Es [k1 [kb1 [C Q]]]]]. destruct (kchk_spec gb n s Hs) as [_ [_ E]].
  assert (Q0 : settings (kchk gb s) = settings S) by (rewrite <- Es; now apply settings_step in E).
  destruct E as [_ [_ [_ [_ [_ [_ E]]]]]]. destruct (E _ _ _ _ _ _ C) as [c' [k' [cb' [kb' [C' [-> [-> [R1 R2]]]]]]]].
  destruct (lazy s && negb kb1 && negb (nan6 c)) eqn:W.
  - destruct (R2 eq_refl) as [R ->]. apply (Kc_settings s S) in R; [|auto].
    apply andb_true_iff in W. destruct W as [W Wn]. apply andb_true_iff in W. destruct W as [_ Wk].
    apply negb_true_iff in Wn. apply negb_true_iff in Wk.
    assert (kb = false) as -> by (destruct Q as [[_ ->]|[-> _]]; auto).
    split; [split; [now apply lens_kchk|]; split; [auto|]; exists k', true; split; [auto|]; right; auto|].
    intros _. exists k'. split; [apply C'|]. right. auto.
  - destruct (R1 eq_refl) as [-> ->]. split; [split; [now apply lens_kchk|]; split; eauto|]. intros L. rewrite L in W. cbn in W.
    exists k1. split; [apply C'|]. destruct Q as [[-> ->]|[-> [Qn [-> Qc]]]]; [|right; auto].
    destruct kb; [now left|]. right. split; [auto|]. left. cbn in W. apply negb_false_iff in W. auto.
Qed.
Lemma pin_core (P : orb -> Prop) n n' (s0 s' : orb) : core s' = core s0 -> lens n' s' -> lens n s0 -> lens n s'.
Proof. intros E L L0. unfold core in E. destruct L, L0. constructor; congruence. Qed.
Lemma pinK_run n S j c k m cb h (s : orb) : reads_only h -> pinK n S j c k m cb s -> pinK n S j c k m cb (run h s).
Proof.
  apply (readers_run (pinK n S j c k m cb)).
  - intros t [Hs _]. eauto.
  - intros. now apply pinK_kchk.
  - intros. now apply pinK_cchk.
  - intros n' t t' E L [Hs [Es [c1 [cb1 [C Q]]]]]. split; [now apply (pin_core (fun _ => True) n n' t t')|]. unfold core in E.
    split; [congruence|]. exists c1, cb1. split; [|auto]. destruct C. constructor; congruence.
Qed.
Lemma pinC_run n S j c k m kb h (s : orb) : reads_only h -> pinC n S j c k m kb s -> pinC n S j c k m kb (run h s).
Proof.
  apply (readers_run (pinC n S j c k m kb)).
  - intros t [Hs _]. eauto.
  - intros. now apply pinC_kchk.
  - intros. now apply pinC_cchk.
  - intros n' t t' E L [Hs [Es [c1 [cb1 [C Q]]]]]. split; [now apply (pin_core (fun _ => True) n n' t t')|]. unfold core in E.
    split; [congruence|]. exists c1, cb1. split; [|auto]. destruct C. constructor; congruence.
Qed.
Lemma idle_run n (S : orb) h (s : orb) : reads_only h -> lazy S = false -> lens n s -> core s = core S -> core (run h s) = core S /\ lens n (run h s).
Proof.
  intros R L Hs Hc. apply (readers_run (fun t => core t = core S /\ lens n t)); auto.
  - intros t [_ Ht]. eauto.
  - intros gb t [Ht Lt]. rewrite kchk_id; auto. rewrite <- L. apply lazy_settings. unfold core in Ht. congruence.
  - intros gb t [Ht Lt]. rewrite cchk_id; auto. rewrite <- L. apply lazy_settings. unfold core in Ht. congruence.
  - intros n' t t' E Lt [Ht L']. split; [congruence|]. now apply (pin_core (fun _ => True) n n' t t').
Qed.

(** Every arithmetic and mode, any reads [h] in between (property reads, calc_* methods, iteration): the
    Kepler and Cartesian elements of orbit [j] that are returned afterwards are those that would have
    been returned before.  In lazy mode the orbit must not be stale on both sides
    ([C71_both_stale_refuted]). *)
Theorem C71_reads_partial : forall gb gb' n (s : orb) h j, lens n s -> j < n -> reads_only h -> not_both_stale s j ->
  exists cs ks cs' ks' c k c' k',
    snd (get_cartesian gb s) = Ok cs /\ snd (get_kepler gb s) = Ok ks
    /\ snd (get_cartesian gb' (run h s)) = Ok cs' /\ snd (get_kepler gb' (run h s)) = Ok ks'
    /\ nth_error cs j = Some c /\ nth_error ks j = Some k /\ nth_error cs' j = Some c' /\ nth_error ks' j = Some k'
    /\ (ordered1 (s1 k) -> c' = c /\ k' = k).
Proof.
  intros gb gb' n s h j Hs Hj R B. destruct (col_ex n s j Hs Hj) as [c [k [m [cb [kb C]]]]].
  destruct (lazy s) eqn:L.
  2:{ destruct (idle_run n s h s R L Hs eq_refl) as [E Hr].
      assert (Lr : lazy (run h s) = false) by (rewrite <- L; apply lazy_settings; unfold core in E; congruence).
      rewrite !(get_cartesian_eq _ n), !(get_kepler_eq _ n) by auto. rewrite !cchk_id, !kchk_id by auto. cbn [snd].
      unfold core in E. assert (ocart (run h s) = ocart s /\ okep (run h s) = okep s) as [-> ->] by (split; congruence).
      exists (ocart s), (okep s), (ocart s), (okep s), c, k, c, k. destruct C. auto 15. }
  destruct kb.
  - assert (P : pinK n s j c k m cb s) by (split; [auto|]; split; [auto|]; exists c, cb; auto).
    pose proof (pinK_run n s j c k m cb h s R P) as Pr. pose proof (proj1 Pr) as Hr.
    assert (Lr : lazy (run h s) = true) by (rewrite <- L; apply lazy_settings; apply Pr).
    rewrite !(get_cartesian_eq _ n), !(get_kepler_eq _ n) by auto. cbn [snd].
    destruct (proj2 (pinK_cchk gb n s j c k m cb s P) L) as [c1 [E1 Q1]].
    destruct (proj2 (pinK_cchk gb' n s j c k m cb _ Pr) Lr) as [c2 [E2 Q2]].
    destruct (pinK_kchk gb n s j c k m cb s P) as [_ [_ [? [? [C1 _]]]]].
    destruct (pinK_kchk gb' n s j c k m cb _ Pr) as [_ [_ [? [? [C2 _]]]]].
    do 4 eexists. exists c1, k, c2, k. do 4 (split; [reflexivity|]). split; [exact E1|]. split; [apply C1|]. split; [exact E2|]. split; [apply C2|].
    intros O. split; [|reflexivity]. destruct Q1 as [[-> ->]|[-> Q1]], Q2 as [[? ->]|[? Q2]]; try congruence.
    destruct Q1 as [[N1 ->]|[N1 Q1]], Q2 as [[N2 ->]|[N2 Q2]]; try congruence. now apply (Cc_det1 s c1 m k c2).
  - assert (cb = true) as ->.
    { destruct (B (proj2 (lazy_mode_iff s) L)) as [Q|Q]; [rewrite (col_cb _ _ _ _ _ _ _ C) in Q|rewrite (col_kb _ _ _ _ _ _ _ C) in Q]; congruence. }
    assert (P : pinC n s j c k m false s) by (split; [auto|]; split; [auto|]; exists k, false; auto).
    pose proof (pinC_run n s j c k m false h s R P) as Pr. pose proof (proj1 Pr) as Hr.
    assert (Lr : lazy (run h s) = true) by (rewrite <- L; apply lazy_settings; apply Pr).
    rewrite !(get_cartesian_eq _ n), !(get_kepler_eq _ n) by auto. cbn [snd].
    destruct (proj2 (pinC_kchk gb n s j c k m false s P) L) as [k1 [E1 Q1]].
    destruct (proj2 (pinC_kchk gb' n s j c k m false _ Pr) Lr) as [k2 [E2 Q2]].
    destruct (pinC_cchk gb n s j c k m false s P) as [_ [_ [? [? [C1 _]]]]].
    destruct (pinC_cchk gb' n s j c k m false _ Pr) as [_ [_ [? [? [C2 _]]]]].
    do 4 eexists. exists c, k1, c, k2. do 4 (split; [reflexivity|]). split; [apply C1|]. split; [exact E1|]. split; [apply C2|]. split; [exact E2|].
    intros O. split; [reflexivity|]. destruct Q1 as [[? _]|[_ Q1]], Q2 as [[? _]|[_ Q2]]; try discriminate.
    destruct Q1 as [[N1 ->]|[N1 Q1]], Q2 as [[N2 ->]|[N2 Q2]]; try congruence. now apply (Kc_det1 s c m k1 k2).
Qed.
(** the three anomalies *)
Theorem C71_anomalies_partial : forall gb gb' n w (s : orb) h j, aligned n s -> aligned n (run h s) -> j < n -> reads_only h -> not_both_stale s j ->
  exists vs vs' ks k, snd (get_of gb w s) = Ok vs /\ snd (get_of gb' w (run h s)) = Ok vs'
  /\ snd (get_kepler gb s) = Ok ks /\ nth_error ks j = Some k
  /\ (ordered1 (s1 k) -> nth_error vs' j = nth_error vs j).
Proof.
  intros gb gb' n w s h j A A' Hj R B. pose proof A as [Hs _]. pose proof A' as [Hr _].
  destruct (C71_reads_partial gb gb' n s h j Hs Hj R B) as [cs [ks [cs' [ks' [c [k [c' [k' [_ [Ek [_ [Ek' [_ [Hk [_ [Hk' Q]]]]]]]]]]]]]]]].
  destruct (get_of_spec gb n w s A) as [t [vs [E [_ [_ [_ V]]]]]]. destruct (get_of_spec gb' n w _ A') as [t' [vs' [E' [_ [_ [_ V']]]]]].
  rewrite E, E', Ek. exists vs, vs', ks, k. repeat (split; [reflexivity || assumption|]). intros O. destruct (Q O) as [_ ->].
  rewrite (get_kepler_eq gb n) in Ek by auto. rewrite (get_kepler_eq gb' n) in Ek' by auto. cbn [snd] in Ek, Ek'.
  assert (K1 : okep (kchk gb s) = ks) by congruence. assert (K2 : okep (kchk gb' (run h s)) = ks') by congruence.
  rewrite K1 in V. rewrite K2 in V'. destruct (V j k Hk) as [g ->]. destruct (V' j k Hk') as [g' ->]. f_equal.
  assert (S : settings (run h s) = settings s).
  { assert (G : forall t, lens n t /\ settings t = settings s -> lens n (run h t) /\ settings (run h t) = settings s).
    { intros t0. apply (readers_run (fun t => lens n t /\ settings t = settings s)); auto.
      - intros x [Hx _]. eauto.
      - intros g0 x [Hx Sx]. split; [now apply lens_kchk|]. rewrite <- Sx. now apply (kchk_settings g0 n).
      - intros g0 x [Hx Sx]. split; [now apply lens_cchk|]. rewrite <- Sx. destruct (cchk_spec g0 n x Hx) as [_ Z]. now apply settings_step in Z.
      - intros n' x x' Z Lx [Hx Sx]. split; [now apply (pin_core (fun _ => True) n n' x x')|]. unfold core in Z. congruence. }
    apply G. auto. }
  rewrite (anom1_settings w _ s g' k S). now apply anom1_ordered.
Qed.
End Read.

Section Fresh.
Context {F : Type} `{NP F}.
Notation orb := (orb F).
(** after a whole-state assignment no orbit is stale on both sides *)
Theorem C71_whole_write : forall gb n v (s s' : orb) j, lens n s -> wfv v -> j < n ->
  set_cartesian gb v s = (s', Ok tt) \/ set_kepler gb v s = (s', Ok tt) -> not_both_stale s' j.
Proof.
  intros gb n v s s' j Hs Hv Hj [E|E] L.
  - rewrite (set_cartesian_eq gb n) in E by auto. destruct (ocro s); [discriminate|].
    destruct (whole_value n v) as [cs|] eqn:Ew; [|discriminate]. injection E as <-. left.
    assert (Lc : length cs = n) by (eapply whole_value_length; eauto).
    assert (H1 : lens n (with_cart (fun _ => cs) s)) by now apply lens_with_cart.
    assert (Ls : lazy_mode s) by (refine (settings_lazy_mode s _ _ L); now rewrite (aft_cart_settings gb n)).
    unfold aft_cart. cbn [odirect with_cart]. rewrite (lazy_mode_direct s Ls). cbn. apply nth_all_true_ex. destruct Hs; lia.
  - rewrite (set_kepler_eq gb n) in E by auto. destruct (okro s); [discriminate|].
    destruct (whole_value n v) as [cs|] eqn:Ew; [|discriminate]. injection E as <-. right.
    assert (Lc : length cs = n) by (eapply whole_value_length; eauto).
    assert (H1 : lens n (with_kep (fun _ => cs) s)) by now apply lens_with_kep.
    assert (Ls : lazy_mode s) by (refine (settings_lazy_mode s _ _ L); now rewrite (aft_kep_settings gb n)).
    unfold aft_kep. cbn [odirect with_kep]. rewrite (lazy_mode_direct s Ls). cbn. apply nth_all_true_ex. destruct Hs; lia.
Qed.
(** reads keep it so *)
Theorem C71_reads_fresh : forall n (s : orb) h j, lens n s -> j < n -> reads_only h -> not_both_stale s j -> not_both_stale (run h s) j.
Proof.
  intros n s h j Hs Hj R B. destruct (col_ex n s j Hs Hj) as [c [k [m [cb [kb C]]]]]. destruct (lazy s) eqn:L.
  2:{ intros Lr. apply lazy_mode_iff in Lr. destruct (idle_run n s h s R L Hs eq_refl) as [E _].
      assert (lazy (run h s) = false) by (rewrite <- L; apply lazy_settings; unfold core in E; congruence). congruence. }
  intros _. destruct (B (proj2 (lazy_mode_iff s) L)) as [Q|Q].
  - rewrite (col_cb _ _ _ _ _ _ _ C) in Q. injection Q as ->.
    assert (P : pinC n s j c k m kb s) by (split; [auto|]; split; [auto|]; exists k, kb; auto).
    destruct (pinC_run n s j c k m kb h s R P) as [_ [_ [? [? [[] _]]]]]. now left.
  - rewrite (col_kb _ _ _ _ _ _ _ C) in Q. injection Q as ->.
    assert (P : pinK n s j c k m cb s) by (split; [auto|]; split; [auto|]; exists c, cb; auto).
    destruct (pinK_run n s j c k m cb h s R P) as [_ [_ [? [? [[] _]]]]]. now right.
Qed.
End Fresh.

Section Examples.
#[local] Existing Instance NP_toyn.
(** two orbits of type eccentric in lazy mode, Cartesian elements assigned, then five reads *)
Example C71_example : exists s s1, init gd 1%Z (cfgl "eccentric" 2) (kwd matd) = Ok s /\ lens 2 s /\ lazy_mode s
  /\ set_cartesian gd (fresh [6; 1] [1; 2; 3; 4; 5; 6]%Z) s = (s1, Ok tt) /\ reads_only h45
  /\ not_both_stale s1 1 /\ aligned 2 s1 /\ aligned 2 (run h45 s1) /\ run h45 s1 <> s1.
Proof.
  eexists _, _. split; [vm_compute; reflexivity|]. split; [apply toy_lens; vm_compute; reflexivity|]. split; [now split|].
  split; [vm_compute; reflexivity|]. split; [repeat constructor|]. split; [left; vm_compute; reflexivity|].
  split; [split; [apply toy_lens; vm_compute; reflexivity|match goal with |- alE _ ?x => exists (entries (oE x)) end; split; vm_compute; reflexivity]|].
  split; [split; [apply toy_lens; vm_compute; reflexivity|match goal with |- alE _ ?x => exists (entries (oE x)) end; split; vm_compute; reflexivity]|]. vm_compute. discriminate.
Qed.
End Examples.
