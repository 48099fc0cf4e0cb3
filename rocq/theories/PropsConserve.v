(** * C99: an ephemeris loop (propagate, read, propagate, ...) conserves energy, angular momentum and eccentricity vector *)
From Coq Require Import Reals Lra Psatz List Bool Arith Lia ZArith QArith.
From Verif Require Import NP KeplerModel ConvModel UnitModel OrbitModel Lists ConvCols ArraySpec
  NPReal RealBase Spec AnomReal KepReal PropsKep CartInv PropsAnomaly PropsAnomalyR PropsSolver PropsScalar PropsCart
  EllState OrbitLists OrbitBase OrbitOps OrbitSetters OrbitInv OrbitGet OrbitSpec PropsOrbitWidth PropsOrbitDirect PropsOrbitLazy
  PropsOrbitWrite OrbitReal PropsOrbitType PropsOrbitProp PropsOrbitPropR PropsNewton PropsOrbitNewton PropsConverge PropsConvergeOrbit
  PropsOrbitLost PropsOrbitCalc PropsOrbitRead PropsDegrees PropsFloatPropC PropsNewtonUniq PropsEquiCart.
Import ListNotations.
Local Open Scope R_scope.
Notation orb := (OrbitModel.orb num).

(** ** Specification *)
(** any reads of the object; calc_eccentric_anomaly of all orbits only (C41: otherwise the object may be broken) *)
Definition whole_reads (h : history num) : Prop :=
  reads_only h /\ Forall (fun go => match snd go with OCalcEcc i => i = IAll | _ => True end) h.
(** the loop: propagate by arrays of intervals whose entry for orbit [j] is the next of [ds], with reads in between *)
Inductive loop (j : nat) : list R -> orb -> orb -> Prop :=
| loop_end s : loop j [] s s
| loop_propagate gb dt d ds s s1 s2 : wfv dt -> entry1 dt j (Fin d) -> propagate gb dt s = (s1, Ok tt) -> loop j ds s1 s2 -> loop j (d :: ds) s s2
| loop_reads h ds s s2 : whole_reads h -> loop j ds (run h s) s2 -> loop j ds s s2.
(** lazy mode: the Kepler elements of orbit [j] are current, or can be calculated from current Cartesian elements *)
Definition ready (s : orb) (j : nat) : Prop := lazy_mode s ->
  nth_error (okf s) j = Some true \/ nth_error (ocf s) j = Some true /\ exists c, nth_error (ocart s) j = Some c /\ nan6 c = false.
(** the sum of the intervals *)
Definition total (ds : list R) : R := fold_right Rplus 0 ds.

(** ** The flags after propagate *)
Lemma propagate_flags gb n dt (s s' : orb) : aligned n s -> wfv dt -> propagate gb dt s = (s', Ok tt) -> lazy s = true ->
  okf s' = okf (kchk gb s).
Proof.
  intros A Hd E Lz. pose proof A as [Hs HE]. unfold propagate in E. rewrite bind_get in E. cbv zeta in E.
  change (get_mean_anomaly gb) with (get_of gb AMean) in E.
  destruct (get_of_spec gb n AMean s A) as [sa [ms [E1 [C1 [A1 [Lm Vm]]]]]]. rewrite (bind_ok _ _ _ _ _ E1) in E.
  pose proof A1 as [H1 _]. pose proof (core_settings gb n s sa Hs C1) as Es.
  pose proof (kchk_core gb gb n s sa Hs H1 C1) as Ka.
  pose proof (get_mean_motion_eq gb n sa H1) as Emm. rewrite Ka in Emm. rewrite (bind_ok _ _ _ _ _ Emm), bind_lift in E.
  revert E. set (nn := map2 _ _ _). destruct (bcast1 _ dt) as [ds|er]; [|discriminate].
  change (set_mean_anomaly gb) with (set_of gb AMean). set (x := map3 _ _ _ _). intros E.
  pose proof (set_of_eq gb n AMean (fresh [length x] x) sa H1 (wfv_fresh1 _ x eq_refl)) as Est.
  assert (Bs : base gb AMean sa = sa) by (unfold base; rewrite Ka; now destruct (anomaly_eqb _ _)).
  assert (Da : odirect sa = false).
  { apply lazy_mode_iff in Lz. rewrite (settings_direct s sa) by auto. apply Lz. }
  destruct (okro sa); [rewrite (bind_err _ _ _ _ _ Est) in E; discriminate|].
  destruct (anom_arg gb AMean sa (fresh [length x] x)) as [v|er]; [|rewrite (bind_err _ _ _ _ _ Est) in E; discriminate].
  destruct (bcast1 n v) as [vs|er]; [|rewrite (bind_err _ _ _ _ _ Est) in E; discriminate].
  rewrite (bind_ok _ _ _ _ _ Est), bind_get, Bs in E. unfold aft_keprow in E. cbn [odirect with_kep with_cf] in E.
  repeat (cbn [odirect with_kep with_cf] in E; rewrite Da in E). unfold ret in E. injection E as <-. cbn [okf with_kep with_cf].
  unfold core in C1. congruence.
Qed.
Lemma kchk_ready gb n (s : orb) j : lens n s -> (j < n)%nat -> lazy s = true -> ready s j -> nth_error (okf (kchk gb s)) j = Some true.
Proof.
  intros Hs Hj L R. destruct (col_ex n s j Hs Hj) as [c [k [m [cb [kb C]]]]].
  destruct (kchk_spec gb n s Hs) as [_ [_ E]]. destruct E as [_ [_ [_ [_ [_ [_ E]]]]]].
  destruct (E _ _ _ _ _ _ C) as [c' [k' [cb' [kb' [C' [-> [-> [R1 R2]]]]]]]]. rewrite L in R1, R2. cbn [andb] in R1, R2.
  rewrite (col_kb _ _ _ _ _ _ _ C'). f_equal. destruct kb; [now destruct (R1 eq_refl)|].
  destruct (R (proj2 (lazy_mode_iff s) L)) as [Q|[Q [c1 [Q1 Q2]]]].
  - rewrite (col_kb _ _ _ _ _ _ _ C) in Q. discriminate.
  - rewrite (col_c _ _ _ _ _ _ _ C) in Q1. injection Q1 as <-. rewrite Q2 in R2. now destruct (R2 eq_refl).
Qed.
Lemma propagate_ready_after gb n dt (s s' : orb) j : aligned n s -> wfv dt -> propagate gb dt s = (s', Ok tt) -> (j < n)%nat -> ready s j ->
  ready s' j.
Proof.
  intros A Hd E Hj R L. destruct (propagate_ok gb n dt s s' A Hd E) as [Ho [ds Hb]].
  destruct (propagate_spec gb n dt ds s A Hd Ho Hb) as [s2 [vs [E2 [_ [Es _]]]]]. assert (s2 = s') by congruence. subst s2.
  apply lazy_mode_iff in L. rewrite (settings_lazy s s') in L by auto. left.
  rewrite (propagate_flags gb n dt s s' A Hd E L). apply (kchk_ready gb n); auto. apply A.
Qed.
(** ** Reads *)
Lemma reads_aligned n h (s : orb) : whole_reads h -> aligned n s -> aligned n (run h s).
Proof.
  intros [R W]. revert s. induction h as [|[gb o] h IH]; intros s A; [exact A|]. cbn [run].
  inversion R as [|? ? R1 R2]; subst. inversion W as [|? ? W1 W2]; subst. cbn [snd] in R1, W1. apply IH; auto.
  assert (Hw : width_ok gb o s).
  { split; [destruct o; try discriminate; exact I|]. destruct o; try exact I. intros _. exact W1. }
  destruct (C41_step gb o s (ex_intro _ n A) Hw) as [n' A']. enough (n' = n) as -> by exact A'.
  assert (Q : lens n (run [(gb, o)] s)).
  { apply (readers_run (fun t => lens n t)); [eauto| | | | |apply A].
    - intros. now apply lens_kchk.
    - intros. now apply lens_cchk.
    - intros m t t' Ec L L'. now apply (pin_core (fun _ => True) n m t t').
    - constructor; [exact R1|constructor]. }
  cbn [run] in Q. now apply (aligned_lens n' n (fst (run_op gb o s))).
Qed.
Lemma ready_not_stale (s : orb) j : ready s j -> not_both_stale s j.
Proof. intros R L. destruct (R L) as [Q|[Q _]]; auto. Qed.
Lemma reads_keep n h (s : orb) j : whole_reads h -> aligned n s -> (j < n)%nat -> ready s j ->
  settings (run h s) = settings s /\ nth_error (om (run h s)) j = nth_error (om s) j /\ ready (run h s) j.
Proof.
  intros [R _] [Hs _] Hj Rd. destruct (col_ex n s j Hs Hj) as [c [k [m [cb [kb C]]]]]. destruct (lazy s) eqn:L.
  2:{ destruct (idle_run n s h s R L Hs eq_refl) as [E _]. unfold core in E. assert (Q : settings (run h s) = settings s) by congruence.
      split; [auto|]. split; [congruence|]. intros Lr. apply lazy_mode_iff in Lr. rewrite (settings_lazy s) in Lr by auto. congruence. }
  rewrite (col_m _ _ _ _ _ _ _ C). destruct (Rd (proj2 (lazy_mode_iff s) L)) as [Q|[Q [c1 [Q1 Q2]]]].
  - rewrite (col_kb _ _ _ _ _ _ _ C) in Q. injection Q as ->.
    assert (P : pinK n s j c k m cb s) by (split; [auto|]; split; [auto|]; exists c, cb; auto).
    destruct (pinK_run n s j c k m cb h s R P) as [_ [S [? [? [[] _]]]]]. split; [auto|]. split; [auto|]. intros _. now left.
  - rewrite (col_cb _ _ _ _ _ _ _ C) in Q. injection Q as ->. rewrite (col_c _ _ _ _ _ _ _ C) in Q1. injection Q1 as <-.
    assert (P : pinC n s j c k m kb s) by (split; [auto|]; split; [auto|]; exists k, kb; auto).
    destruct (pinC_run n s j c k m kb h s R P) as [_ [S [? [? [[] _]]]]]. split; [auto|]. split; [auto|]. intros _. right. eauto.
Qed.
Lemma reads_rows gb gb' n h (s : orb) j ks (k : six R) : whole_reads h -> aligned n s -> (j < n)%nat -> ready s j ->
  snd (get_kepler gb s) = Ok ks -> nth_error ks j = Some (fin6 k) ->
  (exists ks', snd (get_kepler gb' (run h s)) = Ok ks' /\ nth_error ks' j = Some (fin6 k))
  /\ forall cs c, snd (get_cartesian gb s) = Ok cs -> nth_error cs j = Some c ->
     exists cs', snd (get_cartesian gb' (run h s)) = Ok cs' /\ nth_error cs' j = Some c.
Proof.
  intros [R W] [Hs _] Hj Rd Ek Hk.
  destruct (C71_reads_partial gb gb' n s h j Hs Hj R (ready_not_stale s j Rd)) as (cs & ks0 & cs' & ks' & c & k0 & c' & k' & Q1 & Q2 & Q3 & Q4 & Q5 & Q6 & Q7 & Q8 & Q9).
  assert (ks0 = ks) by congruence. subst ks0. assert (k0 = fin6 k) by congruence. subst k0.
  destruct Q9 as [-> ->]; [destruct k; apply ordered_fin|]. split; [eauto|]. intros cs0 c0 P1 P2.
  assert (cs0 = cs) by congruence. subst cs0. assert (c0 = c) by congruence. subst c0. eauto.
Qed.

(** ** The invariants of the loop *)
Section Loop.
Variables (n j : nat) (S : orb) (k : six R) (m mu tl : R).
Hypotheses (Hmu : 0 < mu) (Em : mu_real S m mu) (Ha : 0 < s0 k) (He : 0 <= s1 k < 1) (Hop : opts_ok (oopts S) tl).
(** all elements but the anomaly are those of [k] *)
Definition held (x : R) (s : orb) : Prop := aligned n s /\ settings s = settings S /\ nth_error (om s) j = Some (Fin m) /\ ready s j
  /\ forall gb, exists ks, snd (get_kepler gb s) = Ok ks /\ nth_error ks j = Some (fin6 (with_nu k x)).
(** the Cartesian state read is that of the body at true anomaly [nu] *)
Definition at_nu (nu : R) (s : orb) : Prop := forall gb, exists cs, snd (get_cartesian gb s) = Ok cs /\ nth_error cs j = Some (fin6 (peri_state mu (radk (odeg S) k nu))).
Lemma held_lt x s : held x s -> (j < n)%nat.
Proof. intros [[Hs _] [_ [Q _]]]. apply nth_error_lt in Q. destruct Hs. lia. Qed.
Lemma held_sets x s : held x s -> otype s = otype S /\ odeg s = odeg S /\ oopts s = oopts S /\ oauto s = oauto S /\ odirect s = odirect S /\ mu_real s m mu.
Proof.
  intros [_ [Q _]]. apply settings_eq in Q. destruct Q as (Q1 & Q2 & Q3 & Q4 & _ & _ & Q7 & Q8 & Q9).
  repeat (split; [assumption|]). unfold mu_real in *. now rewrite Q1, Q2.
Qed.
Lemma read_held x h s : whole_reads h -> held x s -> held x (run h s).
Proof.
  intros W Hh. pose proof (held_lt x s Hh) as Hj. destruct Hh as [A [Es [Hm [Rd Hk]]]].
  destruct (reads_keep n h s j W A Hj Rd) as [R1 [R2 R3]]. split; [now apply reads_aligned|]. split; [congruence|]. split; [congruence|]. split; [auto|].
  intros gb. destruct (Hk gb) as [ks [K1 K2]]. destruct (reads_rows gb gb n h s j ks _ W A Hj Rd K1 K2) as [Q _]. exact Q.
Qed.
Lemma read_at x nu h s : whole_reads h -> held x s -> at_nu nu s -> at_nu nu (run h s).
Proof.
  intros W Hh Ht gb. pose proof (held_lt x s Hh) as Hj. destruct Hh as [A [Es [Hm [Rd Hk]]]]. destruct (Hk gb) as [ks [K1 K2]].
  destruct (Ht gb) as [cs [T1 T2]]. destruct (reads_rows gb gb n h s j ks _ W A Hj Rd K1 K2) as [_ Q]. exact (Q cs _ T1 T2).
Qed.
Lemma propagate_held gb dt d x s s' : wfv dt -> entry1 dt j (Fin d) -> propagate gb dt s = (s', Ok tt) -> held x s ->
  exists x', held x' s' /\ forall M T, mean_of (otype S) (s1 k) (ang (odeg S) x) M -> in_circle T -> cong2pi T (M + rate mu (s0 k) * d) ->
    (otype S = AMean -> ang (odeg S) x' = T)
    /\ (solved (oopts S) T (s1 k) -> exists M', mean_of (otype S) (s1 k) (ang (odeg S) x') M' /\ Rabs (M' - T) < tl).
Proof.
  intros Wd Hd E Hh. pose proof (held_lt x s Hh) as Hj. destruct (held_sets x s Hh) as (T1 & T2 & T3 & T4 & T5 & T6). destruct Hh as [A [Es [Hm [Rd Hk]]]].
  destruct (Hk gb) as [ks [K1 K2]].
  destruct (C55_advance gb gb n dt s s' ks j (with_nu k x) m mu d tl A Wd E K1 K2 Hm Hd Hmu T6 Ha He ltac:(now rewrite T3)) as (ks' & x' & R1 & R2 & A' & Es' & Eo & P).
  exists x'. rewrite T1, T2, T3 in P. split; [|exact P].
  split; [auto|]. split; [congruence|]. split; [congruence|]. split; [now apply (propagate_ready_after gb n dt s s' j)|].
  destruct (propagate_ok gb n dt s s' A Wd E) as [Ho [ds Hb]].
  destruct (propagate_spec gb n dt ds s A Wd Ho Hb) as [s2 [vs [E2 [_ [_ [_ [_ [_ [_ [Rd' _]]]]]]]]]]. assert (s2 = s') by congruence. subst s2.
  intros gb'. exists ks'. split; [|exact R2]. rewrite Rd' in *. exact R1.
Qed.
Lemma propagate_at gb dt d x' s s' : wfv dt -> entry1 dt j (Fin d) -> propagate gb dt s = (s', Ok tt) -> (exists x, held x s) -> held x' s' ->
  oauto S = true \/ odirect S = true ->
  exists nu, at_nu nu s' /\ (otype S <> AMean -> body (otype S) (s1 k) (ang (odeg S) x') nu)
   /\ (otype S = AMean -> solved (oopts S) (ang (odeg S) x') (s1 k) -> exists M', Rabs (M' - ang (odeg S) x') < tl /\ body AMean (s1 k) M' nu).
Proof.
  intros Wd Hd E [x Hh] Hh' Hau. destruct (held_sets x s Hh) as (T1 & T2 & T3 & T4 & T5 & T6). destruct Hh as [A [Es [Hm [Rd Hk]]]].
  destruct Hh' as [A' [Es' [Hm' [_ Hk']]]].
  destruct (propagate_ok gb n dt s s' A Wd E) as [Ho [ds Hb]].
  destruct (propagate_spec gb n dt ds s A Wd Ho Hb) as [s2 [vs [E2 [_ [_ [_ [_ [_ [_ [Rd' [_ Rc]]]]]]]]]]]. assert (s2 = s') by congruence. subst s2.
  assert (Hz : lazy s = true \/ odirect s = true).
  { unfold lazy. rewrite T4, T5. destruct (odirect S); [auto|]. destruct Hau as [-> |?]; [auto|discriminate]. }
  assert (J' : nth_error (okep s') j = Some (fin6 (with_nu k x'))).
  { destruct (Hk' gb) as [ks' [K1 K2]]. rewrite Rd' in K1. congruence. }
  assert (G : forall gb', exists c, snd (get_cartesian gb' s') = Ok (ocart (cchk gb' s')) /\ nth_error (ocart (cchk gb' s')) j = Some c /\ Cc s (fin6 (with_nu k x')) (Fin m) c).
  { intros gb'. destruct (Rc Hz gb' j _ _ J' (PropsOrbitType.fin6_nan _) Hm) as [c [Hc Cc]]. exists c. split; [|auto].
    rewrite (get_cartesian_eq gb' n) by apply A'. reflexivity. }
  destruct (anomaly_eqb (otype S) AMean) eqn:Et.
  - assert (Et' : otype S = AMean) by (destruct (otype S); auto; discriminate).
    destruct (G gb) as [c [_ [_ C]]].
    destruct (Cc_real_mean s (with_nu k x') m mu c tl Hmu Ha He T6 ltac:(now rewrite T3) ltac:(congruence) C) as [nu [Q1 Q2]]. rewrite T2, T3 in *.
    exists nu. split; [|split; [congruence|intros _ So; exact (Q2 So)]].
    intros gb'. destruct (G gb') as [c' [G1 [G2 G3]]]. eexists. split; [exact G1|]. rewrite G2. f_equal.
    rewrite (Cc_det1 s c (Fin m) (fin6 (with_nu k x')) c'); [exact Q1|destruct k; apply ordered_fin|exact C|exact G3].
  - assert (Et' : otype S <> AMean) by (intros Z; rewrite Z in Et; discriminate).
    destruct (body_ex (s1 k) He (otype S) (ang (odeg S) x')) as [nu Hn]. exists nu. split; [|split; [auto|congruence]].
    intros gb'. destruct (G gb') as [c' [G1 [G2 G3]]]. eexists. split; [exact G1|]. rewrite G2. f_equal.
    rewrite (Cc_real s (with_nu k x') m mu c' Hmu Ha He T6 ltac:(congruence) G3 nu); [now rewrite T2|]. rewrite T1, T2. exact Hn.
Qed.
Lemma loop_held ds x s s' : loop j ds s s' -> held x s -> exists x', held x' s'.
Proof.
  intros Lp. revert x. induction Lp as [s|gb dt d ds s s1 s2 Wd Hd E Lp IH|h ds s s2 W Lp IH]; intros x Hh; [eauto| |].
  - destruct (propagate_held gb dt d x s s1 Wd Hd E Hh) as [x' [Hh' _]]. eauto.
  - apply (IH x). now apply read_held.
Qed.
Lemma loop_at ds x s s' : loop j ds s s' -> held x s -> oauto S = true \/ odirect S = true -> ds <> [] \/ (exists nu, at_nu nu s) ->
  exists nu, at_nu nu s'.
Proof.
  intros Lp. revert x. induction Lp as [s|gb dt d ds s s1 s2 Wd Hd E Lp IH|h ds s s2 W Lp IH]; intros x Hh Hau Q.
  - destruct Q as [Q|Q]; [congruence|exact Q].
  - destruct (propagate_held gb dt d x s s1 Wd Hd E Hh) as [x' [Hh' _]].
    destruct (propagate_at gb dt d x' s s1 Wd Hd E (ex_intro _ x Hh) Hh' Hau) as [nu [Hn _]]. apply (IH x'); eauto.
  - apply (IH x); auto; [now apply read_held|]. destruct Q as [Q|[nu Q]]; [auto|]. right. exists nu. now apply (read_at x).
Qed.
End Loop.

(** ** Conservation *)
Lemma held_start n j (s : orb) gb ks (k : six R) m : aligned n s -> ready s j -> snd (get_kepler gb s) = Ok ks -> nth_error ks j = Some (fin6 k) ->
  nth_error (om s) j = Some (Fin m) -> held n j s k m (s5 k) s.
Proof.
  intros A Rd Ek Hk Hm. assert (Hj : (j < n)%nat) by (apply nth_error_lt in Hm; destruct A as [[] _]; lia).
  split; [auto|]. split; [auto|]. split; [auto|]. split; [auto|]. intros gb'. replace (with_nu k (s5 k)) with k by now destruct k.
  assert (W : whole_reads []) by (split; constructor).
  destruct (reads_rows gb gb' n [] s j ks k W A Hj Rd Ek Hk) as [Q _]. exact Q.
Qed.
Lemma conserved mu k nu : 0 < mu -> 0 < s0 k -> 0 <= s1 k < 1 -> forall deg, let y := peri_state mu (radk deg k nu) in
  energy mu y = - mu / (2 * s0 k)
  /\ ang_mom y = scal3 (sqrt (mu * (s0 k * (1 - s1 k * s1 k)))) (W_axis (radk deg k 0))
  /\ ecc_vec mu y = scal3 (s1 k) (P_axis (radk deg k 0)).
Proof.
  intros Hmu Ha He deg y. set (kr := radk deg k nu).
  assert (V : valid_kep mu kr).
  { unfold valid_kep, kr, radk, k_a, k_e, k_nu. cbn [s0 s1 s5]. pose proof (COS_bound nu). repeat split; try lra; try nra. }
  pose proof (state_of_peri mu kr V) as St. destruct (C02_energy mu kr y V St) as [E1 _].
  assert (Es : semi_latus (k_a kr) (k_e kr) = s0 k * (1 - s1 k * s1 k)).
  { unfold semi_latus, kr, radk, k_a, k_e. cbn [s0 s1]. destruct (Rlt_dec (s1 k) 1); [|lra]. reflexivity || ring. }
  split; [apply E1; apply He|]. split.
  - unfold y. fold kr. rewrite (peri_h mu kr) by auto. now rewrite Es.
  - unfold y. fold kr. now rewrite (peri_ecc mu kr) by auto.
Qed.
(** Exact arithmetic, elliptic orbits, direct and lazy mode, degrees or radians, every anomaly type, every
    positive tolerance (the solver need not converge): after any number of propagate calls with any reads in
    between, the elements other than the anomaly are the initial ones, and energy, angular momentum and
    eccentricity vector of the Cartesian state are exactly those of the initial orbit. *)
Theorem C99_conserved : forall gb gb' n j ds (s s' : orb) ks (k : six R) m mu tl,
  aligned n s -> ready s j -> loop j ds s s' -> ds <> [] ->
  snd (get_kepler gb s) = Ok ks -> nth_error ks j = Some (fin6 k) -> nth_error (om s) j = Some (Fin m) ->
  0 < mu -> mu_real s m mu -> 0 < s0 k -> 0 <= s1 k < 1 -> opts_ok (oopts s) tl -> oauto s = true \/ odirect s = true ->
  exists ks' x cs y, snd (get_kepler gb' s') = Ok ks' /\ nth_error ks' j = Some (fin6 (with_nu k x))
  /\ snd (get_cartesian gb' s') = Ok cs /\ nth_error cs j = Some (fin6 y)
  /\ energy mu y = - mu / (2 * s0 k)
  /\ ang_mom y = scal3 (sqrt (mu * (s0 k * (1 - s1 k * s1 k)))) (W_axis (radk (odeg s) k 0))
  /\ ecc_vec mu y = scal3 (s1 k) (P_axis (radk (odeg s) k 0)).
Proof.
  intros gb gb' n j ds s s' ks k m mu tl A Rd Lp Nd Ek Hk Hm Hmu Em Ha He Hop Hau.
  pose proof (held_start n j s gb ks k m A Rd Ek Hk Hm) as H0.
  destruct (loop_held n j s k m mu tl Hmu Em Ha He Hop ds (s5 k) s s' Lp H0) as [x Hx].
  destruct (loop_at n j s k m mu tl Hmu Em Ha He Hop ds (s5 k) s s' Lp H0 Hau (or_introl Nd)) as [nu Hn].
  destruct Hx as (_ & _ & _ & _ & Q). destruct (Q gb') as [ks' [Q1 Q2]]. destruct (Hn gb') as [cs [C1 C2]].
  exists ks', x, cs, (peri_state mu (radk (odeg s) k nu)). repeat (split; [assumption|]). now apply conserved.
Qed.
(** From orb.cartesian = v: the integrals of the motion of the state read after the loop are those of the state assigned. *)
Theorem C99_cartesian : forall gb0 gb1 gb' n v j ds (sa s s' : orb) cs (x : six R) i m mu tl,
  aligned n sa -> wfv v -> set_cartesian gb0 v sa = (s, Ok tt) -> loop j ds s s' ->
  snd (get_cartesian gb1 s) = Ok cs -> nth_error cs j = Some (fin6 x) -> nth_error (om sa) j = Some (Fin m) ->
  0 < mu -> mu_real sa m mu -> opts_ok (oopts sa) tl -> oauto sa = true \/ odirect sa = true ->
  (* a bound orbit away from the thresholds of cart_to_kep *)
  ang_mom x <> (0, 0, 0) -> energy mu x < 0 -> angle_between (ang_mom x) (0, 0, 1) i -> planar_orbit i \/ inclined_orbit i ->
  norm (ecc_vec mu x) = 0 \/ eccentric_orbit (norm (ecc_vec mu x)) ->
  exists cs' y, snd (get_cartesian gb' s') = Ok cs' /\ nth_error cs' j = Some (fin6 y)
  /\ energy mu y = energy mu x /\ ang_mom y = ang_mom x /\ ecc_vec mu y = ecc_vec mu x.
Proof.
  intros gb0 gb1 gb' n v j ds sa s s' cs x i m mu tl A Hv Es Lp Hc Hj Hm Hmu Em Hop Hau Hh Hen Hi Hin Hec.
  destruct (kep_after_cart gb0 gb1 gb1 n v sa s cs j _ (Fin m) A Hv Es Hau Hc Hj (PropsOrbitType.fin6_nan _) Hm) as (A' & St & Om & ks & g & Hks & Hkj).
  destruct (held_real sa g mu m x i Hmu Em Hh Hen Hi Hin Hec) as (k & nu & Ek & Ea & Ee & B & Sx).
  rewrite Ek in Hkj. pose proof St as St'. apply settings_eq in St. destruct St as (S1 & S2 & S3 & S4 & _ & _ & S7 & S8 & S9).
  assert (Ha : 0 < s0 k) by (rewrite Ea; apply Rdiv_lt_0_compat; lra).
  assert (He : 0 <= s1 k < 1). { rewrite Ee. split; [apply sqrt_pos|now apply elliptic_elements]. }
  assert (Hjn : (j < n)%nat) by (apply nth_error_lt in Hm; destruct A as [[] _]; lia).
  assert (Rd : ready s j).
  { intros L. right. rewrite (set_cartesian_eq gb0 n) in Es by (auto; apply A). destruct (ocro sa); [discriminate|].
    destruct (whole_value n v) as [cs0|] eqn:Ew; [|discriminate]. injection Es as Es.
    assert (Lc : length cs0 = n) by (eapply whole_value_length; eauto). pose proof (proj1 A) as Hs.
    assert (H1 : lens n (with_cart (fun _ => cs0) sa)) by now apply lens_with_cart.
    assert (Ls : lazy_mode sa) by (refine (settings_lazy_mode sa s _ L); congruence).
    assert (Ocs : ocart s = cs).
    { rewrite (get_cartesian_eq gb1 n) in Hc by apply A'. cbn [snd] in Hc. injection Hc as Hc. rewrite <- Hc. symmetry.
      apply (cchk_keeps gb1 n); [apply A'|]. rewrite <- Es. now apply (after_cart_fresh gb0 n). }
    split; [|exists (fin6 x); split; [congruence|apply PropsOrbitType.fin6_nan]].
    rewrite <- Es. unfold aft_cart. cbn [odirect with_cart]. rewrite (lazy_mode_direct sa Ls). cbn. apply nth_all_true_ex. destruct Hs; lia. }
  assert (Em' : mu_real s m mu) by (unfold mu_real in *; now rewrite S1, S2).
  pose proof (held_start n j s gb1 ks k m A' Rd Hks Hkj ltac:(congruence)) as H0.
  assert (V : valid_kep mu (radk (odeg sa) k nu)).
  { unfold valid_kep, radk, k_a, k_e, k_nu. cbn [s0 s1 s5]. pose proof (COS_bound nu). repeat split; try lra; try nra. }
  pose proof (state_of_inv mu _ x V Sx) as Ex.
  assert (T0 : at_nu j s k mu nu s).
  { intros gb2. destruct (reads_rows gb1 gb2 n [] s j ks k ltac:(split; constructor) A' Hjn Rd Hks Hkj) as [_ Q].
    destruct (Q cs (fin6 x) Hc Hj) as [cs' [Q1 Q2]]. exists cs'. split; [exact Q1|]. now rewrite S7, <- Ex. }
  destruct (loop_at n j s k m mu tl Hmu Em' Ha He ltac:(now rewrite S9) ds (s5 k) s s' Lp H0 ltac:(now rewrite S3, S4) (or_intror (ex_intro _ nu T0))) as [nu' Hn].
  destruct (Hn gb') as [cs' [C1 C2]]. exists cs', (peri_state mu (radk (odeg s) k nu')). split; [auto|]. split; [auto|].
  destruct (conserved mu k nu' Hmu Ha He (odeg s)) as [Q1 [Q2 Q3]]. destruct (conserved mu k nu Hmu Ha He (odeg sa)) as [P1 [P2 P3]].
  rewrite <- Ex in P1, P2, P3. rewrite S7 in *. rewrite Q1, Q2, Q3. auto.
Qed.

(** ** The error along the orbit: at most the tolerance per call *)
Section Drift.
Variables (n j : nat) (S : orb) (k : six R) (m mu tl : R).
Hypotheses (Hmu : 0 < mu) (Em : mu_real S m mu) (Ha : 0 < s0 k) (He : 0 <= s1 k < 1) (Hop : conv_opts (oopts S) tl).
Let e := s1 k.
(** the anomaly [x] held by the object is that of a body with mean anomaly [M], up to [c] and full turns *)
Definition off (x M c : R) : Prop := exists M' z, mean_of (otype S) e (ang (odeg S) x) M' /\ Rabs (M' - (M + 2 * PI * IZR z)) <= c.
(** error of the stored anomaly after [p] calls; additional error of the Cartesian state *)
Definition gain (p : nat) : R := match otype S with AMean => 0 | _ => INR p * tl end.
Definition slack : R := match otype S with AMean => tl | _ => 0 end.
Definition seen (x nu : R) : Prop := forall M c, off x M c -> exists M' z, body AMean e M' nu /\ Rabs (M' - (M + 2 * PI * IZR z)) <= c + slack.
Lemma drift_step gb dt d x s s' M c : wfv dt -> entry1 dt j (Fin d) -> propagate gb dt s = (s', Ok tt) -> held n j S k m x s -> off x M c ->
  oauto S = true \/ odirect S = true ->
  exists x' nu, held n j S k m x' s' /\ at_nu j S k mu nu s' /\ off x' (M + rate mu (s0 k) * d) (c + gain 1) /\ seen x' nu.
Proof.
  intros Wd Hd E Hh (M1 & z & B1 & B2) Hau. pose proof (conv_opts_ok _ _ Hop) as Ho.
  destruct (propagate_held n j S k m mu tl Hmu Em Ha He Ho gb dt d x s s' Wd Hd E Hh) as (x' & Hh' & P).
  destruct (propagate_at n j S k m mu tl Hmu Em Ha He Ho gb dt d x' s s' Wd Hd E (ex_intro _ x Hh) Hh' Hau) as (nu & Hn & N1 & N2).
  exists x', nu. split; [auto|]. split; [auto|].
  destruct (turn_of (M1 + rate mu (s0 k) * d)) as [T [HT CT]]. destruct (P M1 T B1 HT CT) as [P1 P2].
  specialize (P2 (conv_solved_circle _ tl _ Hop He T HT)). destruct CT as [z' Hz']. unfold gain, seen, slack. split.
  - destruct (otype S) eqn:Et.
    1,2: destruct P2 as (M' & Q1 & Q2); exists M', (z + z')%Z; (split; [rewrite Et; exact Q1|]); rewrite plus_IZR; cbn [INR];
      replace (M' - (M + rate mu (s0 k) * d + 2 * PI * (IZR z + IZR z'))) with ((M' - T) + (M1 - (M + 2 * PI * IZR z))) by (rewrite Hz'; ring);
      pose proof (Rabs_triang (M' - T) (M1 - (M + 2 * PI * IZR z))); lra.
    exists T, (z + z')%Z. split; [rewrite Et; apply mean_of_mean; [exact He|]; rewrite (P1 eq_refl); apply cong_refl|]. rewrite plus_IZR.
    replace (T - (M + rate mu (s0 k) * d + 2 * PI * (IZR z + IZR z'))) with (M1 - (M + 2 * PI * IZR z)) by (rewrite Hz'; ring). lra.
  - intros M2 c2 (M3 & z3 & Q1 & Q2). destruct (otype S) eqn:Et.
    1,2: exists M3, z3; split; [apply Q1; try rewrite Et; apply N1; discriminate|lra].
    try rewrite Et in Q1. apply (mean_of_mean e _ _ He) in Q1. destruct Q1 as [z4 Hz4].
    destruct N2 as (M4 & Q3 & Q4); [reflexivity|rewrite (P1 eq_refl); exact (conv_solved_circle _ tl _ Hop He T HT)|].
    exists M4, (z3 + z4)%Z. split; [exact Q4|]. rewrite plus_IZR.
    replace (M4 - (M2 + 2 * PI * (IZR z3 + IZR z4))) with ((M4 - ang (odeg S) x') + (M3 - (M2 + 2 * PI * IZR z3))) by (rewrite Hz4; ring).
    pose proof (Rabs_triang (M4 - ang (odeg S) x') (M3 - (M2 + 2 * PI * IZR z3))). lra.
Qed.
Lemma gain_S p : gain (Datatypes.S p) = gain 1 + gain p.
Proof. unfold gain. destruct (otype S); rewrite ?S_INR; cbn [INR]; ring. Qed.
Lemma drift_loop ds x s s' M c : loop j ds s s' -> held n j S k m x s -> off x M c -> oauto S = true \/ odirect S = true ->
  ds <> [] \/ (exists nu, at_nu j S k mu nu s /\ seen x nu) ->
  exists x' nu, held n j S k m x' s' /\ at_nu j S k mu nu s' /\ off x' (M + rate mu (s0 k) * total ds) (c + gain (length ds)) /\ seen x' nu.
Proof.
  intros Lp. revert x M c. induction Lp as [s|gb dt d ds s s1 s2 Wd Hd E Lp IH|h ds s s2 W Lp IH]; intros x M c Hh Hf Hau Q.
  - destruct Q as [Q|(nu & Q1 & Q2)]; [congruence|]. exists x, nu. split; [auto|]. split; [auto|]. split; [|auto].
    unfold total, gain. cbn [fold_right length INR]. replace (M + rate mu (s0 k) * 0) with M by ring.
    replace (c + match otype S with AMean => 0 | _ => 0 * tl end) with c by (destruct (otype S); ring). exact Hf.
  - destruct (drift_step gb dt d x s s1 M c Wd Hd E Hh Hf Hau) as (x' & nu & Q1 & Q2 & Q3 & Q4).
    destruct (IH x' _ _ Q1 Q3 Hau (or_intror (ex_intro _ nu (conj Q2 Q4)))) as (x2 & nu2 & R1 & R2 & R3 & R4).
    exists x2, nu2. split; [auto|]. split; [auto|]. split; [|auto]. cbn [length]. rewrite gain_S. unfold total in *. cbn [fold_right].
    replace (M + rate mu (s0 k) * (d + fold_right Rplus 0 ds)) with (M + rate mu (s0 k) * d + rate mu (s0 k) * fold_right Rplus 0 ds) by ring.
    replace (c + (gain 1 + gain (length ds))) with (c + gain 1 + gain (length ds)) by ring. exact R3.
  - apply (IH x); auto; [now apply read_held|]. destruct Q as [Q|(nu & Q1 & Q2)]; [auto|]. right. exists nu. split; [now apply (read_at n j S k m mu x)|auto].
Qed.
End Drift.
Lemma mean_close_le mu k M M' T nu nu' t : 0 < mu -> 0 < k_a k -> 0 <= k_e k < 1 -> cong2pi M T -> Rabs (M' - T) <= t ->
  body AMean (k_e k) M nu -> body AMean (k_e k) M' nu' ->
  let x := peri_state mu (with_nu k nu) in let x' := peri_state mu (with_nu k nu') in
  norm (minus3 (pos x') (pos x)) <= k_a k / (1 - k_e k) * t
  /\ norm (minus3 (vel x') (vel x)) <= 3 * sqrt (mu / k_a k) / ((1 - k_e k) * (1 - k_e k) * (1 - k_e k)) * t.
Proof.
  intros Hm Ha He C B B1 B2 x x'.
  assert (G : forall A K, 0 < K -> (forall u, t < u -> A <= K * u) -> A <= K * t).
  { intros A K HK Q. apply le_epsilon. intros ep Hep. replace (K * t + ep) with (K * (t + ep / K)) by (field; lra). apply Q.
    assert (0 < ep / K) by now apply Rdiv_lt_0_compat. lra. }
  assert (H1 : 0 < 1 - k_e k) by lra. assert (0 < (1 - k_e k) * (1 - k_e k) * (1 - k_e k)) by (repeat apply Rmult_lt_0_compat; lra).
  assert (0 < sqrt (mu / k_a k)) by (apply sqrt_lt_R0; now apply Rdiv_lt_0_compat).
  split; apply G; try (apply Rdiv_lt_0_compat; lra); intros u Hu; apply (mean_close mu k M M' T nu nu' u); auto; lra.
Qed.
(** N calls: the state is that of the Newtonian trajectory at the total time, up to N times the tolerance;
    type mean: up to the tolerance, whatever the number of calls. *)
Theorem C99_drift : forall gb gb' n j ds (s s' : orb) ks (k : six R) m mu tl,
  aligned n s -> ready s j -> loop j ds s s' -> ds <> [] ->
  snd (get_kepler gb s) = Ok ks -> nth_error ks j = Some (fin6 k) -> nth_error (om s) j = Some (Fin m) ->
  0 < mu -> mu_real s m mu -> 0 < s0 k -> 0 <= s1 k < 1 -> conv_opts (oopts s) tl -> oauto s = true \/ odirect s = true ->
  forall M X, mean_of (otype s) (s1 k) (ang (odeg s) (s5 k)) M -> follows mu (radk (odeg s) k 0) M X ->
  let err := match otype s with AMean => tl | _ => INR (length ds) * tl end in
  exists cs y, snd (get_cartesian gb' s') = Ok cs /\ nth_error cs j = Some (fin6 y)
  /\ norm (minus3 (pos y) (pos (X (total ds)))) <= s0 k / (1 - s1 k) * err
  /\ norm (minus3 (vel y) (vel (X (total ds)))) <= 3 * sqrt (mu / s0 k) / ((1 - s1 k) * (1 - s1 k) * (1 - s1 k)) * err.
Proof.
  intros gb gb' n j ds s s' ks k m mu tl A Rd Lp Nd Ek Hk Hm Hmu Em Ha He Hop Hau M X HM HX err.
  pose proof (held_start n j s gb ks k m A Rd Ek Hk Hm) as H0.
  assert (F0 : off s k (s5 k) M 0). { exists M, 0%Z. split; [exact HM|]. replace (M - (M + 2 * PI * 0)) with 0 by ring. rewrite Rabs_R0. lra. }
  destruct (drift_loop n j s k m mu tl Hmu Em Ha He Hop ds (s5 k) s s' M 0 Lp H0 F0 Hau (or_introl Nd)) as (x & nu & _ & Hn & Of & Sn).
  destruct (Sn _ _ Of) as (M' & z & B & Bd). destruct (Hn gb') as [cs [C1 C2]].
  exists cs, (peri_state mu (radk (odeg s) k nu)). split; [auto|]. split; [auto|].
  assert (Ee : 0 + gain s tl (length ds) + slack s tl = err) by (unfold gain, slack, err; destruct (otype s); ring). rewrite Ee in Bd.
  destruct (HX (total ds)) as [nu0 [E0 [An [Sm St]]]]. change (k_e (radk (odeg s) k 0)) with (s1 k) in *.
  change (k_a (radk (odeg s) k 0)) with (s0 k) in Sm.
  pose proof (anom_valid mu (radk (odeg s) k 0) nu0 E0 Hmu Ha (proj1 He) An) as V0.
  rewrite (state_of_inv mu _ (X (total ds)) V0 St).
  unfold anomalies, same_mean, mean_rate, kepler_M in An, Sm. destruct (Rlt_dec (s1 k) 1); [|lra].
  apply (mean_close_le mu (radk (odeg s) k 0) (E0 - s1 k * sin E0) M' (M + rate mu (s0 k) * total ds + 2 * PI * IZR z) nu0 nu err); auto.
  - apply (cong_trans _ _ _ Sm). exists (- z)%Z. rewrite opp_IZR. unfold rate. ring.
  - exists E0. split; [apply cong_refl|exact An].
Qed.

(** ** Hypotheses met: orb.cartesian = (1, 0, 0, 0, 11/10, 0), mu = 1, lazy mode; propagate(1), read orb.cartesian, propagate(2) *)
Lemma two_steps gb (s : orb) d1 d2 : aligned 1 s -> okro s = false -> ready s 0 -> exists s1 s2,
  propagate gb (Sc (Fin d1)) s = (s1, Ok tt) /\ propagate gb (Sc (Fin d2)) (run [(gb, OGetCart)] s1) = (s2, Ok tt) /\ loop 0 [d1; d2] s s2.
Proof.
  intros A Ho Rd. destruct (propagate_spec gb 1 (Sc (Fin d1)) [Fin d1] s A I Ho eq_refl) as (s1 & vs & E1 & A1 & Es & _).
  assert (W : whole_reads [(gb, OGetCart)]) by (split; repeat constructor).
  pose proof (reads_aligned 1 _ s1 W A1) as A2.
  pose proof (propagate_ready_after gb 1 (Sc (Fin d1)) s s1 0 A I E1 (le_n 1) Rd) as Rd1.
  destruct (reads_keep 1 _ s1 0 W A1 (le_n 1) Rd1) as [K1 _].
  assert (Ho2 : okro (run [(gb, OGetCart)] s1) = false).
  { rewrite Es in K1. apply settings_eq in K1. destruct K1 as (_ & _ & _ & _ & K & _). congruence. }
  destruct (propagate_spec gb 1 (Sc (Fin d2)) [Fin d2] _ A2 I Ho2 eq_refl) as (s2 & vs2 & E2 & _).
  exists s1, s2. split; [auto|]. split; [auto|]. apply (loop_propagate 0 gb (Sc (Fin d1)) d1 [d2] s s1 s2 I eq_refl E1).
  apply (loop_reads 0 [(gb, OGetCart)]); [exact W|]. apply (loop_propagate 0 gb (Sc (Fin d2)) d2 [] _ s2 s2 I eq_refl E2). constructor.
Qed.
Example C99_example : forall gb, exists s s1 s2 cs y,
  set_cartesian gb (kvec (mk6 1 0 0 0 (11 / 10) 0)) (s_new true false) = (s, Ok tt)
  /\ propagate gb (Sc (Fin 1)) s = (s1, Ok tt) /\ propagate gb (Sc (Fin 2)) (fst (get_cartesian gb s1)) = (s2, Ok tt)
  /\ snd (get_cartesian gb s2) = Ok cs /\ nth_error cs 0 = Some (fin6 y)
  /\ energy 1 y = - (79 / 200) /\ ang_mom y = (0, 0, 11 / 10) /\ ecc_vec 1 y = (21 / 100, 0, 0).
Proof.
  intros gb. set (x := mk6 1 0 0 0 (11 / 10) 0). pose (sa := s_new true false).
  assert (A0 : aligned 1 sa) by (split; [now constructor|exists [nan]; auto]).
  pose (s := aft_cart gb (with_cart (fun _ => [fin6 x]) sa)).
  assert (A : aligned 1 s) by (split; [now constructor|exists [nan]; auto]).
  assert (Rd : ready s 0) by (intros _; right; split; [reflexivity|]; exists (fin6 x); split; [reflexivity|apply PropsOrbitType.fin6_nan]).
  destruct (two_steps gb s 1 2 A eq_refl Rd) as (s1 & s2 & E1 & E2 & Lp). cbn [run run_op] in E2. rewrite fst_void in E2.
  assert (P : norm (pos x) = 1). { unfold norm, dot, pos, x, vx, vy, vz. cbn. replace (1 * 1 + 0 * 0 + 0 * 0) with 1 by ring. apply sqrt_1. }
  assert (Hh : ang_mom x = (0, 0, 11 / 10)) by (unfold ang_mom, cross, pos, vel, x, vx, vy, vz; cbn; f_equal; [f_equal|]; ring).
  assert (En : energy 1 x = - (79 / 200)) by (unfold energy; rewrite P; unfold dot, vel, x, vx, vy, vz; cbn; field).
  assert (Ec : ecc_vec 1 x = (21 / 100, 0, 0)).
  { unfold ecc_vec. rewrite P, Hh. unfold minus3, scal3, cross, pos, vel, x, vx, vy, vz. cbn. f_equal; [f_equal|]; field. }
  assert (Nc : norm (ecc_vec 1 x) = 21 / 100).
  { rewrite Ec. unfold norm, dot, vx, vy, vz. cbn [fst snd]. replace (21 / 100 * (21 / 100) + 0 * 0 + 0 * 0) with (21 / 100 * (21 / 100)) by ring. apply sqrt_square. lra. }
  assert (N1 : norm (0, 0, 11 / 10) = 11 / 10). { unfold norm, dot, vx, vy, vz. cbn [fst snd]. replace (0 * 0 + 0 * 0 + 11 / 10 * (11 / 10)) with (11 / 10 * (11 / 10)) by ring. apply sqrt_square. lra. }
  assert (N2 : norm (0, 0, 1) = 1). { unfold norm, dot, vx, vy, vz. cbn [fst snd]. replace (0 * 0 + 0 * 0 + 1 * 1) with 1 by ring. apply sqrt_1. }
  destruct (C99_cartesian gb gb gb 1 (kvec x) 0 [1; 2] sa s s2 [fin6 x] x 0 0 1 (/ 1000000000000)) as (cs & y & C1 & C2 & C3 & C4 & C5); auto; try reflexivity; try lra.
  - split; reflexivity.
  - cbn [om sa s_new nth_error]. now rewrite (lit_0 : lit 0 = Fin 0).
  - unfold mu_real, sa. cbn [oG oM0 s_new]. num. f_equal. ring.
  - apply conv_opts_ok. exact conv_opts_default.
  - rewrite Hh. intros Q. injection Q. lra.
  - rewrite Hh. split; [pose proof PI_RGT_0; lra|]. rewrite N1, N2, cos_0. unfold dot, vx, vy, vz. cbn [fst snd]. ring.
  - left. now left.
  - right. rewrite Nc. unfold eccentric_orbit. lra.
  - exists s, s1, s2, cs, y. split; [reflexivity|]. split; [exact E1|]. split; [exact E2|]. split; [exact C1|]. split; [exact C2|].
    rewrite C3, C4, C5, En, Hh, Ec. auto.
Qed.
(** a circular orbit of radius 1, mu = 1, lazy mode, type true, from nu = 1; propagate(1), read orb.cartesian, propagate(2) *)
Example C99_drift_example : forall gb, exists s s1 s2 cs y,
  set_kepler gb (kvec (mk6 1 0 0 0 0 1)) (with_type ATrue (s_new true false)) = (s, Ok tt)
  /\ propagate gb (Sc (Fin 1)) s = (s1, Ok tt) /\ propagate gb (Sc (Fin 2)) (fst (get_cartesian gb s1)) = (s2, Ok tt)
  /\ snd (get_cartesian gb s2) = Ok cs /\ nth_error cs 0 = Some (fin6 y)
  /\ norm (minus3 (pos y) (cos 4, sin 4, 0)) <= 2 / 1000000000000 /\ norm (minus3 (vel y) (- sin 4, cos 4, 0)) <= 6 / 1000000000000.
Proof.
  intros gb. pose (k := mk6 1 0 0 0 0 1). pose (s := aft_kep gb (with_kep (fun _ => [fin6 k]) (with_type ATrue (s_new true false)))).
  assert (A : aligned 1 s) by (split; [now constructor|exists [nan]; auto]).
  assert (Rd : ready s 0) by (intros _; left; reflexivity).
  destruct (two_steps gb s 1 2 A eq_refl Rd) as (s1 & s2 & E1 & E2 & Lp). cbn [run run_op] in E2. rewrite fst_void in E2.
  assert (R1 : rate 1 1 = 1) by (unfold rate; replace (1 / (1 * 1 * 1)) with 1 by field; apply sqrt_1).
  pose (X := fun t => mk6 (cos (1 + t)) (sin (1 + t)) 0 (- sin (1 + t)) (cos (1 + t)) 0).
  assert (HX : follows 1 (radk false k 0) 1 X).
  { intros t. destruct (C56_circle (1 + t)) as [nu [E0 [Q1 [Q2 Q3]]]]. exists nu, E0. split; [exact Q1|]. split; [|exact Q3].
    unfold k_e, k_a, radk in *. cbn [NP.s0 NP.s1 k] in *. replace (1 + mean_rate 1 1 0 * t) with (0 + mean_rate 1 1 0 * (1 + t)); [exact Q2|].
    assert (mean_rate 1 1 0 = 1) as ->; [|ring]. unfold mean_rate. destruct (Rlt_dec 0 1); [exact R1|lra]. }
  assert (HM : mean_of ATrue 0 1 1).
  { intros nu. apply (body_same 0 ltac:(lra) ATrue 1 AMean 1 1 (cong_refl _)). exists 1. split; [exists 0%Z; ring|].
    unfold anomalies_ell. replace (1 - 0 * 0) with 1 by ring. rewrite sqrt_1. split; field. }
  destruct (propagate_ready gb ATrue true k) as [s' [E [_ [_ [_ [_ [Hm [Hm0 [Hk _]]]]]]]]].
  assert (s' = s) as -> by (unfold kvec in E; cbv [k] in E; symmetry; exact (f_equal fst E)).
  destruct (C99_drift gb gb 1 0 [1; 2] s s2 [fin6 k] k 0 1 (/ 1000000000000)) with (M := 1) (X := X) as (cs & y & C1 & C2 & C3 & C4); auto; try reflexivity; try (cbn; lra); try discriminate.
  - exact conv_opts_default.
  - exists s, s1, s2, cs, y. split; [exact E|]. split; [exact E1|]. split; [exact E2|]. split; [exact C1|]. split; [exact C2|].
    unfold total in C3, C4. cbn [fold_right length] in C3, C4.
    assert (Er : INR 2 * / 1000000000000 = 2 / 1000000000000) by (cbn [INR]; lra).
    assert (X3 : X (1 + (2 + 0)) = mk6 (cos 4) (sin 4) 0 (- sin 4) (cos 4) 0) by (unfold X; replace (1 + (1 + (2 + 0))) with 4 by ring; reflexivity).
    rewrite X3 in C3, C4. change (otype s) with ATrue in C3, C4. cbv beta iota in C3, C4. rewrite Er in C3, C4.
    unfold k in C3, C4. cbn [NP.s0 NP.s1] in C3, C4. replace (1 / 1) with 1 in C4 by field. rewrite sqrt_1 in C4.
    change (pos (mk6 (cos 4) (sin 4) 0 (- sin 4) (cos 4) 0)) with (cos 4, sin 4, 0) in C3.
    change (vel (mk6 (cos 4) (sin 4) 0 (- sin 4) (cos 4) 0)) with (- sin 4, cos 4, 0) in C4. split; lra.
Qed.
