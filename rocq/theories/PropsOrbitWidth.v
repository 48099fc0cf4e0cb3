(** * C41: the arrays of an Orbit stay aligned, over every history of public operations. *)
From Coq Require Import String List Bool Arith Lia ZArith QArith.
From Verif Require Import NP KeplerModel ConvModel UnitModel OrbitModel Lists ConvCols ArraySpec
  PropsAnomaly OrbitLists OrbitBase OrbitOps OrbitSetters OrbitInv OrbitSpec NPToy.
Import ListNotations.
Local Open Scope nat_scope.

Section Width.
Context {F : Type} `{NP F}.
Notation orb := (orb F).

Definition al (s : orb) : Prop := exists n, aligned n s.
(** well-formed array arguments; calc_eccentric_anomaly of part of the orbits is excluded for
    type "mean" (refuted below) *)
Definition width_ok (gb : nat -> nat -> F) (o : op F) (s : orb) : Prop :=
  wf_op o /\ match o with OCalcEcc i => otype s = AMean -> i = IAll | _ => True end.

Lemma alE_of n (s s' : orb) : alE n s -> oE s' = oE s -> alE n s'.
Proof. intros [d [E L]] E'. exists d. now rewrite E'. Qed.
Lemma al_step n (s s' : orb) R : aligned n s -> colstep n s s' R -> aligned n s'.
Proof. intros [Hs HE] [Hl [_ [_ [E _]]]]. split; auto. eapply alE_of; eauto. Qed.
Lemma aligned_kchk gb n (s : orb) : aligned n s -> aligned n (kchk gb s).
Proof. intros Hs. pose proof Hs as [Hl _]. destruct (kchk_spec gb n s Hl) as [_ [_ E]]. eapply al_step; eauto. Qed.
Lemma aligned_cchk gb n (s : orb) : aligned n s -> aligned n (cchk gb s).
Proof. intros Hs. pose proof Hs as [Hl _]. destruct (cchk_spec gb n s Hl) as [_ E]. eapply al_step; eauto. Qed.
Lemma aligned_kall gb n (s : orb) : aligned n s -> aligned n (kall gb s).
Proof. intros Hs. pose proof Hs as [Hl _]. destruct (kall_spec gb n s Hl) as [_ [_ E]]. eapply al_step; eauto. Qed.
Lemma aligned_call gb n (s : orb) : aligned n s -> aligned n (call_ gb s).
Proof. intros Hs. pose proof Hs as [Hl _]. destruct (call_spec gb n s Hl) as [_ E]. eapply al_step; eauto. Qed.
Lemma aligned_with_cart n (s : orb) cs : aligned n s -> length cs = n -> aligned n (with_cart (fun _ => cs) s).
Proof. intros [Hs HE] L. split; [now apply lens_with_cart|exact HE]. Qed.
Lemma aligned_with_kep n (s : orb) cs : aligned n s -> length cs = n -> aligned n (with_kep (fun _ => cs) s).
Proof. intros [Hs HE] L. split; [now apply lens_with_kep|exact HE]. Qed.
Lemma aligned_with_m n (s : orb) cs : aligned n s -> length cs = n -> aligned n (with_m (fun _ => cs) s).
Proof. intros [Hs HE] L. split; [now apply lens_with_m|exact HE]. Qed.
Lemma alE_call gb n (s : orb) : lens n s -> alE n s -> alE n (call_ gb s).
Proof. intros Hs HE. now destruct (aligned_call gb n s (conj Hs HE)). Qed.
Lemma alE_kall gb n (s : orb) : lens n s -> alE n s -> alE n (kall gb s).
Proof. intros Hs HE. now destruct (aligned_kall gb n s (conj Hs HE)). Qed.
Lemma aligned_aft_cartrow gb n (s : orb) : aligned n s -> aligned n (aft_cartrow gb s).
Proof. intros [Hs HE]. split; [now apply lens_aft_cartrow|]. unfold aft_cartrow. destruct (odirect s); [now apply alE_kall|exact HE]. Qed.
Lemma aligned_aft_keprow gb n (s : orb) : aligned n s -> aligned n (aft_keprow gb s).
Proof. intros [Hs HE]. split; [now apply lens_aft_keprow|]. unfold aft_keprow. destruct (odirect s); [now apply alE_call|exact HE]. Qed.
Lemma aligned_aft_cart gb n (s : orb) : aligned n s -> aligned n (aft_cart gb s).
Proof. intros [Hs HE]. split; [now apply lens_aft_cart|]. unfold aft_cart. destruct (odirect s); [now apply alE_kall|exact HE]. Qed.
Lemma aligned_aft_kep gb n (s : orb) : aligned n s -> aligned n (aft_kep gb s).
Proof. intros [Hs HE]. split; [now apply lens_aft_kep|]. unfold aft_kep. destruct (odirect s); [now apply alE_call|exact HE]. Qed.
Lemma aligned_aft_cart_at gb n ps (s : orb) : aligned n s -> aligned n (aft_cart_at gb ps s).
Proof.
  intros [Hs HE]. unfold aft_cart_at. destruct (odirect s); [split; [now apply lens_kall|now apply alE_kall]|].
  split; [|exact HE]. apply lens_with_cf; [apply lens_with_kf; auto|]; rewrite put_length; now destruct Hs.
Qed.
Lemma aligned_aft_kep_at gb n ps (s : orb) : aligned n s -> aligned n (aft_kep_at gb ps s).
Proof.
  intros [Hs HE]. unfold aft_kep_at. destruct (odirect s); [split; [now apply lens_call|now apply alE_call]|].
  split; [|exact HE]. apply lens_with_kf; [apply lens_with_cf; auto|]; rewrite put_length; now destruct Hs.
Qed.
Lemma aligned_calcC gb n i (s : orb) : aligned n s -> aligned n (fst (calculate_cartesian gb i s)).
Proof.
  intros [Hs HE]. destruct (resolve n i) as [ps|e] eqn:Er.
  - destruct (calcC gb n s i ps Hs Er) as [_ E]. eapply al_step; [split; eauto|eauto].
  - rewrite (calculate_cartesian_raise gb n s i e Hs Er). now split.
Qed.
Lemma aligned_calcK gb n i (s : orb) : aligned n s -> aligned n (fst (calculate_kepler gb i s)).
Proof.
  intros [Hs HE]. destruct (resolve n i) as [ps|e] eqn:Er.
  - destruct (calcK gb n s i ps Hs Er) as [_ [_ E]]. eapply al_step; [split; eauto|eauto].
  - rewrite (calculate_kepler_raise gb n s i e Hs Er). now split.
Qed.
Lemma aligned_base gb n w (s : orb) : aligned n s -> aligned n (base gb w s).
Proof. intros Hs. unfold base. destruct (anomaly_eqb _ _); auto using aligned_kchk. Qed.
Lemma aligned_lens m n (s : orb) : aligned m s -> lens n s -> m = n.
Proof. intros [[] _] []. congruence. Qed.
Lemma aligned_alloc n (s : orb) : aligned n (fst (allocate n s)).
Proof.
  split; [constructor; cbn; apply repeat_length|]. exists (repeat nan n). cbn. split; [reflexivity|apply repeat_length].
Qed.

Theorem C41_step gb o (s : orb) : al s -> width_ok gb o s -> al (fst (run_op gb o s)).
Proof.
  intros Hs [Hw Ho]. unfold al in *.
  apply (op_inv gb (fun s => exists n, aligned n s) (fun _ => True) (fun _ => True)
           (fun i s => otype s = AMean -> i = IAll) (fun _ _ => True) True True True True); auto.
  - intros s0 [n A]. exists n. now apply aligned_kchk.
  - intros s0 [n A]. exists n. now apply aligned_cchk.
  - intros n s0 l [m A] Hl Ll. exists n. rewrite (aligned_lens m n s0 A Hl) in A. destruct A as [A1 A2].
    split; [now apply lens_with_nu|exact A2].
  - intros n s0 l [m A] Hl Ll. exists n. rewrite (aligned_lens m n s0 A Hl) in A. destruct A as [A1 A2].
    split; [now apply lens_with_Ma|exact A2].
  - intros s0 i [n [A1 A2]]. exists n. split; [destruct A1; now constructor|exact A2].
  - intros i s0 [n [A1 A2]] Hi. exists n. destruct (calc_ecc_cases gb n s0 i A1 A2 Hi) as [d [Ld [->| ->]]].
    + now apply aligned_kchk.
    + split; [destruct (lens_kchk gb n s0 A1); now constructor|]. exists d. auto.
  - intros n s0 cs [m A] Hl Ll. exists n. rewrite (aligned_lens m n s0 A Hl) in A. now apply aligned_aft_cart, aligned_with_cart.
  - intros n s0 cs [m A] Hl Ll. exists n. rewrite (aligned_lens m n s0 A Hl) in A. now apply aligned_aft_kep, aligned_with_kep.
  - intros n s0 cs [m A] _ Hl Ll. exists n. rewrite (aligned_lens m n s0 A Hl) in A. now apply aligned_aft_cartrow, aligned_with_cart.
  - intros n s0 cs [m A] _ Hl Ll. exists n. rewrite (aligned_lens m n s0 A Hl) in A. now apply aligned_aft_keprow, aligned_with_kep.
  - intros n s0 kep' vs [m A] _ Hl Lk Lv. cbv zeta. split; auto. exists n. rewrite (aligned_lens m n s0 A Hl) in A.
    assert (B : aligned n (base gb AMean (with_kep (fun _ => kep') s0))) by now apply aligned_base, aligned_with_kep.
    apply aligned_aft_keprow. destruct B as [B1 B2]. split; [|exact B2]. apply lens_with_kep; auto.
    rewrite set_row_length, (l_k n _ B1). lia.
  - intros n s0 cs i ps [m A] Hl Ll _ _. exists n. rewrite (aligned_lens m n s0 A Hl) in A. now apply aligned_aft_cart_at, aligned_with_cart.
  - intros n s0 cs i ps [m A] Hl Ll _ _. exists n. rewrite (aligned_lens m n s0 A Hl) in A. now apply aligned_aft_kep_at, aligned_with_kep.
  - intros n s0 l _ [m A] Hl Ll. exists n. rewrite (aligned_lens m n s0 A Hl) in A. now apply aligned_with_m.
  - intros n s0 l _ [m A] Hl Ll. exists n. rewrite (aligned_lens m n s0 A Hl) in A. now apply aligned_with_cart.
  - intros n s0 l _ [m A] Hl Ll. exists n. rewrite (aligned_lens m n s0 A Hl) in A. now apply aligned_with_kep.
  - intros n s0 ps _ A. eexists. eapply del_aligned; eauto.
  - intros n s0 k row _ A L _. exists (n + k). apply aligned_with_m; auto. now apply app_aligned.
  - intros s0 n _. exists n. apply aligned_alloc.
  - intros s0 t _ [n [A1 A2]]. exists n. split; [destruct A1; now constructor|exact A2].
  - intros s0 a d k c _ [n [A1 A2]]. exists n. split; [destruct A1; now constructor|exact A2].
  - intros s0 i [n A] _. exists n. now apply aligned_calcC.
  - intros s0 i [n A]. exists n. now apply aligned_calcK.
  - destruct o; cbn; auto.
Qed.
Lemma al_run h : forall s : orb, al s -> steps_ok width_ok h s -> al (run h s).
Proof.
  induction h as [|[gb o] h IH]; intros s Hs Hok; auto. destruct Hok as [H1 H2]. cbn [run].
  apply IH; auto. now apply C41_step.
Qed.
Lemma al_width (s : orb) : al s -> same_width s.
Proof. intros [n A]. now apply (aligned_same_width n). Qed.

(** the constructor, indexing and copy give aligned objects *)
Lemma al_update gb i kw (s : orb) : al s -> al (fst (update gb i kw s)).
Proof. intros Hs. apply (C41_step gb (OUpdate i kw)); auto. split; cbn; auto. Qed.
Lemma al_init gb M0 c kw (s : orb) : init gb M0 c kw = Ok s -> al s.
Proof.
  unfold init. destruct (anomaly_of (cf_type c)) as [t|]; [|discriminate]. set (s0 := mkorb _ _ _ _ _ _ _ _ _ _ _ _ _ _ _ _ _ _).
  destruct (bind _ _ s0) as [s1 [[]|]] eqn:Eb; [|discriminate]. injection 1 as <-.
  assert (A : al s1).
  { change s1 with (fst (s1, Ok tt : res unit)). rewrite <- Eb. apply (P_bind al).
    - exists (cf_num c). apply aligned_alloc.
    - intros _ s2 A2. apply (P_bind al).
      + destruct (kw_m kw); [|exact A2]. apply (C41_step gb (OSetM IAll a)); auto. split; cbn; auto.
      + intros _ s3 A3. destruct (Nat.eqb _ _); [exact A3|]. now apply al_update. }
  destruct A as [n [A1 A2]]. exists n. split; [destruct A1; now constructor|exact A2].
Qed.
Lemma al_getitem i (s s' : orb) : al s -> getitem i s = Ok s' -> al s'.
Proof.
  intros [n [[L1 L2 L3 L4 L5 L6 L7] _]] E. unfold getitem in E. rewrite L1, L3 in E.
  destruct (resolve n i) as [ps|] eqn:Er; [|discriminate]. cbn [rbind] in E. injection E as <-.
  assert (B : bounded n ps) by (eapply resolve_bounded; eauto).
  exists (length ps). split.
  - constructor; cbn; rewrite ?repeat_length; apply pick_length; now rewrite ?L1, ?L2, ?L3.
  - exists (repeat nan (length ps)). cbn. rewrite pick_length by now rewrite L1.
    split; [reflexivity|apply repeat_length].
Qed.

(** Full claim: with no exclusion at all.  Missing here: calc_eccentric_anomaly of part of the
    orbits when the type is "mean" (the full claim is refuted by that call). *)
Theorem C41_history_partial gb M0 c kw (s : orb) h : init gb M0 c kw = Ok s -> steps_ok width_ok h s -> same_width (run h s).
Proof. intros Hi Hh. apply al_width, al_run; auto. eapply al_init; eauto. Qed.
(** the same for an object obtained by indexing (or copying) another one at any time *)
Theorem C41_derived gb M0 c kw (s s' : orb) h i h' : init gb M0 c kw = Ok s -> steps_ok width_ok h s ->
  getitem i (run h s) = Ok s' -> steps_ok width_ok h' s' -> same_width (run h' s').
Proof.
  intros Hi Hh Hg Hh'. apply al_width, al_run; auto. eapply al_getitem; eauto. apply al_run; auto. eapply al_init; eauto.
Qed.
(** in every arithmetic: calc_eccentric_anomaly(0) in type "mean" replaces the cache by a float,
    so the arrays no longer have one entry per orbit *)
Theorem C41_full_refuted gb n (s : orb) : aligned n s -> 0 < n -> otype s = AMean ->
  ~ same_width (fst (run_op gb (OCalcEcc (IInt 0)) s)).
Proof.
  intros [Hs _] Hn Ht. assert (E : exists x, oE (fst (run_op gb (OCalcEcc (IInt 0)) s)) = Sc x).
  { cbn [run_op]. unfold calc_eccentric_anomaly. rewrite bind_get, Ht. unfold get_anom, get_e.
    pose proof (lens_kchk gb n s Hs) as Hl.
    assert (Es : forall k, exists y, sel (map (row_get k) (okep (kchk gb s))) (IInt 0) = Ok (Sc y)).
    { intros k. unfold sel. rewrite map_length, (l_k n _ Hl). unfold resolve. cbn [resolve_gen resolve_list].
      destruct n as [|n]; [lia|]. pose proof (l_k _ _ Hl) as Lk. destruct (okep (kchk gb s)) as [|x l]; [discriminate|].
      cbn. eexists. reflexivity. }
    destruct (Es 5) as [x E5]. destruct (Es 1) as [y E1].
    rewrite (get_row_bind gb n), bind_lift, E5 by auto. rewrite (get_row_bind' gb n), bind_lift, E1 by auto.
    rewrite bind_lift. unfold mean_to_eccentric. cbv zeta.
    destruct (odeg s); cbn [in_rad amap broadcast rbind out_deg];
      (destruct (eqb y (lit 0)); cbn; eexists; reflexivity). }
  destruct E as [x E]. unfold same_width. rewrite E. cbn. intuition discriminate.
Qed.
End Width.

Section Examples.
#[local] Existing Instance NP_toy.
Definition g0 (i j : nat) : Z := 7%Z.
Definition cfg0 (t : String.string) n : config Z :=
  mkconfig true false 1%Z {| tol := 0%Z; max_iter := 3%Z; degree := 5%Z |} false t n false false.
Definition mat1 : arg Z := fresh [6; 2] [1; 1; 1; 1; 2; 2; 3; 3; 4; 4; 5; 5]%Z.
Definition kwk (v : arg Z) : kws Z := mkkws None (Some v) None no6 no6.
(** a history that meets the hypotheses: construct two orbits, read, add one, delete one, propagate *)
Definition h1 : history Z :=
  [(g0, OGetCart); (g0, OAdd 1 (kwk (fresh [6; 1] [1; 1; 1; 1; 1; 1]%Z))); (g0, OSetMean (Sc 2%Z));
   (g0, OCalcEcc (IInt 0)); (g0, ODelete (IInt (-1))); (g0, OPropagate (Sc 1%Z))].
Example C41_history_example : exists s, init g0 1%Z (cfg0 "true"%string 2) (kwk mat1) = Ok s
  /\ steps_ok width_ok h1 s /\ num (run h1 s) = 2.
Proof. eexists. split; [vm_compute; reflexivity|]. split; [|vm_compute; reflexivity]. vm_compute. intuition discriminate. Qed.
(** after calc_eccentric_anomaly(0) in type "mean" the cache is a float and add() stops half-way *)
Definition h2 : history Z := [(g0, OCalcEcc (IInt 0)); (g0, OAdd 1 no_kws)].
Theorem C41_history_refuted : exists s, init g0 1%Z (cfg0 "mean"%string 2) (kwk mat1) = Ok s
  /\ length (om (run h2 s)) = 3 /\ length (okep (run h2 s)) = 3 /\ length (oMa (run h2 s)) = 2
  /\ length (okf (run h2 s)) = 2 /\ shape_of (oE (run h2 s)) = [] /\ ~ same_width (run h2 s).
Proof.
  eexists. split; [vm_compute; reflexivity|]. do 5 (split; [vm_compute; reflexivity|]).
  intros [_ [_ [_ [_ [Hl _]]]]]. vm_compute in Hl. discriminate.
Qed.
End Examples.
