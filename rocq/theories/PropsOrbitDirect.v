(** * C42: direct_update=True keeps Cartesian and Kepler elements consistent over every history. *)
From Coq Require Import String List Bool Arith Lia ZArith QArith Qround Qreals Reals Lra.
From Verif Require Import NP KeplerModel ConvModel UnitModel OrbitModel Lists ConvCols ArraySpec
  PropsAnomaly OrbitLists OrbitBase OrbitOps OrbitSetters OrbitInv OrbitSpec NPReal NPToyN PropsOrbitWidth.
Import ListNotations.
Local Open Scope nat_scope.

Section Direct.
Context {F : Type} `{NP F}.
Notation orb := (orb F).
Hypothesis NA : nan_arith (F := F).

Definition good (s : orb) (c k : six F) (m : F) : Prop :=
  nan6 c = true \/ nan6 k = true \/ Kc s c m k \/ Cc s k m c.
Definition dcol (s : orb) : Prop := forall j c k m cb kb, col s j c k m cb kb -> good s c k m.
Definition dinv (s : orb) : Prop := al s /\ odirect s = true /\ dcol s.

Lemma good_settings (s s' : orb) c k m : settings s = settings s' -> good s c k m -> good s' c k m.
Proof. intros E [?|[?|[?|?]]]; unfold good; eauto using Kc_settings, Cc_settings. Qed.
Lemma nan6_nan : nan6 (nan6c : six F) = true.
Proof. destruct NA as [E _]. unfold nan6, nan6c. cbn. now rewrite E. Qed.
Lemma lazy_direct (s : orb) : odirect s = true -> lazy s = false.
Proof. intros E. unfold lazy. rewrite E. apply andb_false_r. Qed.
Lemma direct_settings (s s' : orb) : settings s' = settings s -> odirect s' = odirect s.
Proof. intros E. apply settings_eq in E. tauto. Qed.

Lemma dcol_kall gb n (s : orb) : lens n s -> dcol (kall gb s).
Proof.
  intros Hs. destruct (kall_spec gb n s Hs) as [_ [_ E]]. pose proof (settings_step _ _ _ _ E) as Es.
  intros j c k m cb kb C. destruct (colstep_col _ _ _ _ _ _ _ _ _ _ Hs E C) as [c0 [k0 [cb0 [kb0 [C0 [-> [-> [R1 R2]]]]]]]].
  apply (good_settings s); auto. unfold good. destruct (nan6 c0); [auto|]. right. right. left. now apply R2.
Qed.
Lemma dcol_call gb n (s : orb) : odirect s = true -> lens n s -> dcol (call_ gb s).
Proof.
  intros Hd Hs. destruct (call_spec gb n s Hs) as [_ E]. pose proof (settings_step _ _ _ _ E) as Es.
  intros j c k m cb kb C. destruct (colstep_col _ _ _ _ _ _ _ _ _ _ Hs E C) as [c0 [k0 [cb0 [kb0 [C0 [R1 R2]]]]]].
  apply (good_settings s); auto. rewrite (lazy_direct s Hd) in *. unfold good.
  destruct R1 as [[-> ->]|[? _]]; [|discriminate].
  destruct R2 as [[[?|R2] _]|[_ [_ [_ R2]]]]; [discriminate|auto|]. right. right. right. now apply R2.
Qed.
Lemma dinv_kall gb n (s : orb) : odirect s = true -> aligned n s -> dinv (kall gb s).
Proof.
  intros Hd A. split; [exists n; now apply aligned_kall|]. destruct A as [Hs _]. destruct (kall_spec gb n s Hs) as [_ [_ E]].
  split; [rewrite (direct_settings s) by (eapply settings_step; eauto); auto|]. eapply dcol_kall; eauto.
Qed.
Lemma dinv_call gb n (s : orb) : odirect s = true -> aligned n s -> dinv (call_ gb s).
Proof.
  intros Hd A. split; [exists n; now apply aligned_call|]. destruct A as [Hs _]. destruct (call_spec gb n s Hs) as [_ E].
  split; [rewrite (direct_settings s) by (eapply settings_step; eauto); auto|]. eapply dcol_call; eauto.
Qed.

(** the operations of the claim.  Not included (see the refutations and DESIGN.md): assigning
    [type], changing masses or the mode flags, and a call that raised half-way. *)
Definition direct_ok (gb : nat -> nat -> F) (o : op F) (s : orb) : Prop :=
  width_ok gb o s /\
  match o with
  | OSetType _ | OSetM _ _ | OSetFlags _ _ _ _ => False
  | OSetEqui _ | OUpdate _ _ | OAdd _ _ => snd (run_op gb o s) = Ok tt
  | _ => True
  end.

Theorem C42_step gb o (s : orb) : dinv s -> direct_ok gb o s -> dinv (fst (run_op gb o s)).
Proof.
  intros Hs [[Hw Ho] Hk].
  assert (AL : forall n (s : orb), dinv s -> lens n s -> aligned n s).
  { intros n s0 [[m A] _] Hl. now rewrite <- (aligned_lens m n s0 A Hl). }
  apply (op_inv gb dinv (fun _ => True) (fun _ => True)
           (fun i s => otype s = AMean -> i = IAll) (fun _ _ => True) False False False False); auto; try tauto.
  - intros s0 [A _]. exact A.
  - intros s0 [A [D Q]]. rewrite kchk_id by now apply lazy_direct. now split.
  - intros s0 [A [D Q]]. rewrite cchk_id by now apply lazy_direct. now split.
  - intros n s0 l D Hl Ll. destruct D as [[m A] [D1 D2]]. split; [|split; [exact D1|]].
    + exists n. rewrite (aligned_lens m n s0 A Hl) in A. destruct A. split; auto. now apply lens_with_nu.
    + intros j c k m' cb kb []. apply (D2 j c k m' cb kb). now constructor.
  - intros n s0 l D Hl Ll. destruct D as [[m A] [D1 D2]]. split; [|split; [exact D1|]].
    + exists n. rewrite (aligned_lens m n s0 A Hl) in A. destruct A. split; auto. now apply lens_with_Ma.
    + intros j c k m' cb kb []. apply (D2 j c k m' cb kb). now constructor.
  - intros s0 i [[m [A1 A2]] [D1 D2]]. split; [|split; [exact D1|]].
    + exists m. split; [destruct A1; now constructor|exact A2].
    + intros j c k m' cb kb []. apply (D2 j c k m' cb kb). now constructor.
  - intros i s0 [[n [A1 A2]] [D1 D2]] Hi. destruct (calc_ecc_cases gb n s0 i A1 A2 Hi) as [d [Ld [->| ->]]];
      rewrite kchk_id by now apply lazy_direct.
    + split; [exists n; now split|auto].
    + split; [|split; [exact D1|]].
      * exists n. split; [destruct A1; now constructor|]. exists d. auto.
      * intros j c k m' cb kb []. apply (D2 j c k m' cb kb). now constructor.
  - intros n s0 cs D Hl Ll. pose proof (AL n s0 D Hl) as A. destruct D as [_ [D _]].
    unfold aft_cart. cbn [odirect with_cart]. rewrite D. now apply (dinv_kall gb n), aligned_with_cart.
  - intros n s0 cs D Hl Ll. pose proof (AL n s0 D Hl) as A. destruct D as [_ [D _]].
    unfold aft_kep. cbn [odirect with_kep]. rewrite D. now apply (dinv_call gb n), aligned_with_kep.
  - intros n s0 cs D _ Hl Ll. pose proof (AL n s0 D Hl) as A. destruct D as [_ [D _]].
    unfold aft_cartrow. cbn [odirect with_cart]. rewrite D. now apply (dinv_kall gb n), aligned_with_cart.
  - intros n s0 cs D _ Hl Ll. pose proof (AL n s0 D Hl) as A. destruct D as [_ [D _]].
    unfold aft_keprow. cbn [odirect with_kep]. rewrite D. now apply (dinv_call gb n), aligned_with_kep.
  - intros n s0 kep' vs D _ Hl Lk Lv. pose proof (AL n s0 D Hl) as A. destruct D as [_ [D _]]. cbv zeta. split; auto.
    assert (B : aligned n (base gb AMean (with_kep (fun _ => kep') s0))) by now apply aligned_base, aligned_with_kep.
    assert (D' : odirect (base gb AMean (with_kep (fun _ => kep') s0)) = true).
    { rewrite (direct_settings (with_kep (fun _ => kep') s0)); auto. apply (base_settings gb n). now apply lens_with_kep. }
    unfold aft_keprow. cbn [odirect with_kep]. rewrite D'. apply (dinv_call gb n); auto.
    destruct B as [B1 B2]. split; [|exact B2]. apply lens_with_kep; auto. rewrite set_row_length, (l_k n _ B1). lia.
  - intros n s0 cs i ps D Hl Ll _ _. pose proof (AL n s0 D Hl) as A. destruct D as [_ [D _]].
    unfold aft_cart_at. cbn [odirect with_cart]. rewrite D. now apply (dinv_kall gb n), aligned_with_cart.
  - intros n s0 cs i ps D Hl Ll _ _. pose proof (AL n s0 D Hl) as A. destruct D as [_ [D _]].
    unfold aft_kep_at. cbn [odirect with_kep]. rewrite D. now apply (dinv_call gb n), aligned_with_kep.
  - intros n s0 ps [_ [D1 D2]] A. split; [|split; [exact D1|]].
    + eexists. eapply del_aligned; eauto.
    + intros j c k m cb kb C. destruct A as [A _]. destruct (del_col n ps s0 j c k m cb kb A C) as [i C'].
      apply (D2 i c k m cb kb C').
  - intros n s0 k row [_ [D1 D2]] A Lr Hr. split; [|split; [exact D1|]].
    + exists (n + k). apply aligned_with_m; auto. now apply app_aligned.
    + intros j c ke m cb kb [C1 C2 C3 C4 C5]. cbn [ocart okep om ocf okf with_m] in *. destruct A as [A AE].
      assert (Hj : j < n + k). { apply nth_error_lt in C3. lia. }
      destruct (col_ex (n + k) (app_state k s0) j) as [c' [k' [m' [cb' [kb' C']]]]]; [exact (proj1 (app_aligned n k s0 (conj A AE)))|auto|].
      pose proof C' as [E1 E2 E3 E4 E5].
      destruct (app_col n k s0 j c' k' m' cb' kb' A C') as [[Hjn C0]|[Hjn [-> [-> _]]]].
      * assert (c' = c /\ k' = ke /\ m' = m) as [-> [-> ->]].
        { rewrite Hr in C3 by auto. destruct C0 as [Q1 Q2 Q3 _ _]. repeat split; congruence. }
        apply (D2 _ _ _ _ _ _ C0).
      * left. replace c with (nan6c : six F) by congruence. apply nan6_nan.
  - intros s0 n [_ [D1 D2]]. split; [exists n; apply aligned_alloc|]. split; [exact D1|].
    intros j c k m cb kb [C1 _ _ _ _]. cbn in C1. apply nth_error_In, repeat_spec in C1. subst c. left. apply nan6_nan.
  - intros s0 i [[n A] [D1 D2]] _. destruct A as [Hl HE]. destruct (resolve n i) as [ps|e] eqn:Er.
    + destruct (calcC gb n s0 i ps Hl Er) as [_ E]. pose proof (settings_step _ _ _ _ E) as Es.
      split; [exists n; eapply al_step; [split; eauto|eauto]|]. split; [now rewrite (direct_settings s0)|].
      intros j c k m cb kb C. destruct (colstep_col _ _ _ _ _ _ _ _ _ _ Hl E C) as [c0 [k0 [cb0 [kb0 [C0 [R1 R2]]]]]].
      apply (good_settings s0); auto. pose proof (D2 _ _ _ _ _ _ C0) as G. rewrite (lazy_direct s0 D1) in *.
      destruct R1 as [[-> ->]|[? _]]; [|discriminate].
      destruct R2 as [[_ [-> _]]|[_ [_ [_ R2]]]]; auto. right. right. right. now apply R2.
    + rewrite (calculate_cartesian_raise gb n s0 i e Hl Er). split; [exists n; now split|auto].
  - intros s0 i [[n A] [D1 D2]]. destruct A as [Hl HE]. destruct (resolve n i) as [ps|e] eqn:Er.
    + destruct (calcK gb n s0 i ps Hl Er) as [_ [_ E]]. pose proof (settings_step _ _ _ _ E) as Es.
      split; [exists n; eapply al_step; [split; eauto|eauto]|]. split; [now rewrite (direct_settings s0)|].
      intros j c k m cb kb C. destruct (colstep_col _ _ _ _ _ _ _ _ _ _ Hl E C) as [c0 [k0 [cb0 [kb0 [C0 [-> [-> R]]]]]]].
      apply (good_settings s0); auto. pose proof (D2 _ _ _ _ _ _ C0) as G.
      destruct R as [[_ [-> _]]|[_ [_ [R _]]]]; auto. right. right. now left.
    + rewrite (calculate_kepler_raise gb n s0 i e Hl Er). split; [exists n; now split|auto].
  - destruct o; cbn [ok_op]; cbn in Hk, Ho; auto; try tauto.
    split; [|tauto]. right. left. now destruct Hs as [_ [D _]].
Qed.
Lemma dinv_consistent (s : orb) : dinv s -> all_consistent s.
Proof.
  intros [[n [A _]] [_ D]] j c k m C1 C2 C3.
  assert (Hj : j < n) by (apply nth_error_lt in C1; destruct A; lia).
  destruct (col_ex n s j A Hj) as [c' [k' [m' [cb [kb C]]]]]. pose proof C as [E1 E2 E3 _ _].
  assert (c' = c /\ k' = k /\ m' = m) as [-> [-> ->]] by (repeat split; congruence).
  rewrite !has_nan_iff. destruct (nan6 k) eqn:En; [auto|].
  destruct (D _ _ _ _ _ _ C) as [Q|[Q|[Q|Q]]]; [auto|congruence| |].
  - right. right. left. now apply Kc_kepler_of.
  - right. right. right. now apply Cc_cartesian_of.
Qed.
Lemma dinv_run h : forall s : orb, dinv s -> steps_ok direct_ok h s -> dinv (run h s).
Proof.
  induction h as [|[gb o] h IH]; intros s Hs Hok; auto. destruct Hok as [H1 H2]. cbn [run].
  apply IH; auto. now apply C42_step.
Qed.
Lemma dinv_flags a d k c (s : orb) : d = true -> dinv s -> dinv (with_flags a d k c s).
Proof.
  intros -> [[n [A1 A2]] [D1 D2]]. split; [|split; [reflexivity|]].
  - exists n. split; [destruct A1; now constructor|exact A2].
  - intros j cc ke m cb kb []. assert (C : col s j cc ke m cb kb) by now constructor.
    destruct (D2 _ _ _ _ _ _ C) as [?|[?|[[g ->]|[g ->]]]]; unfold good; auto.
    + right. right. left. now exists g.
    + right. right. right. now exists g.
Qed.
(** the constructor with direct_update=True *)
Lemma dinv_init gb M0 c kw (s : orb) : cf_direct c = true -> init gb M0 c kw = Ok s -> dinv s.
Proof.
  intros Hd. unfold init. destruct (anomaly_of (cf_type c)) as [t|]; [|discriminate]. set (s0 := mkorb _ _ _ _ _ _ _ _ _ _ _ _ _ _ _ _ _ _).
  destruct (bind _ _ s0) as [s1 [[]|]] eqn:Eb; [|discriminate]. injection 1 as <-.
  apply dinv_flags; auto. unfold bind at 1 in Eb. cbn [allocate modify] in Eb.
  set (s2 := mkorb _ _ _ _ _ _ _ _ _ _ _ _ _ _ _ _ _ _) in Eb.
  assert (A0 : forall row, length row = cf_num c -> dinv (with_m (fun _ => row) s2)).
  { intros row L. split; [|split; [exact Hd|]].
    - exists (cf_num c). apply aligned_with_m; auto. apply (aligned_alloc (cf_num c) s0).
    - intros j c0 k m cb kb [C1 _ _ _ _]. cbn in C1. apply nth_error_In, repeat_spec in C1. subst c0. left. apply nan6_nan. }
  assert (U : forall s3, dinv s3 -> (if Nat.eqb (cf_num c) 0 then ret tt else update gb IAll (drop_m kw)) s3 = (s1, Ok tt) -> dinv s1).
  { intros s3 D3 E3. destruct (Nat.eqb _ _); [injection E3 as <-; exact D3|].
    change s1 with (fst (s1, Ok tt : res unit)). rewrite <- E3. apply (C42_step gb (OUpdate IAll (drop_m kw))); auto.
    split; [split; cbn; auto|]. cbn [run_op]. now rewrite E3. }
  unfold bind in Eb. destruct (kw_m kw) as [v|].
  - unfold set_m, bind, get, lift in Eb. destruct (assign (om s2) IAll v) as [row|] eqn:Ea; [|discriminate].
    cbn [modify] in Eb. eapply U; [|exact Eb]. apply A0. apply assign_length in Ea. rewrite Ea. apply repeat_length.
  - eapply U; [|exact Eb]. rewrite <- (with_m_id s2). apply A0. apply repeat_length.
Qed.

(** Full claim: also for [type] assignments and for calls that raised.  Missing here: those
    (both refuted). *)
Theorem C42_direct_partial gb M0 c kw (s : orb) h : cf_direct c = true -> init gb M0 c kw = Ok s ->
  steps_ok direct_ok h s -> all_consistent (run h s).
Proof. intros Hd Hi Hh. apply dinv_consistent, dinv_run; auto. eapply dinv_init; eauto. Qed.
End Direct.

(** the hypothesis about NaN holds in the arithmetic used for the analysis ... *)
Lemma nan_arith_num : nan_arith (F := NPReal.num).
Proof.
  split; [reflexivity|]. intros x. unfold isnan, ordered1. destruct x as [x| | |]; cbn; try discriminate; intros _; auto.
  unfold Rltb, Reqb. generalize (Q2R 1). intros y.
  destruct (Rlt_dec y x), (Req_EM_T x y), (Rlt_dec x y); auto; lra.
Qed.
Section Examples.
#[local] Existing Instance NP_toyn.
(** ... and in the toy arithmetic used for the examples *)
Lemma nan_arith_toyn : nan_arith (F := Z).
Proof.
  split; [reflexivity|]. intros x Hx. unfold ordered1. cbn in *. unfold isnan in Hx. cbn in Hx.
  change (Qround.Qfloor 1) with 1%Z. cbn.
  destruct (x =? -99)%Z eqn:E; [discriminate|]. cbn.
  destruct (Z.ltb_spec 1 x), (Z.eqb_spec x 1), (Z.ltb_spec x 1); auto; lia.
Qed.
Definition gd (i j : nat) : Z := 7%Z.
Definition cfgd (t : string) n : config Z :=
  mkconfig true true 1%Z {| tol := 0%Z; max_iter := 3%Z; degree := 5%Z |} false t n false false.
Definition matd : arg Z := fresh [6; 2] [9; 8; 0; 0; 2; 2; 3; 3; 4; 4; 5; 6]%Z.
Definition kwd (v : arg Z) : kws Z := mkkws None (Some v) None no6 no6.
Definition hd : history Z :=
  [(gd, OSetCartRow 0 (Sc 3%Z)); (gd, OAdd 1 (kwd (fresh [6; 1] [7; 0; 1; 1; 1; 1]%Z))); (gd, OSetKepRow 0 (Sc 6%Z));
   (gd, ODelete (IInt 0)); (gd, OGetVelocity); (gd, OPropagate (Sc 1%Z))].
Example C42_direct_example : exists s, init gd 1%Z (cfgd "true" 2) (kwd matd) = Ok s
  /\ steps_ok direct_ok hd s /\ OrbitModel.num (run hd s) = 2.
Proof.
  eexists. split; [vm_compute; reflexivity|]. split; [|vm_compute; reflexivity].
  vm_compute. repeat (split; auto); discriminate.
Qed.
(** a call that raises half-way: update(x=3, y=<wrong shape>) has already written x, the Kepler
    elements are not recalculated *)
Definition hf : history Z :=
  [(gd, OUpdate IAll (mkkws None None None (mk6 (Some (Sc 30%Z)) (Some (fresh [5] [1; 1; 1; 1; 1]%Z)) None None None None) no6))].
Theorem C42_failed_update_refuted : exists s, init gd 1%Z (cfgd "true" 2) (kwd matd) = Ok s
  /\ steps_ok width_ok hf s /\ odirect (run hf s) = true /\ all_consistent s /\ ~ all_consistent (run hf s).
Proof.
  eexists. split; [vm_compute; reflexivity|]. split; [vm_compute; auto|]. split; [vm_compute; reflexivity|].
  split.
  - apply dinv_consistent; [exact nan_arith_toyn|]. eapply (dinv_init nan_arith_toyn gd 1%Z (cfgd "true" 2) (kwd matd)); [reflexivity|].
    vm_compute. reflexivity.
  - intros C. destruct (C 0 _ _ _ eq_refl eq_refl eq_refl) as [N|[N|[N|N]]].
    + vm_compute in N. intuition discriminate.
    + vm_compute in N. intuition discriminate.
    + specialize (N gd). vm_compute in N. destruct N as [k0 [N1 N2]]. congruence.
    + specialize (N gd). vm_compute in N. destruct N as [nu [N1 N2]]. subst nu. vm_compute in N2. congruence.
Qed.
End Examples.
