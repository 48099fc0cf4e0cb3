(** * Closed forms of the Orbit operations (any arithmetic): what each public operation does to
    the arrays, built on [calculate_kepler_spec] / [calculate_cartesian_spec]. *)
From Coq Require Import List Bool Arith Lia ZArith QArith.
From Verif Require Import NP KeplerModel ConvModel UnitModel OrbitModel Lists ConvCols ArraySpec
  PropsAnomaly OrbitLists OrbitBase.
Import ListNotations.
Local Open Scope nat_scope.

(** ** Well-formed array values: data and memory order as long as the shape says *)
Definition wfv {F} (x : arg F) : Prop :=
  match x with Sc _ => True | Arr s m d => length d = size s /\ length m = size s end.

Section Wf.
Context {F : Type} `{NP F}.
Lemma wfv_wf (x : arg F) : wfv x -> wf_arg x.
Proof. destruct x; cbn; tauto. Qed.
Lemma wfv_amap f (x : arg F) : wfv x -> wfv (amap f x).
Proof.
  destruct x as [v|s m d]; cbn; auto.
  destruct s as [|n [|n' s]]; [destruct d as [|v [|]]| |]; cbn; rewrite ?map_length, ?seq_length; tauto.
Qed.
Lemma wfv_fresh s (d : list F) : length d = size s -> wfv (fresh s d).
Proof. intros E. cbn. now rewrite seq_length. Qed.
Lemma wfv_fresh1 n (d : list F) : length d = n -> wfv (fresh [n] d).
Proof. intros E. apply wfv_fresh. cbn. lia. Qed.
Lemma wfv_in deg (x : arg F) : wfv x -> wfv (in_rad deg x).
Proof. destruct deg; cbn; auto. apply wfv_amap. Qed.
Lemma wfv_out deg (x : arg F) : wfv x -> wfv (out_deg deg x).
Proof. destruct deg; cbn; auto. apply wfv_amap. Qed.
Lemma broadcast_wf (x e : arg F) p : wfv x -> wfv e -> broadcast x e = Ok p ->
  match p with PSc _ _ => True
  | PArr s mx dx me de => length mx = size s /\ length dx = size s /\ length me = size s /\ length de = size s end.
Proof.
  destruct x as [v|s m d], e as [w|s' m' d']; cbn; intros Hx He E.
  - now injection E as <-.
  - injection E as <-. now rewrite seq_length, map_length.
  - injection E as <-. now rewrite seq_length, map_length.
  - destruct (shape_eqb s s') eqn:Es; [|discriminate]. apply shape_eqb_eq in Es. subst s'.
    injection E as <-. tauto.
Qed.
Lemma by_masks_length g fh fp fe (dx de : list F) : length (by_masks g fh fp fe dx de) = length dx.
Proof. unfold by_masks. rewrite !mset_length. unfold np_empty. now rewrite map_length, seq_length. Qed.

Section Conv.
Variables (x e : arg F).
Hypotheses (Hx : wfv x) (He : wfv e).
Lemma t2e_wf g deg r : true_to_eccentric g x e deg = Ok r -> wfv r.
Proof.
  unfold true_to_eccentric. destruct (broadcast _ e) as [p|] eqn:Eb; [|discriminate]. cbn [rbind].
  apply broadcast_wf in Eb; auto using wfv_in. injection 1 as <-. apply wfv_out, wfv_amap.
  destruct p; [cbn; auto|]. apply wfv_fresh. rewrite by_masks_length. tauto.
Qed.
Lemma e2t_wf g deg r : eccentric_to_true g x e deg = Ok r -> wfv r.
Proof.
  unfold eccentric_to_true. destruct (broadcast _ e) as [p|] eqn:Eb; [|discriminate]. cbn [rbind].
  apply broadcast_wf in Eb; auto using wfv_in. injection 1 as <-. apply wfv_out, wfv_amap.
  destruct p; [cbn; auto|]. apply wfv_fresh. rewrite by_masks_length. tauto.
Qed.
Lemma e2m_wf g deg r : eccentric_to_mean g x e deg = Ok r -> wfv r.
Proof.
  unfold eccentric_to_mean. destruct (broadcast _ e) as [p|] eqn:Eb; [|discriminate]. cbn [rbind].
  apply broadcast_wf in Eb; auto using wfv_in. injection 1 as <-. apply wfv_out.
  destruct p; [cbn; auto|]. apply wfv_fresh. rewrite by_masks_length. tauto.
Qed.
Lemma m2e_wf o deg r : mean_to_eccentric x e o deg = Ok r -> wfv r.
Proof.
  unfold mean_to_eccentric. destruct (broadcast _ e) as [p|] eqn:Eb; [|discriminate]. cbn [rbind].
  apply broadcast_wf in Eb; auto using wfv_in. destruct p as [v w|s mx dx me de].
  - destruct (eqb w _); injection 1 as <-; auto. apply wfv_out. cbn; auto.
  - destruct (Nat.eqb (length dx) 0) eqn:E0; injection 1 as <-.
    + apply Nat.eqb_eq in E0. apply wfv_fresh. cbn. lia.
    + apply wfv_out, wfv_fresh. unfold nditer. rewrite map2_length, !map_length. lia.
Qed.
End Conv.
Lemma t2m_wf (x e : arg F) g1 g2 deg r : wfv x -> wfv e -> true_to_mean g1 g2 x e deg = Ok r -> wfv r.
Proof.
  intros Hx He. unfold true_to_mean. destruct (true_to_eccentric _ _ _ _) as [E|] eqn:E1; [|discriminate].
  cbn [rbind]. destruct (eccentric_to_mean _ _ _ _) as [M|] eqn:E2; [|discriminate].
  cbn [rbind]. injection 1 as <-. apply wfv_out. eapply (e2m_wf E e); eauto.
  eapply (t2e_wf (in_rad deg x) e); eauto using wfv_in.
Qed.
Lemma m2t_wf (x e : arg F) g o deg r : wfv x -> wfv e -> mean_to_true g x e o deg = Ok r -> wfv r.
Proof.
  intros Hx He. unfold mean_to_true. destruct (mean_to_eccentric _ _ _ _) as [E|] eqn:E1; [|discriminate].
  cbn [rbind]. destruct (eccentric_to_true _ _ _ _) as [M|] eqn:E2; [|discriminate].
  cbn [rbind]. injection 1 as <-. apply wfv_out. eapply (e2t_wf E e); eauto.
  eapply (m2e_wf (in_rad deg x) e); eauto using wfv_in.
Qed.
End Wf.

Section Ops.
Context {F : Type} `{NP F}.
Variable gb : nat -> nat -> F.
Notation orb := (orb F).
Notation kchk := (kchk gb).

(** ** Columns *)
Record col (s : orb) (j : nat) (c k : six F) (m : F) (cb kb : bool) : Prop := mkcol {
  col_c : nth_error (ocart s) j = Some c; col_k : nth_error (okep s) j = Some k;
  col_m : nth_error (om s) j = Some m;
  col_cb : nth_error (ocf s) j = Some cb; col_kb : nth_error (okf s) j = Some kb }.
Lemma col_ex n s j : lens n s -> j < n -> exists c k m cb kb, col s j c k m cb kb.
Proof.
  intros Hs Hj. destruct (nth4 n s j Hs Hj) as [c [k [m [b [cb [C1 [C2 [C3 [C4 C5]]]]]]]]].
  exists c, k, m, cb, b. now constructor.
Qed.
Lemma col_lt n s j c k m cb kb : lens n s -> col s j c k m cb kb -> j < n.
Proof. intros [] []. apply nth_error_lt in col_c0. lia. Qed.
Lemma col_fun s j c k m cb kb c' k' m' cb' kb' : col s j c k m cb kb -> col s j c' k' m' cb' kb' ->
  c' = c /\ k' = k /\ m' = m /\ cb' = cb /\ kb' = kb.
Proof. intros [] []. repeat split; congruence. Qed.

(** [k] is the conversion of [c]; [c] is the conversion of [k] (with the stored anomaly) *)
Definition Kc (s : orb) (c : six F) (m : F) (k : six F) : Prop := exists g, k = kconv s g c m.
Definition Cc (s : orb) (k : six F) (m : F) (c : six F) : Prop := exists g, c = cconv s (nu1 s g k) k m.
Lemma mu_of_settings s s' m : settings s = settings s' -> mu_of s m = mu_of s' m.
Proof. intros E. apply settings_eq in E. unfold mu_of. destruct E as [-> [-> _]]. reflexivity. Qed.
Lemma kconv_settings s s' g c m : settings s = settings s' -> kconv s g c m = kconv s' g c m.
Proof.
  intros E. unfold kconv. rewrite (mu_of_settings s s' m E). apply settings_eq in E.
  destruct E as [_ [_ [_ [_ [_ [_ [-> [-> _]]]]]]]]. reflexivity.
Qed.
Lemma nu1_settings s s' g k : settings s = settings s' -> nu1 s g k = nu1 s' g k.
Proof.
  intros E. unfold nu1. apply settings_eq in E.
  destruct E as [_ [_ [_ [_ [_ [_ [-> [-> ->]]]]]]]]. reflexivity.
Qed.
Lemma cconv_settings s s' nu k m : settings s = settings s' -> cconv s nu k m = cconv s' nu k m.
Proof.
  intros E. unfold cconv. rewrite (mu_of_settings s s' m E). apply settings_eq in E.
  destruct E as [_ [_ [_ [_ [_ [_ [-> _]]]]]]]. reflexivity.
Qed.
Lemma Kc_settings s s' c m k : settings s = settings s' -> Kc s c m k -> Kc s' c m k.
Proof. intros E [g ->]. exists g. now apply kconv_settings. Qed.
Lemma Cc_settings s s' k m c : settings s = settings s' -> Cc s k m c -> Cc s' k m c.
Proof.
  intros E [g ->]. exists g. rewrite (nu1_settings s s' g k E). now apply cconv_settings.
Qed.

(** ** A step that keeps the settings and acts column by column *)
Definition colstep (n : nat) (s s' : orb)
  (R : nat -> six F -> six F -> F -> bool -> bool -> six F -> six F -> bool -> bool -> Prop) : Prop :=
  lens n s' /\ settings s' = settings s /\ om s' = om s /\ oE s' = oE s /\ oMa s' = oMa s /\ oit s' = oit s
  /\ forall j c k m cb kb, col s j c k m cb kb ->
       exists c' k' cb' kb', col s' j c' k' m cb' kb' /\ R j c k m cb kb c' k' cb' kb'.
Lemma colstep_col n s s' R j c' k' m' cb' kb' : lens n s -> colstep n s s' R -> col s' j c' k' m' cb' kb' ->
  exists c k cb kb, col s j c k m' cb kb /\ R j c k m' cb kb c' k' cb' kb'.
Proof.
  intros Hs [Hl [_ [_ [_ [_ [_ HR]]]]]] Hc. pose proof (col_lt _ _ _ _ _ _ _ _ Hl Hc) as Hj.
  destruct (col_ex n s j Hs Hj) as [c [k [m [cb [kb C]]]]].
  destruct (HR _ _ _ _ _ _ C) as [c1 [k1 [cb1 [kb1 [C1 R1]]]]].
  destruct (col_fun _ _ _ _ _ _ _ _ _ _ _ _ C1 Hc) as [-> [-> [-> [-> ->]]]]. eauto 8.
Qed.

(** ** calculate_kepler and _kep_check, column by column *)
Definition Kstep (s : orb) (sel : nat -> bool) (j : nat) (c k : six F) (m : F) (cb kb : bool)
    (c' k' : six F) (cb' kb' : bool) : Prop :=
  c' = c /\ cb' = cb /\
  (((sel j = true -> nan6 c = true) /\ k' = k /\ kb' = kb)
   \/ (nan6 c = false /\ (sel j = false -> lazy s = true /\ typed s = true /\ kb = false) /\ Kc s c m k' /\ kb' = true)).
Lemma calcK n s inds ps : lens n s -> resolve n inds = Ok ps ->
  snd (calculate_kepler gb inds s) = Ok tt
  /\ onu (fst (calculate_kepler gb inds s)) = onu s
  /\ colstep n s (fst (calculate_kepler gb inds s)) (Kstep s (fun j => mem j ps)).
Proof.
  intros Hs Hr. destruct (calculate_kepler_spec gb n 0 inds ps s Hs Hr) as [kep' [kf' [W [g [E1 [E2 [E3 E4]]]]]]].
  change (calculate_kepler_f gb 3 inds s) with (calculate_kepler gb inds s) in E1. rewrite E1. cbn [fst snd].
  split; [auto|]. split; [auto|]. split; [now apply lens_setK|]. repeat (split; [reflexivity|]).
  intros j c k m cb kb [C1 C2 C3 C4 C5]. destruct (E4 j c k m kb C1 C2 C3 C5) as [Q1 [Q2 [Q3 [Q4 Q5]]]].
  eexists c, _, cb, _. split; [constructor; cbn; eauto|].
  split; [auto|]. split; [auto|]. destruct (W j) eqn:EW.
  - right. split; [auto|]. split; [auto|]. split; [now exists (g j)|apply orb_true_r].
  - left. rewrite orb_false_r. split; [|auto]. intros Em.
    destruct (nan6 c); auto.
Qed.
Definition kall (s : orb) : orb := fst (calculate_kepler gb IAll s).
Lemma mem_seq j n : mem j (seq 0 n) = Nat.ltb j n.
Proof.
  destruct (Nat.ltb_spec j n) as [Hj|Hj].
  - apply mem_in, in_seq. lia.
  - apply mem_false. rewrite in_seq. lia.
Qed.
Lemma kall_spec n s : lens n s -> calculate_kepler gb IAll s = (kall s, Ok tt) /\ onu (kall s) = onu s
  /\ colstep n s (kall s) (fun j c k m cb kb c' k' cb' kb' => c' = c /\ cb' = cb
       /\ (nan6 c = true -> k' = k /\ kb' = kb) /\ (nan6 c = false -> Kc s c m k' /\ kb' = true)).
Proof.
  intros Hs. destruct (calcK n s IAll (seq 0 n) Hs eq_refl) as [E1 [E2 [E3 [E4 [E5 [E6 [E7 [E8 E9]]]]]]]].
  split; [unfold kall; destruct (calculate_kepler gb IAll s); cbn in *; now subst|]. split; [auto|].
  split; [auto|]. split; [auto|]. split; [auto|]. split; [auto|]. split; [auto|]. split; [auto|].
  intros j c k m cb kb C. destruct (E9 _ _ _ _ _ _ C) as [c' [k' [cb' [kb' [C' [R1 [R2 R3]]]]]]].
  exists c', k', cb', kb'. split; [auto|]. split; [auto|]. split; [auto|].
  pose proof (col_lt _ _ _ _ _ _ _ _ Hs C) as Hj. rewrite mem_seq in R3. apply Nat.ltb_lt in Hj. rewrite Hj in R3.
  destruct R3 as [[R3 R4]|[R3 [_ R4]]]; split; intros Hn; auto; rewrite ?R3 in Hn; auto; discriminate.
Qed.
Lemma kchk_spec n s : lens n s -> kep_check gb s = (kchk s, Ok tt) /\ onu (kchk s) = onu s
  /\ colstep n s (kchk s) (fun j c k m cb kb c' k' cb' kb' => c' = c /\ cb' = cb
       /\ (lazy s && negb kb && negb (nan6 c) = false -> k' = k /\ kb' = kb)
       /\ (lazy s && negb kb && negb (nan6 c) = true -> Kc s c m k' /\ kb' = true)).
Proof.
  intros Hs. destruct (kep_check_spec gb n s Hs) as [kep' [kf' [W [g [E1 [E2 [E3 E4]]]]]]].
  unfold OrbitBase.kchk. rewrite E1. cbn [fst].
  split; [auto|]. split; [auto|]. split; [now apply lens_setK|]. repeat (split; [reflexivity|]).
  intros j c k m cb kb [C1 C2 C3 C4 C5]. destruct (E4 j c k m kb C1 C2 C3 C5) as [Q1 [Q2 Q3]].
  eexists c, _, cb, _. split; [constructor; cbn; eauto|].
  split; [auto|]. split; [auto|]. rewrite Q1. destruct (lazy s && negb kb && negb (nan6 c)).
  - split; [discriminate|]. intros _. split; [now exists (g j)|apply orb_true_r].
  - split; [|discriminate]. intros _. now rewrite orb_false_r.
Qed.
Lemma kchk_id s : lazy s = false -> kchk s = s.
Proof. intros E. unfold OrbitBase.kchk. now rewrite kep_check_id. Qed.

(** ** calculate_cartesian and _cart_check, column by column *)
Definition Cstep (s : orb) (sel : nat -> bool) (j : nat) (c k : six F) (m : F) (cb kb : bool)
    (c' k' : six F) (cb' kb' : bool) : Prop :=
  ((k' = k /\ kb' = kb) \/ (lazy s = true /\ typed s = true /\ kb = false /\ nan6 c = false /\ Kc s c m k' /\ kb' = true))
  /\ (((sel j = false \/ nan6 k = true) /\ c' = c /\ cb' = cb)
      \/ (sel j = true /\ nan6 k = false /\ cb' = true
          /\ (lazy s && typed s && negb kb && negb (nan6 c) = false -> k' = k /\ Cc s k m c'))).
Lemma calcC n s inds ps : lens n s -> resolve n inds = Ok ps ->
  snd (calculate_cartesian gb inds s) = Ok tt
  /\ colstep n s (fst (calculate_cartesian gb inds s)) (Cstep s (fun j => mem j ps)).
Proof.
  intros Hs Hr. destruct (calculate_cartesian_spec gb n inds ps s Hs Hr)
    as [cart' [cf' [nu' [kep' [kf' [W2 [g2 [E1 [E2 [E3 [E4 [E5 [E6 [_ E7]]]]]]]]]]]]]].
  rewrite E1. cbn [fst snd]. split; [auto|]. split; [now apply lens_setC|]. repeat (split; [reflexivity|]).
  intros j c k m cb kb [C1 C2 C3 C4 C5]. specialize (E7 j c k m kb cb C1 C2 C3 C5 C4). cbv zeta in E7.
  destruct E7 as [Q1 [Q2 [Q3 [[g Q4] [Q5 Q6]]]]].
  eexists _, _, _, _. split; [constructor; cbn; eauto|].
  split.
  - destruct (W2 j) eqn:EW.
    + right. destruct (Q5 eq_refl) as [? [? [? ?]]]. split; [auto|]. split; [auto|]. split; [auto|].
      split; [auto|]. split; [now exists (g2 j)|apply orb_true_r].
    + left. now rewrite orb_false_r.
  - destruct (mem j ps) eqn:Em; cbn [andb] in *.
    + destruct (nan6 k) eqn:En; cbn [negb] in *.
      * left. rewrite orb_false_r. auto.
      * right. rewrite orb_true_r. split; [auto|]. split; [auto|]. split; [auto|].
        intros Hn. destruct (W2 j) eqn:EW.
        { destruct (Q5 eq_refl) as [A1 [A2 [A3 A4]]]. rewrite A1, A2, A3, A4 in Hn. discriminate. }
        split; [auto|]. now exists g.
    + left. rewrite orb_false_r. auto.
Qed.
Definition call_ (s : orb) : orb := fst (calculate_cartesian gb IAll s).
Lemma call_spec n s : lens n s -> calculate_cartesian gb IAll s = (call_ s, Ok tt)
  /\ colstep n s (call_ s) (Cstep s (fun _ => true)).
Proof.
  intros Hs. destruct (calcC n s IAll (seq 0 n) Hs eq_refl) as [E1 [E3 [E4 [E5 [E6 [E7 [E8 E9]]]]]]].
  split; [unfold call_; destruct (calculate_cartesian gb IAll s); cbn in *; now subst|].
  split; [auto|]. split; [auto|]. split; [auto|]. split; [auto|]. split; [auto|]. split; [auto|].
  intros j c k m cb kb C. destruct (E9 _ _ _ _ _ _ C) as [c' [k' [cb' [kb' [C' R]]]]].
  exists c', k', cb', kb'. split; [auto|].
  pose proof (col_lt _ _ _ _ _ _ _ _ Hs C) as Hj. unfold Cstep in *.
  rewrite mem_seq in R. apply Nat.ltb_lt in Hj. now rewrite Hj in R.
Qed.
Definition cchk (s : orb) : orb := fst (cart_check gb s).
Lemma cart_check_id s : lazy s = false -> cart_check gb s = (s, Ok tt).
Proof. intros E. unfold cart_check, bind, get. fold (lazy s). now rewrite E. Qed.
Lemma cchk_id s : lazy s = false -> cchk s = s.
Proof. intros E. unfold cchk. now rewrite cart_check_id. Qed.
Lemma cchk_spec n s : lens n s -> cart_check gb s = (cchk s, Ok tt)
  /\ colstep n s (cchk s) (fun j c k m cb kb c' k' cb' kb' =>
       Cstep s (fun _ => lazy s && negb cb) j c k m cb kb c' k' cb' kb').
Proof.
  intros Hs. unfold cchk. destruct (lazy s) eqn:El.
  - assert (Ec : cart_check gb s = calculate_cartesian gb (IMask (map negb (ocf s))) s).
    { unfold cart_check, bind, get. fold (lazy s). now rewrite El. }
    destruct (resolve_stale n (ocf s)) as [ps Hp]; [now destruct Hs|].
    destruct (calcC n s _ ps Hs Hp) as [E1 [E3 [E4 [E5 [E6 [E7 [E8 E9]]]]]]]. rewrite Ec.
    split; [destruct (calculate_cartesian gb _ s); cbn in *; now subst|].
    split; [auto|]. split; [auto|]. split; [auto|]. split; [auto|]. split; [auto|]. split; [auto|].
    intros j c k m cb kb C. destruct (E9 _ _ _ _ _ _ C) as [c' [k' [cb' [kb' [C' R]]]]].
    exists c', k', cb', kb'. split; [auto|]. unfold Cstep in *.
    now rewrite (mem_stale _ _ _ Hp j cb (col_cb _ _ _ _ _ _ _ C)) in R.
  - rewrite (cart_check_id s El). cbn [fst]. split; [auto|]. split; [auto|]. repeat (split; [reflexivity|]).
    intros j c k m cb kb C. exists c, k, cb, kb. split; [auto|]. unfold Cstep. cbn [andb]. split; left; auto.
Qed.
Lemma lens_step n s s' R : colstep n s s' R -> lens n s'. Proof. now intros []. Qed.
Lemma settings_step n s s' R : colstep n s s' R -> settings s' = settings s. Proof. now intros [_ [? _]]. Qed.
Lemma lens_kchk n s : lens n s -> lens n (kchk s).
Proof. intros Hs. destruct (kchk_spec n s Hs) as [_ [_ E]]. eapply lens_step; eauto. Qed.
Lemma lens_cchk n s : lens n s -> lens n (cchk s).
Proof. intros Hs. destruct (cchk_spec n s Hs) as [_ E]. eapply lens_step; eauto. Qed.
Lemma lens_kall n s : lens n s -> lens n (kall s).
Proof. intros Hs. destruct (kall_spec n s Hs) as [_ [_ E]]. eapply lens_step; eauto. Qed.
Lemma lens_call n s : lens n s -> lens n (call_ s).
Proof. intros Hs. destruct (call_spec n s Hs) as [_ E]. eapply lens_step; eauto. Qed.
Lemma kchk_kchk n s : lens n s -> kchk (kchk s) = kchk s.
Proof. intros Hs. unfold OrbitBase.kchk. now rewrite (kep_check_twice gb n s Hs). Qed.
Lemma kchk_ocart n s : lens n s -> ocart (kchk s) = ocart s.
Proof. intros Hs. unfold OrbitBase.kchk. now destruct (kep_check_ok gb n s Hs) as [_ [_ [_ [? _]]]]. Qed.
Lemma kchk_ocf n s : lens n s -> ocf (kchk s) = ocf s.
Proof. intros Hs. unfold OrbitBase.kchk. now destruct (kep_check_ok gb n s Hs) as [_ [_ [_ [_ [_ [_ [_ [? _]]]]]]]]. Qed.
Lemma kchk_settings n s : lens n s -> settings (kchk s) = settings s.
Proof. intros Hs. destruct (kchk_spec n s Hs) as [_ [_ E]]. eapply settings_step; eauto. Qed.

(** ** Rewriting rules of the monad *)
Lemma bind_get {B} (f : orb -> M B) (s : orb) : bind get f s = f s s. Proof. reflexivity. Qed.
Lemma bind_modify {B} h (f : unit -> M B) (s : orb) : bind (modify h) f s = f tt (h s). Proof. reflexivity. Qed.
Lemma bind_ret {A B} (x : A) (f : A -> M B) (s : orb) : bind (ret x) f s = f x s. Proof. reflexivity. Qed.
Lemma bind_raise {A B} e (f : A -> M B) (s : orb) : bind (raise e) f s = (s, Raise e). Proof. reflexivity. Qed.
Lemma bind_lift {A B} r (f : A -> M B) (s : orb) :
  bind (lift r) f s = match r with Ok x => f x s | Raise e => (s, Raise e) end.
Proof. reflexivity. Qed.
Lemma bind_ok {A B} (m : M A) (f : A -> M B) (s s' : orb) x : m s = (s', Ok x) -> bind m f s = f x s'.
Proof. unfold bind. now intros ->. Qed.
Lemma bind_err {A B} (m : M A) (f : A -> M B) (s s' : orb) e : m s = (s', Raise e) -> bind m f s = (s', Raise e).
Proof. unfold bind. now intros ->. Qed.
Lemma bind_assoc {A B C} (m : M A) (f : A -> M B) (g : B -> M C) (s : orb) :
  bind (bind m f) g s = bind m (fun x => bind (f x) g) s.
Proof. unfold bind. destruct (m s) as [s' [x|e]]; reflexivity. Qed.

(** ** Getters *)
Definition alE (n : nat) (s : orb) : Prop := exists d, oE s = fresh [n] d /\ length d = n.
Definition aligned (n : nat) (s : orb) : Prop := lens n s /\ alE n s.
Lemma assign_length (row : list F) inds v r : assign row inds v = Ok r -> length r = length row.
Proof.
  unfold assign. destruct (resolve _ _); [|discriminate]. cbn [rbind].
  destruct (bcast1 _ _); [|discriminate]. cbn [rbind]. injection 1 as <-. apply put_length.
Qed.
Lemma get_row_bind {B} n k (f : list F -> M B) s : lens n s ->
  bind (get_kep_row gb k) f s = f (map (row_get k) (okep (kchk s))) (kchk s).
Proof. intros Hs. apply bind_ok. now apply (get_kep_row_spec gb n). Qed.
Lemma get_row_bind' {B} n k (f : list F -> M B) s : lens n s ->
  bind (get_kep_row gb k) f (kchk s) = f (map (row_get k) (okep (kchk s))) (kchk s).
Proof.
  intros Hs. rewrite (get_row_bind n) by now apply lens_kchk. now rewrite (kchk_kchk n s Hs).
Qed.
(** the common part of the three calc_* methods: read the two rows and convert *)
Definition two_rows (inds : Idx) (fn : arg F -> arg F -> res (arg F)) : M (arg F) :=
  bind (get_kep_row gb 5) (fun an => bind (lift (sel an inds)) (fun xa =>
  bind (get_kep_row gb 1) (fun e => bind (lift (sel e inds)) (fun xe => lift (fn xa xe))))).
Definition two_val (inds : Idx) (fn : arg F -> arg F -> res (arg F)) (s : orb) : res (arg F) :=
  rlet xa := sel (map (row_get 5) (okep s)) inds in rlet xe := sel (map (row_get 1) (okep s)) inds in fn xa xe.
Lemma two_rows_eq n inds fn s : lens n s -> two_rows inds fn s = (kchk s, two_val inds fn (kchk s)).
Proof.
  intros Hs. unfold two_rows, two_val. rewrite (get_row_bind n), bind_lift by auto.
  destruct (sel _ inds) as [xa|e]; cbn [rbind]; [|reflexivity].
  rewrite (get_row_bind' n), bind_lift by auto. now destruct (sel _ inds).
Qed.
Definition one_row (inds : Idx) : M (arg F) := bind (get_kep_row gb 5) (fun an => lift (sel an inds)).
Lemma one_row_eq n inds s : lens n s -> one_row inds s = (kchk s, sel (map (row_get 5) (okep (kchk s))) inds).
Proof. intros Hs. unfold one_row. now rewrite (get_row_bind n) by auto. Qed.

Lemma calc_true_cases n s inds : lens n s -> exists l, length l = n /\
  (fst (calc_true_anomaly gb inds s) = kchk s \/ fst (calc_true_anomaly gb inds s) = with_nu (fun _ => l) (kchk s)).
Proof.
  intros Hs. unfold calc_true_anomaly. rewrite bind_get.
  assert (G : forall m : M (arg F), fst (m s) = kchk s -> exists l, length l = n /\
     (let r := bind m (fun x => bind get (fun s0 => bind (lift (assign (onu s0) inds x)) (fun row => modify (with_nu (fun _ => row))))) s in
      fst r = kchk s \/ fst r = with_nu (fun _ => l) (kchk s))).
  { intros m Em. destruct (m s) as [s' r] eqn:Er. cbn in Em. subst s'.
    pose proof (lens_kchk n s Hs) as Hl. destruct r as [x|e].
    - rewrite (bind_ok _ _ _ _ _ Er), bind_get, bind_lift. destruct (assign _ _ _) as [row|e] eqn:Ea.
      + exists row. split; [apply assign_length in Ea; destruct Hl; lia|]. now right.
      + exists (onu s). split; [now destruct Hs|]. now left.
    - rewrite (bind_err _ _ _ _ _ Er). exists (onu s). split; [now destruct Hs|]. now left. }
  destruct (otype s).
  - apply (G (one_row inds)). now rewrite (one_row_eq n).
  - apply (G (two_rows inds (fun xa xe => eccentric_to_true (gb 22) xa xe (odeg s)))). now rewrite (two_rows_eq n).
  - apply (G (two_rows inds (fun xa xe => mean_to_true (gb 22) xa xe (oopts s) (odeg s)))). now rewrite (two_rows_eq n).
Qed.
Lemma calc_mean_cases n s inds : lens n s -> exists l, length l = n /\
  (fst (calc_mean_anomaly gb inds s) = kchk s \/ fst (calc_mean_anomaly gb inds s) = with_Ma (fun _ => l) (kchk s)).
Proof.
  intros Hs. unfold calc_mean_anomaly. rewrite bind_get.
  assert (G : forall m : M (arg F), fst (m s) = kchk s -> exists l, length l = n /\
     (let r := bind m (fun x => bind get (fun s0 => bind (lift (assign (oMa s0) inds x)) (fun row => modify (with_Ma (fun _ => row))))) s in
      fst r = kchk s \/ fst r = with_Ma (fun _ => l) (kchk s))).
  { intros m Em. destruct (m s) as [s' r] eqn:Er. cbn in Em. subst s'.
    pose proof (lens_kchk n s Hs) as Hl. destruct r as [x|e].
    - rewrite (bind_ok _ _ _ _ _ Er), bind_get, bind_lift. destruct (assign _ _ _) as [row|e] eqn:Ea.
      + exists row. split; [apply assign_length in Ea; destruct Hl; lia|]. now right.
      + exists (oMa s). split; [now destruct Hs|]. now left.
    - rewrite (bind_err _ _ _ _ _ Er). exists (oMa s). split; [now destruct Hs|]. now left. }
  destruct (otype s).
  - apply (G (two_rows inds (fun xa xe => true_to_mean (gb 23) (gb 24) xa xe (odeg s)))). now rewrite (two_rows_eq n).
  - apply (G (two_rows inds (fun xa xe => eccentric_to_mean (gb 23) xa xe (odeg s)))). now rewrite (two_rows_eq n).
  - apply (G (one_row inds)). now rewrite (one_row_eq n).
Qed.
(** calc_eccentric_anomaly changes nothing but the cache (and refreshes stale Kepler columns) *)
Lemma calc_ecc_any n s inds : lens n s ->
  fst (calc_eccentric_anomaly gb inds s) = kchk s
  \/ exists x, fst (calc_eccentric_anomaly gb inds s) = with_E (fun _ => x) (kchk s).
Proof.
  intros Hs. unfold calc_eccentric_anomaly. rewrite bind_get.
  assert (G : forall m : M (arg F), fst (m s) = kchk s ->
     let r := bind m (fun x => bind get (fun s => match oE s with
      | Sc _ => raise TypeError
      | Arr _ _ d => bind (lift (assign d inds x)) (fun row => modify (with_E (fun _ => fresh [length row] row))) end)) s in
      fst r = kchk s \/ exists x, fst r = with_E (fun _ => x) (kchk s)).
  { intros m Em. destruct (m s) as [s' r] eqn:Er. cbn in Em. subst s'. destruct r as [x|e].
    - rewrite (bind_ok _ _ _ _ _ Er), bind_get. destruct (oE _) as [y|sh me d]; [now left|].
      rewrite bind_lift. destruct (assign _ _ _) as [row|e] eqn:Ea; [right; eexists; reflexivity|now left].
    - rewrite (bind_err _ _ _ _ _ Er). now left. }
  destruct (otype s).
  - apply (G (two_rows inds (fun xa xe => true_to_eccentric (gb 25) xa xe (odeg s)))). now rewrite (two_rows_eq n).
  - apply (G (one_row inds)). now rewrite (one_row_eq n).
  - assert (Et : forall f : arg F -> M unit, bind (get_anom gb) (fun an => bind (lift (sel an inds)) (fun xa => bind (get_e gb) (fun e =>
        bind (lift (sel e inds)) (fun xe => bind (lift (mean_to_eccentric xa xe (oopts s) (odeg s))) f)))) s
        = bind (two_rows inds (fun xa xe => mean_to_eccentric xa xe (oopts s) (odeg s))) f s).
    { intros f. unfold two_rows. rewrite bind_assoc. unfold get_anom, get_e.
      rewrite !(get_row_bind n) by auto. rewrite bind_lift, bind_assoc, bind_lift.
      destruct (sel _ inds); [|reflexivity].
      rewrite bind_assoc, !(get_row_bind' n) by auto. rewrite bind_assoc, !bind_lift.
      now destruct (sel _ inds). }
    rewrite Et. unfold bind. rewrite (two_rows_eq n) by auto.
    destruct (two_val _ _ _); [right; now eexists|now left].
Qed.
Lemma calc_ecc_cases n s inds : lens n s -> alE n s -> (otype s = AMean -> inds = IAll) ->
  exists d, length d = n /\
  (fst (calc_eccentric_anomaly gb inds s) = kchk s
   \/ fst (calc_eccentric_anomaly gb inds s) = with_E (fun _ => fresh [n] d) (kchk s)).
Proof.
  intros Hs [d0 [HE Ld0]] Hm. unfold calc_eccentric_anomaly. rewrite bind_get.
  assert (HE' : oE (kchk s) = fresh [n] d0).
  { unfold OrbitBase.kchk. destruct (kep_check_ok gb n s Hs) as [_ [_ [_ [_ [_ [_ [_ [_ [E _]]]]]]]]]. congruence. }
  assert (G : forall m : M (arg F), fst (m s) = kchk s -> exists l, length l = n /\
     (let r := bind m (fun x => bind get (fun s => match oE s with
      | Sc _ => raise TypeError
      | Arr _ _ d => bind (lift (assign d inds x)) (fun row => modify (with_E (fun _ => fresh [length row] row))) end)) s in
      fst r = kchk s \/ fst r = with_E (fun _ => fresh [n] l) (kchk s))).
  { intros m Em. destruct (m s) as [s' r] eqn:Er. cbn in Em. subst s'. destruct r as [x|e].
    - rewrite (bind_ok _ _ _ _ _ Er), bind_get. rewrite HE'. cbn [fresh].
      rewrite bind_lift. destruct (assign _ _ _) as [row|e] eqn:Ea.
      + apply assign_length in Ea. exists row. split; [congruence|]. right. cbn. rewrite Ea, Ld0. reflexivity.
      + exists d0. auto.
    - rewrite (bind_err _ _ _ _ _ Er). exists d0. auto. }
  destruct (otype s).
  - apply (G (two_rows inds (fun xa xe => true_to_eccentric (gb 25) xa xe (odeg s)))). now rewrite (two_rows_eq n).
  - apply (G (one_row inds)). now rewrite (one_row_eq n).
  - rewrite (Hm eq_refl). clear G.
    pose proof (lens_kchk n s Hs) as Hl.
    assert (Esel : forall k, sel (map (row_get k) (okep (kchk s))) IAll = Ok (fresh [n] (map (row_get k) (okep (kchk s))))).
    { intros k. rewrite (sel_spec _ IAll (seq 0 n)); auto.
      - rewrite seq_length. replace n with (length (map (row_get k) (okep (kchk s)))) at 2 by (rewrite map_length; now destruct Hl).
        now rewrite pick_all.
      - rewrite map_length. unfold resolve. cbn. f_equal. f_equal. now destruct Hl. }
    unfold get_anom, get_e. rewrite (get_row_bind n), bind_lift, Esel by auto.
    rewrite (get_row_bind' n), bind_lift, Esel by auto. rewrite m2e_arr by (rewrite map_length; now destruct Hl).
    rewrite bind_lift. eexists. split; [|right; reflexivity].
    rewrite map2_length, !map_length. destruct Hl. lia.
Qed.

(** ** Operations that only read (and refresh stale columns): any property that survives
    _kep_check, _cart_check and writes to the anomaly caches survives them. *)
Definition reader (o : op F) : bool :=
  match o with
  | OGetCart | OGetKep | OGetTrue | OGetEcc | OGetMean | OGetPeriod | OGetEqui
  | OGetVelocity | OGetSpeed | OCalcTrue _ | OCalcMean _ | OCalcEcc _ | OIter | ONext => true
  | _ => false
  end.
Lemma fst_void {A} (m : M A) (s : orb) : fst (void m s) = fst (m s).
Proof. unfold void, bind. now destruct (m s) as [s' [x|e]]. Qed.
Section Readers.
Variable P : orb -> Prop.
Hypothesis Pl : forall s, P s -> exists n, lens n s.
Hypothesis Pk : forall s, P s -> P (kchk s).
Hypothesis Pc : forall s, P s -> P (cchk s).
Hypothesis Pnu : forall n s l, P s -> lens n s -> length l = n -> P (with_nu (fun _ => l) s).
Hypothesis PMa : forall n s l, P s -> lens n s -> length l = n -> P (with_Ma (fun _ => l) s).
Hypothesis Pit : forall s i, P s -> P (with_it i s).
(** [okE i s]: calc_eccentric_anomaly(i) is admissible in state [s] *)
Variable okE : Idx -> orb -> Prop.
Hypothesis PE : forall i s, P s -> okE i s -> P (fst (calc_eccentric_anomaly gb i s)).
Hypothesis okAll : forall s, okE IAll s.

Lemma P_get_ecc s : P s -> P (fst (get_eccentric_anomaly gb s)).
Proof.
  intros Ps. unfold get_eccentric_anomaly. rewrite bind_get. destruct (Pl s Ps) as [n Hs].
  destruct (otype s);
    [|unfold get_anom; rewrite (get_row_bind n) by auto; now apply Pk|].
  all: pose proof (PE IAll s Ps (okAll s)) as Q; unfold bind; destruct (calc_eccentric_anomaly gb IAll s) as [s' [x|e]]; exact Q.
Qed.
Lemma P_get_true s : P s -> P (fst (get_true_anomaly gb s)).
Proof.
  intros Ps. unfold get_true_anomaly. rewrite bind_get. destruct (Pl s Ps) as [n Hs].
  assert (Q : P (fst (calc_true_anomaly gb IAll s))).
  { destruct (calc_true_cases n s IAll Hs) as [l [Hl [->| ->]]]; auto. apply (Pnu n); auto using lens_kchk. }
  destruct (otype s).
  - unfold get_anom. rewrite (get_kep_row_spec gb n) by auto. now apply Pk.
  - unfold bind; destruct (calc_true_anomaly gb IAll s) as [s' [x|e]]; exact Q.
  - unfold bind; destruct (calc_true_anomaly gb IAll s) as [s' [x|e]]; exact Q.
Qed.
Lemma P_get_mean s : P s -> P (fst (get_mean_anomaly gb s)).
Proof.
  intros Ps. unfold get_mean_anomaly. rewrite bind_get. destruct (Pl s Ps) as [n Hs].
  assert (Q : P (fst (calc_mean_anomaly gb IAll s))).
  { destruct (calc_mean_cases n s IAll Hs) as [l [Hl [->| ->]]]; auto. apply (PMa n); auto using lens_kchk. }
  destruct (otype s).
  - unfold bind; destruct (calc_mean_anomaly gb IAll s) as [s' [x|e]]; exact Q.
  - unfold bind; destruct (calc_mean_anomaly gb IAll s) as [s' [x|e]]; exact Q.
  - unfold get_anom. rewrite (get_kep_row_spec gb n) by auto. now apply Pk.
Qed.
Lemma P_bind {A B} (m : M A) (f : A -> M B) (s : orb) : P (fst (m s)) ->
  (forall x s', P s' -> P (fst (f x s'))) -> P (fst (bind m f s)).
Proof. intros Hm Hf. unfold bind. destruct (m s) as [s' [x|e]]; auto. Qed.
Lemma P_row k s : P s -> P (fst (get_kep_row gb k s)).
Proof. intros Ps. destruct (Pl s Ps) as [n Hs]. rewrite (get_kep_row_spec gb n) by auto. now apply Pk. Qed.
Lemma P_kchk s : P s -> P (fst (kep_check gb s)). Proof. apply Pk. Qed.
Lemma P_cchk s : P s -> P (fst (cart_check gb s)). Proof. apply Pc. Qed.
Lemma P_get_period s : P s -> P (fst (get_period gb s)).
Proof.
  intros Ps. unfold get_period. apply P_bind; [now apply P_kchk|]. intros _ s1 P1.
  apply P_bind; [now apply P_row|]. intros a s2 P2. exact P2.
Qed.
Lemma P_get_kepler s : P s -> P (fst (get_kepler gb s)).
Proof. intros Ps. unfold get_kepler. apply P_bind; [now apply P_kchk|]. auto. Qed.
Lemma P_get_cart s : P s -> P (fst (get_cartesian gb s)).
Proof. intros Ps. unfold get_cartesian. apply P_bind; [now apply P_cchk|]. auto. Qed.
Lemma P_get_v s : P s -> P (fst (get_v gb s)).
Proof. intros Ps. unfold get_v. apply P_bind; [now apply P_cchk|]. auto. Qed.

Lemma reader_inv s o : reader o = true -> P s -> (forall i, o = OCalcEcc i -> okE i s) -> P (fst (run_op gb o s)).
Proof.
  intros Ho Ps Hk. destruct (Pl s Ps) as [n Hs].
  destruct o; try discriminate Ho; cbn [run_op]; rewrite ?fst_void.
  - now apply P_get_cart.
  - now apply P_get_kepler.
  - now apply P_get_true.
  - now apply P_get_ecc.
  - now apply P_get_mean.
  - now apply P_get_period.
  - unfold get_equinoctial. apply P_bind; [now apply P_get_kepler|]. intros k s1 P1.
    apply P_bind; [now apply P_get_mean|]. intros m s2 P2. rewrite bind_get.
    now destruct (kep_to_equi_cols _ _) as [|c [|]].
  - unfold get_velocity. apply P_bind; [now apply P_cchk|]. intros _ s1 P1.
    apply P_bind; [now apply P_get_v|]. auto.
  - unfold get_speed. apply P_bind; [now apply P_kchk|]. intros _ s1 P1.
    apply P_bind; [now apply P_get_ecc|]. intros E s2 P2.
    apply P_bind; [now apply P_row|]. intros a s3 P3.
    apply P_bind; [now apply P_row|]. intros e s4 P4. rewrite bind_get, bind_lift.
    destruct (bcast1 _ _); [|exact P4]. apply P_bind; [now apply P_row|]. auto.
  - destruct (calc_true_cases n s inds Hs) as [l [Hl [->| ->]]]; auto. apply (Pnu n); auto using lens_kchk.
  - destruct (calc_mean_cases n s inds Hs) as [l [Hl [->| ->]]]; auto. apply (PMa n); auto using lens_kchk.
  - apply PE; auto.
  - apply Pit; auto.
  - unfold next. rewrite bind_get. destruct (oit s); [|exact Ps]. destruct (Nat.ltb _ _); [|exact Ps].
    rewrite bind_modify, bind_get. apply Pit; auto.
Qed.
End Readers.
End Ops.
