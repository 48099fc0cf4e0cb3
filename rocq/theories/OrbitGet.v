(** * Values returned by the anomaly getters and the effect of assigning [type] (any arithmetic) *)
From Coq Require Import String List Bool Arith Lia ZArith QArith.
From Verif Require Import NP KeplerModel ConvModel UnitModel OrbitModel Lists ConvCols ArraySpec
  PropsAnomaly OrbitLists OrbitBase OrbitOps OrbitSetters.
Import ListNotations.
Local Open Scope nat_scope.

Section Get.
Context {F : Type} `{NP F}.
Variable gb : nat -> nat -> F.
Notation orb := (orb F).
Notation kchk := (kchk gb).

(** the object without its anomaly caches and iterator *)
Definition core (s : orb) := (settings s, om s, ocart s, okep s, ocf s, okf s).
(** the anomaly [w] of a stored column *)
Definition anom1 (w : anomaly) (s : orb) (g : F * F) (k : six F) : F :=
  match w with ATrue => nu1 s (fst g) k | AEcc => ec1 s (fst g) k | AMean => ma1 s g k end.
Definition get_of (w : anomaly) : M (list F) :=
  match w with
  | ATrue => get_true_anomaly gb
  | AMean => get_mean_anomaly gb
  | AEcc => bind (get_eccentric_anomaly gb) (fun x => ret (entries x))
  end.
Lemma put_all {A} (vs l : list A) : length vs = length l -> put (seq 0 (length l)) vs l = vs.
Proof.
  intros L. assert (G : forall (pre l vs : list A), length vs = length l ->
     put (seq (length pre) (length l)) vs (pre ++ l) = pre ++ vs).
  { clear. intros pre l. revert pre. induction l as [|x l IH]; intros pre [|v vs] L; try discriminate; auto.
    cbn [length seq put]. rewrite upd_nth_app. specialize (IH (pre ++ [v]) vs).
    rewrite app_length, Nat.add_1_r in IH. rewrite <- !app_assoc in IH. apply IH. now injection L. }
  exact (G [] l vs L).
Qed.
Lemma assign_all n (d vs : list F) : length d = n -> length vs = n -> assign d IAll (fresh [n] vs) = Ok vs.
Proof.
  intros Ld Lv. assert (E : n = length (seq 0 n)) by now rewrite seq_length. rewrite E at 1.
  rewrite (assign_spec d vs IAll (seq 0 n)); [|unfold resolve; cbn; now rewrite Ld|now rewrite seq_length].
  rewrite <- Ld. rewrite put_all; congruence.
Qed.
Lemma anom1_settings w (s s' : orb) g k : settings s = settings s' -> anom1 w s g k = anom1 w s' g k.
Proof.
  intros E. apply settings_eq in E. destruct E as [_ [_ [_ [_ [_ [_ [Ed [Et Eo]]]]]]]].
  unfold anom1, nu1, ec1, ma1. now rewrite Ed, Et, Eo.
Qed.
Definition vals_of (w : anomaly) (s : orb) (l : list (six F)) (vs : list F) : Prop :=
  length vs = length l /\ forall j k, nth_error l j = Some k -> exists g, nth_error vs j = Some (anom1 w s g k).
Lemma vals_stored w (s : orb) l : otype s = w -> vals_of w s l (map (row_get 5) l).
Proof.
  intros E. split; [apply map_length|]. intros j k Hk. rewrite nth_error_map, Hk. exists (nan, nan).
  cbn. f_equal. unfold anom1, nu1, ec1, ma1. destruct w; now rewrite E.
Qed.
Lemma entries_all n (s : orb) f vs : lens n s -> entries_of gb s (seq 0 n) f vs ->
  length vs = n /\ forall j k, nth_error (okep (kchk s)) j = Some k -> exists v, nth_error vs j = Some v /\ f k v.
Proof.
  intros Hs [L E]. rewrite seq_length in L. split; [auto|]. intros j k Hk. apply (E j j k); auto.
  pose proof (nth_error_lt _ _ _ Hk) as Hj. rewrite (l_k n _ (lens_kchk gb n s Hs)) in Hj.
  rewrite (nth_error_nth' _ 0) by now rewrite seq_length. now rewrite seq_nth.
Qed.
Lemma get_ecc_spec n (s : orb) : aligned n s -> exists s1 vs,
  get_eccentric_anomaly gb s = (s1, Ok (fresh [n] vs)) /\ core s1 = core (kchk s) /\ aligned n s1
  /\ vals_of AEcc s (okep (kchk s)) vs.
Proof.
  intros [Hs HE]. pose proof (lens_kchk gb n s Hs) as Hl.
  assert (HE' : alE n (kchk s)).
  { destruct (kchk_spec gb n s Hs) as [_ [_ [_ [_ [_ [E _]]]]]]. destruct HE as [d HE]. exists d. now rewrite E. }
  unfold get_eccentric_anomaly. rewrite bind_get.
    assert (Esel : forall k, sel (map (row_get k) (okep (kchk s))) IAll = Ok (fresh [n] (map (row_get k) (okep (kchk s))))).
    { intros k. rewrite (sel_spec _ IAll (seq 0 n)); auto.
      - rewrite seq_length. replace n with (length (map (row_get k) (okep (kchk s)))) at 2 by (rewrite map_length; now destruct Hl).
        now rewrite pick_all.
      - rewrite map_length. unfold resolve. cbn. f_equal. f_equal. now destruct Hl. }
    assert (LR : forall k, length (map (row_get k) (okep (kchk s))) = n) by (intros; rewrite map_length; now destruct Hl).
    destruct (otype s) eqn:Et.
    + unfold calc_eccentric_anomaly. rewrite bind_assoc, bind_get, Et. unfold get_anom, get_e.
      rewrite !bind_assoc. rewrite (get_row_bind gb n), bind_assoc, bind_lift, Esel by auto.
      rewrite bind_assoc, (get_row_bind' gb n), bind_assoc, bind_lift, Esel by auto.
      rewrite bind_lift, t2e_arr by auto. rewrite bind_assoc, bind_get.
      destruct HE' as [d [HE' Ld]]. rewrite HE'. unfold fresh at 1. rewrite bind_assoc, bind_lift.
      rewrite (assign_all n) by (auto; rewrite imap2_length, !LR; lia). rewrite bind_modify, bind_get.
      eexists _, _. split; [cbn [oE with_E]; rewrite imap2_length, !LR, Nat.min_id; reflexivity|]. split; [reflexivity|].
      assert (Li : forall f, length (imap2 f 0 (map (row_get 5) (okep (kchk s))) (map (row_get 1) (okep (kchk s))) : list F) = n).
      { intros f. rewrite imap2_length, !LR. lia. }
      split; [split; [destruct Hl; now constructor|eexists; split; [cbn; reflexivity|apply Li]]|].
      cbn [entries oE with_E fresh]. split; [rewrite Li; now destruct Hl|]. intros j k Hk.
      rewrite imap2_nth, !nth_error_map, Hk. cbn. exists (gb 25 j, nan). unfold ec1. rewrite Et. reflexivity.
    + unfold get_anom. rewrite (get_row_bind gb n) by auto. eexists _, _. split; [rewrite LR; reflexivity|].
      split; [reflexivity|]. split; [now split|]. cbn [entries fresh]. now apply vals_stored.
    + unfold calc_eccentric_anomaly. rewrite bind_assoc, bind_get, Et. unfold get_anom, get_e.
      rewrite bind_assoc, (get_row_bind gb n), bind_assoc, bind_lift, Esel by auto.
      rewrite bind_assoc, (get_row_bind' gb n), bind_assoc, bind_lift, Esel by auto.
      rewrite bind_assoc, m2e_arr, bind_lift by auto. rewrite bind_modify, bind_get.
      eexists _, _. split; [reflexivity|]. split; [reflexivity|].
      assert (Li : forall f : F -> F -> F, length (map2 f (map (row_get 5) (okep (kchk s))) (map (row_get 1) (okep (kchk s)))) = n).
      { intros f. rewrite map2_length, !LR. lia. }
      split; [split; [destruct Hl; now constructor|eexists; split; [reflexivity|apply Li]]|].
      cbn [entries oE with_E fresh]. split; [rewrite Li; now destruct Hl|]. intros j k Hk.
      rewrite nth_error_map2, !nth_error_map, Hk. cbn. exists (nan, nan). unfold ec1. rewrite Et. reflexivity.
Qed.
Theorem get_of_spec n w (s : orb) : aligned n s -> exists s1 vs,
  get_of w s = (s1, Ok vs) /\ core s1 = core (kchk s) /\ aligned n s1 /\ vals_of w s (okep (kchk s)) vs.
Proof.
  intros [Hs HE]. pose proof (lens_kchk gb n s Hs) as Hl.
  assert (HE' : alE n (kchk s)).
  { destruct (kchk_spec gb n s Hs) as [_ [_ [_ [_ [_ [E _]]]]]]. destruct HE as [d HE]. exists d. now rewrite E. }
  assert (St : otype s = w -> exists s1 vs, get_kep_row gb 5 s = (s1, Ok vs) /\ core s1 = core (kchk s) /\ aligned n s1 /\ vals_of w s (okep (kchk s)) vs).
  { intros E. exists (kchk s). eexists. split; [now apply (get_kep_row_spec gb n)|]. split; [auto|]. split; [now split|].
    now apply vals_stored. }
  assert (Lnu : onu (kchk s) = onu s) by (now destruct (kchk_spec gb n s Hs) as [_ [? _]]).
  destruct w; cbn [get_of].
  - unfold get_true_anomaly. rewrite bind_get. destruct (otype s) eqn:Et; [now apply St| |].
    all: destruct (calc_true_spec gb n s IAll (seq 0 n) Hs eq_refl eq_refl) as [vs [E V]]; rewrite (bind_ok _ _ _ _ _ E), bind_get.
    all: apply (entries_all n s) in V; auto; destruct V as [Lv V].
    all: eexists _, _; split; [reflexivity|]; cbn [onu with_nu]; rewrite <- (l_nu n s Hs), put_all by (rewrite (l_nu n s Hs); auto).
    all: split; [reflexivity|]; split; [split; [rewrite (l_nu n s Hs); now apply lens_with_nu|rewrite (l_nu n s Hs); exact HE']|].
    all: split; [rewrite (l_k n _ Hl); auto|]; intros j k Hk; destruct (V j k Hk) as [v [Hv [g ->]]]; now exists (g, nan).
  - destruct (get_ecc_spec n s (conj Hs HE)) as [s1 [vs [E [E1 [E2 E3]]]]]. exists s1, vs.
    rewrite (bind_ok _ _ _ _ _ E). auto.
  - unfold get_mean_anomaly. rewrite bind_get.
    assert (LMa : oMa (kchk s) = oMa s) by (now destruct (kchk_spec gb n s Hs) as [_ [_ [_ [_ [_ [_ [? _]]]]]]]).
    destruct (otype s) eqn:Et; [| |now apply St].
    all: destruct (calc_mean_spec gb n s IAll (seq 0 n) Hs eq_refl eq_refl) as [vs [E V]]; rewrite (bind_ok _ _ _ _ _ E), bind_get.
    all: apply (entries_all n s) in V; auto; destruct V as [Lv V].
    all: eexists _, _; split; [reflexivity|]; cbn [oMa with_Ma]; rewrite <- (l_Ma n s Hs), put_all by (rewrite (l_Ma n s Hs); auto).
    all: split; [reflexivity|]; split; [split; [rewrite (l_Ma n s Hs); now apply lens_with_Ma|rewrite (l_Ma n s Hs); exact HE']|].
    all: split; [rewrite (l_k n _ Hl); auto|]; intros j k Hk; destruct (V j k Hk) as [v [Hv [g ->]]]; now exists g.
Qed.

(** ** Assigning [type] *)
Lemma set_type_unfold n val t (s : orb) : aligned n s -> anomaly_of (strip (lower val)) = Some t -> otype s <> t ->
  exists s1 xs, core s1 = core (kchk s) /\ aligned n s1 /\ vals_of t s (okep (kchk s)) xs /\ length xs = n
    /\ set_type gb val s = bind (set_anom gb (fresh [n] xs)) (fun _ => modify (with_type t)) s1.
Proof.
  intros A Ea Et. pose proof A as [Hs _]. unfold set_type. rewrite Ea, bind_get.
  destruct (anomaly_eqb (otype s) t) eqn:Eq; [destruct (otype s), t; (discriminate || congruence)|].
  assert (Len : forall xs, vals_of t s (okep (kchk s)) xs -> length xs = n).
  { intros xs [V _]. rewrite V. apply (l_k n), lens_kchk; auto. }
  destruct t.
  - destruct (get_of_spec n ATrue s A) as [s1 [vs [E [E1 [E2 E3]]]]]. cbn [get_of] in E.
    exists s1, vs. split; [auto|]. split; [auto|]. split; [auto|]. split; [auto|].
    rewrite bind_assoc, (bind_ok _ _ _ _ _ E). now rewrite (Len vs E3).
  - destruct (get_ecc_spec n s A) as [s1 [vs [E [E1 [E2 E3]]]]].
    exists s1, vs. split; [auto|]. split; [auto|]. split; [auto|]. split; [auto|].
    now rewrite bind_assoc, (bind_ok _ _ _ _ _ E).
  - destruct (get_of_spec n AMean s A) as [s1 [vs [E [E1 [E2 E3]]]]]. cbn [get_of] in E.
    exists s1, vs. split; [auto|]. split; [auto|]. split; [auto|]. split; [auto|].
    rewrite bind_assoc, (bind_ok _ _ _ _ _ E). now rewrite (Len vs E3).
Qed.
Lemma core_settings n (s s1 : orb) : lens n s -> core s1 = core (kchk s) -> settings s1 = settings s.
Proof. intros Hs C. transitivity (settings (kchk s)); [unfold core in C; congruence|now apply (kchk_settings gb n)]. Qed.
Theorem set_type_spec n val t (s : orb) : aligned n s -> anomaly_of (strip (lower val)) = Some t ->
  otype s <> t -> okro s = false ->
  exists s1 xs, core s1 = core (kchk s) /\ aligned n s1 /\ vals_of t s (okep (kchk s)) xs /\ length xs = n
    /\ set_type gb val s = (with_type t (aft_keprow gb (with_kep (fun c => set_row 5 c xs) s1)), Ok tt).
Proof.
  intros A Ea Et Ho. destruct (set_type_unfold n val t s A Ea Et) as [s1 [xs [C [A1 [V [L E]]]]]].
  exists s1, xs. split; [auto|]. split; [auto|]. split; [auto|]. split; [auto|]. rewrite E.
  pose proof (core_settings n s s1 (proj1 A) C) as Es. apply settings_eq in Es. destruct Es as [_ [_ [_ [_ [Es _]]]]].
  pose proof (set_kep_row_eq gb n 5 (fresh [n] xs) s1 (proj1 A1) (wfv_fresh1 n xs L)) as Er.
  rewrite Es, Ho, bcast1_fresh in Er by auto. unfold set_anom. now rewrite (bind_ok _ _ _ _ _ Er).
Qed.
Lemma set_type_ro n val t (s : orb) : aligned n s -> anomaly_of (strip (lower val)) = Some t ->
  otype s <> t -> okro s = true ->
  exists s1, core s1 = core (kchk s) /\ aligned n s1 /\ set_type gb val s = (s1, Raise AttributeError).
Proof.
  intros A Ea Et Ho. destruct (set_type_unfold n val t s A Ea Et) as [s1 [xs [C [A1 [V [L E]]]]]].
  exists s1. split; [auto|]. split; [auto|]. rewrite E.
  pose proof (core_settings n s s1 (proj1 A) C) as Es. apply settings_eq in Es. destruct Es as [_ [_ [_ [_ [Es _]]]]].
  pose proof (set_kep_row_eq gb n 5 (fresh [n] xs) s1 (proj1 A1) (wfv_fresh1 n xs L)) as Er.
  rewrite Es, Ho in Er. unfold set_anom. now rewrite (bind_err _ _ _ _ _ Er).
Qed.
Lemma set_type_same val t (s : orb) : anomaly_of (strip (lower val)) = Some t -> otype s = t -> set_type gb val s = (s, Ok tt).
Proof. intros Ea <-. unfold set_type. rewrite Ea, bind_get. now destruct (otype s). Qed.
Lemma set_type_bad val (s : orb) : anomaly_of (strip (lower val)) = None -> set_type gb val s = (s, Raise ValueError).
Proof. intros Ea. unfold set_type. now rewrite Ea. Qed.
Lemma anomaly_dec (a b : anomaly) : {a = b} + {a <> b}. Proof. decide equality. Qed.
End Get.
