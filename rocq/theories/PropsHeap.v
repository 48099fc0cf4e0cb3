(** * C68: arrays handed out by an Orbit, and copies of an Orbit, are independent of it *)
From Coq Require Import Ascii String List Bool ZArith QArith Lia Permutation.
From Verif Require Import NP NPToyN KeplerModel ConvModel UnitModel PropsUnit OrbitModel HeapModel HeapSim HeapSpec.
Import ListNotations.
Local Open Scope nat_scope.

Section Props.
Context {F : Type} `{NP F}.
Notation orb := (orb F).
Notation obj := (obj F).
Notation heap := (heap F).
Notation world := (world F).

(** no object reaches a private cell of another one, the caller reaches no private cell *)
Record inv (w : world) : Prop := {
  i_good : forall j b, nth_error (w_objs w) j = Some b -> good b (w_h w);
  i_priv : forall j k b c a, j <> k -> nth_error (w_objs w) j = Some b -> nth_error (w_objs w) k = Some c ->
             In a (priv b) -> ~ In a (owned c);
  i_refs : forall j b a, nth_error (w_objs w) j = Some b -> In a (priv b) -> ~ In a (w_refs w);
  i_dom : forall a, In a (w_refs w) -> a < length (w_h w) }.
(** nothing is shared *)
Record sep (w : world) : Prop := {
  s_inv : inv w;
  s_ref : forall j b, nth_error (w_objs w) j = Some b -> ~ In (a_m b) (w_refs w);
  s_obj : forall j k b c, j <> k -> nth_error (w_objs w) j = Some b -> nth_error (w_objs w) k = Some c ->
            a_m b <> a_m c;
  s_nodup : NoDup (w_refs w) }.
Lemma nth_app {A} (l : list A) t j x : nth_error (l ++ t) j = Some x ->
  nth_error l j = Some x \/ (length l <= j /\ nth_error t (j - length l) = Some x).
Proof.
  intros E. destruct (Nat.lt_ge_cases j (length l)).
  - left. rewrite nth_error_app1 in E by assumption. exact E.
  - right. rewrite nth_error_app2 in E by assumption. auto.
Qed.
Lemma nth_upd {A} (l : list A) o x y j : nth_error (upd_nth o x l) j = Some y ->
  (j = o /\ y = x) \/ (j <> o /\ nth_error l j = Some y).
Proof.
  rewrite upd_nth_error. destruct (Nat.eqb_spec o j) as [<-|N]; [|right; auto].
  destruct (Nat.ltb o (length l)); [|discriminate]. intros E. injection E as <-. auto.
Qed.
Lemma nth_lt {A} (l : list A) j x : nth_error l j = Some x -> j < length l.
Proof. intros E. apply nth_error_Some. congruence. Qed.
Lemma one {A} (t : list A) j k x y : length t <= 1 -> nth_error t j = Some x -> nth_error t k = Some y -> j = k.
Proof. intros L E1 E2. apply nth_lt in E1. apply nth_lt in E2. lia. Qed.
Lemma owned_lt w j b a : inv w -> nth_error (w_objs w) j = Some b -> In a (owned b) -> a < length (w_h w).
Proof. intros I E A. exact (proj2 (i_good _ I j b E) a A). Qed.

(** ** Two kinds of change: an object acts; objects and references are created *)
Definition act (w : world) (o : nat) (b b' : obj) (h' : heap) (nr : list nat) (nt : list obj) (w' : world) : Prop :=
  nth_error (w_objs w) o = Some b /\ good b' h' /\ ext b (w_h w) b' h' /\
  (forall a, In a nr -> length (w_h w) <= a < length h' /\ ~ In a (owned b')) /\
  (forall t, In t nt -> newobj (w_h w) h' t /\ forall a, In a (owned t) -> ~ In a (owned b')) /\
  length nr <= 1 /\ length nt <= 1 /\ (nr = [] \/ nt = []) /\
  w' = mkw h' (upd_nth o b' (w_objs w) ++ nt) (w_refs w ++ nr).
Definition grow (w : world) (h' : heap) (nr : list nat) (nt : list obj) (w' : world) : Prop :=
  grown (w_h w) h' /\
  (forall a, In a nr -> length (w_h w) <= a < length h') /\
  (forall t, In t nt -> newobj (w_h w) h' t) /\
  length nr <= 1 /\ length nt <= 1 /\ (nr = [] \/ nt = []) /\
  w' = mkw h' (w_objs w ++ nt) (w_refs w ++ nr).
Lemma act_cases w o b b' h' nr nt w' j c : act w o b b' h' nr nt w' -> nth_error (w_objs w') j = Some c ->
  (j = o /\ c = b') \/ (j <> o /\ nth_error (w_objs w) j = Some c) \/
  (length (w_objs w) <= j /\ nth_error nt (j - length (w_objs w)) = Some c).
Proof.
  intros (_ & _ & _ & _ & _ & _ & _ & _ & ->) E. cbn [w_objs] in E. apply nth_app in E.
  rewrite upd_nth_length in E. destruct E as [E|E]; [apply nth_upd in E; tauto|tauto].
Qed.
Lemma act_priv w o b b' h' nr nt w' : inv w -> act w o b b' h' nr nt w' -> inv w'.
Proof.
  intros I A. pose proof A as (Eb & G & X & NR & NT & L1 & L2 & RT & ->).
  pose proof (proj1 X) as LH.
  assert (OB : forall a, In a (owned b') -> In a (owned b) \/ length (w_h w) <= a) by (intros a; apply (ext_owned _ _ _ _ _ X)).
  assert (PB : forall a, In a (priv b') -> In a (priv b) \/ length (w_h w) <= a) by (apply X).
  assert (PO : forall (c : obj) a, In a (priv c) -> In a (owned c)) by (intros; right; assumption).
  constructor; cbn [w_h w_objs w_refs].
  - intros j c E. destruct (act_cases _ _ _ _ _ _ _ _ _ _ A E) as [[_ ->]|[[N E']|[_ E']]]; [exact G| |].
    + destruct (i_good _ I j c E') as [N1 L]. split; [exact N1|]. intros a Ia. specialize (L a Ia). lia.
    + apply nth_error_In in E'. apply (NT c E').
  - intros j k c d a Njk Ej Ek Ip Io.
    destruct (act_cases _ _ _ _ _ _ _ _ _ _ A Ej) as [[-> ->]|[[Nj Ej']|[Lj Ej']]];
      destruct (act_cases _ _ _ _ _ _ _ _ _ _ A Ek) as [[-> ->]|[[Nk Ek']|[Lk Ek']]].
    + congruence.
    + destruct (PB a Ip) as [P|P]; [exact (i_priv _ I o k b d a Njk Eb Ek' P Io)|].
      pose proof (owned_lt _ _ _ _ I Ek' Io). lia.
    + apply nth_error_In in Ek'. exact (proj2 (NT d Ek') a Io (PO _ _ Ip)).
    + destruct (OB a Io) as [P|P]; [exact (i_priv _ I j o c b a Nj Ej' Eb Ip P)|].
      pose proof (owned_lt _ _ _ _ I Ej' (PO _ _ Ip)). lia.
    + exact (i_priv _ I j k c d a Njk Ej' Ek' Ip Io).
    + apply nth_error_In in Ek'. pose proof (proj2 (proj1 (NT d Ek')) a Io).
      pose proof (owned_lt _ _ _ _ I Ej' (PO _ _ Ip)). lia.
    + apply nth_error_In in Ej'. exact (proj2 (NT c Ej') a (PO _ _ Ip) Io).
    + apply nth_error_In in Ej'. pose proof (proj2 (proj1 (NT c Ej')) a (PO _ _ Ip)).
      pose proof (owned_lt _ _ _ _ I Ek' Io). lia.
    + pose proof (one _ _ _ _ _ L2 Ej' Ek'). lia.
  - intros j c a Ej Ip Ir. apply in_app_or in Ir.
    destruct (act_cases _ _ _ _ _ _ _ _ _ _ A Ej) as [[-> ->]|[[Nj Ej']|[Lj Ej']]].
    + destruct Ir as [Ir|Ir]; [|apply (NR a Ir); right; exact Ip].
      destruct (PB a Ip) as [P|P]; [exact (i_refs _ I o b a Eb P Ir)|pose proof (i_dom _ I a Ir); lia].
    + destruct Ir as [Ir|Ir]; [exact (i_refs _ I j c a Ej' Ip Ir)|].
      pose proof (owned_lt _ _ _ _ I Ej' (PO _ _ Ip)). pose proof (proj1 (NR a Ir)). lia.
    + destruct Ir as [Ir|Ir].
      * apply nth_error_In in Ej'. pose proof (proj2 (proj1 (NT c Ej')) a (PO _ _ Ip)). pose proof (i_dom _ I a Ir). lia.
      * destruct RT as [->| ->]; [destruct Ir|]. destruct (j - length (w_objs w)); discriminate.
  - intros a Ia. apply in_app_or in Ia. destruct Ia as [Ia|Ia]; [pose proof (i_dom _ I a Ia); lia|].
    pose proof (proj1 (NR a Ia)). lia.
Qed.
Lemma act_sep w o b b' h' nr nt w' : sep w -> act w o b b' h' nr nt w' -> sep w'.
Proof.
  intros S A. pose proof (s_inv _ S) as I. pose proof (act_priv _ _ _ _ _ _ _ _ I A) as I'.
  pose proof A as (Eb & G & X & NR & NT & L1 & L2 & RT & ->). pose proof (proj1 X) as LH.
  assert (MB : a_m b' = a_m b \/ length (w_h w) <= a_m b') by (apply X).
  assert (ML : forall j c, nth_error (w_objs w) j = Some c -> a_m c < length (w_h w)).
  { intros j c E. apply (owned_lt _ _ _ _ I E). left. reflexivity. }
  constructor; cbn [w_h w_objs w_refs]; [exact I'| | |].
  - intros j c Ej Ir. apply in_app_or in Ir.
    destruct (act_cases _ _ _ _ _ _ _ _ _ _ A Ej) as [[-> ->]|[[Nj Ej']|[Lj Ej']]].
    + destruct Ir as [Ir|Ir]; [|apply (NR _ Ir); left; reflexivity].
      destruct MB as [M|M]; [rewrite M in Ir; exact (s_ref _ S o b Eb Ir)|pose proof (i_dom _ I _ Ir); lia].
    + destruct Ir as [Ir|Ir]; [exact (s_ref _ S j c Ej' Ir)|].
      pose proof (ML _ _ Ej'). pose proof (proj1 (NR _ Ir)). lia.
    + destruct Ir as [Ir|Ir].
      * apply nth_error_In in Ej'. pose proof (proj2 (proj1 (NT c Ej')) _ (or_introl eq_refl)). pose proof (i_dom _ I _ Ir). lia.
      * destruct RT as [->| ->]; [destruct Ir|]. destruct (j - length (w_objs w)); discriminate.
  - intros j k c d Njk Ej Ek Em.
    destruct (act_cases _ _ _ _ _ _ _ _ _ _ A Ej) as [[-> ->]|[[Nj Ej']|[Lj Ej']]];
      destruct (act_cases _ _ _ _ _ _ _ _ _ _ A Ek) as [[-> ->]|[[Nk Ek']|[Lk Ek']]].
    + congruence.
    + pose proof (ML _ _ Ek'). destruct MB as [M|M]; [exact (s_obj _ S o k b d Njk Eb Ek' ltac:(congruence))|lia].
    + apply nth_error_In in Ek'. apply (proj2 (NT d Ek') (a_m d)); [left; reflexivity|rewrite <- Em; left; reflexivity].
    + pose proof (ML _ _ Ej'). destruct MB as [M|M]; [exact (s_obj _ S j o c b Nj Ej' Eb ltac:(congruence))|lia].
    + exact (s_obj _ S j k c d Njk Ej' Ek' Em).
    + apply nth_error_In in Ek'. pose proof (proj2 (proj1 (NT d Ek')) _ (or_introl eq_refl)). pose proof (ML _ _ Ej'). lia.
    + apply nth_error_In in Ej'. apply (proj2 (NT c Ej') (a_m c)); [left; reflexivity|rewrite Em; left; reflexivity].
    + apply nth_error_In in Ej'. pose proof (proj2 (proj1 (NT c Ej')) _ (or_introl eq_refl)). pose proof (ML _ _ Ek'). lia.
    + pose proof (one _ _ _ _ _ L2 Ej' Ek'). lia.
  - destruct nr as [|a [|a' nr]]; [rewrite app_nil_r; exact (s_nodup _ S)| |cbn in L1; lia].
    
    apply (Permutation_NoDup (l := a :: w_refs w)); [apply Permutation_cons_append|].
    constructor; [|exact (s_nodup _ S)]. intros Ia. pose proof (i_dom _ I _ Ia).
    pose proof (proj1 (NR a (or_introl eq_refl))). lia.
Qed.
(** the other objects keep their values, but for masses they share *)
Lemma view_but_mass (c : obj) (h h' : heap) : (forall a, In a (priv c) -> ld h' a = ld h a) ->
  but_mass (view c h) (view c h').
Proof.
  intros E. unfold but_mass, view, with_m.
  cbn [oM0 oG oauto odirect okro ocro odeg otype oopts om ocart okep onu oE oMa ocf okf oit].
  rewrite !E by (unfold priv; cbn [In]; tauto). reflexivity.
Qed.
Lemma view_same (c : obj) (h h' : heap) : (forall a, In a (owned c) -> ld h' a = ld h a) -> view c h' = view c h.
Proof. intros E. unfold view. rewrite !E by (unfold owned, priv; cbn [In]; tauto). reflexivity. Qed.
Lemma act_other w o b b' h' nr nt w' j c : inv w -> act w o b b' h' nr nt w' -> j <> o ->
  nth_error (w_objs w) j = Some c ->
  nth_error (w_objs w') j = Some c /\ but_mass (view c (w_h w)) (view c h') /\
  (a_m c <> a_m b -> view c h' = view c (w_h w)).
Proof.
  intros I (Eb & G & X & NR & NT & L1 & L2 & RT & ->) N E. cbn [w_objs w_h]. split.
  { rewrite nth_error_app1 by (rewrite upd_nth_length; apply (nth_lt _ _ _ E)). rewrite upd_nth_other by auto. exact E. }
  assert (P : forall a, In a (priv c) -> ld h' a = ld (w_h w) a).
  { intros a Ia. apply X; [apply (owned_lt _ _ _ _ I E); right; exact Ia|]. exact (i_priv _ I j o c b a N E Eb Ia). }
  split; [apply view_but_mass, P|]. intros M. apply view_same. intros a [<-|Ia]; [|apply P, Ia].
  apply X; [apply (owned_lt _ _ _ _ I E); left; reflexivity|]. intros [K|K]; [congruence|].
  exact (i_priv _ I o j b c _ (not_eq_sym N) Eb E K (or_introl eq_refl)).
Qed.
Lemma act_refs w o b b' h' nr nt w' a : inv w -> act w o b b' h' nr nt w' -> In a (w_refs w) -> a <> a_m b ->
  ld h' a = ld (w_h w) a.
Proof.
  intros I (Eb & G & X & _) Ia M. apply X; [exact (i_dom _ I a Ia)|]. intros [K|K]; [congruence|].
  exact (i_refs _ I o b a Eb K Ia).
Qed.
Lemma grow_inv w h' nr nt w' : inv w -> grow w h' nr nt w' -> inv w'.
Proof.
  intros I ([LH U] & NR & NT & L1 & L2 & RT & ->).
  assert (PO : forall (c : obj) a, In a (priv c) -> In a (owned c)) by (intros; right; assumption).
  constructor; cbn [w_h w_objs w_refs].
  - intros j c E. apply nth_app in E. destruct E as [E|[_ E]].
    + destruct (i_good _ I j c E) as [N1 L]. split; [exact N1|]. intros a Ia. specialize (L a Ia). lia.
    + apply nth_error_In in E. apply (NT c E).
  - intros j k c d a Njk Ej Ek Ip Io. apply nth_app in Ej. apply nth_app in Ek.
    destruct Ej as [Ej|[Lj Ej]], Ek as [Ek|[Lk Ek]].
    + exact (i_priv _ I j k c d a Njk Ej Ek Ip Io).
    + apply nth_error_In in Ek. pose proof (proj2 (NT d Ek) a Io). pose proof (owned_lt _ _ _ _ I Ej (PO _ _ Ip)). lia.
    + apply nth_error_In in Ej. pose proof (proj2 (NT c Ej) a (PO _ _ Ip)). pose proof (owned_lt _ _ _ _ I Ek Io). lia.
    + pose proof (one _ _ _ _ _ L2 Ej Ek). lia.
  - intros j c a Ej Ip Ir. apply nth_app in Ej. apply in_app_or in Ir. destruct Ej as [Ej|[Lj Ej]], Ir as [Ir|Ir].
    + exact (i_refs _ I j c a Ej Ip Ir).
    + pose proof (NR a Ir). pose proof (owned_lt _ _ _ _ I Ej (PO _ _ Ip)). lia.
    + apply nth_error_In in Ej. pose proof (proj2 (NT c Ej) a (PO _ _ Ip)). pose proof (i_dom _ I a Ir). lia.
    + destruct RT as [->| ->]; [destruct Ir|]. destruct (j - length (w_objs w)); discriminate.
  - intros a Ia. apply in_app_or in Ia. destruct Ia as [Ia|Ia]; [pose proof (i_dom _ I a Ia); lia|apply NR, Ia].
Qed.
Lemma grow_sep w h' nr nt w' : sep w -> grow w h' nr nt w' -> sep w'.
Proof.
  intros S G. pose proof (s_inv _ S) as I. pose proof (grow_inv _ _ _ _ _ I G) as I'.
  pose proof G as ([LH U] & NR & NT & L1 & L2 & RT & ->).
  assert (ML : forall j c, nth_error (w_objs w) j = Some c -> a_m c < length (w_h w)).
  { intros j c E. apply (owned_lt _ _ _ _ I E). left. reflexivity. }
  constructor; cbn [w_h w_objs w_refs]; [exact I'| | |].
  - intros j c Ej Ir. apply nth_app in Ej. apply in_app_or in Ir. destruct Ej as [Ej|[Lj Ej]], Ir as [Ir|Ir].
    + exact (s_ref _ S j c Ej Ir).
    + pose proof (NR _ Ir). pose proof (ML _ _ Ej). lia.
    + apply nth_error_In in Ej. pose proof (proj2 (NT c Ej) _ (or_introl eq_refl)). pose proof (i_dom _ I _ Ir). lia.
    + destruct RT as [->| ->]; [destruct Ir|]. destruct (j - length (w_objs w)); discriminate.
  - intros j k c d Njk Ej Ek Em. apply nth_app in Ej. apply nth_app in Ek.
    destruct Ej as [Ej|[Lj Ej]], Ek as [Ek|[Lk Ek]].
    + exact (s_obj _ S j k c d Njk Ej Ek Em).
    + apply nth_error_In in Ek. pose proof (proj2 (NT d Ek) _ (or_introl eq_refl)). pose proof (ML _ _ Ej). lia.
    + apply nth_error_In in Ej. pose proof (proj2 (NT c Ej) _ (or_introl eq_refl)). pose proof (ML _ _ Ek). lia.
    + pose proof (one _ _ _ _ _ L2 Ej Ek). lia.
  - destruct nr as [|a [|a' nr]]; [rewrite app_nil_r; exact (s_nodup _ S)| |cbn in L1; lia].
    apply (Permutation_NoDup (l := a :: w_refs w)); [apply Permutation_cons_append|].
    constructor; [|exact (s_nodup _ S)]. intros Ia. pose proof (i_dom _ I _ Ia).
    pose proof (NR a (or_introl eq_refl)). lia.
Qed.

(** ** What each statement does *)
Lemma acting w o b b' h' : nth_error (w_objs w) o = Some b -> good b' h' -> ext b (w_h w) b' h' ->
  act w o b b' h' [] [] (mkw h' (upd_nth o b' (w_objs w)) (w_refs w)).
Proof.
  intros E G X. split; [exact E|]. split; [exact G|]. split; [exact X|].
  split; [intros ? []|]. split; [intros ? []|]. split; [cbn; lia|]. split; [cbn; lia|]. split; [left; reflexivity|].
  rewrite !app_nil_r. reflexivity.
Qed.
Lemma map_upd {A B} (f : A -> B) o x l : map f (upd_nth o x l) = upd_nth o (f x) (map f l).
Proof. revert o. induction l as [|y t IH]; intros [|o]; cbn; [reflexivity..|rewrite IH; reflexivity]. Qed.
Lemma nth_ext {A} (l l' : list A) : (forall j, nth_error l j = nth_error l' j) -> l = l'.
Proof.
  revert l'. induction l as [|x t IH]; intros [|y t'] E; [reflexivity|specialize (E 0); discriminate..|].
  f_equal; [specialize (E 0); cbn in E; congruence|]. apply IH. intros j. exact (E (S j)).
Qed.
(** statement results, by value *)
Definition vobj (w : world) (j : nat) : option orb := option_map (fun b => view b (w_h w)) (nth_error (w_objs w) j).
Lemma vobj_vals w j : nth_error (v_objs (vals w)) j = vobj w j.
Proof. unfold vals, vobj. cbn [v_objs]. apply nth_error_map. Qed.
Lemma act_vobj w o b b' h' nr nt w' : act w o b b' h' nr nt w' ->
  vobj w' o = Some (view b' h') /\
  (forall j, length (w_objs w) <= j -> vobj w' j = option_map (fun t => view t h') (nth_error nt (j - length (w_objs w)))).
Proof.
  intros (Eb & G & X & NR & NT & L1 & L2 & RT & ->). unfold vobj. cbn [w_objs w_h]. apply nth_lt in Eb. split.
  - rewrite nth_error_app1 by (rewrite upd_nth_length; exact Eb). rewrite upd_nth_same by exact Eb. reflexivity.
  - intros j Lj. rewrite nth_error_app2 by (rewrite upd_nth_length; exact Lj). rewrite upd_nth_length. reflexivity.
Qed.
Lemma act_vals w o b b' h' nr nt w' : sep w -> act w o b b' h' nr nt w' ->
  vals w' = mkv (upd_nth o (view b' h') (v_objs (vals w)) ++ map (fun t => view t h') nt)
                (refvals w ++ map (fun a => cA (ld h' a)) nr).
Proof.
  intros S A. pose proof (s_inv _ S) as I. pose proof A as (Eb & G & X & NR & NT & L1 & L2 & RT & ->).
  unfold vals at 1. f_equal; cbn [w_objs w_h w_refs v_objs vals].
  - rewrite map_app. f_equal. rewrite map_upd. apply nth_ext. intros j. rewrite !upd_nth_error, !map_length, !nth_error_map.
    destruct (Nat.eqb_spec o j) as [->|N]; [reflexivity|].
    destruct (nth_error (w_objs w) j) as [c|] eqn:E; [|reflexivity]. cbn [option_map]. f_equal.
    destruct (act_other _ _ _ _ _ _ _ _ _ _ I A (not_eq_sym N) E) as (_ & _ & V). apply V.
    intros M. exact (s_obj _ S j o c b (not_eq_sym N) E Eb M).
  - unfold refvals. cbn [w_refs w_h]. rewrite map_app. f_equal. apply map_ext_in. intros a Ia. f_equal.
    apply (act_refs _ _ _ _ _ _ _ _ a I A Ia). intros ->. exact (s_ref _ S o b Eb Ia).
Qed.
Lemma grow_vals w h' nr nt w' : inv w -> grow w h' nr nt w' ->
  vals w' = mkv (v_objs (vals w) ++ map (fun t => view t h') nt) (refvals w ++ map (fun a => cA (ld h' a)) nr).
Proof.
  intros I (Gr & NR & NT & L1 & L2 & RT & ->). unfold vals at 1. f_equal; cbn [w_objs w_h w_refs v_objs vals].
  - rewrite map_app. f_equal. apply map_ext_in. intros c Ic. apply In_nth_error in Ic. destruct Ic as [j E].
    apply view_grown; [exact (i_good _ I j c E)|exact Gr].
  - unfold refvals. cbn [w_refs w_h]. rewrite map_app. f_equal. apply map_ext_in. intros a Ia. f_equal.
    apply Gr. exact (i_dom _ I a Ia).
Qed.
(** every statement except those that hand out or replace a mass array, [x\[...\] = d] and failures to
    find a variable, is one of the two kinds *)
Inductive change (gb : nat -> nat -> F) (w : world) (c : cmd F) (w' : world) (r : res unit) : Prop :=
| ch_act o b b' h' nr nt : acts_on c = Some o -> act w o b b' h' nr nt w' ->
    (forall vo : vworld F, nth_error (v_objs vo) o = Some (view b (w_h w)) -> v_refs vo = refvals w ->
       vstep gb c vo = (mkv (upd_nth o (view b' h') (v_objs vo) ++ map (fun t => view t h') nt)
                            (refvals w ++ map (fun a => cA (ld h' a)) nr), r)) ->
    change gb w c w' r
| ch_grow h' nr nt : acts_on c = None -> grow w h' nr nt w' ->
    vstep gb c (vals w) = (mkv (v_objs (vals w) ++ map (fun t => view t h') nt)
                               (refvals w ++ map (fun a => cA (ld h' a)) nr), r) ->
    change gb w c w' r
| ch_poke i a d : c = UPoke i d -> nth_error (w_refs w) i = Some a ->
    w' = mkw (upd_nth a (CA (poked (cA (ld (w_h w) a)) d)) (w_h w)) (w_objs w) (w_refs w) ->
    r = poke_res (cA (ld (w_h w) a)) d -> change gb w c w' r
| ch_none : w' = w -> vstep gb c (vals w) = (vals w, r) -> change gb w c w' r.
Lemma vobj_none (w : world) o : nth_error (w_objs w) o = None -> nth_error (v_objs (vals w)) o = None.
Proof. intros E. rewrite vobj_vals. unfold vobj. rewrite E. reflexivity. Qed.
Lemma vobj_some (w : world) o b : nth_error (w_objs w) o = Some b -> nth_error (v_objs (vals w)) o = Some (view b (w_h w)).
Proof. intros E. rewrite vobj_vals. unfold vobj. rewrite E. reflexivity. Qed.
Lemma refvals_nth (w : world) i : nth_error (refvals w) i = option_map (fun a => cA (ld (w_h w) a)) (nth_error (w_refs w) i).
Proof. unfold refvals. apply nth_error_map. Qed.
Lemma growing (w : world) h' nt r' : grown (w_h w) h' -> (forall t, In t nt -> newobj (w_h w) h' t) -> length nt <= 1 ->
  r' = w_refs w -> grow w h' [] nt (mkw h' (w_objs w ++ nt) r').
Proof.
  intros G N L ->. split; [exact G|]. split; [intros ? []|]. split; [exact N|]. split; [cbn; lia|]. split; [exact L|].
  split; [left; reflexivity|]. rewrite app_nil_r. reflexivity.
Qed.
Lemma step_change gb c w w' r : inv w -> no_mass c = true -> hstep gb c w = (w', r) -> change gb w c w' r.
Proof.
  intros I NM E. destruct c as [x|i d|M0 cf kw|o f|o g|o i|o|o f|o|o i]; try discriminate; cbn [hstep] in E.
  - injection E as <- <-. apply (ch_grow _ _ _ _ _ (w_h w ++ [CA x]) [length (w_h w)] []); [reflexivity| |].
    + split; [apply grown_app|]. split; [intros a [<-|[]]; rewrite app_length; cbn; lia|]. split; [intros ? []|].
      split; [cbn; lia|]. split; [cbn; lia|]. split; [right; reflexivity|]. rewrite app_nil_r. reflexivity.
    + cbn [vstep map]. rewrite app_nil_r, ld_new. reflexivity.
  - destruct (nth_error (w_refs w) i) as [a|] eqn:Ei.
    + injection E as <- <-. eapply ch_poke; [reflexivity|exact Ei|reflexivity|reflexivity].
    + injection E as <- <-. apply ch_none; [reflexivity|]. cbn [vstep]. cbn [v_refs vals]. rewrite refvals_nth, Ei. reflexivity.
  - destruct (h_init gb M0 cf (kw (refvals w)) (w_h w)) as [h' [b|e]] eqn:Eh;
      destruct (h_init_spec _ _ _ _ _ _ _ Eh) as [Gr S]; injection E as <- <-.
    + destruct S as [S N]. apply (ch_grow _ _ _ _ _ h' [] [b]); [reflexivity| |].
      * apply growing; [exact Gr|intros t [<-|[]]; exact N|cbn; lia|reflexivity].
      * cbn [vstep map]. change (v_refs (vals w)) with (refvals w). rewrite S, app_nil_r. reflexivity.
    + apply (ch_grow _ _ _ _ _ h' [] []); [reflexivity| |].
      * rewrite <- (app_nil_r (w_objs w)) at 1. apply growing; [exact Gr|intros t []|cbn; lia|reflexivity].
      * cbn [vstep map]. change (v_refs (vals w)) with (refvals w). rewrite S, !app_nil_r. reflexivity.
  - destruct (nth_error (w_objs w) o) as [b|] eqn:Eo.
    2:{ injection E as <- <-. apply ch_none; [reflexivity|]. cbn [vstep]. rewrite (vobj_none _ _ Eo). reflexivity. }
    destruct (h_run gb (f (refvals w)) (b, w_h w)) as [[b' h'] r'] eqn:Eh. injection E as <- <-.
    destruct (sim_run gb _ _ _ _ _ _ (i_good _ I o b Eo) Eh) as (V & G & X).
    apply (ch_act _ _ _ _ _ o b b' h' [] []); [reflexivity|exact (acting _ _ _ _ _ Eo G X)|].
    intros vo Vo Vr. cbn [vstep map]. rewrite Vo, Vr, V, !app_nil_r. reflexivity.
  - destruct (nth_error (w_objs w) o) as [b|] eqn:Eo.
    2:{ injection E as <- <-. apply ch_none; [reflexivity|]. cbn [vstep]. rewrite (vobj_none _ _ Eo). reflexivity. }
    destruct (h_getter gb g (b, w_h w)) as [[b' h'] [a|e]] eqn:Eh; injection E as <- <-;
      destruct (simr_getter gb g _ _ _ _ _ (i_good _ I o b Eo) Eh) as (G & X & V).
    + destruct V as (x & V & Hx & La & Na). apply (ch_act _ _ _ _ _ o b b' h' [a] []); [reflexivity| |].
      * split; [exact Eo|]. split; [exact G|]. split; [exact X|]. split; [intros a' [<-|[]]; auto|]. split; [intros ? []|].
        split; [cbn; lia|]. split; [cbn; lia|]. split; [right; reflexivity|]. rewrite app_nil_r. reflexivity.
      * intros vo Vo Vr. cbn [vstep map]. rewrite Vo, Vr, V, app_nil_r, Hx. reflexivity.
    + apply (ch_act _ _ _ _ _ o b b' h' [] []); [reflexivity|exact (acting _ _ _ _ _ Eo G X)|].
      intros vo Vo Vr. cbn [vstep map]. rewrite Vo, Vr, V, !app_nil_r. reflexivity.
  - destruct (nth_error (w_objs w) o) as [b|] eqn:Eo.
    2:{ injection E as <- <-. apply ch_none; [reflexivity|]. cbn [vstep]. rewrite (vobj_none _ _ Eo). reflexivity. }
    destruct (h_getitem gb i b (w_h w)) as [h' [t|e]] eqn:Eh;
      destruct (h_getitem_spec _ _ _ _ _ _ (i_good _ I o b Eo) Eh) as [Gr S]; injection E as <- <-.
    + destruct S as [S N]. apply (ch_grow _ _ _ _ _ h' [] [t]); [reflexivity| |].
      * apply growing; [exact Gr|intros t' [<-|[]]; exact N|cbn; lia|reflexivity].
      * cbn [vstep map]. rewrite (vobj_some _ _ _ Eo), S, app_nil_r. reflexivity.
    + apply (ch_grow _ _ _ _ _ h' [] []); [reflexivity| |].
      * rewrite <- (app_nil_r (w_objs w)) at 1. apply growing; [exact Gr|intros t []|cbn; lia|reflexivity].
      * cbn [vstep map]. rewrite (vobj_some _ _ _ Eo), S, !app_nil_r. reflexivity.
  - destruct (nth_error (w_objs w) o) as [b|] eqn:Eo.
    2:{ injection E as <- <-. apply ch_none; [reflexivity|]. cbn [vstep]. rewrite (vobj_none _ _ Eo). reflexivity. }
    destruct (h_next gb (b, w_h w)) as [[b' h'] [t|e]] eqn:Eh; injection E as <- <-;
      destruct (h_next_spec gb _ _ _ _ _ (i_good _ I o b Eo) Eh) as (G & X & O & V).
    + destruct V as [V N]. apply (ch_act _ _ _ _ _ o b b' h' [] [t]); [reflexivity| |].
      * split; [exact Eo|]. split; [exact G|]. split; [exact X|]. split; [intros ? []|]. split.
        { intros t' [<-|[]]. split; [exact N|]. intros a Ia. rewrite O. intros Ib.
          pose proof (proj2 N a Ia). pose proof (owned_lt _ _ _ _ I Eo Ib). lia. }
        split; [cbn; lia|]. split; [cbn; lia|]. split; [left; reflexivity|]. rewrite app_nil_r. reflexivity.
      * intros vo Vo Vr. cbn [vstep map]. rewrite Vo, V, Vr, app_nil_r. reflexivity.
    + apply (ch_act _ _ _ _ _ o b b' h' [] []); [reflexivity|exact (acting _ _ _ _ _ Eo G X)|].
      intros vo Vo Vr. cbn [vstep map]. rewrite Vo, V, Vr, !app_nil_r. reflexivity.
  - destruct (nth_error (w_objs w) o) as [b|] eqn:Eo.
    2:{ injection E as <- <-. apply ch_none; [reflexivity|]. cbn [vstep]. rewrite (vobj_none _ _ Eo). reflexivity. }
    injection E as <- <-. set (h' := upd_nth _ _ (w_h w)).
    assert (Ib : In (a_o b) (owned b)) by (unfold owned, priv; cbn [In]; tauto).
    assert (V : view b h' = with_opts f (view b (w_h w))).
    { pose proof (i_good _ I o b Eo) as [N L]. unfold owned, priv in N.
      repeat (apply NoDup_cons_iff in N; let K := fresh "K" in destruct N as [K N]; cbn [In] in K).
      unfold h', view, with_opts.
      cbn [oM0 oG oauto odirect okro ocro odeg otype oopts om ocart okep onu oE oMa ocf okf oit].
      rewrite ld_upd_same by (apply L; exact Ib). rewrite !ld_upd_other by (intuition congruence). reflexivity. }
    apply (ch_act _ _ _ _ _ o b b h' [] []); [reflexivity| |].
    + replace (w_objs w) with (upd_nth o b (w_objs w)) at 1.
      * apply acting; [exact Eo|apply good_upd; exact (i_good _ I o b Eo)|apply ext_upd; exact Ib].
      * apply nth_ext. intros j. rewrite upd_nth_error. destruct (Nat.eqb_spec o j) as [->|]; [|reflexivity].
        rewrite (proj2 (Nat.ltb_lt _ _) (nth_lt _ _ _ Eo)). symmetry. exact Eo.
    + intros vo Vo Vr. cbn [vstep map]. rewrite Vo, Vr, V, !app_nil_r. reflexivity.
Qed.

(** ** Nothing shared: memory behaves like values *)
Lemma empty_sep : sep (mkw [] [] []).
Proof.
  assert (N : forall A j (x : A), nth_error [] j = Some x -> False) by (intros A [|j] x E; discriminate).
  constructor; [constructor|..]; cbn [w_objs w_refs w_h]; intros; try (exfalso; eapply N; eassumption).
  - contradiction.
  - constructor.
Qed.
Lemma poke_obj w i a d j c : inv w -> nth_error (w_refs w) i = Some a -> nth_error (w_objs w) j = Some c ->
  let h' := upd_nth a (CA (poked (cA (ld (w_h w) a)) d)) (w_h w) in
  but_mass (view c (w_h w)) (view c h') /\ (~ In (a_m c) (w_refs w) -> view c h' = view c (w_h w)).
Proof.
  intros I Ei E. cbv zeta. apply nth_error_In in Ei.
  assert (P : forall x, In x (priv c) -> ld (upd_nth a (CA (poked (cA (ld (w_h w) a)) d)) (w_h w)) x = ld (w_h w) x).
  { intros x Ix. apply ld_upd_other. intros ->. exact (i_refs _ I j c x E Ix Ei). }
  split; [apply view_but_mass, P|]. intros M. apply view_same. intros x [<-|Ix]; [|apply P, Ix].
  apply ld_upd_other. intros ->. contradiction.
Qed.
Lemma poke_inv w i a (x : cell F) : inv w -> nth_error (w_refs w) i = Some a ->
  inv (mkw (upd_nth a x (w_h w)) (w_objs w) (w_refs w)).
Proof.
  intros [G P R D] E. constructor; cbn [w_h w_objs w_refs]; try assumption.
  - intros j b Ej. apply good_upd. exact (G j b Ej).
  - intros b Ib. rewrite upd_len. exact (D b Ib).
Qed.
Lemma step_by_value gb c w w' r : sep w -> no_mass c = true -> hstep gb c w = (w', r) ->
  sep w' /\ vstep gb c (vals w) = (vals w', r).
Proof.
  intros S NM E. pose proof (s_inv _ S) as I. destruct (step_change _ _ _ _ _ I NM E).
  - split; [exact (act_sep _ _ _ _ _ _ _ _ S H1)|]. rewrite (act_vals _ _ _ _ _ _ _ _ S H1). apply H2; [|reflexivity].
    apply vobj_some, H1.
  - split; [exact (grow_sep _ _ _ _ _ S H1)|]. rewrite (grow_vals _ _ _ _ _ I H1). exact H2.
  - subst c w' r. split.
    + pose proof (poke_inv w i a (CA (poked (cA (ld (w_h w) a)) d)) I H1) as I'. destruct S as [_ S1 S2 S3].
      constructor; assumption.
    + cbn [vstep]. change (v_refs (vals w)) with (refvals w). rewrite refvals_nth, H1. cbn [option_map].
      f_equal. unfold vals at 2. cbn [w_objs w_h w_refs]. f_equal.
      * cbn [v_objs vals]. apply map_ext_in. intros b Ib. apply In_nth_error in Ib. destruct Ib as [j Ej]. symmetry.
        apply (poke_obj _ _ _ d _ _ I H1 Ej). exact (s_ref _ S j b Ej).
      * unfold refvals. cbn [w_refs w_h]. apply nth_ext. intros j. rewrite upd_nth_error, map_length, !nth_error_map.
        destruct (Nat.eqb_spec i j) as [<-|N].
        { rewrite H1. rewrite (proj2 (Nat.ltb_lt _ _) (nth_lt _ _ _ H1)). cbn [option_map].
          rewrite ld_upd_same by (apply (i_dom _ I); exact (nth_error_In _ _ H1)). reflexivity. }
        destruct (nth_error (w_refs w) j) as [a'|] eqn:Ej; [|reflexivity]. cbn [option_map].
        rewrite ld_upd_other; [reflexivity|]. intros ->. apply N.
        apply (proj1 (NoDup_nth_error (w_refs w)) (s_nodup _ S)); [exact (nth_lt _ _ _ H1)|congruence].
  - subst w'. auto.
Qed.
Theorem C68_by_value p w rs : forallb (fun x => no_mass (snd x)) p = true ->
  hrun p (mkw [] [] []) = (w, rs) -> vrun p (mkv [] []) = (vals w, rs).
Proof.
  change (mkv [] []) with (vals (mkw (@nil (cell F)) [] [])). generalize empty_sep.
  generalize (mkw (@nil (cell F)) [] []). revert w rs.
  induction p as [|[gb c] p IH]; intros w rs w0 S NM E; cbn [hrun vrun forallb snd] in *.
  - injection E as <- <-. reflexivity.
  - apply andb_prop in NM. destruct NM as [N1 N2].
    destruct (hstep gb c w0) as [w1 r] eqn:E1. destruct (hrun p w1) as [w2 rs'] eqn:E2. injection E as <- <-.
    destruct (step_by_value _ _ _ _ _ S N1 E1) as [S1 ->]. rewrite (IH _ _ _ S1 N2 E2). reflexivity.
Qed.

(** ** Whatever is done with mass arrays: the rest of an object is private *)
Lemma mass_inv gb c w w' r : inv w -> no_mass c = false -> hstep gb c w = (w', r) -> inv w'.
Proof.
  intros I NM E. destruct c as [x|i d|M0 cf kw|o f|o g|o i|o|o f|o|o i]; try discriminate; cbn [hstep] in E.
  - destruct (nth_error (w_objs w) o) as [b|] eqn:Eo; injection E as <- <-; [|exact I].
    pose proof (i_good _ I o b Eo) as [N L].
    destruct I as [G P R D]. constructor; cbn [w_h w_objs w_refs]; try assumption.
    + intros j c a Ej Ip Ir. apply in_app_or in Ir. destruct Ir as [Ir|[<-|[]]]; [exact (R j c a Ej Ip Ir)|].
      destruct (Nat.eq_dec j o) as [->|Nj].
      * assert (c = b) by congruence. subst c. apply NoDup_cons_iff in N. apply N. exact Ip.
      * exact (P j o c b _ Nj Ej Eo Ip (or_introl eq_refl)).
    + intros a Ia. apply in_app_or in Ia. destruct Ia as [Ia|[<-|[]]]; [exact (D a Ia)|]. apply L. left. reflexivity.
  - destruct (nth_error (w_objs w) o) as [b|] eqn:Eo; [|injection E as <- <-; exact I].
    destruct (nth_error (w_refs w) i) as [a|] eqn:Ei; [|injection E as <- <-; exact I].
    assert (I' : inv (mkw (w_h w) (upd_nth o (to_m b a) (w_objs w)) (w_refs w))).
    { clear E. apply nth_error_In in Ei. constructor; cbn [w_h w_objs w_refs].
      - intros j c Ej. apply nth_upd in Ej. destruct Ej as [[-> ->]|[Nj Ej]]; [|exact (i_good _ I j c Ej)].
        pose proof (i_good _ I o b Eo) as [N L]. apply NoDup_cons_iff in N. split.
        + apply NoDup_cons_iff. split; [|apply N]. intros Ip. exact (i_refs _ I o b a Eo Ip Ei).
        + intros x [<-|Ix]; [exact (i_dom _ I a Ei)|apply L; right; exact Ix].
      - intros j k c d x Njk Ej Ek Ip Io. apply nth_upd in Ej. apply nth_upd in Ek.
        destruct Ej as [[-> ->]|[Nj Ej]], Ek as [[-> ->]|[Nk Ek]].
        + congruence.
        + exact (i_priv _ I o k b d x Njk Eo Ek Ip Io).
        + destruct Io as [<-|Io]; [exact (i_refs _ I j c a Ej Ip Ei)|].
          exact (i_priv _ I j o c b x Nj Ej Eo Ip (or_intror Io)).
        + exact (i_priv _ I j k c d x Njk Ej Ek Ip Io).
      - intros j c x Ej Ip. apply nth_upd in Ej. destruct Ej as [[-> ->]|[Nj Ej]];
          [exact (i_refs _ I o b x Eo Ip)|exact (i_refs _ I j c x Ej Ip)].
      - exact (i_dom _ I). }
    destruct (cA (ld (w_h w) a)) as [x|[|n [|n' s]] me d]; injection E as <- <-; assumption.
Qed.
Lemma step_inv gb c w w' r : inv w -> hstep gb c w = (w', r) -> inv w'.
Proof.
  intros I E. destruct (no_mass c) eqn:NM; [|exact (mass_inv _ _ _ _ _ I NM E)].
  destruct (step_change _ _ _ _ _ I NM E).
  - exact (act_priv _ _ _ _ _ _ _ _ I H1).
  - exact (grow_inv _ _ _ _ _ I H1).
  - subst c w' r. exact (poke_inv _ _ _ _ I H1).
  - subst w'. exact I.
Qed.
Lemma run_inv p w0 w rs : inv w0 -> hrun p w0 = (w, rs) -> inv w.
Proof.
  revert w0 rs. induction p as [|[gb c] p IH]; intros w0 rs I E; cbn [hrun] in E; [injection E as <- <-; exact I|].
  destruct (hstep gb c w0) as [w1 r] eqn:E1. destruct (hrun p w1) as [w2 rs'] eqn:E2. injection E as <- <-.
  exact (IH _ _ (step_inv _ _ _ _ _ I E1) E2).
Qed.
Lemma but_mass_refl (s : orb) : but_mass s s.
Proof. reflexivity. Qed.
(** After any program, a statement gives the object it acts on (and the objects it creates) the values
    of [vstep]; no other object changes, but for masses it shares with the caller or another object. *)
Theorem C68_private p w rs gb c w' r j s :
  hrun p (mkw [] [] []) = (w, rs) -> hstep gb c w = (w', r) -> vobj w j = Some s ->
  exists s', vobj w' j = Some s' /\
    (acts_on c = Some j -> vstep gb c (vals w) = (fst (vstep gb c (vals w)), r) /\
                           nth_error (v_objs (fst (vstep gb c (vals w)))) j = Some s') /\
    (acts_on c <> Some j -> but_mass s s') /\
    (acts_on c <> Some j ->
     (forall b, nth_error (w_objs w) j = Some b -> ~ In (a_m b) (w_refs w) /\
        forall k d, k <> j -> nth_error (w_objs w) k = Some d -> a_m d <> a_m b) -> s' = s).
Proof.
  intros Ep E Vj. pose proof (run_inv _ _ _ _ (s_inv _ empty_sep) Ep) as I. clear Ep.
  unfold vobj in Vj. destruct (nth_error (w_objs w) j) as [b|] eqn:Ej; [|discriminate]. injection Vj as <-.
  destruct (no_mass c) eqn:NM.
  - destruct (step_change _ _ _ _ _ I NM E).
    + pose proof (vobj_some w o b0 (proj1 H1)) as Vo. specialize (H2 (vals w) Vo eq_refl).
      destruct (Nat.eq_dec j o) as [->|N].
      * exists (view b' h'). split; [apply (act_vobj _ _ _ _ _ _ _ _ H1)|]. split; [|split; congruence].
        intros _. rewrite H2. cbn [fst v_objs]. split; [reflexivity|].
        assert (Lo : o < length (v_objs (vals w))) by exact (nth_lt _ _ _ Vo).
        rewrite nth_error_app1 by (rewrite upd_nth_length; exact Lo). apply upd_nth_same. exact Lo.
      * destruct (act_other _ _ _ _ _ _ _ _ _ _ I H1 N Ej) as (Ej' & Bm & Sm). exists (view b h').
        assert (Eh : h' = w_h w') by (destruct H1 as (_ & _ & _ & _ & _ & _ & _ & _ & ->); reflexivity).
        split; [unfold vobj; rewrite Ej', Eh; reflexivity|]. split; [congruence|]. split; [auto|].
        intros _ Hm. apply Sm. intros M. destruct (Hm b eq_refl) as [_ Hm'].
        apply (Hm' o b0 (not_eq_sym N)); [apply H1|congruence].
    + exists (view b (w_h w)). pose proof H1 as (Gr & _ & _ & _ & _ & _ & Ew).
      split. { rewrite Ew. unfold vobj. cbn [w_objs w_h]. rewrite nth_error_app1 by exact (nth_lt _ _ _ Ej). rewrite Ej.
               cbn [option_map]. f_equal. apply view_grown; [exact (i_good _ I j b Ej)|exact Gr]. }
      split; [congruence|]. split; [intros _; apply but_mass_refl|auto].
    + subst c w' r. destruct (poke_obj _ _ _ d _ _ I H1 Ej) as [Bm Sm].
      eexists. split; [unfold vobj; cbn [w_objs w_h]; rewrite Ej; reflexivity|].
      split; [discriminate|]. split; [intros _; exact Bm|]. intros _ Hm. apply Sm. apply (Hm b eq_refl).
    + subst w'. exists (view b (w_h w)). split; [unfold vobj; rewrite Ej; reflexivity|].
      split; [|split; [intros _; apply but_mass_refl|auto]]. intros _. rewrite H1. cbn [fst]. split; [reflexivity|].
      exact (vobj_some _ _ _ Ej).
  - destruct c as [x|i d|M0 cf kw|o f|o g|o i|o|o f|o|o i]; try discriminate; cbn [hstep] in E.
    + exists (view b (w_h w)). destruct (nth_error (w_objs w) o) as [bo|]; injection E as <- <-;
        (split; [unfold vobj; cbn [w_objs w_h]; rewrite Ej; reflexivity|]); (split; [discriminate|]);
        (split; [intros _; apply but_mass_refl|auto]).
    + assert (Same : w' = w -> acts_on (USetMass o i : cmd F) <> Some j \/
               (vstep gb (USetMass o i) (vals w) = (vals w, r)) ->
               exists s', vobj w' j = Some s' /\
                (acts_on (USetMass o i : cmd F) = Some j ->
                   vstep gb (USetMass o i) (vals w) = (fst (vstep gb (USetMass o i) (vals w)), r) /\
                   nth_error (v_objs (fst (vstep gb (USetMass o i) (vals w)))) j = Some s') /\
                (acts_on (USetMass o i : cmd F) <> Some j -> but_mass (view b (w_h w)) s') /\
                (acts_on (USetMass o i : cmd F) <> Some j ->
                 (forall b0, Some b = Some b0 -> ~ In (a_m b0) (w_refs w) /\
                    forall k d, k <> j -> nth_error (w_objs w) k = Some d -> a_m d <> a_m b0) -> s' = view b (w_h w))).
      { intros -> Hor. exists (view b (w_h w)). split; [unfold vobj; rewrite Ej; reflexivity|].
        split; [|split; [intros _; apply but_mass_refl|auto]]. intros Ha. destruct Hor as [Hn|Hv]; [congruence|].
        rewrite Hv. cbn [fst]. split; [reflexivity|exact (vobj_some _ _ _ Ej)]. }
      destruct (nth_error (w_objs w) o) as [bo|] eqn:Eo.
      2:{ injection E as <- <-. apply Same; [reflexivity|right]. cbn [vstep]. rewrite (vobj_none _ _ Eo). reflexivity. }
      destruct (nth_error (w_refs w) i) as [a|] eqn:Ei.
      2:{ injection E as <- <-. apply Same; [reflexivity|right]. cbn [vstep]. rewrite (vobj_some _ _ _ Eo).
          change (v_refs (vals w)) with (refvals w). rewrite refvals_nth, Ei. reflexivity. }
      assert (VS : vstep gb (USetMass o i) (vals w) =
        match cA (ld (w_h w) a) with
        | Arr [_] _ d => (mkv (upd_nth o (with_m (fun _ => d) (view bo (w_h w))) (v_objs (vals w))) (refvals w), Ok tt)
        | _ => (vals w, Raise TypeError)
        end).
      { cbn [vstep]. rewrite (vobj_some _ _ _ Eo). change (v_refs (vals w)) with (refvals w).
        rewrite refvals_nth, Ei. reflexivity. }
      destruct (cA (ld (w_h w) a)) as [x|[|n [|n' sh]] me d] eqn:Ea;
        try (injection E as <- <-; apply Same; [reflexivity|right; exact VS]).
      injection E as <- <-. clear Same. destruct (Nat.eq_dec j o) as [->|N].
      * assert (bo = b) by congruence. subst bo. exists (with_m (fun _ => d) (view b (w_h w))).
        split. { unfold vobj. cbn [w_objs w_h]. rewrite upd_nth_same by exact (nth_lt _ _ _ Ej). cbn [option_map]. f_equal.
                 unfold view, with_m, to_m.
                 cbn [b_s a_o a_m a_cart a_kep a_nu a_E a_Ma a_cf a_kf oM0 oG oauto odirect okro ocro odeg otype oopts om ocart okep onu oE oMa ocf okf oit].
                 rewrite Ea. reflexivity. }
        split; [|split; intros Hn; exfalso; apply Hn; reflexivity]. intros _. rewrite VS. cbn [fst v_objs]. split; [reflexivity|].
        apply upd_nth_same. exact (nth_lt _ _ _ (vobj_some _ _ _ Ej)).
      * exists (view b (w_h w)). split; [unfold vobj; cbn [w_objs w_h]; rewrite upd_nth_other by auto; rewrite Ej; reflexivity|].
        split; [cbn [acts_on]; congruence|]. split; [intros _; apply but_mass_refl|auto].
Qed.
End Props.

Section Frames.
Context {F : Type} `{NP F}.
Notation world := (world F).
Lemma vobj_ex (w : world) j s : vobj w j = Some s -> exists b, nth_error (w_objs w) j = Some b /\ s = view b (w_h w).
Proof. unfold vobj. destruct (nth_error (w_objs w) j) as [b|]; [|discriminate]. intros E. injection E as <-. eauto. Qed.
Lemma run_sep (p : program F) w0 w rs : sep w0 -> forallb (fun x => no_mass (snd x)) p = true -> hrun p w0 = (w, rs) -> sep w.
Proof.
  revert w0 rs. induction p as [|[gb c] p IH]; intros w0 rs S NM E; cbn [hrun forallb snd] in *; [injection E as <- <-; exact S|].
  apply andb_prop in NM. destruct NM as [N1 N2].
  destruct (hstep gb c w0) as [w1 r] eqn:E1. destruct (hrun p w1) as [w2 rs'] eqn:E2. injection E as <- <-.
  exact (IH _ _ (proj1 (step_by_value _ _ _ _ _ S N1 E1)) N2 E2).
Qed.
Lemma hrun_app (p q : program F) w0 : hrun (p ++ q) w0 =
  let '(w, rs) := hrun p w0 in let '(w2, rs2) := hrun q w in (w2, rs ++ rs2).
Proof.
  revert w0. induction p as [|[gb c] p IH]; intros w0; cbn [app hrun].
  - destruct (hrun q w0). reflexivity.
  - destruct (hstep gb c w0) as [w1 r]. rewrite IH. destruct (hrun p w1) as [w rs]. destruct (hrun q w). reflexivity.
Qed.
(** an object changes only by statements that act on it; only masses that were handed out or shared can *)
Theorem C68_frame (p q : program F) w rs w2 rs2 j s :
  hrun p (mkw [] [] []) = (w, rs) -> hrun q w = (w2, rs2) -> vobj w j = Some s ->
  (forall gb c, In (gb, c) q -> acts_on c <> Some j) ->
  exists s', vobj w2 j = Some s' /\ but_mass s s' /\
    (forallb (fun x => no_mass (snd x)) (p ++ q) = true -> s' = s).
Proof.
  revert p w rs rs2 s. induction q as [|[gb c] q IH]; intros p w rs rs2 s Ep Eq Vj Ha; cbn [hrun] in Eq.
  - injection Eq as <- <-. exists s. split; [exact Vj|]. split; [reflexivity|auto].
  - destruct (hstep gb c w) as [w1 r] eqn:E1. destruct (hrun q w1) as [w3 rs3] eqn:E2. injection Eq as <- <-.
    destruct (C68_private p w rs gb c w1 r j s Ep E1 Vj) as (s1 & V1 & _ & B1 & S1).
    assert (Ep1 : hrun (p ++ [(gb, c)]) (mkw [] [] []) = (w1, rs ++ [r])).
    { rewrite hrun_app, Ep. cbn [hrun]. rewrite E1. reflexivity. }
    destruct (IH _ _ _ _ _ Ep1 E2 V1 (fun gb' c' I => Ha gb' c' (or_intror I))) as (s2 & V2 & B2 & S2).
    pose proof (Ha gb c (or_introl eq_refl)) as Hc. specialize (B1 Hc). specialize (S1 Hc).
    exists s2. split; [exact V2|]. split; [unfold but_mass in *; congruence|].
    intros NM. rewrite S2.
    + apply S1. intros b Ej. rewrite forallb_app in NM. apply andb_prop in NM.
      pose proof (run_sep _ _ _ _ empty_sep (proj1 NM) Ep) as S. split; [exact (s_ref _ S j b Ej)|].
      intros k d Nk Ek M. exact (s_obj _ S k j d b Nk Ek Ej M).
    + rewrite <- app_assoc. exact NM.
Qed.
(** an array that a getter handed out, or that was passed to a method, changes only by writing to it *)
Theorem C68_arrays (p q : program F) w rs w2 rs2 i x :
  hrun p (mkw [] [] []) = (w, rs) -> hrun q w = (w2, rs2) -> nth_error (refvals w) i = Some x ->
  (forall gb d, ~ In (gb, UPoke i d) q) -> forallb (fun x => no_mass (snd x)) (p ++ q) = true ->
  nth_error (refvals w2) i = Some x.
Proof.
  intros Ep Eq Vi Ha NM. rewrite forallb_app in NM. apply andb_prop in NM. destruct NM as [NMp NMq].
  pose proof (run_sep _ _ _ _ empty_sep NMp Ep) as S. clear Ep NMp p rs.
  revert w rs2 S Eq Vi. induction q as [|[gb c] q IH]; intros w rs2 S Eq Vi; cbn [hrun forallb snd] in *.
  - injection Eq as <- <-. exact Vi.
  - apply andb_prop in NMq. destruct NMq as [N1 N2].
    destruct (hstep gb c w) as [w1 r] eqn:E1. destruct (hrun q w1) as [w3 rs3] eqn:E2. injection Eq as <- <-.
    destruct (step_by_value _ _ _ _ _ S N1 E1) as [S1 V1].
    apply (IH (fun gb' d I => Ha gb' d (or_intror I)) N2 w1 rs3 S1 E2).
    change (refvals w1) with (v_refs (vals w1)). replace (vals w1) with (fst (vstep gb c (vals w))) by (rewrite V1; reflexivity).
    assert (Vi' : nth_error (v_refs (vals w)) i = Some x) by exact Vi.
    assert (App : forall t, nth_error (v_refs (vals w) ++ t) i = Some x).
    { intros t. rewrite nth_error_app1 by exact (nth_lt _ _ _ Vi'). exact Vi'. }
    clear -Vi' App Ha N1. revert Vi' App. generalize (vals w). intros v Vi App.
    destruct c as [y|k d|M0 cf kw|o f|o g|o k|o|o f|o|o k]; try discriminate; cbn [vstep].
    + apply App.
    + destruct (nth_error (v_refs v) k) as [y|] eqn:Ek; [|exact Vi]. cbn [fst v_refs].
      rewrite upd_nth_other; [exact Vi|]. intros ->. exact (Ha gb d (or_introl eq_refl)).
    + destruct (init gb M0 cf (kw (v_refs v))); exact Vi.
    + destruct (nth_error (v_objs v) o) as [s|]; [|exact Vi]. destruct (run_op gb (f (v_refs v)) s). exact Vi.
    + destruct (nth_error (v_objs v) o) as [s|]; [|exact Vi]. destruct (v_getter gb g s) as [s' [y|e]]; [apply App|exact Vi].
    + destruct (nth_error (v_objs v) o) as [s|]; [|exact Vi]. destruct (getitem k s); exact Vi.
    + destruct (nth_error (v_objs v) o) as [s|]; [|exact Vi]. destruct (next s) as [s' [y|e]]; exact Vi.
    + destruct (nth_error (v_objs v) o) as [s|]; exact Vi.
Qed.
(** C49: a copy (or selection) has the values of [getitem]; statements that act on one of the two objects
    do not change the other *)
Theorem C49_independent (p q : program F) w rs gb o i s t w2 rs2 :
  hrun p (mkw [] [] []) = (w, rs) -> vobj w o = Some s -> getitem i s = Ok t ->
  hrun ((gb, UItem o i) :: q) w = (w2, rs2) ->
  forallb (fun x => no_mass (snd x)) (p ++ q) = true ->
  ((forall gb c, In (gb, c) q -> acts_on c <> Some o) -> vobj w2 o = Some s) /\
  ((forall gb c, In (gb, c) q -> acts_on c <> Some (length (w_objs w))) -> vobj w2 (length (w_objs w)) = Some t).
Proof.
  intros Ep Vo Et E NM. cbn [hrun] in E.
  destruct (hstep gb (UItem o i) w) as [w1 r] eqn:E1. destruct (hrun q w1) as [w3 rs3] eqn:E2. injection E as <- <-.
  assert (Ep1 : hrun (p ++ [(gb, UItem o i)]) (mkw [] [] []) = (w1, rs ++ [r])).
  { rewrite hrun_app, Ep. cbn [hrun]. rewrite E1. reflexivity. }
  assert (NM1 : forallb (fun x => no_mass (snd x)) ((p ++ [(gb, UItem o i)]) ++ q) = true).
  { rewrite !forallb_app in *. cbn [forallb snd no_mass]. rewrite andb_true_r. exact NM. }
  rewrite forallb_app in NM. apply andb_prop in NM. pose proof (run_sep _ _ _ _ empty_sep (proj1 NM) Ep) as S.
  destruct (step_by_value gb (UItem o i) w w1 r S eq_refl E1) as [S1 V1].
  cbn [vstep] in V1. rewrite vobj_vals, Vo, Et in V1. apply (f_equal (fun x => v_objs (fst x))) in V1. cbn [fst v_objs] in V1.
  assert (Vn : vobj w1 (length (w_objs w)) = Some t).
  { rewrite <- vobj_vals, <- V1. cbn [vals v_objs]. rewrite nth_error_app2 by (rewrite map_length; lia).
    rewrite map_length, Nat.sub_diag. reflexivity. }
  assert (Vs : vobj w1 o = Some s).
  { rewrite <- vobj_vals, <- V1. rewrite <- vobj_vals in Vo. rewrite nth_error_app1 by exact (nth_lt _ _ _ Vo). exact Vo. }
  split; intros Ha.
  - destruct (C68_frame _ _ _ _ _ _ _ _ Ep1 E2 Vs Ha) as (s' & -> & _ & K). rewrite (K NM1). reflexivity.
  - destruct (C68_frame _ _ _ _ _ _ _ _ Ep1 E2 Vn Ha) as (s' & -> & _ & K). rewrite (K NM1). reflexivity.
Qed.
End Frames.

Section Examples.
#[local] Existing Instance NP_toyn.
Definition gh (i j : nat) : Z := 7%Z.
Definition cfgh : config Z :=
  mkconfig true true 1%Z {| tol := 0%Z; max_iter := 5; degree := 5%Z |} false "true"%string 1 false false.
Definition kep1 : arg Z := fresh [6; 1] [9; 0; 2; 3; 4; 5]%Z.
Definition one_orbit : program Z :=
  [(gh, UNew kep1);                                                        (* x = np.array(...)            *)
   (gh, UOrbit 1000%Z cfgh (fun x => mkkws None (Some (nth 0 x (Sc 0%Z))) None no6 no6))].
                                                                           (* a = Orbit(1000, kepler=x)    *)
(** the caller overwrites the array passed to the constructor and the array [a.kepler] returned, copies
    the object, changes the copy and a solver option of it, and deletes its orbit *)
Definition busy : program Z :=
  one_orbit ++
  [(gh, UGet 0 GKep);                                                      (* y = a.kepler                 *)
   (gh, UPoke 0 [1; 1; 1; 1; 1; 1]%Z);                                     (* x\[:\] = 1                   *)
   (gh, UPoke 1 [2; 2; 2; 2; 2; 2]%Z);                                     (* y\[:\] = 2                   *)
   (gh, UItem 0 IAll);                                                     (* b = a.copy()                 *)
   (gh, UCall 1 (fun _ => OSetKepRow 0 (Sc 8%Z)));                         (* b.a = 8                      *)
   (gh, UOpt 1 (fun o => {| tol := 3%Z; max_iter := 1; degree := degree o |}));
   (gh, UGet 1 GKep);                                                      (* z = b.kepler                 *)
   (gh, UCall 1 (fun _ => ODelete (IInt 0)))].                             (* b.delete(0)                  *)
Example C68_busy : forallb (fun x => no_mass (snd x)) busy = true /\
  exists w a b, fst (hrun busy (mkw [] [] [])) = w /\ forallb (fun r => match r with Ok _ => true | _ => false end) (snd (hrun busy (mkw [] [] []))) = true /\
    vobj w 0 = Some a /\ okep a = [mk6 9 0 2 3 4 5]%Z /\ max_iter (oopts a) = 5%Z /\
    vobj w 1 = Some b /\ okep b = [] /\ max_iter (oopts b) = 1%Z /\
    refvals w = [fresh [6; 1] [1; 1; 1; 1; 1; 1]%Z; fresh [6; 1] [2; 2; 2; 2; 2; 2]%Z; fresh [6; 1] [8; 0; 2; 3; 4; 5]%Z].
Proof.
  split; [reflexivity|]. eexists _, _, _. split; [reflexivity|]. vm_compute.
  repeat (split; [reflexivity|]). reflexivity.
Qed.
(** [m = a.m] is the array of the object: writing to it changes the object *)
Definition poke_mass : program Z := one_orbit ++ [(gh, UMass 0); (gh, UPoke 1 [50]%Z)].
(** [b.m = m] makes two objects share it: changing the mass of one changes the other *)
Definition share_mass : program Z :=
  one_orbit ++ [(gh, UItem 0 IAll); (gh, UMass 0); (gh, USetMass 1 1);
                (gh, UCall 1 (fun _ => OSetM IAll (Sc 60%Z)))].
(** after [a.add(...)] the array handed out before is no longer the array of the object *)
Definition stale_mass : program Z :=
  one_orbit ++ [(gh, UMass 0); (gh, UCall 0 (fun _ => OAdd 1 no_kws)); (gh, UPoke 1 [70]%Z)].
Theorem C68_mass_refuted :
  (exists p w rs, p = poke_mass /\ hrun p (mkw [] [] []) = (w, rs) /\
     option_map om (vobj w 0) = Some [50]%Z /\ option_map om (nth_error (v_objs (fst (vrun p (mkv [] [])))) 0) = Some [0]%Z) /\
  (exists p w rs, p = share_mass /\ hrun p (mkw [] [] []) = (w, rs) /\
     option_map om (vobj w 0) = Some [60]%Z /\ option_map om (nth_error (v_objs (fst (vrun p (mkv [] [])))) 0) = Some [0]%Z) /\
  (exists p w rs, p = stale_mass /\ hrun p (mkw [] [] []) = (w, rs) /\ option_map om (vobj w 0) = Some [0; 0]%Z).
Proof.
  split; [|split]; eexists _, _, _; (split; [reflexivity|]).
  - split; [rewrite (surjective_pairing (hrun _ _)); reflexivity|]. vm_compute. auto.
  - split; [rewrite (surjective_pairing (hrun _ _)); reflexivity|]. vm_compute. auto.
  - split; [rewrite (surjective_pairing (hrun _ _)); reflexivity|]. vm_compute. auto.
Qed.
(** a case of C68_frame, C68_arrays and C49_independent: [busy] up to the copy, the rest acts on the copy *)
Example C68_frame_example : exists w rs s t w2 rs2,
  hrun (firstn 5 busy) (mkw [] [] []) = (w, rs) /\ vobj w 0 = Some s /\ getitem IAll s = Ok t /\
  hrun ((gh, UItem 0 IAll) :: skipn 6 busy) w = (w2, rs2) /\
  forallb (fun x => no_mass (snd x)) (firstn 5 busy ++ skipn 6 busy) = true /\
  (forall gb c, In (gb, c) (skipn 6 busy) -> acts_on c <> Some 0) /\
  nth_error (refvals w) 1 = Some (fresh [6; 1] [2; 2; 2; 2; 2; 2]%Z) /\
  (forall gb d, ~ In (gb, UPoke 1 d) (skipn 6 busy)) /\ vobj w2 1 <> Some t /\ length (w_objs w) = 1.
Proof.
  eexists _, _, _, _, _, _. split; [vm_compute; reflexivity|]. split; [vm_compute; reflexivity|].
  split; [vm_compute; reflexivity|]. split; [vm_compute; reflexivity|]. split; [reflexivity|].
  split. { cbn. intros gb c I E. repeat (destruct I as [I|I]; [injection I as <- <-; discriminate|]). exact I. }
  split; [vm_compute; reflexivity|].
  split. { cbn. intros gb d I. repeat (destruct I as [I|I]; [discriminate|]). exact I. }
  split; [vm_compute; discriminate|reflexivity].
Qed.
End Examples.
