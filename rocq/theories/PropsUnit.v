(** * C36, C38-C40: units and constants.  Everything except [C36_values] holds for any arithmetic. *)
From Coq Require Import Reals Ascii String List Bool ZArith QArith Qreals Lia Lra.
From Verif Require Import NP NPReal NPToy UnitModel Lists Spec RealBase.
Import ListNotations.
Local Open Scope string_scope.

(** ** C36: get_G *)
(** Specification of unit names: [spelled seps s t] if [s] is [t] up to letter case and
    inserted separators [seps]. *)
Definition same_letter (c d : ascii) : Prop :=
  c = d \/ exists n, (n < 26)%nat /\ c = ascii_of_nat (65 + n) /\ d = ascii_of_nat (97 + n).
Inductive spelled (seps : list ascii) : string -> string -> Prop :=
| sp_nil : spelled seps "" ""
| sp_char c d s t : same_letter c d -> ~ In d seps -> spelled seps s t -> spelled seps (String c s) (String d t)
| sp_sep c s t : In c seps -> spelled seps s t -> spelled seps (String c s) t.
Section Units.
Context {F : Type} `{NP F}.
Definition unit_is (seps : list ascii) (table : list (string * F)) (u : uarg F) (v : F) : Prop :=
  match u with
  | UStr s => exists name, In (name, v) table /\ spelled seps s name
  | UFloat x => v = x
  | UOther => False
  end.
(** names and SI values *)
Definition mass_seps : list ascii := ["_"; " "; "-"]%char.
Definition mass_table : list (string * F) :=
  [("kg", lit 1); ("g", lit 1e-3); ("msun", lit 1.98847e30); ("msol", lit 1.98847e30)].
Definition time_table : list (string * F) :=
  [("s", lit 1); ("h", lit 3600); ("d", mul (lit 3600) (lit 24)); ("y", mul (mul (lit 3600) (lit 24)) (lit 365.25))].
Definition length_table : list (string * F) :=
  [("m", lit 1); ("cm", lit 1e-2); ("km", lit 1e3); ("au", lit 1.495978707e11); ("pc", lit 3.08567758149137e16)].

(** *** spellings *)
Definition is_lower_ascii (c : ascii) : bool := Ascii.eqb (lower_ascii c) c.
Lemma same_lower c d : same_letter c d -> is_lower_ascii d = true -> lower_ascii c = d.
Proof.
  intros [->|[n [L [-> ->]]]] Hd.
  - now apply Ascii.eqb_eq.
  - do 26 (destruct n as [|n]; [reflexivity|]). lia.
Qed.
Lemma lower_same c : same_letter c (lower_ascii c).
Proof.
  unfold lower_ascii. destruct ((Nat.leb 65 (nat_of_ascii c)) && Nat.leb (nat_of_ascii c) 90)%bool eqn:E; [|now left].
  apply andb_true_iff in E. destruct E as [E1 E2]. apply PeanoNat.Nat.leb_le in E1, E2.
  right. exists (nat_of_ascii c - 65)%nat. repeat split; [lia| |].
  - rewrite <- (ascii_nat_embedding c) at 1. f_equal. lia.
  - f_equal. lia.
Qed.
Definition strip_mass (s : string) := remove_char "-" (remove_char " " (remove_char "_" s)).
Lemma strip_lower s t : Forall (fun c => is_lower_ascii c = true) (list_ascii_of_string t) ->
  (strip_mass (lower s) = t <-> spelled mass_seps s t).
Proof.
  intros Ht. unfold strip_mass. split.
  - intros <-. clear Ht. induction s as [|c s IH]; [constructor|].
    cbn [lower remove_char].
    assert (L : forall d, In d mass_seps -> lower_ascii c = d -> c = d).
    { intros d Hd E. unfold lower_ascii in E.
      destruct ((Nat.leb 65 (nat_of_ascii c)) && Nat.leb (nat_of_ascii c) 90)%bool eqn:B; auto.
      apply andb_true_iff in B. destruct B as [E1 E2]. apply PeanoNat.Nat.leb_le in E1, E2.
      exfalso. assert (nat_of_ascii d = nat_of_ascii c + 32)%nat.
      { rewrite <- E, nat_ascii_embedding; lia. }
      cbn in Hd. destruct Hd as [<-|[<-|[<-|[]]]]; cbn in H0; lia. }
    destruct (Ascii.eqb_spec "_" (lower_ascii c)) as [E1|N1].
    { apply sp_sep; auto. rewrite (L "_"%char); cbn; auto. }
    cbn [remove_char]. destruct (Ascii.eqb_spec " " (lower_ascii c)) as [E2|N2].
    { apply sp_sep; auto. rewrite (L " "%char); cbn; auto. }
    cbn [remove_char]. destruct (Ascii.eqb_spec "-" (lower_ascii c)) as [E3|N3].
    { apply sp_sep; auto. rewrite (L "-"%char); cbn; auto. }
    apply sp_char; auto; [apply lower_same|]. cbn. intuition.
  - intros S. induction S as [|c d s t E N S IH|c s t E S IH]; [reflexivity| |].
    + cbn [list_ascii_of_string] in Ht. inversion Ht; subst. cbn [lower].
      rewrite (same_lower c d) by auto. cbn [remove_char].
      cbn in N. destruct (Ascii.eqb_spec "_" d); [subst; intuition|]. cbn [remove_char].
      destruct (Ascii.eqb_spec " " d); [subst; intuition|]. cbn [remove_char].
      destruct (Ascii.eqb_spec "-" d); [subst; intuition|]. rewrite IH; auto.
    + cbn in E. destruct E as [<-|[<-|[<-|[]]]]; cbn; auto.
Qed.
Lemma lower_spelled s t : Forall (fun c => is_lower_ascii c = true) (list_ascii_of_string t) ->
  (lower s = t <-> spelled [] s t).
Proof.
  intros Ht. split.
  - intros <-. clear Ht. induction s; cbn; constructor; auto. apply lower_same.
  - intros S. induction S as [|c d s t E N S IH|c s t E S IH]; [reflexivity| |destruct E].
    cbn [list_ascii_of_string] in Ht. inversion Ht; subst. cbn. rewrite (same_lower c d), IH; auto.
Qed.
Ltac is_low := repeat constructor.
Ltac in_table := repeat first [left; reflexivity | right].
Lemma C36_mass u : (forall v, unit_mass u = Ok v <-> unit_is mass_seps mass_table u v)
  /\ ((forall v, ~ unit_is mass_seps mass_table u v) -> unit_mass u = Raise TypeError).
Proof.
  assert (A : forall v, unit_mass u = Ok v <-> unit_is mass_seps mass_table u v).
  { intros v. destruct u as [s|x|]; cbn [unit_mass unit_is].
    - fold (strip_mass (lower s)).
      assert (P : forall t, Forall (fun c => is_lower_ascii c = true) (list_ascii_of_string t) ->
         spelled mass_seps s t -> strip_mass (lower s) = t) by (intros; now apply strip_lower).
      split.
      + destruct (String.eqb_spec (strip_mass (lower s)) "kg") as [E|E].
        { intros X. injection X as <-. exists "kg". split; [in_table|]. apply strip_lower; auto. is_low. }
        destruct (String.eqb_spec (strip_mass (lower s)) "g") as [E1|E1].
        { intros X. injection X as <-. exists "g". split; [in_table|]. apply strip_lower; auto. is_low. }
        destruct (String.eqb_spec (strip_mass (lower s)) "msun") as [E2|E2].
        { intros X. injection X as <-. exists "msun". split; [in_table|]. apply strip_lower; auto. is_low. }
        destruct (String.eqb_spec (strip_mass (lower s)) "msol") as [E3|E3]; [|discriminate].
        { intros X. injection X as <-. exists "msol". split; [in_table|]. apply strip_lower; auto. is_low. }
      + intros [t [I S]].
        destruct I as [I|[I|[I|[I|[]]]]]; injection I as <- <-; apply P in S; try is_low; rewrite S; reflexivity.
    - split; [now intros [= <-]|now intros ->].
    - split; [discriminate|easy]. }
  split; auto. intros N. destruct (unit_mass u) as [v|e] eqn:E.
  - exfalso. apply (N v). now apply A.
  - destruct u as [s|x|]; cbn [unit_mass] in E; try congruence.
    repeat match type of E with context [if ?b then _ else _] => destruct b; try congruence end.
Qed.
Ltac table_tac := let K := fresh in let A := fresh in intros K; unfold time_table, length_table in K;
  repeat (destruct K as [K|K]); try contradiction;
  injection K as <- <-; intros A;
  match type of A with spelled _ ?s ?t => rewrite (proj2 (lower_spelled s t ltac:(is_low)) A); reflexivity end.
Ltac hit name := let X := fresh in intros X; injection X as <-; exists name; split; [in_table|];
  apply lower_spelled; [is_low|assumption].
Lemma C36_time u : (forall v, unit_time u = Ok v <-> unit_is [] time_table u v)
  /\ ((forall v, ~ unit_is [] time_table u v) -> unit_time u = Raise TypeError).
Proof.
  assert (A : forall v, unit_time u = Ok v <-> unit_is [] time_table u v).
  { intros v. destruct u as [s|x|]; cbn [unit_time unit_is].
    - split.
      + destruct (String.eqb_spec (lower s) "s"); [hit "s"|].
        destruct (String.eqb_spec (lower s) "h"); [hit "h"|].
        destruct (String.eqb_spec (lower s) "d"); [hit "d"|].
        destruct (String.eqb_spec (lower s) "y"); [hit "y"|discriminate].
      + intros [t [I S]]. revert I S. table_tac.
    - split; [now intros [= <-]|now intros ->].
    - split; [discriminate|easy]. }
  split; auto. intros N. destruct (unit_time u) as [v|e] eqn:E.
  - exfalso. apply (N v). now apply A.
  - destruct u as [s|x|]; cbn [unit_time] in E; try congruence.
    repeat match type of E with context [if ?b then _ else _] => destruct b; try congruence end.
Qed.
Lemma C36_length u : (forall v, unit_length u = Ok v <-> unit_is [] length_table u v)
  /\ ((forall v, ~ unit_is [] length_table u v) -> unit_length u = Raise TypeError).
Proof.
  assert (A : forall v, unit_length u = Ok v <-> unit_is [] length_table u v).
  { intros v. destruct u as [s|x|]; cbn [unit_length unit_is].
    - split.
      + destruct (String.eqb_spec (lower s) "m"); [hit "m"|].
        destruct (String.eqb_spec (lower s) "cm"); [hit "cm"|].
        destruct (String.eqb_spec (lower s) "km"); [hit "km"|].
        destruct (String.eqb_spec (lower s) "au"); [hit "au"|].
        destruct (String.eqb_spec (lower s) "pc"); [hit "pc"|discriminate].
      + intros [t [I S]]. revert I S. table_tac.
    - split; [now intros [= <-]|now intros ->].
    - split; [discriminate|easy]. }
  split; auto. intros N. destruct (unit_length u) as [v|e] eqn:E.
  - exfalso. apply (N v). now apply A.
  - destruct u as [s|x|]; cbn [unit_length] in E; try congruence.
    repeat match type of E with context [if ?b then _ else _] => destruct b; try congruence end.
Qed.
(** get_G succeeds exactly on known units and floats, with the value G m t^2 / l^3, and
    raises TypeError on everything else *)
Theorem C36_get_G : forall L M T,
  (forall l m t, unit_is [] length_table L l -> unit_is mass_seps mass_table M m -> unit_is [] time_table T t ->
     get_G L M T = Ok (mul (lit 6.6743e-11) (div (mul m (mul t t)) (mul (mul l l) l))))
  /\ ((forall l, ~ unit_is [] length_table L l) \/ (forall m, ~ unit_is mass_seps mass_table M m)
      \/ (forall t, ~ unit_is [] time_table T t) -> get_G L M T = Raise TypeError).
Proof.
  intros L M T. destruct (C36_length L) as [L1 L2], (C36_mass M) as [M1 M2], (C36_time T) as [T1 T2].
  split.
  - intros l m t Hl Hm Ht. unfold get_G.
    rewrite (proj2 (M1 m) Hm), (proj2 (T1 t) Ht), (proj2 (L1 l) Hl). reflexivity.
  - intros D. unfold get_G.
    assert (Em : unit_mass M = Raise TypeError \/ exists m, unit_mass M = Ok m).
    { destruct M as [s|x|]; cbn [unit_mass]; eauto.
      repeat match goal with |- context [if ?b then _ else _] => destruct b; eauto end. }
    assert (Et : unit_time T = Raise TypeError \/ exists m, unit_time T = Ok m).
    { destruct T as [s|x|]; cbn [unit_time]; eauto.
      repeat match goal with |- context [if ?b then _ else _] => destruct b; eauto end. }
    destruct Em as [Em|[m Em]]; [now rewrite Em|]. destruct Et as [Et|[t Et]]; [now rewrite Em, Et|].
    rewrite Em, Et. cbn [rbind].
    destruct D as [D|[D|D]].
    + now rewrite (L2 D).
    + specialize (M2 D). congruence.
    + specialize (T2 D). congruence.
Qed.
End Units.
(** the values in exact arithmetic *)
Lemma lit_M_sol : lit 1.98847e30 = Fin 1.98847e30.
Proof.
  unfold lit, NP_num. f_equal. rewrite Q2R_mult. unfold Q2R at 2. cbn [Qnum Qden].
  rewrite Rinv_1, Rmult_1_r. reflexivity.
Qed.
Lemma lit_AU : lit 1.495978707e11 = Fin 149597870700.
Proof.
  unfold lit, NP_num. f_equal. rewrite Q2R_mult. unfold Q2R. cbn [Qnum Qden].
  change (Z.pow_pos 10 11) with 100000000000%Z. lra.
Qed.
Lemma lit_G : lit 6.6743e-11 = Fin 6.6743e-11.
Proof.
  unfold lit, NP_num. f_equal. rewrite Q2R_div by discriminate. unfold Q2R at 2. cbn [Qnum Qden].
  rewrite Rinv_1, Rmult_1_r. reflexivity.
Qed.
Theorem C36_values : forall L M T l m t,
  unit_is [] length_table L (Fin l) -> unit_is mass_seps mass_table M (Fin m) ->
  unit_is [] time_table T (Fin t) -> (l <> 0 ->
  get_G L M T = Ok (Fin (6.6743e-11 * m * (t * t) / (l * l * l))))%R.
Proof.
  intros L M T l m t HL HM HT Hl.
  rewrite (proj1 (C36_get_G L M T) _ _ _ HL HM HT). f_equal.
  rewrite lit_G. num. rewrite Fin_div.
  - num. f_equal. field. auto.
  - repeat apply Rmult_integral_contrapositive_currified; auto.
Qed.
Example C36_example : unit_is mass_seps mass_table (UStr "M_Sun") (Fin 1.98847e30)
  /\ unit_is [] length_table (UStr "aU") (Fin 149597870700) /\ unit_is [] time_table (UStr "D") (Fin 86400)
  /\ (get_G (UStr "aU") (UStr "M_Sun") (UStr "D")
     = Ok (Fin (6.6743e-11 * 1.98847e30 * (86400 * 86400) / (149597870700 * 149597870700 * 149597870700))))%R
  /\ get_G (F := num) (UStr "mile") (UStr "kg") (UStr "s") = Raise TypeError
  /\ get_G (F := num) UOther (UStr "kg") (UStr "s") = Raise TypeError.
Proof.
  assert (A : unit_is mass_seps mass_table (UStr "M_Sun") (Fin 1.98847e30)).
  { apply (proj1 (C36_mass (UStr "M_Sun"))). transitivity (Ok (lit (F := num) 1.98847e30)); [reflexivity|].
    f_equal. apply lit_M_sol. }
  assert (B : unit_is [] length_table (UStr "aU") (Fin 149597870700)).
  { apply (proj1 (C36_length (UStr "aU"))). transitivity (Ok (lit (F := num) 1.495978707e11)); [reflexivity|].
    f_equal. apply lit_AU. }
  assert (C : unit_is [] time_table (UStr "D") (Fin 86400)).
  { apply (proj1 (C36_time (UStr "D"))). transitivity (Ok (mul (lit (F := num) 3600) (lit 24))); [reflexivity|].
    f_equal. unfold lit, mul, NP_num, num_mul. f_equal. unfold Q2R. cbn [Qnum Qden]. lra. }
  repeat split; auto. apply C36_values; auto; lra.
Qed.

(** ** C38: the angle_units decorator *)
Section Angle.
Context {V : Type} (rad dg : V -> V).
Local Notation aunits := (angle_units rad dg).
(** position [j] is among the indices [is] of a sequence of length [n] (negative ones count
    from the end) *)
Definition listed (n : nat) (is : list Z) (j : nat) : Prop :=
  exists i, In i is /\ (Z.of_nat j = i \/ Z.of_nat j = i + Z.of_nat n)%Z /\ (j < n)%nat.
(** all indices exist and denote different positions *)
Definition good_inds (n : nat) (is : list Z) : Prop :=
  Forall (fun i => - Z.of_nat n <= i < Z.of_nat n)%Z is /\ NoDup (map (fun i => i mod Z.of_nat n)%Z is).
(** [l'] is [l] with [f] applied at exactly the listed positions *)
Definition applied (f : V -> V) (is : list Z) (l l' : list V) : Prop :=
  length l' = length l /\ forall j v, nth_error l j = Some v ->
    (listed (length l) is j -> nth_error l' j = Some (f v))
    /\ (~ listed (length l) is j -> nth_error l' j = Some v).

Lemma upd_nth_length {A} i (x : A) l : length (upd_nth i x l) = length l.
Proof. revert i. induction l; destruct i; cbn; auto. Qed.
Lemma upd_nth_same {A} i (x : A) l : (i < length l)%nat -> nth_error (upd_nth i x l) i = Some x.
Proof. revert i. induction l; destruct i; cbn; intros; try lia; auto. apply IHl. lia. Qed.
Lemma upd_nth_other {A} i j (x : A) l : i <> j -> nth_error (upd_nth i x l) j = nth_error l j.
Proof. revert i j. induction l; destruct i, j; cbn; intros; auto; try congruence. Qed.

Lemma py_index_spec n i : (- Z.of_nat n <= i < Z.of_nat n)%Z ->
  exists j, py_index n i = Some j /\ (j < n)%nat /\ Z.of_nat j = (i mod Z.of_nat n)%Z
    /\ (Z.of_nat j = i \/ Z.of_nat j = i + Z.of_nat n)%Z.
Proof.
  intros Hi. unfold py_index.
  assert (Hn : (0 < Z.of_nat n)%Z) by lia.
  destruct (Z.ltb_spec i 0).
  - exists (Z.to_nat (i + Z.of_nat n)).
    replace ((0 <=? i + Z.of_nat n) && (i + Z.of_nat n <? Z.of_nat n))%Z with true
      by (symmetry; apply andb_true_iff; split; [apply Z.leb_le|apply Z.ltb_lt]; lia).
    repeat split; auto; try lia. rewrite Z2Nat.id by lia.
    rewrite <- (Z.mod_add i 1) by lia. rewrite Z.mod_small; lia.
  - exists (Z.to_nat i).
    replace ((0 <=? i) && (i <? Z.of_nat n))%Z with true
      by (symmetry; apply andb_true_iff; split; [apply Z.leb_le|apply Z.ltb_lt]; lia).
    repeat split; auto; try lia. rewrite Z2Nat.id by lia. rewrite Z.mod_small; lia.
Qed.
Lemma app_all_good (f : V -> V) is l : good_inds (length l) is -> exists l', app_all f l is = Ok l' /\ applied f is l l'.
Proof.
  revert l. induction is as [|i is IH]; intros l [G1 G2].
  - exists l. split; auto. split; auto. intros j v E. split; auto. intros [i [[] _]].
  - inversion G1; subst. cbn in G2. inversion G2; subst. clear G1 G2.
    destruct (py_index_spec (length l) i H1) as [j [E1 [E2 [E3 E4]]]].
    cbn [app_all]. unfold app_at. rewrite E1.
    destruct (nth_error l j) as [v|] eqn:Ev; [|apply nth_error_None in Ev; lia].
    cbn [rbind]. 
    destruct (IH (upd_nth j (f v) l)) as [l' [A [B1 B2]]].
    { rewrite upd_nth_length. split; auto. }
    exists l'. split; auto. rewrite upd_nth_length in *. split; auto.
    intros j' v' Ev'. 
    assert (NL : ~ listed (length l) is j).
    { intros [i' [I1 [I2 I3]]]. apply H3. apply in_map_iff. exists i'. split; auto.
      rewrite <- E3. assert (Hn : (0 < Z.of_nat (length l))%Z) by lia.
      destruct I2 as [I2|I2].
      - rewrite <- I2. apply Z.mod_small. lia.
      - rewrite <- (Z.mod_add i' 1) by lia. rewrite Z.mul_1_l, <- I2. apply Z.mod_small. lia. }
    destruct (PeanoNat.Nat.eq_dec j j') as [<-|Nj].
    + assert (v' = v) by congruence. subst v'.
      split.
      * intros _. apply (B2 j (f v)); [now apply upd_nth_same|]. auto.
      * intros X. exfalso. apply X. exists i. cbn. auto.
    + destruct (B2 j' v') as [C1 C2]; [now rewrite upd_nth_other|].
      split.
      * intros [i' [[I1|I1] [I2 I3]]]; [|apply C1; exists i'; auto].
        subst i'. exfalso. apply Nj. lia.
      * intros X. apply C2. intros [i' [I1 I2]]. apply X. exists i'. cbn. auto.
Qed.
Lemma app_all_bad (f : V -> V) is : forall l : list V, Exists (fun i => ~ (- Z.of_nat (length l) <= i < Z.of_nat (length l)))%Z is ->
  app_all f l is = Raise IndexError.
Proof.
  induction is as [|i is IH]; intros l E; [inversion E|]. cbn [app_all]. unfold app_at.
  destruct (py_index (length l) i) as [j|] eqn:P; [|reflexivity].
  assert (Hi : (- Z.of_nat (length l) <= i < Z.of_nat (length l))%Z).
  { unfold py_index in P. destruct (Z.ltb_spec i 0);
      match type of P with (if ?b then _ else _) = _ => destruct b eqn:B; [|discriminate] end;
      apply andb_true_iff in B; destruct B as [B1 B2]; apply Z.leb_le in B1; apply Z.ltb_lt in B2; lia. }
  inversion E; subst; [contradiction|].
  destruct (nth_error l j) as [v|]; [|reflexivity]. cbn [rbind].
  apply IH. now rewrite upd_nth_length.
Qed.
Definition sel_keys (ks : option (list string)) := match ks with Some l => l | None => [] end.
Definition sel_inds (is : option (list Z)) := match is with Some l => l | None => [] end.
(** the keyword dictionary with [rad] applied to the listed keys *)
Definition conv_kw (ks : list string) (kw : kwargs V) : kwargs V :=
  map (fun '(k, v) => (k, if in_dec string_dec k ks then rad v else v)) kw.
Lemma fold_map_key ks : NoDup ks -> forall kw, fold_left (map_key rad) ks kw = conv_kw ks kw.
Proof.
  induction 1 as [|k ks N ND IH]; intros kw.
  - cbn [fold_left]. unfold conv_kw. rewrite <- (map_id kw) at 1. apply map_ext. now intros [k v].
  - cbn [fold_left]. rewrite IH. unfold conv_kw, map_key. rewrite map_map. apply map_ext. intros [k' v].
    destruct (String.eqb_spec k k') as [<-|Nk].
    + destruct (in_dec string_dec k ks); [contradiction|].
      destruct (in_dec string_dec k (k :: ks)); [reflexivity|]. exfalso. apply n0. now left.
    + destruct (in_dec string_dec k' ks), (in_dec string_dec k' (k :: ks)); auto.
      * exfalso. apply n. now right.
      * destruct i; [congruence|contradiction].
Qed.

Theorem C38_off : forall is ks out dflt func call args kw,
  match call with Some b => b | None => dflt end = false -> aunits is ks out dflt func call args kw = func args kw.
Proof. intros. unfold angle_units. now rewrite H. Qed.
(** with degrees in effect *)
Theorem C38_on : forall is ks out dflt func call args kw,
  match call with Some b => b | None => dflt end = true ->
  good_inds (length args) (sel_inds is) -> NoDup (sel_keys ks) ->
  exists args', applied rad (sel_inds is) args args' /\
  let r := func args' (conv_kw (sel_keys ks) kw) in
  let w := aunits is ks out dflt func call args kw in
  (forall e, r = Raise e -> w = Raise e) /\ (r = Ok RNone -> w = Ok RNone)
  /\ (out = ONone -> w = r)
  /\ (forall b v, out = OBool b -> r = Ok (ROne v) -> w = Ok (ROne (dg v)))
  /\ (forall b l, out = OBool b -> r = Ok (RTuple l) -> w = Ok (RTuple (map dg l)))
  /\ (forall os l, out = OInds os -> r = Ok (RTuple l) -> good_inds (length l) os ->
        exists l', w = Ok (RTuple l') /\ applied dg os l l').
Proof.
  intros is ks out dflt func call args kw Hd Hi Hk.
  destruct (app_all_good rad (sel_inds is) args Hi) as [args' [E A]]. exists args'. split; auto.
  assert (E1 : match is with None => Ok args | Some is => app_all rad args is end = Ok args').
  { destruct is; cbn in *; auto. }
  assert (E2 : match ks with None => kw | Some ks => fold_left (map_key rad) ks kw end = conv_kw (sel_keys ks) kw).
  { destruct ks as [l|]; cbn [sel_keys] in *; [now apply fold_map_key|].
    unfold conv_kw. rewrite <- (map_id kw) at 1. apply map_ext. now intros [k v]. }
  cbv zeta. unfold angle_units. rewrite Hd. cbn [negb]. rewrite E1. cbn [rbind]. rewrite E2.
  set (r := func args' _). repeat split.
  - intros e ->. reflexivity.
  - intros ->. cbn. now destruct out.
  - intros ->. now destruct r.
  - intros b v -> ->. reflexivity.
  - intros b l -> ->. reflexivity.
  - intros os l -> -> G. cbn. destruct (app_all_good dg os l G) as [l' [X Y]]. exists l'. rewrite X. auto.
Qed.
(** an index that does not exist is an IndexError, before the function is called *)
Theorem C38_bad_index : forall is ks out dflt func call args kw,
  match call with Some b => b | None => dflt end = true ->
  Exists (fun i => ~ (- Z.of_nat (length args) <= i < Z.of_nat (length args)))%Z is ->
  aunits (Some is) ks out dflt func call args kw = Raise IndexError.
Proof.
  intros is ks out dflt func call args kw Hd Hb. unfold angle_units. rewrite Hd. cbn [negb].
  now rewrite app_all_bad.
Qed.
(** [out_arg_inds=False] converts the output like [True] does *)
Theorem C38_false_out : forall is ks dflt func call args kw,
  aunits is ks (OBool false) dflt func call args kw = aunits is ks (OBool true) dflt func call args kw.
Proof. reflexivity. Qed.
End Angle.
Example C38_example : good_inds 3 [0; -1]%Z /\ NoDup ["i"] /\
  angle_units (Z.mul 2) (Z.mul 10) (Some [0; -1]%Z) (Some ["i"]) (OInds [1]%Z) false
    (fun a kw => Ok (RTuple (a ++ map snd kw)%list)) (Some true) [1; 2; 3]%Z [("i", 4); ("j", 5)]%Z
  = Ok (RTuple [2; 20; 6; 8; 5]%Z).
Proof.
  repeat split; auto; repeat constructor; cbn; try lia; intuition discriminate.
Qed.

(** ** C39: constants *)
Section Constants.
Context {V : Type} (veq : V -> V -> bool).
Local Notation lookup := (lookup (V := V)).
Lemma lookup_app d k k' v : lookup d k' = None ->
  lookup (d ++ [(k', v)])%list k = match lookup d k with Some w => Some w | None => if String.eqb k k' then Some v else None end.
Proof.
  induction d as [|[k1 v1] d IH]; cbn; auto.
  destruct (String.eqb_spec k' k1); [discriminate|]. intros N.
  destruct (String.eqb_spec k k1); auto.
Qed.
(** every operation keeps every defined constant; its outcome *)
Theorem C39_step : forall d,
  (forall o n v, lookup d n = Some v -> lookup (fst (const_step veq d o)) n = Some v)
  /\ (forall n v w, lookup d n = Some v -> veq v w = false -> const_step veq d (CSet n w) = (d, Raise ConstError))
  /\ (forall n v w, lookup d n = Some v -> veq v w = true -> const_step veq d (CSet n w) = (d, Ok tt))
  /\ (forall n v, lookup d n = None -> snd (const_step veq d (CSet n v)) = Ok tt
        /\ lookup (fst (const_step veq d (CSet n v))) n = Some v)
  /\ (forall n v, lookup d n = Some v -> const_step veq d (CDel n) = (d, Raise ConstError))
  /\ (forall n, lookup d n = None -> const_step veq d (CDel n) = (d, Raise NameError)).
Proof.
  intros d. repeat split.
  - intros [n' w|n'] n v L; cbn; unfold const_setattr, const_delattr.
    + destruct (lookup d n') as [old|] eqn:E; [destruct (veq old w); exact L|].
      cbn. now rewrite lookup_app, L.
    + destruct (lookup d n'); exact L.
  - intros n v w L E. cbn. unfold const_setattr. now rewrite L, E.
  - intros n v w L E. cbn. unfold const_setattr. now rewrite L, E.
  - cbn. unfold const_setattr. now rewrite H.
  - cbn. unfold const_setattr. rewrite H. cbn. now rewrite lookup_app, H, String.eqb_refl.
  - intros n v L. cbn. unfold const_delattr. now rewrite L.
  - intros n L. cbn. unfold const_delattr. now rewrite L.
Qed.
Theorem C39_immutable : forall ops d n v, lookup d n = Some v -> lookup (const_run veq d ops) n = Some v.
Proof.
  unfold const_run. induction ops as [|o ops IH]; intros d n v L; cbn; auto.
  apply IH. now apply C39_step.
Qed.
(** ** C40: the documented sharing between instances does not happen: what is done to one
    instance never changes another one *)
Lemma upd_nth_error {A} i (x : A) l j : nth_error (upd_nth i x l) j
  = if Nat.eqb i j then (if Nat.ltb j (length l) then Some x else None) else nth_error l j.
Proof.
  destruct (PeanoNat.Nat.eqb_spec i j) as [<-|N]; [|now apply upd_nth_other].
  destruct (PeanoNat.Nat.ltb_spec i (length l)); [now apply upd_nth_same|].
  apply nth_error_None. now rewrite upd_nth_length.
Qed.
Theorem C40_shared_refuted : forall shared v name, name <> "__dict__" ->
  let w := world_run veq shared [WNew; WNew; WOp 0 (CSet name v)] in
  exists d0 d1, w = [d0; d1] /\ lookup d0 name = Some v /\ lookup d1 name = None.
Proof.
  intros shared v name N. cbn. unfold const_setattr. cbn.
  destruct (String.eqb_spec name "__dict__"); [contradiction|]. cbn.
  eexists _, _. split; [reflexivity|]. cbn. 
  destruct (String.eqb_spec name "__dict__"); [contradiction|]. now rewrite String.eqb_refl.
Qed.
Theorem C40_separate : forall shared w i o j, i <> j ->
  nth_error (world_step veq shared w (WOp i o)) j = nth_error w j.
Proof.
  intros. cbn. destruct (nth_error w i); auto. now rewrite upd_nth_other.
Qed.
(** what does hold: through the one instance that replaces the module, all importers see the
    same constants, and a new instance starts without any of them *)
Theorem C40_new_instance : forall shared ops name, name <> "__dict__" ->
  exists d, nth_error (world_run veq shared (ops ++ [WNew])) (length (world_run veq shared ops)) = Some d
    /\ lookup d name = None.
Proof.
  intros shared ops name N. unfold world_run. rewrite fold_left_app. cbn.
  exists (fst (const_init veq shared)). split.
  - rewrite nth_error_app2, PeanoNat.Nat.sub_diag; auto.
  - unfold const_init, const_setattr. cbn. destruct (String.eqb_spec name "__dict__"); [contradiction|reflexivity].
Qed.
End Constants.
(** the constants of the module, after any use of it *)
Theorem C39_module : forall (ops : list (const_op (V := cval num))) ,
  let d := const_run cval_eq const_module ops in
  lookup d "G" = Some (CNum (lit 6.6743e-11)) /\ lookup d "AU" = Some (CNum (lit 1.495978707e11))
  /\ lookup d "M_sol" = Some (CNum (lit 1.98847e30)) /\ lookup d "pi" = Some (CNum npi)
  /\ lookup d "_2pi" = Some (CNum n2pi)
  /\ map (lookup d) ["K_a"; "K_e"; "K_i"; "K_om"; "K_OM"; "K_nu"]
     = map (fun z => Some (CInt z)) [0; 1; 2; 3; 4; 5]%Z.
Proof.
  intros ops d.
  assert (A : forall n v, lookup const_module n = Some v -> lookup d n = Some v) by (intros; now apply C39_immutable).
  cbn [map]. repeat split; repeat f_equal; apply A; reflexivity.
Qed.
Example C39_example :
  let d := const_run Z.eqb [] [CSet "G" 5%Z] in
  lookup d "G" = Some 5%Z /\ const_step Z.eqb d (CSet "G" 6%Z) = (d, Raise ConstError)
  /\ const_step Z.eqb d (CSet "G" 5%Z) = (d, Ok tt).
Proof. repeat split. Qed.
(** two instances: what is bound in the first stays out of the second, which can bind the same name *)
Example C40_example : forall shared,
  let w := world_run Z.eqb shared [WNew; WNew; WOp 0 (CSet "G" 5%Z); WOp 1 (CSet "G" 6%Z)] in
  exists d0 d1, w = [d0; d1] /\ lookup d0 "G" = Some 5%Z /\ lookup d1 "G" = Some 6%Z.
Proof. intros shared w. eexists _, _. repeat split. Qed.
