(** * List facts for the Orbit model: masks, index lists, entry-wise array functions *)
From Coq Require Import List Bool Arith Lia ZArith QArith.
From Verif Require Import NP KeplerModel ConvModel UnitModel OrbitModel Lists ArraySpec PropsUnit.
Import ListNotations.
Local Open Scope nat_scope.

(** ** masks *)
(** number of selected positions before [j] *)
Fixpoint rank (m : list bool) (j : nat) : nat :=
  match m, j with
  | b :: m', S j' => (if b then 1 else 0) + rank m' j'
  | _, _ => 0
  end.
Lemma mget_rank {A} (m : list bool) (l : list A) j :
  nth_error m j = Some true -> nth_error (mget m l) (rank m j) = nth_error l j.
Proof.
  revert l j. induction m as [|b m IH]; intros l j Hj; [destruct j; discriminate|].
  destruct j as [|j]; cbn in Hj.
  - injection Hj as ->. now destruct l.
  - destruct l as [|x l]; cbn [mget rank].
    + destruct b; cbn [Nat.add]; [now destruct (rank m j)|].
      now destruct (rank m j).
    + destruct b; cbn [Nat.add nth_error]; now apply IH.
Qed.
Lemma mget_length {A B} (m : list bool) (l : list A) (l' : list B) :
  length l = length l' -> length (mget m l) = length (mget m l').
Proof.
  revert l l'. induction m as [|b m IH]; destruct l, l'; cbn; try easy. intros E.
  destruct b; cbn; f_equal; apply IH; lia.
Qed.
Lemma mset_length {A} (m : list bool) (new old : list A) : length (mset m new old) = length old.
Proof.
  revert new old. induction m as [|b m IH]; destruct old; cbn; auto.
  destruct b; [destruct new|]; cbn; now rewrite IH.
Qed.
Lemma mset_s_length {A} (m : list bool) v (old : list A) : length (mset_s m v old) = length old.
Proof. revert old. induction m as [|b m IH]; destruct old; cbn; auto. Qed.
Lemma mset_nth {A} (m : list bool) (new old : list A) j :
  length (mget m old) <= length new ->
  nth_error (mset m new old) j =
  match nth_error m j, nth_error old j with
  | Some true, Some _ => nth_error new (rank m j)
  | _, _ => nth_error old j
  end.
Proof.
  revert new old j. induction m as [|b m IH]; intros new old j Hl.
  - cbn. destruct j, old; auto.
  - destruct old as [|x old]; [cbn [mset]; destruct (nth_error (b :: m) j) as [[]|]; now destruct j|].
    cbn in Hl. destruct b.
    + destruct new as [|v new]; [cbn in Hl; lia|]. cbn [mset].
      destruct j as [|j]; [reflexivity|]. cbn [nth_error rank Nat.add]. apply IH. cbn in Hl. lia.
    + cbn [mset]. destruct j as [|j]; [reflexivity|]. cbn [nth_error rank Nat.add]. now apply IH.
Qed.
Lemma mset_s_nth {A} (m : list bool) (v : A) old j :
  nth_error (mset_s m v old) j =
  match nth_error m j, nth_error old j with Some true, Some _ => Some v | _, o => o end.
Proof.
  revert old j. induction m as [|b m IH]; intros old j; [cbn; now destruct j, old|].
  destruct old as [|x old]; [cbn [mset_s]; destruct (nth_error (b :: m) j) as [[]|]; now destruct j|].
  destruct j; cbn; [now destruct b|apply IH].
Qed.
Lemma nth_error_ext {A} (l l' : list A) : (forall j, nth_error l j = nth_error l' j) -> l = l'.
Proof.
  revert l'. induction l as [|x l IH]; destruct l' as [|y l']; intros E; auto.
  - specialize (E 0). discriminate.
  - specialize (E 0). discriminate.
  - pose proof (E 0) as E0. cbn in E0. injection E0 as ->. f_equal. apply IH.
    intros j. exact (E (S j)).
Qed.
Lemma nth_error_some {A} (l : list A) j : j < length l -> exists x, nth_error l j = Some x.
Proof.
  intros Hj. destruct (nth_error l j) eqn:E; eauto. apply nth_error_None in E. lia.
Qed.
Lemma nth_error_lt {A} (l : list A) j x : nth_error l j = Some x -> j < length l.
Proof. intros E. apply nth_error_Some. congruence. Qed.

(** ** index-dependent map2 *)
Fixpoint imap2 {A B C} (f : nat -> A -> B -> C) (k : nat) (l : list A) (m : list B) : list C :=
  match l, m with x :: l', y :: m' => f k x y :: imap2 f (S k) l' m' | _, _ => [] end.
Lemma imap2_length {A B C} (f : nat -> A -> B -> C) k l m :
  length (imap2 f k l m) = Nat.min (length l) (length m).
Proof. revert k m. induction l; destruct m; cbn; auto. Qed.
Lemma imap2_nth {A B C} (f : nat -> A -> B -> C) k l m i :
  nth_error (imap2 f k l m) i =
  match nth_error l i, nth_error m i with Some x, Some y => Some (f (k + i) x y) | _, _ => None end.
Proof.
  revert k m i. induction l as [|x l IH]; destruct m as [|y m]; destruct i as [|i]; cbn; auto.
  - now destruct (nth_error l i).
  - now rewrite Nat.add_0_r.
  - rewrite IH. now rewrite Nat.add_succ_r.
Qed.
Lemma imap2_tag {A B C} (f : nat -> A -> B -> C) l m : length l = length m ->
  imap2 f 0 l m = map (fun t => f (fst t) (fst (snd t)) (snd (snd t))) (tag l m).
Proof.
  intros E. unfold tag.
  assert (G : forall k, imap2 f k l m = map (fun t => f (fst t) (fst (snd t)) (snd (snd t)))
                (combine (seq k (length l)) (combine l m))).
  { revert m E. induction l as [|x l IH]; destruct m; cbn; try easy. intros E j.
    f_equal. apply IH. lia. }
  apply G.
Qed.

(** ** index sets *)
Lemma put_length {A} ps (vs l : list A) : length (put ps vs l) = length l.
Proof.
  revert vs l. induction ps as [|p ps IH]; destruct vs; cbn; auto. intros l.
  now rewrite IH, upd_nth_length.
Qed.
Lemma put_other {A} ps (vs l : list A) j : ~ In j ps -> nth_error (put ps vs l) j = nth_error l j.
Proof.
  revert vs l. induction ps as [|p ps IH]; destruct vs as [|v vs]; cbn; auto. intros l Hj.
  rewrite IH by tauto. apply upd_nth_other. tauto.
Qed.
(** every value written at position [p] is [h p] *)
Lemma put_const {A} (h : nat -> A) ps (vs l : list A) j :
  length vs = length ps ->
  (forall i p v, nth_error ps i = Some p -> nth_error vs i = Some v -> v = h p) ->
  j < length l -> In j ps -> nth_error (put ps vs l) j = Some (h j).
Proof.
  revert vs l. induction ps as [|p ps IH]; destruct vs as [|v vs]; cbn; try easy.
  intros l El Hv Hj Hin.
  assert (Ev : v = h p) by (apply (Hv 0); auto). subst v.
  destruct (in_dec Nat.eq_dec j ps) as [Hi|Hi].
  - apply IH; auto. 2: now rewrite upd_nth_length.
    intros i q w Hq Hw. apply (Hv (S i)); auto.
  - destruct Hin as [->|]; [|easy]. rewrite put_other by auto. now apply upd_nth_same.
Qed.
Definition mem (j : nat) (ps : list nat) : bool := existsb (Nat.eqb j) ps.
Lemma mem_in j ps : mem j ps = true <-> In j ps.
Proof.
  unfold mem. rewrite existsb_exists. split.
  - intros [x [Hx E]]. apply Nat.eqb_eq in E. now subst.
  - intros Hx. exists j. now rewrite Nat.eqb_refl.
Qed.
Lemma mem_false j ps : mem j ps = false <-> ~ In j ps.
Proof. rewrite <- mem_in. now destruct (mem j ps). Qed.
Definition bounded (n : nat) (ps : list nat) : Prop := forall p, In p ps -> p < n.

Lemma pick_length {A} ps (l : list A) : bounded (length l) ps -> length (pick ps l) = length ps.
Proof.
  unfold pick. induction ps as [|p ps IH]; cbn; auto. intros Hb.
  destruct (nth_error l p) eqn:E.
  - cbn. rewrite IH; auto. intros q Hq. apply Hb. now right.
  - apply nth_error_None in E. specialize (Hb p (or_introl eq_refl)). lia.
Qed.
Lemma pick_nth {A} ps (l : list A) i : bounded (length l) ps ->
  nth_error (pick ps l) i = match nth_error ps i with Some p => nth_error l p | None => None end.
Proof.
  unfold pick. revert i. induction ps as [|p ps IH]; cbn; intros i Hb; [now destruct i|].
  destruct (nth_error_some l p) as [x Ex]; [apply Hb; now left|]. rewrite Ex. cbn.
  destruct i as [|i]; cbn; [auto|]. apply IH. intros q Hq. apply Hb. now right.
Qed.
Lemma pick_map {A B} (f : A -> B) ps l : pick ps (map f l) = map f (pick ps l).
Proof.
  unfold pick. induction ps as [|p ps IH]; cbn; auto. rewrite nth_error_map, IH.
  destruct (nth_error l p); reflexivity.
Qed.
Lemma pick_all {A} (l : list A) : pick (seq 0 (length l)) l = l.
Proof.
  apply nth_error_ext. intros j. rewrite pick_nth.
  2:{ intros p Hp. apply in_seq in Hp. lia. }
  destruct (lt_dec j (length l)) as [Hj|Hj].
  - assert (E : nth_error (seq 0 (length l)) j = Some j).
    { rewrite (nth_error_nth' _ 0) by now rewrite seq_length. now rewrite seq_nth. }
    now rewrite E.
  - assert (E : nth_error (seq 0 (length l)) j = None) by (apply nth_error_None; rewrite seq_length; lia).
    rewrite E. symmetry. apply nth_error_None. lia.
Qed.

Lemma true_positions_in k bs j :
  In j (true_positions k bs) <-> k <= j /\ nth_error bs (j - k) = Some true.
Proof.
  revert k. induction bs as [|b bs IH]; cbn; intros k.
  - split; [easy|]. intros [_ E]. now destruct (j - k).
  - assert (G : In j (true_positions (S k) bs) <-> k < j /\ nth_error (b :: bs) (j - k) = Some true).
    { rewrite IH. split; intros [H1 H2]; (split; [lia|]).
      - replace (j - k) with (S (j - S k)) by lia. exact H2.
      - replace (j - k) with (S (j - S k)) in H2 by lia. exact H2. }
    destruct b; cbn [In]; rewrite G.
    + split; [intros [->|[? ?]]|intros [? ?]]; [split; [lia|]| |].
      * now rewrite Nat.sub_diag.
      * split; [lia|auto].
      * destruct (Nat.eq_dec k j); [now left|right; split; [lia|auto]].
    + split; intros [? E]; split; auto; [lia|].
      destruct (Nat.eq_dec k j) as [->|]; [|lia]. rewrite Nat.sub_diag in E. discriminate.
Qed.
Lemma py_index_lt n z j : py_index n z = Some j -> j < n.
Proof.
  unfold py_index. intros E.
  repeat match type of E with context [if ?b then _ else _] => destruct b eqn:? end;
    try discriminate; injection E as <-; lia.
Qed.
Lemma resolve_list_bounded n zs ps : resolve_list n zs = Ok ps -> bounded n ps.
Proof.
  revert ps. induction zs as [|z zs IH]; cbn; intros ps E.
  - injection E as <-. intros p [].
  - destruct (py_index n z) as [j|] eqn:Ej; [|discriminate].
    destruct (resolve_list n zs) as [qs|]; cbn in E; [|discriminate]. injection E as <-.
    intros p [<-|Hp]; [eapply py_index_lt; eauto|now apply (IH qs)].
Qed.
(** slices *)
Lemma slice_count_spec a b st (i : nat) : st <> 0%Z ->
  (i < Z.to_nat (slice_count a b st))
  <-> (if (0 <? st)%Z then a + Z.of_nat i * st < b else b < a + Z.of_nat i * st)%Z.
Proof.
  intros N. unfold slice_count. destruct (Z.ltb_spec st 0), (Z.ltb_spec 0 st); try lia.
  - destruct (Z.ltb_spec b a); [|split; intros; [lia|nia]].
    pose proof (Z.div_pos (a - b - 1) (- st)).
    assert (E : (Z.of_nat i <= (a - b - 1) / (- st) <-> (- st) * Z.of_nat i <= a - b - 1)%Z).
    { split; intros Q.
      - pose proof (Z.mul_div_le (a - b - 1) (- st)). nia.
      - apply Z.div_le_lower_bound; lia. }
    lia.
  - destruct (Z.ltb_spec a b); [|split; intros; [lia|nia]].
    pose proof (Z.div_pos (b - a - 1) st).
    assert (E : (Z.of_nat i <= (b - a - 1) / st <-> st * Z.of_nat i <= b - a - 1)%Z).
    { split; intros Q.
      - pose proof (Z.mul_div_le (b - a - 1) st). nia.
      - apply Z.div_le_lower_bound; lia. }
    lia.
Qed.
Lemma slice_bounds n st : forall s,
  ((0 < st -> 0 <= slice_first (Z.of_nat n) st s /\ slice_last (Z.of_nat n) st s <= Z.of_nat n)
  /\ (st < 0 -> slice_first (Z.of_nat n) st s < Z.of_nat n /\ -1 <= slice_last (Z.of_nat n) st s))%Z.
Proof.
  intros s. unfold slice_first, slice_last, slice_clip. destruct s as [z|]; split; intros Hs;
    destruct (Z.ltb_spec st 0); try lia; try (destruct (Z.ltb_spec z 0); [destruct (Z.ltb_spec (z + Z.of_nat n) 0)|destruct (Z.leb_spec (Z.of_nat n) z)]); lia.
Qed.
Lemma slice_nth n s t st i p : st <> 0%Z ->
  (nth_error (slice_positions n s t st) i = Some p <->
   Z.of_nat p = (slice_first (Z.of_nat n) st s + Z.of_nat i * st)%Z
   /\ if (0 <? st)%Z then (Z.of_nat p < slice_last (Z.of_nat n) st t)%Z else (slice_last (Z.of_nat n) st t < Z.of_nat p)%Z).
Proof.
  intros N. unfold slice_positions. cbv zeta. set (a := slice_first _ _ _). set (b := slice_last _ _ _).
  assert (E : nth_error (map (fun i => Z.to_nat (a + Z.of_nat i * st)) (seq 0 (Z.to_nat (slice_count a b st)))) i = Some p
    <-> i < Z.to_nat (slice_count a b st) /\ p = Z.to_nat (a + Z.of_nat i * st)).
  { rewrite nth_error_map. split.
    - destruct (nth_error (seq _ _) i) as [q|] eqn:Eq; [|discriminate]. intros Q. apply nth_error_lt in Eq as Hl.
      rewrite seq_length in Hl. split; [auto|]. apply (nth_error_nth _ i 0) in Eq. rewrite seq_nth in Eq by auto. cbn in Eq, Q. subst q. congruence.
    - intros [Hi ->]. rewrite (nth_error_nth' _ 0) by now rewrite seq_length. now rewrite seq_nth by auto. }
  rewrite E, slice_count_spec by auto.
  destruct (slice_bounds n st s) as [A1 A2]. destruct (slice_bounds n st t) as [B1 B2]. fold a in A1, A2. fold b in B1, B2.
  destruct (Z.ltb_spec 0 st); nia.
Qed.
Lemma slice_bounded n s t st : st <> 0%Z -> bounded n (slice_positions n s t st).
Proof.
  intros N p Hp. apply In_nth_error in Hp. destruct Hp as [i Hi]. apply slice_nth in Hi; [|auto]. destruct Hi as [E Q].
  destruct (slice_bounds n st s) as [A1 A2]. destruct (slice_bounds n st t) as [B1 B2].
  destruct (Z.ltb_spec 0 st); nia.
Qed.
Lemma resolve_bounded x n i ps : resolve_gen x n i = Ok ps -> bounded n ps.
Proof.
  destruct i; cbn [resolve_gen]; intros E.
  - injection E as <-. intros p Hp. apply in_seq in Hp. lia.
  - injection E as <-. intros p Hp. apply in_seq in Hp. lia.
  - eapply resolve_list_bounded; eauto.
  - eapply resolve_list_bounded; eauto.
  - destruct (Nat.eqb (length bs) n) eqn:En; [|discriminate]. injection E as <-.
    apply Nat.eqb_eq in En. intros p Hp. apply true_positions_in in Hp. destruct Hp as [_ Hp].
    apply nth_error_lt in Hp. lia.
  - destruct (Z.eqb_spec step 0); [discriminate|]. injection E as <-. now apply slice_bounded.
Qed.
Lemma resolve_mask n bs : length bs = n ->
  exists ps, resolve n (IMask bs) = Ok ps /\ forall j, In j ps <-> nth_error bs j = Some true.
Proof.
  intros E. exists (true_positions 0 bs). unfold resolve. cbn. rewrite E, Nat.eqb_refl.
  split; auto. intros j. rewrite true_positions_in, Nat.sub_0_r. split; [tauto|]. intros; split; [lia|auto].
Qed.
(** a second exception does not change the positions *)
Lemma resolve_same x y n i ps : resolve_gen x n i = Ok ps -> resolve_gen y n i = Ok ps.
Proof. destruct i; cbn [resolve_gen]; auto. now destruct (Nat.eqb _ _). Qed.

Lemma delete_from_keep {A} k ps (l : list A) :
  delete_from k ps l = pick (map (fun j => j - k) (filter (fun j => negb (mem j ps)) (seq k (length l)))) l.
Proof.
  revert k. induction l as [|x l IH]; intros k; [reflexivity|]. cbn [delete_from length seq filter].
  fold (mem k ps). rewrite IH. clear IH.
  assert (S_ : forall qs, (forall q, In q qs -> S k <= q) ->
     pick (map (fun j => j - k) qs) (x :: l) = pick (map (fun j => j - S k) qs) l).
  { intros qs. induction qs as [|q qs IH]; intros Hq; [reflexivity|]. cbn [map].
    unfold pick. cbn [flat_map]. replace (q - k) with (S (q - S k)) by (specialize (Hq q (or_introl eq_refl)); lia).
    cbn [nth_error]. f_equal. apply IH. intros; apply Hq; now right. }
  rewrite <- (S_ (filter (fun j => negb (mem j ps)) (seq (S k) (length l)))).
  2:{ intros q Hq. apply filter_In in Hq. destruct Hq as [Hq _]. apply in_seq in Hq. lia. }
  destruct (mem k ps); cbn [negb map]; auto.
  unfold pick at 2. cbn [flat_map]. now rewrite Nat.sub_diag.
Qed.
Lemma delete_at_keep {A} ps (l : list A) :
  delete_at ps l = pick (filter (fun j => negb (mem j ps)) (seq 0 (length l))) l.
Proof.
  unfold delete_at. rewrite delete_from_keep. f_equal. rewrite (map_ext _ (fun j => j)) by (intros; lia).
  apply map_id.
Qed.
Lemma delete_at_length {A B} ps (l : list A) (l' : list B) : length l = length l' ->
  length (delete_at ps l) = length (delete_at ps l').
Proof.
  intros E. rewrite !delete_at_keep, E, !pick_length; auto; intros p Hp; apply filter_In in Hp;
    destruct Hp as [Hp _]; apply in_seq in Hp; lia.
Qed.

Lemma upd_nth_app {A} (pre : list A) v x t : upd_nth (length pre) v (pre ++ x :: t) = pre ++ v :: t.
Proof. induction pre; cbn; congruence. Qed.
Lemma pick_positions {A} (bs : list bool) (l : list A) : length bs = length l ->
  pick (true_positions 0 bs) l = mget bs l.
Proof.
  assert (G : forall pre, length bs = length l ->
    pick (true_positions (length pre) bs) (pre ++ l) = mget bs l).
  { revert l. induction bs as [|b bs IH]; destruct l as [|x l]; try easy. intros pre E.
    cbn in E. specialize (IH l (pre ++ [x])). rewrite app_length, <- app_assoc in IH. cbn in IH.
    rewrite Nat.add_1_r in IH. cbn [true_positions mget]. destruct b; [|apply IH; lia].
    unfold pick. cbn [flat_map]. rewrite nth_error_app2, Nat.sub_diag by lia. cbn.
    f_equal. apply IH. lia. }
  intros E. exact (G [] E).
Qed.
Lemma put_positions {A} (bs : list bool) (vs l : list A) : length bs = length l ->
  length vs = length (true_positions 0 bs) ->
  put (true_positions 0 bs) vs l = mset bs vs l.
Proof.
  assert (G : forall pre, length bs = length l -> length vs = length (true_positions (length pre) bs) ->
    put (true_positions (length pre) bs) vs (pre ++ l) = pre ++ mset bs vs l).
  { revert vs l. induction bs as [|b bs IH]; destruct l as [|x l]; try easy; intros pre E Ev.
    { cbn in E. cbn [true_positions] in *. destruct b.
      + destruct vs as [|v vs]; [discriminate|]. cbn [put mset]. rewrite upd_nth_app.
        specialize (IH vs l (pre ++ [v])). rewrite app_length, <- !app_assoc in IH. cbn in IH.
        rewrite Nat.add_1_r in IH. apply IH; [lia|]. cbn in Ev. lia.
      + cbn [mset]. specialize (IH vs l (pre ++ [x])). rewrite app_length, <- !app_assoc in IH. cbn in IH.
        rewrite Nat.add_1_r in IH. apply IH; [lia|auto]. } }
  intros E Ev. exact (G [] E Ev).
Qed.
Lemma mget_mset {A} (bs : list bool) (vs l : list A) : length (mget bs l) = length vs ->
  mget bs (mset bs vs l) = vs.
Proof.
  revert vs l. induction bs as [|b bs IH]; destruct l as [|x l]; cbn; intros E.
  1,2,3: now destruct vs.
  destruct b; cbn in E.
  - destruct vs as [|v vs]; [discriminate|]. cbn. f_equal. apply IH. cbn in E. lia.
  - cbn. now apply IH.
Qed.

(** ** shapes *)
Lemma strip_ones_size s : size (strip_ones s) = size s.
Proof.
  induction s as [|[|[|k]] s IH]; auto. cbn [strip_ones]. rewrite IH. unfold size. cbn. lia.
Qed.
Section B.
Context {F : Type} `{NP F}.
Lemma bcast1_length n (v : arg F) l : wf_arg v -> bcast1 n v = Ok l -> length l = n.
Proof.
  destruct v as [x|s m d]; cbn; intros W E.
  - injection E as <-. apply repeat_length.
  - rewrite <- strip_ones_size in W. destruct (strip_ones s) as [|k [|]]; cbn in W.
    + injection E as <-. apply repeat_length.
    + destruct (Nat.eqb k n) eqn:Ek; [|discriminate]. injection E as <-.
      apply Nat.eqb_eq in Ek. lia.
    + discriminate.
Qed.
Lemma bcast2_length r n (v : arg F) l : wf_arg v -> bcast2 r n v = Ok l -> length l = n.
Proof.
  destruct v as [x|s m d]; cbn [bcast2 wf_arg]; intros W E.
  - injection E as <-. apply repeat_length.
  - rewrite <- strip_ones_size in W. destruct (strip_ones s) as [|k [|k2 [|]]]; cbn in W.
    + injection E as <-. apply repeat_length.
    + destruct (Nat.eqb k n) eqn:Ek; [|discriminate]. injection E as <-.
      apply Nat.eqb_eq in Ek. rewrite map_length. lia.
    + destruct (negb (Nat.eqb k r)); [discriminate|].
      destruct (Nat.eqb k2 n); [injection E as <-; now rewrite map_length, seq_length|].
      destruct (Nat.eqb k2 1); [injection E as <-; apply repeat_length|discriminate].
    + discriminate.
Qed.
Lemma bcast1_fresh n (d : list F) : length d = n -> bcast1 n (fresh [n] d) = Ok d.
Proof.
  intros E. cbn. destruct n as [|[|n]]; cbn.
  - reflexivity.
  - destruct d as [|x [|]]; try discriminate. reflexivity.
  - now rewrite Nat.eqb_refl.
Qed.
End B.
