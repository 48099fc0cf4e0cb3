(** * C49, C50: copies, indexing and iteration *)
From Coq Require Import String List Bool Arith Lia ZArith QArith.
From Verif Require Import NP KeplerModel ConvModel UnitModel OrbitModel Lists ConvCols ArraySpec
  PropsAnomaly OrbitLists OrbitBase OrbitOps OrbitSetters OrbitInv OrbitSpec NPToyN PropsOrbitWidth OrbitGet
  PropsOrbitDirect PropsOrbitLazy PropsOrbitWrite PropsOrbitUpdate.
Import ListNotations.
Local Open Scope nat_scope.

Section Item.
Context {F : Type} `{NP F}.
Notation orb := (orb F).

(** ** C49 *)
(** entry [a] of [l'] is entry [p] of [l] whenever [p] is the [a]-th selected orbit *)
Definition taken {A} (n : nat) (idx : Idx) (l l' : list A) : Prop :=
  forall a p x, nth_selected n idx a p -> nth_error l p = Some x -> nth_error l' a = Some x.
Lemma pick_taken {A} n idx ps (l : list A) : length l = n -> resolve n idx = Ok ps -> taken n idx l (pick ps l).
Proof.
  intros L R a p x Hp Hx. apply (resolve_nth _ _ _ _ _ _ R) in Hp.
  rewrite pick_nth by (rewrite L; eapply resolve_bounded; eauto). now rewrite Hp.
Qed.
(** what the new object holds: settings, masses and both element sets; never the update flags *)
Theorem C49_stored n idx (s s' : orb) : lens n s -> getitem idx s = Ok s' ->
  settings s' = settings s /\ taken n idx (om s) (om s') /\ taken n idx (ocart s) (ocart s') /\ taken n idx (okep s) (okep s')
  /\ exists k, aligned k s' /\ (forall a, a < k <-> exists p, nth_selected n idx a p)
  /\ ocf s' = repeat false k /\ okf s' = repeat false k.
Proof.
  intros Hs E. unfold getitem in E. rewrite (l_m n s Hs), (l_k n s Hs) in E.
  destruct (resolve n idx) as [ps|] eqn:R; [|discriminate]. cbn [rbind] in E. injection E as <-.
  pose proof Hs as [L1 L2 L3 L4 L5 L6 L7]. cbn [om ocart okep ocf okf].
  split; [reflexivity|]. split; [now apply pick_taken|]. split; [now apply pick_taken|]. split; [now apply pick_taken|].
  assert (B : bounded n ps) by (eapply resolve_bounded; eauto).
  assert (P : forall A (l : list A), length l = n -> length (pick ps l) = length ps) by (intros A l L; apply pick_length; now rewrite L).
  exists (length ps). split.
  - rewrite (P _ (om s) L1). split; [constructor; cbn; rewrite ?repeat_length; auto|].
    exists (repeat nan (length ps)). split; [reflexivity|apply repeat_length].
  - split; [|rewrite (P _ (om s) L1); auto]. intros a. split.
    + intros Ha. destruct (nth_error_some ps a Ha) as [p Hp]. exists p. now apply (resolve_nth _ _ _ _ _ _ R).
    + intros [p Hp]. apply (resolve_nth _ _ _ _ _ _ R) in Hp. eapply nth_error_lt; eauto.
Qed.
Theorem C49_raises n idx (s : orb) : lens n s -> (valid_index n idx <-> exists s', getitem idx s = Ok s').
Proof.
  intros Hs. rewrite (resolve_valid IndexError). unfold getitem. rewrite (l_m n s Hs), (l_k n s Hs).
  change (resolve_gen IndexError n idx) with (resolve n idx). destruct (resolve n idx); cbn; split; intros [x Q]; try discriminate; eauto.
Qed.
(** a getter that returns one entry per orbit gives on the new object what it gives on the original *)
Definition faithful {A} (n : nat) (idx : Idx) (get : OrbitModel.M (list A)) (s s' : orb) : Prop :=
  exists sa l sa' l', get s = (sa, Ok l) /\ get s' = (sa', Ok l') /\ taken n idx l l'.
Lemma taken_map {A B} (f : A -> B) n idx l l' : taken n idx l l' -> taken n idx (map f l) (map f l').
Proof.
  intros T a p x Hp. rewrite !nth_error_map. destruct (nth_error l p) as [y|] eqn:E; [|discriminate].
  intros Q. rewrite (T a p y Hp E). exact Q.
Qed.
Lemma taken_map2 {A B C} (f : A -> B -> C) n idx l l' m m' : taken n idx l l' -> taken n idx m m' -> taken n idx (map2 f l m) (map2 f l' m').
Proof.
  intros T U a p x Hp. rewrite !nth_error_map2. destruct (nth_error l p) as [y|] eqn:E; [|discriminate].
  destruct (nth_error m p) as [z|] eqn:E'; [|discriminate]. intros Q. rewrite (T a p y Hp E), (U a p z Hp E'). exact Q.
Qed.
Lemma anom1_det w (s s' : orb) g g' k : settings s' = settings s -> ordered1 (s1 k) -> anom1 w s' g' k = anom1 w s g k.
Proof.
  intros S O. apply settings_eq in S. destruct S as [_ [_ [_ [_ [_ [_ [Ed [Et Eo]]]]]]]].
  unfold anom1, nu1, ec1, ma1. rewrite Ed, Et, Eo.
  destruct w, (otype s); try reflexivity; unfold e2t1, m2t1, e2t1, t2e1, t2m1, e2m1, t2e1;
    rewrite ?(branch_ordered (fst g') (fst g)), ?(branch_ordered (snd g') (snd g)) by auto; try reflexivity.
Qed.
(** in direct and in manual mode *)
Theorem C49_getters_partial gb n idx (s s' : orb) : aligned n s -> lazy s = false -> getitem idx s = Ok s' ->
  faithful n idx (get_cartesian gb) s s' /\ faithful n idx (get_kepler gb) s s' /\ faithful n idx (get_period gb) s s'
  /\ ((forall k, In k (okep s) -> ordered1 (s1 k)) -> forall w, faithful n idx (get_of gb w) s s').
Proof.
  intros A L E. pose proof A as [Hs _].
  destruct (C49_stored n idx s s' Hs E) as [S [Tm [Tc [Tk [k [A' _]]]]]]. pose proof A' as [Hs' _].
  assert (L' : lazy s' = false).
  { apply settings_eq in S. unfold lazy in *. destruct S as [_ [_ [-> [-> _]]]]. exact L. }
  split; [|split; [|split]].
  - exists s, (ocart s), s', (ocart s'). rewrite (get_cartesian_eq gb n), (get_cartesian_eq gb k) by auto.
    now rewrite !cchk_id by auto.
  - exists s, (okep s), s', (okep s'). rewrite (get_kepler_eq gb n), (get_kepler_eq gb k) by auto.
    now rewrite !kchk_id by auto.
  - assert (G : forall q (t : orb), lens q t -> lazy t = false ->
      get_period gb t = (t, Ok (map2 orbital_period (map (row_get 0) (okep t)) (map (mu_of t) (om t))))).
    { intros q t Ht Lt. unfold get_period. destruct (kchk_spec gb q t Ht) as [K _]. rewrite kchk_id in K by auto.
      rewrite (bind_ok _ _ _ _ _ K). unfold get_kep_row. rewrite bind_assoc, (bind_ok _ _ _ _ _ K). reflexivity. }
    eexists _, _, _, _. split; [apply (G n); auto|]. split; [apply (G k); auto|].
    apply taken_map2; [now apply taken_map|].
    assert (Em : map (mu_of s') (om s') = map (mu_of s) (om s')) by (apply map_ext; intros; now apply mu_of_settings).
    rewrite Em. now apply taken_map.
  - intros Ho w. destruct (get_of_spec gb n w s A) as [sa [l [E1 [_ [_ [V1 V2]]]]]].
    destruct (get_of_spec gb k w s' A') as [sa' [l' [E1' [_ [_ [V1' V2']]]]]].
    rewrite kchk_id in V1, V2, V1', V2' by auto.
    exists sa, l, sa', l'. split; [auto|]. split; [auto|]. intros a p x Hp Hx.
    assert (Hl : p < length (okep s)) by (apply nth_error_lt in Hx; lia).
    destruct (nth_error_some (okep s) p Hl) as [kk Hk]. destruct (V2 p kk Hk) as [g Hg].
    destruct (V2' a kk (Tk a p kk Hp Hk)) as [g' Hg']. rewrite Hg', <- Hx, Hg. f_equal.
    apply anom1_det; auto. apply Ho. eapply nth_error_In; eauto.
Qed.
(** copy() is [orb\[:\]] *)
Theorem C49_copy n (s : orb) : lens n s -> exists s', copy s = Ok s' /\ settings s' = settings s
  /\ om s' = om s /\ ocart s' = ocart s /\ okep s' = okep s.
Proof.
  intros Hs. unfold copy, getitem. change (resolve (length (om s)) IAll) with (Ok (seq 0 (length (om s)))).
  change (resolve (length (okep s)) IAll) with (Ok (seq 0 (length (okep s)))). cbn [rbind].
  eexists. split; [reflexivity|]. cbn [om ocart okep]. split; [reflexivity|]. destruct Hs as [L1 L2 L3 _ _ _ _].
  split; [apply pick_all|]. split; [|apply pick_all]. rewrite L3, <- L2. apply pick_all.
Qed.

(** ** C50 *)
(** [for o in orb: body], cut off after [fuel] rounds: the orbits bound to [o], whether the loop ended by
    itself, and the final state *)
Fixpoint rounds (fuel : nat) (body : orb -> orb -> orb) (s : orb) : list orb * bool * orb :=
  match fuel with
  | 0 => ([], false, s)
  | S f => match next s with
           | (sa, Ok o) => let '(l, b, sb) := rounds f body (body o sa) in (o :: l, b, sb)
           | (sa, Raise StopIteration) => ([], true, sa)
           | (sa, Raise _) => ([], false, sa)
           end
  end.
Definition for_loop (fuel : nat) (body : orb -> orb -> orb) (s : orb) := rounds fuel body (fst (iter s)).
(** the state before round [j] *)
Fixpoint before (body : orb -> orb -> orb) (j : nat) (s : orb) : orb :=
  match j with 0 => s | S i => match next s with (sa, Ok o) => before body i (body o sa) | _ => s end end.
(** the body may do anything that keeps the number of orbits and does not iterate over the object *)
Definition keeps (n : nat) (body : orb -> orb -> orb) : Prop :=
  forall o s, lens n s -> lens n (body o s) /\ oit (body o s) = oit s.
Lemma next_ok n j (s : orb) : lens n s -> oit s = Some j -> j < n ->
  exists o, next s = (with_it (Some (S j)) s, Ok o) /\ getitem (IInt (Z.of_nat j)) s = Ok o.
Proof.
  intros Hs I Hj. unfold next. rewrite bind_get, I. unfold num. rewrite (l_k n s Hs).
  destruct (Nat.ltb_spec j n); [|lia]. rewrite bind_modify, bind_get.
  assert (V : valid_index n (IInt (Z.of_nat j))) by (exists j; split; [auto|now left]).
  apply (C49_raises n _ s Hs) in V. destruct V as [o V]. exists o. split; [|auto].
  change (getitem (IInt (Z.of_nat j)) (with_it (Some (S j)) s)) with (getitem (IInt (Z.of_nat j)) s). now rewrite V.
Qed.
Lemma next_stop n (s : orb) j : lens n s -> oit s = Some j -> n <= j -> next s = (s, Raise StopIteration).
Proof.
  intros Hs I Hj. unfold next. rewrite bind_get, I. unfold num. rewrite (l_k n s Hs). destruct (Nat.ltb_spec j n); [lia|reflexivity].
Qed.
Lemma lens_with_it n x (s : orb) : lens n s -> lens n (with_it x s). Proof. intros []. now constructor. Qed.
Lemma rounds_spec n body : keeps n body -> forall d j (s : orb), lens n s -> oit s = Some j -> n = j + d -> forall fuel, d < fuel ->
  exists l sb, rounds fuel body s = (l, true, sb) /\ length l = d /\ lens n sb /\ oit sb = Some n
  /\ forall i o, nth_error l i = Some o -> getitem (IInt (Z.of_nat (j + i))) (before body i s) = Ok o.
Proof.
  intros K. induction d as [|d IH]; intros j s Hs I En fuel Hf; (destruct fuel as [|fuel]; [lia|]); cbn [rounds].
  - rewrite (next_stop n s j) by (auto; lia). exists [], s. split; [auto|]. split; [auto|]. split; [auto|].
    split; [rewrite I; f_equal; lia|]. intros i o Q. destruct i; discriminate.
  - destruct (next_ok n j s Hs I ltac:(lia)) as [o [N G]]. rewrite N.
    destruct (K o (with_it (Some (S j)) s) (lens_with_it n _ s Hs)) as [K1 K2].
    destruct (IH (S j) (body o (with_it (Some (S j)) s)) K1 K2 ltac:(lia) fuel ltac:(lia)) as [l [sb [R [L [Lb [Ib It]]]]]].
    rewrite R. exists (o :: l), sb. split; [auto|]. split; [cbn; lia|]. split; [auto|]. split; [auto|].
    intros i o' Q. destruct i as [|i]; cbn in Q.
    + injection Q as <-. rewrite Nat.add_0_r. exact G.
    + cbn [before]. rewrite N. replace (j + S i) with (S j + i) by lia. now apply It.
Qed.
(** the loop ends by itself after [n] rounds; in round [j] the object's orbit [j] is bound *)
Theorem C50_loop_partial n body (s : orb) fuel : lens n s -> keeps n body -> n < fuel ->
  exists l sb, for_loop fuel body s = (l, true, sb) /\ length l = n
  /\ forall j o, nth_error l j = Some o -> getitem (IInt (Z.of_nat j)) (before body j (fst (iter s))) = Ok o.
Proof.
  intros Hs K Hf. destruct (rounds_spec n body K n 0 (fst (iter s)) (lens_with_it n _ s Hs) eq_refl eq_refl fuel Hf)
    as [l [sb [R [L [_ [_ It]]]]]]. exists l, sb. auto.
Qed.
Lemma before_quiet n (body : orb -> orb -> orb) : (forall o s, body o s = s) -> forall i j (s : orb), lens n s -> oit s = Some j -> j + i <= n ->
  exists x, before body i s = with_it x s.
Proof.
  intros Q. induction i as [|i IH]; intros j s Hs I Hi; cbn [before].
  - exists (oit s). now destruct s.
  - destruct (next_ok n j s Hs I ltac:(lia)) as [o [-> _]]. rewrite Q.
    destruct (IH (S j) (with_it (Some (S j)) s) (lens_with_it n _ s Hs) eq_refl ltac:(lia)) as [x ->]. exists x. reflexivity.
Qed.
(** a loop that only looks at the orbits: the [j]-th is [orb\[j\]] *)
Theorem C50_reading n (s : orb) fuel : lens n s -> n < fuel ->
  exists l sb, for_loop fuel (fun _ s => s) s = (l, true, sb) /\ length l = n
  /\ forall j o, nth_error l j = Some o -> getitem (IInt (Z.of_nat j)) s = Ok o.
Proof.
  intros Hs Hf. destruct (C50_loop_partial n (fun _ s => s) s fuel Hs) as [l [sb [R [L It]]]]; [now split|auto|].
  exists l, sb. split; [auto|]. split; [auto|]. intros j o Hj. pose proof (It j o Hj) as G.
  apply nth_error_lt in Hj.
  destruct (before_quiet n (fun _ s => s) ltac:(auto) j 0 (fst (iter s)) (lens_with_it n _ s Hs) eq_refl ltac:(lia)) as [x Ex].
  rewrite Ex in G. exact G.
Qed.
(** nested loops over one object share the position: the outer loop ends after one round *)
Theorem C50_nested_refuted n (s : orb) fuel : lens n s -> 2 <= n -> n < fuel ->
  let inner := fun (_ s : orb) => snd (for_loop fuel (fun _ s => s) s) in
  exists l sb, for_loop fuel inner s = (l, true, sb) /\ length l = 1 /\ length l <> n.
Proof.
  intros Hs Hn Hf inner. unfold for_loop. destruct fuel as [|fuel]; [lia|]. cbn [rounds].
  destruct (next_ok n 0 (fst (iter s)) (lens_with_it n _ s Hs) eq_refl ltac:(lia)) as [o [-> _]].
  set (sx := with_it (Some 1) (fst (iter s))). assert (Hx : lens n sx) by (now apply lens_with_it, lens_with_it).
  assert (K : keeps n (fun _ s => s)) by now split.
  destruct (rounds_spec n (fun _ s => s) K n 0 (fst (iter sx)) (lens_with_it n _ sx Hx) eq_refl eq_refl (S fuel) Hf)
    as [l [sb [R [_ [Lb [Ib _]]]]]].
  assert (Ei : inner o sx = sb) by (unfold inner, for_loop; rewrite R; reflexivity). rewrite Ei.
  destruct fuel as [|fuel]; [lia|]. cbn [rounds]. rewrite (next_stop n sb n) by auto.
  eexists _, _. split; [reflexivity|]. cbn. lia.
Qed.
End Item.

(** ** C49, lazy mode *)
Section LazyItem.
Context {F : Type} `{NP F}.
Notation orb := (orb F).
(** An orbit given by Kepler elements whose Cartesian elements have not been calculated yet is copied
    faithfully; see C49_lazy_refuted for the other case. *)
Theorem C49_lazy_partial gb n idx (s s' : orb) a p c k m : nan_arith (F := F) -> lens n s -> lazy_mode s ->
  getitem idx s = Ok s' -> nth_selected n idx a p ->
  nth_error (ocart s) p = Some c -> nth_error (okep s) p = Some k -> nth_error (om s) p = Some m ->
  has_nan c -> ~ has_nan k -> nth_error (ocf s) p = Some false ->
  (exists ks ks', snd (get_kepler gb s) = Ok ks /\ snd (get_kepler gb s') = Ok ks' /\ nth_error ks p = Some k /\ nth_error ks' a = Some k)
  /\ exists cs cs' x, snd (get_cartesian gb s) = Ok cs /\ snd (get_cartesian gb s') = Ok cs' /\ nth_error cs p = Some x /\ nth_error cs' a = Some x.
Proof.
  intros Na Hs LM E Hp Hc Hk Hm Nc Nk Hf. apply lazy_mode_iff in LM.
  destruct (C49_stored n idx s s' Hs E) as [S [Tm [Tc [Tk [q [[Hs' _] [_ [Fc Fk]]]]]]]].
  pose proof (Tm a p m Hp Hm) as Hm'. pose proof (Tc a p c Hp Hc) as Hc'. pose proof (Tk a p k Hp Hk) as Hk'.
  apply has_nan_iff in Nc. assert (N6 : nan6 k = false) by (destruct (nan6 k) eqn:Q; [exfalso; now apply Nk, has_nan_iff|auto]).
  assert (L' : lazy s' = true).
  { apply settings_eq in S. unfold lazy in *. destruct S as [_ [_ [-> [-> _]]]]. exact LM. }
  assert (Hpn : p < n) by now destruct Hp. assert (Haq : a < q) by (apply nth_error_lt in Hc'; destruct Hs'; lia).
  destruct (col_ex n s p Hs Hpn) as [c1 [k1 [m1 [cb [kb C]]]]].
  assert (c1 = c /\ k1 = k /\ m1 = m /\ cb = false) as [-> [-> [-> ->]]] by (destruct C; repeat split; congruence).
  destruct (col_ex q s' a Hs' Haq) as [c1 [k1 [m1 [cb [kb' C']]]]].
  assert (c1 = c /\ k1 = k /\ m1 = m /\ cb = false) as [-> [-> [-> ->]]].
  { destruct C' as [C1 C2 C3 C4 _]. repeat split; try congruence. rewrite Fc in C4. apply nth_error_In, repeat_spec in C4. auto. }
  split.
  - assert (G : forall r (t : orb) j kb, lens r t -> col t j c k m false kb -> nth_error (okep (kchk gb t)) j = Some k).
    { intros r t j b Ht Ct. destruct (kchk_spec gb r t Ht) as [_ [_ [_ [_ [_ [_ [_ [_ K]]]]]]]].
      destruct (K _ _ _ _ _ _ Ct) as [c2 [k2 [cb2 [kb2 [C2 [_ [_ [R _]]]]]]]].
      destruct R as [-> _]; [rewrite Nc; apply andb_false_r|]. now destruct C2. }
    exists (okep (kchk gb s)), (okep (kchk gb s')). rewrite (get_kepler_eq gb n), (get_kepler_eq gb q) by auto. cbn [snd].
    split; [auto|]. split; [auto|]. split; [now apply (G n s p kb)|now apply (G q s' a kb')].
  - assert (G : forall r (t : orb) j kb, lens r t -> lazy t = true -> col t j c k m false kb ->
      exists x, nth_error (ocart (cchk gb t)) j = Some x /\ Cc t k m x).
    { intros r t j b Ht Lt Ct. destruct (cchk_spec gb r t Ht) as [_ [_ [_ [_ [_ [_ [_ K]]]]]]].
      destruct (K _ _ _ _ _ _ Ct) as [c2 [k2 [cb2 [kb2 [C2 [_ R]]]]]].
      exists c2. split; [now destruct C2|]. destruct R as [[[Q|Q] _]|[_ [_ [_ R]]]].
      - rewrite Lt in Q. discriminate.
      - congruence.
      - apply R. rewrite Nc. apply andb_false_r. }
    destruct (G n s p kb Hs LM C) as [x [Hx Rx]]. destruct (G q s' a kb' Hs' L' C') as [x' [Hx' Rx']].
    apply (Cc_settings s' s) in Rx'; auto.
    assert (x' = x) as -> by (apply (Cc_det s x m k x'); auto).
    exists (ocart (cchk gb s)), (ocart (cchk gb s')), x. rewrite (get_cartesian_eq gb n), (get_cartesian_eq gb q) by auto. auto.
Qed.
End LazyItem.

Section Examples.
#[local] Existing Instance NP_toyn.
Example C49_lazy_example : exists s', lens 3 s3l /\ lazy_mode s3l /\ getitem (IInt (-1)) s3l = Ok s'
  /\ nth_selected 3 (IInt (-1)) 0 2 /\ nth_error (ocart s3l) 2 = Some nan6c /\ has_nan (nan6c (F := Z))
  /\ nth_error (okep s3l) 2 = Some (mk6 7 0 2 3 4 7)%Z /\ ~ has_nan (mk6 7 0 2 3 4 7)%Z /\ nth_error (ocf s3l) 2 = Some false.
Proof.
  eexists. split; [apply s3l_aligned|]. split; [now split|]. split; [vm_compute; reflexivity|].
  split; [split; [lia|]; split; [auto|]; right; reflexivity|]. split; [reflexivity|].
  split; [left; reflexivity|]. split; [reflexivity|]. split; [|reflexivity].
  intros Q. apply has_nan_iff in Q. vm_compute in Q. discriminate.
Qed.
(** direct mode, three orbits *)
Example C49_getters_example : exists s s', init gd 1000%Z (cfgd "true" 3) (kwd mat3) = Ok s /\ aligned 3 s /\ lazy s = false
  /\ getitem (IList [2; 0]%Z) s = Ok s' /\ okep s' = [mk6 7 0 2 3 4 7; mk6 9 0 2 3 4 5]%Z
  /\ (forall k, In k (okep s) -> ordered1 (s1 k)).
Proof.
  eexists _, _. split; [vm_compute; reflexivity|].
  split; [split; [apply toy_lens; vm_compute; reflexivity|exists [-99; -99; -99]%Z; split; [vm_compute; reflexivity|reflexivity]]|].
  split; [reflexivity|]. split; [vm_compute; reflexivity|]. split; [vm_compute; reflexivity|].
  intros k Q. apply nan_arith_toyn. cbn in Q. destruct Q as [<-|[<-|[<-|[]]]]; reflexivity.
Qed.
(** [orb\[::-1\]] *)
Example C49_slice_example : exists s', getitem (ISlice None None (-1)) s3l = Ok s'
  /\ okep s' = [mk6 7 0 2 3 4 7; mk6 8 0 2 3 4 6; mk6 9 0 2 3 4 5]%Z.
Proof. eexists. split; vm_compute; reflexivity. Qed.
Example C50_example : lens 3 s3l /\ keeps 3 (fun _ (s : OrbitModel.orb Z) => fst (get_cartesian gd s))
  /\ length (fst (fst (for_loop 9 (fun _ s => fst (get_cartesian gd s)) s3l))) = 3
  /\ length (fst (fst (for_loop 9 (fun _ s => snd (for_loop 9 (fun _ s => s) s)) s3l))) = 1.
Proof.
  split; [apply s3l_aligned|]. split; [|split; vm_compute; reflexivity].
  intros o s Hs. rewrite (get_cartesian_eq gd 3) by auto. cbn [fst]. split; [now apply lens_cchk|].
  destruct (cchk_spec gd 3 s Hs) as [_ [_ [_ [_ [_ [_ [Q _]]]]]]]. exact Q.
Qed.
End Examples.
