(** * C51-C54: delete, add, allocate and update *)
From Coq Require Import String List Bool Arith Lia ZArith QArith.
From Verif Require Import NP KeplerModel ConvModel UnitModel OrbitModel Lists ConvCols ArraySpec
  PropsAnomaly OrbitLists OrbitBase OrbitOps OrbitSetters OrbitInv OrbitSpec NPToyN PropsOrbitWidth OrbitGet
  PropsOrbitDirect PropsOrbitLazy PropsOrbitWrite PropsOrbitLost PropsOrbitModes.
Import ListNotations.
Local Open Scope nat_scope.

(** ** Which orbits an index selects (numpy) *)
Definition is_index (n : nat) (z : Z) (j : nat) : Prop :=
  z = Z.of_nat j \/ z = (Z.of_nat j - Z.of_nat n)%Z.
(** [start:stop:step], Python reference (sequence types, notes 3-5): negative bounds are relative to
    the end, bounds outside are replaced by the nearest end; the items are start, start + step, ...
    before stop *)
Definition slice_bound (n st z : Z) : Z :=
  let z := if (z <? 0)%Z then (z + n)%Z else z in
  if (0 <? st)%Z then Z.max 0 (Z.min n z) else Z.max (-1) (Z.min (n - 1) z).
Definition slice_at (n : nat) (a b : option Z) (st : Z) (i p : nat) : Prop :=
  let N := Z.of_nat n in
  let start := match a with Some z => slice_bound N st z | None => if (0 <? st)%Z then 0%Z else (N - 1)%Z end in
  let stop := match b with Some z => slice_bound N st z | None => if (0 <? st)%Z then N else (-1)%Z end in
  st <> 0%Z /\ Z.of_nat p = (start + Z.of_nat i * st)%Z
  /\ if (0 <? st)%Z then (Z.of_nat p < stop)%Z else (stop < Z.of_nat p)%Z.
Definition selected (n : nat) (i : Idx) (j : nat) : Prop :=
  j < n /\ match i with
           | IAll => True
           | IRange lo hi => lo <= j < hi
           | IInt z => is_index n z j
           | IList zs => exists z, In z zs /\ is_index n z j
           | IMask bs => nth_error bs j = Some true
           | ISlice a b st => exists i, slice_at n a b st i j
           end.
Definition valid_index (n : nat) (i : Idx) : Prop :=
  match i with
  | IAll | IRange _ _ => True
  | IInt z => exists j, j < n /\ is_index n z j
  | IList zs => forall z, In z zs -> exists j, j < n /\ is_index n z j
  | IMask bs => length bs = n
  | ISlice _ _ st => st <> 0%Z
  end.
Lemma slice_clip_bound n st z : (0 <= n)%Z -> st <> 0%Z -> slice_clip n st z = slice_bound n st z.
Proof.
  intros Hn Hs. unfold slice_clip, slice_bound. cbv zeta.
  destruct (Z.ltb_spec z 0), (Z.ltb_spec st 0), (Z.ltb_spec 0 st); try lia;
    try destruct (Z.ltb_spec (z + n) 0); try destruct (Z.leb_spec n z); lia.
Qed.
Lemma slice_at_spec n a b st i p : st <> 0%Z -> (nth_error (slice_positions n a b st) i = Some p <-> slice_at n a b st i p).
Proof.
  intros N. rewrite slice_nth by auto. unfold slice_at, slice_first, slice_last. cbv zeta.
  assert (E : forall u v : Z, (if (0 <? st)%Z then u else v) = if (st <? 0)%Z then v else u).
  { intros. destruct (Z.ltb_spec 0 st), (Z.ltb_spec st 0); auto; lia. }
  rewrite <- !E. destruct a, b; rewrite ?slice_clip_bound by lia; tauto.
Qed.
Lemma py_index_spec n z j : py_index n z = Some j <-> j < n /\ is_index n z j.
Proof.
  unfold py_index, is_index. cbv zeta. destruct (Z.ltb_spec z 0) as [Hz|Hz].
  - destruct ((0 <=? z + Z.of_nat n)%Z && (z + Z.of_nat n <? Z.of_nat n)%Z) eqn:B;
      [rewrite andb_true_iff, Z.leb_le, Z.ltb_lt in B|rewrite andb_false_iff, Z.leb_gt, Z.ltb_ge in B];
      (split; [intros E; try discriminate; injection E as <-; lia|intros [? [?|?]]; try (exfalso; lia); f_equal; lia]).
  - destruct ((0 <=? z)%Z && (z <? Z.of_nat n)%Z) eqn:B;
      [rewrite andb_true_iff, Z.leb_le, Z.ltb_lt in B|rewrite andb_false_iff, Z.leb_gt, Z.ltb_ge in B];
      (split; [intros E; try discriminate; injection E as <-; lia|intros [? [?|?]]; try (exfalso; lia); f_equal; lia]).
Qed.
Lemma resolve_list_in n zs ps : resolve_list n zs = Ok ps -> forall j, In j ps <-> j < n /\ exists z, In z zs /\ is_index n z j.
Proof.
  revert ps. induction zs as [|z zs IH]; cbn; intros ps E j.
  - injection E as <-. split; [intros []|intros [_ [z [[] _]]]].
  - destruct (py_index n z) as [q|] eqn:Eq; [|discriminate].
    destruct (resolve_list n zs) as [qs|]; cbn in E; [|discriminate]. injection E as <-. cbn [In].
    rewrite (IH qs eq_refl). pose proof (proj1 (py_index_spec n z q) Eq) as [Hq Iq]. split.
    + intros [<-|[Hj [w [Hw Iw]]]]; [split; [auto|]; exists z; auto|]. split; [auto|]. exists w. auto.
    + intros [Hj [w [[<-|Hw] Iw]]]; [left|right; eauto].
      assert (py_index n z = Some j) by (apply py_index_spec; auto). congruence.
Qed.
Lemma resolve_in x n i ps : resolve_gen x n i = Ok ps -> forall j, In j ps <-> selected n i j.
Proof.
  unfold selected. destruct i; cbn [resolve_gen]; intros E j.
  - injection E as <-. rewrite in_seq. lia.
  - injection E as <-. rewrite in_seq. lia.
  - rewrite (resolve_list_in n [z] ps E). split; intros [Hj W]; (split; [auto|]).
    + destruct W as [w [[<-|[]] W]]. exact W.
    + exists z. split; [now left|exact W].
  - apply (resolve_list_in n zs ps E).
  - destruct (Nat.eqb_spec (length bs) n) as [En|]; [|discriminate]. injection E as <-. rewrite true_positions_in, Nat.sub_0_r.
    split; [intros [_ Hb]|intros [_ Hb]]; split; auto; try lia. apply nth_error_lt in Hb. lia.
  - destruct (Z.eqb_spec step 0) as [|N]; [discriminate|]. injection E as <-. split.
    + intros Q. split; [now apply (slice_bounded n start stop step)|]. apply In_nth_error in Q. destruct Q as [i Q].
      exists i. now apply slice_at_spec.
    + intros [_ [i Q]]. apply slice_at_spec in Q; [|auto]. now apply nth_error_In in Q.
Qed.
Lemma resolve_list_valid n zs : (forall z, In z zs -> exists j, j < n /\ is_index n z j) <-> exists ps, resolve_list n zs = Ok ps.
Proof.
  induction zs as [|z zs IH]; cbn [resolve_list].
  - split; [eauto|]. intros _ z [].
  - split.
    + intros Hv. destruct (Hv z (or_introl eq_refl)) as [j Hj]. apply py_index_spec in Hj. rewrite Hj.
      destruct IH as [IH _]. destruct IH as [ps ->]; [intros; apply Hv; now right|]. eexists. reflexivity.
    + intros [ps E]. destruct (py_index n z) as [j|] eqn:Ej; [|discriminate].
      destruct (resolve_list n zs) as [qs|]; cbn in E; [|discriminate]. apply py_index_spec in Ej.
      intros w [<-|Hw]; [eauto|]. apply IH; eauto.
Qed.
Lemma resolve_valid x n i : valid_index n i <-> exists ps, resolve_gen x n i = Ok ps.
Proof.
  destruct i; cbn [valid_index resolve_gen].
  - split; eauto.
  - split; eauto.
  - rewrite <- resolve_list_valid. split; [intros V w [<-|[]]; exact V|intros V; apply V; now left].
  - apply resolve_list_valid.
  - destruct (Nat.eqb_spec (length bs) n); split; eauto; [intros; contradiction|intros [? E]; discriminate].
  - destruct (Z.eqb_spec step 0); split; eauto; [intros; contradiction|intros [? E]; discriminate].
Qed.

Section Containers.
Context {F : Type} `{NP F}.
Notation orb := (orb F).

(** orbit [j] of [s] and orbit [i] of [s'] hold the same mass, elements and update flags *)
Definition same_orbit (s : orb) (j : nat) (s' : orb) (i : nat) : Prop :=
  exists c k m cb kb, col s j c k m cb kb /\ col s' i c k m cb kb.

(** ** C51 *)
(** [q]: the orbits of [s], in order, that are left over *)
Theorem C51_delete n i (s : orb) : aligned n s -> valid_index n i ->
  exists s' q, delete i s = (s', Ok tt) /\ aligned (length q) s' /\ settings s' = settings s
  /\ (forall j, In j q <-> j < n /\ ~ selected n i j)
  /\ (forall a b x y, nth_error q a = Some x -> nth_error q b = Some y -> a < b -> x < y)
  /\ (forall a x, nth_error q a = Some x -> same_orbit s x s' a).
Proof.
  intros A V. apply (resolve_valid ValueError) in V. destruct V as [ps Hp].
  rewrite (delete_eq n i s A). unfold resolve_del. rewrite Hp.
  set (q := filter (fun j => negb (mem j ps)) (seq 0 n)). exists (del_state ps s), q. split; [auto|].
  assert (Hb : bounded n q). { intros p Hq. apply filter_In in Hq. destruct Hq as [Hq _]. apply in_seq in Hq. lia. }
  assert (Lq : length (delete_at ps (om s)) = length q).
  { rewrite delete_at_keep. destruct A as [[L1 _ _ _ _ _ _] _]. rewrite L1. fold q. apply pick_length. now rewrite L1. }
  split; [rewrite <- Lq; now apply (del_aligned n)|]. split; [reflexivity|]. split.
  - intros j. unfold q. rewrite filter_In, in_seq, negb_true_iff, mem_false, (resolve_in _ _ _ _ Hp). lia || intuition lia.
  - split.
    + assert (G : forall m k a b x y, nth_error (filter (fun j => negb (mem j ps)) (seq k m)) a = Some x ->
          nth_error (filter (fun j => negb (mem j ps)) (seq k m)) b = Some y -> a < b -> x < y).
      { induction m as [|m IH]; intros k a b x y; cbn [seq filter]; [intros Ha; destruct a; discriminate|].
        destruct (negb (mem k ps)); [|now apply IH].
        destruct a as [|a], b as [|b]; cbn; try lia; intros Ha Hb' L.
        - injection Ha as <-. apply nth_error_In, filter_In in Hb'. destruct Hb' as [Hb' _]. apply in_seq in Hb'. lia.
        - apply (IH (S k) a b); auto. lia. }
      apply G.
    + intros a x Hx. destruct A as [Hs _]. assert (Hj : x < n) by (apply Hb; eapply nth_error_In; eauto).
      destruct (col_ex n s x Hs Hj) as [c [k [m [cb [kb C]]]]]. exists c, k, m, cb, kb. split; [auto|].
      destruct Hs as [L1 L2 L3 L4 L5 L6 L7], C as [C1 C2 C3 C4 C5].
      constructor; cbn [del_state ocart okep om ocf okf]; rewrite delete_at_keep.
      * rewrite L2. fold q. rewrite pick_nth by now rewrite L2. now rewrite Hx.
      * rewrite L3. fold q. rewrite pick_nth by now rewrite L3. now rewrite Hx.
      * rewrite L1. fold q. rewrite pick_nth by now rewrite L1. now rewrite Hx.
      * rewrite L6. fold q. rewrite pick_nth by now rewrite L6. now rewrite Hx.
      * rewrite L7. fold q. rewrite pick_nth by now rewrite L7. now rewrite Hx.
Qed.
Theorem C51_delete_bad n i (s : orb) : aligned n s -> ~ valid_index n i -> exists e, delete i s = (s, Raise e).
Proof.
  intros A V. rewrite (delete_eq n) by auto. unfold resolve_del.
  destruct (resolve_gen ValueError n i) as [ps|e] eqn:E; [|eauto]. exfalso. apply V, (resolve_valid ValueError). eauto.
Qed.
(** an orbit without elements *)
Definition empty_orbit (s : orb) (j : nat) : Prop :=
  nth_error (om s) j = Some (lit 0) /\ nth_error (ocart s) j = Some nan6c /\ nth_error (okep s) j = Some nan6c
  /\ nth_error (ocf s) j = Some false /\ nth_error (okf s) j = Some false.
Theorem C51_allocate k (s : orb) : exists s', allocate k s = (s', Ok tt) /\ aligned k s'
  /\ settings s' = settings s /\ forall j, j < k -> empty_orbit s' j.
Proof.
  unfold allocate, modify. eexists. split; [reflexivity|]. split; [|split; [reflexivity|]].
  - split; [constructor; cbn; apply repeat_length|]. exists (repeat nan k). split; [reflexivity|apply repeat_length].
  - intros j Hj. unfold empty_orbit. cbn. repeat split; now apply nth_error_repeat.
Qed.
Lemma app_same n k (s : orb) j : aligned n s -> j < n -> same_orbit s j (app_state k s) j.
Proof.
  intros [Hs _] Hj. destruct (col_ex n s j Hs Hj) as [c [ke [m [cb [kb C]]]]]. exists c, ke, m, cb, kb. split; [auto|].
  destruct C as [C1 C2 C3 C4 C5].
  constructor; cbn [app_state ocart okep om ocf okf]; rewrite nth_error_app1; auto; eapply nth_error_lt; eauto.
Qed.
Lemma app_empty n k (s : orb) j : aligned n s -> n <= j < n + k -> empty_orbit (app_state k s) j.
Proof.
  intros [Hs _] Hj. destruct Hs as [L1 L2 L3 L4 L5 L6 L7]. unfold empty_orbit. cbn [app_state ocart okep om ocf okf].
  repeat split; rewrite nth_error_app2 by lia; apply nth_error_repeat; lia.
Qed.
Lemma update_nothing gb i kw (s : orb) : kw_cartesian kw = None -> kw_kepler kw = None -> some6 (kw_c kw) = false ->
  some6 (kw_k kw) = false -> kw_m kw = None -> update gb i kw s = (s, Ok tt).
Proof. intros E1 E2 E3 E4 E5. unfold update. rewrite bind_get, E1, E2. cbv zeta. now rewrite E3, E4, E5. Qed.
(** add without element keywords: [k] empty orbits behind the others *)
Theorem C51_add_empty gb n k (s : orb) : aligned n s -> exists s', add_orbits gb k no_kws s = (s', Ok tt)
  /\ aligned (n + k) s' /\ settings s' = settings s
  /\ (forall j, j < n -> same_orbit s j s' j) /\ (forall j, n <= j < n + k -> empty_orbit s' j).
Proof.
  intros A. exists (app_state k s). rewrite (add_eq gb n) by auto. cbn [kw_m no_kws].
  rewrite update_nothing by reflexivity. split; [reflexivity|]. split; [now apply app_aligned|]. split; [reflexivity|].
  split; intros; [now apply (app_same n)|now apply (app_empty n)].
Qed.

(** ** update *)
(** the orbits not selected keep everything, outside direct mode *)
Lemma same_orbit_refl n (s : orb) j : lens n s -> j < n -> same_orbit s j s j.
Proof. intros Hs Hj. destruct (col_ex n s j Hs Hj) as [c [k [m [cb [kb C]]]]]. now exists c, k, m, cb, kb. Qed.
(** [s'] differs from [s] at most at the selected orbits *)
Definition only_at (n : nat) (i : Idx) (s s' : orb) : Prop :=
  lens n s' /\ settings s' = settings s /\ forall j, j < n -> ~ selected n i j -> same_orbit s j s' j.
Lemma same_orbit_of n (s s' : orb) j : lens n s -> j < n -> nth_error (om s') j = nth_error (om s) j ->
  nth_error (ocart s') j = nth_error (ocart s) j -> nth_error (okep s') j = nth_error (okep s) j ->
  nth_error (ocf s') j = nth_error (ocf s) j -> nth_error (okf s') j = nth_error (okf s) j -> same_orbit s j s' j.
Proof.
  intros Hs Hj E1 E2 E3 E4 E5. destruct (col_ex n s j Hs Hj) as [c [k [m [cb [kb C]]]]]. exists c, k, m, cb, kb.
  split; [auto|]. destruct C. constructor; congruence.
Qed.
Theorem C53_update_partial gb n i kw (s : orb) : lens n s -> odirect s = false -> valid_index n i ->
  only_at n i s (fst (update gb i kw s)).
Proof.
  intros Hs D V. apply (resolve_valid IndexError) in V. destruct V as [ps Hp]. change (resolve n i = Ok ps) in Hp.
  destruct (update_cases gb n i kw s Hs) as [m' [Lm [_ [Sm U]]]]. specialize (Sm ps Hp).
  assert (N : forall j, ~ selected n i j -> ~ In j ps) by (intros j Hn; now rewrite (resolve_in _ _ _ _ Hp)).
  assert (Hm : lens n (with_m (fun _ => m') s)) by now apply lens_with_m.
  assert (Q : forall l c, length c = n -> l = put ps (repeat true (length ps)) c \/ l = put ps (repeat false (length ps)) c ->
      length l = n /\ same_out ps c l).
  { intros l c Lc [->| ->]; (split; [now rewrite put_length|]); intros j Hj; now apply put_other. }
  destruct U; cbn [fst].
  - split; [auto|]. split; [reflexivity|]. intros j Hj Hn. now apply (same_orbit_refl n).
  - split; [auto|]. split; [reflexivity|]. intros j Hj Hn. apply (same_orbit_of n); auto.
  - assert (ps0 = ps) as -> by congruence. unfold aft_cart_at. cbn [odirect with_cart with_m]. rewrite D.
    destruct (Q _ (okf s) (l_kf n s Hs) (or_intror eq_refl)) as [Q1 Q2].
    destruct (Q _ (ocf s) (l_cf n s Hs) (or_introl eq_refl)) as [Q3 Q4].
    split; [|split; [reflexivity|]].
    + destruct Hs; constructor; cbn; auto.
    + intros j Hj Hn. apply (same_orbit_of n); cbn; auto.
  - split; [now apply lens_with_cart|]. split; [reflexivity|]. intros j Hj Hn. apply (same_orbit_of n); cbn; auto.
    destruct H2 as [->|[ps' [Hp' S']]]; [auto|]. assert (ps' = ps) as -> by congruence. auto.
  - assert (ps0 = ps) as -> by congruence. unfold aft_kep_at. cbn [odirect with_kep with_m]. rewrite D.
    destruct (Q _ (ocf s) (l_cf n s Hs) (or_intror eq_refl)) as [Q1 Q2].
    destruct (Q _ (okf s) (l_kf n s Hs) (or_introl eq_refl)) as [Q3 Q4].
    split; [|split; [reflexivity|]].
    + destruct Hs; constructor; cbn; auto.
    + intros j Hj Hn. apply (same_orbit_of n); cbn; auto.
  - split; [now apply lens_with_kep|]. split; [reflexivity|]. intros j Hj Hn. apply (same_orbit_of n); cbn; auto.
    destruct H2 as [->|[ps' [Hp' S']]]; [auto|]. assert (ps' = ps) as -> by congruence. auto.
Qed.
End Containers.

(** ** The [i]-th orbit an index selects *)
Definition nth_selected (n : nat) (idx : Idx) (i p : nat) : Prop :=
  p < n /\ match idx with
           | IAll => p = i
           | IRange lo hi => p = lo + i /\ p < hi
           | IInt z => i = 0 /\ is_index n z p
           | IList zs => exists z, nth_error zs i = Some z /\ is_index n z p
           | IMask bs => nth_error bs p = Some true /\ count_occ Bool.bool_dec (firstn p bs) true = i
           | ISlice a b st => slice_at n a b st i p
           end.
(** no orbit is selected twice *)
Definition no_repeats (n : nat) (idx : Idx) : Prop :=
  forall i i' p, nth_selected n idx i p -> nth_selected n idx i' p -> i = i'.
Lemma resolve_list_nth n zs : forall ps i p, resolve_list n zs = Ok ps ->
  (nth_error ps i = Some p <-> p < n /\ exists z, nth_error zs i = Some z /\ is_index n z p).
Proof.
  induction zs as [|z zs IH]; cbn [resolve_list]; intros ps i p E.
  - injection E as <-. destruct i; cbn; (split; [discriminate|intros [_ [w [Q _]]]; discriminate]).
  - destruct (py_index n z) as [q|] eqn:Eq; [|discriminate].
    destruct (resolve_list n zs) as [qs|]; cbn in E; [|discriminate]. injection E as <-.
    destruct i as [|i]; cbn [nth_error]; [|now apply IH]. rewrite <- Eq.
    rewrite py_index_spec. split; [intros [Hp Ip]; eauto|intros [Hp [w [Q Ip]]]; injection Q as <-; auto].
Qed.
Lemma true_positions_nth bs : forall k i p, nth_error (true_positions k bs) i = Some p <->
  k <= p /\ nth_error bs (p - k) = Some true /\ count_occ Bool.bool_dec (firstn (p - k) bs) true = i.
Proof.
  induction bs as [|b bs IH]; intros k i p; cbn [true_positions].
  - destruct i, (p - k); cbn; (split; [discriminate|intros [_ [Q _]]; discriminate]).
  - destruct b.
    + destruct i as [|i]; cbn [nth_error].
      * split.
        -- intros Q. injection Q as <-. rewrite Nat.sub_diag. auto.
        -- intros [Hp [_ Hc]]. destruct (p - k) as [|c] eqn:Ec; [f_equal; lia|]. cbn in Hc. discriminate.
      * rewrite IH. split.
        -- intros [Hp [Hn Hc]]. replace (p - k) with (S (p - S k)) by lia. cbn. split; [lia|]. split; [auto|]. now rewrite Hc.
        -- intros [Hp [Hn Hc]]. destruct (p - k) as [|c] eqn:Ec; [cbn in Hc; discriminate|]. assert (Hk : S k <= p /\ c = p - S k) by lia. destruct Hk as [Hk ->].
           cbn in Hn, Hc. split; [auto|]. split; [auto|]. now injection Hc.
    + rewrite IH. split.
      * intros [Hp [Hn Hc]]. replace (p - k) with (S (p - S k)) by lia. cbn. split; [lia|]. auto.
      * intros [Hp [Hn Hc]]. destruct (p - k) as [|c] eqn:Ec; [cbn in Hn; discriminate|]. assert (Hk : S k <= p /\ c = p - S k) by lia. destruct Hk as [Hk ->].
        cbn in Hn, Hc. auto.
Qed.
Lemma nth_error_seq a b i p : nth_error (seq a b) i = Some p <-> p = a + i /\ i < b.
Proof.
  split.
  - intros E. apply nth_error_lt in E as Hl. rewrite seq_length in Hl.
    apply (nth_error_nth (seq a b) i 0) in E. rewrite seq_nth in E by auto. auto.
  - intros [-> Hi]. rewrite (nth_nth_error _ i 0) by now rewrite seq_length. now rewrite seq_nth.
Qed.
Lemma resolve_nth x n idx ps i p : resolve_gen x n idx = Ok ps -> (nth_error ps i = Some p <-> nth_selected n idx i p).
Proof.
  unfold nth_selected. destruct idx; cbn [resolve_gen]; intros E.
  - injection E as <-. rewrite nth_error_seq. lia.
  - injection E as <-. rewrite nth_error_seq. lia.
  - rewrite (resolve_list_nth n [z] ps i p E). split; intros [Hp W]; (split; [auto|]).
    + destruct W as [w [Q W]]. destruct i as [|[|]]; cbn in Q; try discriminate. injection Q as <-. auto.
    + destruct W as [-> W]. exists z. auto.
  - apply (resolve_list_nth n zs ps i p E).
  - destruct (Nat.eqb_spec (length bs) n) as [En|]; [|discriminate]. injection E as <-.
    rewrite true_positions_nth, Nat.sub_0_r. split; [|intros [_ W]; split; [lia|exact W]]. intros [_ [Hn Hc]]. split; [|auto]. apply nth_error_lt in Hn. lia.
  - destruct (Z.eqb_spec step 0) as [|N]; [discriminate|]. injection E as <-. rewrite slice_at_spec by auto. split; [|tauto].
    intros Q. split; [|exact Q]. apply slice_at_spec in Q; [|auto]. apply nth_error_In in Q. now apply slice_bounded in Q.
Qed.
Lemma no_repeats_inj x n idx ps : resolve_gen x n idx = Ok ps -> no_repeats n idx ->
  forall i i' p, nth_error ps i = Some p -> nth_error ps i' = Some p -> i = i'.
Proof. intros E N i i' p H1 H2. apply (N i i' p); eapply resolve_nth; eauto. Qed.
Lemma put_at {A} ps : forall (vs l : list A) i p v,
  (forall i i' p, nth_error ps i = Some p -> nth_error ps i' = Some p -> i = i') ->
  nth_error ps i = Some p -> nth_error vs i = Some v -> p < length l -> nth_error (put ps vs l) p = Some v.
Proof.
  induction ps as [|q ps IH]; intros vs l i p v Inj Hp Hv Hl; [destruct i; discriminate|].
  destruct vs as [|w vs]; [destruct i; discriminate|]. cbn [put].
  assert (Inj' : forall i i' p, nth_error ps i = Some p -> nth_error ps i' = Some p -> i = i').
  { intros a b c Ha Hb. assert (S a = S b) by (apply (Inj (S a) (S b) c); auto). lia. }
  destruct i as [|i]; cbn in Hp, Hv.
  - injection Hp as ->. injection Hv as ->. rewrite put_other.
    + now rewrite PropsUnit.upd_nth_same.
    + intros Q. apply In_nth_error in Q. destruct Q as [b Hb]. assert (0 = S b) by (apply (Inj 0 (S b) p); auto). lia.
  - apply (IH vs _ i); auto. now rewrite PropsUnit.upd_nth_length.
Qed.

Section Written.
Context {F : Type} `{NP F}.
Notation orb := (orb F).
(** what [x\[:, inds\] = v] means for the [i]-th selected orbit, row [r] *)
Definition whole_at (idx : Idx) (v : arg F) (i r : nat) (x : F) : Prop :=
  match idx with IInt _ => entry1 v r x | _ => entry2 v r i x end.
(** what [x\[r, inds\] = v_r] for the given keywords means for the [i]-th selected orbit *)
Definition keys_at (ks : six (option (arg F))) (i r : nat) (old x : F) : Prop :=
  match row_get r ks with Some v => entry1 v i x | None => x = old end.
Definition wf_kws (kw : kws F) : Prop :=
  (forall v, kw_cartesian kw = Some v -> wfv v) /\ (forall v, kw_kepler kw = Some v -> wfv v)
  /\ (forall v, kw_m kw = Some v -> wfv v)
  /\ (forall r v, row_get r (kw_c kw) = Some v -> wfv v) /\ (forall r v, row_get r (kw_k kw) = Some v -> wfv v).

Lemma nth_some_of {A} (l : list A) i n : length l = n -> i < n -> exists x, nth_error l i = Some x.
Proof. intros <-. apply nth_error_some. Qed.
Lemma assign_cols_at (cols cs : list (six F)) idx v i p : wfv v -> no_repeats (length cols) idx ->
  assign_cols cols idx v = Ok cs -> nth_selected (length cols) idx i p ->
  exists c, nth_error cs p = Some c /\ forall r, r < 6 -> whole_at idx v i r (row_get r c).
Proof.
  intros W N E Hi. unfold assign_cols in E. destruct (resolve (length cols) idx) as [ps|] eqn:Er; [|discriminate].
  pose proof (no_repeats_inj _ _ _ _ Er N) as Inj. pose proof Hi as Hi'. apply (resolve_nth _ _ _ _ _ _ Er) in Hi.
  cbn [rbind] in E. assert (Hl : p < length cols) by now destruct Hi'.
  assert (G : forall cs0, bcast2 6 (length ps) v = Ok cs0 -> cs = put ps (map six_of cs0) cols ->
     exists c, nth_error cs p = Some c /\ forall r, r < 6 -> entry2 v r i (row_get r c)).
  { intros cs0 Eb ->. assert (L : length cs0 = length ps) by (eapply bcast2_length; eauto using wfv_wf).
    destruct (nth_some_of cs0 i (length ps) L (nth_error_lt _ _ _ Hi)) as [f Hf].
    exists (six_of f). split.
    - apply (put_at ps _ _ i); auto. now rewrite nth_error_map, Hf.
    - intros r Hr. rewrite row_six_of by auto. eapply bcast2_entry; eauto. }
  destruct idx; try (destruct (bcast2 6 (length ps) v) as [cs0|] eqn:Eb; [|discriminate]; cbn [rbind] in E;
    injection E as E; destruct (G cs0 eq_refl (eq_sym E)) as [c Hc]; exists c; exact Hc).
  destruct (bcast1 6 v) as [vs|] eqn:Eb; [|discriminate]. cbn [rbind] in E. injection E as E. subst cs.
  eexists. split.
  - apply (put_at ps _ _ i); eauto. apply nth_error_repeat. now apply nth_error_lt in Hi.
  - intros r Hr. rewrite row_six_of by auto. cbn [whole_at]. apply (bcast1_entry 6 v vs); auto.
    apply nth_nth_error. assert (length vs = 6) by (eapply bcast1_length; eauto using wfv_wf). lia.
Qed.
Lemma row_set_other k r (c : six F) x : r < 6 -> k < 6 -> k <> r -> row_get r (row_set k c x) = row_get r c.
Proof. intros. do 6 (destruct k as [|k]; [do 6 (destruct r as [|r]; [try reflexivity; lia|]); lia|]). lia. Qed.
Lemma row_set_same k (c : six F) x : k < 6 -> row_get k (row_set k c x) = x.
Proof. intros. do 6 (destruct k as [|k]; [reflexivity|]). lia. Qed.
Lemma assign_row_at k (cols cs : list (six F)) idx v i p c : wfv v -> no_repeats (length cols) idx -> k < 6 ->
  assign_row k cols idx v = Ok cs -> nth_selected (length cols) idx i p -> nth_error cols p = Some c ->
  exists x, nth_error cs p = Some (row_set k c x) /\ entry1 v i x.
Proof.
  intros W N Hk E Hi Hc. unfold assign_row, assign in E. rewrite map_length in E.
  destruct (resolve (length cols) idx) as [ps|] eqn:Er; [|discriminate]. cbn [rbind] in E.
  destruct (bcast1 (length ps) v) as [vs|] eqn:Eb; [|discriminate]. cbn [rbind] in E. injection E as <-.
  pose proof (no_repeats_inj _ _ _ _ Er N) as Inj. apply (resolve_nth _ _ _ _ _ _ Er) in Hi.
  assert (L : length vs = length ps) by (eapply bcast1_length; eauto using wfv_wf).
  destruct (nth_some_of vs i (length ps) L (nth_error_lt _ _ _ Hi)) as [x Hx]. exists x. split.
  - unfold set_row. rewrite nth_error_map2, Hc.
    rewrite (put_at ps vs _ i p x); auto. rewrite map_length. eapply nth_error_lt; eauto.
  - eapply bcast1_entry; eauto.
Qed.
Lemma assign_keys_at ks : forall (cols cs : list (six F)) idx i p c, no_repeats (length cols) idx ->
  (forall r v, In (r, Some v) ks -> r < 6 /\ wfv v) -> NoDup (map fst ks) ->
  assign_keys ks cols idx = (cs, Ok tt) -> nth_selected (length cols) idx i p -> nth_error cols p = Some c ->
  exists c', nth_error cs p = Some c'
  /\ forall r, r < 6 -> (forall v, In (r, Some v) ks -> entry1 v i (row_get r c'))
       /\ ((forall v, ~ In (r, Some v) ks) -> row_get r c' = row_get r c).
Proof.
  induction ks as [|[k [v|]] ks IH]; intros cols cs idx i p c N W D E Hi Hc; cbn [assign_keys] in E.
  - injection E as <-. exists c. split; [auto|]. intros r Hr. split; [intros v []|auto].
  - destruct (assign_row k cols idx v) as [cols'|e] eqn:Ea; [|discriminate].
    destruct (W k v (or_introl eq_refl)) as [Hk Wv].
    destruct (assign_row_at k cols cols' idx v i p c Wv N Hk Ea Hi Hc) as [x [Hx Ex]].
    apply assign_row_spec in Ea. destruct Ea as [ps [_ [L1 _]]]. cbn [map fst] in D. inversion D as [|? ? D1 D2]; subst.
    destruct (IH cols' cs idx i p (row_set k c x)) as [c' [Hc' R]]; auto; try (rewrite L1; auto).
    { intros r w Hw. apply W. now right. }
    assert (Nk : forall w, ~ In (k, Some w) ks).
    { intros w Hw. apply D1. change k with (fst (k, Some w)). now apply in_map. }
    exists c'. split; [auto|]. intros r Hr. destruct (R r Hr) as [R1 R2]. split.
    + intros w [Q|Q]; [|auto]. injection Q as -> ->. rewrite R2 by auto. now rewrite row_set_same.
    + intros Q. rewrite R2 by (intros w Hw; apply (Q w); now right). apply row_set_other; auto.
      intros ->. apply (Q v). now left.
  - inversion D as [|? ? D1 D2]; subst. destruct (IH cols cs idx i p c) as [c' [Hc' R]]; auto.
    { intros r w Hw. apply W. now right. }
    exists c'. split; [auto|]. intros r Hr. destruct (R r Hr) as [R1 R2]. split.
    + intros w [Q|Q]; [discriminate|auto].
    + intros Q. apply R2. intros w Hw. apply (Q w). now right.
Qed.
Lemma keys_in {A} (ks : six A) r x : In (r, x) (keys ks) <-> r < 6 /\ row_get r ks = x.
Proof.
  unfold keys. cbn [In]. split.
  - intros Q. repeat (destruct Q as [Q|Q]; [injection Q as <- <-; split; [lia|reflexivity]|]). destruct Q.
  - intros [Hr <-]. do 6 (destruct r as [|r]; [cbn; tauto|]). lia.
Qed.
Lemma assign_six_at (ks : six (option (arg F))) (cols cs : list (six F)) idx i p c : no_repeats (length cols) idx ->
  (forall r v, row_get r ks = Some v -> wfv v) ->
  assign_keys (keys ks) cols idx = (cs, Ok tt) -> nth_selected (length cols) idx i p -> nth_error cols p = Some c ->
  exists c', nth_error cs p = Some c' /\ forall r, r < 6 -> keys_at ks i r (row_get r c) (row_get r c').
Proof.
  intros N W E Hi Hc. destruct (assign_keys_at (keys ks) cols cs idx i p c) as [c' [Hc' R]]; auto.
  - intros r v Hv. apply keys_in in Hv. destruct Hv as [Hr Hv]. split; [auto|]. eauto.
  - cbn. repeat constructor; cbn; intuition lia.
  - exists c'. split; [auto|]. intros r Hr. destruct (R r Hr) as [R1 R2]. unfold keys_at.
    destruct (row_get r ks) as [v|] eqn:Ev; [apply R1, keys_in; auto|].
    apply R2. intros v Hv. apply keys_in in Hv. destruct Hv as [_ Hv]. congruence.
Qed.

(** ** What update writes *)
Lemma aft_cart_at_ocart gb n ps (s : orb) : lens n s -> ocart (aft_cart_at gb ps s) = ocart s.
Proof. intros Hs. unfold aft_cart_at. destruct (odirect s); [now apply (kall_ocart gb n)|reflexivity]. Qed.
Lemma aft_kep_at_okep gb n ps (s : orb) : lens n s -> okep (aft_kep_at gb ps s) = okep s.
Proof. intros Hs. unfold aft_kep_at. destruct (odirect s) eqn:E; [apply (call_okep gb n); auto using direct_not_lazy|reflexivity]. Qed.
Lemma aft_cart_at_om gb n ps (s : orb) : lens n s -> om (aft_cart_at gb ps s) = om s.
Proof. intros Hs. unfold aft_cart_at. destruct (odirect s); [|reflexivity]. destruct (kall_spec gb n s Hs) as [_ [_ E]]. apply E. Qed.
Lemma aft_kep_at_om gb n ps (s : orb) : lens n s -> om (aft_kep_at gb ps s) = om s.
Proof. intros Hs. unfold aft_kep_at. destruct (odirect s); [|reflexivity]. destruct (call_spec gb n s Hs) as [_ E]. apply E. Qed.
(** [update(inds, cartesian=v)]: the [i]-th selected orbit [p] gets the [i]-th column of [v]; outside
    direct mode it is marked as given by its Cartesian elements *)
Theorem C53_cartesian gb n idx v kw (s s' : orb) i p : lens n s -> no_repeats n idx -> wfv v ->
  kw_cartesian kw = Some v -> update gb idx kw s = (s', Ok tt) -> nth_selected n idx i p ->
  om s' = om s /\ (exists c, nth_error (ocart s') p = Some c /\ forall r, r < 6 -> whole_at idx v i r (row_get r c))
  /\ (odirect s = false -> okep s' = okep s /\ nth_error (ocf s') p = Some true /\ nth_error (okf s') p = Some false).
Proof.
  intros Hs N W E U Hi. unfold update in U. rewrite bind_get, E in U. destruct (ocro s); [discriminate|].
  rewrite bind_lift in U. destruct (assign_cols (ocart s) idx v) as [cs|] eqn:Ea; [|discriminate].
  rewrite <- (l_c n s Hs) in N, Hi. pose proof (assign_cols_at _ _ _ _ i p W N Ea Hi) as [c [Hc R]].
  apply assign_cols_spec in Ea. destruct Ea as [ps [Hp [L _]]]. rewrite (l_c n s Hs) in *.
  assert (Hl : lens n (with_cart (fun _ => cs) s)) by now apply lens_with_cart.
  rewrite bind_modify, (mark_cart_eq gb n idx ps) in U by auto. injection U as <-.
  rewrite (aft_cart_at_ocart gb n) by auto. rewrite (aft_cart_at_om gb n) by auto. split; [reflexivity|].
  split; [exists c; auto|]. intros D. unfold aft_cart_at. cbn [odirect with_cart]. rewrite D. cbn. split; [reflexivity|].
  pose proof (no_repeats_inj _ _ _ _ Hp N) as Inj. pose proof Hi as [Hpn _]. apply (resolve_nth _ _ _ _ _ _ Hp) in Hi.
  destruct Hs. split; apply (put_at ps _ _ i); auto; try lia; apply nth_error_repeat; now apply nth_error_lt in Hi.
Qed.
Theorem C53_kepler gb n idx v kw (s s' : orb) i p : lens n s -> no_repeats n idx -> wfv v ->
  kw_cartesian kw = None -> kw_kepler kw = Some v -> update gb idx kw s = (s', Ok tt) -> nth_selected n idx i p ->
  om s' = om s /\ (exists k, nth_error (okep s') p = Some k /\ forall r, r < 6 -> whole_at idx v i r (row_get r k))
  /\ (odirect s = false -> ocart s' = ocart s /\ nth_error (okf s') p = Some true /\ nth_error (ocf s') p = Some false).
Proof.
  intros Hs N W E0 E U Hi. unfold update in U. rewrite bind_get, E0, E in U. destruct (okro s); [discriminate|].
  rewrite bind_lift in U. destruct (assign_cols (okep s) idx v) as [cs|] eqn:Ea; [|discriminate].
  rewrite <- (l_k n s Hs) in N, Hi. pose proof (assign_cols_at _ _ _ _ i p W N Ea Hi) as [c [Hc R]].
  apply assign_cols_spec in Ea. destruct Ea as [ps [Hp [L _]]]. rewrite (l_k n s Hs) in *.
  assert (Hl : lens n (with_kep (fun _ => cs) s)) by now apply lens_with_kep.
  rewrite bind_modify, (mark_kep_eq gb n idx ps) in U by auto. injection U as <-.
  rewrite (aft_kep_at_okep gb n) by auto. rewrite (aft_kep_at_om gb n) by auto. split; [reflexivity|].
  split; [exists c; auto|]. intros D. unfold aft_kep_at. cbn [odirect with_kep]. rewrite D. cbn. split; [reflexivity|].
  pose proof (no_repeats_inj _ _ _ _ Hp N) as Inj. pose proof Hi as [Hpn _]. apply (resolve_nth _ _ _ _ _ _ Hp) in Hi.
  destruct Hs. split; apply (put_at ps _ _ i); auto; try lia; apply nth_error_repeat; now apply nth_error_lt in Hi.
Qed.
(** [update(inds, m=.., x=.., ..)] and [update(inds, m=.., a=.., ..)]: the given elements of the [i]-th
    selected orbit are the [i]-th entries of the values, the other elements of that side stay *)
Lemma assign_m_at (row row' : list F) idx v i p : wfv v -> no_repeats (length row) idx -> assign row idx v = Ok row' ->
  nth_selected (length row) idx i p -> exists x, nth_error row' p = Some x /\ entry1 v i x.
Proof.
  intros W N E Hi. unfold assign in E. destruct (resolve (length row) idx) as [ps|] eqn:Er; [|discriminate]. cbn [rbind] in E.
  destruct (bcast1 (length ps) v) as [vs|] eqn:Eb; [|discriminate]. cbn [rbind] in E. injection E as <-.
  pose proof (no_repeats_inj _ _ _ _ Er N) as Inj. pose proof Hi as [Hp _]. apply (resolve_nth _ _ _ _ _ _ Er) in Hi.
  assert (L : length vs = length ps) by (eapply bcast1_length; eauto using wfv_wf).
  destruct (nth_some_of vs i (length ps) L (nth_error_lt _ _ _ Hi)) as [x Hx]. exists x.
  split; [now apply (put_at ps _ _ i)|]. eapply bcast1_entry; eauto.
Qed.
Definition opt_m (kw : kws F) (i : nat) (old x : F) : Prop :=
  match kw_m kw with Some v => entry1 v i x | None => x = old end.
Theorem C53_elements gb n idx kw (s s' : orb) i p c k m : lens n s -> no_repeats n idx -> wf_kws kw ->
  kw_cartesian kw = None -> kw_kepler kw = None -> update gb idx kw s = (s', Ok tt) -> nth_selected n idx i p ->
  nth_error (ocart s) p = Some c -> nth_error (okep s) p = Some k -> nth_error (om s) p = Some m ->
  (exists m', nth_error (om s') p = Some m' /\ opt_m kw i m m')
  /\ (some6 (kw_c kw) = true -> exists c', nth_error (ocart s') p = Some c'
       /\ forall r, r < 6 -> keys_at (kw_c kw) i r (row_get r c) (row_get r c'))
  /\ (some6 (kw_k kw) = true -> exists k', nth_error (okep s') p = Some k'
       /\ forall r, r < 6 -> keys_at (kw_k kw) i r (row_get r k) (row_get r k')).
Proof.
  intros Hs N [_ [_ [Wm [Wc Wk]]]] E1 E2 U Hi Hc Hk Hm. unfold update in U. rewrite bind_get, E1, E2 in U. cbv zeta in U.
  destruct (some6 (kw_c kw) && ocro s); [discriminate|]. destruct (some6 (kw_k kw) && okro s); [discriminate|].
  destruct (some6 (kw_k kw) && some6 (kw_c kw)) eqn:Eb; [discriminate|].
  assert (exists row m', length row = n /\ nth_error row p = Some m' /\ opt_m kw i m m'
    /\ (bind (if some6 (kw_c kw) then bind (fun s => let '(cs, r) := assign_keys (keys (kw_c kw)) (ocart s) idx in
                     (with_cart (fun _ => cs) s, r)) (fun _ => mark_cart gb idx) else ret tt)
         (fun _ => if some6 (kw_k kw) then bind (fun s => let '(cs, r) := assign_keys (keys (kw_k kw)) (okep s) idx in
                     (with_kep (fun _ => cs) s, r)) (fun _ => mark_kep gb idx) else ret tt) (with_m (fun _ => row) s)) = (s', Ok tt))
    as [row [m' [Lr [Hm' [Om Rest]]]]].
  { unfold opt_m. destruct (kw_m kw) as [v|].
    - destruct (odirect s); [rewrite bind_raise in U; discriminate|]. rewrite bind_assoc, bind_lift in U.
      destruct (assign (om s) idx v) as [row|] eqn:Ea; [|discriminate]. rewrite bind_modify in U.
      pose proof Ea as La. apply assign_length in La. rewrite (l_m n s Hs) in La.
      destruct (assign_m_at (om s) row idx v i p) as [x [Hx Ex]]; auto; try (rewrite (l_m n s Hs); auto).
      exists row, x. auto.
    - rewrite bind_ret in U. exists (om s), m. rewrite with_m_id. destruct Hs. auto. }
  clear U. set (sm := with_m (fun _ => row) s) in *. assert (Hsm : lens n sm) by now apply lens_with_m.
  destruct (some6 (kw_c kw)) eqn:Sc.
  - rewrite andb_true_r in Eb. rewrite Eb in *. rewrite bind_assoc in Rest. unfold bind at 1 in Rest.
    destruct (assign_keys (keys (kw_c kw)) (ocart sm) idx) as [cs [[]|]] eqn:Ea; [|discriminate].
    change (ocart sm) with (ocart s) in Ea.
    destruct (assign_six_at (kw_c kw) (ocart s) cs idx i p c) as [c' [Hc' R]]; auto; try (rewrite (l_c n s Hs); auto).
    apply assign_keys_spec in Ea. destruct Ea as [L1 [_ Q]]. rewrite (l_c n s Hs) in *.
    rewrite <- some6_keys in Q. destruct (Q eq_refl Sc) as [ps Hp].
    assert (Hl : lens n (with_cart (fun _ => cs) sm)) by now apply lens_with_cart.
    rewrite (bind_ok _ _ _ _ _ (mark_cart_eq gb n idx ps _ Hl Hp)) in Rest. injection Rest as <-.
    rewrite (aft_cart_at_ocart gb n), (aft_cart_at_om gb n) by auto. split; [exists m'; auto|]. split; [|discriminate].
    intros _. exists c'. auto.
  - rewrite bind_ret in Rest. destruct (some6 (kw_k kw)) eqn:Sk.
    + unfold bind at 1 in Rest.
      destruct (assign_keys (keys (kw_k kw)) (okep sm) idx) as [cs [[]|]] eqn:Ea; [|discriminate].
      change (okep sm) with (okep s) in Ea.
      destruct (assign_six_at (kw_k kw) (okep s) cs idx i p k) as [k' [Hk' R]]; auto; try (rewrite (l_k n s Hs); auto).
      apply assign_keys_spec in Ea. destruct Ea as [L1 [_ Q]]. rewrite (l_k n s Hs) in *.
      rewrite <- some6_keys in Q. destruct (Q eq_refl Sk) as [ps Hp].
      assert (Hl : lens n (with_kep (fun _ => cs) sm)) by now apply lens_with_kep.
      rewrite (mark_kep_eq gb n idx ps _ Hl Hp) in Rest. injection Rest as <-.
      rewrite (aft_kep_at_okep gb n), (aft_kep_at_om gb n) by auto. split; [exists m'; auto|]. split; [discriminate|].
      intros _. exists k'. auto.
    + injection Rest as <-. split; [exists m'; auto|]. split; discriminate.
Qed.
End Written.

Section Rest.
Context {F : Type} `{NP F}.
Notation orb := (orb F).

(** ** C51, add with element keywords *)
Lemma same_orbit_trans (s sa sb : orb) i j k : same_orbit s i sa j -> same_orbit sa j sb k -> same_orbit s i sb k.
Proof.
  intros [c [ke [m [cb [kb [C1 C2]]]]]] [c' [ke' [m' [cb' [kb' [C3 C4]]]]]].
  destruct (col_fun _ _ _ _ _ _ _ _ _ _ _ _ C2 C3) as [E1 [E2 [E3 [E4 E5]]]]. subst. unfold same_orbit. eauto 10.
Qed.
Lemma new_selected n k i p : nth_selected (n + k) (IRange n (n + k)) i p <-> p = n + i /\ i < k.
Proof. unfold nth_selected. lia. Qed.
Lemma new_once n k : no_repeats (n + k) (IRange n (n + k)).
Proof. intros i i' p H1 H2. apply new_selected in H1, H2. lia. Qed.
(** the state in which add calls update *)
Lemma add_base gb n k kw (s : orb) : aligned n s ->
  (exists e, add_orbits gb k kw s = (app_state k s, Raise e))
  \/ exists sx, add_orbits gb k kw s = update gb (IRange n (n + k)) (drop_m kw) sx
     /\ lens (n + k) sx /\ settings sx = settings s
     /\ (forall j, j < n -> same_orbit s j sx j)
     /\ ocart sx = ocart s ++ repeat nan6c k /\ okep sx = okep s ++ repeat nan6c k
     /\ (wf_kws kw -> forall i, i < k -> exists m, nth_error (om sx) (n + i) = Some m /\ opt_m kw i (lit 0) m).
Proof.
  intros A. rewrite (add_eq gb n) by auto. pose proof (app_aligned n k s A) as [Hl _].
  assert (Sel : forall j, j < n -> ~ selected (n + k) (IRange n (n + k)) j) by (intros j Hj [_ Q]; lia).
  unfold opt_m. destruct (kw_m kw) as [v|] eqn:Em.
  - destruct (assign _ _ v) as [row|e] eqn:Ea; [right|left; eauto].
    change (om s ++ repeat (lit 0) k) with (om (app_state k s)) in Ea.
    exists (with_m (fun _ => row) (app_state k s)). split; [reflexivity|].
    pose proof Ea as La. apply assign_length in La. rewrite (l_m _ _ Hl) in La.
    split; [now apply lens_with_m|]. split; [reflexivity|]. split.
    + intros j Hj. apply (same_orbit_trans s (app_state k s) _ j j j); [now apply (app_same n)|].
      apply (same_orbit_of (n + k)); auto; [lia|]. cbn [om with_m]. unfold assign in Ea. rewrite (l_m _ _ Hl) in Ea.
      destruct (resolve (n + k) (IRange n (n + k))) as [ps|] eqn:Er; [|discriminate]. cbn [rbind] in Ea.
      destruct (bcast1 (length ps) v); [|discriminate]. cbn [rbind] in Ea. injection Ea as <-. apply put_other.
      rewrite (resolve_in _ _ _ _ Er). now apply Sel.
    + split; [reflexivity|]. split; [reflexivity|]. intros [_ [_ [Wm _]]] i Hi.
      apply (assign_m_at _ _ _ _ i (n + i) (Wm v Em)) in Ea; rewrite ?(l_m _ _ Hl).
      * exact Ea.
      * apply new_once.
      * apply new_selected. auto.
  - right. exists (app_state k s). split; [reflexivity|]. split; [auto|]. split; [reflexivity|].
    split; [intros; now apply (app_same n)|]. split; [reflexivity|]. split; [reflexivity|].
    intros _ i Hi. exists (lit 0). split; [|auto]. destruct (app_empty n k s (n + i) A) as [Q _]; [lia|exact Q].
Qed.
(** outside direct mode the existing orbits are kept, even when the call raises *)
Theorem C51_add_keeps gb n k kw (s : orb) : aligned n s -> odirect s = false ->
  let s' := fst (add_orbits gb k kw s) in
  lens (n + k) s' /\ settings s' = settings s /\ forall j, j < n -> same_orbit s j s' j.
Proof.
  intros A D s'. unfold s'. clear s'. pose proof (app_aligned n k s A) as [Hl _].
  destruct (add_base gb n k kw s A) as [[e ->]|[sx [-> [Lx [Sx [Kx _]]]]]]; cbn [fst].
  - split; [auto|]. split; [reflexivity|]. intros. now apply (app_same n).
  - destruct (C53_update_partial gb (n + k) (IRange n (n + k)) (drop_m kw) sx Lx) as [L1 [S1 K1]]; [|exact I|].
    { apply settings_eq in Sx. destruct Sx as [_ [_ [_ [-> _]]]]. exact D. }
    split; [auto|]. split; [congruence|]. intros j Hj.
    apply (same_orbit_trans s sx _ j j j); auto. apply K1; [lia|]. intros [_ Q]. lia.
Qed.
(** ... and the new orbits have the given values *)
Theorem C51_add_values gb n k kw (s s' : orb) i : aligned n s -> wf_kws kw ->
  add_orbits gb k kw s = (s', Ok tt) -> i < k ->
  (exists m, nth_error (om s') (n + i) = Some m /\ opt_m kw i (lit 0) m)
  /\ (forall v, kw_cartesian kw = Some v ->
       exists c, nth_error (ocart s') (n + i) = Some c /\ forall r, r < 6 -> entry2 v r i (row_get r c))
  /\ (forall v, kw_cartesian kw = None -> kw_kepler kw = Some v ->
       exists c, nth_error (okep s') (n + i) = Some c /\ forall r, r < 6 -> entry2 v r i (row_get r c))
  /\ (kw_cartesian kw = None -> kw_kepler kw = None -> some6 (kw_c kw) = true ->
       exists c, nth_error (ocart s') (n + i) = Some c /\ forall r, r < 6 -> keys_at (kw_c kw) i r nan (row_get r c))
  /\ (kw_cartesian kw = None -> kw_kepler kw = None -> some6 (kw_k kw) = true ->
       exists c, nth_error (okep s') (n + i) = Some c /\ forall r, r < 6 -> keys_at (kw_k kw) i r nan (row_get r c)).
Proof.
  intros A W E Hi. destruct (add_base gb n k kw s A) as [[e E']|[sx [E' [Lx [Sx [Kx [Cx [Px Mx]]]]]]]]; [congruence|].
  rewrite E' in E. destruct (Mx W i Hi) as [m [Hm Om]]. pose proof A as [Hs _].
  assert (Sel : nth_selected (n + k) (IRange n (n + k)) i (n + i)) by (apply new_selected; auto).
  assert (Nc : nth_error (ocart sx) (n + i) = Some nan6c).
  { rewrite Cx, nth_error_app2 by (rewrite (l_c n s Hs); lia). apply nth_error_repeat. rewrite (l_c n s Hs). lia. }
  assert (Nk : nth_error (okep sx) (n + i) = Some nan6c).
  { rewrite Px, nth_error_app2 by (rewrite (l_k n s Hs); lia). apply nth_error_repeat. rewrite (l_k n s Hs). lia. }
  assert (Nn : forall r, r < 6 -> row_get r nan6c = nan) by (intros r Hr; do 6 (destruct r as [|r]; [reflexivity|]); lia).
  destruct W as [W1 [W2 [W3 [W4 W5]]]]. pose proof (new_once n k) as N.
  destruct (kw_cartesian kw) as [v|] eqn:E1.
  { destruct (C53_cartesian gb (n + k) _ v (drop_m kw) sx s' i (n + i) Lx N (W1 v eq_refl) E1 E Sel) as [R1 [R2 _]].
    split; [rewrite R1; eauto|]. split; [intros w Q; injection Q as <-; exact R2|]. repeat split; discriminate. }
  destruct (kw_kepler kw) as [v|] eqn:E2.
  { destruct (C53_kepler gb (n + k) _ v (drop_m kw) sx s' i (n + i) Lx N (W2 v eq_refl) E1 E2 E Sel) as [R1 [R2 _]].
    split; [rewrite R1; eauto|]. split; [discriminate|]. split; [intros w _ Q; injection Q as <-; exact R2|]. split; discriminate. }
  destruct (C53_elements gb (n + k) _ (drop_m kw) sx s' i (n + i) nan6c nan6c m Lx N) as [R1 [R2 R3]]; auto.
  { split; [intros v Q; cbn in Q; congruence|]. split; [intros v Q; cbn in Q; congruence|]. split; [discriminate|]. auto. }
  cbn in R1. destruct R1 as [m' [R1 R1']]. unfold opt_m in R1'. cbn in R1'. subst m'.
  split; [eauto|]. split; [discriminate|]. split; [discriminate|]. cbn [kw_c kw_k drop_m] in R2, R3. split; intros _ _ Q.
  - destruct (R2 Q) as [c [Hc R]]. exists c. split; [auto|]. intros r Hr. specialize (R r Hr). now rewrite Nn in R.
  - destruct (R3 Q) as [c [Hc R]]. exists c. split; [auto|]. intros r Hr. specialize (R r Hr). now rewrite Nn in R.
Qed.

(** ** C52 *)
(** element keywords of both kinds, of a read-only kind, or [m] in direct mode *)
Definition invalid (kw : kws F) (s : orb) : Prop :=
  (some6 (kw_c kw) = true /\ some6 (kw_k kw) = true) \/ (some6 (kw_c kw) = true /\ ocro s = true)
  \/ (some6 (kw_k kw) = true /\ okro s = true) \/ (kw_m kw <> None /\ odirect s = true).
Theorem C52_elements_partial gb i kw (s : orb) : kw_cartesian kw = None -> kw_kepler kw = None -> invalid kw s ->
  update gb i kw s = (s, Raise AttributeError) \/ update gb i kw s = (s, Raise ValueError).
Proof.
  intros E1 E2 V. unfold update. rewrite bind_get, E1, E2. cbv zeta.
  destruct (some6 (kw_c kw) && ocro s) eqn:A1; [now left|].
  destruct (some6 (kw_k kw) && okro s) eqn:A2; [now left|].
  destruct (some6 (kw_k kw) && some6 (kw_c kw)) eqn:A3; [now right|].
  right. destruct V as [[V1 V2]|[[V1 V2]|[[V1 V2]|[V1 V2]]]]; try (rewrite V1, V2 in *; discriminate).
  destruct (kw_m kw); [|congruence]. rewrite V2. reflexivity.
Qed.
Theorem C52_read_only gb i kw (s : orb) :
  (kw_cartesian kw <> None -> ocro s = true -> update gb i kw s = (s, Raise AttributeError))
  /\ (kw_cartesian kw = None -> kw_kepler kw <> None -> okro s = true -> update gb i kw s = (s, Raise AttributeError)).
Proof.
  unfold update. rewrite bind_get. split.
  - intros E1 E2. destruct (kw_cartesian kw); [|congruence]. now rewrite E2.
  - intros E0 E1 E2. rewrite E0. destruct (kw_kepler kw); [|congruence]. now rewrite E2.
Qed.
(** cartesian= and kepler= silence every other keyword *)
Lemma update_cartesian_ignores gb i v kw (s : orb) : kw_cartesian kw = Some v ->
  update gb i kw s = update gb i (mkkws (Some v) None None no6 no6) s.
Proof. intros E. unfold update. rewrite !bind_get, E. reflexivity. Qed.
Lemma update_kepler_ignores gb i v kw (s : orb) : kw_cartesian kw = None -> kw_kepler kw = Some v ->
  update gb i kw s = update gb i (mkkws None (Some v) None no6 no6) s.
Proof. intros E0 E. unfold update. rewrite !bind_get, E0, E. reflexivity. Qed.

(** ** C53 in direct mode *)
Definition same_values (s s' : orb) (j : nat) : Prop :=
  nth_error (om s') j = nth_error (om s) j /\ nth_error (ocart s') j = nth_error (ocart s) j
  /\ nth_error (okep s') j = nth_error (okep s) j.
(** each orbit outside the selection keeps one of its element sets; the other one is kept or computed
    anew from it *)
Definition refreshed (s : orb) (c k : six F) (m : F) (c' k' : six F) : Prop :=
  (c' = c /\ (k' = k \/ Kc s c m k')) \/ (k' = k /\ (c' = c \/ Cc s k m c')).
Lemma update_direct gb n i kw (s : orb) : lens n s -> odirect s = true -> valid_index n i ->
  let s' := fst (update gb i kw s) in
  lens n s' /\ settings s' = settings s /\ om s' = om s
  /\ forall j c k m, j < n -> ~ selected n i j -> nth_error (ocart s) j = Some c -> nth_error (okep s) j = Some k ->
     nth_error (om s) j = Some m ->
     exists c' k', nth_error (ocart s') j = Some c' /\ nth_error (okep s') j = Some k' /\ refreshed s c k m c' k'.
Proof.
  intros Hs D V s'. unfold s'. clear s'. apply (resolve_valid IndexError) in V. destruct V as [ps Hp]. change (resolve n i = Ok ps) in Hp.
  destruct (update_cases gb n i kw s Hs) as [m' [Lm [Em [_ U]]]]. specialize (Em (or_intror D)). subst m'.
  assert (N : forall j, ~ selected n i j -> ~ In j ps) by (intros j Hn; now rewrite (resolve_in _ _ _ _ Hp)).
  destruct U as [e|Q1 Q2|cs ps0 L P S O|cs e L O S|cs ps0 L P S O|cs e L O S]; cbn [fst]; rewrite ?with_m_id.
  - split; [auto|]. split; [auto|]. split; [auto|]. intros j c k m Hj Hn Hc Hk Hm. exists c, k. split; [auto|]. split; [auto|]. left. auto.
  - split; [auto|]. split; [auto|]. split; [auto|]. intros j c k m Hj Hn Hc Hk Hm. exists c, k. split; [auto|]. split; [auto|]. left. auto.
  - assert (ps0 = ps) as -> by congruence. unfold aft_cart_at. cbn [odirect with_cart]. rewrite D.
    set (sx := with_cart (fun _ => cs) s). assert (Hx : lens n sx) by now apply lens_with_cart.
    destruct (kall_spec gb n sx Hx) as [_ [_ [K1 [K2 [K3 [_ [_ [_ K4]]]]]]]]. split; [auto|]. split; [exact K2|]. split; [exact K3|].
    intros j c k m Hj Hn Hc Hk Hm. destruct (col_ex n sx j Hx Hj) as [c1 [k1 [m1 [cb [kb C]]]]].
    destruct (K4 _ _ _ _ _ _ C) as [c' [k' [cb' [kb' [C' [R1 [_ [R2 R3]]]]]]]]. destruct C as [C1 C2 C3 _ _], C' as [C1' C2' _ _ _].
    assert (c1 = c) by (cbn in C1; rewrite S in C1 by auto; congruence).
    assert (k1 = k) by (cbn in C2; congruence). assert (m1 = m) by (cbn in C3; congruence). subst c1 k1 m1.
    exists c', k'. split; [auto|]. split; [auto|]. left. split; [auto|].
    subst c'. destruct (nan6 c); [left; exact (proj1 (R2 eq_refl))|right; exact (proj1 (R3 eq_refl))].
  - split; [now apply lens_with_cart|]. split; [reflexivity|]. split; [reflexivity|].
    intros j c k m Hj Hn Hc Hk Hm. exists c, k. cbn. split; [|split; [auto|left; auto]].
    destruct S as [->|[ps' [P S]]]; [auto|]. rewrite S; [auto|]. assert (ps' = ps) as -> by congruence. auto.
  - assert (ps0 = ps) as -> by congruence. unfold aft_kep_at. cbn [odirect with_kep]. rewrite D.
    set (sx := with_kep (fun _ => cs) s). assert (Hx : lens n sx) by now apply lens_with_kep.
    assert (Lz : lazy sx = false) by now apply direct_not_lazy.
    destruct (call_spec gb n sx Hx) as [_ [K1 [K2 [K3 [_ [_ [_ K4]]]]]]]. split; [auto|]. split; [exact K2|]. split; [exact K3|].
    intros j c k m Hj Hn Hc Hk Hm. destruct (col_ex n sx j Hx Hj) as [c1 [k1 [m1 [cb [kb C]]]]].
    destruct (K4 _ _ _ _ _ _ C) as [c' [k' [cb' [kb' [C' [R1 R2]]]]]]. destruct C as [C1 C2 C3 _ _], C' as [C1' C2' _ _ _].
    assert (c1 = c) by (cbn in C1; congruence).
    assert (k1 = k) by (cbn in C2; rewrite S in C2 by auto; congruence). assert (m1 = m) by (cbn in C3; congruence). subst c1 k1 m1.
    exists c', k'. split; [auto|]. split; [auto|]. right.
    destruct R1 as [[-> _]|[Q _]]; [|congruence]. split; [auto|].
    destruct R2 as [[_ [-> _]]|[_ [_ [_ R2]]]]; [now left|right]. rewrite Lz in R2. exact (proj2 (R2 eq_refl)).
  - split; [now apply lens_with_kep|]. split; [reflexivity|]. split; [reflexivity|].
    intros j c k m Hj Hn Hc Hk Hm. exists c, k. cbn. split; [auto|]. split; [|left; auto].
    destruct S as [->|[ps' [P S]]]; [auto|]. rewrite S; [auto|]. assert (ps' = ps) as -> by congruence. auto.
Qed.
Lemma kepler_of_Kc gb (s : orb) c m k : kepler_of gb s c m k -> Kc s c m k.
Proof.
  intros [k0 [E1 E2]]. rewrite c2k_one in E1. injection E1 as <-. unfold Kc, kconv. change (mu_of s m) with (mu_orbit s m).
  exists (gb 1 0, gb 2 0). destruct (otype s).
  - exact E2.
  - destruct E2 as [x [E2 ->]]. rewrite t2e_arr in E2 by reflexivity. cbn in E2. unfold fresh in E2. injection E2 as <-. reflexivity.
  - destruct E2 as [x [E2 ->]]. rewrite t2m_arr in E2 by reflexivity. cbn in E2. unfold fresh in E2. injection E2 as <-. reflexivity.
Qed.
Lemma cartesian_of_Cc' gb (s : orb) k m c : cartesian_of gb s k m c -> Cc s k m c.
Proof.
  intros [nu [E1 E2]]. rewrite k2c_one in E2. injection E2 as <-. exists (gb 1 0). unfold cconv, nu1.
  destruct (otype s).
  - now subst nu.
  - rewrite e2t_arr in E1 by reflexivity. cbn in E1. unfold fresh in E1. injection E1 as <-. reflexivity.
  - rewrite m2t_arr in E1 by reflexivity. cbn in E1. unfold fresh in E1. injection E1 as <-. reflexivity.
Qed.
Lemma Kc_det (s : orb) c m k k' : nan_arith (F := F) -> nan6 k = false -> Kc s c m k -> Kc s c m k' -> k' = k.
Proof.
  intros [_ Ho] Hn [g ->] [g' ->]. unfold kconv in *. set (k0 := c2k_col _ _ _) in *.
  assert (O : ordered1 (s1 k0)).
  { apply Ho. destruct (otype s); apply nan6_s1 in Hn; rewrite ?s1_set5 in Hn; exact Hn. }
  destruct (otype s); [reflexivity| |]; f_equal.
  - unfold t2e1. now rewrite (branch_ordered (fst g') (fst g)).
  - unfold t2m1, t2e1, e2m1. now rewrite (branch_ordered (fst g') (fst g)), (branch_ordered (snd g') (snd g)).
Qed.
Lemma Cc_det (s : orb) c m k c' : nan_arith (F := F) -> nan6 k = false -> Cc s k m c -> Cc s k m c' -> c' = c.
Proof.
  intros [_ Ho] Hn [g ->] [g' ->]. apply nan6_s1 in Hn. apply Ho in Hn. f_equal. unfold nu1.
  destruct (otype s); [reflexivity| |].
  - unfold e2t1. now rewrite (branch_ordered g' g).
  - unfold m2t1, e2t1. now rewrite (branch_ordered g' g).
Qed.
(** what direct mode guarantees: an orbit outside the selection whose two element sets are the
    conversions of each other is unchanged *)
Theorem C53_direct_partial gb gb' n i kw (s : orb) j c k m : nan_arith (F := F) -> lens n s -> odirect s = true ->
  valid_index n i -> j < n -> ~ selected n i j ->
  nth_error (ocart s) j = Some c -> nth_error (okep s) j = Some k -> nth_error (om s) j = Some m ->
  ~ has_nan k -> kepler_of gb' s c m k -> cartesian_of gb' s k m c ->
  same_values s (fst (update gb i kw s)) j.
Proof.
  intros Na Hs D V Hj Hn Hc Hk Hm Nk Ek Ec. destruct (update_direct gb n i kw s Hs D V) as [_ [_ [Em R]]].
  destruct (R j c k m Hj Hn Hc Hk Hm) as [c' [k' [Hc' [Hk' Q]]]]. unfold same_values. rewrite Em, Hc', Hk', Hc, Hk.
  assert (N6 : nan6 k = false) by (destruct (nan6 k) eqn:E; [exfalso; now apply Nk, has_nan_iff|auto]).
  apply kepler_of_Kc in Ek. apply cartesian_of_Cc' in Ec. split; [auto|].
  destruct Q as [[-> [->|Q]]|[-> [->|Q]]]; auto.
  - now rewrite (Kc_det s c m k k').
  - now rewrite (Cc_det s c m k c').
Qed.

(** ** C54 *)
Lemma put_all_seq {A} (vs l : list A) : length vs = length l -> put (seq 0 (length l)) vs l = vs.
Proof.
  intros L. apply nth_error_ext. intros j. destruct (lt_dec j (length l)) as [Hj|Hj].
  - destruct (nth_error_some vs j) as [x Hx]; [lia|]. rewrite Hx. apply (put_at _ _ _ j); auto.
    + intros a b p Ha Hb. apply nth_error_seq in Ha, Hb. lia.
    + apply nth_error_seq. lia.
  - transitivity (@None A); [|symmetry]; apply nth_error_None; rewrite ?put_length; lia.
Qed.
Lemma put_all_const {A} n (x : A) (l : list A) : length l = n -> put (seq 0 n) (repeat x (length (seq 0 n))) l = map (fun _ => x) l.
Proof.
  intros <-. rewrite seq_length, put_all_seq by apply repeat_length. induction l; cbn; congruence.
Qed.
Lemma assign_all_cols (cols : list (six F)) v n : length cols = n -> wfv v ->
  match v with Arr [] _ _ | Arr [_] _ _ => False | _ => True end -> assign_cols cols IAll v = whole_value n v.
Proof.
  intros L W Sh. unfold assign_cols. change (resolve (length cols) IAll) with (Ok (seq 0 (length cols))). cbn [rbind].
  rewrite L, seq_length. unfold whole_value.
  assert (G : (rlet cs := bcast2 6 n v in Ok (put (seq 0 n) (map six_of cs) cols)) = (rlet cs := bcast2 6 n v in Ok (map six_of cs))).
  { destruct (bcast2 6 n v) as [cs|] eqn:Eb; [|reflexivity]. cbn [rbind]. f_equal. rewrite <- L. apply put_all_seq.
    rewrite map_length. apply bcast2_length in Eb; [congruence|now apply wfv_wf]. }
  destruct v as [x|[|a [|b t]] mm d]; [exact G|destruct Sh|destruct Sh|exact G].
Qed.
(** numbers and (6,N), (6,1) arrays: [update(cartesian=v)] is [orb.cartesian = v] *)
Theorem C54_same_partial gb n v (s : orb) : lens n s -> wfv v ->
  match v with Arr [] _ _ | Arr [_] _ _ => False | _ => True end ->
  update gb IAll (mkkws (Some v) None None no6 no6) s = set_cartesian gb v s
  /\ update gb IAll (mkkws None (Some v) None no6 no6) s = set_kepler gb v s.
Proof.
  intros Hs W Sh. split.
  - rewrite (set_cartesian_eq gb n) by auto. unfold update. rewrite bind_get. cbn [kw_cartesian]. destruct (ocro s); [reflexivity|].
    rewrite bind_lift, (assign_all_cols (ocart s) v n) by (auto; now destruct Hs).
    destruct (whole_value n v) as [cs|] eqn:Ew; [|reflexivity]. apply whole_value_length in Ew; auto.
    assert (Hx : lens n (with_cart (fun _ => cs) s)) by now apply lens_with_cart.
    rewrite bind_modify, (mark_cart_eq gb n IAll (seq 0 n)) by (auto; reflexivity). f_equal.
    unfold aft_cart_at, aft_cart. destruct (odirect _); [reflexivity|]. destruct Hx as [L1 L2 L3 L4 L5 L6 L7].
    unfold with_cf, with_kf. cbn. cbn in L6, L7. rewrite !put_all_const by auto. reflexivity.
  - rewrite (set_kepler_eq gb n) by auto. unfold update. rewrite bind_get. cbn [kw_cartesian kw_kepler]. destruct (okro s); [reflexivity|].
    rewrite bind_lift, (assign_all_cols (okep s) v n) by (auto; now destruct Hs).
    destruct (whole_value n v) as [cs|] eqn:Ew; [|reflexivity]. apply whole_value_length in Ew; auto.
    assert (Hx : lens n (with_kep (fun _ => cs) s)) by now apply lens_with_kep.
    rewrite bind_modify, (mark_kep_eq gb n IAll (seq 0 n)) by (auto; reflexivity). f_equal.
    unfold aft_kep_at, aft_kep. destruct (odirect _); [reflexivity|]. destruct Hx as [L1 L2 L3 L4 L5 L6 L7].
    unfold with_cf, with_kf. cbn. cbn in L6, L7. rewrite !put_all_const by auto. reflexivity.
Qed.
(** a (6,) vector: the setter assigns it to every orbit, [update] raises unless there are six orbits *)
Theorem C54_vector_refuted gb n d mm (s : orb) : lens n s -> length d = 6 -> length mm = 6 -> n <> 6 ->
  ocro s = false -> okro s = false -> let v := Arr [6] mm d in
  update gb IAll (mkkws (Some v) None None no6 no6) s = (s, Raise ValueError)
  /\ snd (set_cartesian gb v s) = Ok tt
  /\ update gb IAll (mkkws None (Some v) None no6 no6) s = (s, Raise ValueError)
  /\ snd (set_kepler gb v s) = Ok tt.
Proof.
  intros Hs Ld Lm Nn Oc Ok_ v.
  assert (W : wfv v) by (unfold v; cbn; auto).
  assert (E : forall cols : list (six F), length cols = n -> assign_cols cols IAll v = Raise ValueError).
  { intros cols L. unfold assign_cols. change (resolve (length cols) IAll) with (Ok (seq 0 (length cols))). cbn [rbind].
    rewrite L, seq_length. unfold v. cbn [bcast2 strip_ones]. destruct (Nat.eqb_spec 6 n); [congruence|reflexivity]. }
  assert (Ew : exists cs, whole_value n v = Ok cs).
  { unfold v. destruct n as [|[|q]]; eexists; reflexivity. }
  destruct Ew as [cs Ew].
  split; [unfold update; rewrite bind_get; cbn [kw_cartesian]; rewrite Oc, bind_lift, E by (now destruct Hs); reflexivity|].
  split; [rewrite (set_cartesian_eq gb n) by auto; now rewrite Oc, Ew|].
  split; [unfold update; rewrite bind_get; cbn [kw_cartesian kw_kepler]; rewrite Ok_, bind_lift, E by (now destruct Hs); reflexivity|].
  rewrite (set_kepler_eq gb n) by auto. now rewrite Ok_, Ew.
Qed.
End Rest.

Section Examples.
#[local] Existing Instance NP_toyn.
Definition mat3 : arg Z := fresh [6; 3] [9; 8; 7; 0; 0; 0; 2; 2; 2; 3; 3; 3; 4; 4; 4; 5; 6; 7]%Z.
Definition kcols3 : list (six Z) := [mk6 9 0 2 3 4 5; mk6 8 0 2 3 4 6; mk6 7 0 2 3 4 7]%Z.
Definition s3l : OrbitModel.orb Z :=
  mkorb 1%Z 1%Z true false false false false AEcc {| tol := 0%Z; max_iter := 3%Z; degree := 5%Z |}
    [0; 0; 0]%Z [nan6c; nan6c; nan6c] kcols3 [nan; nan; nan] (fresh [3] [nan; nan; nan]) [nan; nan; nan]
    [false; false; false] [true; true; true] None.
Lemma s3l_init : init gd 1%Z (cfgl "eccentric" 3) (kwd mat3) = Ok s3l. Proof. vm_compute. reflexivity. Qed.
Lemma s3l_aligned : aligned 3 s3l.
Proof. split; [now constructor|]. exists [nan; nan; nan]. auto. Qed.
(** slices, a negative index, a mask and an index list *)
Example C51_delete_example : forall i, In i [IRange 0 2; IInt (-1); IMask [true; false; true]; IList [2; -3]%Z; ISlice (Some (-1)%Z) None (-2)] -> aligned 3 s3l /\ valid_index 3 i.
Proof.
  intros i Hi. split; [exact s3l_aligned|]. cbn in Hi. destruct Hi as [<-|[<-|[<-|[<-|[<-|[]]]]]]; cbn; auto; [| |lia].
  - exists 2. split; [lia|]. right. reflexivity.
  - intros z [<-|[<-|[]]]; [exists 2|exists 0]; (split; [lia|]); [left|right]; reflexivity.
Qed.
Example C51_delete_result : okep (fst (delete (IList [2; -3]%Z) s3l)) = [mk6 8 0 2 3 4 6]%Z.
Proof. vm_compute. reflexivity. Qed.
(** [delete(slice(-1, None, -2))] *)
Example C51_delete_slice : okep (fst (delete (ISlice (Some (-1)%Z) None (-2)) s3l)) = [mk6 8 0 2 3 4 6]%Z.
Proof. vm_compute. reflexivity. Qed.
Example C51_delete_bad_example : aligned 3 s3l /\ ~ valid_index 3 (IInt 3) /\ ~ valid_index 3 (IMask [true]).
Proof.
  split; [exact s3l_aligned|]. split; [|discriminate]. intros [j [Hj [Q|Q]]]; lia.
Qed.
(** [add(2, m=[5,6], a=[1,2], e=0)]: the new orbits have these values, the other elements are NaN *)
Definition kw_add : kws Z :=
  mkkws None None (Some (fresh [2] [5; 6]%Z)) no6 (mk6 (Some (fresh [2] [1; 2]%Z)) (Some (Sc 0%Z)) None None None None).
Example C51_add_example : exists s', aligned 3 s3l /\ odirect s3l = false /\ wf_kws kw_add
  /\ add_orbits gd 2 kw_add s3l = (s', Ok tt)
  /\ okep s' = kcols3 ++ [mk6 1 0 nan nan nan nan; mk6 2 0 nan nan nan nan]%Z /\ om s' = [0; 0; 0; 5; 6]%Z.
Proof.
  eexists. split; [exact s3l_aligned|]. split; [reflexivity|]. split.
  { split; [discriminate|]. split; [discriminate|]. split; [intros v Q; injection Q as <-; cbn; auto|].
    split; intros r v Q; do 6 (destruct r as [|r]; [cbn in Q; first [discriminate Q|injection Q as <-; cbn; auto]|]);
      cbn in Q; discriminate. }
  split; [vm_compute; reflexivity|]. split; vm_compute; reflexivity.
Qed.
(** on a read-only object [add] raises after the empty orbits have been appended *)
Theorem C51_add_raises_refuted : exists s s',
  init gd 1%Z (mkconfig true false 1%Z {| tol := 0%Z; max_iter := 3%Z; degree := 5%Z |} false "true" 2 true false) (kwd matd) = Ok s
  /\ add_orbits gd 1 (mkkws None None None no6 (mk6 (Some (Sc 1%Z)) None None None None None)) s = (s', Raise AttributeError)
  /\ OrbitModel.num s' = S (OrbitModel.num s).
Proof. eexists _, _. split; [vm_compute; reflexivity|]. split; vm_compute; reflexivity. Qed.
(** hypotheses of C52 *)
Example C52_elements_example : invalid (mkkws None None (Some (Sc 1%Z)) no6 (kw_k kw_add)) (with_flags true true true false s3l).
Proof. right. right. right. split; [discriminate|reflexivity]. Qed.
(** cartesian=, kepler=, m=, x= and a= together, in direct mode: no error, only cartesian= is used *)
Definition kw_all : kws Z := mkkws (Some (Sc 1%Z)) (Some (Sc 2%Z)) (Some (Sc 3%Z))
  (mk6 (Some (Sc 4%Z)) None None None None None) (mk6 (Some (Sc 5%Z)) None None None None None).
Theorem C52_ignored_refuted : exists s s', init gd 1%Z (cfgd "true" 2) (kwd matd) = Ok s
  /\ odirect s = true /\ invalid kw_all s /\ update gd IAll kw_all s = (s', Ok tt) /\ s' <> s
  /\ update gd IAll (mkkws (Some (Sc 1%Z)) None None no6 no6) s = (s', Ok tt) /\ om s' = om s.
Proof.
  eexists _, _. split; [vm_compute; reflexivity|]. split; [reflexivity|]. split; [left; split; reflexivity|].
  split; [vm_compute; reflexivity|]. split; [discriminate|]. split; vm_compute; reflexivity.
Qed.
(** hypotheses of C53: a mask, and values per selected orbit *)
Example C53_example : exists s', lens 3 s3l /\ odirect s3l = false /\ no_repeats 3 (IMask [true; false; true])
  /\ nth_selected 3 (IMask [true; false; true]) 1 2 /\ ~ selected 3 (IMask [true; false; true]) 1
  /\ update gd (IMask [true; false; true]) (mkkws None (Some (fresh [6; 2] [1; 2; 0; 0; 1; 1; 1; 1; 1; 1; 3; 4]%Z)) None no6 no6) s3l = (s', Ok tt)
  /\ okep s' = [mk6 1 0 1 1 1 3; mk6 8 0 2 3 4 6; mk6 2 0 1 1 1 4]%Z.
Proof.
  eexists. split; [apply s3l_aligned|]. split; [reflexivity|]. split.
  { intros i i' p H1 H2. destruct H1 as [_ [_ <-]], H2 as [_ [_ <-]]. reflexivity. }
  split; [split; [lia|auto]|]. split; [intros [_ Q]; discriminate|]. split; vm_compute; reflexivity.
Qed.
Example C53_elements_example : exists s', lens 3 s3l /\ no_repeats 3 (IList [2; 0]%Z)
  /\ update gd (IList [2; 0]%Z) kw_add s3l = (s', Ok tt)
  /\ okep s' = [mk6 2 0 2 3 4 5; mk6 8 0 2 3 4 6; mk6 1 0 2 3 4 7]%Z /\ om s' = [6; 0; 5]%Z.
Proof.
  eexists. split; [apply s3l_aligned|]. split; [|split; [vm_compute; reflexivity|split; vm_compute; reflexivity]].
  intros i i' p [_ [z [Hz Iz]]] [Hp [z' [Hz' Iz']]].
  assert (z = z') by (destruct i as [|[|[|]]], i' as [|[|[|]]]; cbn in Hz, Hz'; try discriminate;
    injection Hz as <-; injection Hz' as <-; unfold is_index in *; lia). subst z'.
  destruct i as [|[|[|]]], i' as [|[|[|]]]; cbn in Hz, Hz'; congruence.
Qed.
Example C54_example : exists v, lens 3 s3l /\ wfv v /\ (match v with Arr [] _ _ | Arr [_] _ _ => False | _ => True end)
  /\ v = mat3 /\ snd (set_kepler gd v s3l) = Ok tt.
Proof. exists mat3. split; [apply s3l_aligned|]. split; [split; reflexivity|]. split; [exact I|]. split; [auto|vm_compute; reflexivity]. Qed.
Example C54_vector_example : lens 3 s3l /\ ocro s3l = false /\ okro s3l = false /\ length [1; 0; 1; 1; 1; 1]%Z = 6 /\ 3 <> 6.
Proof. split; [apply s3l_aligned|]. repeat (split; [reflexivity|]). lia. Qed.
End Examples.
