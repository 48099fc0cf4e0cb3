(** * C65: calc_true_anomaly, calc_mean_anomaly and calc_eccentric_anomaly of some of the orbits *)
From Coq Require Import Reals Lra String List Bool Arith Lia ZArith QArith.
From Verif Require Import NP KeplerModel ConvModel UnitModel OrbitModel Lists ConvCols ArraySpec
  NPReal RealBase Spec AnomReal KepReal PropsKep CartInv PropsAnomaly PropsAnomalyR PropsSolver PropsScalar PropsDegrees PropsCart
  OrbitLists OrbitBase OrbitOps OrbitSetters OrbitGet OrbitSpec PropsOrbitWidth PropsOrbitDirect PropsOrbitLazy
  PropsOrbitWrite OrbitReal PropsOrbitType PropsOrbitProp PropsOrbitPropR PropsOrbitUpdate NPToyN.
Import ListNotations.
Local Open Scope nat_scope.

Section Generic.
Context {F : Type} `{NP F}.
Notation orb := (OrbitModel.orb F).

(** ** Specification *)
(** the public attributes _true_anomaly, _eccentric_anomaly, _mean_anomaly *)
Definition cache_of (w : anomaly) (s : orb) : list F :=
  match w with ATrue => onu s | AEcc => entries (oE s) | AMean => oMa s end.
Definition calc_of gb (w : anomaly) (i : Idx) : OrbitModel.M (F := F) unit :=
  match w with
  | ATrue => calc_true_anomaly gb i
  | AEcc => calc_eccentric_anomaly gb i
  | AMean => calc_mean_anomaly gb i
  end.
Definition reversed (i : Idx) : Prop := match i with ISlice _ _ st => (st < 0)%Z | _ => False end.
Definition an_int (i : Idx) : Prop := match i with IInt _ => True | _ => False end.
(** the shortcut that mean_to_eccentric takes for a scalar eccentricity 0 (kepler.py:1327) gives what
    the solver gives for that orbit; true of every finite mean anomaly in exact arithmetic *)
Definition circle_short (s : orb) (k : six F) : Prop := eqb (s1 k) (lit 0) = true ->
  m2e_el (oopts s) (inr (odeg s) (s5 k)) (s1 k) = inr (odeg s) (s5 k).

(** ** Proof *)
Lemma by_cases_branch g fh fp fe (x e : F) : ordered1 e -> by_cases fh fp fe x e = branch g fh fp fe x e.
Proof.
  unfold ordered1, by_cases, branch. destruct (ltb (lit 1) e), (eqb e (lit 1)), (ltb e (lit 1)); tauto.
Qed.
Lemma anom1_ordered w (s : orb) g g' k : ordered1 (s1 k) -> anom1 w s g k = anom1 w s g' k.
Proof.
  intros O. unfold anom1, nu1, ec1, ma1, e2t1, t2e1, m2t1, m2e1, t2m1, e2m1, e2t1, t2e1.
  destruct w, (otype s); auto.
  all: rewrite ?(branch_ordered (fst g) (fst g')), ?(branch_ordered (snd g) (snd g')) by auto; reflexivity.
Qed.
(** the conversion from the stored anomaly to the anomaly [w] *)
Definition conv_of gb (w : anomaly) (s : orb) (x e : arg F) : res (arg F) :=
  match otype s, w with
  | ATrue, AEcc => true_to_eccentric (gb 25) x e (odeg s)
  | ATrue, AMean => true_to_mean (gb 23) (gb 24) x e (odeg s)
  | AEcc, ATrue => eccentric_to_true (gb 22) x e (odeg s)
  | AEcc, AMean => eccentric_to_mean (gb 23) x e (odeg s)
  | AMean, ATrue => mean_to_true (gb 22) x e (oopts s) (odeg s)
  | AMean, AEcc => mean_to_eccentric x e (oopts s) (odeg s)
  | _, _ => Ok x
  end.
Lemma in_rad_arr1 deg n m (d : list F) : exists m', in_rad deg (Arr [n] m d) = Arr [n] m' (map (inr deg) d).
Proof. destruct deg; cbn; eexists; [reflexivity|]. now rewrite map_id. Qed.
(** when the stored anomaly is not the mean one the memory order does not matter *)
Lemma conv_mem gb w (s : orb) n m m' dx de : length dx = n -> length de = n ->
  otype s <> AMean -> otype s <> w ->
  conv_of gb w s (Arr [n] m dx) (Arr [n] m' de) = conv_of gb w s (fresh [n] dx) (fresh [n] de).
Proof.
  intros Lx Le Hm Hw. unfold fresh. generalize (seq 0 (length dx)), (seq 0 (length de)). intros q q'.
  destruct (in_rad_arr1 (odeg s) n m dx) as [m1 E1]. destruct (in_rad_arr1 (odeg s) n q dx) as [m2 E2].
  assert (T : forall g a b l deg m, in_rad deg (Arr [n] a l) = Arr [n] m (map (inr deg) l) -> forall m2, in_rad deg (Arr [n] b l) = Arr [n] m2 (map (inr deg) l) ->
     true_to_eccentric g (Arr [n] a l) (Arr [n] m' de) deg = true_to_eccentric g (Arr [n] b l) (Arr [n] q' de) deg).
  { intros g a b l deg m3 Q1 m4 Q2. unfold true_to_eccentric. rewrite Q1, Q2. cbn [broadcast shape_eqb]. rewrite Nat.eqb_refl. reflexivity. }
  unfold conv_of. destruct (otype s), w; try congruence.
  - now apply (T _ _ _ _ _ m1 E1 m2).
  - unfold true_to_mean. rewrite E1, E2. rewrite (T _ m1 m2 _ false m1 (f_equal _ (eq_sym (map_id _))) m2 (f_equal _ (eq_sym (map_id _)))).
    destruct (true_to_eccentric _ _ _ _) as [[|sh me dE]|]; try reflexivity.
    cbn [rbind]. unfold eccentric_to_mean. cbn [in_rad broadcast]. destruct (shape_eqb _ _); reflexivity.
  - unfold eccentric_to_true. rewrite E1, E2. cbn [broadcast shape_eqb]. rewrite Nat.eqb_refl. reflexivity.
  - unfold eccentric_to_mean. rewrite E1, E2. cbn [broadcast shape_eqb]. rewrite Nat.eqb_refl. reflexivity.
Qed.
Lemma sel_arr (row : list F) i ps : ~ an_int i -> resolve (length row) i = Ok ps ->
  exists m, sel row i = Ok (Arr [length ps] m (pick ps row)) /\ (~ reversed i -> m = seq 0 (length ps)).
Proof.
  intros Hi E. unfold sel. rewrite E. cbn [rbind].
  assert (L : length (pick ps row) = length ps) by (apply pick_length; eapply resolve_bounded; eauto). rewrite L.
  destruct i; try (eexists; split; [reflexivity|intros _; now rewrite ?L]).
  - now destruct Hi.
  - eexists. split; [reflexivity|]. cbn [reversed]. intros R. destruct (Z.ltb_spec step 0); [lia|reflexivity].
Qed.
Lemma sel_int (row : list F) z ps : resolve (length row) (IInt z) = Ok ps ->
  exists p x, ps = [p] /\ nth_error row p = Some x /\ sel row (IInt z) = Ok (Sc x).
Proof.
  intros E. unfold sel. rewrite E. cbn [rbind]. pose proof (resolve_bounded _ _ _ _ E) as B.
  unfold resolve in E. cbn [resolve_gen resolve_list] in E. destruct (py_index (length row) z) as [p|]; [|discriminate].
  injection E as <-. assert (Hp : p < length row) by (apply B; now left).
  destruct (nth_error row p) as [x|] eqn:Ex; [|apply nth_error_None in Ex; lia].
  exists p, x. split; [auto|]. split; [auto|]. cbn. now rewrite Ex.
Qed.
(** a scalar conversion *)
Lemma conv_sc gb w (s : orb) k : ordered1 (s1 k) -> (otype s = AMean -> w = AEcc \/ circle_short s k) ->
  (otype s = AMean -> w <> AEcc) ->
  forall g, conv_of gb w s (Sc (s5 k)) (Sc (s1 k)) = Ok (Sc (anom1 w s g k)).
Proof.
  intros O Hz Hn g. unfold conv_of, anom1, nu1, ec1, ma1.
  destruct (otype s) eqn:Et, w; try reflexivity.
  - unfold true_to_eccentric, t2e1, in_rad, out_deg, inr, outd. destruct (odeg s); cbn [amap broadcast rbind];
      now rewrite (by_cases_branch (fst g)).
  - unfold true_to_mean, true_to_eccentric, eccentric_to_mean, t2m1, e2m1, t2e1, in_rad, out_deg, inr, outd.
    destruct (odeg s); cbn [amap broadcast rbind]; now rewrite (by_cases_branch (snd g)), (by_cases_branch (fst g)).
  - unfold eccentric_to_true, e2t1, in_rad, out_deg, inr, outd. destruct (odeg s); cbn [amap broadcast rbind];
      now rewrite (by_cases_branch (fst g)).
  - unfold eccentric_to_mean, e2m1, in_rad, out_deg, inr, outd. destruct (odeg s); cbn [amap broadcast rbind];
      now rewrite (by_cases_branch (fst g)).
  - destruct (Hz eq_refl) as [|Hz']; [discriminate|].
    unfold mean_to_true, mean_to_eccentric, eccentric_to_true, m2t1, e2t1, m2e1, in_rad, out_deg, inr, outd.
    destruct (odeg s) eqn:Hd; cbn [amap broadcast rbind]; destruct (eqb (s1 k) (lit 0)) eqn:Z; cbn [broadcast rbind]; rewrite (by_cases_branch (fst g)) by auto; try reflexivity;
      unfold circle_short, inr in Hz'; rewrite Hd in Hz'; now rewrite (Hz' Z).
  - now destruct (Hn eq_refl).
Qed.
Lemma conv_sc_ok gb w (s : orb) x e : exists v, conv_of gb w s (Sc x) (Sc e) = Ok (Sc v).
Proof.
  unfold conv_of. destruct (otype s), w; try (now eexists);
  unfold true_to_mean, mean_to_true, mean_to_eccentric, true_to_eccentric, eccentric_to_mean, eccentric_to_true, in_rad, out_deg;
  destruct (odeg s); cbn [amap broadcast rbind]; try (destruct (eqb e (lit 0)); cbn [broadcast rbind amap]); now eexists.
Qed.
(** an array conversion *)
Lemma conv_arr gb w (s : orb) n dx de : length dx = n -> length de = n ->
  exists vs, conv_of gb w s (fresh [n] dx) (fresh [n] de) = Ok (fresh [n] vs) /\ length vs = n
  /\ forall i k, nth_error dx i = Some (s5 k) -> nth_error de i = Some (s1 k) -> exists g, nth_error vs i = Some (anom1 w s g k).
Proof.
  intros Lx Le. unfold conv_of, anom1, nu1, ec1, ma1.
  assert (Li : forall f : nat -> F -> F -> F, length (imap2 f 0 dx de) = n) by (intros; rewrite imap2_length; lia).
  destruct (otype s) eqn:Et, w; try (exists dx; split; [reflexivity|]; split; [auto|]; intros i k Hi _; exists (nan, nan); exact Hi).
  - rewrite t2e_arr by auto. eexists. split; [reflexivity|]. split; [apply Li|]. intros i k H1 H2. rewrite imap2_nth, H1, H2.
    eexists (_, nan). reflexivity.
  - rewrite t2m_arr by auto. eexists. split; [reflexivity|]. split; [apply Li|]. intros i k H1 H2. rewrite imap2_nth, H1, H2.
    eexists. reflexivity.
  - rewrite e2t_arr by auto. eexists. split; [reflexivity|]. split; [apply Li|]. intros i k H1 H2. rewrite imap2_nth, H1, H2.
    eexists (_, nan). reflexivity.
  - rewrite e2m_arr by auto. eexists. split; [reflexivity|]. split; [apply Li|]. intros i k H1 H2. rewrite imap2_nth, H1, H2.
    eexists (_, nan). reflexivity.
  - rewrite m2t_arr by auto. eexists. split; [reflexivity|]. split; [apply Li|]. intros i k H1 H2. rewrite imap2_nth, H1, H2.
    eexists (_, nan). reflexivity.
  - rewrite m2e_arr by auto. eexists. split; [reflexivity|]. split; [rewrite map2_length; lia|]. intros i k H1 H2.
    rewrite nth_error_map2, H1, H2. exists (nan, nan). reflexivity.
Qed.
Definition val_of gb w (i : Idx) (s s' : orb) : res (arg F) :=
  if anomaly_dec (otype s) w then sel (map (row_get 5) (okep s')) i else two_val i (conv_of gb w s) s'.
Definition with_cache w (n : nat) (vs : list F) (s : orb) : orb :=
  match w with
  | ATrue => OrbitModel.with_nu (fun _ => vs) s
  | AMean => with_Ma (fun _ => vs) s
  | AEcc => with_E (fun _ => fresh [n] vs) s
  end.
Lemma calc_of_eq gb w i n (s : orb) x vs : aligned n s -> (w = AEcc -> otype s <> AMean) ->
  val_of gb w i s (kchk gb s) = Ok x -> assign (cache_of w s) i x = Ok vs ->
  calc_of gb w i s = (with_cache w n vs (kchk gb s), Ok tt).
Proof.
  intros [Hs [d [HE Ld]]] Hw Hx Ha. destruct (kchk_spec gb n s Hs) as [_ [Enu [_ [_ [_ [EE [EMa _]]]]]]].
  unfold val_of in Hx.
  assert (G : forall m : OrbitModel.M (F := F) (arg F), m s = (kchk gb s, Ok x) -> forall f : arg F -> OrbitModel.M (F := F) unit, bind m f s = f x (kchk gb s)).
  { intros m Em f. unfold bind. now rewrite Em. }
  unfold calc_of, calc_true_anomaly, calc_mean_anomaly, calc_eccentric_anomaly.
  destruct w; rewrite bind_get; destruct (otype s) eqn:Et; try (now destruct (Hw eq_refl)); destruct (anomaly_dec _ _) as [Q|Q]; try discriminate Q; try (now destruct Q); clear Q.
  all: unfold conv_of in Hx; rewrite ?Et in Hx.
  - etransitivity; [apply (G (one_row gb i)); rewrite (one_row_eq gb n) by auto; congruence|]. rewrite bind_get, Enu, bind_lift.
    cbn [cache_of] in Ha. now rewrite Ha.
  - etransitivity; [apply (G (two_rows gb i (fun xa xe => eccentric_to_true (gb 22) xa xe (odeg s)))); rewrite (two_rows_eq gb n) by auto; congruence|].
    rewrite bind_get, Enu, bind_lift. cbn [cache_of] in Ha. now rewrite Ha.
  - etransitivity; [apply (G (two_rows gb i (fun xa xe => mean_to_true (gb 22) xa xe (oopts s) (odeg s)))); rewrite (two_rows_eq gb n) by auto; congruence|].
    rewrite bind_get, Enu, bind_lift. cbn [cache_of] in Ha. now rewrite Ha.
  - etransitivity; [apply (G (two_rows gb i (fun xa xe => true_to_eccentric (gb 25) xa xe (odeg s)))); rewrite (two_rows_eq gb n) by auto; congruence|].
    rewrite bind_get, EE, HE. cbn [fresh]. rewrite bind_lift. cbn [cache_of] in Ha. rewrite HE in Ha. cbn [entries fresh] in Ha.
    rewrite Ha. cbn. f_equal. f_equal. apply assign_length in Ha. now rewrite Ha, Ld.
  - etransitivity; [apply (G (one_row gb i)); rewrite (one_row_eq gb n) by auto; congruence|].
    rewrite bind_get, EE, HE. cbn [fresh]. rewrite bind_lift. cbn [cache_of] in Ha. rewrite HE in Ha. cbn [entries fresh] in Ha.
    rewrite Ha. cbn. f_equal. f_equal. apply assign_length in Ha. now rewrite Ha, Ld.
  - etransitivity; [apply (G (two_rows gb i (fun xa xe => true_to_mean (gb 23) (gb 24) xa xe (odeg s)))); rewrite (two_rows_eq gb n) by auto; congruence|].
    rewrite bind_get, EMa, bind_lift. cbn [cache_of] in Ha. now rewrite Ha.
  - etransitivity; [apply (G (two_rows gb i (fun xa xe => eccentric_to_mean (gb 23) xa xe (odeg s)))); rewrite (two_rows_eq gb n) by auto; congruence|].
    rewrite bind_get, EMa, bind_lift. cbn [cache_of] in Ha. now rewrite Ha.
  - etransitivity; [apply (G (one_row gb i)); rewrite (one_row_eq gb n) by auto; congruence|]. rewrite bind_get, EMa, bind_lift.
    cbn [cache_of] in Ha. now rewrite Ha.
Qed.
Lemma bcast1_arr1 n m (d : list F) : length d = n -> bcast1 n (Arr [n] m d) = Ok d.
Proof. intros L. exact (bcast1_fresh n d L). Qed.
(** the values written: at position [p] the anomaly [w] of orbit [p] *)
Lemma val_spec gb w i n (s : orb) ps : aligned n s -> resolve n i = Ok ps ->
  (otype s = AMean -> ~ reversed i) ->
  exists x vs, val_of gb w i s (kchk gb s) = Ok x /\ bcast1 (length ps) x = Ok vs /\ length vs = length ps
  /\ forall a p k, nth_error ps a = Some p -> nth_error (okep (kchk gb s)) p = Some k -> ordered1 (s1 k) ->
     (an_int i -> otype s = AMean -> w = AMean \/ w = ATrue /\ circle_short s k) ->
     forall g, nth_error vs a = Some (anom1 w s g k).
Proof.
  intros A Hr Hv. pose proof (aligned_kchk gb n s A) as [Hk _]. pose proof (l_k n _ Hk) as Lk.
  set (s' := kchk gb s) in *.
  assert (R : forall r, resolve (length (map (row_get r) (okep s'))) i = Ok ps) by (intros r; now rewrite map_length, Lk).
  assert (B : bounded n ps) by (eapply resolve_bounded; eauto).
  assert (D : an_int i \/ ~ an_int i) by (destruct i; cbn; auto).
  unfold val_of, two_val. destruct D as [Di|Di].
  - destruct i as [| |z| | |]; try contradiction.
    destruct (sel_int _ z ps (R 5)) as [p [x [-> [E5 S5]]]]. destruct (sel_int _ z _ (R 1)) as [p' [e [Q [E1 S1]]]].
    injection Q as <-. rewrite S5, S1. cbn [rbind]. rewrite nth_error_map in E5, E1.
    destruct (anomaly_dec (otype s) w) as [Q|Q].
    + exists (Sc x), [x]. split; [auto|]. split; [reflexivity|]. split; [auto|].
      intros [|a] q k Ha Hq _ _ g; [|destruct a; discriminate]. injection Ha as <-. rewrite Hq in E5. cbn in E5.
      injection E5 as <-. cbn. f_equal. unfold anom1, nu1, ec1, ma1. destruct w; now rewrite Q.
    + destruct (conv_sc_ok gb w s x e) as [v Ev]. exists (Sc v), [v]. split; [auto|]. split; [reflexivity|]. split; [auto|].
      intros [|a] q k Ha Hq O Hz g; [|destruct a; discriminate]. injection Ha as <-. rewrite Hq in E5, E1. cbn in E5, E1.
      injection E5 as <-. injection E1 as <-.
      assert (C : conv_of gb w s (Sc (s5 k)) (Sc (s1 k)) = Ok (Sc (anom1 w s g k))).
      { apply conv_sc; auto; intros Em; destruct (Hz I Em) as [->|[-> Z]]; (congruence || auto). }
      rewrite C in Ev. injection Ev as <-. reflexivity.
  - destruct (sel_arr _ i ps Di (R 5)) as [m5 [S5 M5]]. destruct (sel_arr _ i ps Di (R 1)) as [m1 [S1 M1]].
    rewrite S5, S1. cbn [rbind].
    assert (L : forall r, length (pick ps (map (row_get r) (okep s'))) = length ps).
    { intros r. apply pick_length. now rewrite map_length, Lk. }
    assert (V : forall a p k r, nth_error ps a = Some p -> nth_error (okep s') p = Some k ->
       nth_error (pick ps (map (row_get r) (okep s'))) a = Some (row_get r k)).
    { intros a p k r Ha Hp. rewrite pick_nth, Ha, nth_error_map, Hp by (now rewrite map_length, Lk). reflexivity. }
    destruct (anomaly_dec (otype s) w) as [Q|Q].
    + exists (Arr [length ps] m5 (pick ps (map (row_get 5) (okep s')))), (pick ps (map (row_get 5) (okep s'))).
      split; [auto|]. split; [now apply bcast1_arr1|]. split; [auto|]. intros a p k Ha Hp _ _ g.
      rewrite (V a p k 5) by auto. f_equal. unfold anom1, nu1, ec1, ma1. destruct w; now rewrite Q.
    + assert (C : conv_of gb w s (Arr [length ps] m5 (pick ps (map (row_get 5) (okep s')))) (Arr [length ps] m1 (pick ps (map (row_get 1) (okep s'))))
         = conv_of gb w s (fresh [length ps] (pick ps (map (row_get 5) (okep s')))) (fresh [length ps] (pick ps (map (row_get 1) (okep s'))))).
      { destruct (anomaly_dec (otype s) AMean) as [Em|Em]; [|now apply conv_mem].
        unfold fresh. rewrite !L, M5, M1 by auto. reflexivity. }
      rewrite C. destruct (conv_arr gb w s (length ps) _ _ (L 5) (L 1)) as [vs [Ev [Lv W]]]. exists (fresh [length ps] vs), vs.
      split; [auto|]. split; [now apply bcast1_fresh|]. split; [auto|]. intros a p k Ha Hp O _ g.
      destruct (W a k (V a p k 5 Ha Hp) (V a p k 1 Ha Hp)) as [g' ->]. f_equal. now apply anom1_ordered.
Qed.
Lemma cache_len n w (s : orb) : aligned n s -> length (cache_of w s) = n.
Proof. intros [[] [d [HE Ld]]]. destruct w; cbn; auto. now rewrite HE. Qed.
Lemma cache_kchk gb n w (s : orb) : lens n s -> cache_of w (kchk gb s) = cache_of w s.
Proof.
  intros Hs. destruct (kchk_spec gb n s Hs) as [_ [Enu [_ [_ [_ [EE [EMa _]]]]]]]. destruct w; cbn; congruence.
Qed.
Lemma cache_with w n vs (s : orb) w' : cache_of w' (with_cache w n vs s) = if anomaly_dec w' w then vs else cache_of w' s.
Proof. destruct (anomaly_dec w' w) as [->|N]; [now destruct w|]. destruct w, w'; try reflexivity; congruence. Qed.

(** For every arithmetic, state and index: the call succeeds and stores, for each selected orbit, the
    anomaly that the getter returns for that orbit (only if its eccentricity is NaN may the stored
    values be anything); the other entries, the other two caches and everything else stay as they were
    (stale Kepler columns are refreshed as by reading [kepler]).
    Full claim: without the two conditions on type mean and for all eccentricities.  Missing, and false:
    calc_eccentric_anomaly in type mean (it replaces the whole attribute, see C41), slices with a
    negative step in type mean (see [C65_reverse_refuted]).  An integer index in type mean on an orbit
    of eccentricity 0 takes a shortcut: the claim then needs that the solver agrees with it
    ([C65_calc_real_partial]: always so in exact arithmetic). *)
Theorem C65_calc_partial : forall gb w i n (s : orb), aligned n s -> valid_index n i ->
  (otype s = AMean -> w <> AEcc /\ ~ reversed i) ->
  exists s' vs, calc_of gb w i s = (s', Ok tt) /\ snd (get_of gb w s) = Ok vs
  /\ aligned n s' /\ core s' = core (fst (get_kepler gb s))
  /\ (forall j k, selected n i j -> nth_error (okep s') j = Some k -> ordered1 (s1 k) ->
       (an_int i -> otype s = AMean -> w = ATrue -> circle_short s k) ->
       nth_error (cache_of w s') j = nth_error vs j)
  /\ (forall j, ~ selected n i j -> nth_error (cache_of w s') j = nth_error (cache_of w s) j)
  /\ (forall w', w' <> w -> cache_of w' s' = cache_of w' s).
Proof.
  intros gb w i n s A Hi Hm. pose proof A as [Hs HE]. pose proof (aligned_kchk gb n s A) as A1.
  destruct (proj1 (resolve_valid IndexError n i) Hi) as [ps Hr].
  destruct (val_spec gb w i n s ps A Hr (fun E => proj2 (Hm E))) as [x [vs [Ex [Eb [Lv V]]]]].
  assert (Ea : assign (cache_of w s) i x = Ok (put ps vs (cache_of w s))).
  { unfold assign. rewrite (cache_len n) by auto. unfold resolve in *. rewrite Hr. cbn [rbind]. now rewrite Eb. }
  destruct (get_of_spec gb n w s A) as [sg [us [Eg [_ [_ [Lu U]]]]]].
  exists (with_cache w n (put ps vs (cache_of w s)) (kchk gb s)), us.
  assert (Ew : w = AEcc -> otype s <> AMean) by (intros E Em; now destruct (Hm Em)).
  split; [now apply (calc_of_eq gb w i n s x)|]. split; [now rewrite Eg|].
  assert (Lp : length (put ps vs (cache_of w s)) = n) by (rewrite put_length; now apply cache_len).
  split.
  { destruct A1 as [B1 B2]. destruct w; cbn [with_cache].
    - split; [now apply lens_with_nu|exact B2].
    - split; [destruct B1; now constructor|]. eexists. split; [reflexivity|auto].
    - split; [now apply lens_with_Ma|exact B2]. }
  split; [rewrite (get_kepler_eq gb n) by auto; now destruct w|].
  assert (Ok' : okep (with_cache w n (put ps vs (cache_of w s)) (kchk gb s)) = okep (kchk gb s)) by now destruct w.
  split; [|split].
  - intros j k Hj Hk O Hz. rewrite Ok' in Hk. rewrite cache_with. destruct (anomaly_dec w w) as [_|N]; [|congruence].
    destruct (U j k Hk) as [g Hg]. rewrite Hg.
    assert (Hin : In j ps) by now apply (resolve_in IndexError n i).
    assert (Q : forall ps vs l, length vs = length ps -> j < length l -> In j ps ->
       (forall a, nth_error ps a = Some j -> nth_error vs a = Some (anom1 w s g k)) -> nth_error (put ps vs l) j = Some (anom1 w s g k)).
    { clear. induction ps as [|p ps IH]; intros [|v vs] l L Hj Hin Hv; try discriminate; [contradiction|]. cbn [put].
      destruct (in_dec Nat.eq_dec j ps) as [Hi|Hi].
      - apply IH; auto. + now rewrite PropsUnit.upd_nth_length. + intros a. apply (Hv (S a)).
      - destruct Hin as [->|]; [|contradiction]. rewrite put_other by auto. rewrite PropsUnit.upd_nth_same by auto.
        apply (Hv 0). reflexivity. }
    apply Q; auto.
    + rewrite (cache_len n) by auto. apply nth_error_lt in Hk. destruct A1 as [[] _]. lia.
    + intros b Hb. apply (V b j k); auto. intros Hint Em. destruct (anomaly_dec w AMean) as [|N1]; [now left|right].
      assert (w = ATrue) as -> by (destruct w; try congruence; now destruct (Hm Em)). split; auto.
  - intros j Hj. rewrite cache_with. destruct (anomaly_dec w w) as [_|N]; [|congruence]. rewrite put_other; [auto|].
    intros Q. apply Hj. now apply (resolve_in IndexError n i ps Hr).
  - intros w' Hw. rewrite cache_with. destruct (anomaly_dec w' w) as [|_]; [congruence|]. now apply (cache_kchk gb n).
Qed.
End Generic.

Section Reals.
Open Scope R_scope.
Notation orb := (OrbitModel.orb NPReal.num).
(** Exact arithmetic: the condition on circular orbits always holds, so a calc_* method with any index
    stores what the getter returns, apart from the two refuted cases of type mean. *)
Theorem C65_calc_real_partial : forall gb w i n (s : orb) tl, aligned n s -> valid_index n i -> opts_ok (oopts s) tl ->
  (otype s = AMean -> w <> AEcc /\ ~ reversed i) ->
  exists s' vs, calc_of gb w i s = (s', Ok tt) /\ snd (get_of gb w s) = Ok vs
  /\ aligned n s' /\ core s' = core (fst (get_kepler gb s))
  /\ (forall j k, selected n i j -> nth_error (okep s') j = Some (fin6 k) -> nth_error (cache_of w s') j = nth_error vs j)
  /\ (forall j, ~ selected n i j -> nth_error (cache_of w s') j = nth_error (cache_of w s) j)
  /\ (forall w', w' <> w -> cache_of w' s' = cache_of w' s).
Proof.
  intros gb w i n s tl A Hi [Ht [Hp _]] Hm. destruct (C65_calc_partial gb w i n s A Hi Hm) as [s' [vs [E1 [E2 [E3 [E4 [E5 [E6 E7]]]]]]]].
  exists s', vs. repeat (split; [assumption|]). split; [|auto]. intros j k Hj Hk. apply (E5 j (fin6 k)); auto.
  - rewrite row1_fin. apply ordered_fin.
  - intros _ _ _. unfold circle_short. rewrite row1_fin, row5_fin, inr_fin. intros Z. cbn in Z. unfold Q2R in Z. cbn in Z. destruct (Reqb_spec (s1 k) (0 * / 1)) as [Z0|]; [|discriminate]. rewrite Rmult_0_l in Z0.
    rewrite Z0. now apply (m2e_el_zero (oopts s) tl).
Qed.
(** In type mean a slice with a negative step gives the orbits each other's anomaly: the conversion
    walks the reversed view in memory order.  Two circular orbits, for which the true and the mean
    anomaly are the same. *)
Theorem C65_reverse_refuted : forall gb (s : orb) (k0 k1 : six R) tl,
  aligned 2 s -> otype s = AMean -> odeg s = false -> opts_ok (oopts s) tl ->
  snd (get_kepler gb s) = Ok [fin6 k0; fin6 k1] -> s1 k0 = 0 -> s1 k1 = 0 ->
  in_circle (s5 k0) -> in_circle (s5 k1) ->
  snd (get_true_anomaly gb s) = Ok [Fin (s5 k0); Fin (s5 k1)]
  /\ exists s', calc_true_anomaly gb (ISlice None None (-1)) s = (s', Ok tt)
     /\ onu s' = [Fin (s5 k1); Fin (s5 k0)].
Proof.
  intros gb s k0 k1 tl A Et Hd Ho Ek H0 H1 C0 C1. pose proof A as [Hs HE].
  rewrite (get_kepler_eq gb 2) in Ek by auto. cbn [snd] in Ek. injection Ek as Ek.
  assert (T : forall g x, in_circle x -> e2t1 g false (Fin x) (Fin 0) = Fin x).
  { intros g x Cx. destruct (e2t1_ell g false x 0 ltac:(lra)) as [nu [-> [Cn B]]]. cbn [ang] in *. f_equal.
    apply circle_eq; auto. apply (ell_cong_l 0 _ _ x B). unfold anomalies_ell. replace (1 - 0 * 0) with 1 by ring. rewrite sqrt_1. split; field_simplify; lra. }
  pose proof Ho as [Ht [Hp _]].
  assert (U : forall g x, in_circle x -> m2t1 g (oopts s) false (Fin x) (Fin 0) = Fin x).
  { intros g x Cx. unfold m2t1, m2e1. rewrite !inr_fin. cbn [ang]. rewrite (m2e_el_zero (oopts s) tl) by auto.
    rewrite outd_fin. cbn [unang]. rewrite T by auto. now rewrite outd_fin. }
  split.
  - destruct (get_of_spec gb 2 ATrue s A) as [sg [us [Eg [_ [_ [Lu V]]]]]]. cbn [get_of] in Eg. rewrite Eg. cbn [snd].
    rewrite Ek in Lu, V. destruct (V 0%nat _ eq_refl) as [g Hg]. destruct (V 1%nat _ eq_refl) as [g' Hg'].
    unfold anom1, nu1 in Hg, Hg'. rewrite Et, Hd, row5_fin, row1_fin in Hg, Hg'. rewrite H0, U in Hg by auto. rewrite H1, U in Hg' by auto.
    destruct us as [|a [|b [|]]]; try discriminate. cbn in Hg, Hg'. congruence.
  - eexists. split; [apply (calc_of_eq gb ATrue (ISlice None None (-1)) 2 s (fresh [2%nat] [Fin (s5 k0); Fin (s5 k1)]) [Fin (s5 k1); Fin (s5 k0)])|]; auto.
    + discriminate.
    + unfold val_of. destruct (anomaly_dec _ _) as [Q|_]; [congruence|]. unfold two_val, conv_of. rewrite Et, Ek, Hd.
      cbn [map row_get]. rewrite !row5_fin, !row1_fin, H0, H1.
      unfold sel, resolve. cbn [length resolve_gen Z.eqb rbind]. 
      change (slice_positions 2 None None (-1)) with [1%nat; 0%nat]. cbn [rbind].
      change (pick [1%nat; 0%nat] [Fin (s5 k0); Fin (s5 k1)]) with [Fin (s5 k1); Fin (s5 k0)].
      change (pick [1%nat; 0%nat] [Fin 0; Fin 0]) with [Fin 0; Fin 0]. cbn [length Z.ltb Z.compare rev app seq rbind].
      unfold mean_to_true, mean_to_eccentric. cbn [in_rad broadcast shape_eqb Nat.eqb andb rbind length out_deg seq nditer map nth map2].
      rewrite !(m2e_el_zero (oopts s) tl) by auto. change (Arr [2%nat] [0%nat; 1%nat] [Fin (s5 k0); Fin (s5 k1)]) with (fresh [2%nat] [Fin (s5 k0); Fin (s5 k1)]).
      transitivity (rlet nu := eccentric_to_true (gb 22%nat) (fresh [2%nat] [Fin (s5 k0); Fin (s5 k1)]) (fresh [2%nat] [Fin 0; Fin 0]) false in Ok nu); [reflexivity|].
      rewrite e2t_arr by reflexivity. cbn [imap2 rbind]. now rewrite !T.
    + destruct Hs. cbn [cache_of]. destruct (onu s) as [|a [|b [|]]]; try discriminate. reflexivity.
Qed.
End Reals.

Section Examples.
#[local] Existing Instance NP_toyn.
(** three orbits of type eccentric: every second one counted from the end, a repeated index list, an integer *)
Example C65_calc_example : forall w i, In w [ATrue; AEcc; AMean] -> In i [ISlice None None (-2); IList [1; -1; 1]%Z; IInt (-1)] ->
  aligned 3 s3l /\ valid_index 3 i /\ (otype s3l = AMean -> w <> AEcc /\ ~ reversed i) /\ selected 3 i 2
  /\ nth_error (okep s3l) 2 = Some (mk6 7 0 2 3 4 7)%Z /\ ordered1 0%Z.
Proof.
  intros w i _ Hi. split; [exact s3l_aligned|]. split; [|split; [discriminate|split; [|split; [reflexivity|exact I]]]].
  - destruct Hi as [<-|[<-|[<-|[]]]]; cbn; [lia| |].
    + intros z [<-|[<-|[<-|[]]]]; [exists 1|exists 2|exists 1]; (split; [lia|]); [left|right|left]; reflexivity.
    + exists 2. split; [lia|]. right. reflexivity.
  - split; [lia|]. destruct Hi as [<-|[<-|[<-|[]]]].
    + exists 0. apply slice_at_spec; [lia|]. reflexivity.
    + exists (-1)%Z. split; [cbn; auto|]. right. reflexivity.
    + right. reflexivity.
Qed.
Example C65_calc_result :
  cache_of AMean (fst (calc_of gd AMean (ISlice None None (-2)) s3l)) = [5; nan; 7]%Z
  /\ cache_of AEcc (fst (calc_of gd AEcc (IList [1; -1; 1]%Z) s3l)) = [nan; 6; 7]%Z
  /\ cache_of AMean (fst (calc_of gd AMean (IInt (-1)) s3l)) = [nan; nan; 7]%Z
  /\ snd (get_of gd AMean s3l) = Ok [5; 6; 7]%Z.
Proof. vm_compute. auto. Qed.
End Examples.

Section ExamplesR.
Open Scope R_scope.
(** two circular orbits of type mean with anomalies 1 and 2 *)
Definition k2 (x : R) : six R := mk6 1 0 0 0 0 x.
Definition s2r : OrbitModel.orb NPReal.num :=
  mkorb (Fin 1) (Fin 1) false false false false false AMean {| tol := Fin 1e-12; max_iter := 5000%Z; degree := Fin 5 |}
    [Fin 0; Fin 0] [nan6c; nan6c] [fin6 (k2 1); fin6 (k2 2)] [nan; nan] (fresh [2%nat] [nan; nan]) [nan; nan]
    [false; false] [true; true] None.
Example C65_reverse_example : forall gb,
  snd (get_true_anomaly gb s2r) = Ok [Fin 1; Fin 2]
  /\ exists s', calc_true_anomaly gb (ISlice None None (-1)) s2r = (s', Ok tt) /\ onu s' = [Fin 2; Fin 1].
Proof.
  intros gb. pose proof PI_RGT_0. pose proof PI2_3_2.
  apply (C65_reverse_refuted gb s2r (k2 1) (k2 2) 1e-12); try reflexivity.
  - split; [now constructor|]. exists [nan; nan]. auto.
  - split; [reflexivity|]. split; [lra|]. exists 5. split; [reflexivity|lra].
  - unfold in_circle. cbn. lra.
  - unfold in_circle. cbn. lra.
Qed.
(** an integer index on a circular orbit of type mean *)
Example C65_real_example : aligned 2 s2r /\ valid_index 2 (IInt (-1)) /\ opts_ok (oopts s2r) 1e-12
  /\ (otype s2r = AMean -> ATrue <> AEcc /\ ~ reversed (IInt (-1))) /\ selected 2 (IInt (-1)) 1
  /\ nth_error (okep s2r) 1 = Some (fin6 (k2 2)).
Proof.
  split; [split; [now constructor|]; exists [nan; nan]; auto|].
  split; [exists 1%nat; split; [lia|]; right; reflexivity|].
  split; [split; [reflexivity|]; split; [lra|]; exists 5; split; [reflexivity|lra]|].
  split; [intros _; split; [discriminate|intros []]|]. split; [|reflexivity]. split; [lia|]. right. reflexivity.
Qed.
End ExamplesR.
