(** * C63: the equinoctial property of Orbit *)
From Coq Require Import String List Bool Arith Lia ZArith QArith.
From Verif Require Import NP KeplerModel ConvModel UnitModel OrbitModel Lists ConvCols ArraySpec
  PropsAnomaly OrbitLists OrbitBase OrbitOps OrbitSetters OrbitInv OrbitSpec PropsOrbitWidth OrbitGet
  PropsOrbitDirect PropsOrbitLazy PropsOrbitWrite PropsOrbitModes PropsOrbitType PropsOrbitProp NPToyN.
Import ListNotations.
Local Open Scope nat_scope.

Section Generic.
Context {F : Type} `{NP F}.
Notation orb := (orb F).
Notation M := (M F).

(** ** Reading *)
(** what the getter returns for the columns [l]: a vector for a single orbit *)
Definition as_input (l : list (six F)) : kinput F := match l with [c] => KVec c | _ => KMat l end.
Lemma get_equi_spec gb n (s : orb) : aligned n s -> exists sa ms,
  get_equinoctial gb s = (sa, Ok (as_input (map (k2q_col (odeg s)) (map2 set5 (okep (kchk gb s)) ms))))
  /\ core sa = core (kchk gb s) /\ aligned n sa /\ length ms = n
  /\ forall j k, nth_error (okep (kchk gb s)) j = Some k -> exists g, nth_error ms j = Some (ma1 s g k).
Proof.
  intros A. pose proof A as [Hs HE]. unfold get_equinoctial. rewrite (bind_ok _ _ _ _ _ (get_kepler_eq gb n s Hs)).
  pose proof (lens_kchk gb n s Hs) as Hk.
  assert (Ak : aligned n (kchk gb s)).
  { split; [auto|]. destruct (kchk_spec gb n s Hs) as [_ [_ [_ [_ [_ [E _]]]]]]. destruct HE as [d HE]. exists d. now rewrite E. }
  change (get_mean_anomaly gb) with (get_of gb AMean).
  destruct (get_of_spec gb n AMean (kchk gb s) Ak) as [sa [ms [E1 [C1 [A1 [Lm Vm]]]]]]. rewrite (bind_ok _ _ _ _ _ E1), bind_get.
  rewrite (kchk_kchk gb n s Hs) in C1, Lm, Vm.
  pose proof (core_settings gb n s sa Hs C1) as Es. pose proof (kchk_settings gb n s Hs) as Ek.
  assert (Ed : odeg sa = odeg s) by (apply settings_eq in Es; tauto). rewrite Ed, kep_to_equi_cols_map.
  exists sa, ms. split.
  { destruct (map (k2q_col (odeg s)) (map2 set5 (okep (kchk gb s)) ms)) as [|c [|c2 l]]; reflexivity. }
  split; [auto|]. split; [auto|]. split; [rewrite Lm; now destruct Hk|].
  intros j k Hj. destruct (Vm j k Hj) as [g Hg]. exists g. rewrite Hg. f_equal. cbn [anom1]. unfold ma1.
  apply settings_eq in Ek. now replace (otype (kchk gb s)) with (otype s) by (symmetry; tauto);
    replace (odeg (kchk gb s)) with (odeg s) by (symmetry; tauto).
Qed.

(** ** Writing the Kepler side *)
(** no pending recalculation of the Kepler elements *)
Definition settledK (s : orb) : Prop := lazy s = true ->
  forall j c b, nth_error (ocart s) j = Some c -> nth_error (okf s) j = Some b -> b || nan6 c = true.
Lemma settled_kchk gb n (s : orb) : lens n s -> settledK s -> kchk gb s = s.
Proof.
  intros Hs Hf. destruct (lazy s) eqn:L; [|now apply kchk_id]. unfold OrbitBase.kchk.
  rewrite (kep_check_fresh gb n s Hs (Hf L)). reflexivity.
Qed.
Lemma core_settled gb n (s sa : orb) : lens n s -> core sa = core (kchk gb s) -> settledK sa.
Proof.
  intros Hs C L j c b Hc Hb. pose proof (core_settings gb n s sa Hs C) as Es.
  assert (E1 : ocart sa = ocart (kchk gb s)) by (unfold core in C; congruence).
  assert (E2 : okf sa = okf (kchk gb s)) by (unfold core in C; congruence). rewrite E1 in Hc. rewrite E2 in Hb.
  apply (kchk_flags gb n s Hs) with j; auto. now rewrite <- (settings_lazy s sa).
Qed.
Lemma twice_keprow gb n (sb : orb) : aligned n sb -> settledK sb ->
  let sd := aft_keprow gb (aft_keprow gb sb) in
  aligned n sd /\ settings sd = settings sb /\ om sd = om sb /\ okep sd = okep sb
  /\ (forall gb', snd (get_kepler gb' sd) = Ok (okep sb))
  /\ (odirect sb = false -> ocart sd = ocart sb)
  /\ (lazy sb = true \/ odirect sb = true -> forall gb' j k m, nth_error (okep sb) j = Some k -> nan6 k = false ->
        nth_error (om sb) j = Some m -> exists c, nth_error (ocart (cchk gb' sd)) j = Some c /\ Cc sb k m c).
Proof.
  intros Ab Hf sd. set (sc := aft_keprow gb sb) in *.
  assert (Ac : aligned n sc) by now apply aligned_aft_keprow.
  assert (Ad : aligned n sd) by now apply aligned_aft_keprow.
  assert (Sc : settings sc = settings sb) by now apply (aft_keprow_settings gb n); destruct Ab.
  assert (Sd : settings sd = settings sb) by (transitivity (settings sc); [now apply (aft_keprow_settings gb n); destruct Ac|auto]).
  assert (Kc : okep sc = okep sb) by (apply (aft_keprow_okep gb n), Ab).
  assert (Kd : okep sd = okep sb) by (rewrite <- Kc; apply (aft_keprow_okep gb n), Ac).
  assert (Mc : om sc = om sb) by (apply (aft_keprow_om gb n), Ab).
  assert (Md : om sd = om sb) by (rewrite <- Mc; apply (aft_keprow_om gb n), Ac).
  split; [auto|]. split; [auto|]. split; [auto|]. split; [auto|].
  assert (Dc : odirect sc = odirect sb) by now apply settings_direct.
  assert (Ld : lazy sd = lazy sb) by now apply settings_lazy.
  destruct (odirect sb) eqn:D.
  - assert (Lb : lazy sb = false) by now apply direct_not_lazy.
    split; [|split; [discriminate|]].
    { intros gb'. rewrite (get_kepler_eq gb' n) by apply Ad. cbn [snd]. f_equal. rewrite kchk_id; congruence. }
    intros _ gb' j k m Hk' Hn Hm. rewrite (cchk_id gb' sd) by congruence.
    assert (Esd : sd = call_ gb sc) by (unfold sd, aft_keprow at 1; now rewrite Dc).
    assert (Hj : j < n) by (rewrite <- (l_k n _ (proj1 Ab)); eapply nth_error_lt; eauto).
    destruct (call_spec gb n sc (proj1 Ac)) as [_ [_ [_ [_ [_ [_ [_ Sx]]]]]]]. rewrite <- Esd in Sx.
    destruct (col_ex n sc j (proj1 Ac) Hj) as [c [k1 [m1 [cb [kb C]]]]].
    destruct (Sx _ _ _ _ _ _ C) as [c' [k' [cb' [kb' [C' [R1 R2]]]]]].
    pose proof (col_k _ _ _ _ _ _ _ C) as Y1. rewrite Kc, Hk' in Y1. injection Y1 as <-.
    pose proof (col_m _ _ _ _ _ _ _ C) as Y2. rewrite Mc, Hm in Y2. injection Y2 as <-.
    exists c'. split; [apply (col_c _ _ _ _ _ _ _ C')|].
    destruct R2 as [[[?|?] _]|[_ [_ [_ R2]]]]; [discriminate|congruence|].
    destruct R2 as [_ R2]; [rewrite (settings_lazy sb) by auto; now rewrite Lb|]. now apply (Cc_settings sc sb).
  - assert (Ecd : ocart sd = ocart sb /\ okf sd = okf sb).
    { unfold sd, aft_keprow at 1 2. rewrite Dc. unfold sc, aft_keprow. rewrite D. split; reflexivity. }
    destruct Ecd as [Ecd Efd].
    assert (Fd : settledK sd).
    { intros L j c b Hc Hb. rewrite Ecd in Hc. rewrite Efd in Hb. rewrite Ld in L. eapply Hf; eauto. }
    split; [|split; [auto|]].
    { intros gb'. rewrite (get_kepler_eq gb' n) by apply Ad. cbn [snd]. f_equal.
      rewrite (settled_kchk gb' n); auto. apply Ad. }
    intros [Hz|Hz]; [|discriminate]. intros gb' j k m Hk' Hn Hm.
    assert (Hj : j < n) by (rewrite <- (l_k n _ (proj1 Ab)); eapply nth_error_lt; eauto).
    destruct (cchk_spec gb' n sd (proj1 Ad)) as [_ [_ [_ [_ [_ [_ [_ Sx]]]]]]].
    destruct (col_ex n sd j (proj1 Ad) Hj) as [c [k1 [m1 [cb [kb C]]]]].
    destruct (Sx _ _ _ _ _ _ C) as [c' [k' [cb' [kb' [C' [R1 R2]]]]]].
    pose proof (col_k _ _ _ _ _ _ _ C) as Y1. rewrite Kd, Hk' in Y1. injection Y1 as <-.
    pose proof (col_m _ _ _ _ _ _ _ C) as Y2. rewrite Md, Hm in Y2. injection Y2 as <-.
    assert (Y3 : kb || nan6 c = true).
    { apply (Fd) with j; [congruence|apply (col_c _ _ _ _ _ _ _ C)|apply (col_kb _ _ _ _ _ _ _ C)]. }
    assert (Y4 : ocf sd = all_false (ocf sc)) by (unfold sd, aft_keprow at 1; rewrite Dc; reflexivity).
    pose proof (col_cb _ _ _ _ _ _ _ C) as Y5. rewrite Y4 in Y5. unfold all_false in Y5. rewrite nth_error_map in Y5.
    assert (cb = false) as -> by (destruct (nth_error (ocf sc) j); cbn in Y5; congruence).
    exists c'. split; [apply (col_c _ _ _ _ _ _ _ C')|].
    destruct R2 as [[[?|?] _]|[_ [_ [_ R2]]]]; [rewrite Ld, Hz in *; discriminate|congruence|].
    destruct R2 as [_ R2]; [destruct kb; [now rewrite !andb_false_r|cbn in Y3; rewrite Y3; now rewrite !andb_false_r]|].
    now apply (Cc_settings sd sb).
Qed.
Lemma shape_eqb_refl a : shape_eqb a a = true.
Proof. now apply shape_eqb_eq. Qed.
Lemma map_repeat {A B} (f : A -> B) x n : map f (repeat x n) = repeat (f x) n.
Proof. induction n; cbn; congruence. Qed.
(** ** Assigning *)
(** the mean anomalies that [elems\[5, ...\]] stands for; a 0-dimensional array next to [e] of shape (n,) *)
Lemma m2t_zero_d g n x (de : list F) o : length de = n -> 
  mean_to_true g (Arr [] [0] [x]) (fresh [n] de) o true = mean_to_true g (fresh [n] (repeat x n)) (fresh [n] de) o true.
Proof.
  intros L. unfold mean_to_true. f_equal. unfold mean_to_eccentric, in_rad. cbn [amap].
  assert (E : amap radians (fresh [n] (repeat x n)) = fresh [n] (repeat (radians x) n)).
  { rewrite amap_fresh. unfold fresh. now rewrite map_repeat, !repeat_length. }
  rewrite E. unfold fresh. cbn [broadcast]. rewrite shape_eqb_refl. cbn [rbind].
  replace (map (fun _ => radians x) de) with (repeat (radians x) n); [|rewrite <- L; clear; induction de; cbn; congruence].
  now rewrite repeat_length, L.
Qed.
Lemma m2e_zero_d n x (de : list F) o : length de = n -> 
  mean_to_eccentric (Arr [] [0] [x]) (fresh [n] de) o true = mean_to_eccentric (fresh [n] (repeat x n)) (fresh [n] de) o true.
Proof.
  intros L. unfold mean_to_eccentric, in_rad. cbn [amap].
  assert (E : amap radians (fresh [n] (repeat x n)) = fresh [n] (repeat (radians x) n)).
  { rewrite amap_fresh. unfold fresh. now rewrite map_repeat, !repeat_length. }
  rewrite E. unfold fresh. cbn [broadcast]. rewrite shape_eqb_refl. cbn [rbind].
  replace (map (fun _ => radians x) de) with (repeat (radians x) n); [|rewrite <- L; clear; induction de; cbn; congruence].
  now rewrite repeat_length, L.
Qed.
(** how the assigned value [vals] describes [n] columns [q] *)
Definition fits (s : orb) (n : nat) (vals : kinput F) (q : list (six F)) : Prop :=
  length q = n /\ (vals = KMat q \/ exists c, vals = KVec c /\ q = repeat c n /\ (otype s = AMean \/ odeg s = true)).
Lemma map2_repeat_r {A B C} (f : A -> B -> C) l y : map2 f l (repeat y (length l)) = map (fun x => f x y) l.
Proof. induction l; cbn; congruence. Qed.
Lemma set_equi_eq gb n vals q (s : orb) : lens n s -> fits s n vals q ->
  let l := map (q2k_col (odeg s)) q in
  exists v, wfv v /\ set_equinoctial gb vals s = set_mean_anomaly gb v (with_kep (fun _ => map2 set_head (okep s) l) s)
  /\ (v = fresh [n] (map s5 l)
      \/ exists x, v = Arr [] [0] [x] /\ map s5 l = repeat x n /\ (otype s = AMean \/ odeg s = true)).
Proof.
  intros Hs [Lq Hv] l. assert (Ll : length l = n) by (unfold l; now rewrite map_length).
  unfold set_equinoctial. rewrite bind_get, bind_lift. destruct Hv as [->|[c [-> [Eq Ht]]]].
  - unfold equi_to_kep. cbn [on_cols rbind]. rewrite equi_to_kep_cols_map. fold l. exists (fresh [length l] (map s5 l)).
    split; [apply wfv_fresh1; now rewrite map_length|]. split; [|left; now rewrite Ll].
    assert (G : bind (if Nat.eqb (length l) (length (okep s)) then modify (with_kep (fun c => map2 set_head c l)) else raise ValueError)
           (fun _ => set_mean_anomaly gb (fresh [length l] (map s5 l))) s
      = set_mean_anomaly gb (fresh [length l] (map s5 l)) (with_kep (fun _ => map2 set_head (okep s) l) s)).
    { rewrite Ll, (l_k n s Hs), Nat.eqb_refl. reflexivity. }
    destruct l as [|k [|k2 l']]; [exact G| |exact G]. 
    rewrite bind_modify. f_equal. unfold with_kep. f_equal. pose proof (l_k n s Hs) as L1. cbn in Ll.
    destruct (okep s) as [|c0 [|? ?]]; cbn in L1; try lia. reflexivity.
  - unfold equi_to_kep. cbn [on_cols rbind]. rewrite equi_to_kep_cols_map. cbn [map].
    set (k := q2k_col (odeg s) c). exists (Arr [] [0] [s5 k]).
    assert (El : l = repeat k n) by (unfold l; rewrite Eq, map_repeat; reflexivity).
    split; [cbn; auto|]. split.
    + rewrite bind_modify. f_equal. unfold with_kep. f_equal. rewrite El, <- (l_k n s Hs). symmetry. apply map2_repeat_r.
    + right. exists (s5 k). rewrite El, map_repeat. auto.
Qed.
Theorem set_equi_spec gb n vals q (s : orb) : aligned n s -> okro s = false -> settledK s -> fits s n vals q ->
  exists s', set_equinoctial gb vals s = (s', Ok tt) /\ aligned n s' /\ settings s' = settings s /\ om s' = om s
  /\ (forall j c, nth_error q j = Some c -> let k := q2k_col (odeg s) c in
        exists g, nth_error (okep s') j = Some (set5 k (back1 s g (s5 k) (s1 k))))
  /\ (forall gb', snd (get_kepler gb' s') = Ok (okep s'))
  /\ (odirect s = false -> ocart s' = ocart s)
  /\ (lazy s = true \/ odirect s = true -> forall gb' j k m, nth_error (okep s') j = Some k -> nan6 k = false ->
        nth_error (om s) j = Some m -> exists c, nth_error (ocart (cchk gb' s')) j = Some c /\ Cc s k m c).
Proof.
  intros A Ho Hf Hv. pose proof A as [Hs HE].
  destruct (set_equi_eq gb n vals q s Hs Hv) as [v [Wv [Es Ev]]]. set (l := map (q2k_col (odeg s)) q) in *.
  assert (Ll : length l = n) by (unfold l; rewrite map_length; apply Hv).
  set (sa := with_kep (fun _ => map2 set_head (okep s) l) s) in *.
  assert (Aa : aligned n sa).
  { apply aligned_with_kep; auto. rewrite map2_length, (l_k n s Hs), Ll. lia. }
  assert (Ka : kchk gb sa = sa) by (apply (settled_kchk gb n); [apply Aa|exact Hf]).
  assert (Bs : base gb AMean sa = sa) by (unfold base; rewrite Ka; now destruct (anomaly_eqb _ _)).
  assert (K1 : forall j k, nth_error l j = Some k -> exists c, nth_error (okep sa) j = Some (set5 k c)).
  { intros j k Hk. cbn [sa okep with_kep]. assert (Hj : j < n) by (rewrite <- Ll; eapply nth_error_lt; eauto).
    destruct (nth_error (okep s) j) as [c|] eqn:Ec.
    2:{ apply nth_error_None in Ec. rewrite (l_k n s Hs) in Ec. lia. }
    exists (s5 c). rewrite nth_error_map2, Ec, Hk. reflexivity. }
  assert (E1 : map (row_get 1) (okep sa) = map s1 l).
  { apply nth_error_ext. intros j. rewrite !nth_error_map. destruct (nth_error l j) as [k|] eqn:Ek.
    - destruct (K1 j k Ek) as [c ->]. reflexivity.
    - apply nth_error_None in Ek. rewrite (proj2 (nth_error_None _ _)); [reflexivity|].
      rewrite (l_k n sa (proj1 Aa)). lia. }
  assert (Hvs : exists x vs, anom_arg gb AMean sa v = Ok x /\ bcast1 n x = Ok vs /\ length vs = n
     /\ forall j k, nth_error l j = Some k -> exists g, nth_error vs j = Some (back1 s g (s5 k) (s1 k))).
  { assert (G : exists vs, anom_arg gb AMean sa (fresh [n] (map s5 l)) = Ok (fresh [n] vs) /\ length vs = n
      /\ forall j k, nth_error l j = Some k -> exists g, nth_error vs j = Some (back1 s g (s5 k) (s1 k))).
    { unfold anom_arg, back1. rewrite Ka, E1, map_length, Ll.
      change (odeg sa) with (odeg s). change (otype sa) with (otype s). change (oopts sa) with (oopts s).
      assert (L5 : length (map s5 l) = n) by now rewrite map_length.
      assert (L1 : length (map s1 l) = n) by now rewrite map_length.
      destruct (otype s).
      - rewrite m2t_arr by auto. eexists. split; [reflexivity|]. split; [rewrite imap2_length; lia|].
        intros j k Qk. rewrite imap2_nth, !nth_error_map, Qk. cbn. eauto.
      - rewrite m2e_arr by auto. eexists. split; [reflexivity|]. split; [rewrite map2_length; lia|].
        intros j k Qk. rewrite nth_error_map2, !nth_error_map, Qk. cbn. exists nan. reflexivity.
      - exists (map s5 l). split; [auto|]. split; [auto|]. intros j k Qk. exists nan. now rewrite nth_error_map, Qk. }
    destruct G as [vs [G1 [G2 G3]]]. destruct Ev as [->|[x [-> [Ex Ht]]]].
    { exists (fresh [n] vs), vs. rewrite bcast1_fresh by auto. auto. }
    rewrite Ex in G1. unfold anom_arg in G1 |- *. rewrite Ka, E1, map_length, Ll in G1 |- *.
    change (odeg sa) with (odeg s) in *. change (otype sa) with (otype s) in *. change (oopts sa) with (oopts s) in *.
    assert (L1 : length (map s1 l) = n) by now rewrite map_length.
    destruct (otype s) eqn:T.
    - destruct Ht as [?|D]; [discriminate|]. rewrite D in *. rewrite m2t_zero_d by auto. exists (fresh [n] vs), vs.
      rewrite bcast1_fresh by auto. auto.
    - destruct Ht as [?|D]; [discriminate|]. rewrite D in *. rewrite m2e_zero_d by auto. exists (fresh [n] vs), vs.
      rewrite bcast1_fresh by auto. auto.
    - exists (Arr [] [0] [x]), (repeat x n). split; [auto|]. split; [reflexivity|]. split; [apply repeat_length|].
      intros j k Qk. exists nan. unfold back1. rewrite T, <- Ex, nth_error_map, Qk. reflexivity. }
  destruct Hvs as [x [vs [H1 [H2 [Lv Vv]]]]].
  rewrite Es. change (set_mean_anomaly gb) with (set_of gb AMean).
  rewrite (set_of_eq gb n AMean v sa (proj1 Aa) Wv). change (okro sa) with (okro s). rewrite Ho, H1, H2, Bs.
  set (sb := with_kep (fun c => set_row 5 c vs) sa).
  assert (Ab : aligned n sb).
  { apply aligned_with_kep; auto. rewrite set_row_length, (l_k n sa (proj1 Aa)). lia. }
  destruct (twice_keprow gb n sb Ab Hf) as [T1 [T2 [T3 [T4 [T5 [T6 T7]]]]]].
  eexists. split; [reflexivity|]. split; [auto|]. split; [exact T2|]. split; [exact T3|]. rewrite T4.
  split; [|split; [auto|split; [exact T6|]]].
  - intros j c Hc k. assert (Hk : nth_error l j = Some k) by (unfold l; now rewrite nth_error_map, Hc).
    destruct (Vv j k Hk) as [g Hg]. exists g. destruct (K1 j k Hk) as [c5 Hc5].
    unfold sb. cbn [okep with_kep]. unfold set_row. rewrite nth_error_map2. cbn [sa okep with_kep] in Hc5. cbn [sa okep with_kep].
    rewrite Hc5, Hg. reflexivity.
  - intros Hm gb' j k m Hk Hn Hm'. destruct (T7 Hm gb' j k m Hk Hn Hm') as [c [Q1 Q2]]. exists c. split; [auto|].
    now apply (Cc_settings sb s).
Qed.
End Generic.

Section Refuted.
Context {F : Type} `{NP F}.
Notation orb := (orb F).
(** [orb.equinoctial = orb.equinoctial] *)
Definition equi_assign_back gb : OrbitModel.M (F := F) unit :=
  bind (get_equinoctial gb) (set_equinoctial gb).

(** ** C63 *)
(** A single orbit of type true or eccentric, in radians: assigning the value just read raises TypeError,
    in every arithmetic and every mode ([elems\[5, ...\]] is a 0-dimensional array, [self.e] has shape (1,)). *)
Theorem C63_single_refuted : forall gb (s : orb), aligned 1 s -> okro s = false -> odeg s = false -> otype s <> AMean ->
  exists s', equi_assign_back gb s = (s', Raise TypeError).
Proof.
  intros gb s A Ho Hd Ht. destruct (get_equi_spec gb 1 s A) as [sa [ms [E [C [Aa [Lm _]]]]]].
  unfold equi_assign_back. rewrite (bind_ok _ _ _ _ _ E). set (l := map _ _).
  assert (Ll : length l = 1).
  { unfold l. rewrite map_length, map2_length, Lm, (l_k 1 _ (lens_kchk gb 1 s (proj1 A))). reflexivity. }
  destruct l as [|c [|? ?]]; try discriminate. cbn [as_input].
  unfold set_equinoctial. rewrite bind_get, bind_lift. unfold equi_to_kep. cbn [on_cols rbind].
  rewrite equi_to_kep_cols_map. cbn [map]. rewrite bind_modify.
  pose proof (core_settings gb 1 s sa (proj1 A) C) as Es. apply settings_eq in Es.
  change (set_mean_anomaly gb) with (set_of gb AMean).
  rewrite (set_of_eq gb 1). 2:{ apply lens_with_kep; [apply Aa|]. rewrite map_length. apply (l_k 1 _ (proj1 Aa)). } 2:{ cbn. auto. }
  set (sw := with_kep _ sa). change (okro sw) with (okro sa).
  replace (okro sa) with false by (symmetry; rewrite <- Ho; tauto).
  unfold anom_arg. change (otype sw) with (otype sa). change (odeg sw) with (odeg sa). change (oopts sw) with (oopts sa).
  replace (otype sa) with (otype s) by (symmetry; tauto). replace (odeg sa) with false by (symmetry; rewrite <- Hd; tauto).
  assert (Hm : forall g x (e : list F) o, mean_to_true g (Arr [] [0] [x]) (fresh [length e] e) o false = Raise TypeError)
    by reflexivity.
  assert (He : forall x (e : list F) o, mean_to_eccentric (Arr [] [0] [x]) (fresh [length e] e) o false = Raise TypeError)
    by reflexivity.
  destruct (otype s); [| |congruence].
  - rewrite Hm. eauto.
  - rewrite He. eauto.
Qed.
Lemma kconv_row (s : orb) g c m i : i < 5 -> row_get i (kconv s g c m) = row_get i (c2k_col (odeg s) c (mu_of s m)).
Proof.
  intros Hi. unfold kconv. destruct (otype s); auto;
    destruct i as [|[|[|[|[|i]]]]]; try reflexivity; lia.
Qed.
Lemma set5_row (k : six F) x i : i < 5 -> row_get i (set5 k x) = row_get i k.
Proof. intros Hi. destruct i as [|[|[|[|[|i]]]]]; try reflexivity; lia. Qed.
Lemma stale_kchk gb n (s : orb) j c m : lens n s -> lazy s = true -> nth_error (okf s) j = Some false ->
  nth_error (ocart s) j = Some c -> nth_error (om s) j = Some m -> nan6 c = false ->
  exists g, nth_error (okep (kchk gb s)) j = Some (kconv s g c m).
Proof.
  intros Hs L Hf Hc Hm Hn. assert (Hj : j < n) by (apply nth_error_lt in Hc; destruct Hs; lia).
  destruct (col_ex n s j Hs Hj) as [c1 [k1 [m1 [cb1 [kb1 C]]]]].
  destruct (kchk_spec gb n s Hs) as [_ [_ [_ [_ [_ [_ [_ [_ St]]]]]]]].
  destruct (St _ _ _ _ _ _ C) as [c' [k' [cb' [kb' [C' [_ [_ [_ R]]]]]]]].
  destruct C as [C1 _ C3 _ C5]. assert (kb1 = false) by congruence. assert (c1 = c) by congruence.
  assert (m1 = m) by congruence. subst kb1 c1 m1. rewrite L, Hn in R. destruct (R eq_refl) as [[g ->] _].
  exists g. apply (col_k _ _ _ _ _ _ _ C').
Qed.
(** Lazy mode, a column whose Kepler elements have not been recalculated since its Cartesian side was assigned:
    the elements assigned through [orb.equinoctial] are lost; a, e, i, omega and Omega read afterwards do not
    depend on the assigned value. *)
Theorem C63_stale_lost_refuted : forall gb gb' n i j c m (s : orb), aligned n s -> lazy_mode s -> i < 5 ->
  nth_error (okf s) j = Some false -> nth_error (ocart s) j = Some c -> nth_error (om s) j = Some m -> ~ has_nan c ->
  exists x, forall vals s', set_equinoctial gb vals s = (s', Ok tt) ->
    exists vs, snd (get_kep_row gb' i s') = Ok vs /\ nth_error vs j = Some x.
Proof.
  intros gb gb' n i j c m s A Lz Hi Hf Hc Hm Hn. assert (Lb : lazy s = true) by now apply lazy_mode_iff.
  assert (Nk : nan6 c = false). { destruct (nan6 c) eqn:W; auto. exfalso. apply Hn. now apply has_nan_iff. }
  exists (row_get i (c2k_col (odeg s) c (mu_of s m))). intros vals s' E.
  destruct (set_equi_cases gb n vals s (proj1 A)) as [[e Er]|[kep' [v' [Lk [Wv Er]]]]]; [congruence|].
  rewrite Er in E. change (set_mean_anomaly gb) with (set_of gb AMean) in E. set (sw := with_kep (fun _ => kep') s) in *.
  assert (Aw : aligned n sw) by now apply aligned_with_kep.
  rewrite (set_of_eq gb n AMean v' sw (proj1 Aw) Wv) in E. destruct (okro sw); [discriminate|].
  destruct (anom_arg gb AMean sw v') as [x|] eqn:Ea; [|discriminate].
  pose proof (anom_arg_wf gb n AMean sw v' x (proj1 Aw) Wv Ea) as Wx.
  destruct (bcast1 n x) as [vs|] eqn:Eb; [|discriminate]. injection E as <-.
  assert (Lv : length vs = n) by (eapply bcast1_length; eauto using wfv_wf).
  unfold base. destruct (anomaly_eqb AMean (otype sw)) eqn:Et.
  - set (sb := with_kep (fun c => set_row 5 c vs) sw).
    assert (Lsb : lens n sb).
    { apply lens_with_kep; [apply Aw|]. rewrite set_row_length, (l_k n sw (proj1 Aw)). lia. }
    assert (G : forall sx, sx = aft_keprow gb (aft_keprow gb sb) -> lens n sx /\ settings sx = settings s
      /\ okf sx = okf s /\ ocart sx = ocart s /\ om sx = om s).
    { intros sx ->. split; [apply lens_aft_keprow, lens_aft_keprow; auto|]. unfold aft_keprow at 1 3 5 7.
      assert (D1 : odirect sb = false) by (apply (lazy_mode_direct s Lz)).
      assert (D2 : odirect (aft_keprow gb sb) = false) by (unfold aft_keprow; now rewrite D1). rewrite D2.
      unfold aft_keprow. rewrite D1. repeat split. }
    destruct (G _ eq_refl) as [G1 [G2 [G3 [G4 G5]]]]. set (sx := aft_keprow _ _) in *.
    rewrite (get_kep_row_spec gb' n) by auto. eexists. split; [reflexivity|]. rewrite nth_error_map.
    destruct (stale_kchk gb' n sx j c m) as [g Hg]; auto; [now rewrite (settings_lazy s)|congruence|congruence|congruence|].
    rewrite Hg. cbn [option_map]. f_equal. rewrite (kconv_settings _ s) by auto. now apply kconv_row.
  - set (sa := kchk gb sw). set (sb := with_kep (fun c => set_row 5 c vs) sa).
    assert (Aa : aligned n sa).
    { split; [apply lens_kchk, Aw|]. destruct (kchk_spec gb n sw (proj1 Aw)) as [_ [_ [_ [_ [_ [Q _]]]]]].
      destruct Aw as [_ [d Hd]]. exists d. unfold sa. now rewrite Q. }
    assert (Ab : aligned n sb).
    { apply aligned_with_kep; auto. rewrite set_row_length, (l_k n sa (proj1 Aa)). lia. }
    assert (Sb : settledK sb) by (apply (core_settled gb n sw sa (proj1 Aw) eq_refl)).
    destruct (twice_keprow gb n sb Ab Sb) as [T1 [_ [_ [_ [T5 _]]]]].
    rewrite (get_kep_row_spec gb' n) by apply T1. eexists. split; [reflexivity|]. rewrite nth_error_map.
    specialize (T5 gb'). rewrite (get_kepler_eq gb' n) in T5 by apply T1. cbn [snd] in T5. injection T5 as ->.
    destruct (stale_kchk gb n sw j c m (proj1 Aw) Lb Hf Hc Hm Nk) as [g Hg].
    assert (Hj : j < n) by (apply nth_error_lt in Hc; destruct A as [A' _], A'; lia).
    destruct (nth_error vs j) as [y|] eqn:Ey; [|apply nth_error_None in Ey; lia].
    cbn [sb okep with_kep]. unfold set_row. rewrite nth_error_map2. fold sa in Hg. rewrite Hg, Ey. cbn [option_map]. f_equal.
    transitivity (row_get i (kconv sw g c m)); [apply set5_row; auto|]. now rewrite kconv_row.
Qed.
End Refuted.

Section Examples.
#[local] Existing Instance NP_toyn.
(** one lazy orbit of type true in radians: the value just read cannot be assigned *)
Example C63_single_example : exists s s', init gd 1%Z (cfgl "true" 1) (kwd (fresh [6; 1] [9; 0; 2; 3; 4; 5]%Z)) = Ok s
  /\ aligned 1 s /\ okro s = false /\ odeg s = false /\ otype s <> AMean /\ equi_assign_back gd s = (s', Raise TypeError).
Proof.
  eexists _, _. split; [vm_compute; reflexivity|].
  split; [split; [apply toy_lens; vm_compute; reflexivity|exists [-99]%Z; split; [vm_compute; reflexivity|reflexivity]]|].
  split; [reflexivity|]. split; [reflexivity|]. split; [discriminate|vm_compute; reflexivity].
Qed.
(** two lazy orbits whose Cartesian elements were assigned last: two different values assigned, the same
    semi-major axes read *)
Definition q63 (a : Z) : kinput Z := KMat [mk6 a 0 0 1 1 2; mk6 (a + 1) 0 0 1 1 2]%Z.
Example C63_stale_lost_example : exists s s1 s' s'' va,
  init gd 1%Z (cfgl "mean" 2) (kwd matd) = Ok s /\ set_cartesian gd (fresh [6; 2] [1; 2; 3; 4; 5; 6; 7; 8; 9; 10; 11; 12]%Z) s = (s1, Ok tt)
  /\ aligned 2 s1 /\ lazy_mode s1 /\ nth_error (okf s1) 0 = Some false
  /\ set_equinoctial gd (q63 3) s1 = (s', Ok tt) /\ set_equinoctial gd (q63 5) s1 = (s'', Ok tt)
  /\ snd (get_kep_row gd 0 s') = Ok va /\ snd (get_kep_row gd 0 s'') = Ok va /\ va <> [3; 4]%Z.
Proof.
  eexists _, _, _, _, _. split; [vm_compute; reflexivity|]. split; [vm_compute; reflexivity|].
  split; [split; [apply toy_lens; vm_compute; reflexivity|exists [-99; -99]%Z; split; [vm_compute; reflexivity|reflexivity]]|].
  split; [split; reflexivity|]. split; [reflexivity|].
  split; [vm_compute; reflexivity|]. split; [vm_compute; reflexivity|]. split; [vm_compute; reflexivity|].
  split; [vm_compute; reflexivity|]. discriminate.
Qed.
End Examples.
