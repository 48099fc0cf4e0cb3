(** * C55, C57: propagate *)
From Coq Require Import String List Bool Arith Lia ZArith QArith.
From Verif Require Import NP KeplerModel ConvModel UnitModel OrbitModel Lists ConvCols ArraySpec
  PropsAnomaly OrbitLists OrbitBase OrbitOps OrbitSetters OrbitInv OrbitSpec PropsOrbitWidth OrbitGet
  PropsOrbitDirect PropsOrbitLazy PropsOrbitWrite PropsOrbitModes PropsOrbitType.
Import ListNotations.
Local Open Scope nat_scope.

Section Generic.
Context {F : Type} `{NP F}.
Notation orb := (orb F).

(** after _kep_check a second _kep_check has nothing to do *)
Lemma kchk_flags gb n (s : orb) : lens n s -> lazy s = true ->
  forall j c b, nth_error (ocart (kchk gb s)) j = Some c -> nth_error (okf (kchk gb s)) j = Some b -> b || nan6 c = true.
Proof.
  intros Hs L j c b Hc Hb. destruct (kchk_spec gb n s Hs) as [_ [_ E]]. pose proof (lens_kchk gb n s Hs) as Hl.
  assert (Hj : j < n) by (apply nth_error_lt in Hc; destruct Hl; lia).
  destruct (col_ex n _ j Hl Hj) as [c2 [k2 [m2 [cb2 [kb2 C2]]]]].
  destruct (colstep_col _ _ _ _ _ _ _ _ _ _ Hs E C2) as [c1 [k1 [cb1 [kb1 [C1 [R1 [R2 [R3 R4]]]]]]]].
  assert (c2 = c) by (destruct C2; congruence). assert (kb2 = b) by (destruct C2; congruence). subst c2 kb2 c1.
  rewrite L in R3, R4. destruct (nan6 c); [apply orb_true_r|]. rewrite orb_false_r.
  destruct kb1; [destruct R3; auto|destruct R4; auto].
Qed.
Lemma settings_lazy (s s' : orb) : settings s' = settings s -> lazy s' = lazy s.
Proof. intros E. apply settings_eq in E. destruct E as [_ [_ [E1 [E2 _]]]]. unfold lazy. now rewrite E1, E2. Qed.
Lemma kchk_core gb gb' n (s sa : orb) : lens n s -> lens n sa -> core sa = core (kchk gb s) -> kchk gb' sa = sa.
Proof.
  intros Hs Ha C. pose proof (core_settings gb n s sa Hs C) as Es. destruct (lazy s) eqn:L.
  - unfold OrbitBase.kchk. rewrite (kep_check_fresh gb' n); auto. intros j c b Hc Hb.
    unfold core in C. assert (E1 : ocart sa = ocart (kchk gb s)) by congruence.
    assert (E2 : okf sa = okf (kchk gb s)) by congruence. rewrite E1 in Hc. rewrite E2 in Hb.
    exact (kchk_flags gb n s Hs L j c b Hc Hb).
  - apply kchk_id. now rewrite (settings_lazy s).
Qed.
Lemma nth_error_map3 {A B C D} (f : A -> B -> C -> D) la lb lc j a b c : nth_error la j = Some a ->
  nth_error lb j = Some b -> nth_error lc j = Some c -> nth_error (map3 f la lb lc) j = Some (f a b c).
Proof.
  revert lb lc j. induction la as [|x la IH]; intros [|y lb] [|z lc] [|j] Ha Hb Hc; cbn in *; try discriminate; auto.
  congruence.
Qed.
Lemma map3_length {A B C D} (f : A -> B -> C -> D) la lb lc n : length la = n -> length lb = n -> length lc = n ->
  length (map3 f la lb lc) = n.
Proof.
  revert lb lc n. induction la as [|x la IH]; intros [|y lb] [|z lc] [|n] Ha Hb Hc; cbn in *; try discriminate; auto.
Qed.

(** ** period and mean motion *)
Lemma get_period_eq gb n (s : orb) : lens n s ->
  get_period gb s = (kchk gb s, Ok (map2 orbital_period (map (row_get 0) (okep (kchk gb s))) (map (mu_of s) (om s)))).
Proof.
  intros Hs. unfold get_period. destruct (kchk_spec gb n s Hs) as [E [_ [_ [Es [Em _]]]]].
  rewrite (bind_ok _ _ _ _ _ E), (get_row_bind' gb n), bind_get by auto. rewrite Em. unfold ret. f_equal. f_equal. f_equal.
  apply map_ext. intros m. apply settings_eq in Es. destruct Es as [E0 [E1 _]]. unfold mu_of. now rewrite E0, E1.
Qed.
Definition motion1 (s : orb) (a m : F) : F := div (circle (odeg s)) (orbital_period a (mu_of s m)).
Lemma get_mean_motion_eq gb n (s : orb) : lens n s ->
  get_mean_motion gb s = (kchk gb s, Ok (map2 (motion1 s) (map (row_get 0) (okep (kchk gb s))) (om s))).
Proof.
  intros Hs. unfold get_mean_motion. rewrite bind_get, (bind_ok _ _ _ _ _ (get_period_eq gb n s Hs)). unfold ret. f_equal. f_equal.
  rewrite map_map2. unfold motion1. generalize (map (row_get 0) (okep (kchk gb s))), (om s).
  induction l as [|a l IH]; intros [|m l2]; cbn; auto. now rewrite IH.
Qed.

(** ** propagate *)
(** the mean anomaly [M] of a body with semi-major axis [a], [d] later *)
Definition adv (s : orb) (M a m d : F) : F :=
  nmod (add M (mul (motion1 s a m) d)) (if odeg s then lit 360 else mul (lit 2) npi).
(** ... turned into the stored type *)
Definition back1 (s : orb) (g x e : F) : F :=
  match otype s with AMean => x | ATrue => m2t1 g (oopts s) (odeg s) x e | AEcc => m2e1 (oopts s) (odeg s) x e end.
Lemma aft_keprow_om gb n (s : orb) : lens n s -> om (aft_keprow gb s) = om s.
Proof.
  intros Hs. unfold aft_keprow. destruct (odirect s); [|reflexivity].
  destruct (call_spec gb n s Hs) as [_ [_ [_ [E _]]]]. exact E.
Qed.
Lemma settings_direct (s s' : orb) : settings s' = settings s -> odirect s' = odirect s.
Proof. intros E. apply settings_eq in E. tauto. Qed.
Theorem propagate_spec gb n dt ds (s : orb) : aligned n s -> wfv dt -> okro s = false -> bcast1 n dt = Ok ds ->
  exists s' vs, propagate gb dt s = (s', Ok tt) /\ aligned n s' /\ settings s' = settings s /\ om s' = om s
  /\ okep s' = set_row 5 (okep (kchk gb s)) vs /\ length vs = n
  /\ (forall j k m d, nth_error (okep (kchk gb s)) j = Some k -> nth_error (om s) j = Some m -> nth_error ds j = Some d ->
        exists g g', nth_error vs j = Some (back1 s g' (adv s (ma1 s g k) (s0 k) m d) (s1 k)))
  /\ (forall gb', snd (get_kepler gb' s') = Ok (okep s'))
  /\ (odirect s = false -> ocart s' = ocart s)
  /\ (lazy s = true \/ odirect s = true -> forall gb' j k m, nth_error (okep s') j = Some k -> nan6 k = false ->
        nth_error (om s) j = Some m ->
        exists c, nth_error (ocart (cchk gb' s')) j = Some c /\ Cc s k m c).
Proof.
  intros A Hd Ho Hb. pose proof A as [Hs HE]. unfold propagate. rewrite bind_get. cbv zeta.
  change (get_mean_anomaly gb) with (get_of gb AMean).
  destruct (get_of_spec gb n AMean s A) as [sa [ms [E1 [C1 [A1 [Lm Vm]]]]]]. rewrite (bind_ok _ _ _ _ _ E1).
  pose proof A1 as [H1 _]. pose proof (core_settings gb n s sa Hs C1) as Es.
  pose proof (kchk_core gb gb n s sa Hs H1 C1) as Ka.
  pose proof (get_mean_motion_eq gb n sa H1) as Emm. rewrite Ka in Emm. rewrite (bind_ok _ _ _ _ _ Emm), bind_lift.
  assert (Ckep : okep sa = okep (kchk gb s)) by (unfold core in C1; congruence).
  assert (Ccart : ocart sa = ocart (kchk gb s)) by (unfold core in C1; congruence).
  assert (Cm : om sa = om s).
  { destruct (kchk_spec gb n s Hs) as [_ [_ [_ [_ [Em _]]]]]. unfold core in C1. congruence. }
  pose proof (lens_kchk gb n s Hs) as Hk.
  set (nn := map2 (motion1 sa) _ _). assert (Ln : length nn = n).
  { unfold nn. rewrite map2_length, map_length, Ckep, Cm, (l_k n _ Hk), (l_m n s Hs). lia. }
  rewrite Ln, Hb.
  set (x := map3 _ ms nn ds). assert (Lms : length ms = n) by (rewrite Lm; apply (l_k n _ Hk)).
  assert (Ld : length ds = n) by (eapply bcast1_length; eauto using wfv_wf).
  assert (Lx : length x = n) by (now apply map3_length). rewrite Lx.
  assert (Hx : forall j k m d, nth_error (okep (kchk gb s)) j = Some k -> nth_error (om s) j = Some m -> nth_error ds j = Some d ->
     exists g, nth_error x j = Some (adv s (ma1 s g k) (s0 k) m d)).
  { intros j k m d Qk Qm Qd. destruct (Vm j k Qk) as [g Qg]. exists g. unfold x.
    assert (Qn : nth_error nn j = Some (motion1 s (s0 k) m)).
    { unfold nn. rewrite nth_error_map2, nth_error_map, Ckep, Cm, Qk, Qm. cbn [option_map row_get]. f_equal.
      apply settings_eq in Es. unfold motion1, mu_of.
      replace (odeg sa) with (odeg s) by (symmetry; tauto). replace (oG sa) with (oG s) by (symmetry; tauto).
      replace (oM0 sa) with (oM0 s) by (symmetry; tauto). reflexivity. }
    rewrite (nth_error_map3 _ _ _ _ j _ _ _ Qg Qn Qd). reflexivity. }
  assert (Bs : base gb AMean sa = sa) by (unfold base; rewrite Ka; now destruct (anomaly_eqb _ _)).
  assert (Hv : exists vs, anom_arg gb AMean sa (fresh [n] x) = Ok (fresh [n] vs) /\ length vs = n
     /\ forall j k y, nth_error (okep (kchk gb s)) j = Some k -> nth_error x j = Some y ->
          exists g', nth_error vs j = Some (back1 s g' y (s1 k))).
  { unfold anom_arg, back1. rewrite Ka, Ckep. apply settings_eq in Es.
    replace (odeg sa) with (odeg s) by (symmetry; tauto). replace (otype sa) with (otype s) by (symmetry; tauto).
    replace (oopts sa) with (oopts s) by (symmetry; tauto).
    assert (Le : length (map (row_get 1) (okep (kchk gb s))) = n) by (rewrite map_length; apply (l_k n _ Hk)).
    rewrite Le. destruct (otype s).
    - rewrite m2t_arr by auto. eexists. split; [reflexivity|]. split; [rewrite imap2_length; lia|].
      intros j k y Qk Qy. rewrite imap2_nth, Qy, nth_error_map, Qk. cbn. eauto.
    - rewrite m2e_arr by auto. eexists. split; [reflexivity|]. split; [rewrite map2_length; lia|].
      intros j k y Qk Qy. rewrite nth_error_map2, Qy, nth_error_map, Qk. cbn. exists nan. reflexivity.
    - exists x. split; [auto|]. split; [auto|]. intros j k y Qk Qy. exists nan. exact Qy. }
  destruct Hv as [vs [Ev [Lv Hv]]].
  change (set_mean_anomaly gb) with (set_of gb AMean).
  pose proof (set_of_eq gb n AMean (fresh [n] x) sa H1 (wfv_fresh1 n x Lx)) as Est.
  assert (Ho' : okro sa = false) by (apply settings_eq in Es; destruct Es as [_ [_ [_ [_ [E _]]]]]; congruence).
  rewrite Ho', Ev, bcast1_fresh, Bs in Est by auto. rewrite (bind_ok _ _ _ _ _ Est), bind_get.
  set (sb := with_kep (fun c => set_row 5 c vs) sa) in *.
  assert (Ab : aligned n sb).
  { apply aligned_with_kep; auto. rewrite set_row_length, (l_k n sa H1). lia. }
  assert (Ac : aligned n (aft_keprow gb sb)) by now apply aligned_aft_keprow.
  set (sc := aft_keprow gb sb) in *. set (sd := aft_keprow gb sc) in *.
  assert (Ad : aligned n sd) by now apply aligned_aft_keprow.
  assert (Sb : settings sb = settings s) by exact Es.
  assert (Sc : settings sc = settings s) by (transitivity (settings sb); [now apply (aft_keprow_settings gb n); destruct Ab|auto]).
  assert (Sd : settings sd = settings s) by (transitivity (settings sc); [now apply (aft_keprow_settings gb n); destruct Ac|auto]).
  assert (Kc : okep sc = okep sb) by (apply (aft_keprow_okep gb n), Ab).
  assert (Kd : okep sd = okep sb) by (rewrite <- Kc; apply (aft_keprow_okep gb n), Ac).
  assert (Mc : om sc = om s) by (rewrite <- Cm; change (om sa) with (om sb); apply (aft_keprow_om gb n), Ab).
  assert (Md : om sd = om s) by (rewrite <- Mc; apply (aft_keprow_om gb n), Ac).
  assert (Kb : okep sb = set_row 5 (okep (kchk gb s)) vs) by (unfold sb; cbn [okep with_kep]; now rewrite Ckep).
  assert (Vals : forall j k m d, nth_error (okep (kchk gb s)) j = Some k -> nth_error (om s) j = Some m -> nth_error ds j = Some d ->
        exists g g', nth_error vs j = Some (back1 s g' (adv s (ma1 s g k) (s0 k) m d) (s1 k))).
  { intros j k m d Qk Qm Qd. destruct (Hx j k m d Qk Qm Qd) as [g Qx]. exists g. exact (Hv j k _ Qk Qx). }
  pose proof (settings_direct s sd Sd) as Dd. rewrite Dd. destruct (odirect s) eqn:D.
  - destruct (call_spec gb n sd (proj1 Ad)) as [Ec Sx]. exists (call_ gb sd), vs. split; [exact Ec|].
    assert (Ae : aligned n (call_ gb sd)).
    { pose proof (aligned_aft_keprow gb n sd Ad) as Q. unfold aft_keprow in Q. now rewrite Dd in Q. }
    assert (Ld' : lazy sd = false) by now apply direct_not_lazy.
    assert (Ke : okep (call_ gb sd) = okep sb) by (rewrite <- Kd; apply (call_okep gb n); [apply Ad|auto]).
    split; [exact Ae|]. pose proof Sx as [_ [S1 [S2 _]]]. split; [congruence|].
    split; [destruct Sx as [_ [_ [_ [S3 _]]]]; congruence|]. split; [congruence|]. split; [auto|]. split; [exact Vals|].
    assert (Le : lazy (call_ gb sd) = false) by (rewrite (settings_lazy s) by congruence; now apply direct_not_lazy).
    split; [|split; [discriminate|]].
    { intros gb'. rewrite (get_kepler_eq gb' n) by apply Ae. cbn [snd]. f_equal. rewrite kchk_id; auto. }
    intros _ gb' j k m Hk' Hn Hm. rewrite (cchk_id gb' _ Le).
    assert (Hj : j < n) by (rewrite <- (l_k n _ (proj1 Ae)); eapply nth_error_lt; eauto).
    destruct (col_ex n sd j (proj1 Ad) Hj) as [c [k1 [m1 [cb [kb C]]]]].
    destruct Sx as [_ [_ [_ [_ [_ [_ Sx]]]]]]. destruct (Sx _ _ _ _ _ _ C) as [c' [k' [cb' [kb' [C' [R1 R2]]]]]].
    pose proof (col_k _ _ _ _ _ _ _ C) as Y1. rewrite Kd, <- Ke, Hk' in Y1. injection Y1 as <-.
    pose proof (col_m _ _ _ _ _ _ _ C) as Y2. rewrite Md, Hm in Y2. injection Y2 as <-.
    exists c'. split; [apply (col_c _ _ _ _ _ _ _ C')|].
    destruct R2 as [[[?|?] _]|[_ [_ [_ R2]]]]; [discriminate|congruence|]. destruct R2 as [_ R2]; [now rewrite Ld'|].
    now apply (Cc_settings sd s).
  - exists sd, vs. split; [reflexivity|]. split; [exact Ad|]. split; [auto|]. split; [auto|]. split; [congruence|].
    split; [auto|]. split; [exact Vals|].
    assert (Db : odirect sb = false) by (rewrite <- D; now apply settings_direct).
    assert (Dc : odirect sc = false) by (rewrite <- D; now apply settings_direct).
    assert (Ecd : ocart sd = ocart sa /\ okf sd = okf sa).
    { unfold sd, sc, aft_keprow at 1 3. fold sc. rewrite Dc. unfold sc, aft_keprow. rewrite Db. split; reflexivity. }
    destruct Ecd as [Ecd Efd].
    assert (HF : lazy s = true -> forall j c b, nth_error (ocart sd) j = Some c -> nth_error (okf sd) j = Some b ->
      b = true \/ nan6 c = true).
    { intros Hz' j c b Hc Eb. rewrite Ecd, Ccart in Hc.
      assert (Cf : okf sa = okf (kchk gb s)) by (unfold core in C1; congruence). rewrite Efd, Cf in Eb.
      pose proof (kchk_flags gb n s Hs Hz' j c b Hc Eb) as Q. destruct b; auto. }
    split; [|split].
    + intros gb'. rewrite (get_kepler_eq gb' n) by apply Ad. cbn [snd]. f_equal. apply (kchk_keeps gb' n); [apply Ad|].
      intros Hz j c Hc. assert (Hz' : lazy s = true).
      { apply lazy_mode_iff in Hz. now rewrite <- (settings_lazy s sd). }
      rewrite has_nan_iff. destruct (nth_error (okf sd) j) as [b|] eqn:Eb.
      * destruct (HF Hz' j c b Hc Eb) as [->|Q]; auto.
      * exfalso. apply nth_error_None in Eb. apply nth_error_lt in Hc. destruct Ad as [Ad _], Ad. lia.
    + intros _. rewrite Ecd, Ccart. now apply (kchk_ocart gb n).
    + intros [Hz|Hz]; [|discriminate]. intros gb' j k m Hk' Hn Hm.
      assert (Hj : j < n) by (rewrite <- (l_k n _ (proj1 Ad)); eapply nth_error_lt; eauto).
      destruct (cchk_spec gb' n sd (proj1 Ad)) as [_ [_ [_ [_ [_ [_ [_ Sx]]]]]]].
      destruct (col_ex n sd j (proj1 Ad) Hj) as [c [k1 [m1 [cb [kb C]]]]].
      destruct (Sx _ _ _ _ _ _ C) as [c' [k' [cb' [kb' [C' [R1 R2]]]]]].
      pose proof (col_k _ _ _ _ _ _ _ C) as Y1. rewrite Hk' in Y1. injection Y1 as <-.
      pose proof (col_m _ _ _ _ _ _ _ C) as Y2. rewrite Md, Hm in Y2. injection Y2 as <-.
      pose proof (HF Hz _ _ _ (col_c _ _ _ _ _ _ _ C) (col_kb _ _ _ _ _ _ _ C)) as Y3.
      assert (Y4 : ocf sd = all_false (ocf sc)) by (unfold sd, aft_keprow; rewrite Dc; reflexivity).
      pose proof (col_cb _ _ _ _ _ _ _ C) as Y5. rewrite Y4 in Y5. unfold all_false in Y5. rewrite nth_error_map in Y5.
      assert (cb = false) as -> by (destruct (nth_error (ocf sc) j); cbn in Y5; congruence).
      assert (Ls : lazy sd = true) by now rewrite (settings_lazy s).
      exists c'. split; [apply (col_c _ _ _ _ _ _ _ C')|].
      destruct R2 as [[[?|?] _]|[_ [_ [_ R2]]]]; [now rewrite Ls in *|congruence|].
      destruct R2 as [_ R2]; [destruct Y3 as [-> | ->]; rewrite ?andb_false_r; reflexivity|].
      now apply (Cc_settings sd s).
Qed.
(** it succeeds only when the interval fits the number of orbits and the elements are not read-only *)
Lemma propagate_ok gb n dt (s s' : orb) : aligned n s -> wfv dt -> propagate gb dt s = (s', Ok tt) ->
  okro s = false /\ exists ds, bcast1 n dt = Ok ds.
Proof.
  intros A Hd E. pose proof A as [Hs HE]. unfold propagate in E. rewrite bind_get in E. cbv zeta in E.
  change (get_mean_anomaly gb) with (get_of gb AMean) in E.
  destruct (get_of_spec gb n AMean s A) as [sa [ms [E1 [C1 [A1 [Lm Vm]]]]]]. rewrite (bind_ok _ _ _ _ _ E1) in E.
  pose proof A1 as [H1 _]. pose proof (core_settings gb n s sa Hs C1) as Es.
  pose proof (kchk_core gb gb n s sa Hs H1 C1) as Ka.
  pose proof (get_mean_motion_eq gb n sa H1) as Emm. rewrite Ka in Emm. rewrite (bind_ok _ _ _ _ _ Emm), bind_lift in E.
  revert E. set (nn := map2 _ _ _). assert (Ln : length nn = n).
  { unfold nn. rewrite map2_length, map_length, (l_k n sa H1), (l_m n sa H1). lia. }
  rewrite Ln. destruct (bcast1 n dt) as [ds|er]; [|discriminate]. intros E. split; [|eauto].
  destruct (okro s) eqn:Ho; [|reflexivity]. exfalso.
  change (set_mean_anomaly gb) with (set_of gb AMean) in E. revert E. set (x := map3 _ _ _ _). intros E.
  pose proof (set_of_eq gb n AMean (fresh [length x] x) sa H1 (wfv_fresh1 _ x eq_refl)) as Est.
  assert (Ho' : okro sa = true) by (apply settings_eq in Es; destruct Es as [_ [_ [_ [_ [Q _]]]]]; congruence).
  rewrite Ho' in Est. rewrite (bind_err _ _ _ _ _ Est) in E. discriminate.
Qed.
End Generic.
