(** * C48: assigning [type]; and the direct-mode counterexample to C42 *)
From Coq Require Import String Reals Lra List Bool Arith Lia ZArith QArith.
From Verif Require Import NP KeplerModel ConvModel UnitModel OrbitModel Lists ConvCols ArraySpec
  NPReal RealBase Spec AnomReal KepReal PropsKep PropsAnomaly PropsAnomalyR PropsSolver PropsCart
  OrbitLists OrbitBase OrbitOps OrbitSetters OrbitGet OrbitSpec PropsOrbitWidth PropsOrbitDirect PropsOrbitLazy
  PropsOrbitWrite OrbitReal.
Import ListNotations.
Local Open Scope nat_scope.

Section Generic.
Context {F : Type} `{NP F}.
Notation orb := (orb F).

(** [set_type] stores what the getter of the new anomaly returns *)
Lemma set_type_getter gb n val t (s : orb) : aligned n s -> anomaly_of (strip (lower val)) = Some t -> otype s <> t ->
  exists s1 xs, get_of gb t s = (s1, Ok xs) /\ core s1 = core (kchk gb s) /\ aligned n s1
    /\ vals_of t s (okep (kchk gb s)) xs /\ length xs = n
    /\ set_type gb val s = bind (set_anom gb (fresh [n] xs)) (fun _ => modify (with_type t)) s1.
Proof.
  intros A Ea Et. pose proof A as [Hs _]. unfold set_type. rewrite Ea, bind_get.
  destruct (anomaly_eqb (otype s) t) eqn:Eq; [destruct (otype s), t; (discriminate || congruence)|].
  assert (Len : forall xs, vals_of t s (okep (kchk gb s)) xs -> length xs = n).
  { intros xs [V _]. rewrite V. apply (l_k n), lens_kchk; auto. }
  destruct t.
  - destruct (get_of_spec gb n ATrue s A) as [s1 [vs [E [E1 [E2 E3]]]]]. cbn [get_of] in E.
    exists s1, vs. split; [auto|]. split; [auto|]. split; [auto|]. split; [auto|]. split; [auto|].
    rewrite bind_assoc, (bind_ok _ _ _ _ _ E). now rewrite (Len vs E3).
  - destruct (get_ecc_spec gb n s A) as [s1 [vs [E [E1 [E2 E3]]]]].
    exists s1, vs. split; [cbn [get_of]; now rewrite (bind_ok _ _ _ _ _ E)|]. split; [auto|]. split; [auto|]. split; [auto|]. split; [auto|].
    now rewrite bind_assoc, (bind_ok _ _ _ _ _ E).
  - destruct (get_of_spec gb n AMean s A) as [s1 [vs [E [E1 [E2 E3]]]]]. cbn [get_of] in E.
    exists s1, vs. split; [auto|]. split; [auto|]. split; [auto|]. split; [auto|]. split; [auto|].
    rewrite bind_assoc, (bind_ok _ _ _ _ _ E). now rewrite (Len vs E3).
Qed.
(** Any arithmetic: assigning another type stores, per orbit, the value the getter of that anomaly
    returns, keeps the five other elements, the masses and all other settings, and outside
    direct mode the Cartesian elements. *)
Theorem C48_values gb n val t (s : orb) : aligned n s -> anomaly_of (strip (lower val)) = Some t ->
  otype s <> t -> okro s = false ->
  exists s1 xs s', get_of gb t s = (s1, Ok xs) /\ set_type gb val s = (s', Ok tt)
  /\ settings s' = settings (with_type t s) /\ om s' = om s
  /\ length xs = n /\ okep s' = set_row 5 (okep s1) xs /\ snd (get_kepler gb s) = Ok (okep s1)
  /\ (odirect s = false -> ocart s' = ocart s)
  /\ (odirect s = false -> forall gb', snd (get_kepler gb' s') = Ok (okep s')).
Proof.
  intros A Ea Et Ho. destruct (set_type_getter gb n val t s A Ea Et) as [s1 [xs [G [C [A1 [V [L E]]]]]]].
  pose proof (core_settings gb n s s1 (proj1 A) C) as Es.
  pose proof (set_kep_row_eq gb n 5 (fresh [n] xs) s1 (proj1 A1) (wfv_fresh1 n xs L)) as Er.
  pose proof Es as Es'. apply settings_eq in Es'. destruct Es' as [_ [_ [Eau [Ed [Eo _]]]]].
  rewrite Eo, Ho, bcast1_fresh in Er by auto. unfold set_anom in E. rewrite (bind_ok _ _ _ _ _ Er) in E.
  unfold core in C. assert (Cm : om s1 = om (kchk gb s)) by congruence. assert (Cc : ocart s1 = ocart (kchk gb s)) by congruence.
  assert (Ck : okep s1 = okep (kchk gb s)) by congruence. assert (Ckf : okf s1 = okf (kchk gb s)) by congruence. clear C.
  destruct A as [Hs HE]. destruct (kchk_spec gb n s Hs) as [_ [_ Sk]].
  pose proof Sk as [Hk [_ [Km _]]].
  set (s2 := with_kep (fun c => set_row 5 c xs) s1) in *.
  assert (Hl2 : lens n s2).
  { apply lens_with_kep; [apply A1|]. rewrite set_row_length, (l_k n s1 (proj1 A1)). lia. }
  assert (Q : lens n (aft_keprow gb s2) /\ settings (aft_keprow gb s2) = settings s /\ om (aft_keprow gb s2) = om s
     /\ okep (aft_keprow gb s2) = set_row 5 (okep s1) xs).
  { assert (Sm : settings s2 = settings s) by exact Es.
    unfold aft_keprow. destruct (odirect s2) eqn:Ed2.
    - destruct (call_spec gb n s2 Hl2) as [_ Sc]. split; [now apply lens_call|].
      split; [destruct Sc as [_ [-> _]]; auto|]. split; [destruct Sc as [_ [_ [-> _]]]; cbn; congruence|].
      change (set_row 5 (okep s1) xs) with (okep s2). apply nth_error_ext. intros j.
      destruct (nth_error (okep (call_ gb s2)) j) as [k'|] eqn:Ej.
      + pose proof (lens_call gb n s2 Hl2) as Hl. assert (Hj : j < n) by (apply nth_error_lt in Ej; destruct Hl; lia).
        destruct (col_ex n _ j Hl Hj) as [c2 [k2 [m2 [cb2 [kb2 C2]]]]].
        destruct (colstep_col _ _ _ _ _ _ _ _ _ _ Hl2 Sc C2) as [c1 [k1 [cb1 [kb1 [C1 [R _]]]]]].
        destruct R as [[-> _]|[El _]]; [destruct C1, C2; congruence|]. unfold lazy in El. rewrite Ed2 in El.
        destruct (oauto s2); discriminate.
      + symmetry. apply nth_error_None. apply nth_error_None in Ej.
        pose proof (l_k n _ (lens_call gb n s2 Hl2)). pose proof (l_k n s2 Hl2). lia.
    - split; [apply lens_with_cf; auto; rewrite all_false_length; apply Hl2|]. split; [auto|]. split; [cbn; congruence|reflexivity]. }
  destruct Q as [Q1 [Q2 [Q3 Q4]]].
  exists s1, xs, (with_type t (aft_keprow gb s2)).
  split; [auto|]. split; [exact E|]. split.
  { apply settings_eq in Q2. unfold settings. cbn. destruct Q2 as [-> [-> [-> [-> [-> [-> [-> [_ ->]]]]]]]]. reflexivity. }
  split; [exact Q3|]. split; [auto|]. split; [exact Q4|].
  split; [rewrite (get_kepler_eq gb n) by auto; cbn [snd]; congruence|].
  split.
  - intros D. cbn [ocart with_type]. unfold aft_keprow. change (odirect s2) with (odirect s1). rewrite Ed, D. cbn [ocart with_cf].
    change (ocart s2) with (ocart s1). rewrite Cc. apply nth_error_ext. intros j.
    destruct (nth_error (ocart (kchk gb s)) j) as [c'|] eqn:Ej.
    + assert (Hj : j < n) by (apply nth_error_lt in Ej; destruct Hk; lia).
      destruct (col_ex n _ j Hk Hj) as [c2 [k2 [m2 [cb2 [kb2 C2]]]]].
      destruct (colstep_col _ _ _ _ _ _ _ _ _ _ Hs Sk C2) as [c1 [k1 [cb1 [kb1 [C1 [R _]]]]]].
      destruct C1, C2; congruence.
    + symmetry. apply nth_error_None. apply nth_error_None in Ej. pose proof (l_c n _ Hk). pose proof (l_c n s Hs). lia.
  - intros D gb'. assert (Hf : lens n (with_type t (aft_keprow gb s2))) by (destruct Q1; now constructor).
    rewrite (get_kepler_eq gb' n) by auto. cbn [snd]. f_equal. apply (kchk_keeps gb' n); auto.
    intros Hz j c. cbn [ocart okf with_type]. unfold aft_keprow. change (odirect s2) with (odirect s1). rewrite Ed, D.
    cbn [ocart okf with_cf]. change (ocart s2) with (ocart s1). change (okf s2) with (okf s1). rewrite Cc, Ckf.
    intros Hc. assert (Hj : j < n) by (apply nth_error_lt in Hc; destruct Hk; lia).
    destruct (col_ex n _ j Hk Hj) as [c2 [k2 [m2 [cb2 [kb2 C2]]]]].
    destruct (colstep_col _ _ _ _ _ _ _ _ _ _ Hs Sk C2) as [c1 [k1 [cb1 [kb1 [C1 [R1 [R2 [R3 R4]]]]]]]].
    assert (c2 = c) by (destruct C2; congruence). subst c2 c1. rewrite (col_kb _ _ _ _ _ _ _ C2).
    rewrite has_nan_iff. destruct (nan6 c) eqn:Nc; [auto|]. left. f_equal.
    assert (Hzs : lazy s = true).
    { destruct Hz as [Z1 Z2]. unfold lazy. rewrite D, andb_true_r.
      cbn [oauto with_type] in Z1. apply settings_eq in Q2. destruct Q2 as [_ [_ [Qa _]]]. congruence. }
    rewrite Hzs in R3, R4. destruct kb1; [destruct R3; auto|destruct R4; auto].
Qed.
Lemma set_row_nth (j : nat) (cols : list (six F)) xs i k x :
  nth_error cols i = Some k -> nth_error xs i = Some x -> nth_error (set_row j cols xs) i = Some (row_set j k x).
Proof. intros Hk Hx. unfold set_row. now rewrite nth_error_map2, Hk, Hx. Qed.
End Generic.

Lemma cartesian_of_Cc {F} `{NP F} gb (s : orb F) k m c : cartesian_of gb s k m c -> Cc s k m c.
Proof.
  intros [nu [E1 E2]]. rewrite k2c_one in E2. injection E2 as <-. exists (gb 1 0). unfold cconv, nu1.
  destruct (otype s).
  - now subst nu.
  - rewrite e2t_arr in E1 by reflexivity. cbn in E1. unfold fresh in E1. injection E1 as <-. reflexivity.
  - rewrite m2t_arr in E1 by reflexivity. cbn in E1. unfold fresh in E1. injection E1 as <-. reflexivity.
Qed.

Local Open Scope R_scope.
Lemma fin6_nan (k : six R) : nan6 (fin6 k) = false.
Proof. destruct k as [a b c d e f]. unfold nan6, isnan, fin6, map6. cbn [s0 s1 s2 s3 s4 s5]. num. now rewrite !Reqb_true by auto. Qed.
Lemma set5_fin k x : row_set 5 (fin6 k) (Fin x) = fin6 (with_nu k x). Proof. now destruct k. Qed.
Lemma cartesian_of_real (s : orb num) (k : six R) m mu nu g c : 0 < mu -> 0 < s0 k -> 0 <= s1 k < 1 -> mu_real s m mu ->
  otype s <> AMean -> body (otype s) (s1 k) (ang (odeg s) (s5 k)) nu ->
  (cartesian_of g s (fin6 k) (Fin m) c <-> c = fin6 (peri_state mu (radk (odeg s) k nu))).
Proof.
  intros Hmu Ha He Em Ht Hb. split.
  - intros E. apply cartesian_of_Cc in E. eapply Cc_real; eauto.
  - intros ->. apply Cc_cartesian_of; [apply nan_arith_num|apply fin6_nan|].
    exists (Fin 0). symmetry. eapply Cc_real; eauto. now exists (Fin 0).
Qed.

(** Exact arithmetic, elliptic orbits, manual and lazy mode, from type true or eccentric: the
    anomaly read after the assignment stands for the same body position, the Cartesian elements
    are untouched, and (new type true or eccentric) a Cartesian state is the conversion of the
    new elements iff it was that of the old ones.
    Missing for the full claim: direct mode (refuted below); type mean, where the position is
    only kept up to the solver tolerance ([C48_mean_partial]); open orbits (C16). *)
Theorem C48_elliptic_partial : forall gb gb' n val t (s s' : orb num) ks j (k : six R),
  aligned n s -> odirect s = false -> otype s <> AMean ->
  anomaly_of (strip (lower val)) = Some t -> otype s <> t -> set_type gb val s = (s', Ok tt) ->
  snd (get_kepler gb s) = Ok ks -> nth_error ks j = Some (fin6 k) -> 0 <= s1 k < 1 ->
  otype s' = t /\ ocart s' = ocart s
  /\ exists ks' x, snd (get_kepler gb' s') = Ok ks' /\ nth_error ks' j = Some (fin6 (with_nu k x))
    /\ (forall nu, body (otype s) (s1 k) (ang (odeg s) (s5 k)) nu <-> body t (s1 k) (ang (odeg s) x) nu)
    /\ (t <> AMean -> forall m mu c g g', 0 < mu -> 0 < s0 k -> mu_real s m mu ->
          (cartesian_of g s (fin6 k) (Fin m) c <-> cartesian_of g' s' (fin6 (with_nu k x)) (Fin m) c)).
Proof.
  intros gb gb' n val t s s' ks j k A D Ht Ea Et E Ek Hj He.
  destruct (okro s) eqn:Ho.
  { destruct (set_type_ro gb n val t s A Ea Et Ho) as [s1 [_ [_ E']]]. congruence. }
  destruct (set_type_getter gb n val t s A Ea Et) as [sa [xa [Ga [_ [_ [V [_ _]]]]]]].
  destruct (C48_values gb n val t s A Ea Et Ho) as [sx [xs [s2 [G [E2 [Es [Em [L [Ek' [Er [Ec Eg]]]]]]]]]]].
  assert (s2 = s') by congruence. subst s2. assert (sa = sx) by congruence. assert (xa = xs) by congruence. subst sa xa.
  assert (ks = okep sx) by congruence. subst ks.
  rewrite (get_kepler_eq gb n) in Er by apply A. cbn [snd] in Er. injection Er as Er. rewrite Er in V.
  destruct V as [_ V]. destruct (V j _ Hj) as [g Hx].
  destruct (anom1_body t s g k He (or_introl Ht)) as [x [Ex B]]. rewrite Ex in Hx.
  pose proof Es as Es'. apply settings_eq in Es'. cbn [oM0 oG odeg otype with_type] in Es'.
  destruct Es' as [EM [EG [_ [_ [_ [_ [Eg' [Et' _]]]]]]]].
  split; [auto|]. split; [auto|]. exists (okep s'), x.
  assert (Hk' : nth_error (okep s') j = Some (fin6 (with_nu k x))).
  { rewrite Ek', (set_row_nth 5 (okep sx) xs j (fin6 k) (Fin x)); auto. }
  split; [auto|]. split; [auto|]. split; [auto|].
  intros Htm m mu c g0 g1 Hmu Ha Hm. destruct (body_ex (s1 k) He (otype s) (ang (odeg s) (s5 k))) as [nu Hb].
  rewrite (cartesian_of_real s k m mu nu) by auto.
  assert (Hm' : mu_real s' m mu) by (unfold mu_real; now rewrite EG, EM).
  rewrite (cartesian_of_real s' (with_nu k x) m mu nu) by (auto; try congruence; rewrite Et', Eg'; change (s1 (with_nu k x)) with (s1 k); change (s5 (with_nu k x)) with x; now apply B).
  rewrite Eg'. replace (radk (odeg s) (with_nu k x) nu) with (radk (odeg s) k nu) by now destruct k. reflexivity.
Qed.
(** From type mean: when the solver reports convergence, the new anomaly stands for a position
    whose mean anomaly differs by less than the tolerance (every mode; the stored elements are
    those read back outside direct mode). *)
Theorem C48_mean_partial : forall gb n val t (s s' : orb num) ks j (k : six R) tl,
  aligned n s -> otype s = AMean -> opts_ok (oopts s) tl ->
  anomaly_of (strip (lower val)) = Some t -> otype s <> t -> set_type gb val s = (s', Ok tt) ->
  snd (get_kepler gb s) = Ok ks -> nth_error ks j = Some (fin6 k) -> 0 <= s1 k < 1 ->
  solved (oopts s) (ang (odeg s) (s5 k)) (s1 k) ->
  otype s' = t /\ (odirect s = false -> ocart s' = ocart s)
  /\ exists x M', nth_error (okep s') j = Some (fin6 (with_nu k x))
    /\ Rabs (M' - ang (odeg s) (s5 k)) < tl
    /\ (forall nu, body AMean (s1 k) M' nu <-> body t (s1 k) (ang (odeg s) x) nu).
Proof.
  intros gb n val t s s' ks j k tl A Ht Hop Ea Et E Ek Hj He Hso.
  destruct (okro s) eqn:Ho.
  { destruct (set_type_ro gb n val t s A Ea Et Ho) as [s1 [_ [_ E']]]. congruence. }
  destruct (set_type_getter gb n val t s A Ea Et) as [sa [xa [Ga [_ [_ [V [_ _]]]]]]].
  destruct (C48_values gb n val t s A Ea Et Ho) as [sx [xs [s2 [G [E2 [Es [Em [L [Ek' [Er [Ec Eg]]]]]]]]]]].
  assert (s2 = s') by congruence. subst s2. assert (sa = sx) by congruence. assert (xa = xs) by congruence. subst sa xa.
  assert (ks = okep sx) by congruence. subst ks.
  rewrite (get_kepler_eq gb n) in Er by apply A. cbn [snd] in Er. injection Er as Er. rewrite Er in V.
  destruct V as [_ V]. destruct (V j _ Hj) as [g Hx].
  destruct (anom1_body_mean t s g k tl He Ht Hop) as [x [Ex B]]. rewrite Ex in Hx.
  destruct (B Hso) as [M' [B1 B2]].
  apply settings_eq in Es. cbn [otype with_type] in Es. split; [apply Es|]. split; [auto|].
  exists x, M'. split; [|auto]. rewrite Ek', (set_row_nth 5 (okep sx) xs j (fin6 k) (Fin x)); auto.
Qed.

(** ** Direct mode *)
Lemma direct_call gb (s : orb num) (k : six R) m : aligned 1 s -> odirect s = true ->
  okep s = [fin6 k] -> om s = [Fin m] ->
  exists c, aligned 1 (call_ gb s) /\ settings (call_ gb s) = settings s /\ okep (call_ gb s) = [fin6 k]
    /\ om (call_ gb s) = [Fin m] /\ ocart (call_ gb s) = [c] /\ Cc s (fin6 k) (Fin m) c.
Proof.
  intros [Hs HE] D Ek Em. destruct (call_spec gb 1 s Hs) as [_ Sc]. pose proof (lens_call gb 1 s Hs) as Hl.
  assert (L0 : lazy s = false) by (unfold lazy; rewrite D; apply andb_false_r).
  destruct (col_ex 1 _ 0 Hl ltac:(lia)) as [c [k' [m' [cb [kb C]]]]].
  destruct (colstep_col _ _ _ _ _ _ _ _ _ _ Hs Sc C) as [c1 [k1 [cb1 [kb1 [C1 [R1 R2]]]]]].
  pose proof Sc as [_ [S1 [S2 [S3 _]]]].
  assert (k' = k1) as -> by (destruct R1 as [[-> _]|[? _]]; congruence).
  assert (k1 = fin6 k) as -> by (pose proof (col_k _ _ _ _ _ _ _ C1) as X; rewrite Ek in X; now injection X).
  assert (m' = Fin m) as -> by (pose proof (col_m _ _ _ _ _ _ _ C1) as X; rewrite Em in X; now injection X).
  exists c. split; [split; [auto|]|].
  { destruct HE as [d HE]. exists d. unfold fresh in *. now rewrite S3. }
  split; [auto|]. split.
  { pose proof (col_k _ _ _ _ _ _ _ C) as X. pose proof (l_k 1 _ Hl) as L. destruct (okep (call_ gb s)) as [|y [|]]; try discriminate.
    cbn in X. congruence. }
  split; [congruence|]. split.
  { pose proof (col_c _ _ _ _ _ _ _ C) as X. pose proof (l_c 1 _ Hl) as L. destruct (ocart (call_ gb s)) as [|y [|]]; try discriminate.
    cbn in X. congruence. }
  destruct R2 as [[[?|N] _]|[_ [_ [_ R]]]]; [discriminate|rewrite fin6_nan in N; discriminate|].
  apply R. now rewrite L0.
Qed.
(** a = 1, e = 1/2, i = pi/2, nu = pi/2, mu = 1 *)
Definition ktp (nu : R) : six R := mk6 1 (1/2) (PI/2) 0 0 nu.
Lemma ktp_dist nu : norm (pos (peri_state 1 (ktp nu))) = (3/4) / (1 + 1/2 * cos nu).
Proof.
  rewrite peri_norm.
  - unfold semi_latus, k_a, k_e, k_nu, ktp. cbn [s0 s1 s5]. destruct (Rlt_dec (1/2) 1); [f_equal; lra|lra].
  - unfold valid_kep, k_a, k_e, k_nu, ktp. cbn [s0 s1 s5]. pose proof (COS_bound nu). repeat split; lra.
Qed.
Lemma ktp_E E : anomalies_ell (1/2) (PI/2) E -> cos E = 1/2.
Proof.
  intros [H1 _]. rewrite cos_PI2 in H1. pose proof (COS_bound E).
  assert ((cos E - 1/2) / (1 - 1/2 * cos E) * (1 - 1/2 * cos E) = 0) by (rewrite <- H1; ring).
  replace ((cos E - 1/2) / (1 - 1/2 * cos E) * (1 - 1/2 * cos E)) with (cos E - 1/2) in H0 by (field; lra). lra.
Qed.
Definition kvec (k : six R) : arg num := fresh [6%nat] [Fin (s0 k); Fin (s1 k); Fin (s2 k); Fin (s3 k); Fin (s4 k); Fin (s5 k)].
(** In direct mode [type = 'eccentric'] recomputes the Cartesian elements from the new anomaly
    under the old type: whatever the object held before, after [kepler = (1, 1/2, pi/2, 0, 0, pi/2)]
    and the type change the two element sets contradict each other and the body has moved. *)
Theorem C48_direct_refuted : forall gb gb' (s : orb num), aligned 1 s -> odirect s = true -> okro s = false ->
  otype s = ATrue -> odeg s = false -> om s = [Fin 0] -> oG s = Fin 1 -> oM0 s = Fin 1 ->
  exists s1 s2 c1 c2, set_kepler gb (kvec (ktp (PI/2))) s = (s1, Ok tt) /\ all_consistent s1
  /\ set_type gb' "eccentric" s1 = (s2, Ok tt)
  /\ ocart s1 = [fin6 c1] /\ norm (pos c1) = 3/4 /\ ocart s2 = [fin6 c2] /\ norm (pos c2) = 3/5
  /\ odirect s2 = true /\ ~ all_consistent s2.
Proof.
  intros gb gb' s A D Ho Et Ed Em EG EM. pose proof A as [Hs HE].
  assert (Hmu : forall s : orb num, oG s = Fin 1 -> oM0 s = Fin 1 -> mu_real s 0 1).
  { intros s0 E1 E2. unfold mu_real. rewrite E1, E2. num. f_equal. lra. }
  assert (W : whole_value 1 (kvec (ktp (PI/2))) = Ok [fin6 (ktp (PI/2))]) by reflexivity.
  pose proof (set_kepler_eq gb 1 (kvec (ktp (PI/2))) s Hs) as E. rewrite Ho, W in E.
  specialize (E ltac:(now vm_compute)).
  set (sa := with_kep (fun _ => [fin6 (ktp (PI/2))]) s) in *.
  assert (A0 : aligned 1 sa) by (split; [now apply lens_with_kep|exact HE]).
  assert (Ea : aft_kep gb sa = call_ gb sa) by (unfold aft_kep; change (odirect sa) with (odirect s); now rewrite D).
  rewrite Ea in E. clear Ea.
  destruct (direct_call gb sa (ktp (PI/2)) 0) as [c1 [A1 [S1 [K1 [M1 [C1 R1]]]]]]; auto.
  set (sb := call_ gb sa) in *. pose proof S1 as S1'. apply settings_eq in S1'. cbn [oM0 oG oauto odirect okro ocro odeg otype oopts with_kep sa] in S1'.
  destruct S1' as [M0' [G' [_ [D' [Ro' [_ [Dg' [Ty' _]]]]]]]].
  rewrite D in D'. rewrite Ho in Ro'. rewrite Ed in Dg'. rewrite Et in Ty'. rewrite EM in M0'. rewrite EG in G'.
  assert (He : 0 <= 1/2 < 1) by lra.
  assert (B1 : body ATrue (1/2) (PI/2) (PI/2)) by apply cong_refl.
  apply (Cc_settings sa sb) in R1; [|now symmetry].
  assert (X1 : c1 = fin6 (peri_state 1 (ktp (PI/2)))).
  { eapply (Cc_real sb (ktp (PI/2)) 0 1 c1) in R1; auto; try (cbn; lra); try congruence.
    - rewrite Dg' in R1. exact R1.
    - rewrite Ty', Dg'. exact B1. }
  assert (Lz : lazy sb = false) by (unfold lazy; rewrite D'; apply andb_false_r).
  destruct (set_type_spec gb' 1 "eccentric" AEcc sb A1 eq_refl) as [sc [xs [Cr [A2 [V [L E2]]]]]]; [congruence|auto|].
  rewrite kchk_id in Cr, V by auto. rewrite K1 in V. destruct V as [_ V]. destruct (V 0%nat _ eq_refl) as [g Hx].
  destruct xs as [|x [|]]; try discriminate. cbn in Hx. injection Hx as ->.
  destruct (anom1_body AEcc sb g (ktp (PI/2)) He) as [x [Ex Bx]]; [left; congruence|]. cbn [anom1] in Ex. rewrite Ex in E2.
  rewrite Ty', Dg' in Bx. cbn [ang] in Bx. change (s5 (ktp (PI/2))) with (PI/2) in Bx. change (s1 (ktp (PI/2))) with (1/2) in Bx.
  assert (AE : anomalies_ell (1/2) (PI/2) x) by (apply (Bx (PI/2)); exact B1).
  pose proof (ktp_E x AE) as CE.
  unfold core in Cr. assert (Ss : settings sc = settings sb) by congruence.
  assert (Ks : okep sc = [fin6 (ktp (PI/2))]) by congruence. assert (Ms : om sc = [Fin 0]) by congruence.
  set (sd := with_kep (fun c => set_row 5 c [Fin x]) sc) in *.
  pose proof Ss as Ss'. apply settings_eq in Ss'. destruct Ss' as [M0s [Gs [_ [Ds [_ [_ [Dgs [Tys _]]]]]]]].
  assert (Kd : okep sd = [fin6 (ktp x)]) by (cbn [okep with_kep sd]; rewrite Ks; reflexivity).
  assert (Ad : aligned 1 sd).
  { destruct A2 as [A2 A2']. split; [apply lens_with_kep; auto; rewrite Ks; reflexivity|exact A2']. }
  assert (Ef : aft_keprow gb' sd = call_ gb' sd) by (unfold aft_keprow; change (odirect sd) with (odirect sc); now rewrite Ds, D').
  rewrite Ef in E2. clear Ef.
  destruct (direct_call gb' sd (ktp x) 0) as [c2 [A3 [S3 [K3 [M3 [C3 R3]]]]]]; auto; [change (odirect sd) with (odirect sc); congruence|].
  set (se := call_ gb' sd) in *. pose proof S3 as S3'. apply settings_eq in S3'.
  change (oM0 sd) with (oM0 sc) in S3'. change (oG sd) with (oG sc) in S3'. change (odeg sd) with (odeg sc) in S3'. change (otype sd) with (otype sc) in S3'.
  destruct S3' as [M0e [Ge [_ [Dre [_ [_ [Dge [Tye _]]]]]]]].
  assert (X2 : c2 = fin6 (peri_state 1 (ktp x))).
  { eapply (Cc_real sd (ktp x) 0 1 c2) in R3; auto; try (cbn; lra).
    - change (odeg sd) with (odeg sc) in R3. rewrite Dgs, Dg' in R3. exact R3.
    - apply Hmu; [change (oG sd) with (oG sc)|change (oM0 sd) with (oM0 sc)]; congruence.
    - change (otype sd) with (otype sc). congruence.
    - change (otype sd) with (otype sc). change (odeg sd) with (odeg sc). rewrite Tys, Ty', Dgs, Dg'. cbn [ang body]. apply cong_refl. }
  exists sb, (with_type AEcc se), (peri_state 1 (ktp (PI/2))), (peri_state 1 (ktp x)).
  split; [exact E|]. split.
  { intros j c k m Hc Hk Hm. right. right. rewrite C1 in Hc. rewrite K1 in Hk. rewrite M1 in Hm.
    destruct j as [|[|]]; try discriminate. cbn in Hc, Hk, Hm. injection Hc as <-. injection Hk as <-. injection Hm as <-.
    right. intros g0. apply Cc_cartesian_of; [apply nan_arith_num|apply fin6_nan|exact R1]. }
  split; [exact E2|]. split; [congruence|]. split; [rewrite ktp_dist, cos_PI2; lra|].
  split; [cbn [ocart with_type]; congruence|]. split; [rewrite ktp_dist, CE; lra|].
  split; [cbn [odirect with_type]; change (odirect sd) with (odirect sc) in Dre; congruence|].
  intros Co. destruct (Co 0%nat (fin6 (peri_state 1 (ktp x))) (fin6 (ktp x)) (Fin 0)) as [N|[N|[N|N]]].
  - cbn [ocart with_type]. rewrite C3, X2. reflexivity.
  - cbn [okep with_type]. now rewrite K3.
  - cbn [om with_type]. now rewrite M3.
  - apply has_nan_iff in N. rewrite fin6_nan in N. discriminate.
  - apply has_nan_iff in N. rewrite fin6_nan in N. discriminate.
  - specialize (N gb). destruct N as [k0 [N1 N2]]. destruct (wrap_fin x) as [x' [_ [W1 W2]]].
    rewrite c2k_one in N1. cbn [odeg otype with_type] in N1, N2. rewrite Dge, Dgs, Dg' in N1, N2.
    assert (Em1 : mu_orbit (with_type AEcc se) (Fin 0) = Fin 1).
    { apply Hmu; cbn [oG oM0 with_type]; congruence. }
    rewrite Em1 in N1.
    assert (Ep : peri_state 1 (ktp x) = peri_state 1 (ktp x')) by (apply (peri_nu 1 (ktp 0)), cong_sym, W2).
    assert (Hv : valid_kep 1 (ktp x')).
    { unfold valid_kep, k_a, k_e, k_nu, ktp. cbn [s0 s1 s5]. pose proof (COS_bound x'). repeat split; lra. }
    pose proof PI_RGT_0.
    assert (R0 : elements_of 1 (peri_state 1 (ktp x')) (fin6 (ktp x'))).
    { apply C07_roundtrip; auto; unfold eccentric_orbit, inclined_orbit, in_circle, k_e, k_i, k_om, k_Om, k_nu, ktp;
        cbn [s1 s2 s3 s4 s5]; try lra. now apply state_of_peri. }
    pose proof (elements_of_fun _ _ _ _ R0 (elements_of_col 1 (peri_state 1 (ktp x')))) as R4.
    rewrite Ep, <- R4 in N1. assert (k0 = fin6 (ktp x')) by congruence. subst k0.
    destruct N2 as [y [N2 N3]]. rewrite t2e_arr in N2 by reflexivity.
    destruct (t2e1_ell (gb 1%nat 0%nat) false x' (1/2) He) as [y' [Y1 [_ Y2]]].
    assert (Fin y' = y).
    { change (imap2 (fun j => t2e1 (gb 1%nat j) false) 0 [s5 (fin6 (ktp x'))] [s1 (fin6 (ktp x'))])
        with [t2e1 (gb 1%nat 0%nat) false (Fin x') (Fin (1/2))] in N2. rewrite Y1 in N2. unfold fresh in N2. congruence. }
    subst y. assert (y' = x).
    { assert (Q : s5 (fin6 (ktp x)) = s5 (set5 (fin6 (ktp x')) (Fin y'))) by now rewrite N3. cbn in Q. congruence. }
    subst y'. cbn [ang] in Y2. destruct Y2 as [Y2 _]. rewrite CE, (cong_cos x' x W2), CE in Y2. lra.
  - specialize (N gb). apply (cartesian_of_real _ (ktp x) 0 1 (PI/2)) in N; auto; try (cbn; lra).
    + cbn [odeg with_type] in N. rewrite Dge, Dgs, Dg' in N.
      assert (Y : peri_state 1 (ktp x) = peri_state 1 (ktp (PI/2))).
      { unfold fin6, map6 in N. destruct (peri_state 1 (ktp x)) as [a b c d e f].
        change (radk false (ktp x) (PI/2)) with (ktp (PI/2)) in N.
        destruct (peri_state 1 (ktp (PI/2))) as [a' b' c' d' e' f']. cbn [s0 s1 s2 s3 s4 s5] in N. congruence. }
      pose proof (ktp_dist x) as Z1. pose proof (ktp_dist (PI/2)) as Z2. rewrite Y, Z2, CE, cos_PI2 in Z1. lra.
    + apply Hmu; cbn [oG oM0 with_type]; congruence.
    + discriminate.
    + cbn [otype odeg with_type]. rewrite Dge, Dgs, Dg'. exact AE.
Qed.

(** an object with one orbit, G = 1, central mass 1, radians, type true *)
Definition cfgr (auto direct : bool) : config num :=
  mkconfig auto direct (Fin 1) default_options false "true"%string 1 false false.
Definition s_new (auto direct : bool) : orb num :=
  mkorb (Fin 1) (Fin 1) auto direct false false false ATrue default_options
    [lit 0] [nan6c] [nan6c] [nan] (fresh [1%nat] [nan]) [nan] [false] [false] None.
Example C48_direct_example : forall gb, let s := s_new true true in init gb (Fin 1) (cfgr true true) no_kws = Ok s
  /\ aligned 1 s /\ odirect s = true /\ okro s = false /\ otype s = ATrue /\ odeg s = false /\ om s = [Fin 0]
  /\ oG s = Fin 1 /\ oM0 s = Fin 1.
Proof.
  intros gb s. split; [reflexivity|]. split; [split; [now constructor|]|].
  { exists [nan]. auto. }
  repeat (split; [reflexivity|]). split; [unfold s, s_new; cbn [om]; now rewrite lit_0|auto].
Qed.
(** Assigning [type] in direct mode breaks C42 in exact arithmetic: a new object, then
    [orb.kepler = ...], then [orb.type = 'eccentric'], no call raising. *)
Theorem C42_type_refuted : forall gb, exists s h, init gb (Fin 1) (cfgr true true) no_kws = Ok s
  /\ steps_ok (fun g o s => snd (run_op g o s) = Ok tt) h s /\ odirect (run h s) = true
  /\ (exists o h', h = h' ++ [o] /\ all_consistent (run h' s)) /\ ~ all_consistent (run h s).
Proof.
  intros gb. destruct (C48_direct_example gb) as [E [A [D [Ho [Et [Ed [Em [EG EM]]]]]]]].
  destruct (C48_direct_refuted gb gb _ A D Ho Et Ed Em EG EM) as [s1 [s2 [c1 [c2 [E1 [Co [E2 [_ [_ [_ [_ [Dr Nc]]]]]]]]]]]].
  exists (s_new true true), [(gb, OSetKep (kvec (ktp (PI/2)))); (gb, OSetType "eccentric"%string)].
  split; [exact E|]. cbn [steps_ok run run_op]. rewrite E1. cbn [fst snd]. rewrite E2. cbn [fst snd].
  split; [auto|]. split; [exact Dr|].
  split; [|exact Nc]. exists (gb, OSetType "eccentric"%string), [(gb, OSetKep (kvec (ktp (PI/2))))].
  split; [auto|]. cbn [run run_op]. now rewrite E1.
Qed.

(** manual mode, e = 1/2, nu = pi/2, to type eccentric *)
Example C48_elliptic_example : forall gb, exists s s', init gb (Fin 1) (cfgr false false) no_kws = Ok (s_new false false)
  /\ set_kepler gb (kvec (ktp (PI/2))) (s_new false false) = (s, Ok tt) /\ aligned 1 s /\ odirect s = false
  /\ otype s = ATrue /\ set_type gb "Eccentric "%string s = (s', Ok tt)
  /\ snd (get_kepler gb s) = Ok [fin6 (ktp (PI/2))] /\ 0 <= s1 (ktp (PI/2)) < 1 /\ mu_real s 0 1.
Proof.
  intros gb.
  pose (s := aft_kep gb (with_kep (fun _ => [fin6 (ktp (PI/2))]) (s_new false false))).
  assert (A : aligned 1 s).
  { split; [now constructor|]. exists [nan]. auto. }
  exists s. destruct (C48_values gb 1 "Eccentric "%string AEcc s A eq_refl) as [_ [_ [s' [_ [E _]]]]]; [discriminate|reflexivity|].
  exists s'. split; [reflexivity|]. split; [reflexivity|]. split; [exact A|]. split; [reflexivity|]. split; [reflexivity|].
  split; [exact E|]. split; [reflexivity|]. split; [cbn; lra|]. unfold mu_real, s. cbn. num. f_equal. lra.
Qed.
(** manual mode, type mean, e = 1/2, M = pi, default solver options *)
Example C48_mean_example : forall gb, exists s s',
  set_kepler gb (kvec (ktp PI)) (with_type AMean (s_new false false)) = (s, Ok tt) /\ aligned 1 s
  /\ otype s = AMean /\ opts_ok (oopts s) 1e-12 /\ set_type gb "true"%string s = (s', Ok tt)
  /\ snd (get_kepler gb s) = Ok [fin6 (ktp PI)] /\ 0 <= s1 (ktp PI) < 1
  /\ solved (oopts s) (ang (odeg s) (s5 (ktp PI))) (s1 (ktp PI)).
Proof.
  intros gb.
  pose (s := aft_kep gb (with_kep (fun _ => [fin6 (ktp PI)]) (with_type AMean (s_new false false)))).
  assert (A : aligned 1 s).
  { split; [now constructor|]. exists [nan]. auto. }
  exists s. destruct (C48_values gb 1 "true"%string ATrue s A eq_refl) as [_ [_ [s' [_ [E _]]]]]; [discriminate|reflexivity|].
  exists s'. split; [reflexivity|]. split; [exact A|]. split; [reflexivity|]. split.
  { split; [cbn [oopts s]; unfold s; cbn; num; f_equal; lra|]. split; [lra|]. exists 5. split; [unfold s; cbn; num; f_equal; lra|lra]. }
  split; [exact E|]. split; [reflexivity|]. split; [cbn; lra|]. right. exact C20_example.
Qed.
