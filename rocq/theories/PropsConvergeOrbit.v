(** * C66 for the Orbit class: the results that needed "when the solver stops", without that hypothesis *)
From Coq Require Import String Reals Lra List Bool Arith Lia ZArith QArith.
From Verif Require Import NP KeplerModel ConvModel UnitModel OrbitModel Lists ConvCols ArraySpec
  NPReal RealBase Spec AnomReal KepReal PropsKep CartInv PropsAnomaly PropsAnomalyR PropsSolver PropsScalar PropsCart
  PropsDegrees PropsEqui PropsEquiCart EllState OrbitLists OrbitBase OrbitOps OrbitSetters OrbitGet OrbitSpec PropsOrbitWidth PropsOrbitDirect
  PropsOrbitLazy PropsOrbitWrite OrbitReal PropsOrbitType PropsOrbitProp PropsOrbitPropR PropsNewton PropsOrbitNewton PropsOrbitEqui
  PropsOrbitEquiR PropsOrbitAnomaly PropsConverge.
Import ListNotations.
Local Open Scope R_scope.
Notation orb := (OrbitModel.orb num).

Lemma conv_opts_ok o t : conv_opts o t -> opts_ok o t.
Proof.
  intros H. pose proof (conv_opts_pos o t H). destruct H as [H1 [H2 _]]. split; [auto|]. split; [auto|]. exists 5. split; [auto|lra].
Qed.
Lemma conv_solved o t M e : conv_opts o t -> 0 <= e < 1 -> 0 <= M <= 2 * PI -> solved o M e.
Proof. intros Ho He HM. right. now apply (conv_opts_converged o t). Qed.
Lemma conv_solved_circle o t e : conv_opts o t -> 0 <= e < 1 -> forall T, in_circle T -> solved o T e.
Proof. intros Ho He T [T0 T1]. apply (conv_solved o t); auto. lra. Qed.
Lemma turn_of x : exists T, in_circle T /\ cong2pi T x.
Proof. exists (Rmod x (2 * PI)). apply Rmod_2pi. Qed.

(** propagate: a body on an elliptic orbit is where Newton's law puts it, for every interval, every
    eccentricity below 1 and every anomaly, up to the tolerance *)
Theorem C66_propagate : forall gb gb' n dt (s s' : orb) ks j (k : six R) m mu d tl,
  aligned n s -> wfv dt -> propagate gb dt s = (s', Ok tt) ->
  snd (get_kepler gb s) = Ok ks -> nth_error ks j = Some (fin6 k) -> nth_error (om s) j = Some (Fin m) ->
  entry1 dt j (Fin d) -> 0 < mu -> mu_real s m mu -> 0 < s0 k -> 0 <= s1 k < 1 -> conv_opts (oopts s) tl ->
  oauto s = true \/ odirect s = true ->
  forall M X, mean_of (otype s) (s1 k) (ang (odeg s) (s5 k)) M -> follows mu (radk (odeg s) k 0) M X ->
  exists cs x, snd (get_cartesian gb' s') = Ok cs /\ nth_error cs j = Some (fin6 x)
  /\ norm (minus3 (pos x) (pos (X d))) <= s0 k / (1 - s1 k) * tl
  /\ norm (minus3 (vel x) (vel (X d))) <= 3 * sqrt (mu / s0 k) / ((1 - s1 k) * (1 - s1 k) * (1 - s1 k)) * tl.
Proof.
  intros gb gb' n dt s s' ks j k m mu d tl A W E Ek Hj Hm Hd Hmu Em Ha He Hop Hau M X HM HX.
  destruct (turn_of (M + rate mu (s0 k) * d)) as [T [HT CT]].
  exact (C56_propagate gb gb' n dt s s' ks j k m mu d tl A W E Ek Hj Hm Hd Hmu Em Ha He (conv_opts_ok _ _ Hop) Hau
    M X T HM HX HT CT (conv_solved_circle _ tl _ Hop He T HT)).
Qed.
(** the mean anomaly read after propagate(dt) is M + n dt modulo a turn, up to the tolerance *)
Theorem C66_advance : forall gb gb' n dt (s s' : orb) ks j (k : six R) m mu d tl,
  aligned n s -> wfv dt -> propagate gb dt s = (s', Ok tt) ->
  snd (get_kepler gb s) = Ok ks -> nth_error ks j = Some (fin6 k) -> nth_error (om s) j = Some (Fin m) ->
  entry1 dt j (Fin d) -> 0 < mu -> mu_real s m mu -> 0 < s0 k -> 0 <= s1 k < 1 -> conv_opts (oopts s) tl ->
  forall M, mean_of (otype s) (s1 k) (ang (odeg s) (s5 k)) M ->
  exists ks' x M' z, snd (get_kepler gb' s') = Ok ks' /\ nth_error ks' j = Some (fin6 (with_nu k x))
  /\ mean_of (otype s) (s1 k) (ang (odeg s) x) M' /\ Rabs (M' - (M + rate mu (s0 k) * d + 2 * PI * IZR z)) < tl.
Proof.
  intros gb gb' n dt s s' ks j k m mu d tl A W E Ek Hj Hm Hd Hmu Em Ha He Hop M HM.
  destruct (turn_of (M + rate mu (s0 k) * d)) as [T [HT CT]].
  destruct (C55_advance gb gb' n dt s s' ks j k m mu d tl A W E Ek Hj Hm Hd Hmu Em Ha He (conv_opts_ok _ _ Hop))
    as [ks' [x [R1 [R2 [_ [_ [_ R3]]]]]]].
  destruct (R3 M T HM HT CT) as [_ R4]. destruct (R4 (conv_solved_circle _ tl _ Hop He T HT)) as [M' [R5 R6]].
  destruct CT as [z Hz]. exists ks', x, M', z. rewrite <- Hz. auto.
Qed.
Theorem C66_additive : forall gb n dt1 dt2 dt (s sa sb s' : orb) ks j (k : six R) m mu d1 d2 tl,
  aligned n s -> wfv dt1 -> wfv dt2 -> wfv dt ->
  propagate gb dt1 s = (sa, Ok tt) -> propagate gb dt2 sa = (sb, Ok tt) -> propagate gb dt s = (s', Ok tt) ->
  snd (get_kepler gb s) = Ok ks -> nth_error ks j = Some (fin6 k) -> nth_error (om s) j = Some (Fin m) ->
  entry1 dt1 j (Fin d1) -> entry1 dt2 j (Fin d2) -> entry1 dt j (Fin (d1 + d2)) ->
  0 < mu -> mu_real s m mu -> 0 < s0 k -> 0 <= s1 k < 1 -> conv_opts (oopts s) tl ->
  exists kb k' x x' M M' z, snd (get_kepler gb sb) = Ok kb /\ snd (get_kepler gb s') = Ok k'
  /\ nth_error kb j = Some (fin6 (with_nu k x)) /\ nth_error k' j = Some (fin6 (with_nu k x'))
  /\ mean_of (otype s) (s1 k) (ang (odeg s) x) M /\ mean_of (otype s) (s1 k) (ang (odeg s) x') M'
  /\ Rabs (M - M' - 2 * PI * IZR z) < 3 * tl.
Proof.
  intros gb n dt1 dt2 dt s sa sb s' ks j k m mu d1 d2 tl A W1 W2 W E1 E2 E Ek Hj Hm H1 H2 H3 Hmu Em Ha He Hop.
  exact (C55_additive_tol gb n dt1 dt2 dt s sa sb s' ks j k m mu d1 d2 tl A W1 W2 W E1 E2 E Ek Hj Hm H1 H2 H3 Hmu Em Ha He
    (conv_opts_ok _ _ Hop) (conv_solved_circle _ tl _ Hop He)).
Qed.
(** type mean to true or eccentric: the assignment to [type] keeps the body where it is, up to the tolerance *)
Theorem C66_type_from_mean : forall gb n val t (s s' : orb) ks j (k : six R) tl,
  aligned n s -> otype s = AMean -> conv_opts (oopts s) tl ->
  anomaly_of (strip (lower val)) = Some t -> otype s <> t -> set_type gb val s = (s', Ok tt) ->
  snd (get_kepler gb s) = Ok ks -> nth_error ks j = Some (fin6 k) -> 0 <= s1 k < 1 ->
  0 <= ang (odeg s) (s5 k) <= 2 * PI ->
  otype s' = t /\ (odirect s = false -> ocart s' = ocart s)
  /\ exists x M', nth_error (okep s') j = Some (fin6 (with_nu k x))
    /\ Rabs (M' - ang (odeg s) (s5 k)) < tl
    /\ (forall nu, body AMean (s1 k) M' nu <-> body t (s1 k) (ang (odeg s) x) nu).
Proof.
  intros gb n val t s s' ks j k tl A Ht Hop Ea Et E Ek Hj He HM.
  exact (C48_mean_partial gb n val t s s' ks j k tl A Ht (conv_opts_ok _ _ Hop) Ea Et E Ek Hj He (conv_solved _ tl _ _ Hop He HM)).
Qed.
(** writing an anomaly of another type, one revolution *)
Theorem C66_anomaly_other : forall gb gb' n w v (s s' : orb) ks j (k : six R) x tl,
  aligned n s -> wfv v -> c_order v -> w <> otype s -> set_of gb w v s = (s', Ok tt) ->
  snd (get_kepler gb s) = Ok ks -> nth_error ks j = Some (fin6 k) -> 0 <= s1 k < 1 -> entry1 v j (Fin x) ->
  in_circle (ang (odeg s) x) -> conv_opts (oopts s) tl ->
  exists vs y, snd (get_of gb' w s') = Ok vs /\ nth_error vs j = Some (Fin y)
  /\ (w <> AMean -> otype s <> AMean -> ang (odeg s) y = ang (odeg s) x)
  /\ (w = AMean -> exists M, cong2pi (ang (odeg s) y) M /\ Rabs (M - ang (odeg s) x) < tl)
  /\ (otype s = AMean -> w = AEcc -> (1 - s1 k) * Rabs (ang (odeg s) y - ang (odeg s) x) < tl)
  /\ (otype s = AMean -> w = ATrue -> exists E E', anomalies_ell (s1 k) (ang (odeg s) x) E
        /\ anomalies_ell (s1 k) (ang (odeg s) y) E' /\ (1 - s1 k) * Rabs (E' - E) < tl).
Proof.
  intros gb gb' n w v s s' ks j k x tl A W C Hw E Ek Hj He Hx Ix Hop.
  destruct (C44_anomaly_other_partial gb gb' n w v s s' ks j k x tl A W C Hw E Ek Hj He Hx (conv_opts_ok _ _ Hop))
    as [ks' [vs [z [y [_ [_ [R1 [R2 [R3 [R4 R5]]]]]]]]]].
  exists vs, y. split; [exact R1|]. split; [exact R2|]. split; [|split; [|split]].
  - intros N1 N2. destruct (R3 N1 N2) as [I Cg]. now apply in_circle_unique.
  - intros N1. apply (R4 N1). now apply (conv_solved_circle _ tl).
  - intros N1 ->. destruct (R5 N1 (ang (odeg s) x)) as [E' [_ [Q [Z _]]]]; auto; try discriminate.
    { apply (conv_solved _ tl); auto. now apply mean_range. }
    now rewrite (Z eq_refl).
  - intros N1 ->. destruct (t2e_eli_real (s1 k) He (ang (odeg s) x)) as [E1 [_ [_ B1]]].
    destruct (turn_of E1) as [E0 [I0 C0]].
    assert (B0 : anomalies_ell (s1 k) (ang (odeg s) x) E0) by exact (ell_compat _ _ _ _ _ (cong_refl _) (cong_sym _ _ C0) B1).
    destruct (R5 N1 E0) as [E' [_ [Q [_ Z]]]]; try discriminate; auto.
    { apply (conv_solved _ tl); auto. now apply mean_range. }
    exists E0, E'. split; [exact B0|]. split; [apply (Z eq_refl)|exact Q].
Qed.
(** [orb.equinoctial = orb.equinoctial] keeps the state *)
Theorem C66_equinoctial_roundtrip : forall gb n (s : orb) ks j (k : six R) mu tl,
  aligned n s -> okro s = false -> n <> 1%nat \/ otype s = AMean \/ odeg s = true ->
  snd (get_kepler gb s) = Ok ks -> nth_error ks j = Some (fin6 k) ->
  0 < mu -> 0 < s0 k -> 0 <= s1 k < 1 -> s1 k = 0 \/ 1 / 10 ^ 9 < s1 k -> 0 <= s2 k < turn (odeg s) / 2 ->
  conv_opts (oopts s) tl ->
  exists s' ks' k', equi_assign_back gb s = (s', Ok tt)
  /\ snd (get_kepler gb s') = Ok ks' /\ nth_error ks' j = Some (fin6 k')
  /\ s0 k' = s0 k /\ s1 k' = s1 k /\ s2 k' = s2 k
  /\ forall nu nu' x x', body (otype s) (s1 k) (ang (odeg s) (s5 k)) nu -> body (otype s) (s1 k) (ang (odeg s) (s5 k')) nu' ->
       state_of mu (radk (odeg s) k nu) x -> state_of mu (radk (odeg s) k' nu') x' ->
       (otype s = AMean -> x' = x)
       /\ norm (minus3 (pos x') (pos x)) <= s0 k / (1 - s1 k) * tl
       /\ norm (minus3 (vel x') (vel x)) <= 3 * sqrt (mu / s0 k) / ((1 - s1 k) * (1 - s1 k) * (1 - s1 k)) * tl.
Proof.
  intros gb n s ks j k mu tl A Ho Hn Ek Hj Hmu Ha He Hc Hi Hop.
  exact (C63_roundtrip_partial gb n s ks j k mu tl A Ho Hn Ek Hj Hmu Ha He Hc Hi (conv_opts_ok _ _ Hop)
    (or_intror (conv_solved_circle _ tl _ Hop He))).
Qed.
(** equinoctial elements assigned, then read *)
Theorem C66_equinoctial_readback : forall gb gb' n (s : orb) v ql j (q : six R) tl,
  aligned n s -> okro s = false -> (lazy_mode s -> kep_fresh s) -> fits s n v ql -> nth_error ql j = Some (fin6 q) ->
  let e := eccentricity_of_equi q in
  e < 1 -> conv_opts (oopts s) tl ->
  exists s' v' q', set_equinoctial gb v s = (s', Ok tt) /\ snd (get_equinoctial gb' s') = Ok v' /\ vcol v' j (fin6 q')
  /\ s0 q' = s0 q /\ s3 q' = s3 q /\ s4 q' = s4 q /\ (e = 0 \/ 1 / 10 ^ 9 < e -> s1 q' = s1 q /\ s2 q' = s2 q)
  /\ Rabs (s1 q' - s1 q) <= 2 * (1 / 10 ^ 9) /\ Rabs (s2 q' - s2 q) <= 2 * (1 / 10 ^ 9)
  /\ (otype s = AMean -> same_angle (odeg s) (s5 q') (s5 q))
  /\ exists l, cong2pi l (ang (odeg s) (s5 q)) /\ Rabs (ang (odeg s) (s5 q') - l) < tl.
Proof.
  intros gb gb' n s v ql j q tl A Ho Hf Hv Hq e He Hop.
  assert (He' : 0 <= e < 1) by (split; [apply sqrt_pos|auto]).
  exact (C63_readback_partial gb gb' n s v ql j q tl A Ho Hf Hv Hq He (conv_opts_ok _ _ Hop)
    (or_intror (conv_solved_circle _ tl _ Hop He'))).
Qed.
(** Cartesian to equinoctial and back (free functions) *)
Theorem C66_cart_equi_cart : forall mu x i o t, 0 < mu -> ang_mom x <> (0,0,0) -> energy mu x < 0 ->
  angle_between (ang_mom x) (0,0,1) i -> i = 0 \/ inclined_orbit i -> conv_opts o t ->
  let e := norm (ecc_vec mu x) in let a := mu / (- 2 * energy mu x) in
  e = 0 \/ eccentric_orbit e ->
  exists q x', (forall g g1 g2, snd (cart_to_equi g g1 g2 (KVec (fin6 x)) (MuS (Fin mu)) false) = Ok (KVec (fin6 q)))
  /\ (forall g g1 g2, equi_to_cart g g1 g2 (KVec (fin6 q)) (MuS (Fin mu)) o false = Ok (KVec (fin6 x')))
  /\ norm (minus3 (pos x') (pos x)) <= a * (t / (1 - e))
  /\ norm (minus3 (vel x') (vel x)) <= 3 * sqrt (mu / a) / ((1 - e) * (1 - e)) * (t / (1 - e)).
Proof.
  intros mu x i o t Hmu Hh Hen Hi Hin Hop e a Hec. pose proof (conv_opts_pos o t Hop) as Tp. pose proof Hop as [H1 [H2 _]].
  pose proof (elliptic_elements mu x Hmu Hh Hen) as He1. fold e in He1.
  assert (He : 0 <= e < 1) by (split; [apply sqrt_pos|lra]).
  assert (Ha : 0 < a) by (unfold a; apply Rdiv_lt_0_compat; lra).
  destruct (C34_roundtrip mu x i o 5 t Hmu Hh Hen Hi Hin H1 Tp H2 ltac:(lra) Hec) as [k [q [_ [Q1 [Q2 Q3]]]]].
  exists q. destruct Hec as [Hc|Hc].
  - exists x. split; [exact Q1|]. split; [exact (Q2 Hc)|].
    assert (Z : forall u : R * R * R, norm (minus3 u u) = 0).
    { intros [[u v] w]. unfold norm, dot, minus3, vx, vy, vz. cbn [fst snd].
      replace ((u - u) * (u - u) + (v - v) * (v - v) + (w - w) * (w - w)) with 0 by ring. apply sqrt_0. }
    rewrite !Z. fold e a. assert (0 < t / (1 - e)) by (apply Rdiv_lt_0_compat; lra). split; [nra|].
    apply Rmult_le_pos; [|lra]. apply Rmult_le_pos; [pose proof (sqrt_pos (mu / a)); lra|].
    left. apply Rinv_0_lt_compat. nra.
  - destruct (Q3 Hc) as [M [T R]]. fold e in T, R.
    destruct (C15_ellipse e He) as [A' _]. destruct (A' (k_nu k)) as [E [T3 [C3 R3]]].
    pose proof (t2m_of_t2e _ e E T3 (proj1 He)) as T4.
    assert (M = kepler_M e E). { pose proof (T (fun _ => nan) (fun _ => nan)) as X1. pose proof (T4 (fun _ => nan) (fun _ => nan)) as X2. congruence. }
    assert (HM : 0 <= M <= 2 * PI).
    { subst M. unfold kepler_M. destruct (Rlt_dec e 1); [|lra]. now apply mean_range. }
    destruct (R (conv_opts_converged o t M e Hop He HM)) as [x' [X1 X2]]. exists x'. auto.
Qed.
(** a = 2, e = 9/10, i = 1, omega = 2, Omega = 3, nu = 1, mu = 1, lazy mode, type true, default options:
    propagate(10) ends on a solution of Newton's equation, 10 time units later, to 2e-11 in position *)
Example C66_propagate_example : forall gb, exists s s' X M cs x, let k := mk6 2 (9 / 10) 1 2 3 1 in
  set_kepler gb (kvec k) (with_type ATrue (s_new true false)) = (s, Ok tt)
  /\ mean_of ATrue (9 / 10) 1 M /\ follows 1 k M X /\ newton 1 X
  /\ propagate gb (Sc (Fin 10)) s = (s', Ok tt) /\ snd (get_cartesian gb s') = Ok cs /\ nth_error cs 0 = Some (fin6 x)
  /\ norm (minus3 (pos x) (pos (X 10))) <= 2 / 10 ^ 11.
Proof.
  intros gb. pose (k := mk6 2 (9 / 10) 1 2 3 1).
  destruct (propagate_ready gb ATrue true k) as [s [E [A [Ht [Hg [_ [Hm [Hm0 [Hk Hd]]]]]]]]].
  destruct (Hd 10) as [s' E'].
  assert (Au : oauto s = true /\ oopts s = default_options).
  { destruct k; cbv in E. injection E as <-. auto. }
  destruct Au as [Au Op]. destruct (mean_of_ex ATrue (9 / 10) 1 ltac:(lra)) as [M HM].
  destruct (C56_trajectory 1 k M ltac:(lra)) as [X [HX NX]]; [unfold k_a; cbn; lra|unfold k_e; cbn; lra|].
  assert (FX : follows 1 (radk (odeg s) k 0) M X).
  { rewrite Hg. intros t. exact (HX t). }
  destruct (C66_propagate gb gb 1 (Sc (Fin 10)) s s' _ 0 k 0 1 10 (/ 1000000000000) A I E' Hk eq_refl Hm0 eq_refl) with (M := M) (X := X)
    as [cs [x [Q1 [Q2 [Q3 _]]]]]; auto; try (cbn; lra).
  - rewrite Op. exact conv_opts_default.
  - rewrite Ht, Hg. exact HM.
  - exists s, s', X, M, cs, x. cbv zeta. repeat (split; [assumption|]).
    change (s0 k) with 2 in Q3. change (s1 k) with (9 / 10) in Q3. lra.
Qed.
(** one orbit of type mean, M = 6, e = 1/2, default options, assigned type true *)
Example C66_type_example : forall gb, exists s s' x M',
  set_kepler gb (kvec (ktp 6)) (with_type AMean (s_new false false)) = (s, Ok tt)
  /\ set_type gb "true"%string s = (s', Ok tt) /\ nth_error (okep s') 0 = Some (fin6 (ktp x))
  /\ Rabs (M' - 6) < / 1000000000000 /\ forall nu, body AMean (1 / 2) M' nu <-> body ATrue (1 / 2) x nu.
Proof.
  intros gb.
  pose (s := aft_kep gb (with_kep (fun _ => [fin6 (ktp 6)]) (with_type AMean (s_new false false)))).
  assert (A : aligned 1 s).
  { split; [now constructor|]. exists [nan]. auto. }
  destruct (C48_values gb 1 "true"%string ATrue s A eq_refl) as [_ [_ [s' [_ [E _]]]]]; [discriminate|reflexivity|].
  destruct (C66_type_from_mean gb 1 "true"%string ATrue s s' [fin6 (ktp 6)] 0 (ktp 6) (/ 1000000000000) A eq_refl conv_opts_default
    eq_refl ltac:(discriminate) E eq_refl eq_refl) as [_ [_ [x [M' [R1 [R2 R3]]]]]].
  - cbn. lra.
  - cbn. pose proof PI2_3_2 as P. unfold PI2 in P. lra.
  - exists s, s', x, M'. split; [reflexivity|]. split; [exact E|]. split; [exact R1|]. split; [exact R2|exact R3].
Qed.
