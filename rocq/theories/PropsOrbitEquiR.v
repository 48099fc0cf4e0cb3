(** * C63: the equinoctial property of Orbit over the real numbers *)
From Coq Require Import Reals Lra List Bool Arith Lia ZArith QArith.
From Verif Require Import NP KeplerModel ConvModel UnitModel OrbitModel Lists ConvCols ArraySpec
  NPReal RealBase Spec AnomReal KepReal PropsKep CartInv PropsAnomaly PropsAnomalyR PropsSolver PropsScalar PropsCart
  PropsDegrees PropsEqui EllState OrbitLists OrbitBase OrbitOps OrbitSetters OrbitGet OrbitSpec PropsOrbitWidth PropsOrbitDirect
  PropsOrbitLazy PropsOrbitWrite OrbitReal PropsOrbitType PropsOrbitProp PropsOrbitPropR PropsNewton PropsOrbitNewton PropsOrbitEqui.
Import ListNotations.
Local Open Scope R_scope.
Notation orb := (OrbitModel.orb num).

(** ** The conversions in the unit of the degrees flag *)
Definition rad6 (deg : bool) (k : six R) : six R := radk deg k (ang deg (s5 k)).
Definition radq (deg : bool) (q : six R) : six R := mk6 (s0 q) (s1 q) (s2 q) (s3 q) (s4 q) (ang deg (s5 q)).
Lemma deg6_rad6 k : deg6 (rad6 true k) = k.
Proof.
  pose proof PI_RGT_0. destruct k as [a e i o O x]. unfold deg6, rad6, radk, ang. cbn [s0 s1 s2 s3 s4 s5].
  f_equal; field; lra.
Qed.
Lemma rad6_deg6 k : rad6 true (deg6 k) = k.
Proof.
  pose proof PI_RGT_0. destruct k as [a e i o O x]. unfold deg6, rad6, radk, ang. cbn [s0 s1 s2 s3 s4 s5].
  f_equal; field; lra.
Qed.
Lemma rad6_false k : rad6 false k = k. Proof. now destruct k. Qed.
Lemma q2k_deg deg q : exists k, q2k_col deg (fin6 q) = fin6 k /\ rad6 deg k = Rq2k (radq deg q).
Proof.
  destruct deg.
  - exists (deg6 (Rq2k (radq true q))). split; [|apply rad6_deg6].
    rewrite deg_q2k, <- ang6_deg6, <- q2k_real. f_equal. f_equal. unfold radq, fin6, map6, ang.
    cbn [s0 s1 s2 s3 s4 s5]. now rewrite Fin_radians.
  - exists (Rq2k q). split; [apply q2k_real|]. rewrite rad6_false. f_equal. now destruct q.
Qed.
Lemma k2q_deg deg k : cos (/ 2 * ang deg (s2 k)) <> 0 -> exists q, k2q_col deg (fin6 k) = fin6 q /\ radq deg q = Rk2q (rad6 deg k).
Proof.
  pose proof PI_RGT_0 as P. intros C. destruct deg.
  - set (q := Rk2q (rad6 true k)). exists (mk6 (s0 q) (s1 q) (s2 q) (s3 q) (s4 q) (s5 q * (180 / PI))). split.
    + rewrite <- (deg6_rad6 k) at 1. rewrite deg_k2q, ang6_rad_deg6, k2q_real by exact C. fold q. cbv zeta.
      unfold fin6, map6. cbn [s0 s1 s2 s3 s4 s5]. now rewrite Fin_degrees.
    + unfold radq, ang. cbn [s0 s1 s2 s3 s4 s5]. replace (s5 q * (180 / PI) * (PI / 180)) with (s5 q) by (field; lra).
      now destruct q.
  - exists (Rk2q k). rewrite rad6_false. split; [now apply k2q_real|]. unfold radq, ang. now destruct (Rk2q k).
Qed.
Lemma ell_zero nu E : anomalies_ell 0 nu E -> cong2pi nu E.
Proof.
  unfold anomalies_ell. replace (1 - 0 * 0) with 1 by ring. rewrite sqrt_1. intros [A B].
  replace (1 - 0 * cos E) with 1 in * by ring. apply cos_sin_cong; rewrite ?A, ?B; field.
Qed.
(** ** The same state from the elements that went through the equinoctial ones *)
Lemma equi_same_state mu k nu nu' : 0 <= s1 k < 1 -> 0 <= s2 k < PI -> s1 k = 0 \/ /1000000000 < s1 k ->
  let k' := Rq2k (Rk2q k) in
  body AMean (s1 k) (s5 k) nu -> body AMean (s1 k) (s5 k') nu' ->
  peri_state mu (with_nu k nu) = peri_state mu (with_nu k' nu').
Proof.
  intros He Hi Hc k' B B'. destruct (round_k_gen k (proj1 He) Hi) as [_ [H0 [H1 [H2 [I3 [I4 [I5 [A1 [A2 [A3 A4]]]]]]]]]].
  fold k' in H0, H1, H2, I3, I4, I5, A1, A2, A3, A4.
  assert (E : peri_state mu (with_nu k' nu') = peri_state mu (mk6 (k_a (with_nu k nu)) (k_e (with_nu k nu)) (k_i (with_nu k nu)) (s3 k') (s4 k') nu')).
  { f_equal. unfold with_nu, k_a, k_e, k_i. cbn [s0 s1 s2 s3 s4 s5]. unfold k_a, k_e, k_i, k_om, k_Om. congruence. }
  rewrite E. symmetry. clear E.
  assert (Z : s1 k = 0 -> forall x v, body AMean (s1 k) x v -> cong2pi x v).
  { intros Z x v [E0 [Y1 Y2]]. apply (cong_trans _ _ _ Y1). rewrite Z. replace (E0 - 0 * sin E0) with E0 by ring.
    apply cong_sym. rewrite Z in Y2. apply ell_zero. exact Y2. }
  assert (N : cong2pi (s5 k') (s5 k) -> cong2pi nu' nu).
  { intros C. destruct (body_ex (s1 k) He AMean (s5 k)) as [v Hv].
    assert (Hv' : body AMean (s1 k) (s5 k') nu).
    { destruct B as [E0 [Y1 Y2]]. exists E0. split; [exact (cong_trans _ _ _ C Y1)|exact Y2]. }
    exact (body_unique (s1 k) He AMean (s5 k') nu' nu B' Hv'). }
  destruct Hc as [Hc|Hc]; destruct (Rle_lt_or_eq_dec 0 (s2 k) (proj1 Hi)) as [Gi|Gi].
  - destruct A3 as [Q1 [Q2 Q3]]; [lra|auto|].
    assert (C : cong2pi (s3 k' + nu') (s3 k + nu)).
    { rewrite Q1, Rplus_0_l. apply (cong_trans _ (s5 k')); [apply cong_sym; now apply Z|].
      apply (cong_trans _ _ _ Q3). destruct (Z Hc _ _ B) as [z Hz]. exists z. rewrite Hz. ring. }
    rewrite <- (peri_circular mu (with_nu k nu) (s3 k') nu'); [|exact Hc|exact C].
    apply (peri_cong mu (mk6 (k_a (with_nu k nu)) (k_e (with_nu k nu)) (k_i (with_nu k nu)) (s3 k') (k_Om (with_nu k nu)) nu'));
      [apply cong_refl|exact Q2|apply cong_refl].
  - destruct A4 as [Q1 [Q2 Q3]]; [lra|auto|].
    rewrite <- (peri_circular mu (with_nu k nu) (- s4 k) (s3 k + s4 k + nu)); [|exact Hc|].
    2:{ replace (- s4 k + (s3 k + s4 k + nu)) with (s3 k + nu) by ring. apply cong_refl. }
    apply (peri_planar mu (mk6 (k_a (with_nu k nu)) (k_e (with_nu k nu)) (k_i (with_nu k nu)) (- s4 k) (k_Om (with_nu k nu)) (s3 k + s4 k + nu)) _ _ _ 1).
    + change (sin (s2 k) = 0). rewrite <- Gi. apply sin_0.
    + change (cos (s2 k) = 1). rewrite <- Gi. apply cos_0.
    + now left.
    + change (cong2pi (s3 k' + 1 * s4 k') (- s4 k + 1 * s4 k)). rewrite Q1, Q2. replace (- s4 k + 1 * s4 k) with (0 + 1 * 0) by ring. apply cong_refl.
    + change (cong2pi nu' (s3 k + s4 k + nu)). apply (cong_trans _ (s5 k')); [apply cong_sym; now apply Z|].
      apply (cong_trans _ _ _ Q3). destruct (Z Hc _ _ B) as [z Hz]. exists z. rewrite Hz. ring.
  - destruct (A1 Hc Gi) as [Q1 [Q2 Q3]]. apply (peri_cong mu (with_nu k nu)); auto.
  - destruct (A2 Hc (eq_sym Gi)) as [Q1 [Q2 Q3]]. apply (peri_planar mu (with_nu k nu) _ _ _ 1).
    + change (sin (s2 k) = 0). rewrite <- Gi. apply sin_0.
    + change (cos (s2 k) = 1). rewrite <- Gi. apply cos_0.
    + now left.
    + change (cong2pi (s3 k' + 1 * s4 k') (s3 k + 1 * s4 k)). rewrite Q1, !Rmult_1_l, Rplus_0_r. exact Q2.
    + exact (N Q3).
Qed.
(** ** The anomaly stored for an assigned mean anomaly *)
Lemma back_real (s : orb) g y e tl : 0 <= e < 1 -> opts_ok (oopts s) tl ->
  exists x, back1 s g (Fin y) (Fin e) = Fin x /\ (otype s = AMean -> x = y)
  /\ (otype s = AMean \/ solved (oopts s) (ang (odeg s) y) e ->
      exists M', mean_of (otype s) e (ang (odeg s) x) M' /\ Rabs (M' - ang (odeg s) y) < tl
        /\ (otype s = AMean -> M' = ang (odeg s) y)).
Proof.
  intros He Hop. unfold back1. destruct (otype s) eqn:Et.
  - destruct (m2t1_ell g (oopts s) tl (odeg s) y e He Hop) as [nu [E0 [-> [_ [W2 W3]]]]]. exists nu. split; [auto|].
    split; [discriminate|]. intros [?|Hso]; [discriminate|]. exists (E0 - e * sin E0). split; [|split; [auto|discriminate]].
    exact (body_same e He ATrue _ AMean _ (ang (odeg s) nu) (cong_refl _) (body_shift e _ E0 _ (cong_refl _) W2)).
  - destruct (m2e1_ell (oopts s) tl (odeg s) y e He Hop) as [E0 [-> W]]. exists E0. split; [auto|].
    split; [discriminate|]. intros [?|Hso]; [discriminate|]. exists (ang (odeg s) E0 - e * sin (ang (odeg s) E0)).
    split; [|split; [auto|discriminate]]. destruct (body_ex e He AEcc (ang (odeg s) E0)) as [nu Hn].
    exact (body_same e He AEcc _ AMean _ nu Hn (body_shift e _ _ _ (cong_refl _) Hn)).
  - exists y. split; [auto|]. split; [auto|]. intros _. exists (ang (odeg s) y). split; [intros nu; tauto|].
    split; [|auto]. replace (ang (odeg s) y - ang (odeg s) y) with 0 by ring. rewrite Rabs_R0. apply Hop.
Qed.
Lemma fresh_settled (s : orb) : (lazy_mode s -> kep_fresh s) -> settledK s.
Proof.
  intros Hf L j c b Hc Hb. apply lazy_mode_iff in L. destruct (Hf L j c Hc) as [Q|Q].
  - rewrite Q in Hb. injection Hb as <-. reflexivity.
  - apply has_nan_iff in Q. rewrite Q. apply orb_true_r.
Qed.
Lemma settled_fresh n (s : orb) : lens n s -> settledK s -> lazy_mode s -> kep_fresh s.
Proof.
  intros Hs Hf L j c Hc. apply lazy_mode_iff in L. rewrite has_nan_iff.
  destruct (nth_error (okf s) j) as [b|] eqn:Eb.
  - specialize (Hf L j c b Hc Eb). destruct b; auto.
  - exfalso. apply nth_error_None in Eb. apply nth_error_lt in Hc. destruct Hs. lia.
Qed.
Lemma half_turn deg x : 0 <= x < turn deg / 2 -> 0 <= ang deg x < PI.
Proof. pose proof PI_RGT_0. unfold turn, ang. destruct deg; [|lra]. intros [A B]. split; [apply Rmult_le_pos; lra|nra]. Qed.
Lemma half_cos x : 0 <= x < PI -> cos (/ 2 * x) <> 0.
Proof. intros [A B]. pose proof (cos_gt_0 (/ 2 * x)). lra. Qed.
Lemma set5_nu (k : six R) x : set5 (fin6 k) (Fin x) = fin6 (with_nu k x). Proof. now destruct k. Qed.
Lemma fits_read (s : orb) n l : length l = n -> n <> 1%nat \/ otype s = AMean \/ odeg s = true -> fits s n (as_input l) l.
Proof.
  intros L Hn. split; [auto|]. destruct l as [|c [|? ?]]; try (left; reflexivity).
  right. exists c. cbn in L. subst n. split; [reflexivity|]. split; [reflexivity|]. destruct Hn; [easy|auto].
Qed.

(** ** C63 *)
(** Elements read from one orbit and assigned to another one with the same settings (elliptic, i < 180 degrees).
    Missing: 0 < e <= 1e-9 (the conversion drops omega), a single orbit of type true or eccentric in radians
    ([C63_single_refuted]) and, in lazy mode, a stale Kepler side of the assigned orbit ([C63_stale_lost_refuted]). *)
Theorem C63_transfer_partial : forall gb gb' n (s sa st : orb) v ks j (k : six R) mu tl,
  aligned n s -> aligned n st -> settings st = settings s -> okro s = false -> (lazy_mode st -> kep_fresh st) ->
  n <> 1%nat \/ otype s = AMean \/ odeg s = true ->
  get_equinoctial gb s = (sa, Ok v) -> snd (get_kepler gb s) = Ok ks -> nth_error ks j = Some (fin6 k) ->
  0 < mu -> 0 < s0 k -> 0 <= s1 k < 1 -> s1 k = 0 \/ 1 / 10 ^ 9 < s1 k -> 0 <= s2 k < turn (odeg s) / 2 ->
  opts_ok (oopts s) tl -> otype s = AMean \/ (forall T, in_circle T -> solved (oopts s) T (s1 k)) ->
  exists s' ks' k', set_equinoctial gb' v st = (s', Ok tt)
  /\ snd (get_kepler gb' s') = Ok ks' /\ nth_error ks' j = Some (fin6 k')
  /\ s0 k' = s0 k /\ s1 k' = s1 k /\ s2 k' = s2 k
  /\ forall nu nu' x x', body (otype s) (s1 k) (ang (odeg s) (s5 k)) nu -> body (otype s) (s1 k) (ang (odeg s) (s5 k')) nu' ->
       state_of mu (radk (odeg s) k nu) x -> state_of mu (radk (odeg s) k' nu') x' ->
       (otype s = AMean -> x' = x)
       /\ norm (minus3 (pos x') (pos x)) <= s0 k / (1 - s1 k) * tl
       /\ norm (minus3 (vel x') (vel x)) <= 3 * sqrt (mu / s0 k) / ((1 - s1 k) * (1 - s1 k) * (1 - s1 k)) * tl.
Proof.
  intros gb gb' n s sa st v ks j k mu tl A At Est Ho Hf Hn Eg Ek Hj Hmu Ha He Hc Hi Hop Hso.
  replace (1 / 10 ^ 9) with (/1000000000) in Hc by lra.
  rewrite (get_kepler_eq gb n) in Ek by apply A. cbn [snd] in Ek. injection Ek as Ek. rewrite <- Ek in Hj. clear ks Ek.
  destruct (get_equi_spec gb n s A) as [sa' [ms [Eg' [_ [_ [Lm Vm]]]]]]. rewrite Eg' in Eg.
  set (ql := map _ _) in Eg. assert (Ev : v = as_input ql) by congruence. clear Eg.
  destruct (Vm j _ Hj) as [g Hg]. destruct (anom1_body AMean s (g) k He (or_intror eq_refl)) as [x0 [Ex0 B0]].
  cbn [anom1] in Ex0. rewrite Ex0 in Hg. pose proof (half_turn _ _ Hi) as Hi'.
  destruct (k2q_deg (odeg s) (with_nu k x0)) as [q [Eq Rq]]; [now apply half_cos|].
  assert (Hq : nth_error ql j = Some (fin6 q)).
  { unfold ql. rewrite nth_error_map, nth_error_map2, Hj, Hg. cbn [option_map]. now rewrite set5_nu, Eq. }
  assert (Lq : length ql = n).
  { unfold ql. rewrite map_length, map2_length, Lm, (l_k n _ (lens_kchk gb n s (proj1 A))). lia. }
  pose proof Est as Est'. apply settings_eq in Est'. destruct Est' as [_ [_ [_ [_ [E1 [_ [E2 [E3 E4]]]]]]]].
  destruct (set_equi_spec gb' n v ql st At) as [s' [Es [A' [S' [_ [V' [R' _]]]]]]].
  { congruence. } { now apply fresh_settled. } { rewrite Ev. apply fits_read; auto. now rewrite E2, E3. }
  destruct (V' j _ Hq) as [g2 Hk']. rewrite E2 in Hk'. destruct (q2k_deg (odeg s) q) as [kq [Eqk Rkq]].
  rewrite Eqk, Rq in *. set (km := rad6 (odeg s) (with_nu k x0)) in *.
  destruct (round_k_gen km (proj1 He) Hi') as [_ [H0 [H1 [H2 [I3 [I4 [I5 _]]]]]]]. rewrite <- Rkq in H0, H1, H2, I3, I4, I5.
  change (s0 kq = s0 k) in H0. change (s1 kq = s1 k) in H1.
  assert (H2' : s2 kq = s2 k) by (apply (ang_inj (odeg s)); exact H2). change (in_circle (ang (odeg s) (s5 kq))) in I5.
  rewrite row5_fin, row1_fin, H1 in Hk'.
  assert (He' : 0 <= s1 k < 1) by auto. assert (Hop' : opts_ok (oopts st) tl) by congruence.
  destruct (back_real st g2 (s5 kq) (s1 k) tl He' Hop') as [y [Ey [Ym Yt]]]. rewrite Ey, set5_nu in Hk'.
  exists s', (okep s'), (with_nu kq y). split; [exact Es|]. split; [apply R'|]. split; [exact Hk'|].
  split; [exact H0|]. split; [exact H1|]. split; [exact H2'|].
  rewrite E2, E3, E4 in Yt.
  destruct Yt as [M' [YM [Yb Yx]]]. { destruct Hso as [?|Hso]; [now left|right; auto]. }
  intros nu nu' x x' B B' Sx Sx'.
  change (radk (odeg s) (with_nu kq y) nu') with (Spec.with_nu (rad6 (odeg s) kq) nu') in Sx'.
  change (radk (odeg s) k nu) with (Spec.with_nu km nu) in Sx.
  assert (V : forall kk v, s0 kk = s0 k -> s1 kk = s1 k -> valid_kep mu (Spec.with_nu kk v)).
  { intros kk u K0 K1. unfold valid_kep. change (k_a (with_nu kk u)) with (s0 kk). change (k_e (with_nu kk u)) with (s1 kk).
    change (k_nu (with_nu kk u)) with u. rewrite K0, K1. pose proof (COS_bound u). repeat split; try lra; try nra. }
  apply state_of_inv in Sx; [|now apply V]. apply state_of_inv in Sx'; [|apply V; [exact H0|exact H1]].
  destruct (body_ex (s1 k) He AMean (ang (odeg s) (s5 kq))) as [nuT BT].
  assert (EX : x = peri_state mu (with_nu (rad6 (odeg s) kq) nuT)).
  { rewrite Sx. rewrite Rkq. apply equi_same_state; [exact He|exact Hi'|exact Hc|apply B0, B|]. rewrite <- Rkq. exact BT. }
  apply YM in B'. split.
  - intros T. rewrite EX, Sx'. apply peri_nu. rewrite (Yx T) in B'. exact (body_unique _ He _ _ _ _ B' BT).
  - rewrite EX, Sx'. rewrite <- H0, <- H1.
    apply (mean_close mu (rad6 (odeg s) kq) (ang (odeg s) (s5 kq)) M' (ang (odeg s) (s5 kq)) nuT nu' tl); auto.
    + change (0 < s0 kq). lra.
    + change (0 <= s1 kq < 1). lra.
    + apply cong_refl.
    + change (body AMean (s1 kq) (ang (odeg s) (s5 kq)) nuT). now rewrite H1.
    + change (body AMean (s1 kq) M' nu'). now rewrite H1.
Qed.
(** [orb.equinoctial = orb.equinoctial]: full claim in every mode, stale or not; missing as above except staleness. *)
Theorem C63_roundtrip_partial : forall gb n (s : orb) ks j (k : six R) mu tl,
  aligned n s -> okro s = false -> n <> 1%nat \/ otype s = AMean \/ odeg s = true ->
  snd (get_kepler gb s) = Ok ks -> nth_error ks j = Some (fin6 k) ->
  0 < mu -> 0 < s0 k -> 0 <= s1 k < 1 -> s1 k = 0 \/ 1 / 10 ^ 9 < s1 k -> 0 <= s2 k < turn (odeg s) / 2 ->
  opts_ok (oopts s) tl -> otype s = AMean \/ (forall T, in_circle T -> solved (oopts s) T (s1 k)) ->
  exists s' ks' k', equi_assign_back gb s = (s', Ok tt)
  /\ snd (get_kepler gb s') = Ok ks' /\ nth_error ks' j = Some (fin6 k')
  /\ s0 k' = s0 k /\ s1 k' = s1 k /\ s2 k' = s2 k
  /\ forall nu nu' x x', body (otype s) (s1 k) (ang (odeg s) (s5 k)) nu -> body (otype s) (s1 k) (ang (odeg s) (s5 k')) nu' ->
       state_of mu (radk (odeg s) k nu) x -> state_of mu (radk (odeg s) k' nu') x' ->
       (otype s = AMean -> x' = x)
       /\ norm (minus3 (pos x') (pos x)) <= s0 k / (1 - s1 k) * tl
       /\ norm (minus3 (vel x') (vel x)) <= 3 * sqrt (mu / s0 k) / ((1 - s1 k) * (1 - s1 k) * (1 - s1 k)) * tl.
Proof.
  intros gb n s ks j k mu tl A Ho Hn Ek Hj Hmu Ha He Hc Hi Hop Hso.
  destruct (get_equi_spec gb n s A) as [sa [ms [Eg [C [Aa _]]]]].
  destruct (C63_transfer_partial gb gb n s sa sa _ ks j k mu tl A Aa (core_settings gb n s sa (proj1 A) C) Ho
    (settled_fresh n sa (proj1 Aa) (core_settled gb n s sa (proj1 A) C)) Hn Eg Ek Hj Hmu Ha He Hc Hi Hop Hso)
    as [s' [ks' [k' [E R]]]].
  exists s', ks', k'. split; [|exact R]. unfold equi_assign_back. now rewrite (bind_ok _ _ _ _ _ Eg).
Qed.
(** Assigned, then read: a, h, k, p, q come back, the mean longitude modulo a turn (type mean) or within the
    solver's tolerance of that.  [vcol v j c]: column j of the array v is c. *)
Definition vcol (v : kinput num) (j : nat) (c : six num) : Prop :=
  match v with KVec c' => j = 0%nat /\ c' = c | KMat l => nth_error l j = Some c | _ => False end.
Lemma vcol_input l j c : nth_error l j = Some c -> vcol (as_input l) j c.
Proof.
  destruct l as [|c' [|? l]]; cbn; auto. destruct j as [|[|j]]; cbn; intros E; try discriminate. injection E as ->. auto.
Qed.
Theorem C63_readback_partial : forall gb gb' n (s : orb) v ql j (q : six R) tl,
  aligned n s -> okro s = false -> (lazy_mode s -> kep_fresh s) -> fits s n v ql -> nth_error ql j = Some (fin6 q) ->
  let e := eccentricity_of_equi q in
  e < 1 -> opts_ok (oopts s) tl -> otype s = AMean \/ (forall T, in_circle T -> solved (oopts s) T e) ->
  exists s' v' q', set_equinoctial gb v s = (s', Ok tt) /\ snd (get_equinoctial gb' s') = Ok v' /\ vcol v' j (fin6 q')
  /\ s0 q' = s0 q /\ s3 q' = s3 q /\ s4 q' = s4 q /\ (e = 0 \/ 1 / 10 ^ 9 < e -> s1 q' = s1 q /\ s2 q' = s2 q)
  /\ Rabs (s1 q' - s1 q) <= 2 * (1 / 10 ^ 9) /\ Rabs (s2 q' - s2 q) <= 2 * (1 / 10 ^ 9)
  /\ (otype s = AMean -> same_angle (odeg s) (s5 q') (s5 q))
  /\ exists l, cong2pi l (ang (odeg s) (s5 q)) /\ Rabs (ang (odeg s) (s5 q') - l) < tl.
Proof.
  intros gb gb' n s v ql j q tl A Ho Hf Hv Hq e He Hop Hso. replace (1 / 10 ^ 9) with (/1000000000) by lra.
  assert (He' : 0 <= e < 1) by (split; [apply sqrt_pos|auto]).
  destruct (set_equi_spec gb n v ql s A Ho (fresh_settled s Hf) Hv) as [s' [Es [A' [S' [_ [V' [R' _]]]]]]].
  pose proof S' as S2. apply settings_eq in S2. destruct S2 as [_ [_ [_ [_ [_ [_ [E2 [E3 E4]]]]]]]].
  destruct (V' j _ Hq) as [g2 Hk']. destruct (q2k_deg (odeg s) q) as [kq [Eqk Rkq]]. rewrite Eqk in Hk'.
  destruct (round_q (radq (odeg s) q)) as [W1 [W2 [W3 [W4 [W5 [W6 [W7 [W8 W9]]]]]]]]. rewrite <- Rkq in *.
  assert (H1 : s1 kq = e) by (change (s1 kq) with (s1 (rad6 (odeg s) kq)); rewrite Rkq; reflexivity).
  rewrite row5_fin, row1_fin, H1 in Hk'.
  destruct (back_real s g2 (s5 kq) e tl He' Hop) as [y [Ey [Ym Yt]]]. rewrite Ey, set5_nu in Hk'.
  assert (I5 : in_circle (ang (odeg s) (s5 kq))).
  { change (in_circle (s5 (rad6 (odeg s) kq))). rewrite Rkq. unfold Rq2k. cbn [s5]. apply wrap2. }
  destruct Yt as [M' [YM [Yb Yx]]]. { destruct Hso as [?|Hso]; [now left|right; auto]. }
  destruct (get_equi_spec gb' n s' A') as [sa [ms [Eg [_ [_ [Lm Vm]]]]]]. rewrite E2 in Eg.
  assert (Kk : okep (kchk gb' s') = okep s').
  { specialize (R' gb'). rewrite (get_kepler_eq gb' n) in R' by apply A'. cbn [snd] in R'. congruence. }
  rewrite Kk in Eg, Vm. destruct (Vm j _ Hk') as [g Hg].
  destruct (anom1_body AMean s' g (with_nu kq y)) as [x0 [Ex0 B0]]; [change (0 <= s1 kq < 1); lra|now right|].
  cbn [anom1] in Ex0. rewrite Ex0 in Hg. rewrite E2, E3 in B0. change (s1 (with_nu kq y)) with (s1 kq) in B0.
  change (s5 (with_nu kq y)) with y in B0. rewrite H1 in B0.
  destruct (k2q_deg (odeg s) (with_nu (with_nu kq y) x0)) as [q' [Eq Rq']]; [exact W1|].
  assert (C0 : cong2pi (ang (odeg s) x0) M') by (exact (mean_of_unique (otype s) e _ _ _ He' B0 YM)).
  exists s'. eexists _, q'. split; [exact Es|]. split; [rewrite Eg; reflexivity|]. split.
  { apply vcol_input. rewrite nth_error_map, nth_error_map2, Hk', Hg. cbn [option_map]. now rewrite set5_nu, Eq. }
  assert (Q : forall f : six R -> R, (forall k z, f (Rk2q (Spec.with_nu k z)) = f (Rk2q k)) -> f (radq (odeg s) q') = f (Rk2q (rad6 (odeg s) kq))).
  { intros f Hf'. rewrite Rq'. exact (Hf' (rad6 (odeg s) kq) (ang (odeg s) x0)). }
  change (s0 q') with (s0 (radq (odeg s) q')). change (s1 q') with (s1 (radq (odeg s) q')).
  change (s2 q') with (s2 (radq (odeg s) q')). change (s3 q') with (s3 (radq (odeg s) q')).
  change (s4 q') with (s4 (radq (odeg s) q')).
  rewrite (Q s0), (Q s1), (Q s2), (Q s3), (Q s4) by reflexivity.
  split; [exact W2|]. split; [exact W3|]. split; [exact W4|]. split; [exact W7|]. split; [exact W8|]. split; [exact W9|].
  assert (L : cong2pi (ang (odeg s) (s5 q')) (ang (odeg s) (s3 kq) + ang (odeg s) (s4 kq) + M')).
  { change (ang (odeg s) (s5 q')) with (s5 (radq (odeg s) q')). rewrite Rq'. unfold Rk2q. cbn [s5].
    apply (cong_trans _ _ _ (proj2 (wrap2 _))). destruct C0 as [z Hz]. exists z. cbn [rad6 radk with_nu s3 s4 s5]. rewrite Hz. ring. }
  assert (L6 : cong2pi (ang (odeg s) (s3 kq) + ang (odeg s) (s4 kq) + ang (odeg s) (s5 kq)) (ang (odeg s) (s5 q))).
  { apply (cong_trans _ (s5 (Rk2q (rad6 (odeg s) kq)))); [|exact W6]. unfold Rk2q. cbn [s5]. apply cong_sym. apply wrap2. }
  split.
  - intros T. rewrite (Yx T) in L. destruct (cong_trans _ _ _ L L6) as [z Hz]. exists z.
    apply (ang_inj (odeg s)). rewrite Hz. pose proof PI_RGT_0. unfold PropsEqui.turn, ang. destruct (odeg s); [field; lra|ring].
  - destruct L as [z Hz]. eexists. split.
    + apply (cong_trans _ (ang (odeg s) (s3 kq) + ang (odeg s) (s4 kq) + ang (odeg s) (s5 kq))); [|exact L6]. now exists z.
    + rewrite Hz. replace (_ - _) with (M' - ang (odeg s) (s5 kq)) by ring. exact Yb.
Qed.
(** ** Cases meeting the hypotheses: one lazy orbit of type mean (radians, mu = 1) with a = 1, e = 1/2, i = pi/2, M = pi *)
Lemma equi_ready gb t : exists s, set_kepler gb (kvec (ktp PI)) (with_type t (s_new true false)) = (s, Ok tt)
  /\ aligned 1 s /\ otype s = t /\ odeg s = false /\ okro s = false /\ opts_ok (oopts s) 1e-12
  /\ (lazy_mode s -> kep_fresh s) /\ snd (get_kepler gb s) = Ok [fin6 (ktp PI)].
Proof.
  destruct (propagate_ready gb t true (ktp PI)) as [s [E [A [Ht [Hg [Ho [Hm [Hm0 [Hk Hd]]]]]]]]].
  exists s. split; [exact E|]. repeat (split; [assumption|]). split; [|split; [exact Ho|split; [|exact Hk]]].
  - destruct (Hd 1) as [s' E']. now destruct (propagate_ok gb 1 (Sc (Fin 1)) s s' A I E').
  - intros _ j c Hc. right. destruct j as [|[|j]]; cbv in E; injection E as <-; cbn in Hc; try discriminate. injection Hc as <-.
    apply has_nan_iff. reflexivity.
Qed.
Example C63_roundtrip_example : forall gb, exists s s' k',
  set_kepler gb (kvec (ktp PI)) (with_type AMean (s_new true false)) = (s, Ok tt)
  /\ equi_assign_back gb s = (s', Ok tt) /\ snd (get_kepler gb s') = Ok [fin6 k']
  /\ forall nu nu' x x', body AMean (1/2) PI nu -> body AMean (1/2) (s5 k') nu' ->
       state_of 1 (radk false (ktp PI) nu) x -> state_of 1 (radk false k' nu') x' -> x' = x.
Proof.
  intros gb. destruct (equi_ready gb AMean) as [s [E [A [Ht [Hg [Ho [Hop [Hf Hk]]]]]]]]. pose proof PI_RGT_0 as P.
  destruct (C63_roundtrip_partial gb 1 s _ 0 (ktp PI) 1 1e-12 A Ho (or_intror (or_introl Ht)) Hk) as [s' [ks' [k' [R1 [R2 [R3 [_ [_ [_ R4]]]]]]]]];
    auto; try (cbn; lra).
  { rewrite Hg. unfold turn. cbn. lra. }
  exists s, s', k'. split; [exact E|]. split; [exact R1|]. split.
  - rewrite R2. f_equal. destruct (get_equi_spec gb 1 s A) as [sa [ms [Eg [C [Aa [Lm _]]]]]].
    assert (L : length ks' = 1%nat).
    { assert (A' : lens 1 s').
      { unfold equi_assign_back in R1. rewrite (bind_ok _ _ _ _ _ Eg) in R1.
        destruct (set_equi_spec gb 1 (as_input (map (k2q_col (odeg s)) (map2 set5 (okep (kchk gb s)) ms))) (map (k2q_col (odeg s)) (map2 set5 (okep (kchk gb s)) ms)) sa Aa) as [s2 [X1 [[X2 _] _]]].
        - pose proof (core_settings gb 1 s sa (proj1 A) C) as Es. apply settings_eq in Es. destruct Es as [_ [_ [_ [_ [Es _]]]]]. congruence.
        - exact (core_settled gb 1 s sa (proj1 A) C).
        - apply fits_read.
          + rewrite map_length, map2_length, Lm, (l_k 1 _ (lens_kchk gb 1 s (proj1 A))). reflexivity.
          + right. left. pose proof (core_settings gb 1 s sa (proj1 A) C) as Es. apply settings_eq in Es.
            destruct Es as [_ [_ [_ [_ [_ [_ [_ [Es _]]]]]]]]. congruence.
        - congruence. }
      rewrite (get_kepler_eq gb 1) in R2 by exact A'. cbn [snd] in R2. injection R2 as <-. apply (l_k 1 _ (lens_kchk gb 1 s' A')). }
    destruct ks' as [|c [|? ?]]; try discriminate. cbn in R3. congruence.
  - intros nu nu' x x' B B' S S'. rewrite Ht, Hg in R4. destruct (R4 nu nu' x x') as [Q _]; auto.
Qed.
Example C63_readback_example : forall gb, exists s s' v' l, let q := mk6 2 (-3/10) (-4/10) (1/2) (-1/3) 1 in
  set_kepler gb (kvec (ktp PI)) (with_type AMean (s_new true false)) = (s, Ok tt)
  /\ set_equinoctial gb (KVec (fin6 q)) s = (s', Ok tt) /\ snd (get_equinoctial gb s') = Ok v'
  /\ vcol v' 0 (fin6 (mk6 2 (-3/10) (-4/10) (1/2) (-1/3) l)) /\ cong2pi l 1.
Proof.
  intros gb. destruct (equi_ready gb AMean) as [s [E [A [Ht [Hg [Ho [Hop [Hf Hk]]]]]]]].
  pose (q := mk6 2 (-3/10) (-4/10) (1/2) (-1/3) 1).
  assert (Ee : eccentricity_of_equi q = 1 / 2).
  { unfold eccentricity_of_equi. cbn [q s1 s2]. replace (_ + _) with ((1 / 2) * (1 / 2)) by lra. apply sqrt_square. lra. }
  destruct (C63_readback_partial gb gb 1 s (KVec (fin6 q)) [fin6 q] 0 q 1e-12 A Ho Hf) as [s' [v' [q' [R1 [R2 [R3 [Q0 [Q3 [Q4 [Q12 [_ [_ [Q5 _]]]]]]]]]]]]]; auto.
  { split; [reflexivity|]. right. exists (fin6 q). split; [reflexivity|]. split; [reflexivity|]. left. exact Ht. }
  { rewrite Ee. lra. }
  destruct Q12 as [Q1 Q2]; [right; rewrite Ee; lra|]. specialize (Q5 Ht). rewrite Hg in Q5.
  exists s, s', v', (s5 q'). split; [exact E|]. split; [exact R1|]. split; [exact R2|]. split; [|exact Q5].
  replace (mk6 2 (-3 / 10) (-4 / 10) (1 / 2) (-1 / 3) (s5 q')) with q'; [exact R3|].
  apply six_ext; auto.
Qed.
