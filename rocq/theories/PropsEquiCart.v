(** * C34: equinoctial elements and Cartesian states *)
From Coq Require Import Reals QArith Qreals ZArith Lra Lia Bool List Arith.
From Verif Require Import NP NPReal Spec RealBase KeplerModel ConvModel Lists ConvCols ArraySpec NPToy
  EllState KepReal CartReal CartInv PropsKep PropsCart AnomReal PropsAnomaly PropsAnomalyR PropsSolver PropsArray PropsDegrees PropsEqui.
Import ListNotations.

(** ** The two-step route, any arithmetic *)
Section Route.
Context {F : Type} `{NP F}.
(** [c'] is [c] with the anomaly converted by the scalar call [f] when e > e_lim *)
Definition anomaly_via (f : arg F -> arg F -> res (arg F)) (c c' : six F) : Prop :=
  if ltb e_lim (s1 c) then exists y, f (Sc (s5 c)) (Sc (s1 c)) = Ok (Sc y)
                          /\ c' = mk6 (s0 c) (s1 c) (s2 c) (s3 c) (s4 c) y
  else c' = c.
Lemma set5_same (c : six F) : set5 c (s5 c) = c. Proof. now destruct c. Qed.
Lemma elementwise_Forall2 (f : arg F -> arg F -> res (arg F)) (L : list (six F)) :
  elementwise f (fresh [length L] (map s5 L)) (fresh [length L] (map s1 L)) ->
  exists r, f (fresh [length L] (map s5 L)) (fresh [length L] (map s1 L)) = Ok r
    /\ Forall2 (fun c y => f (Sc (s5 c)) (Sc (s1 c)) = Ok (Sc y)) L (entries r).
Proof.
  intros [r [E1 [_ [E3 E4]]]]. exists r. split; auto.
  unfold joint_shape, fresh in E3, E4. cbn [is_arr shape_of at_ size fold_right] in E3, E4. rewrite Nat.mul_1_r in *.
  clear E1. revert E3 E4. generalize (entries r). clear r. induction L as [|c L IH]; intros [|y d] E3 E4; cbn in E3; try lia; constructor.
  - destruct (E4 0%nat (s5 c) (s1 c) eq_refl eq_refl) as [z [Z1 Z2]]; [cbn; lia|]. cbn in Z2. congruence.
  - apply IH; [lia|]. intros j xj ej Hx He Hj. destruct (E4 (S j) xj ej Hx He) as [z [Z1 Z2]]; [cbn; lia|]. eauto.
Qed.
Lemma set_nu_elementwise f (l : list (six F)) :
  let L := filter (fun c => ltb e_lim (s1 c)) l in
  elementwise f (fresh [length L] (map s5 L)) (fresh [length L] (map s1 L)) ->
  exists l', set_nu_masked f l = Ok l' /\ Forall2 (anomaly_via f) l l'.
Proof.
  intros L HE. destruct (elementwise_Forall2 f L HE) as [r [Hr Hf]].
  unfold set_nu_masked. rewrite !mget_map, !map_length. fold L. rewrite Hr. cbn [rbind].
  eexists. split; [reflexivity|]. change (adata r) with (entries r). subst L. clear HE Hr.
  revert Hf. generalize (entries r). clear r. induction l as [|c l IH]; intros d Hf; cbn [map map2 mset]; [constructor|].
  cbn [filter] in Hf. destruct (ltb e_lim (s1 c)) eqn:E.
  - inversion Hf as [|? y ? d' H1 H2]; subst. cbn [map2]. constructor; [|now apply IH].
    unfold anomaly_via. rewrite E. exists y. split; auto.
  - cbn [map2]. constructor; [|now apply IH]. unfold anomaly_via. rewrite E. apply set5_same.
Qed.
(** comparisons of an eccentricity above e_lim are consistent (true of every non-NaN number) *)
Definition sane_e (c : six F) : Prop :=
  ltb e_lim (s1 c) = true -> ordered1 (s1 c) /\ eqb (s1 c) (lit 0) = false.
Lemma route_t2m g1 g2 deg l : (forall c, In c l -> sane_e c) ->
  exists l', set_nu_masked (fun nu e => true_to_mean g1 g2 nu e deg) l = Ok l'
    /\ Forall2 (anomaly_via (fun nu e => true_to_mean g1 g2 nu e deg)) l l'.
Proof.
  intros Hs. apply set_nu_elementwise.
  set (L := filter _ l). assert (Hl : forall c, In c L -> ordered1 (s1 c) /\ eqb (s1 c) (lit 0) = false).
  { intros c Hc. apply filter_In in Hc. now apply Hs. }
  apply (C24_elementwise_partial g1 g1 g2 default_options deg).
  - cbn. rewrite map_length. lia.
  - cbn. rewrite map_length. lia.
  - reflexivity.
  - intros v Hv. cbn in Hv. apply in_map_iff in Hv. destruct Hv as [c [<- Hc]]. now apply Hl.
Qed.
Lemma route_m2t g o deg l : (forall c, In c l -> sane_e c) ->
  exists l', set_nu_masked (fun M e => mean_to_true g M e o deg) l = Ok l'
    /\ Forall2 (anomaly_via (fun M e => mean_to_true g M e o deg)) l l'.
Proof.
  intros Hs. apply set_nu_elementwise.
  set (L := filter _ l). assert (Hl : forall c, In c L -> ordered1 (s1 c) /\ eqb (s1 c) (lit 0) = false).
  { intros c Hc. apply filter_In in Hc. now apply Hs. }
  apply (C24_elementwise_partial g g g o deg).
  - cbn. rewrite map_length. lia.
  - cbn. rewrite map_length. lia.
  - reflexivity.
  - intros v Hv. cbn in Hv. apply in_map_iff in Hv. destruct Hv as [c [<- Hc]]. now apply Hl.
  - cbn. now rewrite !map_length.
  - cbn. now rewrite !map_length.
  - intros v Hv. cbn in Hv. apply in_map_iff in Hv. destruct Hv as [c [<- Hc]]. now apply Hl.
Qed.
(** a relation between corresponding columns of two arrays of one shape *)
Definition columns (R : six F -> six F -> Prop) (x y : kinput F) : Prop :=
  match x, y with
  | KVec c, KVec c' => R c c'
  | KMat l, KMat l' => Forall2 R l l'
  | _, _ => False
  end.
Definition has_column (c : six F) (x : kinput F) : Prop :=
  match x with KVec c' => c = c' | KMat l => In c l | _ => False end.
Lemma on_cols_route f R (k : kinput F) : kshape k <> None ->
  (match k with KVec _ | KMat _ => True | _ => False end) ->
  (forall l, (forall c, In c l -> has_column c k) -> exists l', f l = Ok l' /\ Forall2 R l l') ->
  exists k', on_cols f k = Ok k' /\ columns R k k'.
Proof.
  intros _ Hk Hf. destruct k as [| |s|c|l]; try contradiction; unfold on_cols.
  - destruct (Hf [c]) as [l' [E L]]; [cbn; intros ? [->|[]]; reflexivity|].
    inversion L as [|? c' ? l'' H1 H2]; subst. inversion H2; subst. rewrite E. cbn [rbind]. exists (KVec c'). auto.
  - destruct (Hf l) as [l' [E L]]; [auto|]. rewrite E. cbn [rbind]. exists (KMat l'). auto.
Qed.
Lemma kep_result_shape g cart mu deg k : snd (cart_to_kep g cart mu deg) = Ok k ->
  match k with KVec _ | KMat _ => True | _ => False end.
Proof.
  unfold cart_to_kep. destruct cart as [| |s|c|l]; try discriminate; cbn [snd].
  all: repeat (match goal with |- context [match ?x with _ => _ end] => destruct x end); cbn; try discriminate;
    injection 1 as <-; exact I.
Qed.
Lemma on_cols_shape f (x k : kinput F) : on_cols f x = Ok k -> match k with KVec _ | KMat _ => True | _ => False end.
Proof.
  unfold on_cols. destruct x; try discriminate; destruct (f _) as [r|]; cbn [rbind]; try discriminate.
  - destruct r as [|y [|]]; try discriminate. injection 1 as <-. exact I.
  - injection 1 as <-. exact I.
Qed.
Theorem C34_route : forall g g1 g2 mu deg,
  (forall cart k, snd (cart_to_kep g cart mu deg) = Ok k -> (forall c, has_column c k -> sane_e c) ->
     exists kM, columns (anomaly_via (fun nu e => true_to_mean g1 g2 nu e deg)) k kM
       /\ snd (cart_to_equi g g1 g2 cart mu deg) = kep_to_equi kM deg)
  /\ (forall equi o kM, equi_to_kep g equi deg = Ok kM -> (forall c, has_column c kM -> sane_e c) ->
     exists k, columns (anomaly_via (fun M e => mean_to_true g1 M e o deg)) kM k
       /\ equi_to_cart g g1 g2 equi mu o deg = snd (kep_to_cart g2 k mu deg)).
Proof.
  intros g g1 g2 mu deg. split.
  - intros cart k Hk Hs. pose proof (kep_result_shape _ _ _ _ _ Hk) as Sh.
    unfold cart_to_equi. destruct (cart_to_kep g cart mu deg) as [c' r]. cbn [snd] in *. subst r. cbn [rbind].
    destruct (on_cols_route (set_nu_masked (fun nu e => true_to_mean g1 g2 nu e deg)) 
       (anomaly_via (fun nu e => true_to_mean g1 g2 nu e deg)) k) as [k' [E C]]; auto.
    { destruct k; contradiction || discriminate. }
    { intros l Hl. apply route_t2m. auto. }
    rewrite E. cbn [rbind]. exists k'. auto.
  - intros equi o kM Hk Hs. pose proof (on_cols_shape _ _ _ Hk) as Sh.
    unfold equi_to_cart. rewrite Hk. cbn [rbind].
    destruct (on_cols_route (set_nu_masked (fun M e => mean_to_true g1 M e o deg)) 
       (anomaly_via (fun M e => mean_to_true g1 M e o deg)) kM) as [k' [E C]]; auto.
    { destruct kM; contradiction || discriminate. }
    { intros l Hl. apply route_m2t. auto. }
    rewrite E. cbn [rbind]. exists k'. auto.
Qed.
End Route.

(** ** Round trip of elliptic states, exact arithmetic *)
Local Open Scope R_scope.
Lemma sane_fin k : sane_e (fin6 k).
Proof.
  unfold sane_e, fin6, map6, e_lim, ordered1. cbn [s1]. num. intros H.
  destruct (Rltb_spec (/1000000000) (s1 k)) as [L|L]; [|discriminate].
  split; [|apply Reqb_false; lra].
  destruct (Rltb_spec 1 (s1 k)), (Reqb_spec (s1 k) 1), (Rltb_spec (s1 k) 1); try lra; exact I.
Qed.
Lemma c2q_vec mu x k : elements_of mu x (fin6 k) ->
  forall g g1 g2, exists kM, anomaly_via (fun nu e => true_to_mean g1 g2 nu e false) (fin6 k) kM
    /\ snd (cart_to_equi g g1 g2 (KVec (fin6 x)) (MuS (Fin mu)) false) = kep_to_equi (KVec kM) false.
Proof.
  intros El g g1 g2. destruct (C34_route g g1 g2 (MuS (Fin mu)) false) as [A _].
  destruct (A (KVec (fin6 x)) (KVec (fin6 k)) (El g)) as [kM [C E]].
  { intros c ->. apply sane_fin. }
  destruct kM as [| |s|c|l]; try contradiction. exists c. auto.
Qed.
Lemma q2c_vec mu o q kM : q2k_col false q = fin6 kM ->
  forall g g1 g2, exists k, anomaly_via (fun M e => mean_to_true g1 M e o false) (fin6 kM) k
    /\ equi_to_cart g g1 g2 (KVec q) (MuS (Fin mu)) o false = snd (kep_to_cart g2 (KVec k) (MuS (Fin mu)) false).
Proof.
  intros Hq g g1 g2. destruct (C34_route g g1 g2 (MuS (Fin mu)) false) as [_ A].
  destruct (A (KVec q) o (KVec (fin6 kM))) as [k [C E]].
  { unfold equi_to_kep, on_cols. rewrite equi_to_kep_cols_map. cbn [map rbind]. now rewrite Hq. }
  { intros c ->. apply sane_fin. }
  destruct k as [| |s|c|l]; try contradiction. exists c. auto.
Qed.
Lemma via_above f k c' : /1000000000 < s1 k -> anomaly_via f (fin6 k) c' ->
  exists y, f (Sc (Fin (s5 k))) (Sc (Fin (s1 k))) = Ok (Sc y)
    /\ c' = mk6 (Fin (s0 k)) (Fin (s1 k)) (Fin (s2 k)) (Fin (s3 k)) (Fin (s4 k)) y.
Proof.
  intros L. unfold anomaly_via, fin6, map6, e_lim. cbn [s0 s1 s2 s3 s4 s5]. num. rewrite Rltb_true by auto. auto.
Qed.
Lemma via_below f k c' : s1 k <= /1000000000 -> anomaly_via f (fin6 k) c' -> c' = fin6 k.
Proof.
  intros L. unfold anomaly_via, fin6, map6, e_lim. cbn [s0 s1 s2 s3 s4 s5]. num. rewrite Rltb_false by auto. auto.
Qed.
(** the mean anomaly of an eccentric anomaly in [0, 2pi) is in [0, 2pi) *)
Lemma mean_in_circle e E : 0 <= e < 1 -> in_circle E -> in_circle (E - e * sin E).
Proof.
  intros He [E0 E1]. unfold in_circle. split.
  - destruct E0 as [E0| <-]; [|rewrite sin_0; lra]. pose proof (sin_lt_x E E0). pose proof (SIN_bound E).
    destruct (Rle_dec 0 (sin E)); nra.
  - assert (P : 0 < 2 * PI - E) by lra. pose proof (sin_lt_x _ P) as S. rewrite sin_minus, sin_2PI, cos_2PI in S.
    destruct (Rle_dec 0 (sin E)); nra.
Qed.
(** elements, as returned, of an elliptic state *)
Lemma elliptic_elements mu x : 0 < mu -> ang_mom x <> (0,0,0) -> energy mu x < 0 ->
  norm (ecc_vec mu x) < 1.
Proof.
  intros Hmu Hh Hen. destruct (state_surj mu x Hmu Hh) as [k [Hv [He1 [_ [_ [_ [_ Ex]]]]]]]; [lra|].
  rewrite <- Ex, peri_en by auto. pose proof (state_of_peri mu k Hv) as S. rewrite Ex in S.
  destruct (C02_energy mu k x Hv S) as [_ [B C]]. pose proof Hv as [_ [Ha _]].
  destruct (Rtotal_order (k_e k) 1) as [L|[L|L]]; auto.
  - rewrite C in Hen by auto. lra.
  - rewrite B in Hen by auto. assert (0 < mu / (2 * k_a k)) by (apply Rdiv_lt_0_compat; lra). lra.
Qed.

Theorem C34_roundtrip : forall mu x i o n t, 0 < mu -> ang_mom x <> (0,0,0) -> energy mu x < 0 ->
  angle_between (ang_mom x) (0,0,1) i -> i = 0 \/ inclined_orbit i ->
  tol o = Fin t -> 0 < t -> degree o = Fin n -> 1 <= n ->
  let e := norm (ecc_vec mu x) in let a := mu / (- 2 * energy mu x) in
  e = 0 \/ eccentric_orbit e ->
  exists k q, elements_of mu x (fin6 k)
  /\ (forall g g1 g2, snd (cart_to_equi g g1 g2 (KVec (fin6 x)) (MuS (Fin mu)) false) = Ok (KVec (fin6 q)))
  /\ (e = 0 -> forall g g1 g2, equi_to_cart g g1 g2 (KVec (fin6 q)) (MuS (Fin mu)) o false = Ok (KVec (fin6 x)))
  /\ (eccentric_orbit e -> exists M, t2m (k_nu k) e (Fin M) /\
       (converged o (get_kepler_guess (Fin M) (Fin e)) M e ->
        exists x', (forall g g1 g2, equi_to_cart g g1 g2 (KVec (fin6 q)) (MuS (Fin mu)) o false = Ok (KVec (fin6 x')))
          /\ norm (minus3 (pos x') (pos x)) <= a * (t / (1 - e))
          /\ norm (minus3 (vel x') (vel x)) <= 3 * sqrt (mu / a) / ((1 - e) * (1 - e)) * (t / (1 - e)))).
Proof.
  intros mu x i o n t Hmu Hh Hen Hi Hin Ht Htp Hn Hn1 e a Hec.
  pose proof (elliptic_elements mu x Hmu Hh Hen) as He1. fold e in He1.
  assert (Hin' : planar_orbit i \/ inclined_orbit i) by (unfold planar_orbit; tauto).
  destruct (C09_roundtrip mu x i Hmu Hh) as [k [El St]]; auto; [lra|].
  destruct (C06_elements mu x Hmu Hh) as [a' [e' [i' [om [Om [nu [El' [Ee [Ea [Hi' _]]]]]]]]]].
  pose proof (elements_of_fun _ _ _ _ El El') as EQ. destruct Ea as [Ea Hap]; [lra|].
  assert (Ki : k_i k = i).
  { apply (angle_between_unique (ang_mom x) (0,0,1)); auto.
    - now apply norm_pos_iff.
    - apply norm_pos_iff. intros E. injection E. lra.
    - unfold fin6, map6 in EQ. assert (Fin (k_i k) = Fin i') by (unfold k_i; congruence).
      replace (k_i k) with i' by congruence. exact Hi'. }
  assert (Ke : k_e k = e).
  { unfold fin6, map6 in EQ. assert (Fin (k_e k) = Fin e') by (unfold k_e; congruence). unfold e. congruence. }
  assert (Ka : k_a k = a).
  { unfold fin6, map6 in EQ. assert (X : Fin (k_a k) = a') by (unfold k_a; congruence). rewrite Ea in X.
    injection X as ->. unfold a. rewrite Rabs_left; [field; lra|].
    unfold Rdiv. assert (/ (2 * energy mu x) < 0) by (apply Rinv_lt_0_compat; lra). nra. }
  assert (Ha : 0 < a). { rewrite <- Ka. unfold fin6, map6 in EQ. assert (X : Fin (k_a k) = a') by (unfold k_a; congruence).
    rewrite Ea in X. injection X as ->. exact Hap. }
  clear EQ Ea Hap Ee El' Hi'. 
  assert (He0 : 0 <= e) by (apply sqrt_pos).
  assert (V : forall nu, valid_kep mu (with_nu k nu)).
  { intros v. unfold valid_kep. change (k_a (with_nu k v)) with (k_a k). change (k_e (with_nu k v)) with (k_e k).
    rewrite Ka, Ke. repeat split; auto. change (k_nu (with_nu k v)) with v. pose proof (COS_bound v). nra. }
  assert (Vk : valid_kep mu k) by (specialize (V (k_nu k)); destruct k; exact V).
  assert (Sx : x = peri_state mu k) by now apply state_of_inv.
  assert (Hi0 : 0 <= s2 k < PI).
  { change (s2 k) with (k_i k). rewrite Ki. pose proof PI_RGT_0. destruct Hin as [-> |[L1 L2]]; [lra|]. lra. }
  pose (M := match Rlt_dec (/1000000000) e with left _ => 0 | right _ => k_nu k end).
  exists k. destruct Hec as [Hc|Hc].
  - assert (L : s1 k <= /1000000000) by (change (s1 k) with (k_e k); rewrite Ke, Hc; lra).
    exists (Rk2q k). split; auto. destruct (round_k_gen k) as [C1 [C2 [C3 [C4 [I3 [I4 [I5 [_ [_ [C D]]]]]]]]]]; auto.
    { change (s1 k) with (k_e k). lra. }
    split; [|split].
    + intros g g1 g2. destruct (c2q_vec mu x k El g g1 g2) as [kM [Vi ->]]. apply via_below in Vi; auto. subst kM.
      unfold kep_to_equi, on_cols. rewrite kep_to_equi_cols_map. cbn [map rbind]. now rewrite k2q_real.
    + intros _ g g1 g2. destruct (q2c_vec mu o (fin6 (Rk2q k)) (Rq2k (Rk2q k)) (q2k_real _) g g1 g2) as [k' [Vi ->]].
      apply via_below in Vi; [|now rewrite C3]. subst k'.
      set (k' := Rq2k (Rk2q k)) in *.
      assert (E : peri_state mu k' = peri_state mu k).
      { rewrite <- (six_ext (mk6 (k_a k) (k_e k) (k_i k) (s3 k') (s4 k') (s5 k')) k'); auto.
        destruct (Rle_lt_or_eq_dec 0 (s2 k)) as [G|G]; [lra| |].
        - destruct (C L G) as [A1 [A2 A3]]. rewrite A1.
          transitivity (peri_state mu (mk6 (k_a k) (k_e k) (k_i k) 0 (k_Om k) (s5 k'))).
          + apply (peri_cong mu (mk6 (k_a k) (k_e k) (k_i k) 0 (k_Om k) (s5 k'))); try apply cong_refl. exact A2.
          + apply peri_circular; [congruence|]. rewrite Rplus_0_l. exact A3.
        - destruct (D L (eq_sym G)) as [A1 [A2 A3]]. rewrite A1, A2.
          transitivity (peri_state mu (mk6 (k_a k) (k_e k) (k_i k) (k_om k + k_Om k) 0 (k_nu k))).
          + apply (peri_circular mu (mk6 (k_a k) (k_e k) (k_i k) (k_om k + k_Om k) 0 (k_nu k))).
            * change (k_e k = 0). congruence.
            * rewrite Rplus_0_l. exact A3.
          + apply (peri_planar mu k _ _ _ 1).
            * change (k_i k) with (s2 k). rewrite <- G. apply sin_0.
            * change (k_i k) with (s2 k). rewrite <- G. apply cos_0.
            * now left.
            * replace (k_om k + k_Om k + 1 * 0) with (k_om k + 1 * k_Om k) by ring. apply cong_refl.
            * apply cong_refl. }
      rewrite kep_to_cart_real; [now rewrite E, <- Sx|].
      unfold valid_kep, k_a, k_e, k_nu. rewrite C2, C3. change (s0 k) with (k_a k). change (s1 k) with (k_e k).
      rewrite Ka, Ke, Hc. repeat split; auto; lra.
    + intros L'. exfalso. unfold eccentric_orbit in L'. lra.
  - assert (L : /1000000000 < s1 k).
    { change (s1 k) with (k_e k). rewrite Ke. unfold eccentric_orbit in Hc. lra. }
    assert (He : 0 <= e < 1) by lra.
    destruct (C15_ellipse e He) as [A [B _]]. destruct (A (k_nu k)) as [E [T [CE RE]]].
    assert (KM : kepler_M e E = E - e * sin E) by (unfold kepler_M; destruct (Rlt_dec e 1); lra).
    clear M. set (M := E - e * sin E). pose proof (t2m_of_t2e _ _ _ T He0) as TM. rewrite KM in TM. fold M in TM.
    assert (CM : in_circle M) by now apply mean_in_circle.
    pose (kM := with_nu k M). exists (Rk2q kM). split; auto.
    destruct (round_k_gen kM) as [C1 [C2 [C3 [C4 [I3 [I4 [I5 [C [D _]]]]]]]]]; auto.
    { change (s1 kM) with (k_e k). lra. }
    set (k' := Rq2k (Rk2q kM)) in *.
    assert (EM : s5 k' = M).
    { apply in_circle_unique; auto. destruct (Rle_lt_or_eq_dec 0 (s2 k)) as [G|G]; [lra|apply (C L G)|apply (D L (eq_sym G))]. }
    assert (EP : forall nu', peri_state mu (mk6 (s0 k') (s1 k') (s2 k') (s3 k') (s4 k') nu') = peri_state mu (with_nu k nu')).
    { intros v. rewrite C2, C3, C4. 
      destruct (Rle_lt_or_eq_dec 0 (s2 k)) as [G|G]; [lra| |].
      - destruct (C L G) as [A1 [A2 _]]. apply (peri_cong mu (with_nu k v)); auto. apply cong_refl.
      - destruct (D L (eq_sym G)) as [A1 [A2 _]]. rewrite A1. apply (peri_planar mu (with_nu k v) _ _ _ 1).
        + change (k_i (with_nu k v)) with (s2 k). rewrite <- G. apply sin_0.
        + change (k_i (with_nu k v)) with (s2 k). rewrite <- G. apply cos_0.
        + now left.
        + rewrite !Rmult_1_l, Rplus_0_r. exact A2.
        + apply cong_refl. }
    split; [|split].
    + intros g g1 g2. destruct (c2q_vec mu x k El g g1 g2) as [c [Vi ->]]. apply via_above in Vi; auto.
      destruct Vi as [y [Y1 ->]]. specialize (TM g1 g2). rewrite <- Ke in TM. unfold k_nu, k_e in TM. rewrite TM in Y1. 
      injection Y1 as <-. unfold kep_to_equi, on_cols. rewrite kep_to_equi_cols_map. cbn [map rbind].
      change (mk6 _ _ _ _ _ _) with (fin6 kM). now rewrite k2q_real.
    + intros Z. exfalso. unfold eccentric_orbit in Hc. lra.
    + intros _. exists M. split; [exact TM|]. intros Cv.
      destruct (C20_ellipse o n t M e He Ht Htp Hn Hn1) as [E' [T' [_ H]]].
      destruct (H Cv) as [_ [_ R]]. specialize (R E eq_refl). destruct (B E') as [nu' [T2 [C2' R2]]].
      exists (peri_state mu (with_nu k nu')). split.
      * intros g g1 g2. destruct (q2c_vec mu o (fin6 (Rk2q kM)) k' (q2k_real _) g g1 g2) as [c [Vi ->]].
        apply via_above in Vi; [|now rewrite C3]. destruct Vi as [y [Y1 ->]].
        rewrite EM, C3 in Y1. change (s1 kM) with (k_e k) in Y1. rewrite Ke in Y1.
        rewrite (m2t_of_m2e _ _ _ _ _ T' T2 g1) in Y1. injection Y1 as <-.
        change (mk6 _ _ _ _ _ _) with (fin6 (mk6 (s0 k') (s1 k') (s2 k') (s3 k') (s4 k') nu')).
        rewrite kep_to_cart_real; [now rewrite EP|].
        specialize (V nu'). unfold valid_kep, k_a, k_e, k_nu in *. cbn [s0 s1 s5]. rewrite C2, C3. exact V.
      * destruct (ell_close mu k (k_nu k) nu' E E') as [P1 P2]; auto; try (rewrite Ke; auto).
        assert (X : with_nu k (k_nu k) = k) by now destruct k. rewrite X, <- Sx, Ka in P1. rewrite X, <- Sx, Ka, Ke in P2.
        split; [eapply Rle_trans; [exact P1|apply Rmult_le_compat_l; lra]|].
        eapply Rle_trans; [exact P2|]. apply Rmult_le_compat_l; [|exact R].
        apply Rmult_le_pos; [pose proof (sqrt_pos (mu / a)); lra|apply Rlt_le, Rinv_0_lt_compat; nra].
Qed.

(** an elliptic state at periapsis, mu = 1, r = (1,0,0), v = (0,6/5,0): e = 11/25 *)
Example C34_example : let x := mk6 1 0 0 0 (6/5) 0 in
  ang_mom x <> (0,0,0) /\ energy 1 x < 0 /\ angle_between (ang_mom x) (0,0,1) 0
  /\ eccentric_orbit (norm (ecc_vec 1 x)).
Proof.
  cbv zeta. assert (N : norm (1,0,0) = 1) by (apply norm_eq; [|vunf]; lra).
  assert (Nh : norm (ang_mom (mk6 1 0 0 0 (6/5) 0)) = 6/5) by (apply norm_eq; [|unfold ang_mom, pos, vel; vunf; cbn [s0 s1 s2 s3 s4 s5]]; lra).
  assert (N1 : norm (0,0,1) = 1) by (apply norm_eq; [|vunf]; lra).
  split; [|split; [|split]].
  - unfold ang_mom, pos, vel, cross, vx, vy, vz. cbn. intros E. injection E as E. lra.
  - unfold energy, pos, vel. cbn [s0 s1 s2 s3 s4 s5]. rewrite N. unfold dot, vx, vy, vz. cbn [fst snd]. lra.
  - pose proof PI_RGT_0. split; [lra|]. rewrite Nh, N1, cos_0. unfold ang_mom, pos, vel. vunf. cbn [s0 s1 s2 s3 s4 s5]. lra.
  - replace (norm _) with (11/25); [unfold eccentric_orbit; lra|]. symmetry. apply norm_eq; [lra|].
    unfold ecc_vec, ang_mom, pos, vel. cbn [s0 s1 s2 s3 s4 s5]. rewrite N. vunf. lra.
Qed.
(** and a circular one, which comes back unchanged *)
Example C34_example_circular : exists q, let x := mk6 1 0 0 0 1 0 in forall g g1 g2,
  snd (cart_to_equi g g1 g2 (KVec (fin6 x)) (MuS (Fin 1)) false) = Ok (KVec (fin6 q))
  /\ equi_to_cart g g1 g2 (KVec (fin6 q)) (MuS (Fin 1)) default_options false = Ok (KVec (fin6 x)).
Proof.
  assert (N : norm (1,0,0) = 1) by (apply norm_eq; [|vunf]; lra).
  assert (Nh : norm (ang_mom (mk6 1 0 0 0 1 0)) = 1) by (apply norm_eq; [|unfold ang_mom, pos, vel; vunf; cbn [s0 s1 s2 s3 s4 s5]]; lra).
  assert (N1 : norm (0,0,1) = 1) by (apply norm_eq; [|vunf]; lra).
  assert (Ne : norm (ecc_vec 1 (mk6 1 0 0 0 1 0)) = 0).
  { apply norm_eq; [lra|]. unfold ecc_vec, ang_mom, pos, vel. cbn [s0 s1 s2 s3 s4 s5]. rewrite N. vunf. lra. }
  destruct (C34_roundtrip 1 (mk6 1 0 0 0 1 0) 0 default_options 5 (/1000000000000)) as [k [q [_ [A [B _]]]]]; try lra; auto.
  - unfold ang_mom, pos, vel, cross, vx, vy, vz. cbn. intros E. injection E as E. lra.
  - unfold energy, pos, vel. cbn [s0 s1 s2 s3 s4 s5]. rewrite N. unfold dot, vx, vy, vz. cbn [fst snd]. lra.
  - pose proof PI_RGT_0. split; [lra|]. rewrite Nh, N1, cos_0. unfold ang_mom, pos, vel. vunf. cbn [s0 s1 s2 s3 s4 s5]. lra.
  - cbn [tol default_options]. now num.
  - cbn [degree default_options]. now num.
  - exists q. intros. auto.
Qed.
