(** * C34: the equinoctial round trip for every bound state that is not exactly retrograde planar *)
From Coq Require Import Reals QArith Qreals ZArith Lra Lia Bool List Arith.
From Verif Require Import NP NPReal Spec RealBase KeplerModel ConvModel Lists ConvCols ArraySpec
  EllState KepReal CartReal CartInv PropsKep PropsCart AnomReal PropsAnomaly PropsAnomalyR PropsSolver PropsArray PropsDegrees PropsEqui PropsEquiCart
  PropsConverge PropsConvergeOrbit PropsEquiDeg PropsNear.
Import ListNotations.
Local Open Scope R_scope.

(** [cart_to_equi] of a state whose elements are [k], taken back by [equi_to_cart], is the state of [k] *)
Lemma equi_back mu x k o t : valid_kep mu k -> k_e k < 1 -> 0 <= k_i k < PI ->
  (k_e k <= / 1000000000 -> k_om k = 0) -> (k_i k = 0 -> k_Om k = 0) -> elements_of mu x (fin6 k) -> conv_opts o t ->
  exists q x', (forall g g1 g2, snd (cart_to_equi g g1 g2 (KVec (fin6 x)) (MuS (Fin mu)) false) = Ok (KVec (fin6 q)))
  /\ (forall g g1 g2, equi_to_cart g g1 g2 (KVec (fin6 q)) (MuS (Fin mu)) o false = Ok (KVec (fin6 x')))
  /\ norm (minus3 (pos x') (pos (peri_state mu k))) <= k_a k * (t / (1 - k_e k))
  /\ norm (minus3 (vel x') (vel (peri_state mu k)))
     <= 3 * sqrt (mu / k_a k) / ((1 - k_e k) * (1 - k_e k)) * (t / (1 - k_e k)).
Proof.
  intros Vk He1 Hi0 Zo ZO El Hop. pose proof Vk as [Hmu [Ha [He0 _]]].
  pose proof (conv_opts_pos o t Hop) as Tp. pose proof Hop as [Ht [Hn _]].
  set (e := k_e k) in *. set (a := k_a k) in *.
  assert (V : forall nu, valid_kep mu (with_nu k nu)).
  { intros v. unfold valid_kep. change (k_a (with_nu k v)) with a. change (k_e (with_nu k v)) with e.
    repeat split; auto. change (k_nu (with_nu k v)) with v. pose proof (COS_bound v). nra. }
  assert (Q0 : 0 < t / (1 - e)) by (apply Rdiv_lt_0_compat; lra).
  assert (Q1 : 0 <= 3 * sqrt (mu / a) / ((1 - e) * (1 - e))).
  { apply Rmult_le_pos; [pose proof (sqrt_pos (mu / a)); lra|apply Rlt_le, Rinv_0_lt_compat; nra]. }
  destruct (Rle_lt_dec e (/ 1000000000)) as [L|L].
  - specialize (Zo L). exists (Rk2q k), (peri_state mu k).
    destruct (round_k_gen k) as [C1 [C2 [C3 [C4 [I3 [I4 [I5 [_ [_ [C D]]]]]]]]]]; auto.
    split; [|split].
    + intros g g1 g2. destruct (c2q_vec mu x k El g g1 g2) as [kM [Vi ->]]. apply via_below in Vi; auto. subst kM.
      unfold kep_to_equi, on_cols. rewrite kep_to_equi_cols_map. cbn [map rbind]. now rewrite k2q_real.
    + intros g g1 g2. destruct (q2c_vec mu o (fin6 (Rk2q k)) (Rq2k (Rk2q k)) (q2k_real _) g g1 g2) as [k' [Vi ->]].
      apply via_below in Vi; [|now rewrite C3]. subst k'.
      set (k' := Rq2k (Rk2q k)) in *.
      assert (E : peri_state mu k' = peri_state mu k).
      { rewrite <- (six_ext (mk6 (k_a k) (k_e k) (k_i k) (s3 k') (s4 k') (s5 k')) k'); auto.
        assert (K3 : s3 k = 0) by exact Zo.
        apply (peri_cong mu k); destruct (Rle_lt_or_eq_dec 0 (s2 k)) as [G|G]; try (change (0 <= k_i k); lra).
        - destruct (C L G) as [A1 _]. rewrite A1. change (k_om k) with (s3 k). rewrite K3. apply cong_refl.
        - destruct (D L (eq_sym G)) as [A1 _]. rewrite A1. change (k_om k) with (s3 k). rewrite K3. apply cong_refl.
        - apply (C L G).
        - destruct (D L (eq_sym G)) as [_ [A1 _]]. rewrite A1, ZO by (symmetry; exact G). apply cong_refl.
        - destruct (C L G) as [_ [_ A1]]. rewrite K3, Rplus_0_l in A1. exact A1.
        - destruct (D L (eq_sym G)) as [_ [_ A1]]. rewrite K3, (ZO (eq_sym G) : s4 k = 0), !Rplus_0_l in A1. exact A1. }
      rewrite kep_to_cart_real; [now rewrite E|].
      unfold valid_kep, k_a, k_e, k_nu. rewrite C2, C3. apply (V (s5 k')).
    + assert (Z : forall u : vec, norm (minus3 u u) = 0) by (intros u; apply norm_eq; [lra|vunf; ring]).
      rewrite !Z. split; [nra|]. apply Rmult_le_pos; lra.
  - assert (He : 0 <= e < 1) by lra.
    destruct (C15_ellipse e He) as [A [B _]]. destruct (A (k_nu k)) as [E [T [CE RE]]].
    assert (KM : kepler_M e E = E - e * sin E) by (unfold kepler_M; destruct (Rlt_dec e 1); lra).
    set (M := E - e * sin E). pose proof (t2m_of_t2e _ _ _ T He0) as TM. rewrite KM in TM. fold M in TM.
    assert (CM : in_circle M) by now apply mean_in_circle.
    assert (HM : 0 <= M <= 2 * PI) by (destruct CM; lra).
    pose (kM := with_nu k M).
    destruct (round_k_gen kM) as [C1 [C2 [C3 [C4 [I3 [I4 [I5 [C [D _]]]]]]]]]; auto.
    set (k' := Rq2k (Rk2q kM)) in *.
    assert (L2 : 0 <= s2 k) by (change (0 <= k_i k); lra).
    assert (EM : s5 k' = M).
    { apply in_circle_unique; auto. destruct (Rle_lt_or_eq_dec 0 (s2 k)) as [G|G]; [lra|apply (C L G)|apply (D L (eq_sym G))]. }
    assert (EP : forall nu', peri_state mu (mk6 (s0 k') (s1 k') (s2 k') (s3 k') (s4 k') nu') = peri_state mu (with_nu k nu')).
    { intros v. rewrite C2, C3, C4.
      destruct (Rle_lt_or_eq_dec 0 (s2 k)) as [G|G]; [lra| |].
      - destruct (C L G) as [A1 [A2 _]]. apply (peri_cong mu (with_nu k v)); auto. apply cong_refl.
      - destruct (D L (eq_sym G)) as [A1 [A2 _]]. apply (peri_cong mu (with_nu k v)); [| |apply cong_refl].
        + change (s4 kM) with (k_Om k) in A2. rewrite (ZO (eq_sym G)), Rplus_0_r in A2. exact A2.
        + rewrite A1. change (k_Om (with_nu k v)) with (k_Om k). rewrite (ZO (eq_sym G)). apply cong_refl. }
    destruct (C20_ellipse o 5 t M e He Ht Tp Hn ltac:(lra)) as [E' [T' [_ H]]].
    destruct (H (conv_opts_converged o t M e Hop He HM)) as [_ [_ R]]. specialize (R E eq_refl).
    destruct (B E') as [nu' [T2 [C2' R2]]].
    exists (Rk2q kM), (peri_state mu (with_nu k nu')). split; [|split].
    + intros g g1 g2. destruct (c2q_vec mu x k El g g1 g2) as [c [Vi ->]]. apply via_above in Vi; auto.
      destruct Vi as [y [Y1 ->]]. specialize (TM g1 g2). unfold e, k_nu, k_e in TM. rewrite TM in Y1.
      injection Y1 as <-. unfold kep_to_equi, on_cols. rewrite kep_to_equi_cols_map. cbn [map rbind].
      change (mk6 _ _ _ _ _ _) with (fin6 kM). now rewrite k2q_real.
    + intros g g1 g2. destruct (q2c_vec mu o (fin6 (Rk2q kM)) k' (q2k_real _) g g1 g2) as [c [Vi ->]].
      apply via_above in Vi; [|now rewrite C3]. destruct Vi as [y [Y1 ->]].
      rewrite EM, C3 in Y1. change (s1 kM) with e in Y1.
      rewrite (m2t_of_m2e _ _ _ _ _ T' T2 g1) in Y1. injection Y1 as <-.
      change (mk6 _ _ _ _ _ _) with (fin6 (mk6 (s0 k') (s1 k') (s2 k') (s3 k') (s4 k') nu')).
      rewrite kep_to_cart_real; [now rewrite EP|].
      specialize (V nu'). unfold valid_kep, k_a, k_e, k_nu in *. cbn [s0 s1 s5]. rewrite C2, C3. exact V.
    + destruct (ell_close mu k (k_nu k) nu' E E') as [P1 P2]; auto.
      assert (X : with_nu k (k_nu k) = k) by now destruct k. rewrite X in P1, P2. fold e a in P1, P2.
      split; (eapply Rle_trans; [eassumption|]); apply Rmult_le_compat_l; auto; lra.
Qed.

(** every bound state with a normal that is not exactly -z, both settings of the flag *)
Theorem C34_roundtrip_all : forall deg mu x o t, 0 < mu -> ang_mom x <> (0,0,0) -> energy mu x < 0 ->
  ~ angle_between (ang_mom x) (0,0,1) PI -> conv_opts o t ->
  let e := norm (ecc_vec mu x) in let a := mu / (- 2 * energy mu x) in
  exists q x', (forall g g1 g2, snd (cart_to_equi g g1 g2 (KVec (fin6 x)) (MuS (Fin mu)) deg) = Ok (KVec (fin6 q)))
  /\ (forall g g1 g2, equi_to_cart g g1 g2 (KVec (fin6 q)) (MuS (Fin mu)) o deg = Ok (KVec (fin6 x')))
  /\ norm (minus3 (pos x') (pos x)) <= a * (t / (1 - e)) + 3 / 100000000 * norm (pos x)
  /\ norm (minus3 (vel x') (vel x)) <= 3 * sqrt (mu / a) / ((1 - e) * (1 - e)) * (t / (1 - e)) + 3 / 100000000 * norm (vel x).
Proof.
  intros deg mu x o t Hmu Hh Hen Hpi Hop e a.
  assert (H : exists q x', (forall g g1 g2, snd (cart_to_equi g g1 g2 (KVec (fin6 x)) (MuS (Fin mu)) false) = Ok (KVec (fin6 q)))
    /\ (forall g g1 g2, equi_to_cart g g1 g2 (KVec (fin6 q)) (MuS (Fin mu)) o false = Ok (KVec (fin6 x')))
    /\ norm (minus3 (pos x') (pos x)) <= a * (t / (1 - e)) + 3 / 100000000 * norm (pos x)
    /\ norm (minus3 (vel x') (vel x)) <= 3 * sqrt (mu / a) / ((1 - e) * (1 - e)) * (t / (1 - e)) + 3 / 100000000 * norm (vel x)).
  { pose proof (elliptic_elements mu x Hmu Hh Hen) as He1. fold e in He1.
    destruct (state_surj mu x Hmu Hh ltac:(lra)) as [k [Hv [Hne [Hi [_ [_ [_ Ex]]]]]]].
    destruct (near_back mu k Hv Hi) as [V [B1 B2]]. rewrite Ex in B1, B2.
    pose proof (peri_elements mu k Hv Hne Hi) as El. fold (back mu k) in El. rewrite Ex in El.
    assert (Ke : k_e k = e) by (unfold e; rewrite <- Ex; symmetry; now apply peri_en).
    assert (Ka : k_a k = a).
    { destruct (C02_energy mu k x Hv) as [E _]; [rewrite <- Ex; now apply state_of_peri|]. unfold a.
      rewrite E by lra. destruct Hv as [_ [? _]]. field. lra. }
    assert (Ki : k_i k <> PI).
    { intros E. apply Hpi. split; [pose proof PI_RGT_0; lra|]. rewrite <- Ex, peri_hn, peri_h by auto.
      assert (norm (0,0,1) = 1) as -> by (apply norm_eq; [|vunf]; lra).
      rewrite dot_scal_l. unfold W_axis. rewrite E. vunf. ring. }
    destruct (equi_back mu x (back mu k) o t V) as [q [x' [Q1 [Q2 [Q3 Q4]]]]]; auto.
    - change (k_e (back mu k)) with (k_e k). lra.
    - change (k_i (back mu k)) with (k_i k). lra.
    - change (k_e (back mu k)) with (k_e k). intros L. change (k_om (back mu k)) with (R_om mu (peri_state mu k)).
      unfold R_om, R_eg. rewrite (peri_en mu k Hv), Rltb_false; auto.
    - change (k_i (back mu k)) with (k_i k). intros L. change (k_Om (back mu k)) with (R_Om (peri_state mu k)).
      apply planar_Om; auto.
    - change (k_e (back mu k)) with (k_e k) in *. change (k_a (back mu k)) with (k_a k) in *. rewrite Ke, Ka in *.
      exists q, x'. split; [exact Q1|]. split; [exact Q2|].
      assert (T : forall u v w : vec, norm (minus3 u w) <= norm (minus3 u v) + norm (minus3 v w)).
      { intros u v w. replace (minus3 u w) with (plus3 (minus3 u v) (minus3 v w)) by vring. apply norm_tri. }
      split; (eapply Rle_trans; [apply T|]); apply Rplus_le_compat; eauto. }
  destruct H as [q [x' [E1 [E2 E3]]]].
  destruct deg; [|exists q, x'; auto].
  exists (mk6 (s0 q) (s1 q) (s2 q) (s3 q) (s4 q) (s5 q * (180 / PI))), x'. split; [|split; [|exact E3]].
  - intros g g1 g2. destruct (C34_degrees g g1 g2 (KVec (fin6 x)) (MuS (Fin mu)) o) as [D _]. rewrite D, E1. cbn [rbind on_last].
    now rewrite degrees_scale.
  - intros g g1 g2. destruct (C34_degrees g g1 g2 (KVec (fin6 (mk6 (s0 q) (s1 q) (s2 q) (s3 q) (s4 q) (s5 q * (180 / PI))))) (MuS (Fin mu)) o) as [_ D].
    rewrite D. rewrite <- (E2 g g1 g2). f_equal. cbn [on_last]. f_equal. unfold fin6, map6. cbn [s0 s1 s2 s3 s4 s5]. f_equal.
    rewrite radians_scale. cbn [scale]. pose proof PI_RGT_0. f_equal. field. lra.
Qed.
(** a near-circular state tilted by 1e-10, inside both limits, default options *)
Example C34_roundtrip_all_example : exists q x', let x := mk6 1 0 0 0 1 (/ 10000000000) in
  (forall g g1 g2, snd (cart_to_equi g g1 g2 (KVec (fin6 x)) (MuS (Fin 1)) true) = Ok (KVec (fin6 q)))
  /\ (forall g g1 g2, equi_to_cart g g1 g2 (KVec (fin6 q)) (MuS (Fin 1)) default_options true = Ok (KVec (fin6 x')))
  /\ norm (minus3 (pos x') (pos x)) <= 1 / (- 2 * energy 1 x) * (/ 1000000000000 / (1 - norm (ecc_vec 1 x))) + 3 / 100000000 * norm (pos x).
Proof.
  set (x := mk6 1 0 0 0 1 (/ 10000000000)). destruct C76_example as [_ [H1 _]]. fold x in H1.
  assert (N : norm (1,0,0) = 1) by (apply norm_eq; [|vunf]; lra).
  assert (En : energy 1 x < 0).
  { unfold energy, x, pos, vel. cbn [s0 s1 s2 s3 s4 s5]. rewrite N. unfold dot, vx, vy, vz. cbn [fst snd]. lra. }
  destruct (C34_roundtrip_all true 1 x default_options (/ 1000000000000)) as [q [x' [A [B [C _]]]]]; auto; try lra.
  - intros [_ E]. rewrite cos_PI in E. assert (P : 0 < norm (ang_mom x)) by now apply norm_pos_iff.
    rewrite (norm_eq (0,0,1) 1) in E by (vunf; lra).
    assert (D : dot (ang_mom x) (0,0,1) = 1) by (unfold ang_mom, x; vunf; ring). lra.
  - exact conv_opts_default.
  - exists q, x'. auto.
Qed.
