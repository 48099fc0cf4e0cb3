(** * C06-C10: cart_to_kep and the round trips (exact arithmetic) *)
From Coq Require Import Reals QArith Lra Lia Bool List Nsatz.
From Verif Require Import NP NPReal KeplerModel ConvModel Lists ConvCols ArraySpec PropsArray Spec RealBase KepReal CartReal PropsKep CartInv.
Import ListNotations.
Local Open Scope R_scope.

(** [k] are the elements returned for the state [x] *)
Definition elements_of (mu : R) (x : six R) (k : six num) : Prop :=
  forall g, snd (cart_to_kep g (KVec (fin6 x)) (MuS (Fin mu)) false) = Ok (KVec k).
Lemma elements_of_col mu x : elements_of mu x (c2k_col false (fin6 x) (Fin mu)).
Proof.
  intros g. destruct (cart_to_kep_vec g (fin6 x) (MuS (Fin mu)) false [Fin mu] eq_refl) as [m [Em ->]].
  injection Em as <-. reflexivity.
Qed.
Lemma elements_of_fun mu x k k' : elements_of mu x k -> elements_of mu x k' -> k = k'.
Proof. intros H1 H2. specialize (H1 (fun _ _ => NaN)). specialize (H2 (fun _ _ => NaN)). congruence. Qed.

(** e > e_lim and i_lim < i < pi - i_lim *)
Definition eccentric_orbit (e : R) : Prop := 1e-9 < e.
Definition inclined_orbit (i : R) : Prop := PI * 1e-9 < i < PI - PI * 1e-9.
Definition planar_orbit (i : R) : Prop := i = 0 \/ i = PI.

Lemma elimR_eq : elimR = 1e-9. Proof. unfold elimR. lra. Qed.
Lemma ilimR_eq : ilimR = PI * 1e-9. Proof. unfold ilimR. lra. Qed.

(** ** C06 *)
Theorem C06_elements : forall mu x, 0 < mu -> ang_mom x <> (0,0,0) ->
  exists a e i om Om nu, elements_of mu x (mk6 a (Fin e) (Fin i) (Fin om) (Fin Om) (Fin nu))
  /\ e = norm (ecc_vec mu x)
  /\ (energy mu x <> 0 -> a = Fin (Rabs (mu / (2 * energy mu x))) /\ 0 < Rabs (mu / (2 * energy mu x)))
  /\ angle_between (ang_mom x) (0,0,1) i
  /\ 0 <= om <= 2 * PI /\ 0 <= Om <= 2 * PI /\ 0 <= nu <= 2 * PI.
Proof.
  intros mu x Hmu Hh. do 6 eexists. split.
  { rewrite <- (c2k_real mu x) by auto. apply elements_of_col. }
  split; [reflexivity|]. split.
  { intros He. split; [now apply R_a_val|]. apply Rabs_pos_lt. unfold Rdiv.
    apply Rmult_integral_contrapositive_currified; [lra|]. apply Rinv_neq_0_compat. lra. }
  split; [|split; [now apply R_om_range|split; [now apply R_Om_range|now apply R_nu_range]]].
  split; [now apply R_i_range|]. rewrite cos_R_i by auto. pose proof (hn_pos x Hh).
  assert (norm (0,0,1) = 1) as -> by (apply norm_eq; [|vunf]; lra).
  transitivity (vz (ang_mom x)); [unfold dot, vx, vy, vz; cbn [fst snd]; ring|field; lra].
Qed.

(** ** C07 *)
Lemma peri_a mu k : valid_kep mu k -> k_e k <> 1 -> R_a mu (peri_state mu k) = Fin (k_a k).
Proof.
  intros H He. 
  destruct (C02_energy mu k _ H (state_of_peri mu k H)) as [E1 [E2 _]].
  pose proof (peri_h_nz mu k H) as Hh. destruct H as [Hmu [Ha H]].
  destruct (Rtotal_order (k_e k) 1) as [L|[L|L]]; [|easy|].
  - specialize (E1 L). rewrite R_a_val; auto; rewrite E1.
    + f_equal. replace (mu / (2 * (- mu / (2 * k_a k)))) with (- k_a k) by (field; lra).
      rewrite Rabs_Ropp. apply Rabs_pos_eq. lra.
    + apply Rlt_not_eq. unfold Rdiv. assert (0 < / (2 * k_a k)) by (apply Rinv_0_lt_compat; lra). nra.
  - specialize (E2 L). rewrite R_a_val; auto; rewrite E2.
    + f_equal. replace (mu / (2 * (mu / (2 * k_a k)))) with (k_a k) by (field; lra).
      apply Rabs_pos_eq. lra.
    + apply Rgt_not_eq. apply Rdiv_lt_0_compat; lra.
Qed.
Lemma peri_elements mu k : valid_kep mu k -> k_e k <> 1 -> 0 <= k_i k <= PI ->
  elements_of mu (peri_state mu k)
    (fin6 (mk6 (k_a k) (k_e k) (k_i k) (R_om mu (peri_state mu k)) (R_Om (peri_state mu k))
         (R_nu mu (peri_state mu k)))).
Proof.
  intros H He Hi. pose proof (elements_of_col mu (peri_state mu k)) as E.
  rewrite c2k_real in E.
  2: now destruct H. 2: now apply peri_h_nz.
  rewrite peri_a, peri_en, peri_R_i in E by auto. exact E.
Qed.
Theorem C07_roundtrip : forall mu k x, valid_kep mu k -> k_e k <> 1 ->
  eccentric_orbit (k_e k) -> inclined_orbit (k_i k) ->
  in_circle (k_om k) -> in_circle (k_Om k) -> in_circle (k_nu k) ->
  state_of mu k x -> elements_of mu x (fin6 k).
Proof.
  intros mu k x H He Hee Hii Hom HOm Hnu S. rewrite (state_of_inv _ _ _ H S).
  unfold eccentric_orbit in Hee. rewrite <- elimR_eq in Hee.
  unfold inclined_orbit in Hii. rewrite <- ilimR_eq in Hii.
  assert (Hi : 0 <= k_i k <= PI) by (pose proof ilim_pos; lra).
  pose proof (peri_elements mu k H He Hi) as E.
  rewrite peri_om, peri_Om, peri_nu in E by auto.
  rewrite !extract_exact in E by auto. destruct k; exact E.
Qed.

(** ** C08 *)
(** planar (i = 0 or pi) and/or near-circular (e <= e_lim, in particular e = 0) orbits *)
Theorem C08_canonical : forall mu k x, valid_kep mu k -> k_e k <> 1 -> state_of mu k x ->
  planar_orbit (k_i k) \/ inclined_orbit (k_i k) ->
  exists om Om nu, elements_of mu x (fin6 (mk6 (k_a k) (k_e k) (k_i k) om Om nu))
  /\ 0 <= om <= 2 * PI /\ 0 <= Om <= 2 * PI /\ 0 <= nu <= 2 * PI
  /\ (planar_orbit (k_i k) -> Om = 0)
  /\ (inclined_orbit (k_i k) -> cong2pi Om (k_Om k))
  /\ (eccentric_orbit (k_e k) -> cong2pi nu (k_nu k)
       /\ (k_i k = 0 -> cong2pi om (k_om k + k_Om k))
       /\ (k_i k = PI -> cong2pi om (k_om k - k_Om k))
       /\ (inclined_orbit (k_i k) -> cong2pi om (k_om k)))
  /\ (~ eccentric_orbit (k_e k) -> om = 0
       /\ (k_i k = 0 -> cong2pi nu (k_om k + k_nu k + k_Om k))
       /\ (k_i k = PI -> cong2pi nu (k_om k + k_nu k - k_Om k))
       /\ (inclined_orbit (k_i k) -> cong2pi nu (k_om k + k_nu k))).
Proof.
  intros mu k x H He S Hpi. rewrite (state_of_inv _ _ _ H S).
  unfold eccentric_orbit. rewrite <- elimR_eq. unfold planar_orbit, inclined_orbit in *. rewrite <- ilimR_eq in *.
  pose proof ilim_pos. pose proof PI_RGT_0.
  assert (Hi : 0 <= k_i k <= PI) by lra.
  pose proof (peri_h_nz mu k H) as Hh. assert (Hmu : 0 < mu) by now destruct H.
  do 3 eexists. split; [now apply peri_elements|].
  split; [now apply R_om_range|]. split; [now apply R_Om_range|]. split; [now apply R_nu_range|].
  split; [intros; now apply planar_Om|].
  split; [intros; rewrite peri_Om by auto; apply extract_pro|].
  assert (Hs0 : k_i k = 0 -> sgn_i k = 1).
  { intros E. unfold sgn_i. rewrite E. destruct (Req_EM_T 0 0); lra. }
  assert (Hs1 : k_i k = PI -> sgn_i k = -1).
  { intros E. unfold sgn_i. rewrite E. destruct (Req_EM_T PI 0); lra. }
  split.
  - intros Hee. split; [rewrite peri_nu by auto; apply extract_pro|]. split; [|split].
    + intros E. pose proof (planar_om mu k H (or_introl E) Hee) as C. rewrite (Hs0 E), Rmult_1_l in C. exact C.
    + intros E. pose proof (planar_om mu k H (or_intror E) Hee) as C. rewrite (Hs1 E) in C.
      replace (k_om k - k_Om k) with (k_om k + -1 * k_Om k) by ring. exact C.
    + intros E. rewrite peri_om by auto. apply extract_pro.
  - intros Hee. apply Rnot_lt_le in Hee. split; [|split; [|split]].
    + destruct Hpi as [E|E]; [now apply planar_lat|now apply peri_lat].
    + intros E. destruct (planar_lat mu k H (or_introl E) Hee) as [_ C]. rewrite (Hs0 E), Rmult_1_l in C. exact C.
    + intros E. destruct (planar_lat mu k H (or_intror E) Hee) as [_ C]. rewrite (Hs1 E) in C.
      replace (k_om k + k_nu k - k_Om k) with (k_om k + k_nu k + -1 * k_Om k) by ring. exact C.
    + intros E. destruct (peri_lat mu k H E Hee) as [_ C]. rewrite C. apply extract_pro.
Qed.

(** ** C09 *)
(** states of elements that agree modulo 2pi, or after the canonical folding, are equal *)
Lemma peri_cong mu k om Om nu :
  cong2pi om (k_om k) -> cong2pi Om (k_Om k) -> cong2pi nu (k_nu k) ->
  peri_state mu (mk6 (k_a k) (k_e k) (k_i k) om Om nu) = peri_state mu k.
Proof.
  intros C1 C2 C3. apply six_eq; rewrite ?peri_pos, ?peri_vel; unfold peri_r, peri_s; rewrite ?Q_axis_eq;
    unfold P_axis, k_a, k_e, k_i, k_om, k_Om, k_nu in *; cbn [s0 s1 s2 s3 s4 s5];
    rewrite (cong_cos _ _ C1), (cong_sin _ _ C1), (cong_cos _ _ C2), (cong_sin _ _ C2), (cong_cos _ _ C3), (cong_sin _ _ C3);
    reflexivity.
Qed.
Lemma peri_planar mu k om Om nu s :
  sin (k_i k) = 0 -> cos (k_i k) = s -> (s = 1 \/ s = -1) ->
  cong2pi (om + s * Om) (k_om k + s * k_Om k) -> cong2pi nu (k_nu k) ->
  peri_state mu (mk6 (k_a k) (k_e k) (k_i k) om Om nu) = peri_state mu k.
Proof.
  intros Hs Hc Hs1 C C3.
  pose proof (cong_cos _ _ C) as Cc. pose proof (cong_sin _ _ C) as Cs. 
  apply six_eq; rewrite ?peri_pos, ?peri_vel; unfold peri_r, peri_s; rewrite ?Q_axis_eq;
    unfold P_axis, k_a, k_e, k_i, k_om, k_Om, k_nu in *; cbn [s0 s1 s2 s3 s4 s5];
    rewrite (cong_cos _ _ C3), (cong_sin _ _ C3), Hs, Hc;
    destruct Hs1 as [-> | ->];
    [ replace (om + 1 * Om) with (om + Om) in * by ring; replace (s3 k + 1 * s4 k) with (s3 k + s4 k) in * by ring;
      rewrite !cos_plus in Cc; rewrite !sin_plus in Cs
    | replace (om + -1 * Om) with (om - Om) in * by ring; replace (s3 k + -1 * s4 k) with (s3 k - s4 k) in * by ring;
      rewrite !cos_minus in Cc; rewrite !sin_minus in Cs
    | replace (om + 1 * Om) with (om + Om) in * by ring; replace (s3 k + 1 * s4 k) with (s3 k + s4 k) in * by ring;
      rewrite !cos_plus in Cc; rewrite !sin_plus in Cs
    | replace (om + -1 * Om) with (om - Om) in * by ring; replace (s3 k + -1 * s4 k) with (s3 k - s4 k) in * by ring;
      rewrite !cos_minus in Cc; rewrite !sin_minus in Cs ];
    f_equal; f_equal; f_equal; apply vec_eq; vunf; ring [Cc Cs] || nsatz.
Qed.
Lemma peri_circular mu k om nu :
  k_e k = 0 -> cong2pi (om + nu) (k_om k + k_nu k) ->
  peri_state mu (mk6 (k_a k) (k_e k) (k_i k) om (k_Om k) nu) = peri_state mu k.
Proof.
  intros He C.
  pose proof (cong_cos _ _ C) as Cc. pose proof (cong_sin _ _ C) as Cs. 
  rewrite !cos_plus in Cc. rewrite !sin_plus in Cs.
  apply six_eq; rewrite ?peri_pos, ?peri_vel; unfold peri_r, peri_s; rewrite ?Q_axis_eq;
    unfold P_axis, k_a, k_e, k_i, k_om, k_Om, k_nu in *; cbn [s0 s1 s2 s3 s4 s5];
    rewrite He, ?Rmult_0_l; f_equal; apply vec_eq; vunf; nsatz.
Qed.

Lemma angle_between_unique a b t t' : 0 < norm a -> 0 < norm b ->
  angle_between a b t -> angle_between a b t' -> t = t'.
Proof.
  intros Ha Hb [R1 E1] [R2 E2]. rewrite E1 in E2. apply cos_inj; auto.
  apply (Rmult_eq_reg_l (norm a * norm b)); auto. nra.
Qed.
Theorem C09_roundtrip : forall mu x i, 0 < mu -> ang_mom x <> (0,0,0) -> energy mu x <> 0 ->
  angle_between (ang_mom x) (0,0,1) i ->
  norm (ecc_vec mu x) = 0 \/ eccentric_orbit (norm (ecc_vec mu x)) ->
  planar_orbit i \/ inclined_orbit i ->
  exists k, elements_of mu x (fin6 k) /\ state_of mu k x.
Proof.
  intros mu x i Hmu Hh Hen Hi Hec Hin.
  destruct (state_surj mu x Hmu Hh Hen) as [k [Hv [He1 [Hir [Hom [HOm [Hnu Ex]]]]]]].
  assert (Ei : i = k_i k).
  { apply (angle_between_unique (ang_mom x) (0,0,1)); auto.
    - now apply norm_pos_iff.
    - apply norm_pos_iff. intros E. injection E. lra.
    - split; auto. rewrite <- Ex, peri_hn, peri_h by auto.
      assert (norm (0,0,1) = 1) as -> by (apply norm_eq; [|vunf]; lra).
      rewrite dot_scal_l. unfold W_axis. vunf. ring. }
  assert (Ee : norm (ecc_vec mu x) = k_e k) by (rewrite <- Ex; now apply peri_en).
  rewrite Ee in Hec. subst i.
  pose proof (state_of_peri mu k Hv) as S. rewrite Ex in S.
  destruct (C08_canonical mu k x Hv He1 S Hin) as [om [Om [nu [El [_ [_ [_ [H1 [H2 [H3 H4]]]]]]]]]].
  set (k' := mk6 (k_a k) (k_e k) (k_i k) om Om nu) in *.
  assert (Hc : peri_state mu k' = peri_state mu k /\ (k_e k = 0 \/ cong2pi nu (k_nu k))).
  { destruct Hec as [E0|Eg].
    - assert (Hn : ~ eccentric_orbit (k_e k)) by (unfold eccentric_orbit; lra).
      destruct (H4 Hn) as [-> [G1 [G2 G3]]]. split; [|now left].
      destruct Hin as [[I|I]|I].
      + assert (Om = 0) as -> by (apply H1; now left). 
        transitivity (peri_state mu (mk6 (k_a k) (k_e k) (k_i k) (k_om k) (k_Om k) (k_nu k))); [|now destruct k].
        transitivity (peri_state mu (mk6 (k_a k) (k_e k) (k_i k) (k_om k + k_Om k) 0 (k_nu k))).
        * apply (peri_circular mu (mk6 (k_a k) (k_e k) (k_i k) (k_om k + k_Om k) 0 (k_nu k))); auto.
          unfold k_om at 1, k_nu at 1; cbn [s3 s5]. eapply cong_trans; [|eapply cong_trans; [exact (G1 I)|]].
          -- replace (0 + nu) with nu by ring. apply cong_refl.
          -- replace (k_om k + k_nu k + k_Om k) with (k_om k + k_Om k + k_nu k) by ring. apply cong_refl.
        * apply (peri_planar mu (mk6 (k_a k) (k_e k) (k_i k) (k_om k) (k_Om k) (k_nu k)) _ _ _ 1).
          -- unfold k_i at 1; cbn [s2]. rewrite I. apply sin_0.
          -- unfold k_i at 1; cbn [s2]. rewrite I. apply cos_0.
          -- now left.
          -- unfold k_om at 2, k_Om at 2; cbn [s3 s4]. 
             replace (k_om k + k_Om k + 1 * 0) with (k_om k + 1 * k_Om k) by ring. apply cong_refl.
          -- apply cong_refl.
      + assert (Om = 0) as -> by (apply H1; now right). 
        transitivity (peri_state mu (mk6 (k_a k) (k_e k) (k_i k) (k_om k) (k_Om k) (k_nu k))); [|now destruct k].
        transitivity (peri_state mu (mk6 (k_a k) (k_e k) (k_i k) (k_om k - k_Om k) 0 (k_nu k))).
        * apply (peri_circular mu (mk6 (k_a k) (k_e k) (k_i k) (k_om k - k_Om k) 0 (k_nu k))); auto.
          unfold k_om at 1, k_nu at 1; cbn [s3 s5]. eapply cong_trans; [|eapply cong_trans; [exact (G2 I)|]].
          -- replace (0 + nu) with nu by ring. apply cong_refl.
          -- replace (k_om k + k_nu k - k_Om k) with (k_om k - k_Om k + k_nu k) by ring. apply cong_refl.
        * apply (peri_planar mu (mk6 (k_a k) (k_e k) (k_i k) (k_om k) (k_Om k) (k_nu k)) _ _ _ (-1)).
          -- unfold k_i at 1; cbn [s2]. rewrite I. apply sin_PI.
          -- unfold k_i at 1; cbn [s2]. rewrite I. apply cos_PI.
          -- now right.
          -- unfold k_om at 2, k_Om at 2; cbn [s3 s4]. 
             replace (k_om k - k_Om k + -1 * 0) with (k_om k + -1 * k_Om k) by ring. apply cong_refl.
          -- apply cong_refl.
      + transitivity (peri_state mu (mk6 (k_a k) (k_e k) (k_i k) 0 (k_Om k) nu)).
        * apply (peri_cong mu (mk6 (k_a k) (k_e k) (k_i k) 0 (k_Om k) nu)); try apply cong_refl. now apply H2.
        * apply peri_circular; auto. replace (0 + nu) with nu by ring. now apply G3.
    - destruct (H3 Eg) as [Cn [G1 [G2 G3]]]. split; [|now right].
      destruct Hin as [[I|I]|I].
      + assert (Om = 0) as -> by (apply H1; now left).
        apply (peri_planar mu k _ _ _ 1); auto; try (rewrite I; apply sin_0 || apply cos_0).
        replace (om + 1 * 0) with om by ring. rewrite Rmult_1_l. now apply G1.
      + assert (Om = 0) as -> by (apply H1; now right).
        apply (peri_planar mu k _ _ _ (-1)); auto; try (rewrite I; apply sin_PI || apply cos_PI).
        replace (om + -1 * 0) with om by ring. replace (k_om k + -1 * k_Om k) with (k_om k - k_Om k) by ring. now apply G2.
      + apply peri_cong; auto. }
  destruct Hc as [Hc1 Hc2].
  exists k'. split; auto. rewrite <- Ex, <- Hc1. apply state_of_peri.
  destruct Hv as [V1 [V2 [V3 V4]]]. repeat split; auto.
  unfold k', k_e at 1, k_nu; cbn [s1 s5]. destruct Hc2 as [E0|Cn].
  - rewrite E0. lra.
  - now rewrite (cong_cos _ _ Cn).
Qed.

(** ** C10 *)
(** For parabolas the returned semi-major axis is infinite, never the periapsis distance *)
Theorem C10_parabola_refuted : forall mu k x k', valid_kep mu k -> k_e k = 1 -> state_of mu k x ->
  elements_of mu x k' -> s0 k' = PInf /\ s0 k' <> Fin (k_a k).
Proof.
  intros mu k x k' H He S El.
  assert (E : s0 k' = PInf).
  { rewrite (elements_of_fun _ _ _ _ El (elements_of_col mu x)).
    rewrite (state_of_inv _ _ _ H S). pose proof (peri_h_nz mu k H). pose proof (peri_en mu k H) as En.
    destruct (C02_energy mu k x H S) as [_ [_ E]]. specialize (E He).
    rewrite (state_of_inv _ _ _ H S) in E.
    rewrite c2k_real by (auto; now destruct H). cbn [s0]. unfold R_a. rewrite En, He, E, Rleb_true by lra.
    rewrite Rmult_0_r. cbn [num_div]. destruct (Req_EM_T 0 0); [|easy]. unfold num_sign.
    destruct H as [Hmu _]. destruct (Rlt_dec 0 (- mu)); [lra|]. destruct (Rlt_dec (- mu) 0); [reflexivity|lra]. }
  split; auto. rewrite E. discriminate.
Qed.
(** What does hold for inclined parabolas: the other five elements are returned. *)
Theorem C10_parabola_partial : forall mu k x, valid_kep mu k -> k_e k = 1 ->
  inclined_orbit (k_i k) -> in_circle (k_om k) -> in_circle (k_Om k) -> in_circle (k_nu k) ->
  state_of mu k x ->
  exists a, elements_of mu x (mk6 a (Fin 1) (Fin (k_i k)) (Fin (k_om k)) (Fin (k_Om k)) (Fin (k_nu k))).
Proof.
  intros mu k x H He Hii Hom HOm Hnu S.
  unfold inclined_orbit in Hii. rewrite <- ilimR_eq in Hii.
  assert (Hi : 0 <= k_i k <= PI) by (pose proof ilim_pos; lra).
  assert (Hee : elimR < k_e k) by (rewrite He; unfold elimR; lra).
  pose proof (elements_of_col mu x) as E. revert E. rewrite (state_of_inv _ _ _ H S). intros E.
  rewrite c2k_real in E.
  2: now destruct H. 2: now apply peri_h_nz.
  rewrite peri_en, peri_R_i, peri_om, peri_Om, peri_nu, !extract_exact, He in E by auto. eauto.
Qed.

(** ** Examples *)
(** a regular ellipse: a = 2, e = 1/2, i = 1, omega = 2, Omega = 3, nu = pi/2 *)
Example C07_example : exists x, state_of 4 (mk6 2 (1/2) 1 2 3 (PI/2)) x /\
  elements_of 4 x (fin6 (mk6 2 (1/2) 1 2 3 (PI/2))).
Proof.
  exists (peri_state 4 (mk6 2 (1/2) 1 2 3 (PI/2))). pose proof (state_of_peri _ _ valid_ellipse) as S.
  split; auto. pose proof PI_RGT_0. pose proof PI2_3_2 as P3. unfold PI2 in P3.
  apply (C07_roundtrip 4 _ _ valid_ellipse); auto; unfold eccentric_orbit, inclined_orbit, in_circle, k_e, k_i, k_om, k_Om, k_nu; cbn [s0 s1 s2 s3 s4 s5]; pose proof PI_4; try lra.
Qed.
(** a planar retrograde circular orbit *)
Example C08_example : valid_kep 4 (mk6 2 0 PI 2 3 1) /\ planar_orbit (k_i (mk6 2 0 PI 2 3 1))
  /\ ~ eccentric_orbit (k_e (mk6 2 0 PI 2 3 1)).
Proof.
  unfold valid_kep, planar_orbit, eccentric_orbit, k_a, k_e, k_i, k_nu; cbn [s0 s1 s2 s5]. lra.
Qed.
(** the state (1,0,0; 0,2,0) with mu = 1: planar, e = 3 *)
Definition ex_state : six R := mk6 1 0 0 0 2 0.
Lemma ex_h : ang_mom ex_state = (0, 0, 2).
Proof. unfold ang_mom, ex_state. apply vec_eq; vunf; ring. Qed.
Lemma ex_ecc : ecc_vec 1 ex_state = (3, 0, 0).
Proof.
  assert (N : norm (pos ex_state) = 1) by (apply norm_eq; [lra|unfold ex_state; vunf; ring]).
  unfold ecc_vec. rewrite N, ex_h. unfold ex_state. apply vec_eq; vunf; field.
Qed.
Example C09_example : exists k, elements_of 1 ex_state (fin6 k) /\ state_of 1 k ex_state.
Proof.
  assert (N : norm (pos ex_state) = 1) by (apply norm_eq; [lra|unfold ex_state; vunf; ring]).
  pose proof PI_RGT_0.
  apply (C09_roundtrip 1 ex_state 0).
  - lra.
  - rewrite ex_h. intros E. injection E. lra.
  - unfold energy. rewrite N. unfold ex_state. vunf. lra.
  - rewrite ex_h. split; [lra|]. rewrite cos_0.
    rewrite (norm_eq (0,0,2) 2), (norm_eq (0,0,1) 1); vunf; lra.
  - right. rewrite ex_ecc, (norm_eq (3,0,0) 3); [unfold eccentric_orbit; lra|lra|vunf; lra].
  - left. now left.
Qed.
Example C06_example : 0 < 1 /\ ang_mom ex_state <> (0,0,0).
Proof. split; [lra|]. rewrite ex_h. intros E. injection E. lra. Qed.
Example C10_example : exists x, valid_kep 4 (mk6 2 1 1 2 3 (PI/3)) /\ state_of 4 (mk6 2 1 1 2 3 (PI/3)) x.
Proof. exists (peri_state 4 (mk6 2 1 1 2 3 (PI/3))). split; [|apply state_of_peri]; exact valid_parabola. Qed.
