(** * C32, C33: equinoctial and Keplerian elements converted back and forth *)
From Coq Require Import Reals QArith Qreals ZArith Lra Lia Bool List Arith.
From Verif Require Import NP NPReal Spec RealBase KeplerModel ConvModel Lists ConvCols ArraySpec
  CartReal PropsArray PropsDegrees.
Import ListNotations.
Local Open Scope R_scope.

(** ** arctan2 *)
Lemma sqrt_sum_pos x y : (x <> 0 \/ y <> 0) -> 0 < sqrt (x * x + y * y).
Proof. intros H. apply sqrt_lt_R0. destruct H; nra. Qed.
Lemma Ratan2_cs y x : let r := sqrt (x * x + y * y) in
  r * cos (Ratan2 y x) = x /\ r * sin (Ratan2 y x) = y.
Proof.
  cbv zeta. pose proof PI_RGT_0 as P. unfold Ratan2.
  assert (A : forall x y, x <> 0 -> sqrt (x * x + y * y) * cos (atan (y / x)) = Rabs x
                               /\ sqrt (x * x + y * y) * sin (atan (y / x)) = Rabs x * (y / x)).
  { clear. intros x y Hx. rewrite cos_atan, sin_atan. 
    assert (S : sqrt (x * x + y * y) = Rabs x * sqrt (1 + (y / x)²)).
    { rewrite <- sqrt_Rsqr_abs, <- sqrt_mult; [|apply Rle_0_sqr|unfold Rsqr; nra]. f_equal. unfold Rsqr. field. auto. }
    rewrite S. assert (0 < sqrt (1 + (y / x)²)) by (apply sqrt_lt_R0; unfold Rsqr; nra).
    split; [field; lra|field; split; lra]. }
  destruct (Rlt_dec 0 x) as [L|L]; [|destruct (Rlt_dec x 0) as [L'|L']].
  - destruct (A x y) as [B C]; [lra|]. rewrite B, C, !Rabs_pos_eq by lra. split; [reflexivity|field; lra].
  - destruct (A x y) as [B C]; [lra|]. rewrite Rabs_left in B, C by lra.
    assert (C' : sqrt (x * x + y * y) * sin (atan (y / x)) = - y) by (rewrite C; field; lra).
    destruct (Rle_dec 0 y).
    + rewrite neg_cos, neg_sin. split; lra.
    + replace (atan (y / x) - PI) with (- (PI - atan (y / x))) by ring.
      rewrite cos_neg, sin_neg, Rtrigo_facts.cos_pi_minus, sin_PI_x. split; lra.
  - assert (x = 0) by lra. subst x. replace (0 * 0 + y * y) with (y²) by (unfold Rsqr; ring). rewrite sqrt_Rsqr_abs.
    destruct (Rlt_dec 0 y); [|destruct (Rlt_dec y 0)].
    + rewrite cos_PI2, sin_PI2, Rabs_pos_eq by lra. lra.
    + rewrite cos_neg, sin_neg, cos_PI2, sin_PI2, Rabs_left by lra. lra.
    + assert (y = 0) by lra. subst y. rewrite Rabs_R0. lra.
Qed.
Lemma polar_norm r t : 0 <= r -> sqrt (r * sin t * (r * sin t) + r * cos t * (r * cos t)) = r.
Proof.
  intros Hr. transitivity (sqrt (r * r)); [|now apply sqrt_square]. f_equal.
  pose proof (sin2_cos2 t) as S. unfold Rsqr in S.
  transitivity (r * r * (sin t * sin t + cos t * cos t)); [ring|]. rewrite S. ring.
Qed.
Lemma Ratan2_polar r t : 0 < r -> cong2pi (Ratan2 (r * sin t) (r * cos t)) t.
Proof.
  intros Hr. destruct (Ratan2_cs (r * sin t) (r * cos t)) as [A B].
  rewrite Rplus_comm, polar_norm in A, B by lra.
  apply cos_sin_cong; eapply Rmult_eq_reg_l; eauto; lra.
Qed.
Lemma Ratan2_00 : Ratan2 0 0 = 0.
Proof. unfold Ratan2. repeat (destruct (Rlt_dec _ _)); lra. Qed.

Lemma six_ext {A} (x y : six A) : s0 x = s0 y -> s1 x = s1 y -> s2 x = s2 y -> s3 x = s3 y -> s4 x = s4 y ->
  s5 x = s5 y -> x = y.
Proof. destruct x as [x0 x1 x2 x3 x4 x5], y as [y0 y1 y2 y3 y4 y5]. cbn. intros. congruence. Qed.
(** ** The two conversions on real numbers (radians) *)
Definition Rq2k (q : six R) : six R :=
  let w := fun x => Rmod (x + 2 * PI) (2 * PI) in
  let e := sqrt (s1 q * s1 q + s2 q * s2 q) in
  let ob := Ratan2 (s1 q) (s2 q) in
  let OM := Ratan2 (s3 q) (s4 q) in
  let eg := Rltb (/1000000000) e in
  mk6 (s0 q) e (2 * atan (sqrt (s3 q * s3 q + s4 q * s4 q))) (w (if eg then ob - OM else 0)) (w OM)
      (w (if eg then s5 q - ob else s5 q - OM)).
Lemma q2k_real q : q2k_col false (fin6 q) = fin6 (Rq2k q).
Proof.
  pose proof PI_RGT_0. unfold q2k_col, Rq2k, fin6, map6, circ. cbn [s0 s1 s2 s3 s4 s5]. cbv zeta. num.
  rewrite !Fin_sqrt by nra. num. unfold e_lim. num.
  destruct (Rltb _ _); num; rewrite !Fin_mod by lra; reflexivity.
Qed.
Definition Rk2q (k : six R) : six R :=
  mk6 (s0 k) (s1 k * sin (s3 k + s4 k)) (s1 k * cos (s3 k + s4 k))
      (tan (/ 2 * s2 k) * sin (s4 k)) (tan (/ 2 * s2 k) * cos (s4 k))
      (Rmod (s3 k + s4 k + s5 k + 2 * PI) (2 * PI)).
Lemma k2q_real k : cos (/ 2 * s2 k) <> 0 -> k2q_col false (fin6 k) = fin6 (Rk2q k).
Proof.
  intros C. pose proof PI_RGT_0. unfold k2q_col, Rk2q, fin6, map6, circ. cbn [s0 s1 s2 s3 s4 s5]. cbv zeta. num.
  rewrite Fin_tan by auto. num. rewrite !Fin_mod by lra. reflexivity.
Qed.
Lemma wrap2 x : in_circle (Rmod (x + 2 * PI) (2 * PI)) /\ cong2pi (Rmod (x + 2 * PI) (2 * PI)) x.
Proof.
  destruct (Rmod_2pi (x + 2 * PI)) as [A B]. split; auto. eapply cong_trans; [exact B|apply cong_2pi].
Qed.
Lemma half_atan x : cos (/ 2 * (2 * atan x)) <> 0 /\ tan (/ 2 * (2 * atan x)) = x.
Proof.
  replace (/ 2 * (2 * atan x)) with (atan x) by field. split; [|apply tan_atan].
  pose proof (atan_bound x). pose proof (cos_gt_0 (atan x)). lra.
Qed.

Lemma round_q q : let k := Rq2k q in let q' := Rk2q k in let e := sqrt (s1 q * s1 q + s2 q * s2 q) in
  cos (/ 2 * s2 k) <> 0 /\ s0 q' = s0 q /\ s3 q' = s3 q /\ s4 q' = s4 q
  /\ in_circle (s5 q') /\ cong2pi (s5 q') (s5 q)
  /\ (e = 0 \/ /1000000000 < e -> s1 q' = s1 q /\ s2 q' = s2 q)
  /\ Rabs (s1 q' - s1 q) <= 2 * /1000000000 /\ Rabs (s2 q' - s2 q) <= 2 * /1000000000.
Proof.
  cbv zeta. unfold Rk2q. cbn [s0 s1 s2 s3 s4 s5].
  destruct (half_atan (sqrt (s3 q * s3 q + s4 q * s4 q))) as [H1 H2].
  assert (K2 : s2 (Rq2k q) = 2 * atan (sqrt (s3 q * s3 q + s4 q * s4 q))) by reflexivity. rewrite K2, H2.
  split; [exact H1|]. split; [reflexivity|].
  destruct (wrap2 (Ratan2 (s3 q) (s4 q))) as [_ KO]. change (Rmod _ _) with (s4 (Rq2k q)) in KO.
  destruct (Ratan2_cs (s3 q) (s4 q)) as [P1 P2]. rewrite (Rplus_comm (s4 q * s4 q)) in P1, P2.
  rewrite (cong_sin _ _ KO), (cong_cos _ _ KO). split; [exact P2|]. split; [exact P1|].
  set (e := sqrt (s1 q * s1 q + s2 q * s2 q)). 
  destruct (Ratan2_cs (s1 q) (s2 q)) as [Q1 Q2]. rewrite (Rplus_comm (s2 q * s2 q)) in Q1, Q2. fold e in Q1, Q2.
  set (ob := Ratan2 (s1 q) (s2 q)) in *. set (OM := Ratan2 (s3 q) (s4 q)) in *.
  assert (Ke : s1 (Rq2k q) = e) by reflexivity. rewrite Ke.
  pose proof (wrap2 (if Rltb (/1000000000) e then ob - OM else 0)) as [_ Ko]. change (Rmod _ _) with (s3 (Rq2k q)) in Ko.
  pose proof (wrap2 (if Rltb (/1000000000) e then s5 q - ob else s5 q - OM)) as [_ Kn].
  change (Rmod _ _) with (s5 (Rq2k q)) in Kn.
  destruct (wrap2 (s3 (Rq2k q) + s4 (Rq2k q) + s5 (Rq2k q))) as [L1 L2]. split; [exact L1|].
  assert (E0 : 0 <= e) by apply sqrt_pos.
  destruct (Rltb_spec (/1000000000) e) as [G|G].
  - assert (Kob : cong2pi (s3 (Rq2k q) + s4 (Rq2k q)) ob).
    { replace ob with (ob - OM + OM) by ring. now apply cong_add. }
    rewrite (cong_sin _ _ Kob), (cong_cos _ _ Kob), Q1, Q2. repeat split; auto.
    + eapply cong_trans; [exact L2|]. eapply cong_trans; [exact (cong_add _ _ _ _ Kob Kn)|]. replace (ob + (s5 q - ob)) with (s5 q) by ring. apply cong_refl.
    + rewrite Rminus_eq_0, Rabs_R0. lra.
    + rewrite Rminus_eq_0, Rabs_R0. lra.
  - assert (Kob : cong2pi (s3 (Rq2k q) + s4 (Rq2k q)) OM).
    { replace OM with (0 + OM) by ring. now apply cong_add. }
    rewrite (cong_sin _ _ Kob), (cong_cos _ _ Kob). split; [|split].
    + eapply cong_trans; [exact L2|]. eapply cong_trans; [exact (cong_add _ _ _ _ Kob Kn)|]. replace (OM + (s5 q - OM)) with (s5 q) by ring. apply cong_refl.
    + intros [Z|Z]; [|lra]. rewrite Z in *. lra.
    + pose proof (SIN_bound OM). pose proof (COS_bound OM). pose proof (SIN_bound ob). pose proof (COS_bound ob).
      rewrite <- Q1, <- Q2. clearbody e OM ob. split; apply Rabs_le; split; nra.
Qed.
Lemma radians_degrees x : radians (Fin (x * (180 / PI))) = Fin x.
Proof. rewrite Fin_radians. f_equal. field. pose proof PI_RGT_0. lra. Qed.
Definition deg6 (k : six R) : six R :=
  mk6 (s0 k) (s1 k) (s2 k * (180 / PI)) (s3 k * (180 / PI)) (s4 k * (180 / PI)) (s5 k * (180 / PI)).
Lemma ang6_deg6 k : ang6 degrees (fin6 k) = fin6 (deg6 k).
Proof. unfold ang6, fin6, map6, deg6. cbn [s0 s1 s2 s3 s4 s5]. now rewrite !Fin_degrees. Qed.
Lemma ang6_rad_deg6 k : ang6 radians (fin6 (deg6 k)) = fin6 k.
Proof. unfold ang6, fin6, map6, deg6. cbn [s0 s1 s2 s3 s4 s5]. now rewrite !radians_degrees. Qed.

(** one full turn in the unit of the [degrees] flag *)
Definition turn (deg : bool) : R := if deg then 360 else 2 * PI.
Definition eccentricity_of_equi (q : six R) : R := sqrt (s1 q * s1 q + s2 q * s2 q).

(** ** C32 *)
Theorem C32_equi_roundtrip : forall g deg (q : six R), exists k q',
  equi_to_kep g (KVec (fin6 q)) deg = Ok (KVec (fin6 k)) /\ kep_to_equi (KVec (fin6 k)) deg = Ok (KVec (fin6 q'))
  /\ s0 q' = s0 q /\ s3 q' = s3 q /\ s4 q' = s4 q
  /\ 0 <= s5 q' < turn deg /\ (exists n : Z, s5 q' = s5 q + turn deg * IZR n)
  /\ (eccentricity_of_equi q = 0 \/ 1 / 10 ^ 9 < eccentricity_of_equi q -> s1 q' = s1 q /\ s2 q' = s2 q)
  /\ Rabs (s1 q' - s1 q) <= 2 * (1 / 10 ^ 9) /\ Rabs (s2 q' - s2 q) <= 2 * (1 / 10 ^ 9).
Proof.
  intros g deg q. pose proof PI_RGT_0 as P. replace (1 / 10 ^ 9) with (/1000000000) by lra.
  unfold equi_to_kep, kep_to_equi, on_cols. destruct deg.
  - pose (qr := mk6 (s0 q) (s1 q) (s2 q) (s3 q) (s4 q) (s5 q * (PI / 180))).
    pose (k := Rq2k qr). pose (q' := Rk2q k).
    exists (deg6 k), (mk6 (s0 q') (s1 q') (s2 q') (s3 q') (s4 q') (s5 q' * (180 / PI))).
    destruct (round_q qr) as [H1 [H2 [H3 [H4 [H5 [H6 H7]]]]]]. 
    split. { rewrite equi_to_kep_cols_map. cbn [map rbind]. rewrite deg_q2k, <- ang6_deg6. unfold k. rewrite <- q2k_real.
             unfold fin6 at 1 2 3 4 5 6. unfold map6. cbn [s0 s1 s2 s3 s4 s5]. rewrite Fin_radians. reflexivity. }
    split. { rewrite kep_to_equi_cols_map. cbn [map rbind]. rewrite deg_k2q, ang6_rad_deg6. 
             unfold k. rewrite k2q_real by exact H1. cbv zeta. unfold fin6, map6. cbn [s0 s1 s2 s3 s4 s5].
             rewrite Fin_degrees. reflexivity. }
    cbn [s0 s1 s2 s3 s4 s5]. unfold turn. repeat (split; [assumption|]).
    fold k q' in H5, H6, H7. assert (0 < 180 / PI) by (apply Rdiv_lt_0_compat; lra).
    split. { destruct H5 as [X Y]. split; [nra|]. replace 360 with (2 * PI * (180 / PI)) by (field; lra). nra. }
    split. { destruct H6 as [n X]. exists n. rewrite X. unfold qr. cbn [s5]. field. lra. }
    exact H7.
  - exists (Rq2k q), (Rk2q (Rq2k q)). destruct (round_q q) as [H1 [H2 [H3 [H4 [H5 [H6 H7]]]]]].
    split. { rewrite equi_to_kep_cols_map. cbn [map rbind]. now rewrite q2k_real. }
    split. { rewrite kep_to_equi_cols_map. cbn [map rbind]. now rewrite k2q_real. }
    repeat (split; [assumption|]). exact H7.
Qed.
(** a retrograde-quadrant case: h < 0, k < 0, p > 0, q < 0; the longitude -350 degrees comes back as 10 *)
Example C32_example : forall g, exists k q',
  equi_to_kep g (KVec (fin6 (mk6 2 (-3/10) (-4/10) (1/2) (-1/3) (-350)))) true = Ok (KVec (fin6 k))
  /\ kep_to_equi (KVec (fin6 k)) true = Ok (KVec (fin6 (mk6 2 (-3/10) (-4/10) (1/2) (-1/3) q'))) /\ q' = 10.
Proof.
  intros g. destruct (C32_equi_roundtrip g true (mk6 2 (-3/10) (-4/10) (1/2) (-1/3) (-350)))
    as [k [q' [A [B [C0 [C3 [C4 [C5 [[n C6] [C7 _]]]]]]]]]].
  destruct q' as [q0 q1 q2 q3 q4 q5]. cbn [s0 s1 s2 s3 s4 s5] in *. unfold turn in *.
  destruct C7 as [D1 D2].
  { right. unfold eccentricity_of_equi. cbn [s1 s2]. replace (_ + _) with (/2 * /2) by lra. rewrite sqrt_square; lra. }
  exists k, 10. split; [exact A|]. split; [|reflexivity]. rewrite B. subst.
  assert (n = 1%Z). { assert (0 < IZR n) by lra. assert (IZR n < 2) by lra. apply lt_IZR in H. apply (lt_IZR n 2) in H0. lia. }
  subst n. do 4 f_equal. lra.
Qed.

(** ** C33 *)
Lemma round_k_gen k : 0 <= s1 k -> 0 <= s2 k < PI ->
  let k' := Rq2k (Rk2q k) in
  cos (/ 2 * s2 k) <> 0 /\ s0 k' = s0 k /\ s1 k' = s1 k /\ s2 k' = s2 k
  /\ in_circle (s3 k') /\ in_circle (s4 k') /\ in_circle (s5 k')
  /\ (/1000000000 < s1 k -> 0 < s2 k -> cong2pi (s3 k') (s3 k) /\ cong2pi (s4 k') (s4 k) /\ cong2pi (s5 k') (s5 k))
  /\ (/1000000000 < s1 k -> s2 k = 0 -> s4 k' = 0 /\ cong2pi (s3 k') (s3 k + s4 k) /\ cong2pi (s5 k') (s5 k))
  /\ (s1 k <= /1000000000 -> 0 < s2 k -> s3 k' = 0 /\ cong2pi (s4 k') (s4 k) /\ cong2pi (s5 k') (s3 k + s5 k))
  /\ (s1 k <= /1000000000 -> s2 k = 0 -> s3 k' = 0 /\ s4 k' = 0 /\ cong2pi (s5 k') (s3 k + s4 k + s5 k)).
Proof.
  intros He Hi. cbv zeta. pose proof PI_RGT_0 as P.
  assert (C : 0 < cos (/ 2 * s2 k)) by (apply cos_gt_0; lra).
  assert (T : 0 < s2 k -> 0 < tan (/ 2 * s2 k)) by (intros; apply tan_gt_0; lra).
  assert (T0 : s2 k = 0 -> tan (/ 2 * s2 k) = 0) by (intros ->; rewrite Rmult_0_r; apply tan_0).
  assert (Tp : 0 <= tan (/ 2 * s2 k)).
  { destruct (Rle_lt_or_eq_dec 0 (s2 k)) as [L|L]; [lra|specialize (T L); lra|rewrite T0; lra]. }
  assert (SQ : forall r t, 0 <= r -> sqrt (r * sin t * (r * sin t) + r * cos t * (r * cos t)) = r).
  { intros. now apply polar_norm. }
  set (k' := Rq2k (Rk2q k)).
  assert (E1 : s1 k' = s1 k) by (unfold k', Rq2k, Rk2q; cbn [s0 s1 s2 s3 s4 s5]; now apply SQ).
  assert (E2 : s2 k' = s2 k).
  { unfold k', Rq2k, Rk2q; cbn [s0 s1 s2 s3 s4 s5]. rewrite SQ by auto. rewrite atan_tan; [lra|lra]. }
  set (ob := Ratan2 (s1 (Rk2q k)) (s2 (Rk2q k))). set (OM := Ratan2 (s3 (Rk2q k)) (s4 (Rk2q k))).
  set (lam := Rmod (s3 k + s4 k + s5 k + 2 * PI) (2 * PI)).
  destruct (wrap2 (s3 k + s4 k + s5 k)) as [_ Kl]. fold lam in Kl.
  assert (E3 : s3 k' = Rmod ((if Rltb (/1000000000) (s1 k) then ob - OM else 0) + 2 * PI) (2 * PI)).
  { rewrite <- E1. reflexivity. }
  assert (E4 : s4 k' = Rmod (OM + 2 * PI) (2 * PI)) by reflexivity.
  assert (E5 : s5 k' = Rmod ((if Rltb (/1000000000) (s1 k) then lam - ob else lam - OM) + 2 * PI) (2 * PI)).
  { rewrite <- E1. reflexivity. }
  pose proof (wrap2 (if Rltb (/1000000000) (s1 k) then ob - OM else 0)) as [I3 K3]. rewrite <- E3 in I3, K3.
  pose proof (wrap2 OM) as [I4 K4]. rewrite <- E4 in I4, K4.
  pose proof (wrap2 (if Rltb (/1000000000) (s1 k) then lam - ob else lam - OM)) as [I5 K5]. rewrite <- E5 in I5, K5.
  assert (OB : 0 < s1 k -> cong2pi ob (s3 k + s4 k)) by (intros; apply Ratan2_polar; auto).
  assert (OMp : 0 < s2 k -> cong2pi OM (s4 k)) by (intros; apply Ratan2_polar; auto).
  assert (OM0 : s2 k = 0 -> OM = 0).
  { intros Z. unfold OM, Rk2q. cbn [s3 s4]. rewrite T0, !Rmult_0_l by auto. apply Ratan2_00. }
  assert (Z0 : in_circle 0) by (unfold in_circle; lra).
  split; [lra|]. split; [reflexivity|]. do 2 (split; [assumption|]). do 3 (split; [assumption|]).
  split; [|split; [|split]].
  - intros G Gi. rewrite Rltb_true in K3, K5 by auto. specialize (OB ltac:(lra)). specialize (OMp Gi). split; [|split].
    + eapply cong_trans; [exact K3|]. replace (s3 k) with (s3 k + s4 k - s4 k) by ring. now apply cong_sub.
    + eapply cong_trans; eauto.
    + eapply cong_trans; [exact K5|].
      replace (s5 k) with (s3 k + s4 k + s5 k - (s3 k + s4 k)) by ring. now apply cong_sub.
  - intros G Gi. rewrite Rltb_true in K3, K5 by auto. specialize (OB ltac:(lra)). specialize (OM0 Gi). rewrite OM0 in *.
    split; [now apply in_circle_unique|]. split.
    + eapply cong_trans; [exact K3|]. now rewrite Rminus_0_r.
    + eapply cong_trans; [exact K5|].
      replace (s5 k) with (s3 k + s4 k + s5 k - (s3 k + s4 k)) by ring. now apply cong_sub.
  - intros G Gi. rewrite Rltb_false in K3, K5 by auto. specialize (OMp Gi).
    split; [now apply in_circle_unique|]. split; [eapply cong_trans; eauto|].
    eapply cong_trans; [exact K5|]. replace (s3 k + s5 k) with (s3 k + s4 k + s5 k - s4 k) by ring. now apply cong_sub.
  - intros G Gi. rewrite Rltb_false in K3, K5 by auto. specialize (OM0 Gi). rewrite OM0 in *.
    split; [now apply in_circle_unique|]. split; [now apply in_circle_unique|].
    eapply cong_trans; [exact K5|]. now rewrite Rminus_0_r.
Qed.
Lemma round_k k : 0 <= s1 k -> 0 <= s2 k < PI -> in_circle (s3 k) -> in_circle (s4 k) -> in_circle (s5 k) ->
  let k' := Rq2k (Rk2q k) in
  cos (/ 2 * s2 k) <> 0 /\ s0 k' = s0 k /\ s1 k' = s1 k /\ s2 k' = s2 k
  /\ in_circle (s3 k') /\ in_circle (s4 k') /\ in_circle (s5 k')
  /\ (/1000000000 < s1 k -> 0 < s2 k -> k' = k)
  /\ (/1000000000 < s1 k -> s2 k = 0 -> s4 k' = 0 /\ cong2pi (s3 k') (s3 k + s4 k) /\ s5 k' = s5 k)
  /\ (s1 k <= /1000000000 -> 0 < s2 k -> s3 k' = 0 /\ s4 k' = s4 k /\ cong2pi (s5 k') (s3 k + s5 k))
  /\ (s1 k <= /1000000000 -> s2 k = 0 -> s3 k' = 0 /\ s4 k' = 0 /\ cong2pi (s5 k') (s3 k + s4 k + s5 k)).
Proof.
  intros He Hi Ho HO Hn. destruct (round_k_gen k He Hi) as [H1 [H2 [H3 [H4 [I3 [I4 [I5 [A [B [C D]]]]]]]]]].
  cbv zeta. do 7 (split; [assumption|]). split; [|split; [|split]]; intros G Gi.
  - destruct (A G Gi) as [A1 [A2 A3]]. apply six_ext; auto; now apply in_circle_unique.
  - destruct (B G Gi) as [A1 [A2 A3]]. repeat split; auto. now apply in_circle_unique.
  - destruct (C G Gi) as [A1 [A2 A3]]. repeat split; auto. now apply in_circle_unique.
  - exact (D G Gi).
Qed.
Definition same_angle (deg : bool) (x y : R) : Prop := exists n : Z, x = y + turn deg * IZR n.
Definition in_turn (deg : bool) (x : R) : Prop := 0 <= x < turn deg.
Theorem C33_kep_roundtrip : forall g deg (k : six R),
  0 <= s1 k -> 0 <= s2 k < turn deg / 2 -> in_turn deg (s3 k) -> in_turn deg (s4 k) -> in_turn deg (s5 k) ->
  exists q k', kep_to_equi (KVec (fin6 k)) deg = Ok (KVec (fin6 q))
  /\ equi_to_kep g (KVec (fin6 q)) deg = Ok (KVec (fin6 k'))
  /\ s0 k' = s0 k /\ s1 k' = s1 k /\ s2 k' = s2 k
  /\ in_turn deg (s3 k') /\ in_turn deg (s4 k') /\ in_turn deg (s5 k')
  /\ (1 / 10 ^ 9 < s1 k -> 0 < s2 k -> k' = k)
  /\ (1 / 10 ^ 9 < s1 k -> s2 k = 0 -> s4 k' = 0 /\ same_angle deg (s3 k') (s3 k + s4 k) /\ s5 k' = s5 k)
  /\ (s1 k <= 1 / 10 ^ 9 -> 0 < s2 k -> s3 k' = 0 /\ s4 k' = s4 k /\ same_angle deg (s5 k') (s3 k + s5 k))
  /\ (s1 k <= 1 / 10 ^ 9 -> s2 k = 0 -> s3 k' = 0 /\ s4 k' = 0 /\ same_angle deg (s5 k') (s3 k + s4 k + s5 k)).
Proof.
  intros g deg k He Hi Ho HO Hn. pose proof PI_RGT_0 as P. replace (1 / 10 ^ 9) with (/1000000000) by lra.
  unfold equi_to_kep, kep_to_equi, on_cols, turn, in_turn, same_angle in *. destruct deg.
  - set (f := PI / 180) in *. assert (Hf : 0 < f) by (unfold f; lra).
    assert (Fg : forall x, x * f * (180 / PI) = x) by (intros; unfold f; field; lra).
    assert (F3 : 360 * f = 2 * PI) by (unfold f; field).
    assert (SF : forall x, 0 <= x < 360 -> 0 <= x * f < 2 * PI).
    { intros x [X1 X2]. rewrite <- F3. split; [nra|]. now apply Rmult_lt_compat_r. }
    pose (kr := mk6 (s0 k) (s1 k) (s2 k * f) (s3 k * f) (s4 k * f) (s5 k * f)).
    assert (Hk : fin6 k = fin6 (deg6 kr)).
    { f_equal. unfold deg6, kr. cbn [s0 s1 s2 s3 s4 s5]. rewrite !Fg. now destruct k. }
    pose (q := Rk2q kr). pose (k' := Rq2k q).
    exists (mk6 (s0 q) (s1 q) (s2 q) (s3 q) (s4 q) (s5 q * (180 / PI))), (deg6 k').
    destruct (round_k kr) as [H1 [H2 [H3 [H4 [I3 [I4 [I5 [A [B [C D]]]]]]]]]]; unfold in_circle, kr; cbn [s1 s2 s3 s4 s5];
      [exact He| |now apply SF..|].
    { destruct (SF (2 * s2 k)); lra. }
    fold q in H2, H3, H4, I3, I4, I5, A, B, C, D. fold k' in H2, H3, H4, I3, I4, I5, A, B, C, D.
    split. { rewrite kep_to_equi_cols_map, Hk. cbn [map rbind]. rewrite deg_k2q, ang6_rad_deg6, k2q_real by exact H1.
             cbv zeta. unfold fin6, map6. cbn [s0 s1 s2 s3 s4 s5]. rewrite Fin_degrees. reflexivity. }
    split. { rewrite equi_to_kep_cols_map. cbn [map rbind]. rewrite deg_q2k, <- ang6_deg6. unfold k'. rewrite <- q2k_real.
             cbv zeta. unfold fin6, map6. cbn [s0 s1 s2 s3 s4 s5]. rewrite radians_degrees. reflexivity. }
    unfold deg6. cbn [s0 s1 s2 s3 s4 s5]. unfold kr in H2, H3, H4, A, B, C, D. cbn [s0 s1 s2 s3 s4 s5] in H2, H3, H4, A, B, C, D.
    assert (G0 : 0 < 180 / PI) by (apply Rdiv_lt_0_compat; lra).
    assert (G1 : 2 * PI * (180 / PI) = 360) by (field; lra).
    assert (IT : forall x, in_circle x -> 0 <= x * (180 / PI) < 360).
    { intros x [X1 X2]. rewrite <- G1. split; [nra|]. now apply Rmult_lt_compat_r. }
    assert (SA : forall x y, cong2pi x (y * f) -> exists n, x * (180 / PI) = y + 360 * IZR n).
    { intros x y [n ->]. exists n. rewrite Rmult_plus_distr_r, Fg, <- G1. ring. }
    split; [exact H2|]. split; [exact H3|]. split; [now rewrite H4, Fg|]. do 3 (split; [now apply IT|]).
    split; [|split; [|split]]; intros X Y.
    + rewrite A; [|auto|nra]. cbn [s0 s1 s2 s3 s4 s5]. rewrite !Fg. now destruct k.
    + destruct B as [B1 [B2 B3]]; [auto|nra|]. rewrite B1, B3, Fg, Rmult_0_l. split; [auto|]. split; [|auto].
      apply SA. now rewrite Rmult_plus_distr_r.
    + destruct C as [B1 [B2 B3]]; [auto|nra|]. rewrite B1, B2, Fg, Rmult_0_l. split; [auto|]. split; [auto|].
      apply SA. now rewrite Rmult_plus_distr_r.
    + destruct D as [B1 [B2 B3]]; [auto|nra|]. rewrite B1, B2, Rmult_0_l. split; [auto|]. split; [auto|].
      apply SA. now rewrite !Rmult_plus_distr_r.
  - exists (Rk2q k), (Rq2k (Rk2q k)). destruct (round_k k) as [H1 R]; auto; [lra|].
    split. { rewrite kep_to_equi_cols_map. cbn [map rbind]. now rewrite k2q_real. }
    split. { rewrite equi_to_kep_cols_map. cbn [map rbind]. now rewrite q2k_real. }
    exact R.
Qed.
(** an inclined ellipse comes back unchanged; an equatorial circular one has its angles collected in nu *)
Example C33_example : forall g,
  (exists q, kep_to_equi (KVec (fin6 (mk6 2 (1/2) 100 200 300 10))) true = Ok (KVec (fin6 q))
    /\ equi_to_kep g (KVec (fin6 q)) true = Ok (KVec (fin6 (mk6 2 (1/2) 100 200 300 10))))
  /\ (exists q, kep_to_equi (KVec (fin6 (mk6 2 0 0 200 300 10))) true = Ok (KVec (fin6 q))
    /\ equi_to_kep g (KVec (fin6 q)) true = Ok (KVec (fin6 (mk6 2 0 0 0 0 150)))).
Proof.
  intros g. split.
  - destruct (C33_kep_roundtrip g true (mk6 2 (1/2) 100 200 300 10)) as [q [k' [A [B [_ [_ [_ [_ [_ [_ [C _]]]]]]]]]]];
      unfold in_turn, turn; cbn [s1 s2 s3 s4 s5]; try lra.
    exists q. split; auto. rewrite C in B; cbn [s1 s2]; try lra. auto.
  - destruct (C33_kep_roundtrip g true (mk6 2 0 0 200 300 10)) as [q [k' [A [B [C0 [C1 [C2 [_ [_ [I [_ [_ [_ C]]]]]]]]]]]]];
      unfold in_turn, same_angle, turn in *; cbn [s0 s1 s2 s3 s4 s5] in *; try lra.
    exists q. split; auto. rewrite B. destruct C as [D1 [D2 [n D3]]]; try lra.
    assert (n = (-1)%Z). { assert (IZR n < 0) by lra. assert (-2 < IZR n) by lra. apply lt_IZR in H. apply (lt_IZR (-2) n) in H0. lia. }
    subst n. do 3 f_equal. apply six_ext; cbn [s0 s1 s2 s3 s4 s5]; lra.
Qed.
