(** * C76: kep_to_cart undoes cart_to_kep for every state, the 1e-9 limits included *)
From Coq Require Import Reals QArith Lra Lia Bool List Nsatz Psatz.
From Verif Require Import NP NPReal KeplerModel ConvModel Lists ConvCols ArraySpec PropsArray Spec RealBase KepReal CartReal PropsKep
  CartInv PropsCart.
Import ListNotations.
Local Open Scope R_scope.

(** ** Norms *)
Lemma sq_le a b : 0 <= b -> a * a <= b * b -> a <= b.
Proof. intros. apply Rsqr_incr_0_var; auto. Qed.
Lemma abs_between a b : Rabs a <= b -> - b <= a <= b.
Proof. intros H. pose proof (Rle_abs a). pose proof (Rle_abs (- a)). rewrite Rabs_Ropp in *. lra. Qed.
Lemma abs_sq a b : Rabs a <= b -> a * a <= b * b.
Proof. intros H. apply abs_between in H. nra. Qed.
Lemma dot_le_norms a b : dot a b <= norm a * norm b.
Proof.
  apply sq_le; [apply Rmult_le_pos; apply norm_pos|]. apply cauchy.
Qed.
Lemma norm_le a x : 0 <= x -> dot a a <= x * x -> norm a <= x.
Proof. intros Hx H. apply sq_le; auto. now rewrite norm_sq. Qed.
Lemma norm_tri a b : norm (plus3 a b) <= norm a + norm b.
Proof.
  pose proof (norm_pos a). pose proof (norm_pos b). apply norm_le; [lra|].
  rewrite dot_plus_l, !dot_plus_r, (dot_comm b a), <- !norm_sq. pose proof (dot_le_norms a b). nra.
Qed.
Lemma norm_scal_abs k a : norm (scal3 k a) = Rabs k * norm a.
Proof.
  pose proof (norm_pos a). pose proof (Rabs_pos k). apply norm_eq; [nra|].
  rewrite dot_scal_l, dot_scal_r, <- norm_sq. assert (Rabs k * Rabs k = k * k) by (rewrite <- Rabs_mult; apply Rabs_pos_eq; nra). nra.
Qed.
Lemma norm_cross a b : norm (cross a b) <= norm a * norm b.
Proof.
  pose proof (norm_pos a). pose proof (norm_pos b). apply norm_le; [nra|].
  assert (E : dot (cross a b) (cross a b) = dot a a * dot b b - dot a b * dot a b) by (vunf; ring).
  rewrite E, <- !norm_sq. nra.
Qed.
Lemma norm_unit a : dot a a = 1 -> norm a = 1.
Proof. intros. apply norm_eq; lra. Qed.
Lemma norm_minus a b : norm (minus3 a b) <= norm a + norm b.
Proof.
  replace (minus3 a b) with (plus3 a (scal3 (-1) b)) by vring. eapply Rle_trans; [apply norm_tri|].
  rewrite norm_scal_abs, Rabs_left by lra. lra.
Qed.

(** ** An angle read off a unit vector near the plane z = 0 *)
Lemma near_extract i (w : vec) n v : 0 < n -> v = scal3 n w -> dot w w = 1 -> 0 <= i <= PI -> i <> PI / 2 ->
  let t := flipR (Rltb (PI / 2) i && Rleb 0 (vy v)) (flipR (Rltb i (PI / 2) && Rltb (vy v) 0) (acos (clampR (vx v / n)))) in
  cos t = vx w /\ (0 <= vy w -> 0 <= sin t * cos i) /\ (vy w < 0 -> sin t * cos i <= 0).
Proof.
  intros Hn -> Hw Hi Hne. assert (Hx : -1 <= vx w <= 1) by (vunf; nra).
  replace (vx (scal3 n w) / n) with (vx w) by (vunf; field; lra).
  replace (vy (scal3 n w)) with (n * vy w) by (vunf; ring).
  rewrite clampR_id, Rltb_scale, Rleb_scale by auto. cbv zeta.
  assert (C : cos (acos (vx w)) = vx w) by now apply cos_acos.
  assert (S : 0 <= sin (acos (vx w))) by (apply sin_ge_0; apply acos_bound).
  assert (F : forall b, cos (flipR b (acos (vx w))) = vx w /\ sin (flipR b (acos (vx w))) = (if b then - 1 else 1) * sin (acos (vx w))).
  { intros []; unfold flipR; rewrite ?cos_minus, ?sin_minus, ?cos_2PI, ?sin_2PI; lra. }
  destruct (Rltb_spec (PI / 2) i) as [L|L], (Rltb_spec i (PI / 2)) as [L'|L']; try lra; cbn [andb].
  - assert (Ci : cos i <= 0) by (apply cos_le_0; lra). unfold flipR at 2 4 6.
    destruct (F (Rleb 0 (vy w))) as [F1 F2]. rewrite F1, F2. split; auto.
    destruct (Rleb_spec 0 (vy w)); split; intros; try lra; nra.
  - assert (Ci : 0 <= cos i) by (apply cos_ge_0; lra). unfold flipR at 1 3 5.
    destruct (F (Rltb (vy w) 0)) as [F1 F2]. rewrite F1, F2. split; auto.
    destruct (Rltb_spec (vy w) 0); split; intros; try lra; nra.
Qed.
Lemma near_vec i (w : vec) t : dot w w = 1 -> 0 <= sin i -> Rabs (vz w) <= sin i ->
  cos t = vx w -> (0 <= vy w -> 0 <= sin t * cos i) -> (vy w < 0 -> sin t * cos i <= 0) ->
  norm (minus3 (cos t, sin t * cos i, sin t * sin i) w) <= 5 / 2 * sin i.
Proof.
  intros Hw HS Hz Hc Hp Hm. set (S := sin i) in *. set (C := cos i) in *. set (T := sin t) in *.
  assert (SC : S * S + C * C = 1) by apply sc1. assert (ST : T * T + cos t * cos t = 1) by apply sc1.
  rewrite Hc in ST. unfold dot in Hw. set (y := vy w) in *. set (z := vz w) in *.
  assert (T2 : T * T = y * y + z * z) by lra. clear ST.
  assert (S1 : S <= 1) by nra. assert (Ca : 1 - S <= Rabs C).
  { assert (Rabs C * Rabs C = C * C) by (rewrite <- Rabs_mult; apply Rabs_pos_eq; nra). pose proof (Rabs_pos C). nra. }
  assert (C1 : Rabs C <= 1) by (apply Rabs_le; nra).
  assert (Ta : Rabs T * Rabs T = T * T) by (rewrite <- Rabs_mult; apply Rabs_pos_eq; nra).
  assert (Ya : Rabs y * Rabs y = y * y) by (rewrite <- Rabs_mult; apply Rabs_pos_eq; nra).
  assert (Za : Rabs z * Rabs z = z * z) by (rewrite <- Rabs_mult; apply Rabs_pos_eq; nra).
  pose proof (Rabs_pos T) as PT. pose proof (Rabs_pos y) as PY. pose proof (Rabs_pos z) as PZ. pose proof (Rabs_pos C) as PC.
  assert (Z2 : z * z <= S * S) by nra.
  assert (B1 : Rabs T <= Rabs y + S) by (apply sq_le; nra).
  assert (B2 : Rabs y <= Rabs T) by (apply sq_le; nra). assert (B3 : Rabs T <= 1) by (apply sq_le; nra).
  assert (M : Rabs (T * C) = Rabs T * Rabs C) by apply Rabs_mult.
  assert (Dy : Rabs (T * C - y) <= S).
  { assert (K : Rabs (T * C - y) = Rabs (Rabs (T * C) - Rabs y)).
    { destruct (Rle_lt_dec 0 y) as [L|L].
      - now rewrite (Rabs_pos_eq (T * C)), (Rabs_pos_eq y) by auto.
      - rewrite (Rabs_left1 (T * C)), (Rabs_left y) by auto. rewrite <- Rabs_Ropp. f_equal. ring. }
    rewrite K, M. apply Rabs_le. split; nra. }
  assert (Dz : Rabs (T * S - z) <= 2 * S).
  { eapply Rle_trans; [apply Rabs_triang|]. rewrite Rabs_Ropp, Rabs_mult, (Rabs_pos_eq S) by auto. nra. }
  assert (Dy2 : (T * C - y) * (T * C - y) <= S * S).
  { now apply abs_sq. }
  assert (Dz2 : (T * S - z) * (T * S - z) <= 4 * (S * S)).
  { apply abs_sq in Dz. lra. }
  apply norm_le; [lra|]. replace (dot _ _) with ((T * C - y) * (T * C - y) + (T * S - z) * (T * S - z)).
  - nra.
  - unfold y, z. rewrite Hc. vunf. ring.
Qed.

(** ** Frames *)
Definition dir (k : six R) : vec := plus3 (scal3 (cos (k_nu k)) (P_axis k)) (scal3 (sin (k_nu k)) (Q_axis k)).
Lemma dir_unit k : dot (dir k) (dir k) = 1.
Proof.
  unfold dir. rewrite !dot_plus_l, !dot_plus_r, !dot_scal_l, !dot_scal_r, PP, QQ, (dot_comm (Q_axis k)), PQ. pose proof (sc1 (k_nu k)). lra.
Qed.
Lemma dir_eq k : dir k = (cos (k_Om k) * cos (k_om k + k_nu k) - sin (k_Om k) * sin (k_om k + k_nu k) * cos (k_i k),
    sin (k_Om k) * cos (k_om k + k_nu k) + cos (k_Om k) * sin (k_om k + k_nu k) * cos (k_i k),
    sin (k_om k + k_nu k) * sin (k_i k)).
Proof. unfold dir. rewrite Q_axis_eq, cos_plus, sin_plus. unfold P_axis. vring. Qed.
Lemma pos_dir mu k : pos (peri_state mu k) = scal3 (peri_r mu k) (dir k).
Proof. apply peri_pos. Qed.
Lemma vel_dir mu k : vel (peri_state mu k) = scal3 (peri_s mu k) (plus3 (cross (W_axis k) (dir k)) (scal3 (k_e k) (Q_axis k))).
Proof.
  rewrite peri_vel. f_equal. unfold dir. rewrite cross_plus_r, !cross_scal_r, WxP, (cross_anti (W_axis k) (Q_axis k)), QxW. vring.
Qed.
(** the ascending node replaced by the x axis *)
Lemma near_W i Om : 0 <= sin i -> norm (minus3 (0, - sin i, cos i) (sin i * sin Om, - (sin i * cos Om), cos i)) <= 2 * sin i.
Proof.
  intros HS. apply norm_le; [lra|]. pose proof (sc1 Om). pose proof (COS_bound Om).
  replace (dot _ _) with (sin i * sin i * (2 - 2 * cos Om)); [nra|].
  replace (2 - 2 * cos Om) with (1 - 2 * cos Om + (sin Om * sin Om + cos Om * cos Om)) by lra. clear. vunf. ring.
Qed.
Lemma near_cross (W W' w w' : vec) d : dot W W = 1 -> dot w' w' = 1 -> norm (minus3 W' W) <= 2 * d -> norm (minus3 w' w) <= 5 / 2 * d ->
  norm (minus3 (cross W' w') (cross W w)) <= 9 / 2 * d.
Proof.
  intros HW Hw H1 H2. replace (minus3 (cross W' w') (cross W w)) with (plus3 (cross (minus3 W' W) w') (cross W (minus3 w' w))) by vring.
  eapply Rle_trans; [apply norm_tri|]. pose proof (norm_cross (minus3 W' W) w'). pose proof (norm_cross W (minus3 w' w)).
  rewrite (norm_unit w' Hw) in *. rewrite (norm_unit W HW) in *. lra.
Qed.

(** ** e > e_lim, orbit normal near the poles *)
Lemma ecc_close mu k k' d : valid_kep mu k -> k_a k' = k_a k -> k_e k' = k_e k -> cos (k_nu k') = cos (k_nu k) -> sin (k_nu k') = sin (k_nu k) ->
  0 <= d -> norm (minus3 (P_axis k') (P_axis k)) <= 5 / 2 * d -> norm (minus3 (Q_axis k') (Q_axis k)) <= 9 / 2 * d ->
  norm (minus3 (pos (peri_state mu k')) (pos (peri_state mu k))) <= 7 * d * norm (pos (peri_state mu k))
  /\ norm (minus3 (vel (peri_state mu k')) (vel (peri_state mu k))) <= 7 * d * norm (vel (peri_state mu k)).
Proof.
  intros Hv Ea Ee Ec Es Hd HP HQ.
  assert (Er : peri_r mu k' = peri_r mu k) by (unfold peri_r; now rewrite Ea, Ee, Ec).
  assert (Ess : peri_s mu k' = peri_s mu k) by (unfold peri_s; now rewrite Ea, Ee).
  pose proof (rn_p mu k Hv) as Hr. rewrite <- (peri_rr mu k Hv) in *. pose proof (peri_s_pos mu k Hv) as Hs.
  pose proof (sc1 (k_nu k)) as SC. split.
  - rewrite !peri_pos, Er, Ec, Es.
    replace (minus3 _ _) with (scal3 (peri_r mu k) (plus3 (scal3 (cos (k_nu k)) (minus3 (P_axis k') (P_axis k)))
      (scal3 (sin (k_nu k)) (minus3 (Q_axis k') (Q_axis k))))) by vring.
    rewrite norm_scal_abs, Rabs_pos_eq by lra. rewrite (Rmult_comm (7 * d)). apply Rmult_le_compat_l; [lra|].
    eapply Rle_trans; [apply norm_tri|]. rewrite !norm_scal_abs.
    assert (Rabs (cos (k_nu k)) <= 1) by (apply Rabs_le; apply COS_bound). assert (Rabs (sin (k_nu k)) <= 1) by (apply Rabs_le; apply SIN_bound).
    pose proof (Rabs_pos (cos (k_nu k))). pose proof (Rabs_pos (sin (k_nu k))).
    pose proof (norm_pos (minus3 (P_axis k') (P_axis k))). pose proof (norm_pos (minus3 (Q_axis k') (Q_axis k))). nra.
  - set (sn := sin (k_nu k)) in *. set (q := k_e k + cos (k_nu k)).
    assert (Nv : norm (vel (peri_state mu k)) = peri_s mu k * sqrt (sn * sn + q * q)).
    { apply norm_eq; [pose proof (sqrt_pos (sn * sn + q * q)); nra|].
      rewrite peri_vel, dot_scal_l, dot_scal_r, !dot_plus_l, !dot_plus_r, !dot_scal_l, !dot_scal_r, PP, QQ, (dot_comm (Q_axis k)), PQ.
      replace (peri_s mu k * sqrt (sn * sn + q * q) * (peri_s mu k * sqrt (sn * sn + q * q)))
        with (peri_s mu k * peri_s mu k * (sqrt (sn * sn + q * q) * sqrt (sn * sn + q * q))) by ring.
      rewrite sqrt_sqrt by nra. fold sn q. ring. }
    rewrite Nv. rewrite !peri_vel, Ess, Ee, Ec, Es. fold sn q.
    replace (minus3 _ _) with (scal3 (peri_s mu k) (plus3 (scal3 (- sn) (minus3 (P_axis k') (P_axis k)))
      (scal3 q (minus3 (Q_axis k') (Q_axis k))))) by vring.
    rewrite norm_scal_abs, Rabs_pos_eq by lra.
    replace (7 * d * (peri_s mu k * sqrt (sn * sn + q * q))) with (peri_s mu k * (7 * d * sqrt (sn * sn + q * q))) by ring.
    apply Rmult_le_compat_l; [lra|].
    eapply Rle_trans; [apply norm_tri|]. rewrite !norm_scal_abs, Rabs_Ropp.
    set (N := sqrt (sn * sn + q * q)). assert (N2 : N * N = sn * sn + q * q) by (apply sqrt_sqrt; nra).
    assert (N0 : 0 <= N) by apply sqrt_pos.
    assert (A1 : Rabs sn * Rabs sn = sn * sn) by (rewrite <- Rabs_mult; apply Rabs_pos_eq; nra).
    assert (A2 : Rabs q * Rabs q = q * q) by (rewrite <- Rabs_mult; apply Rabs_pos_eq; nra).
    pose proof (Rabs_pos sn). pose proof (Rabs_pos q).
    assert (Rabs sn <= N) by (apply sq_le; nra). assert (Rabs q <= N) by (apply sq_le; nra).
    pose proof (norm_pos (minus3 (P_axis k') (P_axis k))). pose proof (norm_pos (minus3 (Q_axis k') (Q_axis k))).
    apply Rle_trans with (N * (5 / 2 * d) + N * (9 / 2 * d)); [|right; field].
    apply Rplus_le_compat; apply Rmult_le_compat; auto.
Qed.
(** ** e <= e_lim *)
Lemma circ_close mu k k' d1 d2 : valid_kep mu k -> valid_kep mu k' -> k_a k' = k_a k -> k_e k' = k_e k -> k_e k <= / 1000000000 ->
  norm (minus3 (dir k') (dir k)) <= d1 -> norm (minus3 (cross (W_axis k') (dir k')) (cross (W_axis k) (dir k))) <= d2 ->
  norm (minus3 (pos (peri_state mu k')) (pos (peri_state mu k))) <= (11 / 10 * d1 + 3 * k_e k) * norm (pos (peri_state mu k))
  /\ norm (minus3 (vel (peri_state mu k')) (vel (peri_state mu k))) <= 11 / 10 * (d2 + 2 * k_e k) * norm (vel (peri_state mu k)).
Proof.
  intros Hv Hv' Ea Ee He H1 H2. set (e := k_e k) in *.
  assert (e0 : 0 <= e) by (destruct Hv as [_ [_ [? _]]]; auto).
  pose proof (peri_p_pos mu k Hv) as Hp. set (p := semi_latus (k_a k) e) in *.
  assert (Ess : peri_s mu k' = peri_s mu k) by (unfold peri_s; now rewrite Ea, Ee).
  pose proof (rn_p mu k Hv) as Hr. rewrite <- (peri_rr mu k Hv) in *. pose proof (peri_s_pos mu k Hv) as Hs.
  pose proof (COS_bound (k_nu k)) as B. pose proof (COS_bound (k_nu k')) as B'.
  assert (D : 0 <= d1) by (eapply Rle_trans; [apply norm_pos|exact H1]). assert (D2 : 0 <= d2) by (eapply Rle_trans; [apply norm_pos|exact H2]).
  assert (F : Rabs (peri_r mu k' - peri_r mu k) <= 3 * e * peri_r mu k).
  { unfold peri_r. rewrite Ea, Ee. fold e p. set (c := cos (k_nu k)) in *. set (c' := cos (k_nu k')) in *.
    assert (0 < 1 + e * c) by nra. assert (X : 1 / 2 <= 1 + e * c') by nra. 
    replace (p / (1 + e * c') - p / (1 + e * c)) with (p / (1 + e * c) * (e * (c - c') / (1 + e * c'))) by (field; lra).
    assert (Hq : 0 < p / (1 + e * c)) by (apply Rdiv_lt_0_compat; auto).
    rewrite Rabs_mult, (Rabs_pos_eq (p / (1 + e * c))) by lra. rewrite (Rmult_comm (3 * e)). apply Rmult_le_compat_l; [lra|].
    unfold Rdiv. rewrite Rabs_mult, Rabs_inv, (Rabs_pos_eq (1 + e * c')) by lra.
    assert (Rabs (e * (c - c')) <= 2 * e) by (apply Rabs_le; nra).
    apply (Rmult_le_reg_r (1 + e * c')); [lra|]. rewrite Rmult_assoc, Rinv_l by lra. nra. }
  split.
  - rewrite !pos_dir. set (r := peri_r mu k) in *. set (r' := peri_r mu k') in *.
    replace (minus3 _ _) with (plus3 (scal3 r' (minus3 (dir k') (dir k))) (scal3 (r' - r) (dir k))) by vring.
    eapply Rle_trans; [apply norm_tri|]. rewrite !norm_scal_abs, (norm_unit _ (dir_unit k)).
    apply abs_between in F. assert (Rabs (r' - r) <= 3 * e * r) by (apply Rabs_le; lra).
    assert (Rabs r' <= 11 / 10 * r) by (apply Rabs_le; nra).
    pose proof (norm_pos (minus3 (dir k') (dir k))). pose proof (Rabs_pos r'). nra.
  - assert (Nv : peri_s mu k * (1 - e) <= norm (vel (peri_state mu k))).
    { pose proof (norm_sq (vel (peri_state mu k))) as N. pose proof (norm_pos (vel (peri_state mu k))).
      rewrite (peri_vv mu k Hv), <- (peri_s_sq mu k Hv) in N. fold e in N.
      assert (peri_s mu k * (1 - e) * (peri_s mu k * (1 - e)) <= norm (vel (peri_state mu k)) * norm (vel (peri_state mu k))).
      { rewrite N. assert ((1 - e) * (1 - e) <= 1 + 2 * e * cos (k_nu k) + e * e) by nra.
        assert (0 < peri_s mu k * peri_s mu k) by nra. nra. }
      apply sq_le; auto. }
    set (V := norm (vel (peri_state mu k))) in *. rewrite !vel_dir, Ess, Ee. fold e.
    replace (minus3 _ _) with (scal3 (peri_s mu k) (plus3 (minus3 (cross (W_axis k') (dir k')) (cross (W_axis k) (dir k)))
      (scal3 e (minus3 (Q_axis k') (Q_axis k))))) by vring.
    rewrite norm_scal_abs, (Rabs_pos_eq (peri_s mu k)) by lra.
    pose proof (norm_tri (minus3 (cross (W_axis k') (dir k')) (cross (W_axis k) (dir k))) (scal3 e (minus3 (Q_axis k') (Q_axis k)))) as T.
    rewrite norm_scal_abs, (Rabs_pos_eq e) in T by lra. pose proof (norm_minus (Q_axis k') (Q_axis k)) as Tq.
    rewrite !(norm_unit _ (QQ _)) in Tq.
    apply Rle_trans with (peri_s mu k * (d2 + 2 * e)).
    + apply Rmult_le_compat_l; [lra|]. nra.
    + assert (peri_s mu k <= 11 / 10 * V) by nra. assert (0 <= d2 + 2 * e) by lra. nra.
Qed.

(** ** The elements read off a perifocal state, and the state they give back *)
Definition back (mu : R) (k : six R) : six R :=
  mk6 (k_a k) (k_e k) (k_i k) (R_om mu (peri_state mu k)) (R_Om (peri_state mu k)) (R_nu mu (peri_state mu k)).
Lemma tiny_sin i : 0 <= i <= PI -> Rltb ilimR i && Rltb i (PI - ilimR) = false -> 0 <= sin i <= 4 / 1000000000 /\ i <> PI / 2.
Proof.
  intros Hi H. pose proof PI_RGT_0 as P0. pose proof PI_4 as P4. pose proof PI2_1 as P2.
  assert (S : forall t, 0 <= t <= ilimR -> 0 <= sin t <= 4 / 1000000000).
  { intros t [T1 T2]. unfold ilimR in T2. split; [apply sin_ge_0; lra|].
    destruct (Req_dec t 0) as [->|]; [rewrite sin_0; lra|]. pose proof (sin_lt_x t). lra. }
  unfold ilimR in *. destruct (Rltb_spec (PI * / 1000000000) i) as [L|L]; cbn [andb] in H.
  - destruct (Rltb_spec i (PI - PI * / 1000000000)) as [L'|L']; [easy|]. split; [|lra].
    rewrite <- sin_PI_x. apply S. lra.
  - split; [apply S; lra|lra].
Qed.
Lemma near_back mu k : valid_kep mu k -> 0 <= k_i k <= PI ->
  valid_kep mu (back mu k)
  /\ norm (minus3 (pos (peri_state mu (back mu k))) (pos (peri_state mu k))) <= 3 / 100000000 * norm (pos (peri_state mu k))
  /\ norm (minus3 (vel (peri_state mu (back mu k))) (vel (peri_state mu k))) <= 3 / 100000000 * norm (vel (peri_state mu k)).
Proof.
  intros Hv Hi. pose proof Hv as [Hmu [Ha [He Hn]]]. set (x := peri_state mu k) in *.
  pose proof (peri_R_i mu k Hv Hi) as Ri. fold x in Ri.
  pose proof (rn_p mu k Hv) as Hr. fold x in Hr. pose proof (norm_pos (vel x)) as Hvl.
  assert (Eig : R_ig x = Rltb ilimR (k_i k) && Rltb (k_i k) (PI - ilimR)) by (unfold R_ig; now rewrite Ri).
  destruct (Rlt_le_dec elimR (k_e k)) as [Eg|El].
  - (* eccentric: the true anomaly is exact *)
    pose proof (peri_nu mu k Hv Eg) as Hnu. fold x in Hnu. destruct (extract_pro (k_nu k)) as [_ Cnu]. rewrite <- Hnu in Cnu.
    assert (V : valid_kep mu (back mu k)).
    { unfold valid_kep, back, k_a, k_e, k_nu. cbn [s0 s1 s2 s3 s4 s5]. fold (k_a k) (k_e k) x. rewrite (cong_cos _ _ Cnu). auto. }
    split; auto.
    assert (K : exists d, 0 <= d <= 4 / 1000000000 /\ norm (minus3 (P_axis (back mu k)) (P_axis k)) <= 5 / 2 * d
      /\ norm (minus3 (Q_axis (back mu k)) (Q_axis k)) <= 9 / 2 * d).
    { destruct (Rltb ilimR (k_i k) && Rltb (k_i k) (PI - ilimR)) eqn:G.
      - (* inclined: everything is exact *)
        exists 0. split; [lra|]. apply andb_true_iff in G. destruct G as [G1 G2].
        destruct (Rltb_spec ilimR (k_i k)) as [L1|]; [|easy]. destruct (Rltb_spec (k_i k) (PI - ilimR)) as [L2|]; [|easy].
        pose proof (peri_Om mu k Hv (conj L1 L2)) as EO. pose proof (peri_om mu k Hv (conj L1 L2) Eg) as Eo.
        destruct (extract_pro (k_Om k)) as [_ CO]. destruct (extract_pro (k_om k)) as [_ Co]. rewrite <- EO in CO. rewrite <- Eo in Co.
        assert (EP : P_axis (back mu k) = P_axis k).
        { unfold P_axis, back, k_i, k_om, k_Om. cbn [s0 s1 s2 s3 s4 s5]. fold (k_i k) (k_om k) (k_Om k).
          now rewrite (cong_cos _ _ CO), (cong_sin _ _ CO), (cong_cos _ _ Co), (cong_sin _ _ Co). }
        assert (EW : W_axis (back mu k) = W_axis k).
        { unfold W_axis, back, k_i, k_Om. cbn [s0 s1 s2 s3 s4 s5]. fold (k_i k) (k_Om k).
          now rewrite (cong_cos _ _ CO), (cong_sin _ _ CO). }
        unfold Q_axis. rewrite EP, EW. split; apply norm_le; try lra; right; vunf; ring.
      - (* near-planar *)
        destruct (tiny_sin _ Hi G) as [HS Hne]. exists (sin (k_i k)). split; auto.
        assert (EO : R_Om x = 0) by (unfold R_Om; now rewrite Eig).
        assert (Eo : R_om mu x = flipR (Rltb (PI / 2) (k_i k) && Rleb 0 (vy (ecc_vec mu x)))
           (flipR (Rltb (k_i k) (PI / 2) && Rltb (vy (ecc_vec mu x)) 0) (acos (clampR (vx (ecc_vec mu x) / k_e k))))).
        { unfold R_om, R_eg. unfold x at 1. rewrite (peri_en mu k Hv), Rltb_true, Eig, Ri by auto. unfold x. now rewrite (peri_en mu k Hv). }
        assert (Ee : ecc_vec mu x = scal3 (k_e k) (P_axis k)) by (apply peri_ecc; auto).
        assert (e0 : 0 < k_e k) by (unfold elimR in Eg; lra).
        destruct (near_extract (k_i k) (P_axis k) (k_e k) _ e0 Ee (PP k) Hi Hne) as [N1 [N2 N3]]. rewrite <- Eo in N1, N2, N3.
        assert (Hz : Rabs (vz (P_axis k)) <= sin (k_i k)).
        { unfold P_axis. vunf. pose proof (SIN_bound (k_om k)). apply Rabs_le. nra. }
        pose proof (near_vec (k_i k) (P_axis k) _ (PP k) (proj1 HS) Hz N1 N2 N3) as D.
        assert (EP : P_axis (back mu k) = (cos (R_om mu x), sin (R_om mu x) * cos (k_i k), sin (R_om mu x) * sin (k_i k))).
        { unfold P_axis, back, k_i, k_om, k_Om. cbn [s0 s1 s2 s3 s4 s5]. fold (k_i k) x. rewrite EO, cos_0, sin_0. apply vec_eq; vunf; ring. }
        assert (EW : W_axis (back mu k) = (0, - sin (k_i k), cos (k_i k))).
        { unfold W_axis, back, k_i, k_Om. cbn [s0 s1 s2 s3 s4 s5]. fold (k_i k) x. rewrite EO, cos_0, sin_0. apply vec_eq; vunf; ring. }
        rewrite <- EP in D. split; [exact D|]. unfold Q_axis. apply near_cross; auto.
        + apply WW.
        + apply PP.
        + rewrite EW. apply near_W, HS. }
    destruct K as [d [Hd [K1 K2]]].
    destruct (ecc_close mu k (back mu k) d Hv) as [R1 R2]; auto; try lra;
      try (unfold back, k_a, k_e, k_nu; cbn [s0 s1 s2 s3 s4 s5]; fold (k_nu k) x; rewrite ?(cong_cos _ _ Cnu), ?(cong_sin _ _ Cnu); reflexivity).
    fold x in R1, R2. split; eapply Rle_trans; eauto; apply Rmult_le_compat_r; lra.
  - (* near-circular *)
    assert (He' : k_e k <= / 1000000000) by exact El.
    assert (V : valid_kep mu (back mu k)).
    { unfold valid_kep, back, k_a, k_e, k_nu. cbn [s0 s1 s2 s3 s4 s5]. fold (k_a k) (k_e k) x. pose proof (COS_bound (R_nu mu x)).
      repeat split; auto. nra. }
    split; auto.
    assert (K : exists d, 0 <= d <= 4 / 1000000000 /\ norm (minus3 (dir (back mu k)) (dir k)) <= 5 / 2 * d
      /\ norm (minus3 (cross (W_axis (back mu k)) (dir (back mu k))) (cross (W_axis k) (dir k))) <= 9 / 2 * d).
    { destruct (Rltb ilimR (k_i k) && Rltb (k_i k) (PI - ilimR)) eqn:G.
      - exists 0. split; [lra|]. apply andb_true_iff in G. destruct G as [G1 G2].
        destruct (Rltb_spec ilimR (k_i k)) as [L1|]; [|easy]. destruct (Rltb_spec (k_i k) (PI - ilimR)) as [L2|]; [|easy].
        pose proof (peri_Om mu k Hv (conj L1 L2)) as EO. destruct (peri_lat mu k Hv (conj L1 L2) El) as [Eo En].
        destruct (extract_pro (k_Om k)) as [_ CO]. destruct (extract_pro (k_om k + k_nu k)) as [_ Cn]. rewrite <- EO in CO. rewrite <- En in Cn.
        assert (EP : dir (back mu k) = dir k).
        { rewrite !dir_eq. unfold back, k_i, k_om, k_Om, k_nu. cbn [s0 s1 s2 s3 s4 s5]. fold (k_i k) (k_om k) (k_Om k) (k_nu k).
          rewrite Eo, Rplus_0_l.
          now rewrite (cong_cos _ _ CO), (cong_sin _ _ CO), (cong_cos _ _ Cn), (cong_sin _ _ Cn). }
        assert (EW : W_axis (back mu k) = W_axis k).
        { unfold W_axis, back, k_i, k_Om. cbn [s0 s1 s2 s3 s4 s5]. fold (k_i k) (k_Om k).
          now rewrite (cong_cos _ _ CO), (cong_sin _ _ CO). }
        rewrite EP, EW. split; apply norm_le; try lra; right; vunf; ring.
      - destruct (tiny_sin _ Hi G) as [HS Hne]. exists (sin (k_i k)). split; auto.
        assert (EO : R_Om x = 0) by (unfold R_Om; now rewrite Eig).
        assert (Eo : R_om mu x = 0).
        { unfold R_om, R_eg. unfold x at 1. now rewrite (peri_en mu k Hv), Rltb_false by auto. }
        assert (En : R_nu mu x = flipR (Rltb (PI / 2) (k_i k) && Rleb 0 (vy (pos x)))
           (flipR (Rltb (k_i k) (PI / 2) && Rltb (vy (pos x)) 0) (acos (clampR (vx (pos x) / norm (pos x)))))).
        { unfold R_nu, R_eg. unfold x at 1. now rewrite (peri_en mu k Hv), Rltb_false, Eig, Ri by auto. }
        assert (Ee : pos x = scal3 (norm (pos x)) (dir k)).
        { unfold x at 2. rewrite <- (peri_rr mu k Hv). apply pos_dir. }
        destruct (near_extract (k_i k) (dir k) (norm (pos x)) _ Hr Ee (dir_unit k) Hi Hne) as [N1 [N2 N3]]. rewrite <- En in N1, N2, N3.
        assert (Hz : Rabs (vz (dir k)) <= sin (k_i k)).
        { rewrite dir_eq. unfold vz. cbn [fst snd]. pose proof (SIN_bound (k_om k + k_nu k)). apply Rabs_le. nra. }
        pose proof (near_vec (k_i k) (dir k) _ (dir_unit k) (proj1 HS) Hz N1 N2 N3) as D.
        assert (EP : dir (back mu k) = (cos (R_nu mu x), sin (R_nu mu x) * cos (k_i k), sin (R_nu mu x) * sin (k_i k))).
        { rewrite dir_eq. unfold back, k_i, k_om, k_Om, k_nu. cbn [s0 s1 s2 s3 s4 s5]. fold (k_i k) x.
          rewrite EO, Eo, cos_0, sin_0, Rplus_0_l. apply vec_eq; vunf; ring. }
        assert (EW : W_axis (back mu k) = (0, - sin (k_i k), cos (k_i k))).
        { unfold W_axis, back, k_i, k_Om. cbn [s0 s1 s2 s3 s4 s5]. fold (k_i k) x. rewrite EO, cos_0, sin_0. apply vec_eq; vunf; ring. }
        rewrite <- EP in D. split; [exact D|]. apply near_cross; auto.
        + apply WW.
        + apply dir_unit.
        + rewrite EW. apply near_W, HS. }
    destruct K as [d [Hd [K1 K2]]].
    destruct (circ_close mu k (back mu k) _ _ Hv V eq_refl eq_refl He' K1 K2) as [R1 R2].
    fold x in R1, R2. split; eapply Rle_trans; eauto; apply Rmult_le_compat_r; lra.
Qed.

(** ** C76 *)
Theorem C76_roundtrip_all : forall mu x, 0 < mu -> ang_mom x <> (0,0,0) -> energy mu x <> 0 ->
  exists k x', elements_of mu x (fin6 k) /\ state_of mu k x'
    /\ norm (minus3 (pos x') (pos x)) <= 3 / 100000000 * norm (pos x)
    /\ norm (minus3 (vel x') (vel x)) <= 3 / 100000000 * norm (vel x).
Proof.
  intros mu x Hmu Hh Hen. destruct (state_surj mu x Hmu Hh Hen) as [k [Hv [He1 [Hi [_ [_ [_ Ex]]]]]]].
  destruct (near_back mu k Hv Hi) as [V [B1 B2]]. rewrite Ex in B1, B2.
  exists (back mu k), (peri_state mu (back mu k)). split; [rewrite <- Ex; now apply peri_elements|].
  split; [now apply state_of_peri|]. auto.
Qed.
(** an exact round trip is not what the code gives: a = 1, e = 5e-10, i = 90 deg, omega = 90 deg, nu = 0 comes back at
    nu = 90 deg, omega = 0 - off by 5e-10 *)
Theorem C76_exact_refuted : exists mu x, 0 < mu /\ ang_mom x <> (0,0,0) /\ energy mu x <> 0
  /\ forall k x', elements_of mu x (fin6 k) -> state_of mu k x' -> x' <> x.
Proof.
  pose (k0 := mk6 1 (5 / 10000000000) (PI / 2) (PI / 2) 0 0).
  assert (Hv : valid_kep 1 k0) by (unfold valid_kep, k0, k_a, k_e, k_nu; cbn [s0 s1 s2 s3 s4 s5]; rewrite cos_0; lra).
  pose proof PI_RGT_0. assert (Hi : 0 <= k_i k0 <= PI) by (unfold k0, k_i; cbn [s2]; lra).
  exists 1, (peri_state 1 k0). split; [lra|]. split; [now apply peri_h_nz|]. split.
  { destruct (C02_energy 1 k0 _ Hv (state_of_peri 1 k0 Hv)) as [E _]. rewrite E; unfold k0, k_a, k_e; cbn [s0 s1]; lra. }
  intros k x' El St EQ. subst x'.
  pose proof (elements_of_fun _ _ _ _ El (peri_elements 1 k0 Hv ltac:(unfold k0, k_e; cbn [s1]; lra) Hi)) as K.
  apply fin6_inj in K. fold (back 1 k0) in K. subst k. destruct (near_back 1 k0 Hv Hi) as [V _].
  pose proof (state_of_inv _ _ _ V St) as E.
  assert (N : norm (pos (peri_state 1 (back 1 k0))) = norm (pos (peri_state 1 k0))) by now rewrite <- E.
  rewrite <- (peri_rr 1 _ V), <- (peri_rr 1 _ Hv) in N. unfold peri_r in N.
  change (k_a (back 1 k0)) with (k_a k0) in N. change (k_e (back 1 k0)) with (k_e k0) in N.
  assert (C : cos (k_nu (back 1 k0)) = 0).
  { assert (G : ilimR < k_i k0 < PI - ilimR) by (unfold ilimR, k0, k_i; cbn [s2]; lra).
    destruct (peri_lat 1 k0 Hv G) as [_ En]; [unfold elimR, k0, k_e; cbn [s1]; lra|].
    destruct (extract_pro (k_om k0 + k_nu k0)) as [_ Cn]. rewrite <- En in Cn. unfold back, k_nu at 1. cbn [s5].
    rewrite (cong_cos _ _ Cn). unfold k0, k_om, k_nu. cbn [s3 s5]. rewrite Rplus_0_r. apply cos_PI2. }
  rewrite C in N. pose proof (peri_p_pos 1 k0 Hv) as Hp. set (p := semi_latus (k_a k0) (k_e k0)) in *. clearbody p.
  unfold k0, k_e, k_nu in N. cbn [s1 s5] in N. rewrite cos_0 in N.
  assert (p / (1 + 5 / 10000000000 * 0) = p) by (field; lra).
  assert (p / (1 + 5 / 10000000000 * 1) * (1 + 5 / 10000000000) = p) by (field; lra). nra.
Qed.
(** a near-planar near-circular state, inside both limits *)
Example C76_example : let x := mk6 1 0 0 0 1 (/ 10000000000) in 0 < 1 /\ ang_mom x <> (0,0,0) /\ energy 1 x <> 0
  /\ 0 < norm (nodev x) <= / 1000000000 * norm (ang_mom x).
Proof.
  cbv zeta. assert (N : norm (1,0,0) = 1) by (apply norm_eq; [|vunf]; lra). split; [lra|]. split; [|split].
  - unfold ang_mom, pos, vel, cross, vx, vy, vz. cbn [fst snd s0 s1 s2 s3 s4 s5]. intros E. injection E. lra.
  - unfold energy, pos, vel. cbn [s0 s1 s2 s3 s4 s5]. rewrite N. unfold dot, vx, vy, vz. cbn [fst snd]. lra.
  - assert (A : ang_mom (mk6 1 0 0 0 1 (/ 10000000000)) = (0, - / 10000000000, 1)) by (unfold ang_mom; vring).
    unfold nodev. rewrite A. assert (B : norm (- vy (0, - / 10000000000, 1), vx (0, - / 10000000000, 1), 0) = / 10000000000)
      by (apply norm_eq; [|vunf]; lra).
    rewrite B. split; [lra|]. assert (1 <= norm (0, - / 10000000000, 1)).
    { apply sq_le; [apply norm_pos|]. rewrite norm_sq. vunf. lra. } lra.
Qed.
