(** * Geometry for the round trips: angle extraction, cart_to_kep on perifocal states, and
    every non-degenerate state is a perifocal state. *)
From Coq Require Import Reals QArith Lra Lia Bool List Nsatz.
From Verif Require Import NP NPReal KeplerModel ConvModel Lists ConvCols ArraySpec PropsArray Spec RealBase KepReal CartReal PropsKep.
Import ListNotations.
Local Open Scope R_scope.

(** ** Angle extraction *)
Lemma extract_pro t : in_circle (flipR (Rltb (sin t) 0) (acos (cos t)))
                      /\ cong2pi (flipR (Rltb (sin t) 0) (acos (cos t))) t.
Proof.
  destruct (Rmod_2pi t) as [C1 C2].
  rewrite <- (cong_sin _ _ C2), <- (cong_cos _ _ C2). unfold flipR. rewrite angle_by_acos by auto. auto.
Qed.
Lemma extract_retro t : cong2pi (flipR (Rleb 0 (- sin t)) (acos (cos t))) t.
Proof.
  destruct (Rleb_spec 0 (- sin t)) as [H|H].
  - assert (S : sin (acos (cos t)) = - sin t).
    { assert (B : 0 <= sin (acos (cos t))) by (apply sin_ge_0; apply acos_bound).
      assert (E : cos (acos (cos t)) = cos t) by (apply cos_acos, COS_bound).
      pose proof (sc1 (acos (cos t))) as X. pose proof (sc1 t). rewrite E in X. nra. }
    unfold flipR. apply cos_sin_cong.
    + rewrite cos_minus, cos_2PI, sin_2PI, cos_acos by apply COS_bound. lra.
    + rewrite sin_minus, cos_2PI, sin_2PI, S. lra.
  - destruct (extract_pro t) as [_ C]. rewrite Rltb_false in C by lra. exact C.
Qed.
Lemma extract_exact t : in_circle t -> flipR (Rltb (sin t) 0) (acos (cos t)) = t.
Proof. apply angle_by_acos. Qed.
Lemma Rltb_scale k t : 0 < k -> Rltb (k * t) 0 = Rltb t 0.
Proof. intros. destruct (Rltb_spec (k * t) 0), (Rltb_spec t 0); auto; exfalso; nra. Qed.
Lemma Rleb_scale k t : 0 < k -> Rleb 0 (k * t) = Rleb 0 t.
Proof. intros. destruct (Rleb_spec 0 (k * t)), (Rleb_spec 0 t); auto; exfalso; nra. Qed.
Lemma clamp_cos t : clampR (cos t) = cos t.
Proof. apply clampR_id, COS_bound. Qed.

Section OnPeri.
Variables (mu : R) (k : six R).
Hypothesis Hv : valid_kep mu k.
Let p := semi_latus (k_a k) (k_e k).
Let x := peri_state mu k.
Let hn := sqrt (mu * p).
Let i := k_i k. Let om := k_om k. Let Om := k_Om k. Let nu := k_nu k. Let e := k_e k.
Lemma hn_p : 0 < hn.
Proof.
  apply sqrt_lt_R0. pose proof (peri_p_pos mu k Hv). destruct Hv. apply Rmult_lt_0_compat; auto.
Qed.
Lemma peri_h_nz : ang_mom x <> (0,0,0).
Proof.
  unfold x. apply norm_pos_iff. rewrite peri_h by auto. fold p hn.
  rewrite (norm_eq _ hn).
  - apply hn_p.
  - apply Rlt_le, hn_p.
  - rewrite dot_scal_l, dot_scal_r, WW. ring.
Qed.
Lemma peri_hn : norm (ang_mom x) = hn.
Proof.
  unfold x. rewrite peri_h by auto. apply norm_eq; [apply Rlt_le, hn_p|]. 
  rewrite dot_scal_l, dot_scal_r, WW. fold p hn. ring.
Qed.
Lemma peri_en : norm (ecc_vec mu x) = e.
Proof.
  unfold x. rewrite peri_ecc by auto. apply norm_eq.
  - now destruct Hv as [_ [_ [? _]]].
  - rewrite dot_scal_l, dot_scal_r, PP. fold e. ring.
Qed.
Lemma peri_R_i : 0 <= i <= PI -> R_i x = i.
Proof.
  intros Hi. unfold R_i. rewrite peri_hn. unfold x. rewrite peri_h by auto. fold p hn.
  pose proof hn_p. replace (vz (scal3 hn (W_axis k)) / hn) with (cos i).
  - now apply acos_cos.
  - unfold W_axis. vunf. fold i. field. lra.
Qed.
Lemma peri_nodev : nodev x = scal3 (hn * sin i) (cos Om, sin Om, 0).
Proof.
  unfold nodev, x. rewrite peri_h by auto. fold p hn. unfold W_axis. fold i Om. apply vec_eq; vunf; ring.
Qed.
Lemma peri_nn : 0 <= sin i -> norm (nodev x) = hn * sin i.
Proof.
  intros Hs. pose proof hn_p. rewrite peri_nodev. apply norm_eq; [nra|].
  pose proof (sc1 Om). vunf. nsatz.
Qed.
Lemma e_nonneg : 0 <= e. Proof. now destruct Hv as [_ [_ [? _]]]. Qed.
Lemma rn_p : 0 < norm (pos x). Proof. apply rn_pos, peri_h_nz. Qed.
Lemma peri_rr : peri_r mu k = norm (pos x).
Proof. symmetry. now apply peri_norm. Qed.

(** direction of the position in terms of the argument of latitude *)
Lemma lat_dir : pos x = scal3 (norm (pos x))
   (cos Om * cos (om + nu) - sin Om * sin (om + nu) * cos i,
    sin Om * cos (om + nu) + cos Om * sin (om + nu) * cos i,
    sin (om + nu) * sin i).
Proof.
  rewrite <- peri_rr. unfold x. rewrite peri_pos, Q_axis_eq. unfold P_axis. fold i om Om nu.
  rewrite cos_plus, sin_plus. vring.
Qed.

Section Inclined.
Hypothesis Hi : ilimR < i < PI - ilimR.
Lemma ilim_pos : 0 < ilimR. Proof. unfold ilimR. pose proof PI_RGT_0. lra. Qed.
Lemma sin_i_pos : 0 < sin i.
Proof. pose proof ilim_pos. apply sin_gt_0; lra. Qed.
Lemma peri_ig : R_ig x = true.
Proof.
  unfold R_ig. pose proof ilim_pos. rewrite peri_R_i by lra. rewrite !Rltb_true by lra. reflexivity.
Qed.
Lemma peri_Om : R_Om x = flipR (Rltb (sin Om) 0) (acos (cos Om)).
Proof.
  unfold R_Om. rewrite peri_ig, peri_nn, peri_nodev by (apply Rlt_le, sin_i_pos).
  pose proof hn_p. pose proof sin_i_pos. assert (0 < hn * sin i) by nra.
  replace (vx (scal3 (hn * sin i) (cos Om, sin Om, 0)) / (hn * sin i)) with (cos Om) by (vunf; field; lra).
  replace (vy (scal3 (hn * sin i) (cos Om, sin Om, 0))) with ((hn * sin i) * sin Om) by (vunf; ring).
  now rewrite Rltb_scale.
Qed.
Lemma peri_om : elimR < e -> R_om mu x = flipR (Rltb (sin om) 0) (acos (cos om)).
Proof.
  intros He. unfold R_om, R_eg. rewrite peri_en, peri_ig, Rltb_true, peri_nn by (auto; apply Rlt_le, sin_i_pos).
  pose proof hn_p. pose proof sin_i_pos. assert (0 < hn * sin i) by nra.
  assert (0 < e) by (unfold elimR in *; lra).
  rewrite peri_nodev. unfold x. rewrite peri_ecc by auto. fold e.
  rewrite dot_scal_l, dot_scal_r.
  replace (dot (cos Om, sin Om, 0) (P_axis k)) with (cos om).
  2:{ unfold P_axis. fold i om Om. pose proof (sc1 Om). vunf. nsatz. }
  replace (hn * sin i * (e * cos om) / (hn * sin i * e)) with (cos om) by (field; lra).
  rewrite clamp_cos. replace (vz (scal3 e (P_axis k))) with ((e * sin i) * sin om).
  2:{ unfold P_axis. fold i om Om. vunf. ring. }
  rewrite Rltb_scale; [reflexivity|nra].
Qed.
Lemma peri_lat : e <= elimR -> R_om mu x = 0 /\ R_nu mu x = flipR (Rltb (sin (om + nu)) 0) (acos (cos (om + nu))).
Proof.
  intros He. unfold R_om, R_nu, R_eg. rewrite peri_en, Rltb_false, peri_ig by auto. split; auto.
  rewrite peri_nn by (apply Rlt_le, sin_i_pos). rewrite peri_nodev.
  pose proof hn_p. pose proof sin_i_pos. assert (0 < hn * sin i) by nra. pose proof rn_p as Hr.
  set (n := norm (pos x)) in *. rewrite lat_dir. fold n. rewrite dot_scal_l, dot_scal_r.
  match goal with |- context [dot (cos Om, sin Om, 0) ?v] => replace (dot (cos Om, sin Om, 0) v) with (cos (om + nu)) end.
  2:{ pose proof (sc1 Om). vunf. nsatz. }
  replace (hn * sin i * (n * cos (om + nu)) / (hn * sin i * n)) with (cos (om + nu)) by (field; lra).
  rewrite clamp_cos. match goal with |- context [vz ?v] => replace (vz v) with ((n * sin i) * sin (om + nu)) end.
  2:{ vunf. ring. }
  rewrite Rltb_scale; [reflexivity|nra].
Qed.
End Inclined.

Lemma peri_nu : elimR < e -> R_nu mu x = flipR (Rltb (sin nu) 0) (acos (cos nu)).
Proof.
  intros He. unfold R_nu, R_eg. rewrite peri_en, Rltb_true by auto.
  assert (0 < e) by (unfold elimR in *; lra). pose proof rn_p as Hr.
  assert (Hd : dot (ecc_vec mu x) (pos x) = e * norm (pos x) * cos nu).
  { rewrite <- peri_rr. unfold x. rewrite peri_ecc by auto.
    rewrite peri_pos, !dot_scal_l, !dot_scal_r, !dot_plus_r, !dot_scal_r, PP, PQ. fold e nu. ring. }
  rewrite Hd. replace (e * norm (pos x) * cos nu / (e * norm (pos x))) with (cos nu) by (field; lra).
  rewrite clamp_cos.
  assert (Hw : dot (pos x) (vel x) / norm (pos x) = (peri_s mu k * e) * sin nu).
  { rewrite <- peri_rr in *. unfold x. rewrite peri_pos, peri_vel.
    rewrite !dot_scal_l, !dot_scal_r, !dot_plus_l, !dot_plus_r, !dot_scal_l, !dot_scal_r, PP, QQ,
      (dot_comm (Q_axis k)), PQ. fold e nu. field. lra. }
  rewrite Hw, Rltb_scale; [reflexivity|]. pose proof (peri_s_pos mu k Hv). nra.
Qed.

Section Planar.
Hypothesis Hi : i = 0 \/ i = PI.
Lemma planar_il : R_ig x = false.
Proof.
  pose proof PI_RGT_0. unfold R_ig. rewrite peri_R_i by lra. unfold ilimR.
  destruct Hi as [-> | ->].
  - rewrite Rltb_false by lra. reflexivity.
  - rewrite (Rltb_false PI) by lra. apply andb_false_r.
Qed.
Lemma planar_Om : R_Om x = 0.
Proof. unfold R_Om. now rewrite planar_il. Qed.
Definition sgn_i : R := if Req_EM_T i 0 then 1 else -1.
Lemma planar_extract (u t : R) (v : vec) n : 0 < n ->
  v = scal3 n (cos Om * cos t - sin Om * sin t * cos i, sin Om * cos t + cos Om * sin t * cos i, u) ->
  cong2pi (flipR (Rltb (PI / 2) (R_i x) && Rleb 0 (vy v))
           (flipR (Rltb (R_i x) (PI / 2) && Rltb (vy v) 0) (acos (clampR (vx v / n)))))
     (t + sgn_i * Om).
Proof.
  intros Hn ->. pose proof PI_RGT_0. rewrite peri_R_i by lra. unfold sgn_i.
  destruct Hi as [E | E]; rewrite E.
  - destruct (Req_EM_T 0 0); [|lra]. rewrite (Rltb_false (PI/2) 0), (Rltb_true 0 (PI/2)) by lra. cbn [andb].
    rewrite cos_0. vunf.
    replace (n * (cos Om * cos t - sin Om * sin t * 1) / n) with (cos (t + Om)) by (rewrite cos_plus; field; lra).
    replace (n * (sin Om * cos t + cos Om * sin t * 1)) with (n * sin (t + Om)) by (rewrite sin_plus; ring).
    rewrite clamp_cos, Rltb_scale by auto. unfold flipR at 1. rewrite Rmult_1_l. apply extract_pro.
  - destruct (Req_EM_T PI 0); [lra|]. rewrite (Rltb_true (PI/2) PI), (Rltb_false PI (PI/2)) by lra. cbn [andb].
    rewrite cos_PI. vunf.
    replace (n * (cos Om * cos t - sin Om * sin t * -1) / n) with (cos (t - Om)) by (rewrite cos_minus; field; lra).
    replace (n * (sin Om * cos t + cos Om * sin t * -1)) with (n * - sin (t - Om)) by (rewrite sin_minus; ring).
    rewrite clamp_cos, Rleb_scale by auto. unfold flipR at 2.
    replace (t + -1 * Om) with (t - Om) by ring. apply extract_retro.
Qed.
Lemma planar_om : elimR < e -> cong2pi (R_om mu x) (om + sgn_i * Om).
Proof.
  intros He. unfold R_om, R_eg. rewrite peri_en, planar_il, Rltb_true by auto.
  apply (planar_extract (sin om * sin i)); [unfold elimR in *; lra|].
  unfold x. rewrite peri_ecc by auto. reflexivity.
Qed.
Lemma planar_lat : e <= elimR -> R_om mu x = 0 /\ cong2pi (R_nu mu x) (om + nu + sgn_i * Om).
Proof.
  intros He. unfold R_om, R_nu, R_eg. rewrite peri_en, planar_il, Rltb_false by auto. split; auto.
  apply (planar_extract (sin (om + nu) * sin i)); [apply rn_p|]. apply lat_dir.
Qed.
End Planar.
End OnPeri.

(** ** Every non-degenerate state is a perifocal state *)
Lemma triple1 a b c : cross a (cross b c) = minus3 (scal3 (dot a c) b) (scal3 (dot a b) c). Proof. vring. Qed.
Lemma plane_decomp W P u : dot W W = 1 -> dot P P = 1 -> dot P W = 0 -> dot u W = 0 ->
  u = plus3 (scal3 (dot u P) P) (scal3 (dot u (cross W P)) (cross W P)).
Proof.
  intros HW HP HPW Hu.
  assert (E1 : cross P (cross u P) = minus3 (scal3 1 u) (scal3 (dot u P) P)).
  { rewrite triple1, HP, (dot_comm P u). reflexivity. }
  assert (E2 : cross u P = scal3 (dot W (cross u P)) W).
  { pose proof (triple1 W (cross u P) W) as T. rewrite HW in T.
    assert (Z : cross (cross u P) W = (0,0,0)).
    { rewrite (cross_anti (cross u P) W), triple1, (dot_comm W P), HPW, (dot_comm W u), Hu. vring. }
    rewrite Z in T. 
    assert (Z2 : cross W (0,0,0) = (0,0,0)) by vring. rewrite Z2 in T.
    apply vec_eq; [apply (f_equal vx) in T|apply (f_equal vy) in T|apply (f_equal vz) in T];
      revert T; generalize (dot W (cross u P)); generalize (cross u P); intros; vunf; lra. }
  assert (E3 : dot u (cross W P) = - dot W (cross u P)) by (vunf; ring).
  rewrite E3. set (m := dot W (cross u P)) in *. rewrite E2, cross_scal_r, (cross_anti P W) in E1.
  generalize dependent (cross W P). intros Q E1 E3. generalize dependent (dot u P). intros d E1.
  apply vec_eq; [apply (f_equal vx) in E1|apply (f_equal vy) in E1|apply (f_equal vz) in E1]; vunf; lra.
Qed.
Lemma unit_in_plane W P u : dot W W = 1 -> dot P P = 1 -> dot P W = 0 -> dot u W = 0 -> dot u u = 1 ->
  exists t, in_circle t /\ u = plus3 (scal3 (cos t) P) (scal3 (sin t) (cross W P)).
Proof.
  intros HW HP HPW Hu Huu. pose proof (plane_decomp W P u HW HP HPW Hu) as D.
  destruct (cos_sin_circle (dot u P) (dot u (cross W P))) as [t [Ht [Hc Hs]]].
  - transitivity (dot u (plus3 (scal3 (dot u P) P) (scal3 (dot u (cross W P)) (cross W P)))).
    + rewrite dot_plus_r, !dot_scal_r. ring.
    + now rewrite <- D.
  - exists t. split; auto. now rewrite Hc, Hs.
Qed.
Lemma unit_normal W : dot W W = 1 -> exists i Om, 0 <= i <= PI /\ in_circle Om
  /\ (i = 0 \/ i = PI -> Om = 0)
  /\ W = (sin i * sin Om, - (sin i * cos Om), cos i).
Proof.
  destruct W as [[wx wy] wz]. set (W := (wx, wy, wz)). intros H. exists (acos (vz W)).
  assert (Hz : -1 <= vz W <= 1) by (vunf; nra).
  assert (C : cos (acos (vz W)) = vz W) by now apply cos_acos.
  assert (S : 0 <= sin (acos (vz W))) by (apply sin_ge_0; apply acos_bound).
  pose proof (sc1 (acos (vz W))) as S2. rewrite C in S2.
  set (i := acos (vz W)) in *. pose proof PI_RGT_0.
  destruct (Req_EM_T (sin i) 0) as [E|E].
  - exists 0. rewrite E in *. split; [apply acos_bound|]. split; [split; lra|]. split; auto.
    rewrite C. unfold dot in H. change (vx W) with wx in *. change (vy W) with wy in *. change (vz W) with wz in *.
    unfold W. apply vec_eq; unfold vx, vy, vz; cbn [fst snd]; nra.
  - destruct (cos_sin_circle (- vy W / sin i) (vx W / sin i)) as [t [Ht [Hc Hs]]].
    + unfold dot in H. replace (- vy W / sin i * (- vy W / sin i) + vx W / sin i * (vx W / sin i))
        with ((vx W * vx W + vy W * vy W) / (sin i * sin i)) by (field; auto).
      replace (vx W * vx W + vy W * vy W) with (sin i * sin i) by lra. field; auto.
    + exists t. split; [apply acos_bound|]. split; auto. split.
      * intros [Z|Z]; exfalso; apply E; rewrite Z; [apply sin_0|apply sin_PI].
      * rewrite Hs, Hc, C. unfold W. apply vec_eq; unfold vx, vy, vz; cbn [fst snd]; field; auto.
Qed.

Theorem state_surj mu x : 0 < mu -> ang_mom x <> (0,0,0) -> energy mu x <> 0 ->
  exists k, valid_kep mu k /\ k_e k <> 1 /\ 0 <= k_i k <= PI
    /\ in_circle (k_om k) /\ in_circle (k_Om k) /\ in_circle (k_nu k)
    /\ peri_state mu k = x.
Proof.
  intros Hmu Hh Hen.
  pose proof (hn_pos x Hh) as Hhn. pose proof (rn_pos x Hh) as Hrn.
  set (h := norm (ang_mom x)) in *. set (n := norm (pos x)) in *.
  set (W := scal3 (/ h) (ang_mom x)).
  assert (HhW : ang_mom x = scal3 h W) by (unfold W; apply vec_eq; vunf; field; lra).
  assert (HWW : dot W W = 1).
  { unfold W. rewrite dot_scal_l, dot_scal_r, <- norm_sq. fold h. field. lra. }
  destruct (unit_normal W HWW) as [i [Om [Hi [HOm [_ EW]]]]].
  set (N := (cos Om, sin Om, 0)).
  assert (HNN : dot N N = 1) by (unfold N; pose proof (sc1 Om); vunf; lra).
  assert (HNW : dot N W = 0) by (unfold N; rewrite EW; vunf; ring).
  assert (HrW : dot (pos x) W = 0).
  { unfold W. rewrite dot_scal_r. unfold ang_mom. vunf; ring. }
  assert (HvW : dot (vel x) W = 0).
  { unfold W. rewrite dot_scal_r. unfold ang_mom. vunf; ring. }
  set (ev := ecc_vec mu x). set (e := norm ev).
  assert (HeW : dot ev W = 0).
  { unfold ev, ecc_vec. rewrite HhW, cross_scal_r, dot_minus_l, !dot_scal_l, HrW.
    replace (dot (cross (vel x) W) W) with 0 by (vunf; ring). ring. }
  assert (exists om, in_circle om /\ ev = scal3 e (plus3 (scal3 (cos om) N) (scal3 (sin om) (cross W N)))) as [om [Hom Eev]].
  { destruct (Req_EM_T e 0) as [E|E].
    - exists 0. split; [split; pose proof PI_RGT_0; lra|]. rewrite E.
      assert (ev = (0,0,0)) as ->; [|vring].
      pose proof (norm_sq ev) as Q. fold e in Q. rewrite E in Q. destruct ev as [[a b] c]. vunf.
      f_equal; [f_equal|]; nra.
    - destruct (unit_in_plane W N (scal3 (/ e) ev)) as [om [Hom E2]]; auto.
      + rewrite dot_scal_l, HeW. ring.
      + rewrite dot_scal_l, dot_scal_r, <- norm_sq. fold e. field. auto.
      + exists om. split; auto. rewrite <- E2. apply vec_eq; vunf; field; auto. }
  set (P := plus3 (scal3 (cos om) N) (scal3 (sin om) (cross W N))) in *.
  assert (HPP : dot P P = 1).
  { assert (dot (cross W N) (cross W N) = 1) as X1.
    { transitivity (dot W W * dot N N - dot N W * dot N W); [vunf; ring|]. rewrite HWW, HNN, HNW. ring. }
    assert (dot N (cross W N) = 0) as X2 by (vunf; ring).
    unfold P. rewrite !dot_plus_l, !dot_plus_r, !dot_scal_l, !dot_scal_r, (dot_comm (cross W N) N), X1, X2, HNN.
    pose proof (sc1 om). lra. }
  assert (HPW : dot P W = 0).
  { unfold P. rewrite dot_plus_l, !dot_scal_l, HNW.
    replace (dot (cross W N) W) with 0 by (vunf; ring). ring. }
  destruct (unit_in_plane W P (scal3 (/ n) (pos x))) as [nu [Hnu Er]]; auto.
  { rewrite dot_scal_l, HrW. ring. }
  { rewrite dot_scal_l, dot_scal_r, <- norm_sq. fold n. field. lra. }
  assert (Er' : pos x = scal3 n (plus3 (scal3 (cos nu) P) (scal3 (sin nu) (cross W P)))).
  { rewrite <- Er. apply vec_eq; vunf; field; lra. }
  (* orbit equation *)
  assert (Horb : n * (1 + e * cos nu) = h * h / mu).
  { assert (D1 : dot ev (pos x) = h * h / mu - n).
    { unfold ev, ecc_vec. rewrite dot_minus_l, !dot_scal_l.
      replace (dot (cross (vel x) (ang_mom x)) (pos x)) with (dot (ang_mom x) (ang_mom x))
        by (unfold ang_mom; vunf; ring).
      rewrite <- !norm_sq. fold h n. field. lra. }
    assert (D2 : dot ev (pos x) = e * n * cos nu).
    { rewrite Eev, Er', dot_scal_l, dot_scal_r, dot_plus_r, !dot_scal_r, HPP.
      replace (dot P (cross W P)) with 0 by (vunf; ring). ring. }
    rewrite D1 in D2. lra. }
  (* velocity *)
  assert (Hvel : vel x = scal3 (mu / h) (plus3 (scal3 (- sin nu) P) (scal3 (e + cos nu) (cross W P)))).
  { assert (T : cross W (cross (vel x) W) = vel x).
    { rewrite triple1, HWW, (dot_comm W), HvW. vring. }
    assert (T2 : cross (vel x) W = scal3 (mu / h) (plus3 ev (scal3 (/ n) (pos x)))).
    { unfold ev, ecc_vec. fold n. rewrite HhW, cross_scal_r. apply vec_eq; vunf; field; lra. }
    rewrite <- T, T2, Er, Eev, cross_scal_r, !cross_plus_r, !cross_scal_r.
    assert (T3 : cross W (cross W P) = scal3 (-1) P).
    { rewrite triple1, (dot_comm W P), HPW, HWW. vring. }
    rewrite T3. generalize (cross W P). intros. vring. }
  pose proof (ecc_energy mu x Hmu Hh) as EE. fold ev e h in EE.
  assert (He0 : 0 <= e) by apply norm_pos.
  set (a := Rabs (mu / (2 * energy mu x))).
  assert (Hq : 0 < h * h / mu) by (apply Rdiv_lt_0_compat; nra).
  assert (EE' : e * e - 1 = 2 * energy mu x / mu * (h * h / mu)) by (rewrite EE; field; lra).
  assert (Ha : 0 < a).
  { apply Rabs_pos_lt. unfold Rdiv. apply Rmult_integral_contrapositive_currified; [lra|].
    apply Rinv_neq_0_compat. lra. }
  assert (Hsl : semi_latus a e = h * h / mu /\ e <> 1).
  { unfold semi_latus, a. destruct (Rlt_le_dec 0 (energy mu x)) as [Hp|Hp].
    - assert (0 < 2 * energy mu x / mu) by (apply Rdiv_lt_0_compat; lra).
      assert (1 < e) by nra.
      destruct (Rlt_dec e 1); [lra|]. destruct (Rlt_dec 1 e); [|lra]. split; [|lra].
      rewrite EE', Rabs_pos_eq by (apply Rlt_le, Rdiv_lt_0_compat; lra). field. lra.
    - assert (Hneg : 0 < - (2 * energy mu x / mu)).
      { unfold Rdiv. rewrite Ropp_mult_distr_l. apply Rmult_lt_0_compat; [lra|]. now apply Rinv_0_lt_compat. }
      assert (e < 1) by nra.
      destruct (Rlt_dec e 1); [|lra]. split; [|lra].
      replace (1 - e * e) with (- (e * e - 1)) by ring. rewrite EE', Rabs_left1.
      + field. lra.
      + unfold Rdiv. assert (/ (2 * energy mu x) < 0) by (apply Rinv_lt_0_compat; lra). nra. }
  destruct Hsl as [Hsl He1].
  set (k := mk6 a e i om Om nu).
  assert (KW : W_axis k = W) by (rewrite EW; reflexivity).
  assert (KP : P_axis k = P).
  { unfold P, N. rewrite <- KW. unfold P_axis, W_axis, k, k_i, k_om, k_Om; cbn [s0 s1 s2 s3 s4 s5].
    pose proof (sc1 Om). apply vec_eq; vunf; nsatz. }
  assert (KQ : Q_axis k = cross W P) by (unfold Q_axis; now rewrite KW, KP).
  assert (Hn1 : 0 < 1 + e * cos nu).
  { apply Rmult_lt_reg_l with n; auto. rewrite Horb. lra. }
  exists k. repeat split; try (unfold k, k_a, k_e, k_i, k_om, k_Om, k_nu; cbn [s0 s1 s2 s3 s4 s5]); auto;
    try apply Hi; try apply Hom; try apply HOm; try apply Hnu.
  fold k. apply six_eq.
  - rewrite peri_pos, KP, KQ, Er'. unfold peri_r, k_a, k_e, k_nu; cbn [k s0 s1 s2 s3 s4 s5].
    rewrite Hsl, <- Horb. replace (n * (1 + e * cos nu) / (1 + e * cos nu)) with n by (field; lra). reflexivity.
  - rewrite peri_vel, KP, KQ, Hvel. unfold peri_s, k_a, k_e, k_nu; cbn [k s0 s1 s2 s3 s4 s5].
    rewrite Hsl. replace (mu / (h * h / mu)) with ((mu / h) * (mu / h)) by (field; lra).
    rewrite sqrt_square; [reflexivity|]. apply Rlt_le, Rdiv_lt_0_compat; lra.
Qed.
