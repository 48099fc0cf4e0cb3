(** * How the elements depend on the state: nearby states have nearby elements (exact arithmetic, inclined ellipses) *)
From Coq Require Import Reals QArith ZArith Lra Lia Psatz Bool List.
From Verif Require Import NP NPReal FloatBase KeplerModel ConvModel Spec RealBase KepReal CartReal PropsKep CartInv FloatAcc FloatVec PropsFloatAcc FloatC2K FloatC2KAcc PropsFloatRT.
Import ListNotations.
Local Open Scope R_scope.

Lemma norm_cross a b : norm (cross a b) <= norm a * norm b.
Proof.
  pose proof (norm_pos a). pose proof (norm_pos b). apply norm_le; [nra|].
  replace ((norm a * norm b) * (norm a * norm b)) with ((norm a * norm a) * (norm b * norm b)) by ring. rewrite !norm_sq.
  assert (E : dot (cross a b) (cross a b) = dot a a * dot b b - dot a b * dot a b) by (vunf; ring). rewrite E. nra.
Qed.
Lemma norm_scal_abs c a : norm (scal3 c a) = Rabs c * norm a.
Proof.
  apply norm_eq; [apply Rmult_le_pos; [apply Rabs_pos|apply norm_pos]|]. rewrite dot_scal_l, dot_scal_r, <- norm_sq.
  replace (Rabs c * norm a * (Rabs c * norm a)) with ((Rabs c * Rabs c) * (norm a * norm a)) by ring. rewrite <- Rabs_mult, (Rabs_pos_eq (c * c)) by apply Rle_0_sqr. ring.
Qed.
Lemma cross_pert a' a b' b A B : norm (minus3 a' a) <= A -> norm (minus3 b' b) <= B ->
  norm (minus3 (cross a' b') (cross a b)) <= A * norm b + norm a * B + A * B.
Proof.
  intros HA HB.
  assert (E : minus3 (cross a' b') (cross a b) = plus3 (plus3 (cross (minus3 a' a) b) (cross a (minus3 b' b))) (cross (minus3 a' a) (minus3 b' b))) by vring.
  rewrite E. pose proof (norm_pos a). pose proof (norm_pos b). pose proof (norm_pos (minus3 a' a)). pose proof (norm_pos (minus3 b' b)).
  eapply Rle_trans; [apply norm_tri|]. eapply Rle_trans; [apply Rplus_le_compat_r, norm_tri|].
  pose proof (norm_cross (minus3 a' a) b). pose proof (norm_cross a (minus3 b' b)). pose proof (norm_cross (minus3 a' a) (minus3 b' b)).
  assert (norm (minus3 a' a) * norm b <= A * norm b) by (apply Rmult_le_compat_r; auto).
  assert (norm a * norm (minus3 b' b) <= norm a * B) by (apply Rmult_le_compat_l; auto).
  assert (norm (minus3 a' a) * norm (minus3 b' b) <= A * B) by (apply Rmult_le_compat; auto). lra.
Qed.
Lemma dot_pert a' a b' b A B : norm (minus3 a' a) <= A -> norm (minus3 b' b) <= B -> norm a' = 1 -> norm b = 1 ->
  Rabs (dot a' b' - dot a b) <= A + B.
Proof.
  intros HA HB Ha Hb. replace (dot a' b' - dot a b) with (dot (minus3 a' a) b + dot a' (minus3 b' b)) by (vunf; ring).
  eapply Rle_trans; [apply Rabs_triang|].
  pose proof (dot_abs (minus3 a' a) b) as D1. pose proof (dot_abs a' (minus3 b' b)) as D2. rewrite Ha in D2. rewrite Hb in D1. lra.
Qed.
(** directions of nearby vectors *)
Lemma unit_diff al' al a' a B : norm a' = 1 -> norm a = 1 -> 0 < al -> 0 <= al' -> norm (minus3 (scal3 al' a') (scal3 al a)) <= B ->
  norm (minus3 a' a) <= 2 * (B / al) /\ Rabs (al' - al) <= B.
Proof.
  intros N' N P P' H.
  assert (D : Rabs (al' - al) <= B).
  { pose proof (norm_diff (scal3 al' a') (scal3 al a)) as D. rewrite !norm_scal, N, N', !Rmult_1_r in D by lra. lra. }
  split; auto.
  assert (E : scal3 al (minus3 a' a) = minus3 (minus3 (scal3 al' a') (scal3 al a)) (scal3 (al' - al) a')) by vring.
  assert (G : al * norm (minus3 a' a) <= 2 * B).
  { rewrite <- norm_scal by lra. rewrite E.
    replace (minus3 (minus3 (scal3 al' a') (scal3 al a)) (scal3 (al' - al) a')) with (plus3 (minus3 (scal3 al' a') (scal3 al a)) (scal3 (- (al' - al)) a')) by vring.
    eapply Rle_trans; [apply norm_tri|]. rewrite (norm_scal_abs (- (al' - al))), Rabs_Ropp, N'. lra. }
  apply Rmult_le_reg_l with al; [auto|]. replace (al * (2 * (B / al))) with (2 * B) by (field; lra). exact G.
Qed.
Lemma unit_P k : norm (P_axis k) = 1. Proof. apply norm_eq; [lra|]. rewrite PP. ring. Qed.
Lemma unit_Q k : norm (Q_axis k) = 1. Proof. apply norm_eq; [lra|]. rewrite QQ. ring. Qed.
Lemma unit_W k : norm (W_axis k) = 1. Proof. apply norm_eq; [lra|]. rewrite WW. ring. Qed.
Definition node (k : six R) : vec := (cos (k_Om k), sin (k_Om k), 0).
Lemma unit_node k : norm (node k) = 1.
Proof. apply norm_eq; [lra|]. unfold node, dot, vx, vy, vz. cbn [fst snd]. pose proof (sc1 (k_Om k)). lra. Qed.
Lemma node_om k : dot (P_axis k) (node k) = cos (k_om k) /\ dot (Q_axis k) (node k) = - sin (k_om k).
Proof.
  rewrite Q_axis_eq. unfold P_axis, node, dot, vx, vy, vz. cbn [fst snd]. pose proof (sc1 (k_Om k)) as T. set (S := sin (k_Om k)) in *. set (C := cos (k_Om k)) in *.
  split.
  - transitivity (cos (k_om k) * (S * S + C * C)); [ring|rewrite T; ring].
  - transitivity (- sin (k_om k) * (S * S + C * C)); [ring|rewrite T; ring].
Qed.

Section Elem.
Context (mu : R) (k x2 : six R) (d : R) (Hv : valid_kep mu k) (He : 0 < k_e k < 1) (Hi : 0 < k_i k < PI).
Let x := peri_state mu k.
Let e := k_e k.
Let r := pos x. Let v := vel x. Let r2 := pos x2. Let v2 := vel x2.
Context (Hr2 : norm (minus3 r2 r) <= d * norm r) (Hv2 : norm (minus3 v2 v) <= d * norm v).
Let w1 := d / (1 - e).
Let w := d / (e * (1 - e) * sin (k_i k)).
Context (Hd : 0 < d) (Hw : w <= / 10000).
Let hn := sqrt (mu * semi_latus (k_a k) e).
Local Lemma Hs : 0 < sin (k_i k) <= 1. Proof. split; [apply sin_gt_0; lra|apply SIN_bound]. Qed.
Local Lemma Hmu : 0 < mu. Proof. apply Hv. Qed.
Local Lemma units : 0 < w1 /\ d <= w1 /\ w1 <= d / ((1 - e) * sin (k_i k)) /\ d / ((1 - e) * sin (k_i k)) <= w /\ d / e <= w /\ d = w1 * (1 - e).
Proof.
  pose proof Hs as [S0 S1]. assert (E1 : 0 < 1 - e < 1) by (unfold e; lra). assert (E0 : 0 < e < 1) by (unfold e; lra).
  assert (Q : forall a b, 0 < b -> b <= a -> d / a <= d / b).
  { intros a b Hb Hab. unfold Rdiv. apply Rmult_le_compat_l; [lra|]. now apply Rinv_le_contravar. }
  assert (A : d / 1 = d) by field.
  assert (B1 : 0 < (1 - e) * sin (k_i k)) by (apply Rmult_lt_0_compat; lra).
  assert (B2 : 0 < e * (1 - e)) by (apply Rmult_lt_0_compat; lra).
  assert (B3 : 0 < e * (1 - e) * sin (k_i k)) by (apply Rmult_lt_0_compat; lra).
  split; [apply Rdiv_lt_0_compat; lra|]. split; [rewrite <- A at 1; apply Q; lra|].
  split; [apply Q; nra|]. split; [apply Q; nra|]. split; [apply Q; [auto|]|unfold w1; field; lra].
  assert (e * (1 - e) <= e) by nra. nra.
Qed.
Local Lemma d_small : d <= / 10000. Proof. pose proof units. lra. Qed.
Local Lemma r_pos : 0 < norm r. Proof. now apply FloatC2KAcc.Hr. Qed.
Local Lemma hn_pos' : 0 < hn. Proof. now apply FloatC2KAcc.Hhn. Qed.
Local Lemma r2_abs : norm r * (1 - d) <= norm r2 <= norm r * (1 + d).
Proof. pose proof (norm_diff r2 r) as D. apply abs_in in D. lra. Qed.
Local Lemma v2_abs : norm v2 <= norm v * (1 + d).
Proof. pose proof (norm_diff v2 v) as D. apply abs_in in D. lra. Qed.
(** angular momentum *)
Local Lemma h_pert : norm (minus3 (ang_mom x2) (ang_mom x)) <= 201 / 100 * (w1 * hn).
Proof.
  unfold ang_mom. fold r v r2 v2. pose proof (cross_pert _ _ _ _ _ _ Hr2 Hv2) as A.
  pose proof (FloatC2KAcc.RV mu k Hv He) as RV. fold x r v e hn in RV. pose proof units as (P & _ & _ & _ & _ & E). pose proof d_small.
  pose proof (norm_pos r). pose proof (norm_pos v). assert (0 <= norm r * norm v) by nra.
  assert (B : d * (norm r * norm v) <= w1 * hn) by (rewrite E; replace (w1 * (1 - e) * (norm r * norm v)) with (w1 * (norm r * norm v * (1 - e))) by ring; apply Rmult_le_compat_l; lra).
  eapply Rle_trans; [exact A|]. replace (d * norm r * norm v + norm r * (d * norm v) + d * norm r * (d * norm v)) with ((2 + d) * (d * (norm r * norm v))) by ring.
  assert (0 <= d * (norm r * norm v)) by nra. nra.
Qed.
Local Lemma h2_nz : ang_mom x2 <> (0, 0, 0).
Proof.
  intros Z. pose proof h_pert as A. pose proof (norm_diff (ang_mom x2) (ang_mom x)) as D. apply abs_in in D.
  assert (N : norm (ang_mom x2) = 0) by (rewrite Z; apply norm_eq; [lra|]; vunf; ring). rewrite N in D.
  assert (norm (ang_mom x) = hn) as H by now apply peri_hn. rewrite H in D. pose proof hn_pos'. pose proof units as (P & _ & U2 & U3 & _). 
  assert (w1 <= / 10000) by lra. nra.
Qed.
(** energy *)
Local Lemma rho_a : k_a k * (1 - e) <= norm r.
Proof.
  pose proof (FloatC2KAcc.Rval mu k Hv) as A. rewrite (FloatC2KAcc.Hpl k He) in A. fold x r e in A.
  destruct Hv as (_ & Ha & _). pose proof (COS_bound (k_nu k)) as C. pose proof r_pos. assert (E1 : 0 < 1 - e < 1) by (unfold e; lra).
  assert (1 + e * cos (k_nu k) <= 1 + e) by (unfold e in *; nra).
  assert (M : k_a k * (1 - e * e) <= norm r * (1 + e)) by (rewrite <- A; apply Rmult_le_compat_l; lra).
  replace (k_a k * (1 - e * e)) with (k_a k * (1 - e) * (1 + e)) in M by ring. apply Rmult_le_reg_r in M; auto. lra.
Qed.
Local Lemma en_pert : Rabs (energy mu x2 - energy mu x) <= 31 / 10 * (w1 * (mu / k_a k)).
Proof.
  pose proof r_pos as Rp. pose proof d_small as Ds. pose proof r2_abs as R2. pose proof v2_abs as V2. pose proof Hmu as M.
  pose proof (FloatC2KAcc.Hbound mu k Hv He) as HB. fold x r v in HB. pose proof units as (P & _ & _ & _ & _ & E).
  pose proof (norm_pos v) as Vp. pose proof (norm_pos v2).
  unfold energy. fold r r2 v v2. rewrite <- !norm_sq.
  assert (R2p : 0 < norm r2) by nra.
  assert (V2' : norm v * (1 - d) <= norm v2) by (pose proof (norm_diff v2 v) as D; apply abs_in in D; lra).
  assert (A : Rabs (norm v2 * norm v2 / 2 - norm v * norm v / 2) <= 101 / 100 * (d * (norm v * norm v))).
  { apply Rabs_le. assert (0 <= norm v * norm v) by nra.
    assert (norm v2 * norm v2 <= (norm v * (1 + d)) * (norm v * (1 + d))) by (apply Rmult_le_compat; auto).
    assert ((norm v * (1 - d)) * (norm v * (1 - d)) <= norm v2 * norm v2) by (apply Rmult_le_compat; auto; nra).
    replace (norm v * (1 + d) * (norm v * (1 + d))) with (norm v * norm v + 2 * (d * (norm v * norm v)) + d * (d * (norm v * norm v))) in * by ring.
    replace (norm v * (1 - d) * (norm v * (1 - d))) with (norm v * norm v - 2 * (d * (norm v * norm v)) + d * (d * (norm v * norm v))) in * by ring.
    assert (0 <= d * (norm v * norm v)) by nra. nra. }
  assert (B : Rabs (mu / norm r2 - mu / norm r) <= 101 / 100 * (d * (mu / norm r))).
  { replace (mu / norm r2 - mu / norm r) with ((mu / norm r) * ((norm r - norm r2) * / norm r2)) by (field; lra).
    rewrite Rabs_mult, (Rabs_pos_eq (mu / norm r)) by (apply Rlt_le, Rdiv_lt_0_compat; auto).
    replace (101 / 100 * (d * (mu / norm r))) with (mu / norm r * (101 / 100 * d)) by ring. apply Rmult_le_compat_l; [apply Rlt_le, Rdiv_lt_0_compat; auto|].
    rewrite Rabs_mult, (Rabs_pos_eq (/ norm r2)) by (apply Rlt_le, Rinv_0_lt_compat; auto).
    apply Rmult_le_reg_r with (norm r2); [auto|]. rewrite Rmult_assoc, Rinv_l, Rmult_1_r by lra. apply Rabs_le. nra. }
  assert (C : d * (mu / norm r) <= w1 * (mu / k_a k)).
  { pose proof rho_a as RA. destruct Hv as (_ & Ha & _). assert (E1 : 0 < 1 - e < 1) by (unfold e; lra).
    apply Rmult_le_reg_r with (norm r); [auto|]. replace (d * (mu / norm r) * norm r) with (d * mu) by (field; lra).
    replace (w1 * (mu / k_a k) * norm r) with ((w1 * mu / k_a k) * norm r) by (field; lra).
    apply Rle_trans with (w1 * mu / k_a k * (k_a k * (1 - e))).
    - rewrite E. replace (w1 * mu / k_a k * (k_a k * (1 - e))) with (w1 * (1 - e) * mu) by (field; lra). lra.
    - apply Rmult_le_compat_l; [|auto]. apply Rlt_le, Rdiv_lt_0_compat; [apply Rmult_lt_0_compat|]; auto. }
  assert (F : norm v * norm v <= 2 * (mu / norm r)).
  { apply Rmult_le_reg_r with (norm r); [auto|]. replace (2 * (mu / norm r) * norm r) with (2 * mu) by (field; lra). exact HB. }
  replace (norm v2 * norm v2 / 2 - mu / norm r2 - (norm v * norm v / 2 - mu / norm r)) with ((norm v2 * norm v2 / 2 - norm v * norm v / 2) - (mu / norm r2 - mu / norm r)) by ring.
  eapply Rle_trans; [apply Rabs_triang|]. rewrite Rabs_Ropp.
  assert (d * (norm v * norm v) <= d * (2 * (mu / norm r))) by (apply Rmult_le_compat_l; lra).
  assert (0 <= d * (mu / norm r)) by (apply Rmult_le_pos; [lra|apply Rlt_le, Rdiv_lt_0_compat; auto]). lra.
Qed.
(** eccentricity vector *)
Local Lemma ecc_pert : norm (minus3 (ecc_vec mu x2) (ecc_vec mu x)) <= 82 / 10 * d.
Proof.
  pose proof r_pos as Rp. pose proof d_small as Ds. pose proof Hmu as M. pose proof r2_abs as R2.
  pose proof (FloatC2KAcc.Hbound mu k Hv He) as HB. fold x r v in HB. pose proof (norm_pos v) as Vp.
  assert (R2p : 0 < norm r2) by nra.
  assert (HH : norm (minus3 (ang_mom x2) (ang_mom x)) <= 201 / 100 * d * (norm r * norm v)).
  { unfold ang_mom. fold r v r2 v2. eapply Rle_trans; [apply (cross_pert _ _ _ _ _ _ Hr2 Hv2)|]. assert (0 <= d * (norm r * norm v)) by (apply Rmult_le_pos; nra). nra. }
  assert (Hx : norm (ang_mom x) <= norm r * norm v) by apply norm_cross.
  pose proof (cross_pert _ _ _ _ _ _ Hv2 HH) as A.
  assert (A2 : norm (minus3 (cross v2 (ang_mom x2)) (cross v (ang_mom x))) <= 302 / 100 * d * (2 * mu)).
  { eapply Rle_trans; [exact A|].
    assert (d * norm v * norm (ang_mom x) <= d * norm v * (norm r * norm v)) by (apply Rmult_le_compat_l; nra).
    set (q := norm v * norm v * norm r) in *. assert (Q0 : 0 <= q) by (unfold q; apply Rmult_le_pos; nra).
    replace (d * norm v * (norm r * norm v)) with (d * q) in * by (unfold q; ring).
    replace (norm v * (201 / 100 * d * (norm r * norm v))) with (201 / 100 * (d * q)) by (unfold q; ring).
    replace (d * norm v * (201 / 100 * d * (norm r * norm v))) with (201 / 100 * d * (d * q)) by (unfold q; ring).
    assert (0 <= d * q <= d * (2 * mu)) by (split; [nra|apply Rmult_le_compat_l; lra]). nra. }
  assert (A3 : norm (minus3 (scal3 (/ mu) (cross v2 (ang_mom x2))) (scal3 (/ mu) (cross v (ang_mom x)))) <= 604 / 100 * d).
  { replace (minus3 (scal3 (/ mu) (cross v2 (ang_mom x2))) (scal3 (/ mu) (cross v (ang_mom x)))) with (scal3 (/ mu) (minus3 (cross v2 (ang_mom x2)) (cross v (ang_mom x)))) by vring.
    rewrite norm_scal by (apply Rlt_le, Rinv_0_lt_compat; auto). apply Rmult_le_reg_l with mu; [auto|]. rewrite <- Rmult_assoc, Rinv_r, Rmult_1_l by lra. lra. }
  set (c2 := scal3 (/ mu) (cross v2 (ang_mom x2))) in *. set (c1 := scal3 (/ mu) (cross v (ang_mom x))) in *.
  assert (A4 : norm (minus3 (scal3 (/ norm r2) r2) (scal3 (/ norm r) r)) <= 2 * (d * norm r / norm r)).
  { assert (U : forall a, 0 < norm a -> norm (scal3 (/ norm a) a) = 1 /\ scal3 (norm a) (scal3 (/ norm a) a) = a).
    { intros a Ha. split; [rewrite norm_scal by (apply Rlt_le, Rinv_0_lt_compat; auto); field; lra|]. apply vec_eq; unfold scal3, vx, vy, vz; cbn [fst snd]; field; lra. }
    destruct (U r Rp) as [U1 U2]. destruct (U r2 R2p) as [U3 U4].
    apply (unit_diff (norm r2) (norm r)); auto; [lra|]. rewrite U2, U4. exact Hr2. }
  replace (d * norm r / norm r) with d in A4 by (field; lra).
  unfold ecc_vec. fold r v r2 v2 c1 c2.
  replace (minus3 (minus3 c2 (scal3 (/ norm r2) r2)) (minus3 c1 (scal3 (/ norm r) r)))
    with (plus3 (minus3 c2 c1) (scal3 (-1) (minus3 (scal3 (/ norm r2) r2) (scal3 (/ norm r) r)))) by vring.
  eapply Rle_trans; [apply norm_tri|]. rewrite norm_scal_abs, Rabs_left by lra. lra.
Qed.
Definition rhat (k : six R) : vec := plus3 (scal3 (cos (k_nu k)) (P_axis k)) (scal3 (sin (k_nu k)) (Q_axis k)).
Lemma rhat_P q : dot (rhat q) (P_axis q) = cos (k_nu q) /\ dot (rhat q) (Q_axis q) = sin (k_nu q) /\ norm (rhat q) = 1.
Proof.
  assert (A : dot (rhat q) (P_axis q) = cos (k_nu q)) by (unfold rhat; rewrite dot_plus_l, !dot_scal_l, (dot_comm (Q_axis q)), PP, PQ; ring).
  assert (B : dot (rhat q) (Q_axis q) = sin (k_nu q)) by (unfold rhat; rewrite dot_plus_l, !dot_scal_l, QQ, PQ; ring).
  split; [exact A|]. split; [exact B|]. apply norm_eq; [lra|].
  unfold rhat at 2. rewrite dot_plus_r, !dot_scal_r, A, B. pose proof (sc1 (k_nu q)). lra.
Qed.
Lemma node_W q : scal3 (sin (k_i q)) (node q) = (- vy (W_axis q), vx (W_axis q), 0).
Proof. unfold node, W_axis, scal3. apply vec_eq; unfold vx, vy, vz; cbn [fst snd]; ring. Qed.
Lemma ell_energy q : valid_kep mu q -> k_e q < 1 -> energy mu (peri_state mu q) = - (mu / k_a q) / 2.
Proof.
  intros Hq Hl. rewrite peri_energy by auto. destruct Hq as (_ & A & E & _). unfold semi_latus. destruct Rlt_dec; [|lra].
  assert (0 < 1 - k_e q * k_e q) by nra. field. split; lra.
Qed.
(** the angles of [k2] against those of [k] *)
Definition angles_close (c : R) (k2 : six R) : Prop :=
  Rabs (cos (k_i k2) - cos (k_i k)) <= c /\ Rabs (sin (k_i k2) - sin (k_i k)) <= c /\
  Rabs (cos (k_om k2) - cos (k_om k)) <= c /\ Rabs (sin (k_om k2) - sin (k_om k)) <= c /\
  Rabs (cos (k_Om k2) - cos (k_Om k)) <= c /\ Rabs (sin (k_Om k2) - sin (k_Om k)) <= c /\
  Rabs (cos (k_nu k2) - cos (k_nu k)) <= c /\ Rabs (sin (k_nu k2) - sin (k_nu k)) <= c.
Theorem elem_pert : exists k2, valid_kep mu k2 /\ peri_state mu k2 = x2 /\ 0 < k_e k2 < 1 /\ 0 < k_i k2 < PI /\
  Rabs (k_a k2 - k_a k) <= 63 / 10 * w1 * k_a k /\ Rabs (k_e k2 - e) <= 82 / 10 * d /\ Rabs (sin (k_i k2) - sin (k_i k)) <= 41 / 10 * w1 /\
  angles_close (30 * w) k2.
Proof.
  pose proof Hmu as M. pose proof Hs as [S0 S1]. pose proof units as (P & U1 & U2 & U3 & U4 & Ed). pose proof d_small as Ds.
  assert (E1 : 0 < 1 - e < 1) by (unfold e; lra). assert (E0 : 0 < e < 1) by (unfold e; lra). pose proof Hv as (_ & Ha & _).
  assert (Ww : w1 = w * (e * sin (k_i k))) by (unfold w1, w; field; lra).
  assert (Wp : 0 < w) by lra.
  assert (W1 : w1 <= / 10000 * sin (k_i k)).
  { rewrite Ww. replace (w * (e * sin (k_i k))) with ((w * e) * sin (k_i k)) by ring. apply Rmult_le_compat_r; nra. }
  assert (Ex : energy mu x = - (mu / k_a k) / 2) by (apply ell_energy; [auto|unfold e in *; lra]).
  pose proof en_pert as EP. rewrite Ex in EP. apply abs_in in EP.
  assert (A0 : 0 < mu / k_a k) by now apply Rdiv_lt_0_compat.
  assert (WA : w1 * (mu / k_a k) <= / 10000 * (mu / k_a k)) by (apply Rmult_le_compat_r; nra).
  destruct (state_surj mu x2 M h2_nz ltac:(lra)) as (k2 & Hk2 & _ & Hi2 & _ & _ & _ & X2).
  exists k2. split; [exact Hk2|]. split; [exact X2|].
  pose proof (peri_en mu k2 Hk2) as En2. rewrite X2 in En2. pose proof (peri_en mu k Hv) as En. fold x e in En.
  pose proof ecc_pert as EC.
  assert (De : Rabs (k_e k2 - e) <= 82 / 10 * d) by (rewrite <- En2, <- En; eapply Rle_trans; [apply norm_diff|exact EC]).
  assert (d1 : d <= / 10000 * (1 - e)) by (rewrite Ed; apply Rmult_le_compat_r; lra).
  assert (d2 : d <= / 10000 * e). { apply Rmult_le_reg_r with (/ e); [apply Rinv_0_lt_compat; lra|]. replace (/ 10000 * e * / e) with (/ 10000) by (field; lra). fold (d / e). lra. }
  pose proof De as De'. apply abs_in in De'.
  assert (Ee : 0 < k_e k2 < 1) by lra. split; [exact Ee|].
  (* orbit normal *)
  pose proof (peri_h mu k Hv) as Hh. pose proof (peri_h mu k2 Hk2) as Hh2. fold x in Hh. rewrite X2 in Hh2.
  pose proof h_pert as HP. rewrite Hh, Hh2 in HP. fold e hn in HP.
  destruct (unit_diff _ hn _ _ _ (unit_W k2) (unit_W k) hn_pos' (sqrt_pos _) HP) as [DW _]. pose proof hn_pos' as Hn.
  replace (2 * (201 / 100 * (w1 * hn) / hn)) with (402 / 100 * w1) in DW by (field; lra).
  (* periapsis *)
  pose proof (peri_ecc mu k Hv) as HE. pose proof (peri_ecc mu k2 Hk2) as HE2. fold x in HE. rewrite X2 in HE2. rewrite HE, HE2 in EC. fold e in EC.
  destruct (unit_diff (k_e k2) e _ _ _ (unit_P k2) (unit_P k) ltac:(lra) ltac:(lra) EC) as [DP _].
  assert (DP' : norm (minus3 (P_axis k2) (P_axis k)) <= 164 / 10 * w) by (replace (2 * (82 / 10 * d / e)) with (164 / 10 * (d / e)) in DP by (field; lra); lra).
  assert (DW' : norm (minus3 (W_axis k2) (W_axis k)) <= 402 / 100 * w) by lra.
  assert (DQ : norm (minus3 (Q_axis k2) (Q_axis k)) <= 205 / 10 * w).
  { pose proof (cross_pert _ _ _ _ _ _ DW' DP') as A. rewrite unit_W, unit_P in A. change (cross (W_axis k2) (P_axis k2)) with (Q_axis k2) in A. change (cross (W_axis k) (P_axis k)) with (Q_axis k) in A.
    eapply Rle_trans; [exact A|]. clear - Wp Hw. assert (w * w <= w * / 10000) by (apply Rmult_le_compat_l; lra). lra. }
  (* node *)
  assert (S2 : 0 <= sin (k_i k2)) by (apply sin_ge_0; lra).
  assert (DNw : norm (minus3 (scal3 (sin (k_i k2)) (node k2)) (scal3 (sin (k_i k)) (node k))) <= 402 / 100 * w1).
  { rewrite !node_W. eapply Rle_trans; [|exact DW]. pose proof (norm_pos (minus3 (W_axis k2) (W_axis k))). apply norm_le; [auto|]. rewrite norm_sq.
    set (a := W_axis k2). set (b := W_axis k). unfold dot, minus3, vx, vy, vz. cbn [fst snd]. pose proof (Rle_0_sqr (snd a - snd b)) as Z. unfold Rsqr in Z. lra. }
  destruct (unit_diff _ (sin (k_i k)) _ _ _ (unit_node k2) (unit_node k) S0 S2 DNw) as [DN DS].
  assert (DN' : norm (minus3 (node k2) (node k)) <= 81 / 10 * w).
  { replace (2 * (402 / 100 * w1 / sin (k_i k))) with (804 / 100 * (d / ((1 - e) * sin (k_i k)))) in DN by (unfold w1; field; lra). lra. }
  assert (Hi2' : 0 < k_i k2 < PI).
  { apply abs_in in DS. assert (0 < sin (k_i k2)) by lra.
    destruct Hi2 as [[I1|I1] [I2|I2]]; [lra| | |]; exfalso; rewrite ?I2, <- ?I1, ?sin_PI, ?sin_0 in H; lra. }
  split; [exact Hi2'|].
  (* direction of the position *)
  assert (DR : norm (minus3 (rhat k2) (rhat k)) <= 2 * w).
  { pose proof Hr2 as A. unfold r2, r in A. rewrite <- X2 in A. unfold x in A. rewrite (peri_norm mu k Hv) in A. rewrite !peri_pos in A. fold (rhat k2) (rhat k) in A.
    assert (R0 : forall q, valid_kep mu q -> k_e q < 1 -> 0 < peri_r mu q).
    { intros q Hq Hl. unfold peri_r. destruct Hq as (_ & ? & ? & ?). apply Rdiv_lt_0_compat; auto. now apply semi_latus_pos. }
    fold (peri_r mu k) in A.
    destruct (unit_diff _ (peri_r mu k) _ _ _ (proj2 (proj2 (rhat_P k2))) (proj2 (proj2 (rhat_P k))) (R0 k Hv ltac:(unfold e in *; lra)) (Rlt_le _ _ (R0 k2 Hk2 ltac:(lra))) A) as [B _].
    pose proof (R0 k Hv ltac:(unfold e in *; lra)). replace (2 * (d * peri_r mu k / peri_r mu k)) with (2 * d) in B by (field; lra). lra. }
  split.
  { assert (Ex2 : energy mu x2 = - (mu / k_a k2) / 2) by (rewrite <- X2; apply ell_energy; [auto|lra]). rewrite Ex2 in EP.
    pose proof Hk2 as (_ & Ha2 & _). set (A := mu / k_a k) in *. set (A2 := mu / k_a k2) in *.
    assert (A2p : A * (999 / 1000) <= A2) by lra. assert (0 < A2) by lra.
    assert (Q : k_a k = mu / A) by (unfold A; field; lra). assert (Q2 : k_a k2 = mu / A2) by (unfold A2; field; lra).
    assert (D : k_a k2 - k_a k = k_a k * ((A - A2) * / A2)) by (rewrite Q2, Q; field; lra).
    rewrite D, Rabs_mult, (Rabs_pos_eq (k_a k)) by lra. rewrite (Rmult_comm (63 / 10 * w1)). apply Rmult_le_compat_l; [lra|].
    rewrite Rabs_mult, (Rabs_pos_eq (/ A2)) by (apply Rlt_le, Rinv_0_lt_compat; auto).
    apply Rmult_le_reg_r with A2; [auto|]. rewrite Rmult_assoc, Rinv_l, Rmult_1_r by lra.
    assert (w1 * (A * (999 / 1000)) <= w1 * A2) by (apply Rmult_le_compat_l; lra).
    assert (0 < w1 * A) by (apply Rmult_lt_0_compat; lra). apply Rabs_le. lra. }
  split; [exact De|]. split; [lra|].
  destruct (comp_abs (minus3 (W_axis k2) (W_axis k))) as (_ & _ & CW). destruct (comp_abs (minus3 (node k2) (node k))) as (CN1 & CN2 & _).
  change (vz (minus3 (W_axis k2) (W_axis k))) with (cos (k_i k2) - cos (k_i k)) in CW.
  change (vx (minus3 (node k2) (node k))) with (cos (k_Om k2) - cos (k_Om k)) in CN1.
  change (vy (minus3 (node k2) (node k))) with (sin (k_Om k2) - sin (k_Om k)) in CN2.
  destruct (node_om k) as [O1 O2]. destruct (node_om k2) as [O3 O4].
  pose proof (dot_pert _ _ _ _ _ _ DP' DN' (unit_P k2) (unit_node k)) as OC. rewrite O1, O3 in OC.
  pose proof (dot_pert _ _ _ _ _ _ DQ DN' (unit_Q k2) (unit_node k)) as OS. rewrite O2, O4 in OS.
  destruct (rhat_P k) as (V1 & V2 & V3). destruct (rhat_P k2) as (V4 & V5 & V6).
  pose proof (dot_pert _ _ _ _ _ _ DR DP' V6 (unit_P k)) as NC. rewrite V1, V4 in NC.
  pose proof (dot_pert _ _ _ _ _ _ DR DQ V6 (unit_Q k)) as NS. rewrite V2, V5 in NS.
  replace (- sin (k_om k2) - - sin (k_om k)) with (- (sin (k_om k2) - sin (k_om k))) in OS by ring. rewrite Rabs_Ropp in OS.
  split; [lra|]. split; [lra|]. split; [lra|]. split; [lra|]. split; [lra|]. split; [lra|]. split; lra.
Qed.
End Elem.
