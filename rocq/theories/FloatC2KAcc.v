(** * Accuracy of one column of cart_to_kep in rounded arithmetic: inclined ellipses *)
From Coq Require Import Reals QArith Qreals ZArith Lra Lia Psatz Bool List.
From Verif Require Import NP NPReal NPFloat FloatBase KeplerModel ConvModel ConvCols Spec RealBase KepReal CartReal PropsKep CartInv FloatAcc FloatVec PropsFloat PropsFloatAcc FloatC2K FloatC2KCol.
From Flocq Require Core.
Import ListNotations.
Local Open Scope R_scope.

Lemma ecc_comp mu x : 0 < mu -> 0 < norm (pos x) ->
  let r := pos x in let v := vel x in let f c d := / mu * ((norm v * norm v - mu / norm r) * c - dot r v * d) in
  f (vx r) (vx v) = vx (ecc_vec mu x) /\ f (vy r) (vy v) = vy (ecc_vec mu x) /\ f (vz r) (vz v) = vz (ecc_vec mu x).
Proof.
  intros Hmu Hr r v f. unfold f. rewrite norm_sq. unfold ecc_vec, ang_mom. fold r v.
  assert (Hc : cross v (cross r v) = minus3 (scal3 (dot v v) r) (scal3 (dot r v) v)) by vring.
  rewrite Hc. fold r in Hr. set (n := norm r) in *. clearbody n. unfold minus3, scal3, vx, vy, vz. cbn [fst snd].
  repeat split; field; lra.
Qed.
(** an upper bound of 1 - cos *)
Lemma cos_quad t : 1 - cos t <= t * t / 2.
Proof.
  replace t with (2 * (t / 2)) at 1 by field. rewrite cos_2a_sin.
  pose proof (sin_lip (t / 2) 0) as S. rewrite sin_0, !Rminus_0_r in S.
  assert (sin (t / 2) * sin (t / 2) <= (t / 2) * (t / 2)); [|lra].
  rewrite <- (Rabs_pos_eq (sin (t / 2) * sin (t / 2))), <- (Rabs_pos_eq (t / 2 * (t / 2))) by nra. rewrite !Rabs_mult.
  pose proof (Rabs_pos (sin (t / 2))). nra.
Qed.

Lemma half_angle ci ct si t w : si * si + ci * ci = 1 -> - (22 * w) <= ct - ci <= 22 * w -> 100 * w <= si * si -> 
  1 - ct <= t * t / 2 -> si * si / 4 <= t * t / 2.
Proof.
  intros H1 H2 H3 H4. assert (Q : si * si / 2 <= 1 - ci) by (pose proof (Rle_0_sqr (1 - ci)) as Z; unfold Rsqr in Z; lra). lra.
Qed.
Lemma sq_ge si t : 0 < si -> 0 <= t -> si * si / 4 <= t * t / 2 -> 7 / 10 * si <= t.
Proof. intros. nra. Qed.
Lemma tiny_neg si u y : 0 < u -> u <= / 100000000 * si -> - (4 * u) <= y <= 0 -> si * si / 4 <= y * y / 2 -> False.
Proof.
  intros H0 H1 H2 H3. assert (y * y <= 4 * u * (4 * u)) by nra. 
  assert (u * u <= / 100000000 * si * (/ 100000000 * si)) by (apply Rmult_le_compat; lra). nra.
Qed.

Section Acc.
Context (p : Z) (Hp : (1 < p)%Z) (L : libm) (HL : acos_ok p L).
Notation rd := (rnd p).
Let u := Core.Raux.bpow Core.Zaux.radix2 (- p).
Let Hrd : rounding rd u := binary_rounding p Hp.
Context (HA : forall q, -1 <= q <= 1 -> Rabs (rd (l_acos L q) - acos q) <= 4 * u).
Context (mu : R) (k : six R) (Hv : valid_kep mu k).
Let a := k_a k.
Let e := k_e k.
Let i := k_i k.
Let om := k_om k.
Let Om := k_Om k.
Let nu := k_nu k.
Let x := peri_state mu k.
Let r := pos x.
Let v := vel x.
Let pl := semi_latus a e.
Let hn := sqrt (mu * pl).
Context (He : 0 < e < 1) (Hi : 0 < i < PI).
Let si := sin i.
Let w := u / (e * (1 - e) * si).
Context (Hw : w <= / 100000000).

Local Lemma Hmu : 0 < mu. Proof. apply Hv. Qed.
Local Lemma Ha : 0 < a. Proof. apply Hv. Qed.
Local Lemma Hden : 0 < 1 + e * cos nu. Proof. apply Hv. Qed.
Local Lemma Hsi : 0 < si <= 1. Proof. split; [apply sin_gt_0; lra|apply SIN_bound]. Qed.
Local Lemma Hu0 : 0 < u. Proof. apply Core.Raux.bpow_gt_0. Qed.
Local Lemma Hpl : pl = a * (1 - e * e).
Proof. unfold pl, semi_latus. destruct (Rlt_dec e 1); [reflexivity|lra]. Qed.
Local Lemma Hplp : 0 < pl. Proof. rewrite Hpl. pose proof Ha. apply Rmult_lt_0_compat; nra. Qed.
Local Lemma Hhn : 0 < hn. Proof. apply sqrt_lt_R0, Rmult_lt_0_compat; [apply Hmu|apply Hplp]. Qed.
Local Lemma Hhn2 : hn * hn = mu * pl. Proof. apply sqrt_sqrt. pose proof Hmu. pose proof Hplp. nra. Qed.
Local Lemma hnorm : norm (ang_mom x) = hn. Proof. now apply peri_hn. Qed.
Local Lemma hnz : ang_mom x <> (0, 0, 0). Proof. now apply peri_h_nz. Qed.
Local Lemma Hr : 0 < norm r. Proof. apply rn_pos, hnz. Qed.
Local Lemma Rval : norm r * (1 + e * cos nu) = pl.
Proof. unfold r, x. rewrite peri_norm by auto. change (semi_latus (k_a k) (k_e k)) with pl. fold e nu. pose proof Hden. field. lra. Qed.
Local Lemma VV : norm v * norm v * pl = mu * (1 + 2 * e * cos nu + e * e).
Proof. unfold v, x. rewrite norm_sq, peri_vv by auto. change (semi_latus (k_a k) (k_e k)) with pl. fold e nu. pose proof Hplp. field. lra. Qed.
Local Lemma Hbound : norm v * norm v * norm r <= 2 * mu.
Proof.
  pose proof VV as A. pose proof Rval as B. pose proof Hden as D. pose proof Hmu as M. pose proof Hplp.
  rewrite <- B in A. set (c := 1 + e * cos nu) in *. 
  apply (Rmult_le_reg_r c); auto. replace (norm v * norm v * norm r * c) with (norm v * norm v * (norm r * c)) by ring. rewrite A.
  unfold c. assert (e * e <= 1) by nra. nra.
Qed.
Local Lemma RV : norm r * norm v * (1 - e) <= hn.
Proof.
  pose proof VV as A. pose proof Rval as B. pose proof Hden as D. pose proof Hmu as M. pose proof Hplp as P. pose proof Hhn. pose proof Hhn2 as H2.
  pose proof Hr. pose proof (norm_pos v). set (c := cos nu) in *.
  assert (S : (norm r * norm v * (1 - e)) * (norm r * norm v * (1 - e)) <= hn * hn).
  { rewrite H2. apply (Rmult_le_reg_r (pl * ((1 + e * c) * (1 + e * c)))); [apply Rmult_lt_0_compat; nra|].
    replace (norm r * norm v * (1 - e) * (norm r * norm v * (1 - e)) * (pl * ((1 + e * c) * (1 + e * c))))
      with ((norm v * norm v * pl) * ((1 - e) * (1 - e)) * ((norm r * (1 + e * c)) * (norm r * (1 + e * c)))) by ring.
    rewrite A, B. replace (mu * pl * (pl * ((1 + e * c) * (1 + e * c)))) with (mu * (pl * pl) * ((1 + e * c) * (1 + e * c))) by ring.
    replace (mu * (1 + 2 * e * c + e * e) * ((1 - e) * (1 - e)) * (pl * pl)) with (mu * (pl * pl) * ((1 + 2 * e * c + e * e) * ((1 - e) * (1 - e)))) by ring.
    apply Rmult_le_compat_l; [apply Rmult_le_pos; nra|].
    assert (Z : 0 <= 1 + 2 * e * c + e * e) by (pose proof (COS_bound nu) as C; fold c in C; assert (- e <= e * c) by nra; nra).
    assert ((1 - e) * (1 - e) <= 1 - e * e) by nra.
    assert ((1 + 2 * e * c + e * e) * ((1 - e) * (1 - e)) <= (1 + 2 * e * c + e * e) * (1 - e * e)) by (apply Rmult_le_compat_l; lra).
    pose proof (Rle_0_sqr (e * (c + e))) as Sq. unfold Rsqr in Sq. lra. }
  assert (0 <= norm r * norm v * (1 - e)) by (apply Rmult_le_pos; nra). nra.
Qed.
(** the three coarser units *)
Let w1 := u / (1 - e).
Let w2 := u / ((1 - e) * si).
Let w3 := u / e.
Local Lemma w_mul A : 0 < A -> forall t, t / A * A = t. Proof. intros. field. lra. Qed.
Local Lemma Hww : u <= w1 /\ w1 <= w2 /\ w2 <= w /\ u <= w3 /\ w3 <= w.
Proof.
  pose proof Hu0 as U. pose proof Hsi as S.
  assert (P : forall A B, 0 < A -> A <= B -> u / B <= u / A).
  { intros A B HA0 HAB. apply Rmult_le_compat_l; [lra|]. apply Rinv_le_contravar; auto. }
  assert (K1 : 0 < (1 - e) * si) by nra. assert (K2 : 0 < e * (1 - e) * si) by (rewrite Rmult_assoc; nra).
  assert (L1 : (1 - e) * si <= 1 - e) by nra. assert (L2 : e * (1 - e) * si <= (1 - e) * si) by (rewrite Rmult_assoc; nra).
  assert (L3 : e * (1 - e) * si <= e) by (rewrite Rmult_assoc; nra).
  unfold w1, w2, w3, w. repeat split.
  - replace u with (u / 1) at 1 by field. apply P; lra.
  - apply P; lra.
  - apply P; lra.
  - replace u with (u / 1) at 1 by field. apply P; lra.
  - apply P; lra.
Qed.
Local Lemma Hu8 : u <= / 100000000. Proof. pose proof Hww. lra. Qed.
Let R1 := Rle_refl u.

(** change of unit *)
Local Lemma conv w' x' y M M' c : err u x' y M c -> 0 <= c -> u * M <= w' * M' -> Rabs y <= M' -> err w' x' y M' c.
Proof. intros [H _] Hc HM Hy. split; auto. rewrite Rmult_assoc in *. eapply Rle_trans; [exact H|]. now apply Rmult_le_compat_l. Qed.

Let hx := vx (ang_mom x).
Let hy := vy (ang_mom x).
Let hz := vz (ang_mom x).
Local Lemma acc_hx : err u (f_hx p x) hx (norm r * norm v) (31 / 10).
Proof. apply (acc_cross rd u Hrd Hu8 r v (vy r) (vz v) (vz r) (vy v)), cross_comp. Qed.
Local Lemma acc_hy : err u (f_hy p x) hy (norm r * norm v) (31 / 10).
Proof. apply (acc_cross rd u Hrd Hu8 r v (vz r) (vx v) (vx r) (vz v)), cross_comp. Qed.
Local Lemma acc_hz : err u (f_hz p x) hz (norm r * norm v) (31 / 10).
Proof. apply (acc_cross rd u Hrd Hu8 r v (vx r) (vy v) (vy r) (vx v)), cross_comp. Qed.
Local Lemma norm_h_le : norm (ang_mom x) <= norm r * norm v.
Proof.
  pose proof (norm_pos r). pose proof (norm_pos v). apply norm_le; [nra|].
  replace ((norm r * norm v) * (norm r * norm v)) with ((norm r * norm r) * (norm v * norm v)) by ring. rewrite !norm_sq.
  assert (E : dot (cross r v) (cross r v) = dot r r * dot v v - dot r v * dot r v) by (vunf; ring).
  unfold ang_mom. fold r v. rewrite E. nra.
Qed.
Local Lemma uRV : u * (norm r * norm v) <= w1 * hn.
Proof.
  pose proof RV as A. pose proof Hu0. unfold w1. apply (Rmult_le_reg_r (1 - e)); [lra|].
  replace (u / (1 - e) * hn * (1 - e)) with (u * hn) by (field; lra). rewrite Rmult_assoc. apply Rmult_le_compat_l; lra.
Qed.
Local Lemma acc_hn : err u (f_hn p x) hn (norm r * norm v) (124 / 10).
Proof.
  pose proof (err_norm rd u u (f_hx p x, f_hy p x, f_hz p x) (ang_mom x) (norm r * norm v) (31 / 10) Hrd R1 Hu8 ltac:(lra) norm_h_le acc_hx acc_hy acc_hz) as A.
  rewrite hnorm in A. eapply (err_weak rd u Hrd u R1); [exact A|lra|lra].
Qed.
Local Lemma w1_8 : w1 <= / 100000000. Proof. pose proof Hww. lra. Qed.
Local Lemma w2_8 : w2 <= / 100000000. Proof. pose proof Hww. lra. Qed.
Local Lemma w3_8 : w3 <= / 100000000. Proof. pose proof Hww. lra. Qed.
Local Lemma uw1 : u <= w1. Proof. apply Hww. Qed.
Local Lemma uw2 : u <= w2. Proof. pose proof Hww. lra. Qed.
Local Lemma uw3 : u <= w3. Proof. apply Hww. Qed.
Local Lemma uw : u <= w. Proof. pose proof Hww. lra. Qed.
Local Lemma rel_hn : rel w1 (f_hn p x) hn (124 / 10).
Proof.
  pose proof Hhn. apply rel_err. rewrite Rabs_pos_eq by lra. apply (conv _ _ _ _ _ _ acc_hn); [lra|apply uRV|rewrite Rabs_pos_eq; lra].
Qed.
Local Lemma cosi : hz / hn = cos i.
Proof.
  unfold hz, x. rewrite peri_h by auto. fold a e pl hn. pose proof Hhn. unfold W_axis, scal3, vz. cbn [fst snd]. fold i. field. lra.
Qed.
Local Lemma acc_qi : f_hn p x <> 0 /\ Rabs (f_qi p x - cos i) <= 18 * w1.
Proof.
  pose proof Hhn. pose proof uRV.
  assert (Z : err w1 (f_hz p x) hz hn (31 / 10)).
  { apply (conv _ _ _ _ _ _ acc_hz); [lra|apply uRV|]. rewrite <- hnorm. apply comp_abs. }
  destruct (err_div rd u Hrd w1 uw1 w1_8 _ _ _ _ _ _ _ Z rel_hn ltac:(lra) ltac:(lra) ltac:(lra)) as [A [B _]].
  split; auto. rewrite cosi in B. replace (hn / Rabs hn) with 1 in B by (rewrite Rabs_pos_eq by lra; field; lra).
  fold (f_qi p x) in B. pose proof Hu0. pose proof uw1. unfold f_qi in *. lra.
Qed.

(** the node *)
Let N := hn * si.
Local Lemma HN : 0 < N. Proof. apply Rmult_lt_0_compat; [apply Hhn|apply Hsi]. Qed.
Local Lemma nodeN : norm (nodev x) = N. Proof. apply peri_nn; auto. apply Rlt_le, Hsi. Qed.
Local Lemma node_xy : - hy = N * cos Om /\ hx = N * sin Om.
Proof.
  pose proof (peri_nodev mu k Hv) as E. fold x in E. unfold nodev in E. fold hx hy in E. fold a e pl hn i si Om in E. fold N in E.
  unfold scal3, vx, vy, vz in E. cbn [fst snd] in E. injection E as E1 E2 _. split; [exact E1|exact E2].
Qed.
Local Lemma uRV2 : u * (norm r * norm v) <= w2 * N.
Proof.
  pose proof uRV as A. pose proof Hsi. pose proof Hhn. replace (w2 * N) with (w1 * hn); auto. unfold w1, w2, N. field. lra.
Qed.
Local Lemma absN t : -1 <= t <= 1 -> Rabs (N * t) <= N.
Proof. intros Ht. pose proof HN. rewrite Rabs_mult, (Rabs_pos_eq N) by lra. assert (Rabs t <= 1) by (apply Rabs_le; lra). nra. Qed.
Local Lemma acc_nx : err w2 (- f_hy p x) (- hy) N (31 / 10).
Proof.
  apply (conv _ _ _ _ _ _ (err_opp u _ _ _ _ acc_hy)); [lra|apply uRV2|]. destruct node_xy as [-> _]. apply absN, COS_bound.
Qed.
Local Lemma acc_ny : err w2 (f_hx p x) hx N (31 / 10).
Proof. apply (conv _ _ _ _ _ _ acc_hx); [lra|apply uRV2|]. destruct node_xy as [_ ->]. apply absN, SIN_bound. Qed.
Local Lemma rel_nn : rel w2 (f_nn p x) N (124 / 10).
Proof.
  pose proof HN.
  assert (Z : err w2 0 0 N (31 / 10)).
  { split; rewrite ?Rminus_0_r, Rabs_R0; [|lra]. pose proof uw2. pose proof Hu0. apply Rmult_le_pos; nra. }
  pose proof (err_norm rd u w2 (- f_hy p x, f_hx p x, 0) (nodev x) N (31 / 10) Hrd uw2 w2_8 ltac:(lra) ltac:(rewrite nodeN; lra) acc_nx acc_ny Z) as A.
  rewrite nodeN in A. apply rel_err. rewrite Rabs_pos_eq by lra. eapply (err_weak rd u Hrd w2 uw2); [exact A|lra|lra].
Qed.
Local Lemma acc_qO : f_nn p x <> 0 /\ Rabs (f_qO p x - cos Om) <= 18 * w2.
Proof.
  pose proof HN.
  destruct (err_div rd u Hrd w2 uw2 w2_8 _ _ _ _ _ _ _ acc_nx rel_nn ltac:(lra) ltac:(lra) ltac:(lra)) as [A [B _]].
  split; auto. destruct node_xy as [E _]. rewrite E in B. replace (N * cos Om / N) with (cos Om) in B by (field; lra).
  replace (N / Rabs N) with 1 in B by (rewrite Rabs_pos_eq by lra; field; lra). pose proof Hu0. pose proof uw2. unfold f_qO. lra.
Qed.

(** the eccentricity vector *)
Let ev := ecc_vec mu x.
Local Lemma evn : norm ev = e. Proof. now apply peri_en. Qed.
Local Lemma acc_e : err u (f_e0 p x mu) (vx ev) 5 29 /\ err u (f_e1 p x mu) (vy ev) 5 29 /\ err u (f_e2 p x mu) (vz ev) 5 29.
Proof.
  destruct (ecc_comp mu x Hmu Hr) as (A & B & C). fold ev in A, B, C. rewrite <- A, <- B, <- C.
  destruct (comp_abs r) as (D1 & D2 & D3). destruct (comp_abs v) as (E1 & E2 & E3).
  split; [|split]; (apply (acc_ecc rd u Hrd Hu8 r v mu Hmu Hr Hbound); auto).
Qed.
Local Lemma u5 : u * 5 = 5 * w3 * e. Proof. unfold w3. field. lra. Qed.
Local Lemma acc_e3 : err w3 (f_e0 p x mu) (vx ev) e 145 /\ err w3 (f_e1 p x mu) (vy ev) e 145 /\ err w3 (f_e2 p x mu) (vz ev) e 145.
Proof.
  destruct acc_e as (A & B & C). pose proof u5. destruct (comp_abs ev) as (D1 & D2 & D3). rewrite evn in *.
  assert (K : forall x' y, err u x' y 5 29 -> Rabs y <= e -> err w3 x' y e 145).
  { intros x' y [H1 _] H2. split; auto. lra. }
  split; [|split]; apply K; auto.
Qed.
Local Lemma acc_en : Rabs (f_en p x mu - e) <= 290 * u.
Proof.
  destruct acc_e as (A & B & C).
  destruct (err_norm rd u u (f_e0 p x mu, f_e1 p x mu, f_e2 p x mu) ev 5 29 Hrd R1 Hu8 ltac:(lra) ltac:(rewrite evn; lra) A B C) as [D _].
  rewrite evn in D. unfold f_en. pose proof Hu0. lra.
Qed.
Local Lemma rel_en : rel w3 (f_en p x mu) e 290.
Proof. unfold rel. rewrite (Rabs_pos_eq e) by lra. pose proof acc_en. pose proof u5. lra. Qed.

(** the semi-major axis *)
Local Lemma energyv : norm v * norm v / 2 - mu / norm r = - (mu / (2 * a)).
Proof.
  pose proof Ha. pose proof (peri_energy mu k Hv) as E. fold x a e pl in E. unfold energy in E. fold r v in E. rewrite norm_sq, E, Hpl. field. split; nra.
Qed.
Local Lemma mur : mu / norm r <= mu / (a * (1 - e)).
Proof.
  pose proof Ha. pose proof Hmu. pose proof Hr. pose proof Rval as B. rewrite Hpl in B. pose proof (COS_bound nu).
  apply Rmult_le_compat_l; [lra|]. apply Rinv_le_contravar; [nra|]. 
  assert (norm r * (1 + e * cos nu) <= norm r * (1 + e)) by (apply Rmult_le_compat_l; nra).
  apply (Rmult_le_reg_r (1 + e)); [lra|]. nra.
Qed.
Local Lemma acc_a' : rd (2 * eps_f rd r v mu) <> 0 /\ Rabs (f_a p x mu - a) <= 100 * w1 * a.
Proof.
  pose proof Ha as Ha0. pose proof Hmu as Hm. pose proof Hu0 as U. pose proof uw1 as UW. pose proof w1_8 as W8.
  destruct (acc_eps rd u Hrd Hu8 r v mu Hm Hr) as [E _]. rewrite energyv in E.
  set (w' := 4 * w1). assert (Hw' : u <= w') by (unfold w'; lra). assert (Hw4 : w' <= / 10000) by (unfold w'; lra).
  assert (B : norm v * norm v / 2 + mu / norm r <= 2 * (mu / (a * (1 - e)))).
  { pose proof mur. pose proof energyv. assert (0 < mu / (2 * a)) by (apply Rdiv_lt_0_compat; lra). lra. }
  assert (R2 : rel w' (eps_f rd r v mu) (- (mu / (2 * a))) 19).
  { unfold rel. eapply Rle_trans; [exact E|]. rewrite Rabs_Ropp, (Rabs_pos_eq (mu / (2 * a))) by (apply Rlt_le, Rdiv_lt_0_compat; lra).
    apply Rle_trans with (19 * u * (2 * (mu / (a * (1 - e))))); [apply Rmult_le_compat_l; lra|]. right. unfold w', w1. field. lra. }
  assert (T : rel w' 2 2 0) by apply rel_refl.
  pose proof (rel_mul rd u Hrd w' Hw' Hw4 _ _ _ _ _ _ T R2 ltac:(lra) ltac:(lra)) as M.
  assert (Z : 0 < mu / (2 * a)) by (apply Rdiv_lt_0_compat; lra).
  destruct (rel_div rd u Hrd w' Hw' Hw4 (- mu) (- mu) _ _ 0 _ (rel_refl _ _) M ltac:(lra) ltac:(lra) ltac:(lra)) as [G D].
  split; auto. unfold rel in D. replace (- mu / (2 * - (mu / (2 * a)))) with a in D by (field; split; lra).
  rewrite (Rabs_pos_eq a) in D by lra. unfold f_a. fold r v. unfold w' in D.
  assert (0 <= w1 * a) by nra. lra.
Qed.
(** the argument of the periapsis *)
Local Lemma err_unit wa wb x' y M c : err wa x' y M c -> 0 <= c -> wa <= wb -> err wb x' y M c.
Proof.
  intros H Hc Hl. pose proof (err_M wa _ _ _ _ H). destruct H as [H1 H2]. split; auto. eapply Rle_trans; [exact H1|].
  apply Rmult_le_compat_r; auto. now apply Rmult_le_compat_l.
Qed.
Local Lemma ev_eq : ev = scal3 e (P_axis k). Proof. now apply peri_ecc. Qed.
Local Lemma dot_ne : - hy * vx ev + hx * vy ev + 0 * vz ev = N * e * cos om.
Proof.
  destruct node_xy as [-> ->]. rewrite ev_eq. unfold P_axis. fold i om Om. pose proof (sc1 Om) as S. vunf.
  replace (N * e * cos om) with (N * e * cos om * (sin Om * sin Om + cos Om * cos Om)) by (rewrite S; ring). ring.
Qed.
Local Lemma acc_qo : rd (f_nn p x * f_en p x mu) <> 0 /\ Rabs (f_qo p x mu - cos om) <= 918 * w.
Proof.
  pose proof HN as HN0. pose proof Hww as (_ & W1 & W2 & _ & W3). destruct acc_e3 as (E0 & E1 & E2).
  assert (W0 : 0 <= w) by (pose proof Hu0; pose proof uw; lra).
  assert (Ne : 0 < N * e) by nra.
  pose proof (err_unit _ w _ _ _ _ acc_nx ltac:(lra) W2) as NX. pose proof (err_unit _ w _ _ _ _ acc_ny ltac:(lra) W2) as NY.
  pose proof (err_mul rd u Hrd w uw Hw _ _ _ _ _ _ _ _ NX (err_unit _ w _ _ _ _ E0 ltac:(lra) W3) ltac:(lra) ltac:(lra)) as T0.
  pose proof (err_mul rd u Hrd w uw Hw _ _ _ _ _ _ _ _ NY (err_unit _ w _ _ _ _ E1 ltac:(lra) W3) ltac:(lra) ltac:(lra)) as T1.
  assert (T2 : err w (rd (0 * f_e2 p x mu)) (0 * vz ev) 0 (31 / 10 + 145 + 2)).
  { rewrite !Rmult_0_l, rnd_0. split; rewrite ?Rminus_0_r, Rabs_R0; lra. }
  pose proof (err_sum3 rd u Hrd w uw Hw _ _ _ _ _ _ _ _ _ _ T0 T1 T2 ltac:(lra)) as T. rewrite dot_ne in T.
  assert (D : rel w (rd (f_nn p x * f_en p x mu)) (N * e) (124 / 10 + 290 + 2)).
  { assert (A : err w (f_nn p x) N N (124 / 10)).
    { apply (err_unit w2); [|lra|auto]. apply (err_rel rd u Hrd w2 uw2); [apply rel_nn|lra|rewrite Rabs_pos_eq; lra]. }
    assert (B : err w (f_en p x mu) e e 290).
    { apply (err_unit w3); [|lra|auto]. apply (err_rel rd u Hrd w3 uw3); [apply rel_en|lra|rewrite Rabs_pos_eq; lra]. }
    pose proof (err_mul rd u Hrd w uw Hw _ _ _ _ _ _ _ _ A B ltac:(lra) ltac:(lra)) as C.
    apply rel_err. rewrite Rabs_pos_eq by lra. exact C. }
  destruct (err_div rd u Hrd w uw Hw _ _ _ _ _ _ _ T D ltac:(lra) ltac:(lra) ltac:(lra)) as [Z [G _]].
  split; auto. unfold f_qo. eapply Rle_trans; [apply clamp_close, COS_bound|].
  replace (N * e * cos om / (N * e)) with (cos om) in G by (field; lra).
  replace ((N * e + N * e + 0) / Rabs (N * e)) with 2 in G by (rewrite Rabs_pos_eq by lra; field; lra). lra.
Qed.
(** the true anomaly *)
Local Lemma dot_er : vx ev * vx r + vy ev * vy r + vz ev * vz r = e * norm r * cos nu.
Proof.
  change (dot ev r = e * norm r * cos nu). rewrite ev_eq. unfold r, x. rewrite <- (peri_rr mu k Hv).
  rewrite peri_pos, !dot_scal_l, !dot_scal_r, !dot_plus_r, !dot_scal_r, PP, PQ. fold e nu. ring.
Qed.
Local Lemma acc_qn : rd (f_en p x mu * rnorm rd r) <> 0 /\ Rabs (f_qn p x mu - cos nu) <= 1348 * w3.
Proof.
  pose proof Hr as Hr0. destruct acc_e3 as (E0 & E1 & E2). destruct (comp_abs r) as (C0 & C1 & C2).
  assert (W0 : 0 <= w3) by (pose proof Hu0; pose proof uw3; lra).
  assert (eR : 0 < e * norm r) by nra.
  assert (T : forall e' f c, err w3 e' f e 145 -> Rabs c <= norm r -> err w3 (rd (e' * c)) (f * c) (e * norm r) 147).
  { intros e' f c H1 H2. pose proof (err_mul rd u Hrd w3 uw3 w3_8 _ _ c c _ _ _ 0 H1 (err_refl w3 c _ H2) ltac:(lra) ltac:(lra)) as K.
    eapply (err_weak rd u Hrd w3 uw3); [exact K|lra|lra]. }
  pose proof (err_sum3 rd u Hrd w3 uw3 w3_8 _ _ _ _ _ _ _ _ _ _ (T _ _ _ E0 C0) (T _ _ _ E1 C1) (T _ _ _ E2 C2) ltac:(lra)) as S. rewrite dot_er in S.
  assert (D : rel w3 (rd (f_en p x mu * rnorm rd r)) (e * norm r) (290 + 6 + 2)).
  { assert (A : err w3 (rnorm rd r) (norm r) (norm r) 6).
    { apply (err_rel rd u Hrd w3 uw3); [|lra|rewrite Rabs_pos_eq; lra]. apply (rel_norm rd u Hrd w3 uw3 w3_8). }
    assert (B : err w3 (f_en p x mu) e e 290).
    { apply (err_rel rd u Hrd w3 uw3); [apply rel_en|lra|rewrite Rabs_pos_eq; lra]. }
    pose proof (err_mul rd u Hrd w3 uw3 w3_8 _ _ _ _ _ _ _ _ B A ltac:(lra) ltac:(lra)) as C.
    apply rel_err. rewrite Rabs_pos_eq by lra. exact C. }
  destruct (err_div rd u Hrd w3 uw3 w3_8 _ _ _ _ _ _ _ S D ltac:(lra) ltac:(lra) ltac:(lra)) as [Z [G _]].
  split; auto. unfold f_qn. eapply Rle_trans; [apply clamp_close, COS_bound|].
  replace (e * norm r * cos nu / (e * norm r)) with (cos nu) in G by (field; lra).
  replace ((e * norm r + e * norm r + e * norm r) / Rabs (e * norm r)) with 3 in G by (rewrite Rabs_pos_eq by lra; field; lra).
  fold r. lra.
Qed.

(** the signs *)
Local Lemma sign_om : Rabs (f_e2 p x mu - e * si * sin om) <= 145 * w * (e * si).
Proof.
  destruct acc_e as (_ & _ & [H _]). rewrite ev_eq in H. 
  replace (vz (scal3 e (P_axis k))) with (e * si * sin om) in H by (unfold P_axis; fold i om Om; change si with (sin i); unfold scal3, vz; cbn [fst snd]; ring).
  eapply Rle_trans; [exact H|]. pose proof Hsi. pose proof Hu0.
  assert (u <= w * (e * si)); [|lra]. unfold w. replace (u / (e * (1 - e) * si) * (e * si)) with (u / (1 - e)) by (field; lra).
  pose proof Hww as [K _]. exact K.
Qed.
Local Lemma sign_Om : Rabs (f_hx p x - N * sin Om) <= 18 * w2 * N.
Proof.
  destruct acc_ny as [H _]. destruct node_xy as [_ E]. rewrite E in H. eapply Rle_trans; [exact H|].
  pose proof HN. pose proof uw2. pose proof Hu0. assert (0 <= w2 * N) by nra. lra.
Qed.
Local Lemma rvv : dot r v / norm r = (peri_s mu k * e) * sin nu.
Proof.
  pose proof Hr as H. unfold r, v, x in *. rewrite <- (peri_rr mu k Hv) in *. rewrite peri_pos, peri_vel.
  rewrite !dot_scal_l, !dot_scal_r, !dot_plus_l, !dot_plus_r, !dot_scal_l, !dot_scal_r, PP, QQ, (dot_comm (Q_axis k)), PQ. fold e nu. field. lra.
Qed.
Local Lemma Vs : norm v <= 2 * peri_s mu k.
Proof.
  pose proof (peri_s_pos mu k Hv) as Sp. pose proof (peri_s_sq mu k Hv) as S2. pose proof (COS_bound nu) as C. apply norm_le; [lra|].
  unfold v, x. rewrite peri_vv by auto. rewrite <- S2. fold e nu. 
  replace (2 * peri_s mu k * (2 * peri_s mu k)) with (peri_s mu k * peri_s mu k * 4) by ring. apply Rmult_le_compat_l; [nra|]. nra.
Qed.
Local Lemma sign_nu : Rabs (rad_vel rd r v - (peri_s mu k * e) * sin nu) <= 26 * w3 * (peri_s mu k * e).
Proof.
  destruct (acc_vr rd u Hrd Hu8 r v Hr) as [H _]. rewrite rvv in H. eapply Rle_trans; [exact H|]. pose proof Vs. pose proof Hu0.
  apply Rle_trans with (13 * u * (2 * peri_s mu k)); [apply Rmult_le_compat_l; lra|]. right. unfold w3. field. lra.
Qed.
(** from the sign of a computed multiple of the sine *)
Local Lemma sign_dec y' A d t : 0 < A -> Rabs (y' - A * sin t) <= d * A ->
  (Rltb y' 0 = true -> sin t <= d) /\ (Rltb y' 0 = false -> - d <= sin t).
Proof.
  intros HA0 H. apply abs_in in H. split; intros E; destruct (Rltb_spec y' 0); try discriminate; nra.
Qed.
(** machine 2 pi - angle *)
Local Lemma flip_acc b q : -1 <= q <= 1 -> Rabs (flipF p b (rd (l_acos L q)) - flipR b (acos q)) <= 30 * u.
Proof.
  intros Hq. pose proof (HA q Hq) as A. pose proof Hu0 as U. pose proof Hu8 as U8. unfold flipF, flipR. destruct b; [|lra].
  pose proof PI_RGT_0 as P0. pose proof PI_4 as P4. pose proof (acos_bound q) as Bq.
  pose proof (rr_err rd u Hrd PI) as EP. rewrite (Rabs_pos_eq PI) in EP by lra. apply abs_in in EP.
  unfold tp. rewrite r2 by auto. pose proof (rr_err rd u Hrd (2 * rd PI)) as ET. 
  assert (RP : 0 <= rd PI <= 41 / 10) by nra. rewrite (Rabs_pos_eq (2 * rd PI)) in ET by lra. apply abs_in in ET.
  assert (UP : 0 <= u * PI <= 4 * u) by nra. assert (UR : 0 <= u * rd PI <= 41 / 10 * u) by nra.
  assert (TP : Rabs (rd (2 * rd PI) - 2 * PI) <= 17 * u) by (apply Rabs_le; lra).
  set (T := rd (2 * rd PI)) in *. set (c := rd (l_acos L q)) in *.
  assert (D : Rabs (T - c - (2 * PI - acos q)) <= 21 * u).
  { replace (T - c - (2 * PI - acos q)) with ((T - 2 * PI) + (- (c - acos q))) by ring.
    replace (21 * u) with (17 * u + 4 * u) by ring. apply abs_add_le; auto. now rewrite Rabs_Ropp. }
  assert (M : Rabs (T - c) <= 9) by (apply abs_in in D; apply Rabs_le; lra).
  eapply Rle_trans; [apply (rd_within rd u Hrd _ _ _ _ D M)|]. lra.
Qed.

Context (Hinc : 100 * w1 <= si * si) (Hlim : / 100000000 <= si) (Helim : 2 / 1000000000 <= e).
Local Lemma uw_si : u <= / 100000000 * si /\ u <= / 100000000 * e /\ u <= / 100000000 * (1 - e).
Proof.
  pose proof Hsi as S. assert (E : u = w * (e * (1 - e) * si)) by (unfold w; field; lra).
  pose proof Hu0 as U. pose proof uw as UW. rewrite E. clear E.
  assert (A : 0 <= e * (1 - e) <= 1) by nra.
  assert (B1 : 0 <= e * (1 - e) * si <= si) by nra.
  assert (B2 : e * (1 - e) * si <= e) by (assert (e * (1 - e) <= e) by nra; nra).
  assert (B3 : e * (1 - e) * si <= 1 - e) by (assert (e * (1 - e) <= 1 - e) by nra; nra).
  repeat split; apply Rmult_le_compat; lra.
Qed.
Local Lemma quot_in c n : fmt p c -> Rabs c <= n -> 0 < n -> -1 <= rd (c / n) <= 1.
Proof. intros Hc Hn H. now apply quot_le. Qed.
Local Lemma fmts : fmt p (f_hx p x) /\ fmt p (f_hy p x) /\ fmt p (f_hz p x).
Proof. repeat split; apply fmt_rnd; lia. Qed.
Local Lemma hn'_pos : 0 < f_hn p x.
Proof.
  pose proof rel_hn as A. unfold rel in A. pose proof Hhn. rewrite (Rabs_pos_eq hn) in A by lra. apply abs_in in A.
  pose proof w1_8. nra.
Qed.
Local Lemma nn'_pos : 0 < f_nn p x.
Proof.
  pose proof rel_nn as A. unfold rel in A. pose proof HN. rewrite (Rabs_pos_eq N) in A by lra. apply abs_in in A.
  pose proof w2_8. nra.
Qed.
Local Lemma qi_in : -1 <= f_qi p x <= 1.
Proof.
  destruct fmts as (A & B & C). apply quot_le; auto; [|apply hn'_pos].
  exact (proj2 (proj2 (fnorm_ge p Hp _ _ _ A B C))).
Qed.
Local Lemma qO_in : -1 <= f_qO p x <= 1.
Proof.
  destruct fmts as (A & B & C). apply quot_le; auto; [|apply nn'_pos].
  exact (proj1 (fnorm_ge p Hp _ _ _ (fmt_opp p _ B) A (fmt_0 p))).
Qed.
Local Lemma i_within : angle_within (22 * w1) (f_i p L x) i.
Proof.
  destruct acc_qi as [_ Q]. pose proof uw1. pose proof Hu0. pose proof w1_8. pose proof Hsi.
  apply (within_weak (18 * w1 + 4 * u)); [|lra].
  apply (angle_float (f_qi p x) i false); [apply qi_in|lra|lra|lra|exact Q|discriminate|intros _; fold si; lra|unfold flipR; apply HA, qi_in].
Qed.
Local Lemma rd_bounds t : 0 <= t -> t * (1 - u) <= rd t <= t * (1 + u).
Proof. intros Ht. pose proof (rr_err rd u Hrd t) as H. rewrite (Rabs_pos_eq t) in H by lra. apply abs_in in H. lra. Qed.
Local Lemma il_le : 0 <= il p <= 41 / 10000000000.
Proof.
  pose proof Hu0. pose proof Hu8. pose proof PI_RGT_0. pose proof PI_4.
  assert (Q : Q2R 1e-9 = / 1000000000) by (unfold Q2R; cbn; lra).
  unfold il. rewrite Q. pose proof (rd_bounds (/ 1000000000) ltac:(lra)) as A. pose proof (rd_bounds PI ltac:(lra)) as B.
  assert (A1 : 0 <= rd (/ 1000000000) <= 101 / 100000000000) by lra. assert (B1 : 0 <= rd PI <= 4001 / 1000) by nra.
  assert (C : 0 <= rd PI * rd (/ 1000000000) <= 4001 / 1000 * (101 / 100000000000)).
  { split; [apply Rmult_le_pos; lra|apply Rmult_le_compat; lra]. }
  pose proof (rd_bounds _ (proj1 C)) as D. split; [nra|]. eapply Rle_trans; [apply D|].
  apply Rle_trans with (4001 / 1000 * (101 / 100000000000) * (1 + / 100000000)); [apply Rmult_le_compat; lra|lra].
Qed.
Local Lemma i_branch : il p < f_i p L x < rd (rd PI - il p).
Proof.
  destruct i_within as (C & _ & _). apply abs_in in C. pose proof Hsi as S. pose proof il_le as I. destruct uw_si as [US _].
  pose proof Hu0 as U. pose proof PI_RGT_0 as P0. pose proof PI_4 as P4. pose proof Hu8 as U8.
  destruct HL as (_ & _ & HR). pose proof (HR _ qi_in) as FR. fold (f_i p L x) in FR. change (rd (l_acos L (f_qi p x))) with (f_i p L x) in FR.
  pose proof (sc1 i) as SC. fold si in SC. pose proof (COS_bound i) as CB.
  pose proof (rd_bounds PI ltac:(lra)) as RP.
  set (t := f_i p L x) in *.
  assert (UP : 0 <= u * PI <= 4 * u) by (clear - U P0 P4; nra).
  assert (RP2 : PI - 4 * u <= rd PI <= PI + 4 * u) by lra.
  assert (K1 : si * si / 4 <= t * t / 2) by (apply (half_angle (cos i) (cos t) si t w1); auto; apply cos_quad).
  assert (K2 : si * si / 4 <= (PI - t) * (PI - t) / 2).
  { apply (half_angle (- cos i) (- cos t) si (PI - t) w1); [lra|lra|auto|].
    pose proof (cos_quad (PI - t)) as K. rewrite cos_minus, cos_PI, sin_PI in K. lra. }
  assert (T1 : 7 / 10 * si <= t) by (apply sq_ge; lra).
  assert (T2 : 7 / 10 * si <= PI - t).
  { destruct (Rle_dec 0 (PI - t)) as [Z|Z]; [apply sq_ge; lra|]. exfalso. apply (tiny_neg si u (PI - t)); auto; lra. }
  split; [lra|]. 
  assert (X0 : 0 <= rd PI - il p <= 5) by (pose proof PI2_3_2; lra).
  pose proof (rd_bounds _ (proj1 X0)) as D.
  assert ((rd PI - il p) * u <= 5 * u) by (apply Rmult_le_compat_r; lra). lra.
Qed.
Local Lemma e_branch : rd (Q2R 1e-9) < f_en p x mu < 1.
Proof.
  pose proof acc_en as A. apply abs_in in A. destruct uw_si as (_ & U1 & U2). pose proof Hu0. pose proof Hu8.
  assert (Q : Q2R 1e-9 = / 1000000000) by (unfold Q2R; cbn; lra). rewrite Q.
  pose proof (rd_bounds (/ 1000000000) ltac:(lra)). lra.
Qed.
Lemma col_acc : let k' := mk6 (f_a p x mu) (f_en p x mu) (f_i p L x) (f_om p L x mu) (f_Om p L x) (f_nu p L x mu) in
  @c2k_col num (NP_rd rd L) false (fin6 x) (Fin mu) = fin6 k' /\
  Rabs (k_a k' - a) <= 100 * w1 * a /\ Rabs (k_e k' - e) <= 290 * u /\ angle_within (22 * w1) (k_i k') i /\
  angle_within (950 * w) (k_om k') om /\ angle_within (50 * w2) (k_Om k') Om /\ angle_within (1400 * w3) (k_nu k') nu.
Proof.
  intros k'. subst k'. destruct acc_a' as [A1 A2]. destruct acc_qo as [O1 O2]. destruct acc_qn as [N1 N2]. destruct acc_qO as [M1 M2].
  pose proof Hu0 as U. pose proof Hww as (W1 & W2 & W3 & W4 & W5). pose proof Hsi as S. pose proof HN as HN0.
  split.
  - change (NP_rd rd L) with (NPc p L). rewrite col_form; auto.
    + apply (rn'_nz rd u Hrd Hu8). apply Hr.
    + pose proof Hmu. lra.
    + pose proof hn'_pos. lra.
    + apply qi_in.
    + apply e_branch.
    + apply i_branch.
    + apply qO_in.
  - cbn [k_a k_e k_i k_om k_Om k_nu s0 s1 s2 s3 s4 s5]. split; [exact A2|]. split; [apply acc_en|]. split; [apply i_within|].
    split; [|split].
    + destruct (sign_dec (f_e2 p x mu) (e * si) (145 * w) om ltac:(apply Rmult_lt_0_compat; lra) sign_om) as [B1 B2].
      apply (within_weak (918 * w + 30 * u)); [|lra].
      apply (angle_float (f_qo p x mu) om (Rltb (f_e2 p x mu) 0)); [apply clampR_bound|lra|lra|lra|lra|intros E; specialize (B1 E); lra|intros E; specialize (B2 E); lra|apply flip_acc, clampR_bound].
    + destruct (sign_dec (f_hx p x) N (18 * w2) Om HN0 sign_Om) as [B1 B2].
      apply (within_weak (18 * w2 + 30 * u)); [|lra].
      apply (angle_float (f_qO p x) Om (Rltb (f_hx p x) 0)); [apply qO_in|lra|lra|lra|lra|intros E; specialize (B1 E); lra|intros E; specialize (B2 E); lra|apply flip_acc, qO_in].
    + destruct (sign_dec (rad_vel rd r v) (peri_s mu k * e) (26 * w3) nu) as [B1 B2].
      { apply Rmult_lt_0_compat; [now apply peri_s_pos|lra]. } { apply sign_nu. }
      apply (within_weak (1348 * w3 + 30 * u)); [|lra].
      apply (angle_float (f_qn p x mu) nu (Rltb (rad_vel rd r v) 0)); [apply clampR_bound|lra|lra|lra|lra|intros E; specialize (B1 E); lra|intros E; specialize (B2 E); lra|apply flip_acc, clampR_bound].
Qed.
(** the size of the angles *)
Lemma col_range : Rabs (f_i p L x) <= 9 /\ Rabs (f_om p L x mu) <= 9 /\ Rabs (f_Om p L x) <= 9 /\ Rabs (f_nu p L x mu) <= 9.
Proof.
  pose proof Hu8. pose proof PI_RGT_0. pose proof PI_4.
  assert (K : forall b q, -1 <= q <= 1 -> Rabs (flipF p b (rd (l_acos L q))) <= 9).
  { intros b q Hq. pose proof (flip_acc b q Hq) as A. apply abs_in in A. pose proof (flipR_range b (acos q) (acos_bound q)). apply Rabs_le. lra. }
  split; [exact (K false _ qi_in)|]. split; [apply K, clampR_bound|]. split; [apply K, qO_in|apply K, clampR_bound].
Qed.
End Acc.
