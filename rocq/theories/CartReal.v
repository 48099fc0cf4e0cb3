(** * cart_to_kep over the reals *)
From Coq Require Import Reals QArith Lra Lia Bool List Nsatz.
From Verif Require Import NP NPReal KeplerModel ConvModel Lists ConvCols ArraySpec PropsArray Spec RealBase KepReal.
Import ListNotations.
Local Open Scope R_scope.

Definition clampR (x : R) : R := Rmax (-1) (Rmin 1 x).
Lemma clampR_bound x : -1 <= clampR x <= 1.
Proof. unfold clampR, Rmax, Rmin. destruct (Rle_dec 1 x); destruct (Rle_dec _ _); lra. Qed.
Lemma clampR_id x : -1 <= x <= 1 -> clampR x = x.
Proof. intros. unfold clampR, Rmax, Rmin. destruct (Rle_dec 1 x); destruct (Rle_dec _ _); lra. Qed.
Definition flipR (b : bool) (x : R) : R := if b then 2 * PI - x else x.
Definition elimR : R := / 1000000000.
Definition ilimR : R := PI * / 1000000000.
Lemma clamp1_fin x : clamp1 (Fin x) = Fin (clampR x).
Proof.
  unfold clamp1. num. destruct (Rltb_spec 1 x); num.
  - rewrite Rltb_false by lra. unfold clampR, Rmax, Rmin.
    destruct (Rle_dec 1 x); destruct (Rle_dec _ _); f_equal; lra.
  - destruct (Rltb_spec x (-1)); unfold clampR, Rmax, Rmin;
    destruct (Rle_dec 1 x); destruct (Rle_dec _ _); f_equal; lra.
Qed.
Lemma flip_fin b x : flip b (Fin x) = Fin (flipR b x).
Proof. unfold flip, flipR. destruct b; num; reflexivity. Qed.

Definition R_i (x : six R) : R := acos (vz (ang_mom x) / norm (ang_mom x)).
Definition R_eg (mu : R) (x : six R) : bool := Rltb elimR (norm (ecc_vec mu x)).
Definition R_ig (x : six R) : bool := Rltb ilimR (R_i x) && Rltb (R_i x) (PI - ilimR).
Definition nodev (x : six R) : vec := (- vy (ang_mom x), vx (ang_mom x), 0).
Definition R_Om (x : six R) : R :=
  if R_ig x then flipR (Rltb (vy (nodev x)) 0) (acos (vx (nodev x) / norm (nodev x))) else 0.
Definition R_om (mu : R) (x : six R) : R :=
  let e := ecc_vec mu x in
  if R_eg mu x then
    if R_ig x then flipR (Rltb (vz e) 0) (acos (clampR (dot (nodev x) e / (norm (nodev x) * norm e))))
    else flipR (Rltb (PI / 2) (R_i x) && Rleb 0 (vy e))
           (flipR (Rltb (R_i x) (PI / 2) && Rltb (vy e) 0) (acos (clampR (vx e / norm e))))
  else 0.
Definition R_nu (mu : R) (x : six R) : R :=
  let e := ecc_vec mu x in let r := pos x in
  if R_eg mu x then flipR (Rltb (dot r (vel x) / norm r) 0) (acos (clampR (dot e r / (norm e * norm r))))
  else if R_ig x then flipR (Rltb (vz r) 0) (acos (clampR (dot (nodev x) r / (norm (nodev x) * norm r))))
  else flipR (Rltb (PI / 2) (R_i x) && Rleb 0 (vy r))
           (flipR (Rltb (R_i x) (PI / 2) && Rltb (vy r) 0) (acos (clampR (vx r / norm r)))).

Definition fin3 (a : vec) : v3 num := (Fin (vx a), Fin (vy a), Fin (vz a)).
Lemma vnorm_fin a : vnorm (fin3 a) = Fin (norm a).
Proof.
  unfold vnorm, vsum, vmul, fin3, c0, c1, c2. cbn [fst snd]. num. rewrite Fin_sqrt; [reflexivity|].
  apply (dot_pos a).
Qed.
Lemma vdots_fin a b : vsum (vmul (fin3 a) (fin3 b)) = Fin (dot a b).
Proof. reflexivity. Qed.
Lemma vcross_fin a b : vcross (fin3 a) (fin3 b) = fin3 (cross a b).
Proof. reflexivity. Qed.
Lemma vdivs_fin a s : s <> 0 -> vdivs (fin3 a) (Fin s) = fin3 (scal3 (/ s) a).
Proof.
  intros. unfold vdivs, fin3, c0, c1, c2. cbn [fst snd]. rewrite !Fin_div by auto.
  vunf. unfold Rdiv. now rewrite !(Rmult_comm _ (/ s)).
Qed.
Lemma vscale_fin s a : vscale (Fin s) (fin3 a) = fin3 (scal3 s a).
Proof. reflexivity. Qed.
Lemma vsub_fin a b : vsub (fin3 a) (fin3 b) = fin3 (minus3 a b).
Proof. reflexivity. Qed.

Lemma comp_norm a : (vx a) * (vx a) <= norm a * norm a /\ vy a * vy a <= norm a * norm a /\ vz a * vz a <= norm a * norm a.
Proof. rewrite norm_sq. vunf. repeat split; nra. Qed.
Lemma ratio_bound u n : 0 < n -> u * u <= n * n -> -1 <= u / n <= 1.
Proof.
  intros Hn Hu. assert (-n <= u <= n) by nra.
  split; apply (Rmult_le_reg_r n); auto; unfold Rdiv; rewrite Rmult_assoc, Rinv_l by lra; lra.
Qed.
Lemma norm_pos_iff a : 0 < norm a <-> a <> (0,0,0).
Proof.
  split.
  - intros H E. subst. unfold norm, dot, vx, vy, vz in H. cbn in H.
    replace (0*0+0*0+0*0) with 0 in H by ring. rewrite sqrt_0 in H. lra.
  - intros H. destruct (norm_pos a) as [|E]; auto. exfalso. apply H.
    pose proof (norm_sq a) as N. rewrite <- E in N. destruct a as [[a b] c]. vunf.
    f_equal; [f_equal|]; nra.
Qed.
(** Lagrange *)
Lemma cauchy a b : dot a b * dot a b <= (norm a * norm b) * (norm a * norm b).
Proof.
  replace ((norm a * norm b) * (norm a * norm b)) with ((norm a * norm a) * (norm b * norm b)) by ring.
  rewrite !norm_sq. 
  assert (dot (cross a b) (cross a b) = dot a a * dot b b - dot a b * dot a b) by (vunf; ring).
  pose proof (dot_pos (cross a b)). lra.
Qed.

Section C2K.
Variables (mu : R) (x : six R).
Hypothesis Hmu : 0 < mu.
Hypothesis Hh : ang_mom x <> (0,0,0).
Lemma hn_pos : 0 < norm (ang_mom x). Proof. now apply norm_pos_iff. Qed.
Lemma rn_pos : 0 < norm (pos x).
Proof.
  apply norm_pos_iff. intros E. apply Hh. unfold ang_mom. rewrite E. vring.
Qed.
Lemma ecc_el_fin : ecc_el (Fin mu) (Fin (norm (vel x))) (Fin (norm (pos x)))
   (Fin (dot (pos x) (vel x) / norm (pos x))) (fin3 (pos x)) (fin3 (vel x)) = fin3 (ecc_vec mu x).
Proof.
  pose proof rn_pos. unfold ecc_el. num. rewrite !Fin_div by lra. num.
  rewrite !vscale_fin, vsub_fin, vscale_fin. f_equal.
  rewrite norm_sq. unfold ecc_vec, ang_mom.
  assert (Hc : cross (vel x) (cross (pos x) (vel x))
               = minus3 (scal3 (dot (vel x) (vel x)) (pos x)) (scal3 (dot (pos x) (vel x)) (vel x))) by vring.
  rewrite Hc. apply vec_eq; vunf; field; lra.
Qed.
Lemma R_i_arg : -1 <= vz (ang_mom x) / norm (ang_mom x) <= 1.
Proof. pose proof hn_pos. apply ratio_bound; auto. apply comp_norm. Qed.
Lemma R_i_range : 0 <= R_i x <= PI.
Proof. apply acos_bound. Qed.
Lemma cos_R_i : cos (R_i x) = vz (ang_mom x) / norm (ang_mom x).
Proof. apply cos_acos, R_i_arg. Qed.
Lemma node_pos : R_ig x = true -> 0 < norm (nodev x).
Proof.
  intros H. apply norm_pos_iff. intros E. unfold nodev in E. 
  assert (E1 : vy (ang_mom x) = 0) by (injection E; lra).
  assert (E2 : vx (ang_mom x) = 0) by (injection E; lra).
  pose proof hn_pos as Hp.
  assert (N : norm (ang_mom x) = Rabs (vz (ang_mom x))).
  { apply norm_eq; [apply Rabs_pos|]. unfold dot. rewrite E1, E2.
    rewrite <- Rabs_mult, Rabs_pos_eq; nra. }
  unfold R_ig in H. apply andb_true_iff in H. destruct H as [H1 H2].
  destruct (Rltb_spec ilimR (R_i x)); [|discriminate].
  destruct (Rltb_spec (R_i x) (PI - ilimR)); [|discriminate].
  assert (0 < ilimR) by (unfold ilimR; pose proof PI_RGT_0; lra).
  pose proof cos_R_i as C. rewrite N in C, Hp.
  unfold Rabs in *. destruct (Rcase_abs (vz (ang_mom x))).
  - assert (cos (R_i x) = -1) as C1 by (rewrite C; field; lra).
    assert (R_i x = PI); [|lra]. rewrite <- cos_PI in C1. apply cos_inj in C1; auto; pose proof PI_RGT_0; lra.
  - assert (cos (R_i x) = 1) as C1 by (rewrite C; field; lra).
    assert (R_i x = 0); [|lra]. rewrite <- cos_0 in C1. apply cos_inj in C1; auto; pose proof PI_RGT_0; lra.
Qed.

Definition R_a : num :=
  let a := num_div (Fin (- mu)) (Fin (2 * energy mu x)) in
  if Rleb 1 (norm (ecc_vec mu x)) then num_opp a else a.

Lemma c2k_real : c2k_col false (fin6 x) (Fin mu)
  = mk6 R_a (Fin (norm (ecc_vec mu x))) (Fin (R_i x)) (Fin (R_om mu x)) (Fin (R_Om x)) (Fin (R_nu mu x)).
Proof.
  pose proof rn_pos as Hr. pose proof hn_pos as Hhn.
  unfold c2k_col, fin6, map6. cbn [s0 s1 s2 s3 s4 s5].
  change (Fin (s0 x), Fin (s1 x), Fin (s2 x)) with (fin3 (pos x)).
  change (Fin (s3 x), Fin (s4 x), Fin (s5 x)) with (fin3 (vel x)).
  rewrite !vnorm_fin, vdivs_fin, vdots_fin by lra.
  replace (dot (scal3 (/ norm (pos x)) (pos x)) (vel x)) with (dot (pos x) (vel x) / norm (pos x))
    by (rewrite dot_scal_l; field; lra).
  rewrite ecc_el_fin, vnorm_fin, vcross_fin. fold (ang_mom x). rewrite vnorm_fin.
  change (c2 (fin3 (ang_mom x))) with (Fin (vz (ang_mom x))).
  rewrite (Fin_div (vz (ang_mom x))) by lra. rewrite Fin_acos by apply R_i_arg. fold (R_i x).
  assert (Hn : vcross (lit 0, lit 0, lit 1) (fin3 (ang_mom x)) = fin3 (nodev x)).
  { rewrite lit_0, lit_1. change (Fin 0, Fin 0, Fin 1) with (fin3 (0,0,1)). rewrite vcross_fin.
    f_equal. unfold nodev. apply vec_eq; vunf; ring. }
  rewrite Hn, vnorm_fin.
  unfold e_lim, i_lim. num. fold ilimR elimR.
  change (Rltb elimR (norm (ecc_vec mu x))) with (R_eg mu x).
  change (Rltb ilimR (R_i x) && Rltb (R_i x) (PI - ilimR)) with (R_ig x).
  replace (PI * / 2) with (PI / 2) by reflexivity.
  change (c0 (fin3 (nodev x))) with (Fin (vx (nodev x))).
  change (c1 (fin3 (nodev x))) with (Fin (vy (nodev x))).
  change (c0 (fin3 (ecc_vec mu x))) with (Fin (vx (ecc_vec mu x))).
  change (c1 (fin3 (ecc_vec mu x))) with (Fin (vy (ecc_vec mu x))).
  change (c2 (fin3 (ecc_vec mu x))) with (Fin (vz (ecc_vec mu x))).
  change (c0 (fin3 (pos x))) with (Fin (vx (pos x))).
  change (c1 (fin3 (pos x))) with (Fin (vy (pos x))).
  change (c2 (fin3 (pos x))) with (Fin (vz (pos x))).
  rewrite !vdots_fin. num.
  f_equal.
  - unfold R_a, energy. rewrite (Fin_div mu) by lra. num. rewrite norm_sq. reflexivity.
  - unfold R_om. destruct (R_eg mu x) eqn:Eg; [|reflexivity].
    assert (Hen : 0 < norm (ecc_vec mu x)).
    { unfold R_eg in Eg. destruct (Rltb_spec elimR (norm (ecc_vec mu x))); [|discriminate].
      unfold elimR in *. lra. }
    destruct (R_ig x) eqn:Ig.
    + pose proof (node_pos Ig). rewrite !Fin_div by nra.
      rewrite clamp1_fin, Fin_acos by apply clampR_bound. now rewrite flip_fin.
    + rewrite !Fin_div by nra. rewrite clamp1_fin, Fin_acos by apply clampR_bound. now rewrite !flip_fin.
  - unfold R_Om. destruct (R_ig x) eqn:Ig; [|reflexivity].
    pose proof (node_pos Ig). rewrite !Fin_div by nra.
    rewrite Fin_acos by (apply ratio_bound; auto; apply comp_norm). now rewrite flip_fin.
  - unfold R_nu. destruct (R_eg mu x) eqn:Eg.
    + assert (Hen : 0 < norm (ecc_vec mu x)).
      { unfold R_eg in Eg. destruct (Rltb_spec elimR (norm (ecc_vec mu x))); [|discriminate].
        unfold elimR in *. lra. }
      rewrite !Fin_div by nra. rewrite clamp1_fin, Fin_acos by apply clampR_bound. now rewrite flip_fin.
    + destruct (R_ig x) eqn:Ig.
      * pose proof (node_pos Ig). rewrite !vdivs_fin by lra. rewrite vdots_fin.
        rewrite clamp1_fin, Fin_acos by apply clampR_bound. rewrite flip_fin.
        replace (dot (scal3 (/ norm (nodev x)) (nodev x)) (scal3 (/ norm (pos x)) (pos x)))
          with (dot (nodev x) (pos x) / (norm (nodev x) * norm (pos x))); auto.
        rewrite dot_scal_l, dot_scal_r. field. lra.
      * rewrite !Fin_div by nra. rewrite clamp1_fin, Fin_acos by apply clampR_bound. now rewrite !flip_fin.
Qed.
Lemma flipR_range b t : 0 <= t <= PI -> 0 <= flipR b t <= 2 * PI.
Proof. unfold flipR. destruct b; lra. Qed.
Lemma flipR2_range b c t : b && c = false -> 0 <= t <= PI -> 0 <= flipR b (flipR c t) <= 2 * PI.
Proof. unfold flipR. destruct b, c; cbn; intros; try discriminate; lra. Qed.
Lemma excl y z : (Rltb (PI / 2) (R_i x) && z) && (Rltb (R_i x) (PI / 2) && y) = false.
Proof.
  destruct (Rltb_spec (PI / 2) (R_i x)), (Rltb_spec (R_i x) (PI / 2)), y, z; try reflexivity. lra.
Qed.
Lemma R_Om_range : 0 <= R_Om x <= 2 * PI.
Proof.
  unfold R_Om. pose proof PI_RGT_0. destruct (R_ig x); [|lra]. apply flipR_range, acos_bound.
Qed.
Lemma R_om_range : 0 <= R_om mu x <= 2 * PI.
Proof.
  unfold R_om. pose proof PI_RGT_0. destruct (R_eg mu x); [|lra].
  destruct (R_ig x); [apply flipR_range, acos_bound|].
  apply flipR2_range; [apply excl|apply acos_bound].
Qed.
Lemma R_nu_range : 0 <= R_nu mu x <= 2 * PI.
Proof.
  unfold R_nu. pose proof PI_RGT_0. destruct (R_eg mu x); [apply flipR_range, acos_bound|].
  destruct (R_ig x); [apply flipR_range, acos_bound|].
  apply flipR2_range; [apply excl|apply acos_bound].
Qed.
(** e^2 - 1 = 2 energy h^2 / mu^2 *)
Lemma ecc_energy : norm (ecc_vec mu x) * norm (ecc_vec mu x) - 1
  = 2 * energy mu x * (norm (ang_mom x) * norm (ang_mom x)) / (mu * mu).
Proof.
  pose proof rn_pos as Hr. rewrite !norm_sq. unfold energy.
  set (n := norm (pos x)) in *. assert (Hn : n * n = dot (pos x) (pos x)) by apply norm_sq.
  assert (Hc : cross (vel x) (cross (pos x) (vel x))
               = minus3 (scal3 (dot (vel x) (vel x)) (pos x)) (scal3 (dot (pos x) (vel x)) (vel x))) by vring.
  unfold ecc_vec, ang_mom. fold n. rewrite Hc.
  assert (Hl : dot (cross (pos x) (vel x)) (cross (pos x) (vel x))
    = dot (pos x) (pos x) * dot (vel x) (vel x) - dot (pos x) (vel x) * dot (pos x) (vel x)) by (vunf; ring).
  rewrite Hl. rewrite !dot_minus_l, !dot_minus_r, !dot_scal_l, !dot_scal_r, !dot_minus_l, !dot_minus_r, !dot_scal_l, !dot_scal_r, <- Hn.
  rewrite (dot_comm (vel x) (pos x)). field. lra.
Qed.
Lemma R_a_val : energy mu x <> 0 -> R_a = Fin (Rabs (mu / (2 * energy mu x))).
Proof.
  intros He. unfold R_a. pose proof hn_pos as Hp. pose proof ecc_energy as EE.
  pose proof (norm_pos (ecc_vec mu x)) as En.
  assert (Hq : 0 < norm (ang_mom x) * norm (ang_mom x) / (mu * mu)).
  { apply Rdiv_lt_0_compat; nra. }
  replace (2 * energy mu x * (norm (ang_mom x) * norm (ang_mom x)) / (mu * mu))
    with (2 * energy mu x * (norm (ang_mom x) * norm (ang_mom x) / (mu * mu))) in EE by (field; lra).
  cbn [num_div]. destruct (Req_EM_T (2 * energy mu x) 0); [lra|].
  destruct (Rlt_le_dec 0 (energy mu x)).
  - rewrite Rleb_true by nra. cbn. f_equal. rewrite Rabs_pos_eq; [field; lra|].
    apply Rlt_le, Rdiv_lt_0_compat; lra.
  - rewrite Rleb_false by nra. f_equal. rewrite Rabs_left; [field; lra|].
    unfold Rdiv. apply Ropp_lt_cancel. rewrite Ropp_0, Ropp_mult_distr_r.
    apply Rmult_lt_0_compat; auto. rewrite Rinv_mult. 
    assert (/ energy mu x < 0) by (apply Rinv_lt_0_compat; lra). lra.
Qed.
End C2K.
