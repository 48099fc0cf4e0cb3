(** * Perturbation of the elliptic motion: trajectories of nearby elements *)
From Coq Require Import Reals Lra Lia Psatz.
From Verif Require Import NP NPReal Spec RealBase KepReal CartReal PropsKep AnomReal EllState LagTrig LagRobust OrbitModel OrbitReal PropsNewton PropsOrbitNewton PropsOrbitPropR.
From Verif Require Import FloatAcc FloatVec PropsFloatAcc FloatC2K PropsFloatC2K PropsFloatLagG PropsFloatRT ElemPert FlowPert.
Import Spec.
Local Open Scope R_scope.

Lemma rate_pert mu a a' h : 0 < mu -> 0 < a -> 0 <= h <= / 10000 -> Rabs (a' - a) <= h * a -> Rabs (rate mu a' - rate mu a) <= 31 / 10 * h * rate mu a.
Proof.
  intros Hm Ha Hh H. assert (H' := H). apply abs_in in H'.
  assert (ha : h * a <= / 10000 * a) by (apply Rmult_le_compat_r; lra). assert (Ha' : 0 < a') by lra.
  assert (P : 0 < a * a * a) by (repeat apply Rmult_lt_0_compat; auto). assert (P' : 0 < a' * a' * a') by (repeat apply Rmult_lt_0_compat; auto).
  unfold rate. assert (N0 : 0 < mu / (a * a * a)) by (now apply Rdiv_lt_0_compat). assert (N0' : 0 < mu / (a' * a' * a')) by (now apply Rdiv_lt_0_compat).
  pose proof (sqrt_sqrt _ (Rlt_le _ _ N0)) as S. pose proof (sqrt_sqrt _ (Rlt_le _ _ N0')) as S'. pose proof (sqrt_lt_R0 _ N0) as L. pose proof (sqrt_lt_R0 _ N0') as L'.
  set (n := sqrt (mu / (a * a * a))) in *. set (n' := sqrt (mu / (a' * a' * a'))) in *.
  set (r := a / a'). assert (Hr : Rabs (r - 1) <= 1001 / 1000 * h).
  { unfold r. replace (a / a' - 1) with (- (a' - a) * / a') by (field; lra). rewrite Rabs_mult, Rabs_Ropp, (Rabs_pos_eq (/ a')) by (apply Rlt_le, Rinv_0_lt_compat; lra).
    apply Rmult_le_reg_r with a'; [auto|]. rewrite Rmult_assoc, Rinv_l, Rmult_1_r by lra. eapply Rle_trans; [exact H|].
    replace (1001 / 1000 * h * a') with (h * (1001 / 1000 * a')) by ring. apply Rmult_le_compat_l; lra. }
  assert (D : (n' - n) * (n' + n) = n * n * ((r - 1) * (r * r + r + 1))).
  { replace ((n' - n) * (n' + n)) with (n' * n' - n * n) by ring. rewrite S, S'. unfold r. field. lra. }
  assert (Hr' := Hr). apply abs_in in Hr'. assert (r3 : 0 <= r * r + r + 1 <= 3005 / 1000) by (clear - Hr' Hh; split; nra).
  apply (f_equal Rabs) in D. rewrite !Rabs_mult, (Rabs_pos_eq (n' + n)), (Rabs_pos_eq n), (Rabs_pos_eq (r * r + r + 1)) in D by lra.
  apply Rmult_le_reg_r with n; [auto|]. apply Rle_trans with (Rabs (n' - n) * (n' + n)); [apply Rmult_le_compat_l; [apply Rabs_pos|lra]|].
  rewrite D. replace (31 / 10 * h * n * n) with (n * n * (31 / 10 * h)) by ring. apply Rmult_le_compat_l; [apply Rmult_le_pos; lra|].
  apply Rle_trans with (1001 / 1000 * h * (3005 / 1000)); [apply Rmult_le_compat; try lra; apply Rabs_pos|lra].
Qed.

Section Traj.
Context (mu u : R) (k k' : six R) (Hv : valid_kep mu k) (He : 0 < k_e k < 1) (Hi : 0 < k_i k < PI) (Hu : 0 < u).
Let e := k_e k.
Let e' := k_e k'.
Let w := u / (e * (1 - e) * sin (k_i k)).
Let w1 := u / (1 - e).
Context (Hw : w <= / 100000000) (Hw2 : w1 <= (1 - e) / 100000) (HW : elements_within u k' k) (He0 : 0 <= e').
Local Lemma units : 0 < sin (k_i k) <= 1 /\ u = w1 * (1 - e) /\ 0 < w1 <= w /\ u <= w1 /\ u / e <= w * (1 - e) /\ u / ((1 - e) * sin (k_i k)) <= w.
Proof.
  assert (S : 0 < sin (k_i k) <= 1) by (split; [apply sin_gt_0; lra|apply SIN_bound]). assert (E : 0 < e < 1) by exact He.
  assert (D : 0 < e * (1 - e) * sin (k_i k)) by (repeat apply Rmult_lt_0_compat; lra).
  assert (W0 : 0 < w) by (now apply Rdiv_lt_0_compat).
  assert (w1p : 0 < w1) by (apply Rdiv_lt_0_compat; lra).
  split; [exact S|]. split; [unfold w1; field; lra|]. 
  assert (A : forall x y, 0 <= x -> y <= 1 -> x * y <= x) by (intros; rewrite <- (Rmult_1_r x) at 2; now apply Rmult_le_compat_l).
  assert (es : e * sin (k_i k) <= 1) by (eapply Rle_trans; [apply A|]; lra).
  split; [split; [auto|]|]. { replace w1 with (w * (e * sin (k_i k))) by (unfold w, w1; field; lra). apply A; lra. }
  split. { replace u with (w1 * (1 - e)) by (unfold w1; field; lra). apply A; lra. }
  split. { replace (u / e) with (w * (1 - e) * sin (k_i k)) by (unfold w; field; lra). apply A; [apply Rmult_le_pos|]; lra. }
  replace (u / ((1 - e) * sin (k_i k))) with (w * e) by (unfold w; field; lra). apply A; lra.
Qed.
Local Lemma sw_w : 0 <= sqrt w /\ w <= / 10000 * sqrt w.
Proof.
  pose proof units as (_ & _ & W & _). pose proof (sqrt_pos w) as P. pose proof (sqrt_sqrt w ltac:(lra)) as Q. split; [auto|].
  assert (sqrt w <= / 10000). { apply Rsqr_incr_0_var; [|lra]. unfold Rsqr. rewrite Q. lra. }
  rewrite <- Q at 1. apply Rmult_le_compat_r; auto.
Qed.
Local Lemma He'1 : (1 - e) * (999 / 1000) <= 1 - e' /\ e' < 1.
Proof.
  pose proof units as (_ & Q & W & _). destruct HW as (_ & H & _). fold e e' in H. apply abs_in in H. rewrite Q in H. assert (0 < 1 - e) by (unfold e; lra). split; nra.
Qed.
(** the mean anomalies at the start *)
Lemma start_mean M M' : mean_of ATrue e (k_nu k) M -> mean_of ATrue e' (k_nu k') M' -> exists m, cong2pi m M' /\ Rabs (m - M) <= 635 * sqrt w.
Proof.
  intros HM HM'. pose proof units as (S & Q & W & W' & We & _). destruct sw_w as [sw0 sw]. destruct He'1 as [E1 E2].
  assert (E : 0 < e < 1) by exact He. destruct HW as (_ & De & _ & _ & _ & Hn). fold e e' in De, Hn.
  destruct (proj1 (HM (k_nu k)) (cong_refl _)) as (E0 & CE & AE). destruct (proj1 (HM' (k_nu k')) (cong_refl _)) as (E0' & CE' & AE').
  destruct (t2e_eli_real e ltac:(lra) (k_nu k')) as (Em & _ & _ & AEm).
  assert (Hd : 1460 * (u / e) <= / 100). { assert (w * (1 - e) <= w * 1) by (apply Rmult_le_compat_l; lra). lra. }
  pose proof (chord_sqrt _ _ _ Hd Hn) as C0.
  pose proof (ecc_of_true e _ _ _ _ _ ltac:(lra) AE AEm C0) as C1.
  pose proof (ecc_of_e e e' _ _ _ ltac:(lra) ltac:(lra) AEm AE') as C2.
  pose proof (chord_sum _ _ _ _ _ C2 C1) as C3.
  set (c := Rabs (e' - e) / (sqrt (1 - e * e) * sqrt (1 - e' * e')) + kappa e * (317 / 100 * sqrt (1460 * (u / e)))) in *.
  assert (K1 : kappa e * sqrt (1460 * (u / e)) <= 54041 / 1000 * sqrt w).
  { assert (P1 : 0 <= (1 + e) / (1 - e)) by (apply Rlt_le, Rdiv_lt_0_compat; lra). assert (P2 : 0 < u / e) by (apply Rdiv_lt_0_compat; lra).
    unfold kappa. rewrite <- sqrt_mult by lra.
    apply Rle_trans with (sqrt (2920 * w)); [|apply sqrt_c; lra]. apply sqrt_le_1_alt.
    apply Rle_trans with ((1 + e) / (1 - e) * (1460 * (w * (1 - e)))).
    - apply Rmult_le_compat_l; [apply Rlt_le, Rdiv_lt_0_compat; lra|]. lra.
    - replace ((1 + e) / (1 - e) * (1460 * (w * (1 - e)))) with ((1 + e) * (1460 * w)) by (field; lra).
      replace (2920 * w) with (2 * (1460 * w)) by ring. apply Rmult_le_compat_r; lra. }
  assert (K2 : Rabs (e' - e) / (sqrt (1 - e * e) * sqrt (1 - e' * e')) <= 291 * w1).
  { destruct (ell_w e ltac:(lra)) as [B1 B2]. destruct (ell_w e' ltac:(lra)) as [B1' B2'].
    set (b := sqrt (1 - e * e)) in *. set (b' := sqrt (1 - e' * e')) in *. assert (BB : 0 < b * b') by (now apply Rmult_lt_0_compat).
    assert (BL : 999 / 1000 * (1 - e) <= b * b').
    { apply Rsqr_incr_0_var; [|lra]. unfold Rsqr. replace (b * b' * (b * b')) with ((b * b) * (b' * b')) by ring. rewrite B1, B1'.
      apply Rle_trans with ((1 - e) * ((1 - e) * (999 / 1000))).
      - replace (999 / 1000 * (1 - e) * (999 / 1000 * (1 - e))) with ((1 - e) * ((1 - e) * (999 / 1000)) * (999 / 1000)) by ring.
        assert (0 <= (1 - e) * ((1 - e) * (999 / 1000))) by (apply Rmult_le_pos; lra). lra.
      - apply Rmult_le_compat; try lra; clear - E He0 E2 E1; nra. }
    apply Rmult_le_reg_r with (b * b'); [auto|]. unfold Rdiv. rewrite Rmult_assoc, Rinv_l, Rmult_1_r by lra. 
    apply Rle_trans with (291 * w1 * (999 / 1000 * (1 - e))); [rewrite Q in De; assert (0 <= w1 * (1 - e)) by (apply Rmult_le_pos; lra); lra|].
    apply Rmult_le_compat_l; lra. }
  assert (Hc : c <= 1714 / 10 * sqrt w) by (unfold c; lra).
  destruct (angle_of_chord c E0' E0 C3) as (n & Cn & Dn).
  exists ((n - e' * sin n) + (M - (E0 - e * sin E0))). split.
  - destruct CE as [z1 Z1]. destruct CE' as [z2 Z2]. destruct Cn as [z3 Z3]. exists (z1 + z3 - z2)%Z. rewrite Z1, Z2, Z3, kepler_turn, minus_IZR, plus_IZR. ring.
  - pose proof (kepler_dir e e' E0 n _ ltac:(lra) Dn) as KD.
    replace (n - e' * sin n + (M - (E0 - e * sin E0)) - M) with (n - e' * sin n - (E0 - e * sin E0)) by ring. eapply Rle_trans; [exact KD|]. lra.
Qed.
Definition flow_err (dm nd : R) : R := (1700 * sqrt w + 3 * dm + 720 * w1 * Rabs nd) / ((1 - e) * (1 - e)).
Theorem flow M Mx M' X X' d dm : mean_of ATrue e (k_nu k) M -> mean_of ATrue e' (k_nu k') Mx -> 0 <= dm -> (exists m, cong2pi m M' /\ Rabs (m - Mx) <= dm) ->
  follows mu (with_nu k 0) M X -> follows mu (with_nu k' 0) M' X' ->
  let B := flow_err dm (rate mu (k_a k) * d) in B <= / 10 -> near B B (X' d) (X d).
Proof.
  intros HM HMx D0 (m1 & Cm1 & Dm1) HX HX'. cbv zeta. unfold flow_err. set (nd := rate mu (k_a k) * d).
  destruct (start_mean M Mx HM HMx) as (m2 & Cm2 & Dm2).
  pose proof units as (S & Q & W & W' & We & Wi). destruct sw_w as [sw0 sw]. destruct He'1 as [E1 E2].
  assert (E : 0 < e < 1) by exact He. destruct HW as (Da & De & Di & Dom & DOm & _). fold e e' in De, Da, Di, Dom, DOm. fold w1 in Da, Di. fold w in Dom.
  destruct (HX d) as (nu & F & An & Sm & St). destruct (HX' d) as (nu' & F' & An' & Sm' & St').
  change (k_e (with_nu k 0)) with e in *. change (k_a (with_nu k 0)) with (k_a k) in *. change (k_e (with_nu k' 0)) with e' in *. change (k_a (with_nu k' 0)) with (k_a k') in *.
  destruct Hv as (Hm & Hp & _).
  assert (Hp' : 0 < k_a k'). { assert (H := Da). apply abs_in in H. assert (100 * w1 * k_a k <= / 1000 * k_a k) by (apply Rmult_le_compat_r; lra). lra. }
  pose proof (anom_valid mu (with_nu k 0) nu F Hm Hp (Rlt_le _ _ (proj1 E)) An) as V. pose proof (anom_valid mu (with_nu k' 0) nu' F' Hm Hp' He0 An') as V'.
  rewrite (state_of_inv mu _ (X d) V St), (state_of_inv mu _ (X' d) V' St').
  change (with_nu (with_nu k 0) nu) with (with_nu k nu) in *. change (with_nu (with_nu k' 0) nu') with (with_nu k' nu') in *.
  unfold anomalies, same_mean, mean_rate, kepler_M in An, Sm, An', Sm'. destruct (Rlt_dec e 1); [|lra]. destruct (Rlt_dec e' 1); [|lra].
  change (sqrt (mu / (k_a k * k_a k * k_a k))) with (rate mu (k_a k)) in Sm. fold nd in Sm.
  change (sqrt (mu / (k_a k' * k_a k' * k_a k'))) with (rate mu (k_a k')) in Sm'.
  assert (Dn : Rabs (rate mu (k_a k') * d - nd) <= 310 * w1 * Rabs nd).
  { unfold nd. replace (rate mu (k_a k') * d - rate mu (k_a k) * d) with ((rate mu (k_a k') - rate mu (k_a k)) * d) by ring. rewrite !Rabs_mult, <- Rmult_assoc.
    apply Rmult_le_compat_r; [apply Rabs_pos|]. rewrite (Rabs_pos_eq (rate mu (k_a k))) by apply sqrt_pos.
    eapply Rle_trans; [apply (rate_pert mu (k_a k) (k_a k') (100 * w1)); try lra|]. right; field. }
  destruct Sm as [z Hz]. destruct Sm' as [z' Hz']. destruct Cm1 as [z1 Z1]. destruct Cm2 as [z2 Z2].
  set (y := (z' - z - z1 - z2)%Z). set (G := F + 2 * PI * IZR y).
  set (D := 635 * sqrt w + dm + 310 * w1 * Rabs nd).
  assert (DD : Rabs ((F' - e' * sin F') - (G - e * sin G)) <= D).
  { unfold G. rewrite kepler_turn, Hz, Hz'. unfold y. rewrite !minus_IZR.
    replace (M' + rate mu (k_a k') * d + 2 * PI * IZR z' - (M + nd + 2 * PI * IZR z + 2 * PI * (IZR z' - IZR z - IZR z1 - IZR z2)))
      with ((m2 - M) + (m1 - Mx) + (rate mu (k_a k') * d - nd)) by (rewrite Z1, Z2; ring).
    eapply Rle_trans; [apply Rabs_triang|]. pose proof (Rabs_triang (m2 - M) (m1 - Mx)). unfold D. lra. }
  pose proof (kepler_inv e e' G F' D ltac:(lra) DD) as KI.
  set (eta := (636 * sqrt w + dm + 310 * w1 * Rabs nd) / (1 - e)).
  assert (wn : 0 <= w1 * Rabs nd) by (apply Rmult_le_pos; [lra|apply Rabs_pos]).
  assert (KE : Rabs (F' - G) <= eta).
  { eapply Rle_trans; [exact KI|]. unfold eta. apply Rmult_le_compat_r; [apply Rlt_le, Rinv_0_lt_compat; lra|]. unfold D. lra. }
  assert (Ch : chord eta F' F). { apply (chord_cong _ F' G); [apply cong_refl| |now apply chord_of_abs]. unfold G. apply cong_sym. now exists y. }
  intros HB. set (T := 1700 * sqrt w + 3 * dm + 720 * w1 * Rabs nd) in *.
  assert (EB : T / ((1 - e) * (1 - e)) * ((1 - e) * (1 - e)) = T) by (field; lra).
  assert (HT : T <= / 10 * ((1 - e) * (1 - e))) by (rewrite <- EB; apply Rmult_le_compat_r; [apply Rmult_le_pos; lra|exact HB]).
  assert (Heta : eta <= (1 - e) / 20).
  { apply Rmult_le_reg_r with (1 - e); [lra|]. unfold eta. replace ((636 * sqrt w + dm + 310 * w1 * Rabs nd) / (1 - e) * (1 - e)) with (636 * sqrt w + dm + 310 * w1 * Rabs nd) by (field; lra). unfold T in HT. lra. }
  pose proof (chord_sqrt (1010 * w) _ _ ltac:(lra) Dom) as C1. pose proof (chord_sqrt (100 * w1) _ _ ltac:(lra) Di) as C2. pose proof (chord_sqrt (110 * (u / ((1 - e) * sin (k_i k)))) _ _ ltac:(lra) DOm) as C3.
  pose proof (state_E mu u (with_nu k nu) (with_nu k' nu') F F' V V' ltac:(change (k_e (with_nu k nu)) with e; lra) Hu) as SE.
  change (k_e (with_nu k nu)) with e in SE. change (k_e (with_nu k' nu')) with e' in SE. change (k_a (with_nu k nu)) with (k_a k) in SE. change (k_a (with_nu k' nu')) with (k_a k') in SE. fold w1 in SE.
  specialize (SE ltac:(lra) Da De He0 An An' eta Ch Heta Hw2 _ _ _ C1 C2 C3). cbv zeta in SE.
  assert (L1 : sqrt (1010 * w) <= 3179 / 100 * sqrt w) by (apply sqrt_c; lra).
  assert (L2 : sqrt (100 * w1) <= 10 * sqrt w) by (eapply Rle_trans; [apply sqrt_le_1_alt with (y := 100 * w); lra|apply sqrt_c; lra]).
  assert (L3 : sqrt (110 * (u / ((1 - e) * sin (k_i k)))) <= 105 / 10 * sqrt w) by (eapply Rle_trans; [apply sqrt_le_1_alt with (y := 110 * w); lra|apply sqrt_c; lra]).
  set (Z := 317 / 100 * sqrt (1010 * w) + 317 / 100 * sqrt (100 * w1) + 317 / 100 * sqrt (110 * (u / ((1 - e) * sin (k_i k)))) + (23 / 10 * eta + 1500 * w1) / (1 - e)) in *.
  assert (HZ : Z <= T / ((1 - e) * (1 - e))); [|eapply near_weak; [exact SE|exact HZ|exact HZ]].
  apply Rmult_le_reg_r with ((1 - e) * (1 - e)); [apply Rmult_lt_0_compat; lra|]. rewrite EB. unfold Z.
  set (Y := 317 / 100 * sqrt (1010 * w) + 317 / 100 * sqrt (100 * w1) + 317 / 100 * sqrt (110 * (u / ((1 - e) * sin (k_i k))))) in *.
  rewrite Rmult_plus_distr_r. assert (e2 : 0 <= (1 - e) * (1 - e) <= 1) by (split; [apply Rmult_le_pos; lra|clear - E; nra]).
  assert (Y1 : Y * ((1 - e) * (1 - e)) <= 166 * sqrt w * 1) by (apply Rmult_le_compat; try lra; unfold Y; [|lra]; repeat apply Rplus_le_le_0_compat; apply Rmult_le_pos; try lra; apply sqrt_pos).
  replace ((23 / 10 * eta + 1500 * w1) / (1 - e) * ((1 - e) * (1 - e))) with (23 / 10 * (636 * sqrt w + dm + 310 * w1 * Rabs nd) + 1500 * u) by (unfold eta; rewrite Q; field; lra).
  unfold T. lra.
Qed.
End Traj.
