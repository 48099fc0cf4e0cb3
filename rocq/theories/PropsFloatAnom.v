(** * C78: accuracy of the anomaly conversions of elliptic orbits in floating point arithmetic *)
From Coq Require Import Reals QArith Qreals ZArith Lra Lia Psatz Bool List.
From Flocq Require Mult_error.
From Coquelicot Require Import Coquelicot.
From Verif Require Import NP NPReal NPFloat KeplerModel Lists ArraySpec Spec RealBase AnomReal PropsAnomaly FloatAcc PropsFloatAcc.
Import ListNotations.
Local Open Scope R_scope.

(** what is assumed of the mathematics library and of halving *)
Record lib_acc (rd : R -> R) (u : R) (L : libm) : Prop := {
  la_trig : trig_acc rd u L;
  la_tan : forall t, cos t <> 0 -> Rabs (rd (l_tan L t) - tan t) <= 2 * u * Rabs (tan t);
  la_atan : forall x, Rabs (rd (l_atan L x) - atan x) <= 4 * u;
  la_mod : forall x y, 0 < y -> 0 <= l_mod L x y < y /\ exists n, l_mod L x y = x - IZR n * y;
  la_half : forall x, rd (rd x * / 2) = rd x * / 2 }.

(** a relative error of the argument of arctan *)
Lemma atan_rel z z' d : 0 <= d <= / 100 -> Rabs (z' - z) <= d * Rabs z -> Rabs (atan z' - atan z) <= 3 / 5 * d.
Proof.
  intros Hd H. destruct (MVT_gen atan z z' (fun x => / (1 + x ^ 2))) as [c [C E]].
  - intros x _. apply is_derive_Reals. apply derivable_pt_lim_atan.
  - intros x _. apply derivable_continuous_pt. eexists. apply derivable_pt_lim_atan.
  - rewrite E, Rabs_mult. rewrite Rabs_pos_eq by (apply Rlt_le, Rinv_0_lt_compat; nra).
    assert (P : 0 < 1 + c ^ 2) by nra.
    assert (B : 99 / 100 * Rabs z <= Rabs c).
    { assert (A : Rabs (c - z) <= d * Rabs z).
      { eapply Rle_trans; [|exact H]. unfold Rmin, Rmax in C. destruct (Rle_dec z z').
        - rewrite !Rabs_pos_eq; lra.
        - rewrite !Rabs_left1; lra. }
      pose proof (Rabs_pos z). replace z with (c - (c - z)) at 1 by ring.
      assert (Rabs (c - (c - z)) <= Rabs c + Rabs (c - z)) by (unfold Rminus at 1; eapply Rle_trans; [apply Rabs_triang|]; rewrite Rabs_Ropp; lra).
      replace (c - (c - z)) with z in * by ring. nra. }
    apply (Rmult_le_reg_l (1 + c ^ 2)); [auto|]. rewrite <- Rmult_assoc, Rinv_r, Rmult_1_l by lra.
    eapply Rle_trans; [exact H|]. rewrite <- (pow2_abs c). set (C' := Rabs c) in *. set (Z := Rabs z) in *.
    assert (0 <= Z) by apply Rabs_pos. assert (Q : (99 / 100 * Z) * (99 / 100 * Z) <= C' * C') by (apply Rmult_le_compat; lra).
    assert (0 <= (Z - 851 / 1000) * (Z - 851 / 1000)) by apply Rle_0_sqr. assert (Z <= 3 / 5 * (1 + C' * C')) by lra. nra.
Qed.

Section Anom.
Context (rd : R -> R) (u : R) (L : libm) (Hr : rounding rd u) (HL : lib_acc rd u L) (Hu : u <= / 10000).
#[local] Instance NPa : NP num := NP_rd rd L.
Lemma b_1 : lit 1 = Fin 1. Proof. exact (a_1 rd u L Hr). Qed.
Lemma b_2 : lit 2 = Fin 2. Proof. exact (a_2 rd u L Hr). Qed.
Lemma b_div x y : y <> 0 -> div (Fin x) (Fin y) = Fin (rd (x / y)). Proof. exact (a_div rd L x y). Qed.
Lemma b_sqrt x : 0 <= x -> nsqrt (Fin x) = Fin (rd (sqrt x)). Proof. exact (a_sqrt rd L x). Qed.
Local Lemma U0 : 0 <= u. Proof. apply Hr. Qed.
Lemma a_half : lit 0.5 = Fin (/ 2).
Proof.
  change (lit 0.5) with (Fin (rd (Q2R 0.5))). replace (Q2R 0.5) with (1 * / 2) by (unfold Q2R; cbn; lra).
  rewrite <- (rr_1 _ _ Hr) at 1. rewrite (la_half _ _ _ HL), (rr_1 _ _ Hr). f_equal. lra.
Qed.
Lemma rel1 x : rel u (rd x) x (1 + / 50).
Proof. pose proof U0. eapply rel_weak; [apply Hr|apply Rle_refl|apply (rel_rd rd u Hr u (Rle_refl u) Hu _ _ 0); [lra|apply rel_refl]|lra]. Qed.

(** twice the arctangent of S tan(x/2) *)
Lemma half_acc S S' x : 0 < S -> 0 < S' -> rel u S' S 7 -> rd (x * / 2) = x * / 2 ->
  exists y y', mul (lit 2) (narctan (mul (Fin S') (ntan (mul (Fin x) (lit 0.5))))) = Fin y' /\
   @mul num NP_num (@lit num NP_num 2) (@narctan num NP_num (@mul num NP_num (Fin S) (@ntan num NP_num (@mul num NP_num (Fin x) (@lit num NP_num 0.5))))) = Fin y /\
   - PI < y <= PI /\ Rabs (y' - y) <= 40 * u.
Proof.
  intros HS HS' RS Hx. pose proof U0. pose proof PI_RGT_0. pose proof PI_4 as P4.
  rewrite a_half, b_2, lit_half, lit_2, Fin_mul.
  change (mul (Fin x) (Fin (/ 2))) with (Fin (rd (x * / 2))). rewrite Hx. set (h := x * / 2).
  cbn [ntan NP_num NPa NP_rd num_tan lib1]. destruct (Req_EM_T (cos h) 0) as [Ec|Ec].
  - exists PI. cbn [rnum]. cbn [mul NP_num NPa NP_rd num_mul]. unfold num_sign. destruct (Rlt_dec 0 S'); [|lra]. destruct (Rlt_dec 0 S); [|lra].
    cbn [rnum narctan NP_num NPa NP_rd lib1 num_atan mul num_mul]. eexists. split; [reflexivity|]. split; [f_equal; lra|]. split; [lra|].
    assert (A : Rabs (rd (PI / 2) - PI / 2) <= 2 * u).
    { eapply Rle_trans; [apply (rr_err _ _ Hr)|]. rewrite Rabs_pos_eq by lra. nra. }
    assert (A2 : Rabs (2 * rd (PI / 2) - PI) <= 4 * u).
    { replace (2 * rd (PI / 2) - PI) with (2 * (rd (PI / 2) - PI / 2)) by field. rewrite Rabs_mult, (Rabs_pos_eq 2) by lra. lra. }
    assert (A3 : Rabs (2 * rd (PI / 2)) <= PI + 4 * u).
    { replace (2 * rd (PI / 2)) with (PI + (2 * rd (PI / 2) - PI)) by ring. apply abs_add_le; [rewrite Rabs_pos_eq; lra|auto]. }
    eapply Rle_trans; [apply (rd_within rd u Hr _ _ _ _ A2 A3)|]. nra.
  - cbn [mul NP_num NPa NP_rd num_mul rnum]. set (t' := rd (l_tan L h)).
    assert (T : rel u t' (tan h) 2) by (unfold rel; apply (la_tan _ _ _ HL); auto).
    pose proof (rel_mul rd u Hr u (Rle_refl u) Hu _ _ _ _ _ _ RS T ltac:(lra) ltac:(lra)) as Z.
    set (z' := rd (S' * t')) in *. set (z := S * tan h) in *.
    assert (A : Rabs (atan z' - atan z) <= 3 / 5 * (11 * u)).
    { apply atan_rel; [lra|]. unfold rel in Z. replace (7 + 2 + 2) with 11 in Z by lra. exact Z. }
    cbn [rnum narctan NP_num NPa NP_rd lib1 num_atan mul num_mul]. exists (2 * atan z).
    eexists. split; [reflexivity|]. split; [reflexivity|]. pose proof (atan_bnd z) as Az. split; [lra|].
    pose proof (la_atan _ _ _ HL z') as B. set (a' := rd (l_atan L z')) in *.
    assert (D : Rabs (2 * a' - 2 * atan z) <= 22 * u).
    { replace (2 * a' - 2 * atan z) with (2 * ((a' - atan z') + (atan z' - atan z))) by ring.
      rewrite Rabs_mult, (Rabs_pos_eq 2) by lra. pose proof (Rabs_triang (a' - atan z') (atan z' - atan z)). lra. }
    assert (F : Rabs (2 * a') <= PI + 22 * u).
    { replace (2 * a') with (2 * atan z + (2 * a' - 2 * atan z)) by ring. apply abs_add_le; auto. apply Rabs_le. lra. }
    eapply Rle_trans; [apply (rd_within rd u Hr _ _ _ _ D F)|]. nra.
Qed.
Lemma wrap_acc y y' : - PI < y <= PI -> Rabs (y' - y) <= 40 * u ->
  exists z n, wrap2pi (Fin y') = Fin z /\ Rabs (z - (y + 2 * PI * IZR n)) <= 100 * u /\
    Rabs z <= 10 /\ rd (z * / 2) = z * / 2.
Proof.
  intros Hy E. pose proof U0. pose proof PI_RGT_0. pose proof PI_4 as P4. pose proof PI2_3_2 as P3.
  unfold wrap2pi, n2pi. rewrite b_2. change (mul (Fin 2) npi) with (Fin (rd (2 * rd PI))). set (tp := rd (2 * rd PI)).
  assert (T : Rabs (tp - 2 * PI) <= 17 * u).
  { pose proof (rr_err _ _ Hr PI) as A. rewrite (Rabs_pos_eq PI) in A by lra.
    assert (A2 : Rabs (2 * rd PI - 2 * PI) <= 8 * u) by (replace (2 * rd PI - 2 * PI) with (2 * (rd PI - PI)) by ring; rewrite Rabs_mult, (Rabs_pos_eq 2) by lra; nra).
    assert (A3 : Rabs (2 * rd PI) <= 8 + 8 * u) by (replace (2 * rd PI) with (2 * PI + (2 * rd PI - 2 * PI)) by ring; apply abs_add_le; [rewrite Rabs_pos_eq; lra|auto]).
    eapply Rle_trans; [apply (rd_within rd u Hr _ _ _ _ A2 A3)|]. nra. }
  change (add (Fin y') (Fin tp)) with (Fin (rd (y' + tp))).
  assert (A : Rabs (y' + tp - (y + 2 * PI)) <= 57 * u).
  { replace (y' + tp - (y + 2 * PI)) with ((y' - y) + (tp - 2 * PI)) by ring. eapply Rle_trans; [apply abs_add_le; eassumption|lra]. }
  assert (B : Rabs (y' + tp) <= 12 + 57 * u).
  { replace (y' + tp) with (y + 2 * PI + (y' + tp - (y + 2 * PI))) by ring. apply abs_add_le; auto. rewrite Rabs_pos_eq; lra. }
  pose proof (rd_within rd u Hr _ _ _ _ A B) as C. set (x := rd (y' + tp)) in *.
  assert (C' : Rabs (x - (y + 2 * PI)) <= 70 * u) by (eapply Rle_trans; [exact C|nra]).
  pose proof (abs_in _ _ T) as T'. pose proof (abs_in _ _ C') as C2.
  destruct (la_mod _ _ _ HL x tp ltac:(lra)) as [Hm [n Hn]].
  assert (M : nmod (Fin x) (Fin tp) = Fin (rd (l_mod L x tp))) by (cbn; destruct Req_EM_T; [lra|reflexivity]).
  rewrite M. exists (rd (l_mod L x tp)), (1 - n)%Z. split; [reflexivity|]. split; [|split; [|apply (la_half _ _ _ HL)]].
  2:{ pose proof (rr_err _ _ Hr (l_mod L x tp)) as G. rewrite (Rabs_pos_eq (l_mod L x tp)) in G by lra.
      apply abs_in in G. assert (0 <= u * l_mod L x tp <= / 10000 * l_mod L x tp) by (split; [apply Rmult_le_pos|apply Rmult_le_compat_r]; lra). apply Rabs_le. lra. }
  assert (N : (n = 0 \/ n = 1)%Z).
  { assert (Tp : 0 < tp) by lra. destruct (Z_lt_le_dec n 0) as [Q|Q].
    - exfalso. assert (R1 : IZR n <= -1) by (apply (IZR_le n (-1)); lia). assert (IZR n * tp <= -1 * tp) by (apply Rmult_le_compat_r; lra). lra.
    - destruct (Z_lt_le_dec n 2) as [Q2|Q2]; [lia|]. exfalso. assert (R1 : 2 <= IZR n) by (apply (IZR_le 2 n); lia).
      assert (2 * tp <= IZR n * tp) by (apply Rmult_le_compat_r; lra). lra. }
  assert (Q : Rabs (l_mod L x tp - (y + 2 * PI * IZR (1 - n))) <= 87 * u).
  { rewrite Hn, minus_IZR. destruct N as [-> | ->].
    - replace (x - 0 * tp - (y + 2 * PI * (1 - 0))) with (x - (y + 2 * PI)) by ring. lra.
    - replace (x - 1 * tp - (y + 2 * PI * (1 - 1))) with ((x - (y + 2 * PI)) + - (tp - 2 * PI)) by ring.
      eapply Rle_trans; [apply abs_add_le; [exact C'|rewrite Rabs_Ropp; exact T]|lra]. }
  eapply Rle_trans; [apply (rd_within rd u Hr _ _ _ 9 Q); rewrite Rabs_pos_eq; lra|]. lra.
Qed.

(** the two scale factors *)
Lemma scale_acc a b a' b' : 0 < a -> 0 < b -> rel u a' a (1 + / 50) -> rel u b' b (1 + / 50) ->
  exists s', nsqrt (div (Fin a') (Fin b')) = Fin s' /\ 0 < s' /\ rel u s' (sqrt (a / b)) 7.
Proof.
  intros Ha Hb Ra Rb. pose proof U0.
  destruct (rel_div rd u Hr u (Rle_refl u) Hu _ _ _ _ _ _ Ra Rb ltac:(lra) ltac:(lra) ltac:(lra)) as [N D].
  rewrite b_div by auto. assert (Q : 0 < a / b) by now apply Rdiv_lt_0_compat.
  destruct (rel_sqrt rd u Hr u (Rle_refl u) Hu _ _ _ Q D ltac:(lra)) as [P S].
  rewrite b_sqrt by lra. eexists. split; [reflexivity|]. 
  assert (S7 : rel u (rd (sqrt (rd (a' / b')))) (sqrt (a / b)) 7) by (eapply rel_weak; [apply Hr|apply Rle_refl|exact S|lra]).
  split; auto. unfold rel in S7. pose proof (sqrt_lt_R0 _ Q) as SQ. rewrite (Rabs_pos_eq (sqrt (a / b))) in S7 by lra.
  apply abs_in in S7. nra.
Qed.
Lemma a_branch (fh fp fe : num -> num -> num) x e : e < 1 -> by_cases fh fp fe x (Fin e) = fe x (Fin e).
Proof.
  intros He. unfold by_cases. rewrite b_1. change (ltb (Fin 1) (Fin e)) with (Rltb 1 e). change (eqb (Fin e) (Fin 1)) with (Reqb e 1).
  rewrite Rltb_false, Reqb_false by lra. reflexivity.
Qed.
Lemma acc_e2t e E : 0 <= e < 1 -> rd (E * / 2) = E * / 2 ->
  exists nu' nu, wrap2pi (by_cases e2t_hyp e2t_per e2t_eli (Fin E) (Fin e)) = Fin nu' /\ anomalies_ell e nu E /\ Rabs (nu' - nu) <= 100 * u /\
    Rabs nu' <= 10 /\ rd (nu' * / 2) = nu' * / 2.
Proof.
  intros He HE. rewrite a_branch by lra. unfold e2t_eli. rewrite b_1.
  change (add (Fin 1) (Fin e)) with (Fin (rd (1 + e))). change (sub (Fin 1) (Fin e)) with (Fin (rd (1 - e))).
  destruct (scale_acc (1 + e) (1 - e) _ _ ltac:(lra) ltac:(lra) (rel1 _) (rel1 _)) as (s' & Es & Ps & Rs).
  change (Fin 1) with (@lit num NPa 1) in *. rewrite Es.
  assert (SP : 0 < sqrt ((1 + e) / (1 - e))) by (apply sqrt_lt_R0, Rdiv_lt_0_compat; lra).
  destruct (half_acc _ s' E SP Ps Rs HE) as (y & y' & E1 & E2 & Hy & Ay). rewrite E1.
  destruct (wrap_acc y y' Hy Ay) as (z & n & Ez & Az & Bz & Hz). exists z, (y + 2 * PI * IZR n). split; [exact Ez|]. split; [|auto].
  destruct (e2t_eli_real e He E) as (nu & Q1 & _ & Q3).
  assert (y = nu) as ->.
  { unfold e2t_eli in Q1. rewrite lit_1, Fin_add, Fin_sub in Q1. rewrite Fin_div in Q1 by lra. rewrite Fin_sqrt in Q1 by (apply Rlt_le, Rdiv_lt_0_compat; lra).
    rewrite E2 in Q1. congruence. }
  eapply ell_compat; [|apply cong_refl|exact Q3]. exists (- n)%Z. rewrite opp_IZR. ring.
Qed.
Lemma acc_t2e e nu : 0 <= e < 1 -> rd (nu * / 2) = nu * / 2 ->
  exists E' E, wrap2pi (by_cases t2e_hyp t2e_per t2e_eli (Fin nu) (Fin e)) = Fin E' /\ anomalies_ell e nu E /\ Rabs (E' - E) <= 100 * u /\
    Rabs E' <= 10 /\ rd (E' * / 2) = E' * / 2.
Proof.
  intros He HE. rewrite a_branch by lra. unfold t2e_eli. rewrite b_1.
  change (add (Fin 1) (Fin e)) with (Fin (rd (1 + e))). change (sub (Fin 1) (Fin e)) with (Fin (rd (1 - e))).
  destruct (scale_acc (1 - e) (1 + e) _ _ ltac:(lra) ltac:(lra) (rel1 _) (rel1 _)) as (s' & Es & Ps & Rs).
  change (Fin 1) with (@lit num NPa 1) in *. rewrite Es.
  assert (SP : 0 < sqrt ((1 - e) / (1 + e))) by (apply sqrt_lt_R0, Rdiv_lt_0_compat; lra).
  destruct (half_acc _ s' nu SP Ps Rs HE) as (y & y' & E1 & E2 & Hy & Ay). rewrite E1.
  destruct (wrap_acc y y' Hy Ay) as (z & n & Ez & Az & Bz & Hz). exists z, (y + 2 * PI * IZR n). split; [exact Ez|]. split; [|auto].
  destruct (t2e_eli_real e He nu) as (E & Q1 & _ & Q3).
  assert (y = E) as ->.
  { unfold t2e_eli in Q1. rewrite lit_1, Fin_add, Fin_sub in Q1. rewrite Fin_div in Q1 by lra. rewrite Fin_sqrt in Q1 by (apply Rlt_le, Rdiv_lt_0_compat; lra).
    rewrite E2 in Q1. congruence. }
  eapply ell_compat; [apply cong_refl| |exact Q3]. exists (- n)%Z. rewrite opp_IZR. ring.
Qed.
(** Kepler's equation *)
Lemma acc_esin e E : 0 <= e -> Rabs (rd (e * rd (l_sin L E)) - e * sin E) <= 31 / 10 * u * e.
Proof.
  intros He. pose proof U0. destruct (la_trig _ _ _ HL E) as [S _]. pose proof (SIN_bound E).
  destruct (abs_prod e e (sin E) (rd (l_sin L E)) e 1 0 _ ltac:(rewrite Rabs_pos_eq; lra) ltac:(apply Rabs_le; lra) ltac:(rewrite Rminus_diag_eq, Rabs_R0 by auto; lra) S) as [A B].
  eapply Rle_trans; [apply (rd_within rd u Hr _ _ _ _ A B)|].
  assert (0 <= u * e) by nra. assert (u * (u * e) <= u * e / 10000) by nra. nra.
Qed.
Lemma acc_e2m e E : 0 <= e < 1 -> exists M', by_cases e2m_hyp e2m_per e2m_eli (Fin E) (Fin e) = Fin M' /\
  Rabs (M' - (E - e * sin E)) <= 11 / 10 * u * Rabs (E - e * sin E) + 4 * u * e.
Proof.
  intros He. rewrite a_branch by lra. unfold e2m_eli. eexists. split; [reflexivity|]. pose proof U0.
  change (rd (l_sin L E)) with (rd (l_sin L E)). pose proof (acc_esin e E ltac:(lra)) as A.
  set (m := rd (e * rd (l_sin L E))) in *.
  assert (B : Rabs (E - m - (E - e * sin E)) <= 31 / 10 * u * e) by (replace (E - m - (E - e * sin E)) with (- (m - e * sin E)) by ring; now rewrite Rabs_Ropp).
  assert (C : Rabs (E - m) <= Rabs (E - e * sin E) + 31 / 10 * u * e).
  { replace (E - m) with (E - e * sin E + (E - m - (E - e * sin E))) by ring. apply abs_add_le; auto. lra. }
  eapply Rle_trans; [apply (rd_within rd u Hr _ _ _ _ B C)|].
  assert (0 <= u * e) by nra. assert (u * (u * e) <= u * e / 10000) by nra. pose proof (Rabs_pos (E - e * sin E)). nra.
Qed.
(** the residual of the solver: M does not enter the bound *)
Lemma acc_f M e E : 0 <= e < 1 -> exists f, lag_f (Fin M) (Fin e) (Fin E) = Fin f /\
  Rabs (f - (M - (E - e * sin E))) <= 5 * u * (Rabs (M - (E - e * sin E)) + e) /\
  forall t, Rabs f < t -> Rabs (E - e * sin E - M) <= (1 + 4 * u) * t + 6 * u * e.
Proof.
  intros He. unfold lag_f. rewrite b_1. change (ltb (Fin 1) (Fin e)) with (Rltb 1 e). rewrite Rltb_false by lra.
  exists (rd (rd (M - E) + rd (e * rd (l_sin L E)))). split; [reflexivity|]. pose proof U0.
  pose proof (acc_esin e E ltac:(lra)) as A. set (m := rd (e * rd (l_sin L E))) in *. set (S := e * sin E) in *.
  pose proof (rr_err _ _ Hr (M - E)) as B. set (d := rd (M - E)) in *. pose proof (rr_err _ _ Hr (d + m)) as C. set (f := rd (d + m)) in *.
  assert (HS : Rabs S <= e).
  { unfold S. rewrite Rabs_mult, (Rabs_pos_eq e) by lra. assert (Rabs (sin E) <= 1) by (apply Rabs_le, SIN_bound). nra. }
  assert (B2 : Rabs (M - E) <= Rabs (M - (E - S)) + e).
  { replace (M - E) with (M - (E - S) + - S) by ring. apply abs_add_le; [lra|now rewrite Rabs_Ropp]. }
  set (r := M - (E - S)) in *. pose proof (Rabs_pos r) as R0. assert (Ue : 0 <= u * e) by nra. assert (Ur : 0 <= u * Rabs r) by nra.
  assert (D : Rabs (d + m - r) <= u * Rabs (M - E) + 31 / 10 * u * e).
  { replace (d + m - r) with ((d - (M - E)) + (m - S)) by (unfold r; ring). now apply abs_add_le. }
  assert (D2 : Rabs (d + m - r) <= u * Rabs r + 41 / 10 * u * e).
  { eapply Rle_trans; [exact D|]. assert (u * Rabs (M - E) <= u * (Rabs r + e)) by (apply Rmult_le_compat_l; lra). lra. }
  split.
  - assert (F : Rabs (d + m) <= Rabs r + (u * Rabs r + 41 / 10 * u * e)).
    { replace (d + m) with (r + (d + m - r)) by ring. apply abs_add_le; [lra|auto]. }
    eapply Rle_trans; [apply (rd_within rd u Hr _ _ _ _ D2 F)|].
    assert (u * (u * e) <= u * e / 10000) by nra. assert (u * (u * Rabs r) <= u * Rabs r / 10000) by nra. nra.
  - intros t Ht. pose proof (Rabs_pos f).
    assert (Z : Rabs (d + m) <= (1 + 2 * u) * t).
    { assert (Rabs (d + m) <= Rabs f + u * Rabs (d + m)).
      { replace (d + m) with (f + - (f - (d + m))) at 1 by ring. apply abs_add_le; [lra|now rewrite Rabs_Ropp]. }
      assert (0 <= u * t) by nra. assert (0 <= u * (u * t) <= u * t / 10000) by nra.
      apply (Rmult_le_reg_l (1 - u)); [lra|]. lra. }
    assert (Rr : Rabs r <= (1 + 2 * u) * t + (u * Rabs r + 41 / 10 * u * e)).
    { pose proof (Rabs_triang (d + m) (- (d + m - r))) as T. rewrite Rabs_Ropp in T. replace (d + m + - (d + m - r)) with r in T by ring. lra. }
    replace (E - S - M) with (- r) by (unfold r; ring). rewrite Rabs_Ropp.
    assert (0 <= u * t) by nra. assert (0 <= u * (u * t) <= u * t / 10000) by nra. assert (0 <= u * (u * e) <= u * e / 10000) by nra.
    apply (Rmult_le_reg_l (1 - u)); [lra|]. lra.
Qed.
End Anom.

(** ** The theorems *)
(** a floating point number (so that half of it is one) *)
Definition is_float (rd : R -> R) (x : R) : Prop := rd x = x.
Lemma float_half rd u L x : lib_acc rd u L -> is_float rd x -> rd (x * / 2) = x * / 2.
Proof. intros H E. rewrite <- E. apply (la_half _ _ _ H). Qed.

Theorem C78_true_eccentric : forall rd u L e x g, rounding rd u -> lib_acc rd u L -> u <= / 10000 -> 0 <= e < 1 -> is_float rd x ->
  (exists E' E, @true_to_eccentric num (NP_rd rd L) g (Sc (Fin x)) (Sc (Fin e)) false = Ok (Sc (Fin E'))
      /\ anomalies_ell e x E /\ Rabs (E' - E) <= 100 * u) /\
  (exists nu' nu, @eccentric_to_true num (NP_rd rd L) g (Sc (Fin x)) (Sc (Fin e)) false = Ok (Sc (Fin nu'))
      /\ anomalies_ell e nu x /\ Rabs (nu' - nu) <= 100 * u).
Proof.
  intros rd u L e x g Hr HL Hu He Hx. pose proof (float_half _ _ _ _ HL Hx) as Hh. split.
  - destruct (acc_t2e rd u L Hr HL Hu e x He Hh) as (E' & E & H1 & H2 & H3 & _). exists E', E. repeat split; auto; try apply H2.
    rewrite <- H1. reflexivity.
  - destruct (acc_e2t rd u L Hr HL Hu e x He Hh) as (E' & E & H1 & H2 & H3 & _). exists E', E. repeat split; auto; try apply H2.
    rewrite <- H1. reflexivity.
Qed.
Theorem C78_eccentric_to_mean : forall rd u L e E g, rounding rd u -> lib_acc rd u L -> u <= / 10000 -> 0 <= e < 1 ->
  exists M', @eccentric_to_mean num (NP_rd rd L) g (Sc (Fin E)) (Sc (Fin e)) false = Ok (Sc (Fin M'))
    /\ Rabs (M' - (E - e * sin E)) <= 11 / 10 * u * Rabs (E - e * sin E) + 4 * u * e.
Proof.
  intros rd u L e E g Hr HL Hu He. destruct (acc_e2m rd u L Hr HL Hu e E He) as (M' & H1 & H2). exists M'. split; [|exact H2].
  rewrite <- H1. reflexivity.
Qed.
Theorem C78_true_to_mean : forall rd u L e nu g1 g2, rounding rd u -> lib_acc rd u L -> u <= / 10000 -> 0 <= e < 1 -> is_float rd nu ->
  exists M' E, @true_to_mean num (NP_rd rd L) g1 g2 (Sc (Fin nu)) (Sc (Fin e)) false = Ok (Sc (Fin M'))
    /\ anomalies_ell e nu E /\ Rabs (M' - (E - e * sin E)) <= 220 * u.
Proof.
  intros rd u L e nu g1 g2 Hr HL Hu He Hx. pose proof (rr_u _ _ Hr) as U. destruct (acc_t2e rd u L Hr HL Hu e nu He (float_half _ _ _ _ HL Hx)) as (E' & E & H1 & H2 & H3 & H4 & _).
  destruct (acc_e2m rd u L Hr HL Hu e E' He) as (M' & H5 & H6). exists M', E. split; [|split; [exact H2|]].
  - unfold true_to_mean. assert (K : @true_to_eccentric num (NP_rd rd L) g1 (@in_rad num (NP_rd rd L) false (Sc (Fin nu))) (Sc (Fin e)) false = Ok (Sc (Fin E'))) by (rewrite <- H1; reflexivity).
    rewrite K. cbn [rbind]. assert (K2 : @eccentric_to_mean num (NP_rd rd L) g2 (Sc (Fin E')) (Sc (Fin e)) false = Ok (Sc (Fin M'))) by (rewrite <- H5; reflexivity).
    rewrite K2. reflexivity.
  - pose proof (sin_lip E' E) as S. assert (D : Rabs (E' - e * sin E' - (E - e * sin E)) <= 200 * u).
    { replace (E' - e * sin E' - (E - e * sin E)) with ((E' - E) + - (e * (sin E' - sin E))) by ring. 
      eapply Rle_trans; [apply Rabs_triang|]. rewrite Rabs_Ropp, Rabs_mult, (Rabs_pos_eq e) by lra. pose proof (Rabs_pos (sin E' - sin E)). nra. }
    assert (B : Rabs (E' - e * sin E') <= 11).
    { unfold Rminus. eapply Rle_trans; [apply Rabs_triang|]. rewrite Rabs_Ropp, Rabs_mult, (Rabs_pos_eq e) by lra.
      assert (Rabs (sin E') <= 1) by (apply Rabs_le, SIN_bound). pose proof (Rabs_pos (sin E')). nra. }
    replace (M' - (E - e * sin E)) with ((M' - (E' - e * sin E')) + (E' - e * sin E' - (E - e * sin E))) by ring.
    eapply Rle_trans; [apply Rabs_triang|]. assert (u * Rabs (E' - e * sin E') <= u * 11) by (apply Rmult_le_compat_l; lra).
    assert (u * e <= u) by nra. lra.
Qed.
(** the solver: whenever it returns a number before the last allowed iteration, the number is the solution *)
Definition stopped {N : NP num} (o : solver_options num) (M e : R) : Prop :=
  (snd (laguerre_solve_kepler (get_kepler_guess (Fin M) (Fin e)) (Fin M) (Fin e) o) < max_iter o)%Z.
Lemma kepler_lower e E Es : 0 <= e < 1 -> (1 - e) * Rabs (E - Es) <= Rabs (E - e * sin E - (Es - e * sin Es)).
Proof.
  intros He. pose proof (sin_lip E Es) as S. pose proof (Rabs_pos (sin E - sin Es)).
  assert (Rabs (E - Es) <= Rabs (E - e * sin E - (Es - e * sin Es)) + e * Rabs (sin E - sin Es)); [|nra].
  replace (E - Es) with ((E - e * sin E - (Es - e * sin Es)) + e * (sin E - sin Es)) at 1 by ring.
  eapply Rle_trans; [apply Rabs_triang|]. rewrite (Rabs_mult e), (Rabs_pos_eq e) by lra. lra.
Qed.
Lemma stop_acc rd u L o t M e E' : rounding rd u -> lib_acc rd u L -> u <= / 10000 -> 0 <= e < 1 -> tol o = Fin t ->
  let N := NP_rd rd L in
  fst (@laguerre_solve_kepler num N (@get_kepler_guess num N (Fin M) (Fin e)) (Fin M) (Fin e) o) = Fin E' -> @stopped N o M e ->
  Rabs (E' - e * sin E' - M) <= (1 + 4 * u) * t + 6 * u * e.
Proof.
  intros Hr HL Hu He Ht N HE HS. destruct (@C18_laguerre_terminates num N (@get_kepler_guess num N (Fin M) (Fin e)) (Fin M) (Fin e) o) as (k & _ & K1 & _ & _ & K2 & _).
  unfold stopped in HS. rewrite K1 in HS, HE. cbn [fst snd] in HS, HE. specialize (K2 HS). rewrite HE in K2.
  destruct (acc_f rd u L Hr HL Hu M e E' He) as (f & F1 & _ & F2). apply F2.
  change (@lag_f num N (Fin M) (Fin e) (Fin E')) with (@lag_f num (NPa rd L) (Fin M) (Fin e) (Fin E')) in K2. rewrite F1, Ht in K2.
  change (Rleb t (Rabs f) = false) in K2. destruct (Rleb_spec t (Rabs f)); [easy|lra].
Qed.
Theorem C78_mean_to_eccentric : forall rd u L o t M e E', rounding rd u -> lib_acc rd u L -> u <= / 10000 -> 0 <= e < 1 -> tol o = Fin t -> 0 <= t ->
  @mean_to_eccentric num (NP_rd rd L) (Sc (Fin M)) (Sc (Fin e)) o false = Ok (Sc (Fin E')) -> @stopped (NP_rd rd L) o M e ->
  Rabs (E' - e * sin E' - M) <= (1 + 4 * u) * t + 6 * u * e /\
  forall E, E - e * sin E = M -> Rabs (E' - E) <= ((1 + 4 * u) * t + 6 * u * e) / (1 - e).
Proof.
  intros rd u L o t M e E' Hr HL Hu He Ht Ht0 HE HS. pose proof (rr_u _ _ Hr) as U.
  assert (R : Rabs (E' - e * sin E' - M) <= (1 + 4 * u) * t + 6 * u * e).
  { unfold mean_to_eccentric in HE. cbn [broadcast in_rad rbind] in HE. destruct (@eqb num (NP_rd rd L) (Fin e) (@lit num (NP_rd rd L) 0)) eqn:Z.
    - assert (E' = M) as -> by congruence. assert (@lit num (NP_rd rd L) 0 = Fin (rd 0)) as Z0 by (cbn; do 2 f_equal; unfold Q2R; cbn; lra).
      assert (rd 0 = 0) as Z1 by (pose proof (rr_err _ _ Hr 0) as Q; rewrite Rabs_R0, Rmult_0_r in Q; apply abs_in in Q; lra).
      rewrite Z0, Z1 in Z. change (Reqb e 0 = true) in Z. destruct (Reqb_spec e 0) as [-> |]; [|easy].
      replace (M - 0 * sin M - M) with 0 by ring. rewrite Rabs_R0. assert (0 <= u * t) by nra. lra.
    - apply (stop_acc rd u L o t M e E' Hr HL Hu He Ht); auto. unfold m2e_el in HE. assert (B1 : @lit num (NP_rd rd L) 1 = Fin 1) by exact (b_1 rd u L Hr). rewrite B1 in HE.
      change (@ltb num (NP_rd rd L) (Fin 1) (Fin e)) with (Rltb 1 e) in HE. change (@eqb num (NP_rd rd L) (Fin e) (Fin 1)) with (Reqb e 1) in HE.
      rewrite Rltb_false, Reqb_false in HE by lra. cbn [out_deg] in HE. congruence. }
  split; [exact R|]. intros E HM. rewrite <- HM in R. pose proof (kepler_lower e E' E He).
  apply (Rmult_le_reg_l (1 - e)); [lra|]. replace ((1 - e) * (((1 + 4 * u) * t + 6 * u * e) / (1 - e))) with ((1 + 4 * u) * t + 6 * u * e) by (field; lra). lra.
Qed.

(** ** The hypotheses hold for binary arithmetic with p digits and a correctly rounded library *)
Lemma binary_half p x : (1 < p)%Z -> FloatBase.rnd p (FloatBase.rnd p x * / 2) = FloatBase.rnd p x * / 2.
Proof.
  intros Hp. apply FloatBase.rnd_fmt. change (/ 2) with (Core.Raux.bpow Core.Zaux.radix2 (-1)).
  apply Mult_error.mult_bpow_exact_FLX. apply FloatBase.fmt_rnd. lia.
Qed.
Lemma binary_lib p : (1 < p)%Z -> lib_acc (FloatBase.rnd p) (Core.Raux.bpow Core.Zaux.radix2 (- p)) PropsFloat.libm0.
Proof.
  intros Hp. pose proof (binary_rounding p Hp) as H. pose proof (rr_u _ _ H) as U. set (v := Core.Raux.bpow _ _) in *. constructor.
  - now apply binary_trig.
  - intros t _. cbn [PropsFloat.libm0 l_tan]. eapply Rle_trans; [apply (rr_err _ _ H)|]. pose proof (Rabs_pos (tan t)). nra.
  - intros x. cbn [PropsFloat.libm0 l_atan]. eapply Rle_trans; [apply (rr_err _ _ H)|].
    assert (Rabs (atan x) <= 2) by (pose proof (atan_bound x); pose proof PI_4; apply Rabs_le; lra). pose proof (Rabs_pos (atan x)). nra.
  - intros x y Hy. cbn [PropsFloat.libm0 l_mod]. destruct (Rmod_spec x y Hy) as [A [n B]]. split; [exact A|]. exists (- n)%Z. rewrite opp_IZR. lra.
  - intros x. now apply binary_half.
Qed.
(** double precision, e = 9/10, nu = E = 2 *)
Example C78_example : forall g,
  let N := NP_rd (FloatBase.rnd 53) PropsFloat.libm0 in let w := Core.Raux.bpow Core.Zaux.radix2 (-53) in
  (exists E' E, @true_to_eccentric num N g (Sc (Fin 2)) (Sc (Fin (9 / 10))) false = Ok (Sc (Fin E'))
      /\ anomalies_ell (9 / 10) 2 E /\ Rabs (E' - E) <= 100 * w) /\
  (exists M' E, @true_to_mean num N g g (Sc (Fin 2)) (Sc (Fin (9 / 10))) false = Ok (Sc (Fin M'))
      /\ anomalies_ell (9 / 10) 2 E /\ Rabs (M' - (E - 9 / 10 * sin E)) <= 220 * w).
Proof.
  intros g N w. pose proof two53. assert (F : is_float (FloatBase.rnd 53) 2) by (apply rr_2 with (1 := binary_rounding 53 ltac:(lia))).
  assert (W : w <= / 10000) by (unfold w; lra).
  split.
  - apply (C78_true_eccentric _ w _ (9 / 10) 2 g (binary_rounding 53 ltac:(lia)) (binary_lib 53 ltac:(lia)) W ltac:(lra) F).
  - apply (C78_true_to_mean _ w _ (9 / 10) 2 g g (binary_rounding 53 ltac:(lia)) (binary_lib 53 ltac:(lia)) W ltac:(lra) F).
Qed.
Example C78_eccentric_to_mean_example : forall g,
  let N := NP_rd (FloatBase.rnd 53) PropsFloat.libm0 in let w := Core.Raux.bpow Core.Zaux.radix2 (-53) in
  exists M', @eccentric_to_mean num N g (Sc (Fin 2)) (Sc (Fin (9 / 10))) false = Ok (Sc (Fin M'))
    /\ Rabs (M' - (2 - 9 / 10 * sin 2)) <= 11 / 10 * w * Rabs (2 - 9 / 10 * sin 2) + 4 * w * (9 / 10).
Proof.
  intros g N w. pose proof two53. assert (W : w <= / 10000) by (unfold w; lra).
  apply (C78_eccentric_to_mean _ w _ (9 / 10) 2 g (binary_rounding 53 ltac:(lia)) (binary_lib 53 ltac:(lia)) W ltac:(lra)).
Qed.
