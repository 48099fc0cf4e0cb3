(** * C77: accuracy of kep_to_cart in floating point arithmetic *)
From Coq Require Import Reals QArith Qreals ZArith Lra Lia Psatz Bool List.
From Verif Require Import NP NPReal NPFloat KeplerModel ConvModel Lists ConvCols ArraySpec PropsArray Spec RealBase KepReal PropsKep PropsNear FloatAcc.
From Verif Require FloatBase PropsFloat.
From Flocq Require Core Relative.
Import ListNotations.
Local Open Scope R_scope.

(** the library functions are correct to two units *)
Definition trig_acc (rd : R -> R) (u : R) (L : libm) : Prop :=
  forall t, Rabs (rd (l_sin L t) - sin t) <= 2 * u /\ Rabs (rd (l_cos L t) - cos t) <= 2 * u.
(** [K] bounds the two condition numbers of the conic: distance of [e] from 1, and of the direction from the asymptote *)
Definition cond_ok (e nu K : R) : Prop :=
  1 <= K /\ (e <> 1 -> 1 + e <= K * Rabs (1 - e)) /\ 1 + e <= K * (1 + e * cos nu).
(** the state [y] is [x] up to the relative error [d] in position and in velocity *)
Definition close (d : R) (y x : six R) : Prop :=
  norm (minus3 (pos y) (pos x)) <= d * norm (pos x) /\ norm (minus3 (vel y) (vel x)) <= d * norm (vel x).

Lemma unit_abs (a : vec) : dot a a = 1 -> Rabs (vx a) <= 1 /\ Rabs (vy a) <= 1 /\ Rabs (vz a) <= 1.
Proof. unfold dot. intros H. repeat split; apply Rabs_le; nra. Qed.
Lemma three_norm a b : 0 <= b -> Rabs (vx a) <= b -> Rabs (vy a) <= b -> Rabs (vz a) <= b -> norm a <= 174 / 100 * b.
Proof.
  intros Hb H1 H2 H3. apply norm_le; [lra|]. unfold dot.
  assert (S : forall t, Rabs t <= b -> t * t <= b * b) by (intros t Ht; apply abs_in in Ht; nra).
  pose proof (S _ H1). pose proof (S _ H2). pose proof (S _ H3). nra.
Qed.

Section Acc.
Context (rd : R -> R) (u : R) (L : libm) (Hrd : rounding rd u).
#[local] Instance NPa : NP num := NP_rd rd L.
Lemma a_1 : lit 1 = Fin 1.
Proof. change (lit 1) with (Fin (rd (Q2R 1))). replace (Q2R 1) with 1 by (unfold Q2R; cbn; lra). now rewrite (rr_1 _ _ Hrd). Qed.
Lemma a_2 : lit 2 = Fin 2.
Proof. change (lit 2) with (Fin (rd (Q2R 2))). replace (Q2R 2) with 2 by (unfold Q2R; cbn; lra). now rewrite (rr_2 _ _ Hrd). Qed.
Lemma a_m1 : lit (-1) = Fin (-1).
Proof. change (lit (-1)) with (Fin (rd (Q2R (-1)))). replace (Q2R (-1)) with (-1) by (unfold Q2R; cbn; lra). now rewrite (rr_m1 _ _ Hrd). Qed.
Lemma a_div x y : y <> 0 -> div (Fin x) (Fin y) = Fin (rd (x / y)).
Proof. intros H. cbn. destruct Req_EM_T; [easy|reflexivity]. Qed.
Lemma a_sqrt x : 0 <= x -> nsqrt (Fin x) = Fin (rd (sqrt x)).
Proof. intros H. cbn. destruct Rlt_dec; [lra|reflexivity]. Qed.

(** the computed sine and cosine of [t'] are near those of [t] *)
Definition ang_acc (t' t : R) : Prop := nr u (rd (l_sin L t')) (sin t) 2 /\ nr u (rd (l_cos L t')) (cos t) 2.
Lemma trig_ang t : trig_acc rd u L -> ang_acc t t.
Proof.
  intros H. destruct (H t). pose proof (SIN_bound t). pose proof (COS_bound t).
  split; (split; [auto|apply Rabs_le; lra]).
Qed.

Section Col.
Context (mu : R) (k : six R) (K : R) (Hv : valid_kep mu k) (HK : cond_ok (k_e k) (k_nu k) K) (HKu : K * u <= / 10000).
Context (i' om' Om' nu' : R) (Ai : ang_acc i' (k_i k)) (Ao : ang_acc om' (k_om k)) (AO : ang_acc Om' (k_Om k)) (An : ang_acc nu' (k_nu k)).
Let a := k_a k. Let e := k_e k. Let c := cos (k_nu k).
Let w := K * u.
Let p := semi_latus a e.
Local Lemma Hu0 : 0 <= u. Proof. apply Hrd. Qed.
Local Lemma Huw : u <= w. Proof. pose proof Hu0. destruct HK as [HK1 _]. unfold w. nra. Qed.
Local Lemma Hu1 : u <= / 10000. Proof. pose proof Huw. unfold w in *. lra. Qed.
Local Lemma Hmu : 0 < mu. Proof. apply Hv. Qed.
Local Lemma Ha : 0 < a. Proof. apply Hv. Qed.
Local Lemma He : 0 <= e. Proof. apply Hv. Qed.
Local Lemma Hs : 0 < 1 + e * c. Proof. apply Hv. Qed.
Local Lemma Hp : 0 < p. Proof. apply semi_latus_pos; [apply Ha|apply He]. Qed.
Local Notation rel := (rel w).

Lemma acc_h : exists h', (if eqb (Fin e) (lit 1)
     then parabolic_total_angular_momentum (if ltb (lit 1) (Fin e) then mul (Fin a) (lit (-1)) else Fin a) (Fin mu)
     else orbit_total_angular_momentum (if ltb (lit 1) (Fin e) then mul (Fin a) (lit (-1)) else Fin a) (Fin e) (Fin mu))
     = Fin h' /\ rel h' (sqrt (mu * p)) 11.
Proof.
  pose proof Hu0. pose proof Huw as W. pose proof (HKu : w <= / 10000) as W1. pose proof Hmu. pose proof Ha. pose proof He. pose proof Hp.
  assert (Hmp : 0 < mu * p) by nra.
  rewrite a_1, a_m1. change (eqb (Fin e) (Fin 1)) with (Reqb e 1). change (ltb (Fin 1) (Fin e)) with (Rltb 1 e).
  destruct (Reqb_spec e 1) as [E|E].
  - unfold parabolic_total_angular_momentum. rewrite a_2, Rltb_false by lra.
    change (mul (mul (Fin mu) (Fin 2)) (Fin a)) with (Fin (rd (rd (mu * 2) * a))).
    assert (M : rel (rd (rd (mu * 2) * a)) (mu * 2 * a) 4).
    { eapply rel_weak; [apply Hrd|exact W| |].
      - apply (rel_mul rd u Hrd w W W1 _ _ _ _ 2 0); try lra; [|apply rel_refl].
        eapply rel_weak; [apply Hrd|exact W|apply (rel_mul rd u Hrd w W W1 _ _ _ _ 0 0); try lra; apply rel_refl|lra].
      - lra. }
    replace (mu * 2 * a) with (mu * p) in M by (unfold p, semi_latus; rewrite E; destruct (Rlt_dec 1 1); [lra|ring]).
    destruct (rel_sqrt rd u Hrd w W W1 _ _ _ Hmp M ltac:(lra)) as [P Q].
    rewrite a_sqrt by lra. eexists. split; [reflexivity|].
    eapply rel_weak; [apply Hrd|exact W|exact Q|lra].
  - unfold orbit_total_angular_momentum, sq. rewrite a_1.
    assert (Q : rel (rd (1 - rd (e * e))) (1 - e * e) 3).
    { eapply rel_weak; [apply Hrd|exact W|apply (rel_rd rd u Hrd w W W1 _ _ 1); [lra|]|lra].
      unfold FloatAcc.rel. replace (1 - rd (e * e) - (1 - e * e)) with (- (rd (e * e) - e * e)) by ring. rewrite Rabs_Ropp.
      eapply Rle_trans; [apply (rr_err rd u Hrd)|]. rewrite (Rabs_pos_eq (e * e)) by nra.
      replace (1 - e * e) with ((1 - e) * (1 + e)) by ring. rewrite Rabs_mult, (Rabs_pos_eq (1 + e)) by lra.
      destruct HK as (_ & HK2 & _). specialize (HK2 E). fold e in HK2. unfold w.
      replace (1 * (K * u) * (Rabs (1 - e) * (1 + e))) with (u * ((K * Rabs (1 - e)) * (1 + e))) by ring.
      apply Rmult_le_compat_l; [lra|]. nra. }
    assert (A : exists a', (if Rltb 1 e then mul (Fin a) (Fin (-1)) else Fin a) = Fin a' /\
                rel a' (if Rltb 1 e then - a else a) 2).
    { destruct (Rltb 1 e); eexists; (split; [reflexivity|]).
      - replace (- a) with (a * -1) by ring. eapply rel_weak; [apply Hrd|exact W|apply (rel_mul rd u Hrd w W W1 _ _ _ _ 0 0); try lra; apply rel_refl|lra].
      - eapply rel_weak; [apply Hrd|exact W|apply rel_refl|lra]. }
    destruct A as [a' [-> A]].
    change (mul (mul (Fin mu) (Fin a')) (sub (Fin 1) (mul (Fin e) (Fin e)))) with (Fin (rd (rd (mu * a') * rd (1 - rd (e * e))))).
    assert (M : rel (rd (rd (mu * a') * rd (1 - rd (e * e)))) (mu * (if Rltb 1 e then - a else a) * (1 - e * e)) 9).
    { eapply rel_weak; [apply Hrd|exact W|apply (rel_mul rd u Hrd w W W1 _ _ _ _ 4 3); try lra; [|exact Q]|lra].
      eapply rel_weak; [apply Hrd|exact W|apply (rel_mul rd u Hrd w W W1 _ _ _ _ 0 2); try lra; [apply rel_refl|exact A]|lra]. }
    replace (mu * (if Rltb 1 e then - a else a) * (1 - e * e)) with (mu * p) in M.
    2:{ unfold p, semi_latus. destruct (Rltb_spec 1 e); destruct (Rlt_dec e 1); try destruct (Rlt_dec 1 e);
          first [ring | lra | exfalso; apply E; lra]. }
    destruct (rel_sqrt rd u Hrd w W W1 _ _ _ Hmp M ltac:(lra)) as [P S].
    rewrite a_sqrt by lra. eexists. split; [reflexivity|].
    eapply rel_weak; [apply Hrd|exact W|exact S|lra].
Qed.
Lemma acc_s : rel (rd (1 + rd (e * rd (l_cos L nu')))) (1 + e * c) 5.
Proof.
  pose proof Hu0. pose proof Huw as W. pose proof (HKu : w <= / 10000) as W1. pose proof He. pose proof Hs. pose proof Hu1.
  destruct An as [_ [C1 C2]]. fold c in C1, C2. set (c' := rd (l_cos L nu')) in *.
  eapply rel_weak; [apply Hrd|exact W|apply (rel_rd rd u Hrd w W W1 _ _ (39 / 10)); [lra|]|lra].
  unfold FloatAcc.rel. replace (1 + rd (e * c') - (1 + e * c)) with (rd (e * c') - e * c) by ring.
  destruct (abs_prod e e c c' e 1 0 _ ltac:(rewrite Rabs_pos_eq; lra) C2 ltac:(rewrite Rminus_diag_eq, Rabs_R0 by auto; lra) C1) as [A B].
  eapply Rle_trans; [apply (rd_within rd u Hrd _ _ _ _ A B)|].
  rewrite (Rabs_pos_eq (1 + e * c)) by lra. destruct HK as (_ & _ & HK3). fold e c in HK3.
  apply Rle_trans with (39 / 10 * u * (1 + e)); [|unfold w; replace (39 / 10 * (K * u) * (1 + e * c)) with (39 / 10 * u * (K * (1 + e * c))) by ring; apply Rmult_le_compat_l; lra].
  assert (0 <= u * e) by nra. assert (u * (u * e) <= u * e / 10000) by nra. nra.
Qed.
Lemma acc_rn h' : rel h' (sqrt (mu * p)) 11 -> exists r', orbital_distance (Fin h') (Fin mu) (Fin e) (Fin nu') false = Fin r' /\
  rel r' (peri_r mu k) 33.
Proof.
  intros Hh. pose proof Hu0. pose proof Huw as W. pose proof (HKu : w <= / 10000) as W1. pose proof Hmu. pose proof Hs. pose proof Hp.
  unfold orbital_distance, sq. rewrite a_1.
  change (mul (Fin mu) (add (Fin 1) (mul (Fin e) (ncos (Fin nu'))))) with (Fin (rd (mu * rd (1 + rd (e * rd (l_cos L nu')))))).
  change (mul (Fin h') (Fin h')) with (Fin (rd (h' * h'))).
  assert (G1 : rel (rd (h' * h')) (sqrt (mu * p) * sqrt (mu * p)) 24) by (eapply rel_weak; [apply Hrd|exact W|apply (rel_mul rd u Hrd w W W1 _ _ _ _ 11 11); auto; lra|lra]).
  rewrite sqrt_sqrt in G1 by nra.
  assert (G2 : rel (rd (mu * rd (1 + rd (e * rd (l_cos L nu'))))) (mu * (1 + e * c)) 7).
  { eapply rel_weak; [apply Hrd|exact W|apply (rel_mul rd u Hrd w W W1 _ _ _ _ 0 5); try lra; [apply rel_refl|apply acc_s]|lra]. }
  destruct (rel_div rd u Hrd w W W1 _ _ _ _ _ _ G1 G2 ltac:(nra) ltac:(lra) ltac:(lra)) as [N D].
  rewrite a_div by auto. eexists. split; [reflexivity|].
  replace (peri_r mu k) with (mu * p / (mu * (1 + e * c))) by (unfold peri_r; fold a e c p; field; lra).
  eapply rel_weak; [apply Hrd|exact W|exact D|lra].
Qed.
Lemma acc_vn h' : rel h' (sqrt (mu * p)) 11 -> exists s', div (Fin mu) (Fin h') = Fin s' /\ rel s' (peri_s mu k) 13.
Proof.
  intros Hh. pose proof Hu0. pose proof Huw as W. pose proof (HKu : w <= / 10000) as W1. pose proof Hmu. pose proof Hp.
  assert (0 < sqrt (mu * p)) by (apply sqrt_lt_R0; nra).
  destruct (rel_div rd u Hrd w W W1 _ _ _ _ _ _ (rel_refl w mu) Hh ltac:(lra) ltac:(lra) ltac:(lra)) as [N D].
  rewrite a_div by auto. eexists. split; [reflexivity|].
  replace (peri_s mu k) with (mu / sqrt (mu * p)) by (unfold peri_s; fold a e p; now apply mu_over_h).
  eapply rel_weak; [apply Hrd|exact W|exact D|lra].
Qed.
(** the entries of the rotation matrix *)
Let C1 := rd (l_cos L Om'). Let S1 := rd (l_sin L Om').
Let C2 := rd (l_cos L i'). Let S2 := rd (l_sin L i').
Let C3 := rd (l_cos L om'). Let S3 := rd (l_sin L om').
Let m00' := rd (rd (C1 * C3) - rd (rd (C2 * S1) * S3)).
Let m01' := rd (rd (- C1 * S3) - rd (rd (C2 * C3) * S1)).
Let m10' := rd (rd (C3 * S1) + rd (rd (C1 * C2) * S3)).
Let m11' := rd (rd (rd (C1 * C2) * C3) - rd (S1 * S3)).
Let m20' := rd (S2 * S3).
Let m21' := rd (C3 * S2).
Lemma acc_rot : (nr u m00' (vx (P_axis k)) 18 /\ nr u m10' (vy (P_axis k)) 18 /\ nr u m20' (vz (P_axis k)) 18) /\
  (nr u m01' (vx (Q_axis k)) 18 /\ nr u m11' (vy (Q_axis k)) 18 /\ nr u m21' (vz (Q_axis k)) 18).
Proof.
  pose proof Hu0. pose proof Hu1 as U1. destruct Ai as [Asi Aci], Ao as [Aso Aco], AO as [AsO AcO].
  fold S2 in Asi. fold C2 in Aci. fold S3 in Aso. fold C3 in Aco. fold S1 in AsO. fold C1 in AcO.
  pose proof (unit_abs _ (PP k)) as (P1 & P2 & P3). pose proof (unit_abs _ (QQ k)) as (Q1 & Q2 & Q3).
  rewrite Q_axis_eq in *. unfold P_axis in *. cbn [vx vy vz fst snd] in *.
  pose proof (nr_mul rd u Hrd U1) as MU.
  assert (M2 : forall x' x y' y, nr u x' x 2 -> nr u y' y 2 -> nr u (rd (x' * y')) (x * y) 6).
  { intros. eapply (nr_weak rd u Hrd); [apply MU; eauto; lra|lra]. }
  assert (M6 : forall x' x y' y, nr u x' x 6 -> nr u y' y 2 -> nr u (rd (x' * y')) (x * y) 10).
  { intros. eapply (nr_weak rd u Hrd); [apply MU; eauto; lra|lra]. }
  assert (PL : forall x' x y' y d d' z, nr u x' x d -> nr u y' y d' -> 0 <= d <= 10 -> 0 <= d' <= 10 -> d + d' = 16 -> x + y = z -> Rabs z <= 1 -> nr u (rd (x' + y')) z 18).
  { intros x' x y' y d d' z X Y Hd Hd' D <- B. eapply (nr_weak rd u Hrd); [apply (nr_add rd u Hrd U1 _ _ _ _ _ _ X Y); auto; lra|lra]. }
  assert (MI : forall x' x y' y d d' z, nr u x' x d -> nr u y' y d' -> 0 <= d <= 10 -> 0 <= d' <= 10 -> d + d' = 16 -> x - y = z -> Rabs z <= 1 -> nr u (rd (x' - y')) z 18).
  { intros x' x y' y d d' z X Y Hd Hd' D <- B. eapply (nr_weak rd u Hrd); [apply (nr_sub rd u Hrd U1 _ _ _ _ _ _ X Y); auto; lra|lra]. }
  assert (W6 : forall x' x z, nr u x' x 6 -> x = z -> nr u x' z 18) by (intros x' x z X <-; eapply (nr_weak rd u Hrd); [exact X|lra]).
  split; [split; [|split]|split; [|split]].
  - eapply MI with (d := 6) (d' := 10); [apply M2; eassumption|apply M6; [apply M2; eassumption|eassumption]|lra|lra|lra| |assumption]. ring.
  - eapply PL with (d := 6) (d' := 10); [apply M2; eassumption|apply M6; [apply M2; eassumption|eassumption]|lra|lra|lra| |assumption]. ring.
  - eapply W6; [apply M2; eassumption|ring].
  - eapply MI with (d := 6) (d' := 10); [apply M2; [apply nr_opp; eassumption|eassumption]|apply M6; [apply M2; eassumption|eassumption]|lra|lra|lra| |assumption]. ring.
  - eapply MI with (d := 10) (d' := 6); [apply M6; [apply M2; eassumption|eassumption]|apply M2; eassumption|lra|lra|lra| |assumption]. ring.
  - eapply W6; [apply M2; eassumption|ring].
Qed.

(** the vector with in-plane coordinates X, Y scaled by m *)
Lemma acc_vec m X' X Y' Y B : 0 <= B -> Rabs X <= B -> Rabs Y <= B ->
  Rabs (X' - m * X) <= 5 * u * (Rabs m * B) -> Rabs (Y' - m * Y) <= 5 * u * (Rabs m * B) ->
  norm (minus3 (rd (rd (m00' * X') + rd (m01' * Y')), rd (rd (m10' * X') + rd (m11' * Y')), rd (rd (m20' * X') + rd (m21' * Y')))
          (scal3 m (plus3 (scal3 X (P_axis k)) (scal3 Y (Q_axis k))))) <= 93 * u * (Rabs m * B).
Proof.
  intros HB HX HY EX EY. pose proof Hu0. pose proof Hu1 as U1. destruct acc_rot as [(P1 & P2 & P3) (Q1 & Q2 & Q3)].
  assert (Hb : 0 <= u * (Rabs m * B)) by (repeat apply Rmult_le_pos; auto; apply Rabs_pos).
  eapply Rle_trans; [apply (three_norm _ (53 * u * (Rabs m * B)))|]; [lra| | | |lra].
  - pose proof (row_acc rd u Hrd U1 _ _ _ _ m X' X Y' Y B P1 Q1 HB HX HY EX EY) as G.
    eapply Rle_trans; [|exact G]. right. f_equal. unfold minus3, scal3, plus3. cbn [vx vy vz fst snd]. ring.
  - pose proof (row_acc rd u Hrd U1 _ _ _ _ m X' X Y' Y B P2 Q2 HB HX HY EX EY) as G.
    eapply Rle_trans; [|exact G]. right. f_equal. unfold minus3, scal3, plus3. cbn [vx vy vz fst snd]. ring.
  - pose proof (row_acc rd u Hrd U1 _ _ _ _ m X' X Y' Y B P3 Q3 HB HX HY EX EY) as G.
    eapply Rle_trans; [|exact G]. right. f_equal. unfold minus3, scal3, plus3. cbn [vx vy vz fst snd]. ring.
Qed.
(** a product with the scale *)
Lemma acc_coord m x' x d B : 0 <= d <= 4 -> 1 <= B -> Rabs x <= B -> Rabs (x' - x) <= d * u * B -> 
  Rabs (rd (m * x') - m * x) <= (d + 1 + / 100) * u * (Rabs m * B).
Proof.
  intros Hd HB HX E. pose proof Hu0. pose proof Hu1.
  destruct (abs_prod m m x x' (Rabs m) B 0 _ (Rle_refl _) HX ltac:(rewrite Rminus_diag_eq, Rabs_R0 by auto; lra) E) as [A C].
  eapply Rle_trans; [apply (rd_within rd u Hrd _ _ _ _ A C)|]. set (b := Rabs m * B).
  assert (Hb : 0 <= b) by (apply Rmult_le_pos; [apply Rabs_pos|lra]).
  replace (0 * (B + d * u * B) + Rabs m * (d * u * B) + u * ((Rabs m + 0) * (B + d * u * B))) with ((d + 1 + d * u) * u * b) by (unfold b; ring).
  apply Rmult_le_compat_r; auto. apply Rmult_le_compat_r; auto. nra.
Qed.
Lemma rel_size m' m D : rel m' m D -> 0 < m -> 0 <= D <= 40 -> Rabs m' <= (1 + / 200) * m.
Proof.
  intros H Hm HD. unfold FloatAcc.rel in H. rewrite (Rabs_pos_eq m) in H by lra.
  pose proof Hu0. pose proof Huw. pose proof (HKu : w <= / 10000). assert (D * w <= 40 / 10000) by nra.
  replace m' with (m + (m' - m)) by ring. eapply Rle_trans; [apply Rabs_triang|]. rewrite (Rabs_pos_eq m) by lra. nra.
Qed.

Lemma acc_col : exists x', k2c_col (edit_col false (mk6 (Fin a) (Fin e) (Fin i') (Fin om') (Fin Om') (Fin nu'))) (Fin mu) = fin6 x' /\
  close (130 * w) x' (peri_state mu k).
Proof.
  pose proof Hu0. pose proof Huw as W. pose proof (HKu : w <= / 10000) as W1. pose proof Hu1.
  pose proof Hmu. pose proof Ha. pose proof He. pose proof Hs. pose proof Hp.
  destruct acc_h as [h' [Eh Hh]]. destruct (acc_rn h' Hh) as [r' [Er Hr]]. destruct (acc_vn h' Hh) as [s' [Es Hs']].
  assert (Rp : 0 < peri_r mu k) by (unfold peri_r; fold a e c p; apply Rdiv_lt_0_compat; auto).
  assert (Sp : 0 < peri_s mu k) by now apply peri_s_pos.
  destruct An as [Asn Acn]. fold c in Acn. set (cn := rd (l_cos L nu')) in *. set (sn := rd (l_sin L nu')) in *. set (s := sin (k_nu k)) in *.
  set (X := rd (r' * cn)). set (Y := rd (r' * sn)). set (VX := rd (- s' * sn)). set (VY := rd (s' * rd (e + cn))).
  exists (mk6 (rd (rd (m00' * X) + rd (m01' * Y))) (rd (rd (m10' * X) + rd (m11' * Y))) (rd (rd (m20' * X) + rd (m21' * Y)))
     (rd (rd (m00' * VX) + rd (m01' * VY))) (rd (rd (m10' * VX) + rd (m11' * VY))) (rd (rd (m20' * VX) + rd (m21' * VY)))).
  split.
  { unfold k2c_col, edit_col. cbn [s0 s1 s2 s3 s4 s5]. rewrite Eh, Er, Es. reflexivity. }
  destruct Asn as [Asn Bs], Acn as [Acn Bc]. split.
  - assert (EX : Rabs (X - r' * c) <= 5 * u * (Rabs r' * 1)).
    { eapply Rle_trans; [apply (acc_coord r' cn c 2 1); lra|]. apply Rmult_le_compat_r; [|lra]. pose proof (Rabs_pos r'). lra. }
    assert (EY : Rabs (Y - r' * s) <= 5 * u * (Rabs r' * 1)).
    { eapply Rle_trans; [apply (acc_coord r' sn s 2 1); lra|]. apply Rmult_le_compat_r; [|lra]. pose proof (Rabs_pos r'). lra. }
    pose proof (acc_vec r' X c Y s 1 ltac:(lra) Bc Bs EX EY) as G.
    pose proof (rel_size _ _ _ Hr Rp ltac:(lra)) as Z. unfold FloatAcc.rel in Hr. rewrite (Rabs_pos_eq (peri_r mu k)) in Hr by lra.
    assert (Np : norm (pos (peri_state mu k)) = peri_r mu k) by (rewrite peri_norm by auto; reflexivity).
    rewrite Np. rewrite peri_pos. fold c s. set (d := plus3 _ _) in *.
    assert (Nd : norm d = 1).
    { assert (E : norm (pos (peri_state mu k)) = peri_r mu k * norm d) by (rewrite peri_pos; fold c s d; rewrite norm_scal_abs, Rabs_pos_eq; auto; lra).
      rewrite Np in E. apply (Rmult_eq_reg_l (peri_r mu k)); lra. }
    set (y := (_, _, _)) in G. change (pos _) with y.
    replace (minus3 y (scal3 (peri_r mu k) d)) with (plus3 (minus3 y (scal3 r' d)) (scal3 (r' - peri_r mu k) d)) by vring.
    eapply Rle_trans; [apply norm_tri|]. rewrite norm_scal_abs, Nd, Rmult_1_r.
    assert (93 * u * (Rabs r' * 1) <= 94 * w * peri_r mu k); [|nra].
    apply Rle_trans with (93 * w * ((1 + / 200) * peri_r mu k)); [|nra].
    apply Rmult_le_compat; try nra. pose proof (Rabs_pos r'). lra.
  - assert (EX : Rabs (VX - s' * - s) <= 5 * u * (Rabs s' * (1 + e))).
    { replace VX with (rd (s' * - sn)) by (unfold VX; f_equal; ring).
      eapply Rle_trans; [apply (acc_coord s' (- sn) (- s) 2 (1 + e)); try lra|].
      - rewrite Rabs_Ropp. lra.
      - replace (- sn - - s) with (- (sn - s)) by ring. rewrite Rabs_Ropp. nra.
      - apply Rmult_le_compat_r; [|lra]. pose proof (Rabs_pos s'). nra. }
    assert (EY : Rabs (VY - s' * (e + c)) <= 5 * u * (Rabs s' * (1 + e))).
    { assert (A : Rabs (e + cn - (e + c)) <= 2 * u) by (replace (e + cn - (e + c)) with (cn - c) by ring; exact Acn).
      assert (B : Rabs (e + c) <= 1 + e) by (eapply Rle_trans; [apply Rabs_triang|]; rewrite (Rabs_pos_eq e); lra).
      assert (C : Rabs (e + cn) <= 1 + e + 2 * u) by (replace (e + cn) with (e + c + (e + cn - (e + c))) by ring; now apply abs_add_le).
      eapply Rle_trans; [apply (acc_coord s' (rd (e + cn)) (e + c) (301 / 100) (1 + e)); try lra|].
      - eapply Rle_trans; [apply (rd_within rd u Hrd _ _ _ _ A C)|]. nra.
      - apply Rmult_le_compat_r; [|lra]. pose proof (Rabs_pos s'). nra. }
    assert (Bx : Rabs (- s) <= 1 + e) by (rewrite Rabs_Ropp; lra).
    assert (By : Rabs (e + c) <= 1 + e) by (eapply Rle_trans; [apply Rabs_triang|]; rewrite (Rabs_pos_eq e); lra).
    pose proof (acc_vec s' VX (- s) VY (e + c) (1 + e) ltac:(lra) Bx By EX EY) as G.
    pose proof (rel_size _ _ _ Hs' Sp ltac:(lra)) as Z. unfold FloatAcc.rel in Hs'. rewrite (Rabs_pos_eq (peri_s mu k)) in Hs' by lra.
    rewrite peri_vel. fold c s e. set (d := plus3 _ _) in *. rewrite norm_scal_abs, (Rabs_pos_eq (peri_s mu k)) by lra.
    assert (Dd : norm d * norm d = 1 + 2 * e * c + e * e).
    { rewrite norm_sq. unfold d. rewrite !dot_plus_l, !dot_plus_r, !dot_scal_l, !dot_scal_r.
      rewrite (dot_comm (Q_axis k) (P_axis k)), PP, QQ, PQ. pose proof (sc1 (k_nu k)) as SC. fold s c in SC.
      replace (1 + 2 * e * c + e * e) with ((s * s + c * c) + 2 * e * c + e * e); [ring|]. nra. }
    pose proof (norm_pos d) as Nd. destruct HK as (HK1 & HK2 & HK3). fold e in HK2. fold e c in HK3.
    assert (Bc' := abs_in _ _ Bc).
    assert (Kd : 1 + e <= K * norm d).
    { destruct (Req_dec e 1) as [E|E].
      - eapply Rle_trans; [exact HK3|]. apply Rmult_le_compat_l; [lra|]. apply sq_le; auto. rewrite Dd, E. nra.
      - eapply Rle_trans; [apply (HK2 E)|]. apply Rmult_le_compat_l; [lra|]. apply sq_le; auto. rewrite Dd.
        rewrite <- Rabs_mult, Rabs_pos_eq by nra. nra. }
    set (y := (_, _, _)) in G. change (vel _) with y.
    replace (minus3 y (scal3 (peri_s mu k) d)) with (plus3 (minus3 y (scal3 s' d)) (scal3 (s' - peri_s mu k) d)) by vring.
    eapply Rle_trans; [apply norm_tri|]. rewrite norm_scal_abs.
    assert (T1 : Rabs (s' - peri_s mu k) * norm d <= 13 * w * (peri_s mu k * norm d)) by nra.
    assert (T2 : 93 * u * (Rabs s' * (1 + e)) <= 94 * w * (peri_s mu k * norm d)); [|assert (0 <= w * (peri_s mu k * norm d)) by (repeat apply Rmult_le_pos; lra); lra].
    apply Rle_trans with (93 * u * ((1 + / 200) * peri_s mu k * (K * norm d))).
    + apply Rmult_le_compat_l; [lra|]. apply Rmult_le_compat; try lra. apply Rabs_pos.
    + unfold w. assert (0 <= K * u * (peri_s mu k * norm d)) by (repeat apply Rmult_le_pos; lra). lra.
Qed.
End Col.
End Acc.

(** ** The theorems *)
Theorem C77_kep_to_cart : forall rd u L mu k K x g, rounding rd u -> trig_acc rd u L ->
  valid_kep mu k -> cond_ok (k_e k) (k_nu k) K -> K * u <= / 10000 -> state_of mu k x ->
  exists y, snd (@kep_to_cart num (NP_rd rd L) g (KVec (fin6 k)) (MuS (Fin mu)) false) = Ok (KVec (fin6 y)) /\
    close (130 * (K * u)) y x.
Proof.
  intros rd u L mu k K x g Hr HL Hv HK HKu Sx. rewrite (state_of_inv _ _ _ Hv Sx).
  destruct (@kep_to_cart_vec num (NP_rd rd L) g (fin6 k) (MuS (Fin mu)) false [Fin mu] eq_refl) as [m [Em ->]].
  assert (m = Fin mu) as -> by congruence. cbn [snd].
  destruct (acc_col rd u L Hr mu k K Hv HK HKu _ _ _ _ (trig_ang rd u L (k_i k) HL) (trig_ang rd u L (k_om k) HL)
    (trig_ang rd u L (k_Om k) HL) (trig_ang rd u L (k_nu k) HL)) as [y [Ey Cy]].
  exists y. split; auto. f_equal. f_equal. exact Ey.
Qed.

(** an array: every column *)
Theorem C77_array : forall rd u L K g l mus, rounding rd u -> trig_acc rd u L -> K * u <= / 10000 -> length mus = length l ->
  (forall j k mu, nth_error l j = Some k -> nth_error mus j = Some mu -> valid_kep mu k /\ cond_ok (k_e k) (k_nu k) K) ->
  exists ys, snd (@kep_to_cart num (NP_rd rd L) g (KMat (map fin6 l)) (MuV (map Fin mus)) false) = Ok (KMat (map fin6 ys)) /\
    length ys = length l /\
    forall j k mu y x, nth_error l j = Some k -> nth_error mus j = Some mu -> nth_error ys j = Some y ->
      state_of mu k x -> close (130 * (K * u)) y x.
Proof.
  intros rd u L K g l mus Hr HL HKu Hlen Hall.
  assert (E : @mu_mask num (length (map fin6 l)) (MuV (map Fin mus)) = Ok (map Fin mus)).
  { cbn [mu_mask]. rewrite !map_length, Hlen, Nat.eqb_refl. reflexivity. }
  rewrite (@kep_to_cart_mat num (NP_rd rd L) g (map fin6 l) (MuV (map Fin mus)) false _ E). cbn [snd].
  rewrite map2_map_l, map2_map_r. clear E g.
  enough (G : exists ys, map2 (fun k m => @k2c_col num (NP_rd rd L) (@edit_col num (NP_rd rd L) false (fin6 k)) (Fin m)) l mus = map fin6 ys /\
    length ys = length l /\
    forall j k mu y x, nth_error l j = Some k -> nth_error mus j = Some mu -> nth_error ys j = Some y ->
      state_of mu k x -> close (130 * (K * u)) y x).
  { destruct G as (ys & G1 & G2). exists ys. split; auto. f_equal. f_equal. exact G1. }
  revert mus Hlen Hall. induction l as [|k l IH]; intros [|mu mus] Hlen Hall; try discriminate.
  - exists []. split; [reflexivity|]. split; [reflexivity|]. intros [|] ? ? ? ? ?; discriminate.
  - destruct (Hall 0%nat k mu eq_refl eq_refl) as [Hv HK].
    destruct (acc_col rd u L Hr mu k K Hv HK HKu _ _ _ _ (trig_ang rd u L (k_i k) HL) (trig_ang rd u L (k_om k) HL)
      (trig_ang rd u L (k_Om k) HL) (trig_ang rd u L (k_nu k) HL)) as [y [Ey Cy]].
    destruct (IH mus) as (ys & E1 & E2 & E3); [now injection Hlen|intros j; apply (Hall (S j))|].
    exists (y :: ys). cbn [map2 map length]. rewrite <- E1, E2. split; [f_equal; exact Ey|]. split; auto.
    intros [|j] k1 mu1 y1 x1; cbn [nth_error]; [|apply E3].
    intros [= <-] [= <-] [= <-] Sx. now rewrite (state_of_inv _ _ _ Hv Sx).
Qed.

(** degrees: the conversion of angles up to [B] turns costs a factor [27 B] *)
Lemma sin_lip a b : Rabs (sin a - sin b) <= Rabs (a - b).
Proof.
  assert (S : forall t, Rabs (sin t) <= Rabs t).
  { assert (P : forall t, 0 <= t -> Rabs (sin t) <= t).
    { intros t Ht. destruct (Req_dec t 0) as [->|]; [rewrite sin_0, Rabs_R0; lra|].
      destruct (Rle_dec t 1) as [H1|H1]; [|apply Rle_trans with 1; [apply Rabs_le; pose proof (SIN_bound t); lra|lra]].
      rewrite Rabs_pos_eq by (apply sin_ge_0; pose proof PI2_3_2; lra). apply Rlt_le, sin_lt_x. lra. }
    intros t. destruct (Rle_dec 0 t); [rewrite (Rabs_pos_eq t) by auto; now apply P|].
    rewrite <- Rabs_Ropp, <- sin_neg, <- (Rabs_Ropp t), (Rabs_pos_eq (- t)) by lra. apply P. lra. }
  rewrite form4, Rabs_mult, Rabs_mult, (Rabs_pos_eq 2) by lra.
  assert (C : Rabs (cos ((a + b) / 2)) <= 1) by (apply Rabs_le, COS_bound).
  specialize (S ((a - b) / 2)). pose proof (Rabs_pos (cos ((a + b) / 2))). pose proof (Rabs_pos (sin ((a - b) / 2))).
  assert (H2 : Rabs ((a - b) / 2) = Rabs (a - b) / 2) by (unfold Rdiv; rewrite Rabs_mult, (Rabs_pos_eq (/ 2)); lra). nra.
Qed.
Lemma cos_lip a b : Rabs (cos a - cos b) <= Rabs (a - b).
Proof. rewrite <- !sin_shift. eapply Rle_trans; [apply sin_lip|]. replace (PI / 2 - a - (PI / 2 - b)) with (- (a - b)) by ring. rewrite Rabs_Ropp. lra. Qed.
Lemma rounding_mono rd u u' : rounding rd u -> u <= u' -> rounding rd u'.
Proof.
  intros H Hu. destruct H as [E H1 H2 H3 H4]. constructor; auto; [|lra]. intros x. eapply Rle_trans; [apply E|].
  apply Rmult_le_compat_r; auto. apply Rabs_pos.
Qed.
Definition rad6 (k : six R) : six R :=
  let f t := t * (PI / 180) in mk6 (s0 k) (s1 k) (f (s2 k)) (f (s3 k)) (f (s4 k)) (f (s5 k)).
Definition turns (B : R) (k : six R) : Prop :=
  Rabs (k_i k) <= 360 * B /\ Rabs (k_om k) <= 360 * B /\ Rabs (k_Om k) <= 360 * B /\ Rabs (k_nu k) <= 360 * B.
Lemma rad_acc rd u L B t : rounding rd u -> trig_acc rd u L -> u <= / 10000 -> 1 <= B -> Rabs t <= 360 * B ->
  ang_acc rd (27 * B * u) L (rd (t * rd (rd PI / rd (Q2R 180)))) (t * (PI / 180)).
Proof.
  intros Hr HL Hu HB Ht. pose proof (rr_u _ _ Hr) as U0. pose proof PI_RGT_0. pose proof PI_4 as P4.
  assert (Q : Q2R 180 = 180) by (unfold Q2R; cbn; lra). rewrite Q.
  pose proof (Rle_refl u) as UU.
  assert (R1 : forall x, rel u (rd x) x (1 + / 50)).
  { intros x. eapply rel_weak; [apply Hr|exact UU|apply (rel_rd rd u Hr u UU Hu _ _ 0); [lra|apply rel_refl]|lra]. }
  destruct (rel_div rd u Hr u UU Hu _ _ _ _ _ _ (R1 PI) (R1 180) ltac:(lra) ltac:(lra) ltac:(lra)) as [N D].
  pose proof (rel_mul rd u Hr u UU Hu _ _ _ _ _ _ (rel_refl u t) D ltac:(lra) ltac:(lra)) as M.
  set (t' := rd (t * _)) in *. set (T := t * (PI / 180)) in *.
  assert (A : Rabs (t' - T) <= 52 * B * u).
  { unfold rel in M. assert (HT : Rabs T <= 8 * B).
    { unfold T. rewrite Rabs_mult, (Rabs_pos_eq (PI / 180)) by lra. 
      apply Rle_trans with (360 * B * (PI / 180)); [apply Rmult_le_compat_r; lra|nra]. }
    eapply Rle_trans; [exact M|]. assert (0 <= B * u) by nra. apply Rle_trans with ((0 + (1 + / 50 + (1 + / 50) + 2) + 2) * u * (8 * B)); [|nra].
    apply Rmult_le_compat_l; [nra|exact HT]. }
  destruct (HL t') as [S C]. pose proof (SIN_bound T). pose proof (COS_bound T).
  split; (split; [|apply Rabs_le; lra]).
  - replace (rd (l_sin L t') - sin T) with ((rd (l_sin L t') - sin t') + (sin t' - sin T)) by ring.
    eapply Rle_trans; [apply Rabs_triang|]. pose proof (sin_lip t' T). nra.
  - replace (rd (l_cos L t') - cos T) with ((rd (l_cos L t') - cos t') + (cos t' - cos T)) by ring.
    eapply Rle_trans; [apply Rabs_triang|]. pose proof (cos_lip t' T). nra.
Qed.
Theorem C77_degrees : forall rd u L mu k K B x g, rounding rd u -> trig_acc rd u L -> 1 <= B -> turns B k ->
  valid_kep mu (rad6 k) -> cond_ok (k_e k) (k_nu (rad6 k)) K -> K * (27 * B * u) <= / 10000 ->
  (forall g0, snd (kep_to_cart g0 (KVec (fin6 k)) (MuS (Fin mu)) true) = Ok (KVec (fin6 x))) ->
  exists y, snd (@kep_to_cart num (NP_rd rd L) g (KVec (fin6 k)) (MuS (Fin mu)) true) = Ok (KVec (fin6 y)) /\
    close (3510 * B * (K * u)) y x.
Proof.
  intros rd u L mu k K B x g Hr HL HB (T1 & T2 & T3 & T4) Hv HK HKu Sx.
  pose proof (rr_u _ _ Hr) as U0. assert (HK1 : 1 <= K) by apply HK.
  assert (Bu : u <= B * u) by nra. assert (Ku : B * u <= K * (B * u)) by nra.
  assert (Hu : u <= / 10000) by nra.
  assert (x = peri_state mu (rad6 k)) as ->.
  { apply (state_of_inv _ _ _ Hv). intros g0. rewrite <- (Sx g0).
    destruct (kep_to_cart_vec g0 (fin6 k) (MuS (Fin mu)) true [Fin mu] eq_refl) as [m [Em ->]].
    destruct (kep_to_cart_vec g0 (fin6 (rad6 k)) (MuS (Fin mu)) false [Fin mu] eq_refl) as [m' [Em' ->]].
    assert (m = m') as -> by congruence. cbn [snd]. do 2 f_equal. unfold edit_col. 
    replace (ang6 radians (fin6 k)) with (fin6 (rad6 k)); [reflexivity|].
    unfold ang6, fin6, map6, rad6. cbn [s0 s1 s2 s3 s4 s5]. now rewrite !Fin_radians. }
  destruct (@kep_to_cart_vec num (NP_rd rd L) g (fin6 k) (MuS (Fin mu)) true [Fin mu] eq_refl) as [m [Em ->]].
  assert (m = Fin mu) as -> by congruence. cbn [snd].
  assert (Hr' : rounding rd (27 * B * u)) by (apply (rounding_mono rd u); auto; nra).
  destruct (acc_col rd (27 * B * u) L Hr' mu (rad6 k) K Hv HK HKu _ _ _ _ (rad_acc rd u L B (k_i k) Hr HL Hu HB T1)
    (rad_acc rd u L B (k_om k) Hr HL Hu HB T2) (rad_acc rd u L B (k_Om k) Hr HL Hu HB T3) (rad_acc rd u L B (k_nu k) Hr HL Hu HB T4)) as [y [Ey Cy]].
  exists y. split.
  - f_equal. f_equal. rewrite <- Ey. unfold edit_col at 1.
    replace (@ang6 num (@radians num (NP_rd rd L)) (fin6 k)) with
      (mk6 (Fin (k_a (rad6 k))) (Fin (k_e (rad6 k))) (Fin (rd (k_i k * rd (rd PI / rd (Q2R 180))))) (Fin (rd (k_om k * rd (rd PI / rd (Q2R 180)))))
        (Fin (rd (k_Om k * rd (rd PI / rd (Q2R 180))))) (Fin (rd (k_nu k * rd (rd PI / rd (Q2R 180)))))); [reflexivity|].
    assert (N : rd (Q2R 180) <> 0).
    { pose proof (rr_err _ _ Hr (Q2R 180)) as E. replace (Q2R 180) with 180 in * by (unfold Q2R; cbn; lra).
      rewrite (Rabs_pos_eq 180) in E by lra. apply abs_in in E. lra. }
    assert (RD : forall t, @radians num (NP_rd rd L) (Fin t) = Fin (rd (t * rd (rd PI / rd (Q2R 180))))).
    { intros t. unfold radians. change (@npi num (NP_rd rd L)) with (Fin (rd PI)). change (@lit num (NP_rd rd L) 180) with (Fin (rd (Q2R 180))).
      rewrite (a_div rd L) by exact N. reflexivity. }
    unfold ang6, fin6, map6. cbn [s0 s1 s2 s3 s4 s5]. now rewrite !RD.
  - replace (3510 * B * (K * u)) with (130 * (K * (27 * B * u))) by ring. exact Cy.
Qed.

(** ellipses: [K = (1 + e) / (1 - e)] will do, at every true anomaly *)
Theorem C77_ellipse_K : forall e nu, 0 <= e < 1 -> cond_ok e nu ((1 + e) / (1 - e)).
Proof.
  intros e nu He. assert (Hk : (1 + e) / (1 - e) * (1 - e) = 1 + e) by (field; lra).
  assert (0 < (1 + e) / (1 - e)) by (apply Rdiv_lt_0_compat; lra). pose proof (COS_bound nu).
  repeat split.
  - apply (Rmult_le_reg_r (1 - e)); lra.
  - intros _. rewrite Rabs_pos_eq by lra. lra.
  - apply Rle_trans with ((1 + e) / (1 - e) * (1 - e)); [lra|]. apply Rmult_le_compat_l; [lra|nra].
Qed.

(** ** Binary floating point numbers meet the hypotheses *)
Lemma binary_rounding p : (1 < p)%Z -> rounding (FloatBase.rnd p) (Core.Raux.bpow Core.Zaux.radix2 (- p)).
Proof.
  intros Hp. assert (F2 : FloatBase.rnd p 2 = 2).
  { rewrite <- (PropsFloat.r2 p Hp) at 2. do 2 f_equal. unfold Q2R. cbn. lra. }
  constructor.
  - intros x. eapply Rle_trans; [exact (Relative.relative_error_N_FLX Core.Zaux.radix2 p ltac:(unfold Core.FLX.Prec_gt_0; lia) (fun x => negb (Z.even x)) x)|].
    right. rewrite Core.Raux.bpow_plus. change (Core.Raux.bpow Core.Zaux.radix2 1) with 2. lra.
  - now apply FloatBase.rnd_1.
  - exact F2.
  - apply FloatBase.rnd_fmt, FloatBase.fmt_opp, FloatBase.fmt_1; lia.
  - apply Core.Raux.bpow_ge_0.
Qed.
(** correctly rounded sines and cosines *)
Lemma binary_trig p : (1 < p)%Z -> trig_acc (FloatBase.rnd p) (Core.Raux.bpow Core.Zaux.radix2 (- p)) PropsFloat.libm0.
Proof.
  intros Hp t. pose proof (binary_rounding p Hp) as H. pose proof (rr_u _ _ H). cbn [PropsFloat.libm0 l_sin l_cos].
  set (v := Core.Raux.bpow _ _) in *.
  split; (eapply Rle_trans; [apply (rr_err _ _ H)|]).
  - assert (Rabs (sin t) <= 1) by (apply Rabs_le, SIN_bound). nra.
  - assert (Rabs (cos t) <= 1) by (apply Rabs_le, COS_bound). nra.
Qed.
Lemma two53 : Core.Raux.bpow Core.Zaux.radix2 (-53) <= / 100000000.
Proof. cbn. lra. Qed.

(** an inclined ellipse with e = 1/2 in double precision: 390 units in the last place *)
Definition c77_k : six R := mk6 7000 (/ 2) 1 1 1 2.
Example C77_example : forall g, exists x y, state_of 398600 c77_k x /\
  snd (@kep_to_cart num (NP_rd (FloatBase.rnd 53) PropsFloat.libm0) g (KVec (fin6 c77_k)) (MuS (Fin 398600)) false) = Ok (KVec (fin6 y)) /\
  close (390 * Core.Raux.bpow Core.Zaux.radix2 (-53)) y x.
Proof.
  intros g. assert (Hv : valid_kep 398600 c77_k).
  { unfold valid_kep, c77_k. cbn. pose proof (COS_bound 2). repeat split; lra. }
  exists (peri_state 398600 c77_k).
  assert (HK : cond_ok (k_e c77_k) (k_nu c77_k) 3).
  { replace 3 with ((1 + k_e c77_k) / (1 - k_e c77_k)) by (unfold c77_k, k_e; cbn; field). apply C77_ellipse_K. unfold c77_k, k_e. cbn. lra. }
  pose proof two53.
  destruct (C77_kep_to_cart _ _ _ 398600 c77_k 3 _ g (binary_rounding 53 ltac:(lia)) (binary_trig 53 ltac:(lia)) Hv HK ltac:(change (- (53))%Z with (-53)%Z; lra) (state_of_peri _ _ Hv)) as [y [E C]].
  exists y. split; [now apply state_of_peri|]. split; [exact E|].
  change (- (53))%Z with (-53)%Z in C. replace (390 * Core.Raux.bpow Core.Zaux.radix2 (-53)) with (130 * (3 * Core.Raux.bpow Core.Zaux.radix2 (-53))) by ring. exact C.
Qed.
(** the same ellipse with angles in degrees, and a parabola and a hyperbola *)
Definition c77_d : six R := mk6 7000 (/ 2) 30 60 90 0.
Example C77_degrees_example : turns 1 c77_d /\ valid_kep 398600 (rad6 c77_d) /\ cond_ok (k_e c77_d) (k_nu (rad6 c77_d)) 3 /\
  3 * (27 * 1 * Core.Raux.bpow Core.Zaux.radix2 (-53)) <= / 10000.
Proof.
  pose proof two53. split; [|split; [|split]].
  - unfold turns, c77_d, k_i, k_om, k_Om, k_nu. cbn. rewrite !Rabs_pos_eq by lra. lra.
  - unfold valid_kep, c77_d, rad6. cbn. pose proof (COS_bound (0 * (PI / 180))). repeat split; lra.
  - replace 3 with ((1 + k_e c77_d) / (1 - k_e c77_d)) by (unfold c77_d, k_e; cbn; field). apply C77_ellipse_K. unfold c77_d, k_e. cbn. lra.
  - lra.
Qed.
Example C77_open_example : cond_ok 1 0 1 /\ cond_ok 3 (PI / 2) 4.
Proof.
  unfold cond_ok. rewrite cos_0, cos_PI2. split; repeat split; try lra.
  intros _. rewrite Rabs_left by lra. lra.
Qed.
