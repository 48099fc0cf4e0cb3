(** * C30: the Stumpff functions *)
From Coq Require Import Reals QArith Lra Lia Bool List.
From Verif Require Import NP NPReal KeplerModel Lists Spec RealBase AnomReal.
Import ListNotations.

(** ** The arrays are handled element by element (any arithmetic) *)
Section Generic.
Context {F : Type} `{NP F}.
Local Open Scope np_scope.
Definition sel3 (fp fz fn : F -> F) (garbage v : F) : F :=
  if v <? lit 0 then fn v else if v =? lit 0 then fz v else if v >? lit 0 then fp v else garbage.
Definition st0 := sel3 (fun v => ncos (nsqrt v)) (fun _ => lit 1) (fun v => ncosh (nsqrt (- v))).
Definition st1 := sel3 (fun v => nsin (nsqrt v) / nsqrt v) (fun _ => lit 1) (fun v => nsinh (nsqrt (- v)) / nsqrt (- v)).
Definition st2 := sel3 (fun v => (lit 1 - ncos (nsqrt v)) / v) (fun _ => lit 0.5)
  (fun v => (lit 1 - ncosh (nsqrt (- v))) / v).
Definition st3 := sel3 (fun v => (nsqrt v - nsin (nsqrt v)) / (nsqrt v * v)) (fun _ => lit 1 / lit 6)
  (fun v => (nsqrt (- v) - nsinh (nsqrt (- v))) / (nsqrt (- v) * v)).
Lemma masks3 (g : nat -> F) (fp fn : F -> F) (z : F) (x : list F) :
  mset (map (fun v => v <? lit 0) x) (map fn (mget (map (fun v => v <? lit 0) x) x))
    (mset_s (map (fun v => v =? lit 0) x) z
       (mset (map (fun v => v >? lit 0) x) (map fp (mget (map (fun v => v >? lit 0) x) x)) (np_empty g (length x))))
  = map2 (fun i v => sel3 fp (fun _ => z) fn (g i) v) (seq 0 (length x)) x.
Proof.
  set (L := combine (seq 0 (length x)) x).
  assert (Hl : length (seq 0 (length x)) = length x) by apply seq_length.
  assert (E : x = map snd L) by (unfold L; now rewrite map_snd_combine).
  assert (Ei : seq 0 (length x) = map fst L) by (unfold L; now rewrite map_fst_combine).
  assert (Em : forall b : F -> bool, map b x = map (fun t => b (snd t)) L) by (intros; rewrite E at 1; now rewrite map_map).
  unfold np_empty. rewrite Ei, !Em, map_map. clear Em Ei Hl. rewrite E. clear E. clearbody L.
  rewrite !mget_map, !map_map, mset_map, mset_s_map, mset_map, map2_map. reflexivity.
Qed.
Lemma stumpff_el g0 g1 g2 g3 (x : list F) :
  let idx := seq 0 (length x) in
  stumpff g0 g1 g2 g3 x = (map2 (fun i v => st0 (g0 i) v) idx x, map2 (fun i v => st1 (g1 i) v) idx x,
                           map2 (fun i v => st2 (g2 i) v) idx x, map2 (fun i v => st3 (g3 i) v) idx x).
Proof.
  cbv zeta. unfold stumpff, stumpff0, stumpff1, stumpff2, stumpff3, stumpff_masks.
  now rewrite !masks3.
Qed.
(** a value that is neither negative, zero nor positive (NaN) leaves whatever was in memory *)
Theorem C30_nan_garbage : forall g0 g1 g2 g3 (v : F), v <? lit 0 = false -> v =? lit 0 = false -> v >? lit 0 = false ->
  stumpff g0 g1 g2 g3 [v] = ([g0 0%nat], [g1 0%nat], [g2 0%nat], [g3 0%nat]).
Proof.
  intros * H1 H2 H3. rewrite stumpff_el. cbn. unfold st0, st1, st2, st3, sel3. now rewrite H1, H2, H3.
Qed.
End Generic.

Local Open Scope R_scope.
(** ** The defining series: [s] = sum over j of (-1)^j x^j / (n + 2 j)! *)
Definition stumpff_sum (n : nat) (x s : R) : Prop :=
  infinite_sum (fun j => (-1) ^ j * x ^ j / INR (fact (n + 2 * j))) s.

Lemma sum_ext f h s : (forall j, f j = h j) -> infinite_sum f s -> infinite_sum h s.
Proof.
  intros E H eps He. destruct (H eps He) as [N HN]. exists N. intros n Hn.
  rewrite <- (sum_eq f h n) by auto. auto.
Qed.
Lemma fact_nz n : INR (fact n) <> 0. Proof. apply INR_fact_neq_0. Qed.
(** the value at 0 *)
Lemma sum_at_0 n : stumpff_sum n 0 (/ INR (fact n)).
Proof.
  intros eps He. exists 0%nat. intros N _.
  assert (E : sum_f_R0 (fun j => (-1) ^ j * 0 ^ j / INR (fact (n + 2 * j))) N = / INR (fact n)).
  { induction N as [|N IH].
    - cbn [sum_f_R0 pow]. replace (n + 2 * 0)%nat with n by lia. field. apply fact_nz.
    - cbn [sum_f_R0]. rewrite IH. cbn [pow]. field. split; apply fact_nz. }
  rewrite E. unfold R_dist. rewrite Rminus_eq_0, Rabs_R0. exact He.
Qed.
(** shifting by one term *)
Lemma sum_shift n x s : x <> 0 -> stumpff_sum n x s -> stumpff_sum (n + 2) x ((/ INR (fact n) - s) / x).
Proof.
  intros Hx H eps He.
  assert (Hax : 0 < Rabs x) by now apply Rabs_pos_lt.
  destruct (H (eps * Rabs x)) as [N HN]; [now apply Rmult_lt_0_compat|]. exists N. intros m Hm.
  set (f := fun j => (-1) ^ j * x ^ j / INR (fact (n + 2 * j))) in *.
  set (h := fun j => (-1) ^ j * x ^ j / INR (fact (n + 2 + 2 * j))).
  assert (E : sum_f_R0 f (S m) = / INR (fact n) - x * sum_f_R0 h m).
  { rewrite decomp_sum by lia. cbn [pred].
    assert (E0 : f 0%nat = / INR (fact n)).
    { unfold f. replace (n + 2 * 0)%nat with n by lia. cbn. field. apply fact_nz. }
    rewrite E0. rewrite scal_sum.
    rewrite (sum_eq (fun i => f (S i)) (fun i => - (h i * x)) m).
    - clear. unfold Rminus. f_equal. induction m as [|m IH]; [reflexivity|]. cbn [sum_f_R0]. rewrite IH. ring.
    - intros i _. unfold f, h. replace (n + 2 * S i)%nat with (n + 2 + 2 * i)%nat by lia.
      cbn [pow]. field. apply fact_nz. }
  assert (D := HN (S m)). unfold R_dist in *.
  assert (Q : sum_f_R0 h m - (/ INR (fact n) - s) / x = - (sum_f_R0 f (S m) - s) / x).
  { rewrite E. field. split; [apply fact_nz|auto]. }
  rewrite Q. unfold Rdiv. rewrite Rabs_mult, Rabs_Ropp, Rabs_inv.
  apply Rmult_lt_reg_r with (Rabs x); auto. rewrite Rmult_assoc, Rinv_l, Rmult_1_r by lra. apply D. lia.
Qed.
(** positive argument: cosine and sine *)
Lemma sum_cos y : stumpff_sum 0 (y * y) (cos y).
Proof.
  unfold cos. destruct (exist_cos (Rsqr y)) as [c Hc]. cbn. unfold cos_in in Hc.
  eapply sum_ext; [|exact Hc]. intros j. cbv beta. unfold cos_n, Rsqr. 
  replace (0 + 2 * j)%nat with (2 * j)%nat by lia. field. apply fact_nz.
Qed.
Lemma sum_sin y : y <> 0 -> stumpff_sum 1 (y * y) (sin y / y).
Proof.
  intros Hy. unfold sin. destruct (exist_sin (Rsqr y)) as [c Hc]. unfold sin_in in Hc.
  replace (y * c / y) with c by (field; auto).
  eapply sum_ext; [|exact Hc]. intros j. cbv beta. unfold sin_n, Rsqr.
  replace (1 + 2 * j)%nat with (2 * j + 1)%nat by lia. field. apply fact_nz.
Qed.
(** negative argument: cosh and sinh *)
Lemma exp_cv y : infinite_sum (fun i => / INR (fact i) * y ^ i) (exp y).
Proof. unfold exp. destruct (exist_exp y) as [l Hl]. exact Hl. Qed.
Lemma sum_half f h a b : infinite_sum f a -> infinite_sum h b ->
  forall c, infinite_sum (fun i => (f i + c * h i) / 2) ((a + c * b) / 2).
Proof.
  intros Hf Hh c.
  assert (U : Un_cv (fun n => (sum_f_R0 f n + c * sum_f_R0 h n) / 2) ((a + c * b) / 2)).
  { unfold Rdiv. apply CV_mult; [|intros e He; exists 0%nat; intros; unfold R_dist; rewrite Rminus_eq_0, Rabs_R0; auto].
    apply CV_plus; [exact Hf|]. apply CV_mult; [|exact Hh].
    intros e He; exists 0%nat; intros; unfold R_dist; rewrite Rminus_eq_0, Rabs_R0; auto. }
  intros e He. destruct (U e He) as [N HN]. exists N. intros n Hn. specialize (HN n Hn).
  replace (sum_f_R0 (fun i => (f i + c * h i) / 2) n) with ((sum_f_R0 f n + c * sum_f_R0 h n) / 2); auto.
  clear. induction n as [|n IH]; [reflexivity|]. cbn [sum_f_R0]. rewrite <- IH. field.
Qed.
Lemma pow_opp_even (y : R) j : (- y) ^ (2 * j) = y ^ (2 * j).
Proof. rewrite !pow_mult. f_equal. ring. Qed.
Lemma sum_cosh y : stumpff_sum 0 (- (y * y)) (cosh y).
Proof.
  pose proof (sum_half _ _ _ _ (exp_cv y) (exp_cv (- y)) 1) as Hs.
  unfold cosh. replace ((exp y + exp (- y)) / 2) with ((exp y + 1 * exp (- y)) / 2) by field.
  set (a := fun i => (/ INR (fact i) * y ^ i + 1 * (/ INR (fact i) * (- y) ^ i)) / 2) in *.
  assert (E : forall N, sum_f_R0 (fun j => (-1) ^ j * (- (y * y)) ^ j / INR (fact (0 + 2 * j))) N = sum_f_R0 a (2 * N)).
  { assert (T : forall j, (-1) ^ j * (- (y * y)) ^ j / INR (fact (0 + 2 * j)) = a (2 * j)%nat).
    { intros j. unfold a. rewrite pow_opp_even. replace (0 + 2 * j)%nat with (2 * j)%nat by lia.
      rewrite <- Rpow_mult_distr. replace (-1 * - (y * y)) with (y * y) by ring.
      replace ((y * y) ^ j) with (y ^ (2 * j)) by (rewrite pow_mult; f_equal; ring). field. apply fact_nz. }
    induction N as [|N IH]; [cbn [sum_f_R0]; rewrite T; reflexivity|].
    cbn [sum_f_R0]. rewrite IH, T. replace (2 * S N)%nat with (S (S (2 * N))) by lia. cbn [sum_f_R0].
    assert (Z : a (S (2 * N)) = 0).
    { unfold a. change ((- y) ^ S (2 * N)) with ((- y) * (- y) ^ (2 * N)). rewrite pow_opp_even.
      change (y ^ S (2 * N)) with (y * y ^ (2 * N)). field. apply fact_nz. }
    rewrite Z. ring. }
  intros e He. destruct (Hs e He) as [N HN]. exists N. intros n Hn. rewrite E. apply HN. lia.
Qed.
Lemma sum_sinh y : y <> 0 -> stumpff_sum 1 (- (y * y)) (sinh y / y).
Proof.
  intros Hy. pose proof (sum_half _ _ _ _ (exp_cv y) (exp_cv (- y)) (-1)) as Hs.
  assert (Q : sinh y = (exp y + -1 * exp (- y)) / 2) by (unfold sinh; field). rewrite Q. clear Q.
  set (a := fun i => (/ INR (fact i) * y ^ i + -1 * (/ INR (fact i) * (- y) ^ i)) / 2) in *.
  set (L := (exp y + -1 * exp (- y)) / 2) in *.
  set (h := fun j => (-1) ^ j * (- (y * y)) ^ j / INR (fact (1 + 2 * j))).
  assert (E : forall N, sum_f_R0 h N = sum_f_R0 a (1 + 2 * N) / y).
  { assert (Z : forall j, a (2 * j)%nat = 0).
    { intros j. unfold a. rewrite pow_opp_even. field. apply fact_nz. }
    assert (T : forall j, h j = a (1 + 2 * j)%nat / y).
    { intros j. unfold a, h. cbn [Nat.add]. change ((- y) ^ S (2 * j)) with ((- y) * (- y) ^ (2 * j)). rewrite pow_opp_even.
      change (y ^ S (2 * j)) with (y * y ^ (2 * j)).
      rewrite <- Rpow_mult_distr. replace (-1 * - (y * y)) with (y * y) by ring.
      replace ((y * y) ^ j) with (y ^ (2 * j)) by (rewrite pow_mult; f_equal; ring). field. split; auto. apply fact_nz. }
    induction N as [|N IH].
    - cbn [sum_f_R0]. rewrite T. change (1 + 2 * 0)%nat with 1%nat. cbn [sum_f_R0].
      pose proof (Z 0%nat) as Z0. change (2 * 0)%nat with 0%nat in Z0. rewrite Z0. field. auto.
    - cbn [sum_f_R0]. rewrite IH, T. replace (1 + 2 * S N)%nat with (S (S (1 + 2 * N))) by lia. cbn [sum_f_R0].
      replace (S (1 + 2 * N)) with (2 * S N)%nat by lia. rewrite Z. field. auto. }
  assert (Hay : 0 < Rabs y) by now apply Rabs_pos_lt.
  intros e He. destruct (Hs (e * Rabs y)) as [N HN]; [now apply Rmult_lt_0_compat|]. exists N. intros n Hn.
  fold h. rewrite E. unfold R_dist. replace (sum_f_R0 a (1 + 2 * n) / y - L / y) with ((sum_f_R0 a (1 + 2 * n) - L) / y) by (field; auto).
  unfold Rdiv. rewrite Rabs_mult, Rabs_inv.
  apply Rmult_lt_reg_r with (Rabs y); auto. rewrite Rmult_assoc, Rinv_l, Rmult_1_r by lra. apply HN. lia.
Qed.
Lemma sum_unique n x s s' : stumpff_sum n x s -> stumpff_sum n x s' -> s = s'.
Proof. apply uniqueness_sum. Qed.

(** ** One element *)
Lemma st_pos (x : R) : 0 < x -> exists y, 0 < y /\ sqrt x = y /\ x = y * y.
Proof. intros. exists (sqrt x). repeat split; [now apply sqrt_lt_R0|]. symmetry. apply sqrt_sqrt. lra. Qed.
Lemma st0_fin g x : exists s, st0 g (Fin x) = Fin s /\ stumpff_sum 0 x s.
Proof.
  unfold st0, sel3. num. destruct (Rltb_spec x 0); [|destruct (Reqb_spec x 0); [|rewrite Rltb_true by lra]].
  - destruct (st_pos (- x)) as [y [Hy [E1 E2]]]; [lra|]. exists (cosh y). rewrite Fin_sqrt, E1 by lra. num.
    split; auto. replace x with (- (y * y)) by lra. apply sum_cosh.
  - exists 1. subst. split; auto. pose proof (sum_at_0 0) as Z. cbn in Z. now rewrite Rinv_1 in Z.
  - destruct (st_pos x) as [y [Hy [E1 E2]]]; [lra|]. exists (cos y). rewrite Fin_sqrt, E1 by lra. num.
    split; auto. rewrite E2. apply sum_cos.
Qed.
Lemma st1_fin g x : exists s, st1 g (Fin x) = Fin s /\ stumpff_sum 1 x s.
Proof.
  unfold st1, sel3. num. destruct (Rltb_spec x 0); [|destruct (Reqb_spec x 0); [|rewrite Rltb_true by lra]].
  - destruct (st_pos (- x)) as [y [Hy [E1 E2]]]; [lra|]. exists (sinh y / y). rewrite Fin_sqrt, E1 by lra. num.
    rewrite Fin_div by lra. split; auto. replace x with (- (y * y)) by lra. apply sum_sinh. lra.
  - exists 1. subst. split; auto. pose proof (sum_at_0 1) as Z. cbn in Z. now rewrite Rinv_1 in Z.
  - destruct (st_pos x) as [y [Hy [E1 E2]]]; [lra|]. exists (sin y / y). rewrite Fin_sqrt, E1 by lra. num.
    rewrite Fin_div by lra. split; auto. rewrite E2. apply sum_sin. lra.
Qed.
Lemma fact_0 : / INR (fact 0) = 1. Proof. cbn. field. Qed.
Lemma fact_1 : / INR (fact 1) = 1. Proof. cbn. field. Qed.
Lemma st2_fin g x : exists s, st2 g (Fin x) = Fin s /\ stumpff_sum 2 x s.
Proof.
  unfold st2, sel3. num. destruct (Rltb_spec x 0); [|destruct (Reqb_spec x 0); [|rewrite Rltb_true by lra]].
  - destruct (st_pos (- x)) as [y [Hy [E1 E2]]]; [lra|]. exists ((1 - cosh y) / x). rewrite Fin_sqrt, E1 by lra. num.
    rewrite Fin_div by lra. split; auto. rewrite <- fact_0. apply (sum_shift 0); [lra|].
    replace x with (- (y * y)) by lra. apply sum_cosh.
  - exists (/ 2). subst. split; auto. pose proof (sum_at_0 2) as Z. cbn in Z. exact Z.
  - destruct (st_pos x) as [y [Hy [E1 E2]]]; [lra|]. exists ((1 - cos y) / x). rewrite Fin_sqrt, E1 by lra. num.
    rewrite Fin_div by lra. split; auto. rewrite <- fact_0. apply (sum_shift 0); [lra|].
    rewrite E2. apply sum_cos.
Qed.
Lemma st3_fin g x : exists s, st3 g (Fin x) = Fin s /\ stumpff_sum 3 x s.
Proof.
  unfold st3, sel3. num. destruct (Rltb_spec x 0); [|destruct (Reqb_spec x 0); [|rewrite Rltb_true by lra]].
  - destruct (st_pos (- x)) as [y [Hy [E1 E2]]]; [lra|]. exists ((1 - sinh y / y) / x). rewrite Fin_sqrt, E1 by lra. num.
    rewrite Fin_div by (apply Rmult_integral_contrapositive_currified; lra). split; [f_equal; field; lra|].
    rewrite <- fact_1. apply (sum_shift 1); [lra|].
    replace x with (- (y * y)) by lra. apply sum_sinh. lra.
  - exists (1 / 6). subst. rewrite Fin_div by lra. split; auto. pose proof (sum_at_0 3) as Z. cbn in Z.
    replace (1 / 6) with (/ (1 + 1 + 1 + 1 + 1 + 1)) by field. exact Z.
  - destruct (st_pos x) as [y [Hy [E1 E2]]]; [lra|]. exists ((1 - sin y / y) / x). rewrite Fin_sqrt, E1 by lra. num.
    rewrite Fin_div by (apply Rmult_integral_contrapositive_currified; lra). split; [f_equal; field; lra|].
    rewrite <- fact_1. apply (sum_shift 1); [lra|].
    rewrite E2. apply sum_sin. lra.
Qed.

(** ** C30 *)
Definition all_fin (l : list num) (ys : list R) : Prop := l = map Fin ys.
Lemma el_list (st : num -> num -> num) n (Hst : forall g x, exists s, st g (Fin x) = Fin s /\ stumpff_sum n x s) g xs :
  forall a, exists ys, map2 (fun i v => st (g i) v) (seq a (length xs)) (map Fin xs) = map Fin ys
    /\ Forall2 (stumpff_sum n) xs ys.
Proof.
  induction xs as [|x xs IH]; intros a; [exists []; split; constructor|].
  destruct (IH (S a)) as [ys [E1 E2]]. destruct (Hst (g a) x) as [s [E3 E4]].
  exists (s :: ys). cbn. rewrite E1, E3. split; auto.
Qed.
(** Whatever the uninitialised buffers contain, each of the four results has one element per
    input element, and it is the value of the defining series. *)
Theorem C30_series : forall g0 g1 g2 g3 xs, exists y0 y1 y2 y3,
  stumpff g0 g1 g2 g3 (map Fin xs) = (map Fin y0, map Fin y1, map Fin y2, map Fin y3)
  /\ Forall2 (stumpff_sum 0) xs y0 /\ Forall2 (stumpff_sum 1) xs y1
  /\ Forall2 (stumpff_sum 2) xs y2 /\ Forall2 (stumpff_sum 3) xs y3.
Proof.
  intros. rewrite stumpff_el. cbv zeta. rewrite map_length.
  destruct (el_list st0 0 st0_fin g0 xs 0%nat) as [y0 [A0 B0]].
  destruct (el_list st1 1 st1_fin g1 xs 0%nat) as [y1 [A1 B1]].
  destruct (el_list st2 2 st2_fin g2 xs 0%nat) as [y2 [A2 B2]].
  destruct (el_list st3 3 st3_fin g3 xs 0%nat) as [y3 [A3 B3]].
  exists y0, y1, y2, y3. rewrite A0, A1, A2, A3. auto.
Qed.
(** the series determines the value, and satisfies the recurrence *)
Theorem C30_recurrence : forall x c0 c1 c2 c3,
  stumpff_sum 0 x c0 -> stumpff_sum 1 x c1 -> stumpff_sum 2 x c2 -> stumpff_sum 3 x c3 ->
  c0 + x * c2 = 1 /\ c1 + x * c3 = 1.
Proof.
  intros x c0 c1 c2 c3 H0 H1 H2 H3. destruct (Req_dec x 0) as [->|Hx].
  - rewrite (sum_unique _ _ _ _ H0 (sum_at_0 0)), (sum_unique _ _ _ _ H1 (sum_at_0 1)), fact_0, fact_1. lra.
  - rewrite (sum_unique _ _ _ _ H2 (sum_shift 0 x c0 Hx H0)), (sum_unique _ _ _ _ H3 (sum_shift 1 x c1 Hx H1)), fact_0, fact_1.
    split; field; auto.
Qed.
Example C30_example : exists c, stumpff (fun _ => NaN) (fun _ => NaN) (fun _ => NaN) (fun _ => NaN)
    (map Fin [PI * PI; 0; - 1])
  = (map Fin [-1; 1; cosh 1], map Fin [0; 1; sinh 1], map Fin [2 / (PI * PI); / 2; cosh 1 - 1], c).
Proof.
  pose proof PI_RGT_0. eexists. rewrite stumpff_el. cbn [length map seq map2].
  unfold st0, st1, st2, sel3. num.
  assert (P : 0 < PI * PI) by nra.
  rewrite !(Rltb_false (PI * PI) 0), !(Reqb_false (PI * PI) 0), !(Rltb_true 0 (PI * PI)) by lra.
  rewrite !(Rltb_false 0 0), !(Reqb_true 0 0), !(Rltb_true (-1) 0) by lra.
  replace (- -1) with 1 by ring. rewrite !Fin_sqrt by lra. rewrite sqrt_square, sqrt_1 by lra. num.
  rewrite !Fin_div by lra. rewrite cos_PI, sin_PI.
  replace (0 / PI) with 0 by (field; lra). replace (sinh 1 / 1) with (sinh 1) by field.
  replace (1 - -1) with 2 by ring. replace ((1 - cosh 1) / -1) with (cosh 1 - 1) by field. reflexivity.
Qed.
