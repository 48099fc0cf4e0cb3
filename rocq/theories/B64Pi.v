(** * np.pi is the double nearest to pi. *)
From Coq Require Import ZArith QArith Qreals Reals Lra Lia.
From Flocq Require Import Core.Core IEEE754.BinarySingleNaN.
From Verif Require Import FloatBase NPB64 PropsFloat PropsB64 B64Sim.
Local Open Scope R_scope.

(** ** Partial sums of Machin's series, in rational numbers *)
Fixpoint qpow (q : Q) (n : nat) : Q := match n with O => 1%Q | S n => (q * qpow q n)%Q end.
Definition qterm (n : nat) : Q :=
  (qpow (-1#1) n * (2 * (qpow (1#3) (2 * n + 1) * (1 # Pos.of_nat (2 * n + 1))) + qpow (1#7) (2 * n + 1) * (1 # Pos.of_nat (2 * n + 1))))%Q.
Fixpoint qsum (n : nat) : Q := match n with O => qterm 0 | S m => (qsum m + qterm (S m))%Q end.
Lemma qpow_R q n : Q2R (qpow q n) = Q2R q ^ n.
Proof. induction n as [|n IH]; cbn [qpow pow]; [unfold Q2R; cbn; lra|]. now rewrite Q2R_mult, IH. Qed.
Lemma qinv_R n : (0 < n)%nat -> Q2R (1 # Pos.of_nat n) = / INR n.
Proof.
  intros H. unfold Q2R. cbn [Qnum Qden]. rewrite Rmult_1_l, INR_IZR_INZ. do 2 f_equal.
  rewrite <- positive_nat_Z, Nat2Pos.id by lia. reflexivity.
Qed.
Lemma qterm_R n : Q2R (qterm n) = tg_alt PI_2_3_7_tg n.
Proof.
  unfold qterm, tg_alt, PI_2_3_7_tg, Ratan_seq. rewrite Q2R_mult, Q2R_plus, !Q2R_mult, !qpow_R, qinv_R by lia.
  assert (Q2R (-1#1) = -1) as -> by (unfold Q2R; cbn; lra). assert (Q2R 2 = 2) as -> by (unfold Q2R; cbn; lra).
  assert (Q2R (1#3) = / 3) as -> by (unfold Q2R; cbn; lra). assert (Q2R (1#7) = / 7) as -> by (unfold Q2R; cbn; lra). reflexivity.
Qed.
Lemma qsum_R n : Q2R (qsum n) = sum_f_R0 (tg_alt PI_2_3_7_tg) n.
Proof. induction n as [|n IH]; cbn [qsum sum_f_R0]; [apply qterm_R|]. now rewrite Q2R_plus, IH, qterm_R. Qed.

(** pi to 1e-16 *)
Lemma pi_enclosed : IZR 7074237752028440 <= PI * bp 51 <= IZR 7074237752028440 + 4 / 10.
Proof.
  pose proof (PI_2_3_7_ineq 9) as [A B]. rewrite <- qsum_R in A, B.
  assert (A' : Q2R (7074237752028440 # 9007199254740992) <= Q2R (qsum (S (2 * 9)))) by (apply Qle_Rle, Qle_bool_iff; vm_compute; reflexivity).
  assert (B' : Q2R (qsum (2 * 9)) <= Q2R (70742377520284404 # 90071992547409920)) by (apply Qle_Rle, Qle_bool_iff; vm_compute; reflexivity).
  set (x := Q2R (qsum (S (2 * 9)))) in *. set (y := Q2R (qsum (2 * 9))) in *. clearbody x y.
  change (bp 51) with (IZR (2 ^ 51)). unfold Q2R in A', B'. cbn [Qnum Qden] in A', B'.
  assert (IZR (2 ^ 51) = 2251799813685248) as -> by (f_equal; reflexivity).
  unfold Rdiv in *.
  lra.
Qed.
Theorem rnd_pi : rnd 53 PI = IZR 7074237752028440 * bp (-51).
Proof.
  assert (M : (mag radix2 PI : Z) = 2%Z).
  { apply mag_unique. change (2 - 1)%Z with 1%Z. change (bp 1) with 2. change (bp 2) with 4. rewrite Rabs_pos_eq by (pose proof PI_RGT_0; lra).

    pose proof pi_enclosed as P. change (bp 51) with (IZR (2 ^ 51)) in P. assert (IZR (2 ^ 51) = 2251799813685248) as E by (f_equal; reflexivity).
    rewrite E in P. lra. }
  unfold rnd, round, F2R, scaled_mantissa, cexp, FLX_exp. rewrite M. cbn [Fnum Fexp]. change (2 - 53)%Z with (-51)%Z. change (- -51)%Z with 51%Z.
  f_equal. f_equal. apply Znearest_imp. pose proof pi_enclosed. apply Rabs_def1; lra.
Qed.
(** np.pi, as entered in the model, is correctly rounded *)
Theorem bpi_nearest : nearest bpi PI.
Proof.
  destruct (bz_dyadic 7074237752028440 (-51) ltac:(vm_compute; reflexivity) ltac:(lia)) as [F E]. split; [exact F|].
  unfold bpi. rewrite E, <- rnd_pi. symmetry. apply rnd64_normal. rewrite Rabs_pos_eq by (pose proof PI_RGT_0; lra).
  apply Rle_trans with (bp 0); [apply bpow_le; lia|]. change (bp 0) with 1.
  pose proof pi_enclosed as P. change (bp 51) with (IZR (2 ^ 51)) in P. assert (IZR (2 ^ 51) = 2251799813685248) as E' by (f_equal; reflexivity).
  rewrite E' in P. lra.
Qed.
