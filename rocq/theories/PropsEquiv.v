(** * C35: kep_equivalent *)
From Coq Require Import Reals QArith Qreals ZArith Lra Lia Bool List Arith.
From Verif Require Import NP NPReal Spec RealBase KeplerModel ConvModel KepReal PropsKep PropsCart.
Import ListNotations.
Local Open Scope R_scope.

(** numpy's closeness, rtol = 1e-5 relative to the second argument, atol = 1e-8 *)
Definition close (x y : R) : Prop := Rabs (x - y) <= 1e-8 + 1e-5 * Rabs y.
Lemma isclose_real x y : isclose (Fin x) (Fin y) = true <-> close x y.
Proof.
  unfold isclose, close, isfinite. num. unfold isnan. num. rewrite (Reqb_true (y - y)) by reflexivity. cbn [negb].
  replace 1e-8 with (/100000000) by lra. replace 1e-5 with (/100000) by lra.
  rewrite andb_true_r, orb_true_iff. destruct (Rleb_spec (Rabs (x - y)) (/100000000 + /100000 * Rabs y)) as [L|L].
  - split; auto.
  - split; [|intros; lra]. intros [E|E]; [discriminate|]. destruct (Reqb_spec x y) as [->|]; [|discriminate].
    exfalso. apply L. rewrite Rminus_eq_0, Rabs_R0. pose proof (Rabs_pos y). lra.
Qed.
(** exactly when the function answers True (finite elements) *)
Definition equivalent_spec (k1 k2 : six R) : Prop :=
  (close (k_a k1) (k_a k2) /\ close (k_e k1) (k_e k2) /\ close (k_i k1) (k_i k2) /\ close (k_om k1) (k_om k2)
    /\ close (k_Om k1) (k_Om k2) /\ close (k_nu k1) (k_nu k2))
  \/ (close (k_a k1) (k_a k2)
      /\ (k_e k1 < 1e-9 /\ k_e k2 < 1e-9 -> close (k_om k1 + k_nu k1) (k_om k2 + k_nu k2))
      /\ (~ (k_e k1 < 1e-9 /\ k_e k2 < 1e-9) -> close (k_om k1) (k_om k2) /\ close (k_nu k1) (k_nu k2))
      /\ (PI * 1e-9 < k_i k1 \/ PI * 1e-9 < k_i k2 -> close (k_i k1) (k_i k2) /\ close (k_Om k1) (k_Om k2))).
Theorem C35_decides_partial : forall k1 k2, exists b,
  kep_equivalent (KVec (fin6 k1)) (KVec (fin6 k2)) = Ok b /\ (b = true <-> equivalent_spec k1 k2).
Proof.
  intros k1 k2. exists (kep_equivalent_vec (fin6 k1) (fin6 k2)). split; [reflexivity|].
  unfold kep_equivalent_vec, allclose6, equivalent_spec, k_a, k_e, k_i, k_om, k_Om, k_nu, fin6, map6, e_lim, i_lim.
  cbn [s0 s1 s2 s3 s4 s5]. num. 
  replace 1e-9 with (/1000000000) by lra.
  assert (X : forall A B C D : bool, (if A then true else if negb B then false else if C then false else if D then false else true) = true
    <-> A = true \/ (B = true /\ C = false /\ D = false)) by (intros [] [] [] []; cbn; intuition discriminate).
  assert (N : forall x y, isclose (Fin x) (Fin y) = false <-> ~ close x y).
  { intros x y. rewrite <- isclose_real. destruct (isclose _ _); intuition discriminate. }
  rewrite X, !andb_true_iff, !isclose_real. clear X.
  assert (C : (if Rltb (s1 k1) (/1000000000) && Rltb (s1 k2) (/1000000000)
     then negb (isclose (Fin (s3 k1 + s5 k1)) (Fin (s3 k2 + s5 k2)))
     else negb (isclose (Fin (s3 k1)) (Fin (s3 k2))) || negb (isclose (Fin (s5 k1)) (Fin (s5 k2)))) = false
     <-> (s1 k1 < /1000000000 /\ s1 k2 < /1000000000 -> close (s3 k1 + s5 k1) (s3 k2 + s5 k2))
      /\ (~ (s1 k1 < /1000000000 /\ s1 k2 < /1000000000) -> close (s3 k1) (s3 k2) /\ close (s5 k1) (s5 k2))).
  { destruct (Rltb_spec (s1 k1) (/1000000000)), (Rltb_spec (s1 k2) (/1000000000)); cbn [andb];
      rewrite ?orb_false_iff, ?negb_false_iff, ?isclose_real; tauto. }
  assert (D : (Rltb (PI * / 1000000000) (s2 k1) || Rltb (PI * / 1000000000) (s2 k2))
      && (negb (isclose (Fin (s2 k1)) (Fin (s2 k2))) || negb (isclose (Fin (s4 k1)) (Fin (s4 k2)))) = false
      <-> (PI * / 1000000000 < s2 k1 \/ PI * / 1000000000 < s2 k2 -> close (s2 k1) (s2 k2) /\ close (s4 k1) (s4 k2))).
  { destruct (Rltb_spec (PI * / 1000000000) (s2 k1)), (Rltb_spec (PI * / 1000000000) (s2 k2)); cbn [andb orb];
      rewrite ?orb_false_iff, ?negb_false_iff, ?isclose_real; tauto. }
  rewrite C, D. tauto.
Qed.
Lemma close_refl x : close x x.
Proof. unfold close. rewrite Rminus_eq_0, Rabs_R0. pose proof (Rabs_pos x). lra. Qed.
Theorem C35_reflexive : forall k, kep_equivalent (KVec (fin6 k)) (KVec (fin6 k)) = Ok true.
Proof.
  intros k. destruct (C35_decides_partial k k) as [b [-> H]]. f_equal. apply H. left. repeat split; apply close_refl.
Qed.
Ltac decide_equiv b H := 
  match goal with |- kep_equivalent (KVec (fin6 ?x)) (KVec (fin6 ?y)) = _ =>
    destruct (C35_decides_partial x y) as [b [-> H]]; f_equal end.
(** the eccentricity is never looked at (beyond e < e_lim): any two non-circular orbits that share
    the other five elements are called equivalent, whatever their shape *)
Theorem C35_same_orbit_refuted : forall a i om Om nu e1 e2, 1e-9 <= e1 ->
  kep_equivalent (KVec (fin6 (mk6 a e1 i om Om nu))) (KVec (fin6 (mk6 a e2 i om Om nu))) = Ok true.
Proof.
  intros a i om Om nu e1 e2 L. decide_equiv b H. apply H. right.
  unfold k_a, k_e, k_i, k_om, k_Om, k_nu; cbn [s0 s1 s2 s3 s4 s5]. repeat split; intros; try apply close_refl.
Qed.
(** for instance these two, at a distance of 9/10 and 1/10 from the centre *)
Example C35_same_orbit_example : exists x1 x2,
  state_of 1 (mk6 1 (1/10) 1 1 1 0) x1 /\ state_of 1 (mk6 1 (9/10) 1 1 1 0) x2
  /\ norm (pos x1) = 9/10 /\ norm (pos x2) = 1/10
  /\ kep_equivalent (KVec (fin6 (mk6 1 (1/10) 1 1 1 0))) (KVec (fin6 (mk6 1 (9/10) 1 1 1 0))) = Ok true.
Proof.
  assert (V : forall e, 0 < e < 1 -> valid_kep 1 (mk6 1 e 1 1 1 0)).
  { intros e He. unfold valid_kep, k_a, k_e, k_nu; cbn [s0 s1 s5]. rewrite cos_0. repeat split; lra. }
  exists (peri_state 1 (mk6 1 (1/10) 1 1 1 0)), (peri_state 1 (mk6 1 (9/10) 1 1 1 0)).
  split; [apply state_of_peri, V; lra|]. split; [apply state_of_peri, V; lra|].
  rewrite !peri_norm by (apply V; lra). unfold semi_latus, k_a, k_e, k_nu; cbn [s0 s1 s5]. rewrite cos_0.
  destruct (Rlt_dec (1/10) 1), (Rlt_dec (9/10) 1); try lra.
  split; [field|]. split; [field|]. apply C35_same_orbit_refuted. lra.
Qed.
(** the answer depends on the order of the arguments *)
Theorem C35_symmetric_refuted : exists k1 k2,
  kep_equivalent (KVec (fin6 k1)) (KVec (fin6 k2)) = Ok true
  /\ kep_equivalent (KVec (fin6 k2)) (KVec (fin6 k1)) = Ok false.
Proof.
  exists (mk6 1 0 0 0 0 0), (mk6 (1 + 1.001e-5 + 5e-11) 0 0 0 0 0). split; decide_equiv b H.
  - apply H. left. unfold k_a, k_e, k_i, k_om, k_Om, k_nu; cbn [s0 s1 s2 s3 s4 s5].
    split; [|repeat split; apply close_refl]. unfold close. rewrite Rabs_left, Rabs_pos_eq by lra. lra.
  - destruct b; auto. exfalso. assert (C : close (1 + 1.001e-5 + 5e-11) 1).
    { destruct (proj1 H eq_refl) as [X|X]; unfold k_a in X; cbn [s0] in X; tauto. }
    unfold close in C. rewrite !Rabs_pos_eq in C by lra. lra.
Qed.
(** angles are not compared modulo a full circle: the same position with omega = 0 and omega = 2 pi *)
Theorem C35_full_circle_refuted : forall mu k, valid_kep mu k -> 1e-9 <= k_e k -> k_om k = 0 ->
  exists x, state_of mu k x /\ state_of mu (with_om k (2 * PI)) x
  /\ kep_equivalent (KVec (fin6 k)) (KVec (fin6 (with_om k (2 * PI)))) = Ok false.
Proof.
  intros mu k V He Ho. exists (peri_state mu k). split; [now apply state_of_peri|]. split.
  - replace (peri_state mu k) with (peri_state mu (with_om k (2 * PI))); [apply state_of_peri; exact V|].
    unfold with_om. apply (peri_cong mu k); try apply cong_refl. rewrite Ho. exists 1%Z. ring.
  - decide_equiv b H. destruct b; auto. exfalso.
    assert (C : close 0 (2 * PI)).
    { destruct (proj1 H eq_refl) as [X|[_ [_ [X _]]]]; unfold with_om, k_e, k_om in *; cbn [s1 s3] in *; rewrite Ho in *.
      - tauto.
      - apply X. lra. }
    pose proof PI2_3_2 as P. unfold PI2 in P. pose proof PI_4.
    unfold close in C. rewrite Rabs_left, Rabs_pos_eq in C by lra. lra.
Qed.
Example C35_full_circle_example : exists x, state_of 1 (mk6 1 (1/2) 1 0 1 0) x /\ state_of 1 (mk6 1 (1/2) 1 (2*PI) 1 0) x
  /\ kep_equivalent (KVec (fin6 (mk6 1 (1/2) 1 0 1 0))) (KVec (fin6 (mk6 1 (1/2) 1 (2*PI) 1 0))) = Ok false.
Proof.
  apply (C35_full_circle_refuted 1 (mk6 1 (1/2) 1 0 1 0)).
  - unfold valid_kep, k_a, k_e, k_nu; cbn [s0 s1 s5]. rewrite cos_0. repeat split; lra.
  - unfold k_e; cbn [s1]. lra.
  - reflexivity.
Qed.
