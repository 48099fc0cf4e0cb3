(** * C96: the equinoctial conversions and the size functions under a change of units; C97: kep_equivalent depends on the unit of length. *)
From Coq Require Import Bool ZArith QArith Qreals Reals Lra Lia List Arith.
From Flocq Require Import Core.Core.
From Verif Require Import NP NPReal NPFloat FloatBase KeplerModel ConvModel PropsFloatScale PropsOrbitScale.
From Verif Require Import Spec RealBase KepReal PropsKep PropsCart PropsEquiv.
Import ListNotations.
Local Open Scope R_scope.

Lemma set_nu_sck rd L i f kep : @set_nu_masked V (NP_rd rd L) f (map (sck i) kep) = rmap (map (sck i)) (@set_nu_masked V (NP_rd rd L) f kep).
Proof.
  unfold set_nu_masked. rewrite s5_sck, s1_sck, map_map. cbn [sck s1].
  destruct (f _ _) as [x|]; cbn [rbind rmap]; auto. now rewrite set5_sck.
Qed.
Lemma on_cols_sck i f (x : kinput V) : (forall q, f (map (sck i) q) = rmap (map (sck i)) (f q)) -> on_cols f (on_in (sck i) x) = on_res (sck i) (on_cols f x).
Proof.
  intros E. destruct x as [| | |c|m]; try reflexivity; cbn [on_in on_cols].
  - change [sck i c] with (map (sck i) [c]). rewrite E. destruct (f [c]) as [[|y [|z t]]|]; reflexivity.
  - rewrite E. destruct (f m) as [y|]; reflexivity.
Qed.
(** Lengths times 2^i, speeds times 2^j: the first equinoctial element (the semi-major axis) is multiplied by 2^i, the others are the same
    numbers; any argument, single orbits or arrays, radians or degrees; the same exceptions. *)
Theorem C96_kep_equi : forall rd L i x g deg,
  @kep_to_equi V (NP_rd rd L) (on_in (sck i) x) deg = on_res (sck i) (@kep_to_equi V (NP_rd rd L) x deg) /\
  @equi_to_kep V (NP_rd rd L) g (on_in (sck i) x) deg = on_res (sck i) (@equi_to_kep V (NP_rd rd L) g x deg).
Proof.
  intros rd L i x g deg. split; apply on_cols_sck; intros q; cbn [rmap]; f_equal; [apply equi_sck|apply equi_kep_sck].
Qed.
Theorem C96_cart_to_equi : forall rd L i j x mu g g1 g2 deg, digits rd ->
  snd (@cart_to_equi V (NP_rd rd L) g g1 g2 (on_in (scx i j) x) (on_mu (scl (i + 2 * j)) mu) deg) = on_res (sck i) (snd (@cart_to_equi V (NP_rd rd L) g g1 g2 x mu deg)).
Proof.
  intros rd L i j x mu g g1 g2 deg D. unfold cart_to_equi. pose proof (C94_cart_to_kep rd L i j x mu deg g g D) as Q.
  destruct (cart_to_kep g (on_in (scx i j) x) (on_mu (scl (i + 2 * j)) mu) deg) as [c' k']. destruct (cart_to_kep g x mu deg) as [c k]. cbn [snd] in *. subst k'.
  destruct k as [k|]; cbn [on_res rbind]; auto. rewrite (on_cols_sck i _ k (fun q => set_nu_sck rd L i _ q)).
  destruct (on_cols _ k) as [y|]; cbn [on_res rbind]; auto. exact (proj1 (C96_kep_equi rd L i y g deg)).
Qed.
Theorem C96_equi_to_cart : forall rd L i j x mu g g1 g2 o deg, digits rd ->
  @equi_to_cart V (NP_rd rd L) g g1 g2 (on_in (sck i) x) (on_mu (scl (i + 2 * j)) mu) o deg = on_res (scx i j) (@equi_to_cart V (NP_rd rd L) g g1 g2 x mu o deg).
Proof.
  intros rd L i j x mu g g1 g2 o deg D. unfold equi_to_cart. rewrite (proj2 (C96_kep_equi rd L i x g deg)). destruct (equi_to_kep g x deg) as [k|]; cbn [on_res rbind]; auto.
  rewrite (on_cols_sck i _ k (fun q => set_nu_sck rd L i _ q)). destruct (on_cols _ k) as [y|]; cbn [on_res rbind]; auto. exact (C94_kep_to_cart rd L i j y mu deg (fun n => g2 n) (fun n => g2 n) D).
Qed.
(** distances and angular momenta *)
Theorem C96_sizes : forall rd L i j a e mu nu h deg, digits rd ->
  @elliptic_radius V (NP_rd rd L) nu (scl i a) e deg = scl i (@elliptic_radius V (NP_rd rd L) nu a e deg) /\
  @parabolic_radius V (NP_rd rd L) nu (scl i a) deg = scl i (@parabolic_radius V (NP_rd rd L) nu a deg) /\
  @hyperbolic_radius V (NP_rd rd L) nu (scl i a) e deg = scl i (@hyperbolic_radius V (NP_rd rd L) nu a e deg) /\
  @orbital_distance V (NP_rd rd L) (scl (i + j) h) (scl (i + 2 * j) mu) e nu deg = scl i (@orbital_distance V (NP_rd rd L) h mu e nu deg) /\
  @orbit_total_angular_momentum V (NP_rd rd L) (scl i a) e (scl (i + 2 * j) mu) = scl (i + j) (@orbit_total_angular_momentum V (NP_rd rd L) a e mu) /\
  @parabolic_total_angular_momentum V (NP_rd rd L) (scl i a) (scl (i + 2 * j) mu) = scl (i + j) (@parabolic_total_angular_momentum V (NP_rd rd L) a mu).
Proof.
  intros rd L i j a e mu nu h deg D.
  unfold elliptic_radius, parabolic_radius, hyperbolic_radius, orbital_distance, orbit_total_angular_momentum, parabolic_total_angular_momentum. cbv zeta. set (t := if deg then _ else _).
  split; [|split; [|split; [|split; [|split]]]].
  - apply (sc_mul rd L D i 0); [reflexivity|apply sc_refl|lia].
  - apply (sc_div rd L D i 0); [|apply sc_refl|lia]. apply (sc_mul rd L D 0 i); [apply sc_refl|reflexivity|lia].
  - apply (sc_div rd L D i 0); [|apply sc_refl|lia]. apply (sc_mul rd L D i 0); [reflexivity|apply sc_refl|lia].
  - apply (sc_div rd L D (2 * (i + j)) (i + 2 * j)); [|apply (sc_mul rd L D (i + 2 * j) 0); [reflexivity|apply sc_refl|lia]|lia]. apply (sc_mul rd L D (i + j) (i + j)); [reflexivity|reflexivity|lia].
  - apply (sc_sqrt rd L D (2 * (i + j))); [|lia]. apply (sc_mul rd L D (2 * (i + j)) 0); [|apply sc_refl|lia]. apply (sc_mul rd L D (i + 2 * j) i); [reflexivity|reflexivity|lia].
  - apply (sc_sqrt rd L D (2 * (i + j))); [|lia]. apply (sc_mul rd L D (i + 2 * j) i); [|reflexivity|lia]. apply (sc_mul rd L D (i + 2 * j) 0); [reflexivity|apply sc_refl|lia].
Qed.
(** lengths times 2^10, speeds times 2^-3 *)
Example C96_example : forall L g g1 g2 o,
  @equi_to_cart V (NP_rd (rnd 53) L) g g1 g2 (KVec (mk6 (Fin (1024 * 7000)) (Fin (1 / 4)) (Fin (1 / 8)) (Fin (1 / 2)) (Fin 1) (Fin 30))) (MuS (Fin (16 * 398600))) o true
  = on_res (scx 10 (-3)) (@equi_to_cart V (NP_rd (rnd 53) L) g g1 g2 (KVec (mk6 (Fin 7000) (Fin (1 / 4)) (Fin (1 / 8)) (Fin (1 / 2)) (Fin 1) (Fin 30))) (MuS (Fin 398600)) o true).
Proof.
  intros L g g1 g2 o. exact (C96_equi_to_cart (rnd 53) L 10 (-3) (KVec (mk6 (Fin 7000) (Fin (1 / 4)) (Fin (1 / 8)) (Fin (1 / 2)) (Fin 1) (Fin 30))) (MuS (Fin 398600)) g g1 g2 o true (digits_rnd 53 ltac:(reflexivity))).
Qed.

(** ** C97: kep_equivalent *)
(** the elements with the unit of length divided by c *)
Definition in_length (c : R) (k : six R) : six R := mk6 (c * s0 k) (s1 k) (s2 k) (s3 k) (s4 k) (s5 k).
(** The answer depends on the unit of length: the absolute tolerance 1e-8 of np.isclose is applied to the semi-major axis. *)
Theorem C97_unit_refuted : ~ (forall c k1 k2, 0 < c ->
  kep_equivalent (KVec (fin6 (in_length c k1))) (KVec (fin6 (in_length c k2))) = kep_equivalent (KVec (fin6 k1)) (KVec (fin6 k2))).
Proof.
  intros Q. specialize (Q (1e-12) (mk6 1000 0 0 0 0 0) (mk6 2000 0 0 0 0 0) ltac:(lra)).
  destruct (C35_decides_partial (in_length 1e-12 (mk6 1000 0 0 0 0 0)) (in_length 1e-12 (mk6 2000 0 0 0 0 0))) as [b [E H]].
  destruct (C35_decides_partial (mk6 1000 0 0 0 0 0) (mk6 2000 0 0 0 0 0)) as [b' [E' H']]. rewrite E, E' in Q. assert (b = b') by congruence. subst b'.
  assert (B : b = true).
  { apply H. left. unfold in_length, k_a, k_e, k_i, k_om, k_Om, k_nu. cbn [s0 s1 s2 s3 s4 s5]. split; [|repeat split; apply close_refl].
    unfold close. rewrite Rabs_left, Rabs_pos_eq by lra. lra. }
  apply H' in B. unfold k_a in B. cbn [s0] in B. assert (C : close 1000 2000) by (destruct B as [[C _]|[C _]]; exact C).
  unfold close in C. rewrite Rabs_left, Rabs_pos_eq in C by lra. lra.
Qed.
(** What is true: a larger unit of length never separates elements that were found equivalent. *)
Lemma close_larger c x y : 0 < c <= 1 -> close x y -> close (c * x) (c * y).
Proof.
  intros Hc C. unfold close in *. rewrite <- Rmult_minus_distr_l, !Rabs_mult, (Rabs_pos_eq c) by lra. pose proof (Rmult_le_compat_l c _ _ ltac:(lra) C). nra.
Qed.
Theorem C97_larger_unit_partial : forall c k1 k2, 0 < c <= 1 ->
  kep_equivalent (KVec (fin6 k1)) (KVec (fin6 k2)) = Ok true -> kep_equivalent (KVec (fin6 (in_length c k1))) (KVec (fin6 (in_length c k2))) = Ok true.
Proof.
  intros c k1 k2 Hc E. destruct (C35_decides_partial k1 k2) as [b [Eb H]]. rewrite E in Eb. assert (b = true) as -> by congruence. destruct H as [H _]. specialize (H eq_refl).
  destruct (C35_decides_partial (in_length c k1) (in_length c k2)) as [b' [-> H']]. f_equal. apply H'. clear E Eb H'.
  unfold equivalent_spec, in_length, k_a, k_e, k_i, k_om, k_Om, k_nu in *. cbn [s0 s1 s2 s3 s4 s5]. destruct H as [(A & B)|(A & B)]; [left|right]; (split; [now apply close_larger|exact B]).
Qed.
(** Axes whose relative difference exceeds twice the relative tolerance of np.isclose are
    separated in every unit in which the axis is at least 1/1000. *)
Theorem C97_long_axes_partial : forall c k1 k2, 0 < c -> 1 / 1000 <= c * Rabs (s0 k2) ->
  2e-5 * Rabs (s0 k2) < Rabs (s0 k1 - s0 k2) -> kep_equivalent (KVec (fin6 (in_length c k1))) (KVec (fin6 (in_length c k2))) = Ok false.
Proof.
  intros c k1 k2 Hc L F. destruct (C35_decides_partial (in_length c k1) (in_length c k2)) as [b [-> H]]. f_equal. destruct b; auto. exfalso.
  destruct H as [H _]. specialize (H eq_refl). assert (C : close (c * s0 k1) (c * s0 k2)) by (destruct H as [[C _]|[C _]]; exact C). clear H.
  unfold close in C. rewrite <- Rmult_minus_distr_l, !Rabs_mult, (Rabs_pos_eq c) in C by lra.
  pose proof (Rmult_lt_compat_l c _ _ Hc F). nra.
Qed.
Example C97_larger_example : kep_equivalent (KVec (fin6 (in_length (/ 1024) (mk6 1000 (/ 2) 1 2 3 4)))) (KVec (fin6 (in_length (/ 1024) (mk6 1000.001 (/ 2) 1 2 3 4)))) = Ok true.
Proof.
  apply C97_larger_unit_partial; [lra|]. decide_equiv b H. apply H. left. unfold k_a, k_e, k_i, k_om, k_Om, k_nu. cbn [s0 s1 s2 s3 s4 s5]. split; [|repeat split; apply close_refl].
  unfold close. rewrite Rabs_left, Rabs_pos_eq by lra. lra.
Qed.
Example C97_long_example : kep_equivalent (KVec (fin6 (in_length (/ 1024) (mk6 1000 (/ 2) 1 2 3 4)))) (KVec (fin6 (in_length (/ 1024) (mk6 1001 (/ 2) 1 2 3 4)))) = Ok false.
Proof. apply C97_long_axes_partial; cbn [s0]; [lra|rewrite Rabs_pos_eq; lra|]. rewrite Rabs_pos_eq, Rabs_left by lra. lra. Qed.
