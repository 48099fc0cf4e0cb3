(** * C56 for Orbit.propagate: the propagated Cartesian state lies on the Newtonian trajectory up to the solver's tolerance *)
From Coq Require Import Reals Lra List Bool Arith Lia ZArith QArith.
From Verif Require Import NP KeplerModel ConvModel UnitModel OrbitModel Lists ConvCols ArraySpec
  NPReal RealBase Spec AnomReal KepReal PropsKep CartInv PropsAnomaly PropsAnomalyR PropsSolver PropsScalar PropsCart
  EllState OrbitLists OrbitBase OrbitOps OrbitSetters OrbitGet OrbitSpec PropsOrbitWidth PropsOrbitDirect PropsOrbitLazy
  PropsOrbitWrite OrbitReal PropsOrbitType PropsOrbitProp PropsOrbitPropR PropsNewton.
Import ListNotations.
Local Open Scope R_scope.
Notation orb := (OrbitModel.orb num).

Lemma kepler_turn e E z : (E + 2 * PI * IZR z) - e * sin (E + 2 * PI * IZR z) = (E - e * sin E) + 2 * PI * IZR z.
Proof. rewrite (cong_sin (E + 2 * PI * IZR z) E) by now exists z. ring. Qed.
(** two places of one orbit whose mean anomalies differ by less than t (modulo a turn) *)
Lemma mean_close mu k M M' T nu nu' t : 0 < mu -> 0 < k_a k -> 0 <= k_e k < 1 -> cong2pi M T -> Rabs (M' - T) < t ->
  body AMean (k_e k) M nu -> body AMean (k_e k) M' nu' ->
  let x := peri_state mu (with_nu k nu) in let x' := peri_state mu (with_nu k nu') in
  norm (minus3 (pos x') (pos x)) <= k_a k / (1 - k_e k) * t
  /\ norm (minus3 (vel x') (vel x)) <= 3 * sqrt (mu / k_a k) / ((1 - k_e k) * (1 - k_e k) * (1 - k_e k)) * t.
Proof.
  intros Hm Ha He C B [E0 [Y1 Y2]] [E0' [Y3 Y4]] x x'. cbn [body] in *. set (e := k_e k) in *. set (a := k_a k) in *.
  assert (Q : exists E, E - e * sin E = T /\ anomalies_ell e nu E).
  { assert (Z : cong2pi T (E0 - e * sin E0)) by (apply (cong_trans _ M); [now apply cong_sym|exact Y1]).
    destruct Z as [z Hz]. exists (E0 + 2 * PI * IZR z).
    split; [rewrite kepler_turn; lra|]. apply (ell_compat e nu nu E0); [apply cong_refl|apply cong_sym; now exists z|auto]. }
  assert (Q' : exists E, E - e * sin E = M' /\ anomalies_ell e nu' E).
  { destruct Y3 as [z Hz]. exists (E0' + 2 * PI * IZR z).
    split; [rewrite kepler_turn; lra|]. apply (ell_compat e nu' nu' E0'); [apply cong_refl|apply cong_sym; now exists z|auto]. }
  destruct Q as [E [Q1 Q2]]. destruct Q' as [E' [Q3 Q4]].
  assert (D : Rabs (E' - E) <= t / (1 - e)).
  { pose proof (kepler_lip e E' E He) as L. unfold kepler_M in L. destruct (Rlt_dec e 1); [|lra]. rewrite Q1, Q3 in L.
    apply Rmult_le_reg_l with (1 - e); [lra|]. replace ((1 - e) * (t / (1 - e))) with t by (field; lra). lra. }
  assert (V : forall v, valid_kep mu (with_nu k v)).
  { intros v. unfold valid_kep. change (k_a (with_nu k v)) with a. change (k_e (with_nu k v)) with e.
    change (k_nu (with_nu k v)) with v. pose proof (COS_bound v). repeat split; try lra; try nra. }
  destruct (ell_close mu k nu nu' E E' (V _) (V _) (proj2 He) Q2 Q4) as [W1 W2]. fold e a x x' in W1, W2.
  assert (Hs : 0 <= sqrt (mu / a)) by apply sqrt_pos. assert (H1 : 0 < 1 - e) by lra.
  split.
  - apply Rle_trans with (1 := W1). replace (a / (1 - e) * t) with (a * (t / (1 - e))) by (field; lra).
    apply Rmult_le_compat_l; lra.
  - apply Rle_trans with (1 := W2).
    replace (3 * sqrt (mu / a) / ((1 - e) * (1 - e) * (1 - e)) * t) with (3 * sqrt (mu / a) / ((1 - e) * (1 - e)) * (t / (1 - e))) by (field; lra).
    apply Rmult_le_compat_l; [|exact D]. apply Rmult_le_pos; [lra|]. apply Rlt_le, Rinv_0_lt_compat. nra.
Qed.
(** Direct and lazy mode, elliptic orbits of every anomaly type: whatever trajectory X starts at the stored
    mean anomaly (C56_newton: it obeys Newton's law; C56_trajectory: it exists), the Cartesian state read
    after propagate(d) is X d up to the solver's tolerance. *)
Theorem C56_propagate : forall gb gb' n dt (s s' : orb) ks j (k : six R) m mu d tl,
  aligned n s -> wfv dt -> propagate gb dt s = (s', Ok tt) ->
  snd (get_kepler gb s) = Ok ks -> nth_error ks j = Some (fin6 k) -> nth_error (om s) j = Some (Fin m) ->
  entry1 dt j (Fin d) -> 0 < mu -> mu_real s m mu -> 0 < s0 k -> 0 <= s1 k < 1 -> opts_ok (oopts s) tl ->
  oauto s = true \/ odirect s = true ->
  forall M X T, mean_of (otype s) (s1 k) (ang (odeg s) (s5 k)) M -> follows mu (radk (odeg s) k 0) M X ->
  in_circle T -> cong2pi T (M + rate mu (s0 k) * d) -> solved (oopts s) T (s1 k) ->
  exists cs x, snd (get_cartesian gb' s') = Ok cs /\ nth_error cs j = Some (fin6 x)
  /\ norm (minus3 (pos x) (pos (X d))) <= s0 k / (1 - s1 k) * tl
  /\ norm (minus3 (vel x) (vel (X d))) <= 3 * sqrt (mu / s0 k) / ((1 - s1 k) * (1 - s1 k) * (1 - s1 k)) * tl.
Proof.
  intros gb gb' n dt s s' ks j k m mu d tl A W E Ek Hj Hm Hd Hmu Em Ha He Hop Hau M X T HM HX HT CT So.
  destruct (C55_advance gb gb n dt s s' ks j k m mu d tl A W E Ek Hj Hm Hd Hmu Em Ha He Hop)
    as [ks' [x' [R' [J' [A' [Es [Eo P]]]]]]].
  destruct (P M T HM HT CT) as [Pm Pt]. clear P.
  destruct (propagate_ok gb n dt s s' A W E) as [Ho [ds Hb]].
  destruct (propagate_spec gb n dt ds s A W Ho Hb) as [s2 [vs [E2 [_ [_ [_ [_ [_ [_ [Rd [_ Rc]]]]]]]]]]].
  assert (s2 = s') by congruence. subst s2. rewrite Rd in R'. injection R' as <-.
  assert (Hz : lazy s = true \/ odirect s = true).
  { unfold lazy. destruct (odirect s); [auto|]. destruct Hau as [-> |?]; [auto|discriminate]. }
  destruct (Rc Hz gb' j _ _ J' (fin6_nan _) Hm) as [c [Hc Cc]].
  rewrite (get_cartesian_eq gb' n) by apply A'. cbn [snd].
  assert (G : exists nu M', c = fin6 (peri_state mu (radk (odeg s) k nu)) /\ Rabs (M' - T) < tl /\ body AMean (s1 k) M' nu).
  { destruct (anomaly_eqb (otype s) AMean) eqn:Et.
    - assert (Et' : otype s = AMean) by (destruct (otype s); auto; discriminate).
      destruct (Cc_real_mean s (with_nu k x') m mu c tl Hmu Ha He Em Hop Et' Cc) as [nu [Q1 Q2]].
      change (s5 (with_nu k x')) with x' in Q2. rewrite (Pm Et') in Q2. destruct (Q2 So) as [M' [Q3 Q4]].
      exists nu, M'. auto.
    - assert (Et' : otype s <> AMean) by (intros Z; rewrite Z in Et; discriminate).
      destruct (Pt So) as [M' [Q1 Q2]]. destruct (body_ex (s1 k) He (otype s) (ang (odeg s) x')) as [nu Hn].
      exists nu, M'. split; [exact (Cc_real s (with_nu k x') m mu c Hmu Ha He Em Et' Cc nu Hn)|]. split; [auto|].
      now apply Q1. }
  destruct G as [nu [M' [-> [GM GB]]]]. eexists _, _. split; [reflexivity|]. split; [exact Hc|].
  destruct (HX d) as [nu0 [E0 [An [Sm St]]]]. change (k_e (radk (odeg s) k 0)) with (s1 k) in *.
  change (k_a (radk (odeg s) k 0)) with (s0 k) in Sm.
  pose proof (anom_valid mu (radk (odeg s) k 0) nu0 E0 Hmu Ha (proj1 He) An) as V0.
  rewrite (state_of_inv mu _ (X d) V0 St).
  unfold anomalies, same_mean, mean_rate, kepler_M in An, Sm. destruct (Rlt_dec (s1 k) 1); [|lra].
  apply (mean_close mu (radk (odeg s) k 0) (E0 - s1 k * sin E0) M' T nu0 nu tl); auto.
  - apply (cong_trans _ _ _ Sm). now apply cong_sym.
  - exists E0. split; [apply cong_refl|exact An].
Qed.
(** a circular orbit of radius 1, mu = 1, lazy mode, type true, from nu = 1 by dt = 2 *)
Example C56_propagate_example : forall gb, exists s s' cs x,
  set_kepler gb (kvec (mk6 1 0 0 0 0 1)) (with_type ATrue (s_new true false)) = (s, Ok tt)
  /\ propagate gb (Sc (Fin 2)) s = (s', Ok tt) /\ snd (get_cartesian gb s') = Ok cs /\ nth_error cs 0 = Some (fin6 x)
  /\ norm (minus3 (pos x) (cos 3, sin 3, 0)) <= 1e-12 /\ norm (minus3 (vel x) (- sin 3, cos 3, 0)) <= 3e-12.
Proof.
  intros gb. pose (k := mk6 1 0 0 0 0 1). destruct (propagate_ready gb ATrue true k) as [s [E [A [Ht [Hg [Ho [Hm [Hm0 [Hk Hd]]]]]]]]].
  destruct (Hd 2) as [s' E']. pose proof PI_RGT_0 as Hp.
  assert (R1 : rate 1 1 = 1) by (unfold rate; replace (1 / (1 * 1 * 1)) with 1 by field; apply sqrt_1).
  pose (X := fun t => mk6 (cos (1 + t)) (sin (1 + t)) 0 (- sin (1 + t)) (cos (1 + t)) 0).
  assert (HX : follows 1 (radk false k 0) 1 X).
  { intros t. destruct (C56_circle (1 + t)) as [nu [E0 [Q1 [Q2 Q3]]]]. exists nu, E0. split; [exact Q1|]. split; [|].
    - unfold k_e, k_a, radk in *. cbn [s0 s1 k] in *. replace (1 + mean_rate 1 1 0 * t) with (0 + mean_rate 1 1 0 * (1 + t)); [exact Q2|].
      assert (mean_rate 1 1 0 = 1) as ->; [|ring]. unfold mean_rate. destruct (Rlt_dec 0 1); [exact R1|lra].
    - exact Q3. }
  assert (Au : oauto s = true).
  { destruct k; cbv in E. injection E as <-. reflexivity. }
  assert (C3 : in_circle 3) by (pose proof PI2_3_2 as P3; unfold PI2 in P3; split; lra).
  assert (HM : mean_of ATrue 0 1 1).
  { intros nu. apply (body_same 0 ltac:(lra) ATrue 1 AMean 1 1 (cong_refl _)). exists 1. split; [exists 0%Z; ring|].
    unfold anomalies_ell. replace (1 - 0 * 0) with 1 by ring. rewrite sqrt_1. split; field. }
  destruct (C56_propagate gb gb 1 (Sc (Fin 2)) s s' _ 0 k 0 1 2 1e-12 A I E' Hk eq_refl Hm0 eq_refl) with (M := 1) (X := X) (T := 3)
    as [cs [x [Q1 [Q2 [Q3 Q4]]]]]; auto; try (cbn; lra).
  - rewrite Ht, Hg. exact HM.
  - rewrite Hg. exact HX.
  - exists 0%Z. change (s0 k) with 1. rewrite R1. ring.
  - left. reflexivity.
  - exists s, s', cs, x. repeat (split; [assumption|]).
    change (s0 k) with 1 in *. change (s1 k) with 0 in *. unfold X, pos, vel in *. cbn [s0 s1 s2 s3 s4 s5] in *.
    replace (1 + 2) with 3 in * by ring. replace (1 / 1) with 1 in Q4 by field. rewrite sqrt_1 in Q4. split; lra.
Qed.
