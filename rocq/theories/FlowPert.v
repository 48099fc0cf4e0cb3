(** * Perturbation of the elliptic motion: how the state at a later time depends on the elements *)
From Coq Require Import Reals Lra Lia Psatz.
From Verif Require Import NP NPReal Spec RealBase KepReal CartReal PropsKep AnomReal EllState LagTrig LagRobust.
From Verif Require Import FloatAcc FloatVec PropsFloatAcc FloatC2K PropsFloatC2K PropsFloatLagG PropsFloatRT ElemPert.
Local Open Scope R_scope.

(** ** Chords of angles *)
Lemma chord_sum a b t1 t2 t3 : chord a t1 t2 -> chord b t2 t3 -> chord (a + b) t1 t3.
Proof.
  intros [A0 A] [B0 B]. split; [lra|].
  set (v := fun t : R => (cos t, sin t, 0) : vec).
  assert (N : forall c t t', 0 <= c -> (cos t - cos t') * (cos t - cos t') + (sin t - sin t') * (sin t - sin t') <= c * c -> norm (minus3 (v t) (v t')) <= c).
  { intros c t t' Hc H. apply norm_le; auto. unfold dot, minus3, v, vx, vy, vz. cbn [fst snd]. lra. }
  pose proof (norm_step _ _ _ _ _ (N _ _ _ A0 A) (N _ _ _ B0 B)) as S. pose proof (norm_pos (minus3 (v t1) (v t3))) as P.
  pose proof (norm_sq (minus3 (v t1) (v t3))) as Q. unfold dot, minus3, v, vx, vy, vz in Q. cbn [fst snd] in Q.
  assert (norm (minus3 (v t1) (v t3)) * norm (minus3 (v t1) (v t3)) <= (a + b) * (a + b)) by (apply Rmult_le_compat; auto). unfold v, minus3, vx, vy, vz in *. cbn [fst snd] in *. lra.
Qed.
Lemma chord_of_abs c t' t : Rabs (t' - t) <= c -> chord c t' t.
Proof.
  intros H. pose proof (Rabs_pos (t' - t)) as P. split; [lra|]. eapply Rle_trans; [apply EllState.chord|].
  apply abs_in in H. nra.
Qed.
Lemma chord_cong c t' t s' s : cong2pi s' t' -> cong2pi s t -> chord c t' t -> chord c s' s.
Proof. intros A B [C0 C]. split; [auto|]. now rewrite (cong_cos _ _ A), (cong_cos _ _ B), (cong_sin _ _ A), (cong_sin _ _ B). Qed.
Lemma chord_weak c c' t' t : chord c t' t -> c <= c' -> chord c' t' t.
Proof. intros [A B] H. split; [lra|]. nra. Qed.
(** back from the chord to the angle *)
Lemma angle_of_chord c t' t : chord c t' t -> exists n, cong2pi n t' /\ Rabs (n - t) <= 185 / 100 * c.
Proof.
  intros [C0 C]. pose proof PI_RGT_0 as P0. pose proof PI_b as PB.
  destruct (Rmod_2pi (t' - t + PI)) as [B Cg]. set (th := Rmod (t' - t + PI) (2 * PI) - PI). unfold in_circle in B.
  assert (Ht : - PI <= th < PI) by (unfold th; lra).
  assert (Cg2 : cong2pi th (t' - t)) by (destruct Cg as [m Em]; exists m; unfold th; rewrite Em; ring).
  exists (t + th). split.
  { destruct Cg2 as [m Em]. exists m. rewrite Em. ring. }
  replace (t + th - t) with th by ring.
  pose proof (cong_cos _ _ Cg2) as K. rewrite cos_minus in K. pose proof (sc1 t) as T. pose proof (sc1 t') as T'.
  assert (H2 : cos th = 1 - 2 * sin (th / 2) * sin (th / 2)) by (replace th with (2 * (th / 2)) at 1 by field; apply cos_2a_sin).
  assert (Sq : 4 * (sin (th / 2) * sin (th / 2)) <= c * c) by lra.
  assert (M : forall y, 0 <= y <= PI / 2 -> 4 * (sin y * sin y) <= c * c -> 2 * y <= 185 / 100 * c).
  { intros y Hy Hs. pose proof (sin_ge y ltac:(lra)) as G. assert (S0 : 0 <= sin y) by (apply sin_ge_0; lra).
    assert (Hc : 2 * sin y <= c) by (apply Rsqr_incr_0_var; unfold Rsqr; lra).
    assert (Y : y <= 165 / 100) by lra. assert (Y2 : y * y <= 27225 / 10000) by nra.
    assert (Y3 : y * (545 / 1000) <= sin y). { replace (y ^ 3) with (y * (y * y)) in G by ring. nra. } lra. }
  unfold Rabs. destruct Rcase_abs.
  - assert (2 * (- th / 2) <= 185 / 100 * c); [|lra]. apply M; [lra|]. replace (- th / 2) with (- (th / 2)) by field. rewrite sin_neg. lra.
  - assert (2 * (th / 2) <= 185 / 100 * c); [|lra]. apply M; [lra|auto].
Qed.

(** ** From the true to the eccentric anomaly *)
Lemma den_b e c : 0 <= e < 1 -> -1 <= c <= 1 -> 1 - e <= 1 - e * c <= 1 + e.
Proof. intros. split; nra. Qed.
(** the same eccentricity *)
Lemma ecc_of_true e nu nu' E E' c : 0 <= e < 1 -> anomalies_ell e nu E -> anomalies_ell e nu' E' -> chord c nu' nu -> chord (kappa e * c) E' E.
Proof.
  intros He A0 A1 [C0 C]. pose proof (chord_id e E E' nu nu' He A0 A1) as Q. pose proof (kappa_facts e He) as [K1 _].
  assert (KK : kappa e * kappa e = (1 + e) / (1 - e)) by (apply sqrt_sqrt, Rlt_le, Rdiv_lt_0_compat; lra).
  pose proof (COS_bound E) as c0. pose proof (COS_bound E') as c1.
  pose proof (den_b e _ He c0) as d0. pose proof (den_b e _ He c1) as d1.
  split; [apply Rmult_le_pos; lra|].
  set (X := (cos E' - cos E) * (cos E' - cos E) + (sin E' - sin E) * (sin E' - sin E)) in *.
  set (Y := (cos nu' - cos nu) * (cos nu' - cos nu) + (sin nu' - sin nu) * (sin nu' - sin nu)) in *.
  assert (P : 0 < (1 - e * cos E') * (1 - e * cos E) <= (1 + e) * (1 + e)) by (split; [apply Rmult_lt_0_compat|apply Rmult_le_compat]; lra).
  set (D := (1 - e * cos E') * (1 - e * cos E)) in *.
  assert (EX : X = Y * D / (1 - e * e)) by (rewrite Q; field; nra).
  assert (Y0 : 0 <= Y) by (apply Rplus_le_le_0_compat; apply Rle_0_sqr).
  replace (kappa e * c * (kappa e * c)) with (kappa e * kappa e * (c * c)) by ring. rewrite KK, EX.
  apply Rle_trans with (c * c * ((1 + e) * (1 + e)) / (1 - e * e)).
  - apply Rmult_le_compat_r; [apply Rlt_le, Rinv_0_lt_compat; nra|]. apply Rmult_le_compat; lra.
  - right. field. nra.
Qed.
(** the same true anomaly *)
Lemma ecc_of_e e e' nu E E' : 0 <= e < 1 -> 0 <= e' < 1 -> anomalies_ell e nu E -> anomalies_ell e' nu E' ->
  chord (Rabs (e' - e) / (sqrt (1 - e * e) * sqrt (1 - e' * e'))) E' E.
Proof.
  intros He He' A A'. apply (ell_iff e He) in A. apply (ell_iff e' He') in A'. destruct A as [C S], A' as [C' S'].
  destruct (ell_w e He) as [B2 B0]. destruct (ell_w e' He') as [B2' B0'].
  set (b := sqrt (1 - e * e)) in *. set (b' := sqrt (1 - e' * e')) in *.
  pose proof (COS_bound nu) as cb. assert (D : 0 < 1 + e * cos nu) by nra. assert (D' : 0 < 1 + e' * cos nu) by nra.
  assert (BB : 0 < b * b') by (now apply Rmult_lt_0_compat).
  split; [apply Rmult_le_pos; [apply Rabs_pos|apply Rlt_le, Rinv_0_lt_compat; auto]|].
  pose proof (sc1 E) as T. pose proof (sc1 E') as T'. pose proof (sc1 nu) as N.
  replace ((cos E' - cos E) * (cos E' - cos E) + (sin E' - sin E) * (sin E' - sin E)) with (2 * (1 - (cos E' * cos E + sin E' * sin E))) by lra.
  assert (I1 : 1 - (cos E' * cos E + sin E' * sin E) = sin nu * sin nu * (1 - e * e' - b * b') / ((1 + e * cos nu) * (1 + e' * cos nu))).
  { rewrite C, S, C', S'. apply Rmult_eq_reg_r with ((1 + e * cos nu) * (1 + e' * cos nu)); [|nra].
    replace ((1 - ((cos nu + e') / (1 + e' * cos nu) * ((cos nu + e) / (1 + e * cos nu)) + b' * sin nu / (1 + e' * cos nu) * (b * sin nu / (1 + e * cos nu)))) * ((1 + e * cos nu) * (1 + e' * cos nu)))
      with ((1 + e * cos nu) * (1 + e' * cos nu) - ((cos nu + e') * (cos nu + e) + b' * b * (sin nu * sin nu))) by (field; lra).
    replace (sin nu * sin nu * (1 - e * e' - b * b') / ((1 + e * cos nu) * (1 + e' * cos nu)) * ((1 + e * cos nu) * (1 + e' * cos nu)))
      with (sin nu * sin nu * (1 - e * e' - b * b')) by (field; lra).
    replace (sin nu * sin nu) with (1 - cos nu * cos nu) by lra. ring. }
  assert (I2 : (1 - e * e' - b * b') * (1 - e * e' + b * b') = (e' - e) * (e' - e)).
  { replace ((1 - e * e' - b * b') * (1 - e * e' + b * b')) with ((1 - e * e') * (1 - e * e') - (b * b) * (b' * b')) by ring. rewrite B2, B2'. ring. }
  assert (EE : 0 < 1 - e * e') by (clear - He He'; nra).
  assert (I3 : b * b' <= 1 - e * e').
  { assert ((b * b') * (b * b') <= (1 - e * e') * (1 - e * e')); [|nra].
    replace (b * b' * (b * b')) with ((b * b) * (b' * b')) by ring. rewrite B2, B2'. pose proof (Rle_0_sqr (e' - e)) as Q. unfold Rsqr in Q. lra. }
  set (Z := 1 - e * e' - b * b') in *. assert (Z0 : 0 <= Z) by (unfold Z; lra).
  assert (I4 : 2 * Z * (b * b') <= (e' - e) * (e' - e)) by (rewrite <- I2; assert (2 * (b * b') <= 1 - e * e' + b * b') by lra; clear - Z0 H; nra).
  (* sin nu is bounded through the sines of E and E' *)
  assert (I5 : sin nu * sin nu / ((1 + e * cos nu) * (1 + e' * cos nu)) * (b * b') <= 1).
  { replace (sin nu * sin nu / ((1 + e * cos nu) * (1 + e' * cos nu)) * (b * b')) with (sin E' * sin E) by (rewrite S, S'; field; lra).
    pose proof (SIN_bound E). pose proof (SIN_bound E'). clear - H H0. nra. }
  rewrite I1. set (F := sin nu * sin nu / ((1 + e * cos nu) * (1 + e' * cos nu))) in *.
  replace (2 * (sin nu * sin nu * Z / ((1 + e * cos nu) * (1 + e' * cos nu)))) with (2 * Z * F) by (unfold F; field; lra).
  replace (Rabs (e' - e) / (b * b') * (Rabs (e' - e) / (b * b'))) with (Rabs (e' - e) * Rabs (e' - e) / (b * b' * (b * b'))) by (field; lra). rewrite Rabs_mult_self.
  apply Rmult_le_reg_r with (b * b' * (b * b')); [now apply Rmult_lt_0_compat|].
  replace ((e' - e) * (e' - e) / (b * b' * (b * b')) * (b * b' * (b * b'))) with ((e' - e) * (e' - e)) by (field; lra).
  assert (F0 : 0 <= F * (b * b')). { unfold F. apply Rmult_le_pos; [|lra]. apply Rmult_le_pos; [apply Rle_0_sqr|]. apply Rlt_le, Rinv_0_lt_compat. now apply Rmult_lt_0_compat. }
  replace (2 * Z * F * (b * b' * (b * b'))) with (2 * Z * (b * b') * (F * (b * b'))) by ring.
  assert (0 <= 2 * Z * (b * b')) by (apply Rmult_le_pos; lra). clear - H I4 I5 F0. nra.
Qed.

(** ** Kepler's equation *)
Lemma kepler_inv e e' E E' D : 0 <= e < 1 -> Rabs ((E' - e' * sin E') - (E - e * sin E)) <= D ->
  Rabs (E' - E) <= (D + Rabs (e' - e)) / (1 - e).
Proof.
  intros He H. apply Rmult_le_reg_r with (1 - e); [lra|].
  replace ((D + Rabs (e' - e)) / (1 - e) * (1 - e)) with (D + Rabs (e' - e)) by (field; lra).
  replace (E' - e' * sin E' - (E - e * sin E)) with ((E' - E) - e * (sin E' - sin E) - (e' - e) * sin E') in H by ring.
  pose proof (sin_lip1 E' E) as L. pose proof (Rabs_pos (E' - E)) as P.
  assert (S : Rabs ((e' - e) * sin E') <= Rabs (e' - e)).
  { rewrite Rabs_mult. assert (Rabs (sin E') <= 1) by (apply Rabs_le, SIN_bound). pose proof (Rabs_pos (e' - e)). pose proof (Rabs_pos (sin E')). nra. }
  assert (Q : Rabs (e * (sin E' - sin E)) <= e * Rabs (E' - E)).
  { rewrite Rabs_mult, (Rabs_pos_eq e) by lra. apply Rmult_le_compat_l; lra. }
  assert (T : Rabs (E' - E) <= D + Rabs (e' - e) + e * Rabs (E' - E)); [|lra].
  replace (E' - E) with ((E' - E - e * (sin E' - sin E) - (e' - e) * sin E') + (e * (sin E' - sin E) + (e' - e) * sin E')) at 1 by ring.
  eapply Rle_trans; [apply Rabs_triang|]. eapply Rle_trans; [apply Rplus_le_compat; [exact H|apply Rabs_triang]|]. lra.
Qed.
Lemma kepler_dir e e' E E' d : 0 <= e < 1 -> Rabs (E' - E) <= d -> Rabs ((E' - e' * sin E') - (E - e * sin E)) <= 2 * d + Rabs (e' - e).
Proof.
  intros He H. replace (E' - e' * sin E' - (E - e * sin E)) with ((E' - E) + (- (e * (sin E' - sin E)) + - ((e' - e) * sin E'))) by ring.
  pose proof (sin_lip1 E' E) as L. pose proof (Rabs_pos (E' - E)) as P.
  assert (S : Rabs ((e' - e) * sin E') <= Rabs (e' - e)).
  { rewrite Rabs_mult. assert (Rabs (sin E') <= 1) by (apply Rabs_le, SIN_bound). pose proof (Rabs_pos (e' - e)). pose proof (Rabs_pos (sin E')). nra. }
  assert (Q : Rabs (e * (sin E' - sin E)) <= 1 * d).
  { rewrite Rabs_mult, (Rabs_pos_eq e) by lra. apply Rmult_le_compat; try lra; apply Rabs_pos. }
  eapply Rle_trans; [apply Rabs_triang|]. assert (Rabs (- (e * (sin E' - sin E)) + - ((e' - e) * sin E')) <= 1 * d + Rabs (e' - e)); [|lra].
  eapply Rle_trans; [apply Rabs_triang|]. rewrite !Rabs_Ropp. lra.
Qed.

(** ** The state in terms of the eccentric anomaly *)
Section StateE.
Context (mu u : R) (k k' : six R) (E E' : R) (Hv : valid_kep mu k) (Hv' : valid_kep mu k') (He : 0 <= k_e k < 1) (Hu : 0 < u).
Let e := k_e k.
Let e' := k_e k'.
Let w1 := u / (1 - e).
Context (Hw1 : w1 <= / 100000000) (Ha : Rabs (k_a k' - k_a k) <= 100 * w1 * k_a k) (HE : Rabs (e' - e) <= 290 * u) (He0 : 0 <= e').
Let b := sqrt (1 - e * e).
Let b' := sqrt (1 - e' * e').
Local Lemma u_w : u = w1 * (1 - e) /\ 0 < w1 /\ u <= w1.
Proof.
  assert (Q : u = w1 * (1 - e)) by (unfold w1; field; unfold e; lra). split; [exact Q|].
  assert (0 < w1) by (apply Rdiv_lt_0_compat; unfold e; lra). split; auto. unfold e in *. nra.
Qed.
Local Lemma e'_b : (1 - e) * (999 / 1000) <= 1 - e' /\ e' < 1.
Proof. pose proof u_w as (Q & P & _). pose proof HE as H. apply abs_in in H. rewrite Q in H. assert (0 < 1 - e) by (unfold e; lra). split; nra. Qed.
Local Lemma b_b : b * b = 1 - e * e /\ 0 < b <= 1 /\ 1 - e <= b.
Proof.
  destruct (ell_w e He) as [B1 B2]. fold b in B1, B2. assert (E0 : 0 <= e < 1) by exact He. split; [exact B1|].
  split; [split; [exact B2|]|]; (apply Rsqr_incr_0_var; unfold Rsqr; [|lra]); rewrite B1; clear - E0; nra.
Qed.
Local Lemma b'_b : b' * b' = 1 - e' * e' /\ 0 < b'.
Proof. destruct e'_b as [_ H]. apply (ell_w e'). lra. Qed.
Local Lemma db : Rabs (b' - b) <= 581 * w1.
Proof.
  pose proof b_b as (B1 & B2 & B3). pose proof b'_b as (B1' & B2'). pose proof u_w as (Q & P & _). destruct e'_b as [E1 E2]. assert (E0 : 0 <= e < 1) by exact He.
  assert (D : (b' - b) * (b' + b) = - (e' - e) * (e' + e)) by (replace ((b' - b) * (b' + b)) with (b' * b' - b * b) by ring; rewrite B1, B1'; ring).
  apply (f_equal Rabs) in D. rewrite !Rabs_mult, Rabs_Ropp, (Rabs_pos_eq (b' + b)), (Rabs_pos_eq (e' + e)) in D by lra.
  assert (D2 : Rabs (b' - b) * (b' + b) <= 290 * u * 2) by (rewrite D; apply Rmult_le_compat; try lra; apply Rabs_pos).
  assert (D3 : Rabs (b' - b) * (1 - e) <= 580 * w1 * (1 - e)).
  { apply Rle_trans with (Rabs (b' - b) * (b' + b)); [apply Rmult_le_compat_l; [apply Rabs_pos|lra]|]. rewrite Q in D2. lra. }
  apply Rmult_le_reg_r in D3; lra.
Qed.
Local Lemma q_rel : Rabs (sqrt (mu / k_a k') - sqrt (mu / k_a k)) <= 101 * w1 * sqrt (mu / k_a k).
Proof.
  destruct Hv as (Hm & Hp & _). destruct Hv' as (_ & Hp' & _). pose proof u_w as (_ & P & _).
  assert (A : 0 < mu / k_a k) by (now apply Rdiv_lt_0_compat). assert (A' : 0 < mu / k_a k') by (now apply Rdiv_lt_0_compat).
  pose proof (sqrt_sqrt _ (Rlt_le _ _ A)) as S. pose proof (sqrt_sqrt _ (Rlt_le _ _ A')) as S'.
  pose proof (sqrt_lt_R0 _ A) as L. pose proof (sqrt_lt_R0 _ A') as L'. set (q := sqrt (mu / k_a k)) in *. set (q' := sqrt (mu / k_a k')) in *.
  assert (D : (q' - q) * (q' + q) = q * q * ((k_a k - k_a k') / k_a k')).
  { replace ((q' - q) * (q' + q)) with (q' * q' - q * q) by ring. rewrite S, S'. field. lra. }
  assert (R1 : Rabs ((k_a k - k_a k') / k_a k') <= 101 * w1).
  { unfold Rdiv. rewrite Rabs_mult, (Rabs_pos_eq (/ k_a k')), Rabs_minus_sym by (apply Rlt_le, Rinv_0_lt_compat; lra).
    apply Rmult_le_reg_r with (k_a k'); [lra|]. rewrite Rmult_assoc, Rinv_l, Rmult_1_r by lra. eapply Rle_trans; [exact Ha|].
    pose proof Ha as H. apply abs_in in H.
    assert (100 * w1 * k_a k <= / 1000 * k_a k) by (apply Rmult_le_compat_r; lra).
    assert (T : k_a k <= 101 / 100 * k_a k') by lra. replace (101 * w1 * k_a k') with (100 * w1 * (101 / 100 * k_a k')) by field. apply Rmult_le_compat_l; lra. }
  apply (f_equal Rabs) in D. rewrite !Rabs_mult, (Rabs_pos_eq (q' + q)), (Rabs_pos_eq q) in D by lra.
  apply Rmult_le_reg_r with q; [auto|]. apply Rle_trans with (Rabs (q' - q) * (q' + q)); [apply Rmult_le_compat_l; [apply Rabs_pos|lra]|].
  rewrite D. replace (101 * w1 * q * q) with (q * q * (101 * w1)) by ring. apply Rmult_le_compat_l; [apply Rmult_le_pos; lra|exact R1].
Qed.
Context (A0 : anomalies_ell e (k_nu k) E) (A1 : anomalies_ell e' (k_nu k') E') (eta : R) (Hc : chord eta E' E) (Heta : eta <= (1 - e) / 20).
Context (Hw2 : w1 <= (1 - e) / 100000).
Context (c1 c2 c3 : R) (H1 : chord c1 (k_om k') (k_om k)) (H2 : chord c2 (k_i k') (k_i k)) (H3 : chord c3 (k_Om k') (k_Om k)).
Local Lemma two_norm x y X Y : Rabs x <= X -> Rabs y <= Y -> norm (x, y, 0) <= X + Y.
Proof.
  intros HX HY. pose proof (Rabs_pos x). pose proof (Rabs_pos y). apply norm_le; [lra|]. unfold dot, vx, vy, vz. cbn [fst snd].
  rewrite <- (Rabs_mult_self x), <- (Rabs_mult_self y). nra.
Qed.
Local Lemma ch_norm s : 0 <= s <= 1 -> norm (cos E' - cos E, s * (sin E' - sin E), 0) <= eta /\ norm (- (sin E' - sin E), s * (cos E' - cos E), 0) <= eta.
Proof.
  intros Hs. destruct Hc as [C0 C].
  assert (S2 : s * s <= 1) by nra. pose proof (Rle_0_sqr (sin E' - sin E)) as P. pose proof (Rle_0_sqr (cos E' - cos E)) as P2. unfold Rsqr in P, P2.
  assert (M : forall z, 0 <= z -> s * s * z <= z) by (intros; rewrite <- (Rmult_1_l z) at 2; now apply Rmult_le_compat_r).
  pose proof (M _ P). pose proof (M _ P2).
  split; apply norm_le; auto; unfold dot, vx, vy, vz; cbn [fst snd]; lra.
Qed.
Local Lemma sin_1 x : Rabs (sin x) <= 1. Proof. apply Rabs_le, SIN_bound. Qed.
Local Lemma cos_1 x : Rabs (cos x) <= 1. Proof. apply Rabs_le, COS_bound. Qed.
Local Lemma mul_1 x y X : Rabs x <= X -> Rabs y <= 1 -> Rabs (x * y) <= X.
Proof. intros. rewrite Rabs_mult, <- (Rmult_1_r X). apply Rmult_le_compat; auto using Rabs_pos. Qed.
Lemma pos_E : norm (minus3 (pos (peri_state mu k')) (pos (peri_state mu k))) <= (c1 + c2 + c3 + (1001 / 1000 * eta + 1000 * w1) / (1 - e)) * norm (pos (peri_state mu k)).
Proof.
  pose proof u_w as (Q & P & P'). pose proof b_b as (B1 & B2 & B3). destruct e'_b as [E1 E2]. assert (E0 : 0 <= e < 1) by exact He. destruct Hc as [C0 _].
  destruct Hv as (Hm & Hp & _).
  rewrite (ell_pos mu k E Hv ltac:(apply He) A0), (ell_pos mu k' E' Hv' E2 A1), !frame_axes.
  set (f := (cos E - e, b * sin E, 0) : vec). set (f' := (cos E' - e', b' * sin E', 0) : vec).
  replace (k_a k * (cos E - k_e k), k_a k * sqrt (1 - k_e k * k_e k) * sin E, 0) with (scal3 (k_a k) f) by (unfold f, scal3; apply vec_eq; unfold vx, vy, vz, b, e; cbn [fst snd]; ring).
  replace (k_a k' * (cos E' - k_e k'), k_a k' * sqrt (1 - k_e k' * k_e k') * sin E', 0) with (scal3 (k_a k') f') by (unfold f', scal3; apply vec_eq; unfold vx, vy, vz, b', e'; cbn [fst snd]; ring).
  eapply Rle_trans; [apply (frame_pert k' k c1 c2 c3 _ _ H1 H2 H3)|]. rewrite frame_norm, norm_scal by lra.
  assert (Nf : 1 - e <= norm f).
  { apply Rsqr_incr_0_var; [|apply norm_pos]. unfold Rsqr. rewrite norm_sq. unfold dot, f, vx, vy, vz. cbn [fst snd].
    replace ((cos E - e) * (cos E - e) + b * sin E * (b * sin E) + 0 * 0) with ((1 - e * cos E) * (1 - e * cos E)).
    - pose proof (den_b e (cos E) E0 (COS_bound E)). apply Rmult_le_compat; lra.
    - replace (b * sin E * (b * sin E)) with (b * b * (sin E * sin E)) by ring. rewrite B1. replace (sin E * sin E) with (1 - cos E * cos E) by (pose proof (sc1 E); lra). ring. }
  assert (Df : norm (minus3 f' f) <= eta + 871 * w1).
  { replace (minus3 f' f) with (plus3 (cos E' - cos E, b * (sin E' - sin E), 0) (- (e' - e), (b' - b) * sin E', 0)) by (unfold f, f', plus3, minus3; apply vec_eq; unfold vx, vy, vz; cbn [fst snd]; ring).
    eapply Rle_trans; [apply norm_tri|]. pose proof (proj1 (ch_norm b ltac:(lra))) as N1.
    assert (N2 : norm (- (e' - e), (b' - b) * sin E', 0) <= 290 * u + 581 * w1) by (apply two_norm; [rewrite Rabs_Ropp; exact HE|apply mul_1; [exact db|apply sin_1]]). lra. }
  pose proof (scal_pert (k_a k') (k_a k) f' f (100 * w1) _ ltac:(lra) Ha ltac:(lra) Df) as SP.
  set (N := norm f) in *. assert (N0 : 0 < k_a k * N) by (apply Rmult_lt_0_compat; lra).
  assert (G : (1 + 100 * w1) * (eta + 871 * w1) + 100 * w1 * (1 - e) <= 1001 / 1000 * eta + 1000 * w1).
  { assert (w1 * eta <= / 100000000 * eta) by (apply Rmult_le_compat_r; lra). assert (w1 * w1 <= / 100000000 * w1) by (apply Rmult_le_compat_r; lra).
    assert (w1 * (1 - e) <= w1 * 1) by (apply Rmult_le_compat_l; lra). lra. }
  set (Z := (1001 / 1000 * eta + 1000 * w1) / (1 - e)).
  assert (EZ : Z * (1 - e) = 1001 / 1000 * eta + 1000 * w1) by (unfold Z; field; lra).
  assert (G2 : 100 * w1 * N + (1 + 100 * w1) * (eta + 871 * w1) <= Z * N).
  { assert (Z1 : 100 * w1 <= Z) by (apply Rmult_le_reg_r with (1 - e); [lra|]; rewrite EZ; assert (0 <= (1 + 100 * w1) * (eta + 871 * w1)) by (apply Rmult_le_pos; lra); lra).
    assert ((Z - 100 * w1) * (1 - e) <= (Z - 100 * w1) * N) by (apply Rmult_le_compat_l; lra). lra. }
  assert (G3 : k_a k * (100 * w1 * N + (1 + 100 * w1) * (eta + 871 * w1)) <= k_a k * (Z * N)) by (apply Rmult_le_compat_l; lra). lra.
Qed.
Lemma vel_E : norm (minus3 (vel (peri_state mu k')) (vel (peri_state mu k))) <= (c1 + c2 + c3 + (23 / 10 * eta + 1500 * w1) / (1 - e)) * norm (vel (peri_state mu k)).
Proof.
  pose proof u_w as (Q & P & P'). pose proof b_b as (B1 & B2 & B3). destruct e'_b as [E1 E2]. assert (E0 : 0 <= e < 1) by exact He. destruct Hc as [C0 _].
  destruct Hv as (Hm & Hp & _).
  rewrite (ell_vel mu k E Hv ltac:(apply He) A0), (ell_vel mu k' E' Hv' E2 A1), !frame_axes.
  set (f := (- sin E, b * cos E, 0) : vec). set (f' := (- sin E', b' * cos E', 0) : vec).
  change (- sin E, sqrt (1 - k_e k * k_e k) * cos E, 0) with f. change (- sin E', sqrt (1 - k_e k' * k_e k') * cos E', 0) with f'.
  assert (FS : forall k x v, scal3 x (frame k v) = frame k (scal3 x v)).
  { intros. unfold frame, rz, rx, scal3. apply vec_eq; unfold vx, vy, vz; cbn [fst snd]; ring. }
  rewrite !FS. clear FS. eapply Rle_trans; [apply (frame_pert k' k c1 c2 c3 _ _ H1 H2 H3)|].
  fold e e'. pose proof (den_b e (cos E) E0 (COS_bound E)) as D0. pose proof (den_b e' (cos E') ltac:(lra) (COS_bound E')) as D1.
  set (r := 1 - e * cos E) in *. set (r' := 1 - e' * cos E') in *.
  pose proof q_rel as Hq. assert (q0 : 0 < sqrt (mu / k_a k)) by (apply sqrt_lt_R0, Rdiv_lt_0_compat; lra).
  set (q := sqrt (mu / k_a k)) in *. set (q' := sqrt (mu / k_a k')) in *.
  assert (qr : 0 < q / r) by (apply Rdiv_lt_0_compat; lra). rewrite frame_norm, (norm_scal (q / r)) by lra.
  set (z := (eta + 291 * w1) / (1 - e)). assert (Ez : z * (1 - e) = eta + 291 * w1) by (unfold z; field; lra).
  assert (z0 : 0 < z) by (apply Rdiv_lt_0_compat; lra).
  assert (wz : w1 <= z). { apply Rmult_le_reg_r with (1 - e); [lra|]. rewrite Ez. assert (w1 * (1 - e) <= w1 * 1) by (apply Rmult_le_compat_l; lra). lra. }
  (* the radius *)
  assert (Dr : Rabs (r - r') <= eta + 290 * w1).
  { replace (r - r') with (e * (cos E' - cos E) + (e' - e) * cos E') by (unfold r, r'; ring). eapply Rle_trans; [apply Rabs_triang|].
    assert (X1 : Rabs (e * (cos E' - cos E)) <= eta).
    { rewrite Rmult_comm. apply mul_1; [|rewrite Rabs_pos_eq; lra]. destruct Hc as [_ C]. apply Rabs_le_sqr; [lra|].
      pose proof (Rle_0_sqr (sin E' - sin E)) as S. unfold Rsqr in S. lra. }
    assert (X2 : Rabs ((e' - e) * cos E') <= 290 * u) by (apply mul_1; [exact HE|apply cos_1]). lra. }
  assert (Ir : Rabs ((r - r') / r') <= 102 / 100 * z).
  { unfold Rdiv. rewrite Rabs_mult, (Rabs_pos_eq (/ r')) by (apply Rlt_le, Rinv_0_lt_compat; lra).
    apply Rmult_le_reg_r with r'; [lra|]. rewrite Rmult_assoc, Rinv_l, Rmult_1_r by lra.
    assert (z * ((1 - e) * (999 / 1000)) <= z * r') by (apply Rmult_le_compat_l; lra). lra. }
  assert (zs : z <= 6 / 100). { apply Rmult_le_reg_r with (1 - e); [lra|]. rewrite Ez.
    lra. }
  assert (Hs : Rabs (q' / r' - q / r) <= (103 / 100 * z + 103 * w1) * (q / r)).
  { replace (q' / r' - q / r) with (((q' - q) / q * (1 + (r - r') / r') + (r - r') / r') * (q / r)) by (field; lra).
    rewrite Rabs_mult, (Rabs_pos_eq (q / r)) by lra. apply Rmult_le_compat_r; [lra|].
    assert (Y1 : Rabs ((q' - q) / q) <= 101 * w1).
    { unfold Rdiv. rewrite Rabs_mult, (Rabs_pos_eq (/ q)) by (apply Rlt_le, Rinv_0_lt_compat; lra). apply Rmult_le_reg_r with q; [lra|]. rewrite Rmult_assoc, Rinv_l, Rmult_1_r by lra. exact Hq. }
    set (y := (q' - q) / q) in *. set (x := (r - r') / r') in *.
    replace (y * (1 + x) + x) with (y + (y * x + x)) by ring. eapply Rle_trans; [apply Rabs_triang|].
    assert (Rabs (y * x) <= 101 * w1 * (102 / 100 * z)) by (rewrite Rabs_mult; apply Rmult_le_compat; auto using Rabs_pos).
    pose proof (Rabs_triang (y * x) x). assert (w1 * z <= / 100000000 * z) by (apply Rmult_le_compat_r; lra). lra. }
  assert (Nf : 1 - e <= norm f).
  { apply Rle_trans with b; [auto|]. apply Rsqr_incr_0_var; [|apply norm_pos]. unfold Rsqr. rewrite norm_sq. unfold dot, f, vx, vy, vz. cbn [fst snd].
    pose proof (sc1 E) as T. pose proof (Rle_0_sqr (sin E)) as T2. unfold Rsqr in T2.
    replace (- sin E * - sin E + b * cos E * (b * cos E) + 0 * 0) with ((sin E * sin E) + b * b * (cos E * cos E)) by ring. replace (cos E * cos E) with (1 - sin E * sin E) by lra.
    assert (b * b * (sin E * sin E) <= sin E * sin E); [|lra]. rewrite <- (Rmult_1_l (sin E * sin E)) at 2. apply Rmult_le_compat_r; [auto|]. rewrite B1. clear - E0; nra. }
  assert (Df : norm (minus3 f' f) <= eta + 581 * w1).
  { replace (minus3 f' f) with (plus3 (- (sin E' - sin E), b * (cos E' - cos E), 0) (0, (b' - b) * cos E', 0)) by (unfold f, f', plus3, minus3; apply vec_eq; unfold vx, vy, vz; cbn [fst snd]; ring).
    eapply Rle_trans; [apply norm_tri|]. pose proof (proj2 (ch_norm b ltac:(lra))) as N1.
    assert (N2 : norm (0, (b' - b) * cos E', 0) <= 0 + 581 * w1) by (apply two_norm; [rewrite Rabs_R0; lra|apply mul_1; [exact db|apply cos_1]]). lra. }
  set (h := 103 / 100 * z + 103 * w1) in *. assert (h0 : 0 <= h <= 7 / 100) by (unfold h; lra).
  pose proof (scal_pert (q' / r') (q / r) f' f h _ ltac:(lra) Hs ltac:(lra) Df) as SP.
  set (N := norm f) in *.
  set (Z := (23 / 10 * eta + 1500 * w1) / (1 - e)). assert (EZ : Z * (1 - e) = 23 / 10 * eta + 1500 * w1) by (unfold Z; field; lra).
  assert (wE : w1 * (1 - e) <= w1) by (rewrite <- (Rmult_1_r w1) at 2; apply Rmult_le_compat_l; lra).
  assert (G0 : h * (1 - e) <= 103 / 100 * (eta + 291 * w1) + 103 * w1) by (unfold h; rewrite Rmult_plus_distr_r, (Rmult_assoc (103 / 100)), Ez; lra).
  assert (G1 : (1 + h) * (eta + 581 * w1) <= 107 / 100 * (eta + 581 * w1)) by (apply Rmult_le_compat_r; lra).
  assert (Hd0 : 0 <= (1 + h) * (eta + 581 * w1)) by (apply Rmult_le_pos; lra).
  assert (G2 : h * N + (1 + h) * (eta + 581 * w1) <= Z * N).
  { assert (Z1 : h <= Z) by (apply Rmult_le_reg_r with (1 - e); [lra|]; rewrite EZ; lra).
    assert ((Z - h) * (1 - e) <= (Z - h) * N) by (apply Rmult_le_compat_l; lra). lra. }
  assert (G3 : q / r * (h * N + (1 + h) * (eta + 581 * w1)) <= q / r * (Z * N)) by (apply Rmult_le_compat_l; lra). lra.
Qed.
Theorem state_E : let B := c1 + c2 + c3 + (23 / 10 * eta + 1500 * w1) / (1 - e) in near B B (peri_state mu k') (peri_state mu k).
Proof.
  cbv zeta. split; [|exact vel_E]. eapply Rle_trans; [exact pos_E|]. apply Rmult_le_compat_r; [apply norm_pos|].
  pose proof u_w as (Q & P & P'). destruct Hc as [C0 _]. apply Rplus_le_compat_l. apply Rmult_le_compat_r; [apply Rlt_le, Rinv_0_lt_compat; unfold e; lra|]. lra.
Qed.
End StateE.
