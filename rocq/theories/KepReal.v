(** * kep_to_cart over the reals: the perifocal form of the returned state *)
From Coq Require Import Reals QArith Lra Lia Bool List Nsatz.
From Verif Require Import NP NPReal KeplerModel ConvModel Lists ConvCols ArraySpec PropsArray Spec RealBase.
Import ListNotations.
Local Open Scope R_scope.

Lemma sc1 x : sin x * sin x + cos x * cos x = 1.
Proof. pose proof (sin2_cos2 x) as H. unfold Rsqr in H. exact H. Qed.

(** vector algebra *)
Lemma vec_eq (a b : vec) : vx a = vx b -> vy a = vy b -> vz a = vz b -> a = b.
Proof. destruct a as [[? ?] ?], b as [[? ?] ?]; cbn. congruence. Qed.
Ltac vunf := unfold pos, vel, plus3, minus3, scal3, dot, cross, vx, vy, vz in *; cbn [fst snd s0 s1 s2 s3 s4 s5] in *.
Ltac vring := apply vec_eq; vunf; ring.
Lemma dot_scal_l k a b : dot (scal3 k a) b = k * dot a b. Proof. vunf; ring. Qed.
Lemma dot_scal_r k a b : dot a (scal3 k b) = k * dot a b. Proof. vunf; ring. Qed.
Lemma dot_plus_l a b c : dot (plus3 a b) c = dot a c + dot b c. Proof. vunf; ring. Qed.
Lemma dot_plus_r a b c : dot c (plus3 a b) = dot c a + dot c b. Proof. vunf; ring. Qed.
Lemma dot_minus_l a b c : dot (minus3 a b) c = dot a c - dot b c. Proof. vunf; ring. Qed.
Lemma dot_minus_r a b c : dot c (minus3 a b) = dot c a - dot c b. Proof. vunf; ring. Qed.
Lemma dot_comm a b : dot a b = dot b a. Proof. vunf; ring. Qed.
Lemma cross_scal_l k a b : cross (scal3 k a) b = scal3 k (cross a b). Proof. vring. Qed.
Lemma cross_scal_r k a b : cross a (scal3 k b) = scal3 k (cross a b). Proof. vring. Qed.
Lemma cross_plus_l a b c : cross (plus3 a b) c = plus3 (cross a c) (cross b c). Proof. vring. Qed.
Lemma cross_plus_r a b c : cross c (plus3 a b) = plus3 (cross c a) (cross c b). Proof. vring. Qed.
Lemma cross_anti a b : cross a b = scal3 (-1) (cross b a). Proof. vring. Qed.
Lemma cross_self a : cross a a = (0,0,0). Proof. vring. Qed.
Lemma dot_pos a : 0 <= dot a a. Proof. vunf; nra. Qed.
Lemma norm_pos a : 0 <= norm a. Proof. apply sqrt_pos. Qed.
Lemma norm_sq a : norm a * norm a = dot a a.
Proof. apply sqrt_sqrt, dot_pos. Qed.
Lemma norm_eq a x : 0 <= x -> dot a a = x * x -> norm a = x.
Proof. intros H E. unfold norm. rewrite E. now apply sqrt_square. Qed.

Section Frame.
Variable k : six R.
Let i := k_i k. Let w := k_om k. Let Om := k_Om k.
(** closed form of the Q axis *)
Lemma Q_axis_eq : Q_axis k =
  (- cos Om * sin w - sin Om * cos w * cos i,
   - sin Om * sin w + cos Om * cos w * cos i,
   cos w * sin i).
Proof.
  unfold Q_axis, W_axis, P_axis. fold i w Om. pose proof (sc1 i) as Hi. pose proof (sc1 Om) as HO.
  apply vec_eq; vunf; nsatz.
Qed.
Ltac fr := try rewrite Q_axis_eq; unfold W_axis, P_axis; fold i w Om;
  pose proof (sc1 i); pose proof (sc1 Om); pose proof (sc1 w); 
  try apply vec_eq; vunf; nsatz.
Lemma PP : dot (P_axis k) (P_axis k) = 1. Proof. fr. Qed.
Lemma QQ : dot (Q_axis k) (Q_axis k) = 1. Proof. fr. Qed.
Lemma WW : dot (W_axis k) (W_axis k) = 1. Proof. fr. Qed.
Lemma PQ : dot (P_axis k) (Q_axis k) = 0. Proof. fr. Qed.
Lemma PW : dot (P_axis k) (W_axis k) = 0. Proof. fr. Qed.
Lemma QW : dot (Q_axis k) (W_axis k) = 0. Proof. fr. Qed.
Lemma PxQ : cross (P_axis k) (Q_axis k) = W_axis k. Proof. fr. Qed.
Lemma QxW : cross (Q_axis k) (W_axis k) = P_axis k. Proof. fr. Qed.
Lemma WxP : cross (W_axis k) (P_axis k) = Q_axis k. Proof. reflexivity. Qed.
End Frame.

(** the state in the orbital frame *)
Definition peri_r (mu : R) (k : six R) : R := semi_latus (k_a k) (k_e k) / (1 + k_e k * cos (k_nu k)).
Definition peri_s (mu : R) (k : six R) : R := sqrt (mu / semi_latus (k_a k) (k_e k)).
Definition peri_state (mu : R) (k : six R) : six R :=
  let r := scal3 (peri_r mu k) (plus3 (scal3 (cos (k_nu k)) (P_axis k)) (scal3 (sin (k_nu k)) (Q_axis k))) in
  let v := scal3 (peri_s mu k)
             (plus3 (scal3 (- sin (k_nu k)) (P_axis k)) (scal3 (k_e k + cos (k_nu k)) (Q_axis k))) in
  mk6 (vx r) (vy r) (vz r) (vx v) (vy v) (vz v).
Lemma peri_pos mu k : pos (peri_state mu k) =
  scal3 (peri_r mu k) (plus3 (scal3 (cos (k_nu k)) (P_axis k)) (scal3 (sin (k_nu k)) (Q_axis k))).
Proof. reflexivity. Qed.
Lemma peri_vel mu k : vel (peri_state mu k) =
  scal3 (peri_s mu k) (plus3 (scal3 (- sin (k_nu k)) (P_axis k)) (scal3 (k_e k + cos (k_nu k)) (Q_axis k))).
Proof. reflexivity. Qed.

Lemma semi_latus_pos a e : 0 < a -> 0 <= e -> 0 < semi_latus a e.
Proof.
  intros. unfold semi_latus. destruct (Rlt_dec e 1); [|destruct (Rlt_dec 1 e)]; apply Rmult_lt_0_compat; nra.
Qed.
Lemma mu_over_h mu p : 0 < mu -> 0 < p -> mu / sqrt (mu * p) = sqrt (mu / p).
Proof.
  intros. rewrite sqrt_mult, sqrt_div by lra.
  rewrite <- (sqrt_sqrt mu) at 1 by lra.
  field. split; apply Rgt_not_eq, sqrt_lt_R0; lra.
Qed.

Lemma k2c_real mu k : valid_kep mu k ->
  k2c_col (edit_col false (fin6 k)) (Fin mu) = fin6 (peri_state mu k).
Proof.
  intros [Hmu [Ha [He Hn]]].
  set (p := semi_latus (k_a k) (k_e k)).
  assert (Hp : 0 < p) by (now apply semi_latus_pos).
  unfold k2c_col, edit_col, fin6, map6. cbn [s0 s1 s2 s3 s4 s5].
  fold (k_a k) (k_e k) (k_i k) (k_om k) (k_Om k) (k_nu k).
  rewrite lit_1, Fin_ltb, Fin_eqb, lit_m1, Fin_mul.
  (* the angular momentum is sqrt (mu p) in all three cases *)
  assert (Hh : (if Reqb (k_e k) 1
     then parabolic_total_angular_momentum (if Rltb 1 (k_e k) then Fin (k_a k * -1) else Fin (k_a k)) (Fin mu)
     else orbit_total_angular_momentum (if Rltb 1 (k_e k) then Fin (k_a k * -1) else Fin (k_a k)) (Fin (k_e k)) (Fin mu))
     = Fin (sqrt (mu * p))).
  { unfold parabolic_total_angular_momentum, orbit_total_angular_momentum. unfold p, semi_latus.
    destruct (Reqb_spec (k_e k) 1) as [E|E].
    - rewrite E, (Rltb_false 1 1) by lra. num. rewrite Fin_sqrt by nra.
      destruct (Rlt_dec 1 1); [lra|]. f_equal. f_equal. ring.
    - destruct (Rltb_spec 1 (k_e k)) as [H|H]; num.
      + rewrite Fin_sqrt.
        2:{ assert (0 < mu * k_a k) by nra. assert (1 < k_e k * k_e k) by nra.
            replace (mu * (k_a k * -1) * (1 - k_e k * k_e k)) with ((mu * k_a k) * (k_e k * k_e k - 1)) by ring.
            apply Rmult_le_pos; lra. }
        destruct (Rlt_dec (k_e k) 1); [lra|]. destruct (Rlt_dec 1 (k_e k)); [|lra].
        f_equal. f_equal. ring.
      + rewrite Fin_sqrt.
        2:{ assert (0 < mu * k_a k) by nra. assert (k_e k * k_e k < 1) by nra.
            apply Rmult_le_pos; lra. }
        destruct (Rlt_dec (k_e k) 1); [|lra]. f_equal. f_equal. ring. }
  rewrite Hh. clear Hh.
  assert (Hs : sqrt (mu * p) * sqrt (mu * p) = mu * p) by (apply sqrt_sqrt; nra).
  assert (Hsp : 0 < sqrt (mu * p)) by (apply sqrt_lt_R0; nra).
  unfold orbital_distance. rewrite lit_1. num.
  rewrite !Fin_div by nra. rewrite Hs, mu_over_h by auto.
  unfold euler_rotation_matrix. num. unfold m00, m01, m10, m11, m20, m21. cbn [fst snd].
  num. unfold peri_state. rewrite Q_axis_eq. unfold P_axis, peri_r, peri_s. fold p. vunf.
  f_equal; f_equal; field; lra.
Qed.

Lemma kep_to_cart_real g mu k : valid_kep mu k ->
  snd (kep_to_cart g (KVec (fin6 k)) (MuS (Fin mu)) false) = Ok (KVec (fin6 (peri_state mu k))).
Proof.
  intros H. destruct (kep_to_cart_vec g (fin6 k) (MuS (Fin mu)) false [Fin mu] eq_refl) as [m [Em ->]].
  injection Em as <-. cbn [snd]. now rewrite k2c_real.
Qed.
