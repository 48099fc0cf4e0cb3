(** * C26-C29, C31: radii, speed, period, asymptote and rotation matrices (exact arithmetic) *)
From Coq Require Import Reals QArith Lra Lia Bool List Nsatz.
From Verif Require Import NP NPReal KeplerModel ConvModel Lists ConvCols ArraySpec PropsArray Spec RealBase KepReal
  PropsKep AnomReal PropsAnomalyR.
Import ListNotations.
Local Open Scope R_scope.

(** ** C26: the radius functions *)
(** the angular momentum the library computes for the elements (a negated for hyperbolas) *)
Definition ang_mom_of (mu a e : R) : num :=
  if Rlt_dec e 1 then orbit_total_angular_momentum (Fin a) (Fin e) (Fin mu)
  else if Rlt_dec 1 e then orbit_total_angular_momentum (Fin (- a)) (Fin e) (Fin mu)
  else parabolic_total_angular_momentum (Fin a) (Fin mu).
Lemma ang_mom_of_fin mu a e : 0 < mu -> 0 < a -> 0 <= e ->
  ang_mom_of mu a e = Fin (sqrt (mu * semi_latus a e)).
Proof.
  intros Hm Ha He. unfold ang_mom_of, semi_latus, orbit_total_angular_momentum, parabolic_total_angular_momentum.
  assert (0 < mu * a) by nra.
  destruct (Rlt_dec e 1); [|destruct (Rlt_dec 1 e)]; num; rewrite Fin_sqrt; try (do 2 f_equal; ring).
  - assert (e * e < 1) by nra. nra.
  - assert (1 < e * e) by nra. nra.
  - nra.
Qed.

(** The angular momentum is the length of r x v, the general radius function, the elliptic,
    parabolic and hyperbolic one all return the distance of the Cartesian state. *)
Theorem C26_radii : forall mu k x, valid_kep mu k -> state_of mu k x ->
  ang_mom_of mu (k_a k) (k_e k) = Fin (norm (ang_mom x))
  /\ orbital_distance (ang_mom_of mu (k_a k) (k_e k)) (Fin mu) (Fin (k_e k)) (Fin (k_nu k)) false
     = Fin (norm (pos x))
  /\ (k_e k < 1 -> forall E, anomalies_ell (k_e k) (k_nu k) E ->
        elliptic_radius (Fin E) (Fin (k_a k)) (Fin (k_e k)) false = Fin (norm (pos x)))
  /\ (k_e k = 1 -> parabolic_radius (Fin (k_nu k)) (Fin (k_a k)) false = Fin (norm (pos x)))
  /\ (1 < k_e k -> hyperbolic_radius (Fin (k_nu k)) (Fin (k_a k)) (Fin (k_e k)) false = Fin (norm (pos x))).
Proof.
  intros mu k x H S. destruct (C03_angular_momentum mu k x H S) as [_ [N _]].
  assert (R : norm (pos x) = semi_latus (k_a k) (k_e k) / (1 + k_e k * cos (k_nu k))).
  { rewrite (state_of_inv mu k x H S). now apply peri_norm. }
  destruct H as [Hmu [Ha [He Hn]]]. pose proof (semi_latus_pos _ _ Ha He) as Hp.
  assert (A : ang_mom_of mu (k_a k) (k_e k) = Fin (sqrt (mu * semi_latus (k_a k) (k_e k))))
    by now apply ang_mom_of_fin.
  rewrite A, N, R. repeat split; auto.
  - unfold orbital_distance. num. rewrite Fin_div by nra. rewrite sqrt_sqrt by nra. f_equal. field. lra.
  - intros H1 E [C _]. unfold elliptic_radius, semi_latus. destruct (Rlt_dec (k_e k) 1); [|lra].
    num. f_equal. assert (D : 0 < 1 - k_e k * cos E) by (pose proof (COS_bound E); nra).
    rewrite C in *. assert (0 < 1 - k_e k * k_e k) by nra.
    field. split; [|lra].
    replace (1 - k_e k * cos E + k_e k * (cos E - k_e k)) with (1 - k_e k * k_e k) by ring. lra.
  - intros H1. unfold parabolic_radius, semi_latus. rewrite H1 in *.
    destruct (Rlt_dec 1 1); [lra|]. num. rewrite Fin_div by lra. f_equal. field. lra.
  - intros H1. unfold hyperbolic_radius, semi_latus. destruct (Rlt_dec (k_e k) 1); [lra|].
    destruct (Rlt_dec 1 (k_e k)); [|lra]. num. rewrite Fin_div by lra. reflexivity.
Qed.
(** every radius is between the apsides; the bounds are attained at E = 0 and E = pi *)
Theorem C26_bounds : forall a e E, 0 < a -> 0 <= e < 1 -> exists r,
  elliptic_radius (Fin E) (Fin a) (Fin e) false = Fin r /\ a * (1 - e) <= r <= a * (1 + e)
  /\ (E = 0 -> r = a * (1 - e)) /\ (E = PI -> r = a * (1 + e)).
Proof.
  intros a e E Ha He. exists (a * (1 - e * cos E)). unfold elliptic_radius. num. split; auto.
  pose proof (COS_bound E). assert (-e <= e * cos E <= e) by nra.
  split; [split; apply Rmult_le_compat_l; lra|split].
  - intros ->. rewrite cos_0. ring.
  - intros ->. rewrite cos_PI. ring.
Qed.
(** with [degrees=True] the angle is given in degrees *)
Theorem C26_degrees : forall h mu a q e t,
  orbital_distance h mu e (Fin t) true = orbital_distance h mu e (Fin (t * PI / 180)) false
  /\ elliptic_radius (Fin t) a e true = elliptic_radius (Fin (t * PI / 180)) a e false
  /\ parabolic_radius (Fin t) q true = parabolic_radius (Fin (t * PI / 180)) q false
  /\ hyperbolic_radius (Fin t) a e true = hyperbolic_radius (Fin (t * PI / 180)) a e false.
Proof.
  intros. unfold orbital_distance, elliptic_radius, parabolic_radius, hyperbolic_radius.
  rewrite Fin_radians. replace (t * (PI / 180)) with (t * PI / 180) by field. auto.
Qed.
(** an ellipse with e = 1/2 at the end of the minor axis: E = pi/2, cos nu = - 1/2 *)
Example C26_example : exists x,
  state_of 1 (mk6 4 (1/2) 0 0 0 (2 * PI / 3)) x
  /\ elliptic_radius (Fin (PI / 2)) (Fin 4) (Fin (1/2)) false = Fin (norm (pos x)) /\ norm (pos x) = 4.
Proof.
  set (k := mk6 4 (1/2) 0 0 0 (2 * PI / 3)).
  assert (C : cos (2 * PI / 3) = -1/2).
  { replace (2 * PI / 3) with (PI - PI / 3) by field. rewrite cos_minus, cos_PI, sin_PI, cos_PI3. lra. }
  assert (S : sin (2 * PI / 3) = sqrt 3 / 2).
  { replace (2 * PI / 3) with (PI - PI / 3) by field. rewrite sin_minus, cos_PI, sin_PI, sin_PI3. lra. }
  assert (V : valid_kep 1 k).
  { unfold valid_kep, k, k_a, k_e, k_nu. cbn. rewrite C. repeat split; lra. }
  exists (peri_state 1 k). pose proof (state_of_peri 1 k V) as Q. split; auto.
  destruct (C26_radii 1 k _ V Q) as [_ [_ [E _]]].
  split.
  - apply E; [unfold k, k_e; cbn; lra|]. unfold k, k_e, k_nu, anomalies_ell. cbn.
    rewrite C, S, cos_PI2, sin_PI2. split; [field|].
    replace (1 - 1 / 2 * (1 / 2)) with (3 / (2 * 2)) by field.
    rewrite sqrt_div, sqrt_square by lra. field.
  - rewrite peri_norm by auto. unfold k, k_a, k_e, k_nu, semi_latus. cbn. rewrite C.
    destruct (Rlt_dec (1 / 2) 1); lra.
Qed.

(** ** C27: Kepler's third law *)
Lemma Rcbrt_pos y : 0 < y -> 0 < Rcbrt y.
Proof. intros. now apply Rcbrt_cube. Qed.
Lemma Rcbrt3 y : 0 < y -> Rcbrt y * Rcbrt y * Rcbrt y = y.
Proof. intros. now apply Rcbrt_cube. Qed.
Lemma cube_inj x y : x * x * x = y * y * y -> x = y.
Proof.
  intros E. assert (F : (x - y) * (x * x + x * y + y * y) = 0) by lra.
  apply Rmult_integral in F. destruct F as [F|F]; [lra|].
  assert (x + y = 0) by nra. nra.
Qed.
Theorem C27_kepler_three : forall mu, 0 < mu ->
  (forall a, 0 < a -> exists P, 0 < P /\ orbital_period (Fin a) (Fin mu) = Fin P
      /\ P * P * mu = 4 * (PI * PI) * (a * a * a)
      /\ semi_major_axis (Fin P) (Fin mu) = Fin a)
  /\ (forall P, 0 < P -> exists a, 0 < a /\ semi_major_axis (Fin P) (Fin mu) = Fin a
      /\ orbital_period (Fin a) (Fin mu) = Fin P)
  /\ (forall a b P Q, 0 < a < b -> orbital_period (Fin a) (Fin mu) = Fin P ->
      orbital_period (Fin b) (Fin mu) = Fin Q -> P < Q).
Proof.
  intros mu Hm. pose proof PI_RGT_0 as Hpi.
  assert (A : forall a, 0 < a -> orbital_period (Fin a) (Fin mu) = Fin (2 * PI * sqrt (a * a * a / mu))).
  { intros a Ha. unfold orbital_period. num. rewrite Fin_div by lra.
    assert (0 < a * a * a) by (apply Rmult_lt_0_compat; nra).
    rewrite Fin_sqrt; [now num|]. apply Rlt_le, Rdiv_lt_0_compat; auto. }
  assert (B : forall P, semi_major_axis (Fin P) (Fin mu) = Fin (Rcbrt (P / (2 * PI) * (P / (2 * PI)) * mu))).
  { intros P. unfold semi_major_axis. num. rewrite Fin_div by lra. now num. }
  split; [|split].
  - intros a Ha. assert (0 < a * a * a) by (apply Rmult_lt_0_compat; nra).
    assert (0 < a * a * a / mu) by (apply Rdiv_lt_0_compat; auto).
    pose proof (sqrt_lt_R0 _ H0) as Hs. pose proof (sqrt_sqrt (a * a * a / mu) (Rlt_le _ _ H0)) as Hq.
    exists (2 * PI * sqrt (a * a * a / mu)). repeat split; auto; [nra| |].
    + replace (2 * PI * sqrt (a * a * a / mu) * (2 * PI * sqrt (a * a * a / mu)) * mu)
        with (4 * (PI * PI) * (sqrt (a * a * a / mu) * sqrt (a * a * a / mu) * mu)) by ring.
      rewrite Hq. field. lra.
    + rewrite B. f_equal. apply cube_inj.
      replace (2 * PI * sqrt (a * a * a / mu) / (2 * PI)) with (sqrt (a * a * a / mu)) by (field; lra).
      rewrite Hq, Rcbrt3; [field; lra|]. replace (a * a * a / mu * mu) with (a * a * a) by (field; lra). lra.
  - intros P HP. assert (Q : 0 < P / (2 * PI)) by (apply Rdiv_lt_0_compat; lra).
    assert (Y : 0 < P / (2 * PI) * (P / (2 * PI)) * mu) by (apply Rmult_lt_0_compat; nra).
    exists (Rcbrt (P / (2 * PI) * (P / (2 * PI)) * mu)). pose proof (Rcbrt_pos _ Y). repeat split; auto.
    rewrite A by auto. f_equal. rewrite Rcbrt3 by auto.
    replace (P / (2 * PI) * (P / (2 * PI)) * mu / mu) with (P / (2 * PI) * (P / (2 * PI))) by (field; lra).
    rewrite sqrt_square by lra. field. lra.
  - intros a b P Q [Ha Hb] E1 E2. rewrite A in E1, E2 by lra. injection E1 as <-. injection E2 as <-.
    apply Rmult_lt_compat_l; [lra|]. apply sqrt_lt_1_alt. split.
    + apply Rlt_le, Rdiv_lt_0_compat; auto. apply Rmult_lt_0_compat; nra.
    + apply Rmult_lt_compat_r; [now apply Rinv_0_lt_compat|].
      assert (a * a < b * b) by nra. nra.
Qed.
Example C27_example : orbital_period (Fin 1) (Fin (4 * (PI * PI))) = Fin 1
  /\ semi_major_axis (Fin 8) (Fin (4 * (PI * PI))) = Fin 4.
Proof.
  pose proof PI_RGT_0. split.
  - unfold orbital_period. num. rewrite Fin_div by nra.
    replace (1 * 1 * 1 / (4 * (PI * PI))) with ((1 / (2 * PI)) * (1 / (2 * PI))) by (field; lra).
    assert (0 < 1 / (2 * PI)) by (apply Rdiv_lt_0_compat; lra).
    rewrite Fin_sqrt, sqrt_square by nra. num. f_equal. field. lra.
  - unfold semi_major_axis. num. rewrite Fin_div by lra. num. f_equal.
    apply cube_inj.
    replace (8 / (2 * PI) * (8 / (2 * PI)) * (4 * (PI * PI))) with 64 by (field; lra). rewrite Rcbrt3; lra.
Qed.

(** ** C28: vis-viva *)
Theorem C28_speed : forall mu k x, valid_kep mu k -> state_of mu k x ->
  (k_e k < 1 -> orbital_speed (Fin (norm (pos x))) (Fin (k_a k)) (Fin mu) = Fin (norm (vel x)))
  /\ (1 < k_e k -> orbital_speed (Fin (norm (pos x))) (Fin (- k_a k)) (Fin mu) = Fin (norm (vel x))).
Proof.
  intros mu k x H S. destruct (C02_energy mu k x H S) as [E1 [E2 _]].
  assert (R : 0 < norm (pos x)).
  { rewrite (state_of_inv mu k x H S), peri_norm by auto. destruct H as [? [? [? ?]]].
    apply Rdiv_lt_0_compat; auto. now apply semi_latus_pos. }
  destruct H as [Hm [Ha _]].
  unfold energy in *. split; intros He; [specialize (E1 He)|specialize (E2 He)]; unfold orbital_speed; num;
    rewrite !Fin_div by lra; num.
  - assert (Y : mu * (2 / norm (pos x) - 1 / k_a k) = dot (vel x) (vel x)).
    { replace (dot (vel x) (vel x)) with (2 * (- mu / (2 * k_a k) + mu / norm (pos x))) by lra. field. lra. }
    rewrite Y, Fin_sqrt by apply dot_pos. reflexivity.
  - assert (Y : mu * (2 / norm (pos x) - 1 / - k_a k) = dot (vel x) (vel x)).
    { replace (dot (vel x) (vel x)) with (2 * (mu / (2 * k_a k) + mu / norm (pos x))) by lra. field. lra. }
    rewrite Y, Fin_sqrt by apply dot_pos. reflexivity.
Qed.
(** The speed with the radius from [elliptic_radius] is the speed of the state, too. *)
Corollary C28_elliptic : forall mu k x E, valid_kep mu k -> state_of mu k x -> k_e k < 1 ->
  anomalies_ell (k_e k) (k_nu k) E ->
  orbital_speed (elliptic_radius (Fin E) (Fin (k_a k)) (Fin (k_e k)) false) (Fin (k_a k)) (Fin mu)
  = Fin (norm (vel x)).
Proof.
  intros mu k x E H S He Ha. destruct (C26_radii mu k x H S) as [_ [_ [R _]]].
  rewrite (R He E Ha). now apply C28_speed.
Qed.
Example C28_example : valid_kep 2 (mk6 1 3 0 0 0 0) /\
  orbital_speed (Fin 2) (Fin (-1)) (Fin 2) = Fin 2.
Proof.
  split.
  - unfold valid_kep, k_a, k_e, k_nu. cbn. rewrite cos_0. repeat split; lra.
  - unfold orbital_speed. num. rewrite !Fin_div by lra. num. rewrite Fin_sqrt by lra. f_equal.
    replace (2 * (2 / 2 - 1 / -1)) with (2 * 2) by field. apply sqrt_square. lra.
Qed.

(** ** C29: the asymptote *)
Theorem C29_asymptote : forall e, 1 < e -> exists th,
  true_of_the_asymptote (Fin e) false = Fin th
  /\ true_of_the_asymptote (Fin e) true = Fin (th * 180 / PI)
  /\ PI / 2 < th < PI
  /\ forall nu, - PI <= nu <= PI ->
       (0 < 1 + e * cos nu <-> Rabs nu < th) /\ (1 + e * cos nu = 0 <-> Rabs nu = th).
Proof.
  intros e He. pose proof PI_RGT_0 as Hpi.
  assert (B : -1 < -1 / e < 0).
  { split; apply Rmult_lt_reg_r with e; try lra; replace (-1 / e * e) with (-1) by (field; lra); lra. }
  exists (acos (-1 / e)).
  assert (C : cos (acos (-1 / e)) = -1 / e) by (apply cos_acos; lra).
  pose proof (acos_bound (-1 / e)) as [A1 A2].
  assert (R1 : PI / 2 < acos (-1 / e)).
  { destruct (Rle_lt_dec (acos (-1 / e)) (PI / 2)); auto.
    pose proof (cos_ge_0 (acos (-1 / e))). lra. }
  assert (R2 : acos (-1 / e) < PI).
  { destruct (Req_dec (acos (-1 / e)) PI) as [E|E]; [|lra]. rewrite E, cos_PI in C. lra. }
  split; [|split; [|split]]; auto.
  - unfold true_of_the_asymptote. num. rewrite Fin_div, Fin_acos by lra. reflexivity.
  - unfold true_of_the_asymptote. num. rewrite Fin_div, Fin_acos by lra. num. f_equal. field. lra.
  - intros nu Hn.
    assert (Cn : cos nu = cos (Rabs nu)).
    { unfold Rabs. destruct (Rcase_abs nu); auto. now rewrite cos_neg. }
    assert (Hn2 : 0 <= Rabs nu <= PI).
    { split; [apply Rabs_pos|]. apply Rabs_le. lra. }
    set (th := acos (-1 / e)) in *.
    assert (Q : 1 + e * cos nu = e * (cos (Rabs nu) - cos th)).
    { rewrite Cn, C. field. lra. }
    rewrite Q.
    destruct (Rtotal_order (Rabs nu) th) as [L|[L|L]].
    + assert (cos th < cos (Rabs nu)) by (apply cos_decreasing_1; lra).
      assert (0 < e * (cos (Rabs nu) - cos th)) by nra. repeat split; intros; lra.
    + rewrite L. replace (e * (cos th - cos th)) with 0 by ring. repeat split; intros; lra.
    + assert (cos (Rabs nu) < cos th) by (apply cos_decreasing_1; lra).
      assert (e * (cos (Rabs nu) - cos th) < 0) by nra. repeat split; intros; lra.
Qed.
Example C29_example : true_of_the_asymptote (Fin 2) false = Fin (2 * PI / 3).
Proof.
  pose proof PI_RGT_0. unfold true_of_the_asymptote. num. rewrite Fin_div, Fin_acos by lra. f_equal.
  replace (-1 / 2) with (cos (2 * PI / 3)); [apply acos_cos; lra|].
  replace (2 * PI / 3) with (PI - PI / 3) by field. rewrite cos_minus, cos_PI, sin_PI, cos_PI3. lra.
Qed.

(** ** C31: rotation matrices *)
(** a matrix as three rows *)
Definition mat := (vec * vec * vec)%type.
Definition row0 (m : mat) : vec := fst (fst m).
Definition row1 (m : mat) : vec := snd (fst m).
Definition row2 (m : mat) : vec := snd m.
Definition mapply (m : mat) (v : vec) : vec := (dot (row0 m) v, dot (row1 m) v, dot (row2 m) v).
Definition fin_mat (m : mat) : mat3 num :=
  let f (v : vec) := (Fin (vx v), Fin (vy v), Fin (vz v)) in (f (row0 m), f (row1 m), f (row2 m)).
(** proper rotation: keeps scalar products and orientation (right-handed frames), i.e.
    orthogonal with determinant 1 *)
Definition det3 (m : mat) : R := dot (row0 m) (cross (row1 m) (row2 m)).
Definition orthogonal (m : mat) : Prop :=
  dot (row0 m) (row0 m) = 1 /\ dot (row1 m) (row1 m) = 1 /\ dot (row2 m) (row2 m) = 1
  /\ dot (row0 m) (row1 m) = 0 /\ dot (row0 m) (row2 m) = 0 /\ dot (row1 m) (row2 m) = 0.
Definition proper (m : mat) : Prop := orthogonal m /\ det3 m = 1
  /\ (forall u v, dot (mapply m u) (mapply m v) = dot u v)
  /\ (forall u v, cross (mapply m u) (mapply m v) = mapply m (cross u v)).
(** [m] is the matrix the model returned and it acts as [f] *)
Definition acts (m : mat3 num) (f : vec -> vec) : Prop :=
  exists A, m = fin_mat A /\ (forall v, mapply A v = f v) /\ proper A.
Ltac mat_tac := unfold proper, orthogonal, det3, mapply, row0, row1, row2, rotx, roty, rotz; cbn [fst snd];
  repeat split; intros; try apply vec_eq; vunf; first [ring | nsatz].

Theorem C31_axis : forall t,
  acts (rot_mat_x (Fin t)) (rotx t) /\ acts (rot_mat_y (Fin t)) (roty t) /\ acts (rot_mat_z (Fin t)) (rotz t).
Proof.
  intros t. pose proof (sc1 t) as S. split; [|split].
  - exists ((1,0,0),(0,cos t,- sin t),(0,sin t,cos t)). unfold rot_mat_x, fin_mat. num.
    split; [reflexivity|]. mat_tac.
  - exists ((cos t,0,sin t),(0,1,0),(- sin t,0,cos t)). unfold rot_mat_y, fin_mat. num.
    split; [reflexivity|]. mat_tac.
  - exists ((cos t,- sin t,0),(sin t,cos t,0),(0,0,1)). unfold rot_mat_z, fin_mat. num.
    split; [reflexivity|]. mat_tac.
Qed.
Theorem C31_add : forall s t v,
  rotx s (rotx t v) = rotx (s + t) v /\ roty s (roty t v) = roty (s + t) v /\ rotz s (rotz t v) = rotz (s + t) v.
Proof.
  intros. unfold rotx, roty, rotz. rewrite cos_plus, sin_plus. repeat split; apply vec_eq; vunf; ring.
Qed.
Theorem C31_euler : forall i om Om,
  acts (euler_rotation_matrix (Fin i) (Fin om) (Fin Om) false) (fun v => rotz Om (rotx i (rotz om v)))
  /\ acts (euler_rotation_matrix (Fin (i * 180 / PI)) (Fin (om * 180 / PI)) (Fin (Om * 180 / PI)) true)
       (fun v => rotz Om (rotx i (rotz om v))).
Proof.
  intros i om Om. pose proof (sc1 i) as S1. pose proof (sc1 om) as S2. pose proof (sc1 Om) as S3.
  assert (A : acts (euler_rotation_matrix (Fin i) (Fin om) (Fin Om) false) (fun v => rotz Om (rotx i (rotz om v)))).
  { exists ((cos Om * cos om - cos i * sin Om * sin om, - cos Om * sin om - cos i * cos om * sin Om, sin Om * sin i),
            (cos om * sin Om + cos Om * cos i * sin om, cos Om * cos i * cos om - sin Om * sin om, - cos Om * sin i),
            (sin i * sin om, cos om * sin i, cos i)).
    unfold euler_rotation_matrix, fin_mat. num. split; [reflexivity|].
    set (a := cos i) in *. set (b := sin i) in *. set (c := cos om) in *. set (d := sin om) in *.
    set (p := cos Om) in *. set (q := sin Om) in *.
    unfold rotx, rotz. fold a b c d p q. clearbody a b c d p q. mat_tac. }
  split; auto.
  assert (D : forall x, x * 180 / PI * (PI / 180) = x) by (intros; field; apply PI_neq0).
  unfold euler_rotation_matrix in *. num. rewrite !D. exact A.
Qed.
(** the three columns are the axes P, Q, W of the orbital frame *)
Theorem C31_frame : forall i om Om, exists A,
  euler_rotation_matrix (Fin i) (Fin om) (Fin Om) false = fin_mat A
  /\ let k := mk6 0 0 i om Om 0 in
     mapply A (1,0,0) = P_axis k /\ mapply A (0,1,0) = Q_axis k /\ mapply A (0,0,1) = W_axis k.
Proof.
  intros i om Om. destruct (C31_euler i om Om) as [[A [E [F _]]] _]. exists A. split; auto. cbn zeta.
  rewrite !F, Q_axis_eq. unfold P_axis, W_axis, k_i, k_om, k_Om, rotz, rotx. cbn.
  repeat split; apply vec_eq; vunf; ring.
Qed.
Example C31_example : exists A, euler_rotation_matrix (Fin (PI / 2)) (Fin 0) (Fin 0) false = fin_mat A
  /\ mapply A (0,1,0) = (0,0,1).
Proof.
  destruct (C31_euler (PI / 2) 0 0) as [[A [E [F _]]] _]. exists A. split; auto. rewrite F.
  unfold rotz, rotx. rewrite cos_0, sin_0, cos_PI2, sin_PI2. apply vec_eq; vunf; ring.
Qed.
