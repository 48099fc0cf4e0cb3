(** * Specification over the reals, independent of the model.

    Three-vectors, the two-body invariants, orbital elements and angles.  Nothing here refers
    to the code; the property theorems (Props*.v) relate the model to these notions. *)
From Coq Require Import Reals.
From Verif Require Import NP NPReal.
Local Open Scope R_scope.

(** ** Vectors *)
Definition vec := (R * R * R)%type.
Definition vx (a : vec) : R := fst (fst a).
Definition vy (a : vec) : R := snd (fst a).
Definition vz (a : vec) : R := snd a.
Definition plus3 (a b : vec) : vec := (vx a + vx b, vy a + vy b, vz a + vz b).
Definition minus3 (a b : vec) : vec := (vx a - vx b, vy a - vy b, vz a - vz b).
Definition scal3 (k : R) (a : vec) : vec := (k * vx a, k * vy a, k * vz a).
Definition dot (a b : vec) : R := vx a * vx b + vy a * vy b + vz a * vz b.
Definition cross (a b : vec) : vec :=
  (vy a * vz b - vz a * vy b, vz a * vx b - vx a * vz b, vx a * vy b - vy a * vx b).
Definition norm (a : vec) : R := sqrt (dot a a).

(** ** States and elements as six reals *)
Definition pos (x : six R) : vec := (s0 x, s1 x, s2 x).
Definition vel (x : six R) : vec := (s3 x, s4 x, s5 x).
(** finite numbers as model values *)
Definition fin6 (x : six R) : six num := map6 Fin x.
Definition k_a (k : six R) := s0 k.    Definition k_e (k : six R) := s1 k.
Definition k_i (k : six R) := s2 k.    Definition k_om (k : six R) := s3 k.
Definition k_Om (k : six R) := s4 k.   Definition k_nu (k : six R) := s5 k.

(** ** Two-body invariants of a Cartesian state *)
Definition energy (mu : R) (x : six R) : R := dot (vel x) (vel x) / 2 - mu / norm (pos x).
Definition ang_mom (x : six R) : vec := cross (pos x) (vel x).
(** Laplace-Runge-Lenz vector over mu: v x h / mu - r / |r| *)
Definition ecc_vec (mu : R) (x : six R) : vec :=
  minus3 (scal3 (/ mu) (cross (vel x) (ang_mom x))) (scal3 (/ norm (pos x)) (pos x)).

(** ** Orbital elements (a, e, i, omega, Omega, nu) *)
(** semi-latus rectum; a is positive for hyperbolas and the periapsis distance for parabolas *)
Definition semi_latus (a e : R) : R :=
  if Rlt_dec e 1 then a * (1 - e * e) else if Rlt_dec 1 e then a * (e * e - 1) else 2 * a.
(** a physically meaningful element set *)
Definition valid_kep (mu : R) (k : six R) : Prop :=
  0 < mu /\ 0 < k_a k /\ 0 <= k_e k /\ 0 < 1 + k_e k * cos (k_nu k).
(** the axes of the orbital frame: P to the periapsis, W the orbit normal, Q = W x P *)
Definition W_axis (k : six R) : vec :=
  (sin (k_i k) * sin (k_Om k), - (sin (k_i k) * cos (k_Om k)), cos (k_i k)).
Definition P_axis (k : six R) : vec :=
  (cos (k_Om k) * cos (k_om k) - sin (k_Om k) * sin (k_om k) * cos (k_i k),
   sin (k_Om k) * cos (k_om k) + cos (k_Om k) * sin (k_om k) * cos (k_i k),
   sin (k_om k) * sin (k_i k)).
Definition Q_axis (k : six R) : vec := cross (W_axis k) (P_axis k).

(** ** Angles *)
Definition cong2pi (a b : R) : Prop := exists n : Z, a = b + 2 * PI * IZR n.
Definition in_circle (a : R) : Prop := 0 <= a < 2 * PI.
(** angle between two nonzero vectors *)
Definition angle_between (a b : vec) (t : R) : Prop :=
  0 <= t <= PI /\ dot a b = norm a * norm b * cos t.

(** ** Rotations (right handed) *)
Definition rotx (t : R) (a : vec) : vec :=     (* takes +y to +z for t = pi/2 *)
  (vx a, cos t * vy a - sin t * vz a, sin t * vy a + cos t * vz a).
Definition roty (t : R) (a : vec) : vec :=     (* takes +z to +x *)
  (cos t * vx a + sin t * vz a, vy a, - sin t * vx a + cos t * vz a).
Definition rotz (t : R) (a : vec) : vec :=     (* takes +x to +y *)
  (cos t * vx a - sin t * vy a, sin t * vx a + cos t * vy a, vz a).
(** rotation by [t] about the unit vector [n] (Rodrigues) *)
Definition rot_about (n : vec) (t : R) (a : vec) : vec :=
  plus3 (plus3 (scal3 (cos t) a) (scal3 (sin t) (cross n a)))
        (scal3 (dot n a * (1 - cos t)) n).
Definition rot_state (f : vec -> vec) (x : six R) : six R :=
  let r := f (pos x) in let v := f (vel x) in
  mk6 (vx r) (vy r) (vz r) (vx v) (vy v) (vz v).
Definition with_i (k : six R) (t : R) := mk6 (s0 k) (s1 k) t (s3 k) (s4 k) (s5 k).
Definition with_om (k : six R) (t : R) := mk6 (s0 k) (s1 k) (s2 k) t (s4 k) (s5 k).
Definition with_Om (k : six R) (t : R) := mk6 (s0 k) (s1 k) (s2 k) (s3 k) t (s5 k).
Definition with_nu (k : six R) (t : R) := mk6 (s0 k) (s1 k) (s2 k) (s3 k) (s4 k) t.

(** ** Anomalies: the true anomaly [nu] belongs to the eccentric anomaly [E] *)
Definition anomalies_ell (e nu E : R) : Prop :=
  cos nu = (cos E - e) / (1 - e * cos E) /\ sin nu = sqrt (1 - e * e) * sin E / (1 - e * cos E).
Definition anomalies_par (nu E : R) : Prop :=
  cos nu = (1 - E * E) / (1 + E * E) /\ sin nu = 2 * E / (1 + E * E).
Definition anomalies_hyp (e nu E : R) : Prop :=
  cos nu = (e - cosh E) / (e * cosh E - 1) /\ sin nu = sqrt (e * e - 1) * sinh E / (e * cosh E - 1).
(** Kepler's, Barker's and the hyperbolic Kepler equation *)
Definition kepler_M (e E : R) : R :=
  if Rlt_dec e 1 then E - e * sin E
  else if Rlt_dec 1 e then e * sinh E - E else E + E * E * E / 3.
