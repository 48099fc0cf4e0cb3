(** * Model of /repo/pyorb/kepler.py: anomalies, solver, scalar functions, matrices.
    Line numbers refer to /repo/pyorb/kepler.py at the pinned commit. *)
From Coq Require Import List Bool ZArith QArith.
From Verif Require Import NP.
Import ListNotations.

Section Kepler.
Context {F : Type} `{NP F}.
Local Open Scope np_scope.

(** kepler.py:140 *)
Definition e_lim : F := lit 1e-9.
(** kepler.py:144 *)
Definition i_lim : F := npi * lit 1e-9.

(** kepler.py:585-603 *)
Definition orbit_total_angular_momentum (a e mu : F) : F :=
  nsqrt (mu * a * (lit 1 - sq e)).
(** kepler.py:606-622 *)
Definition parabolic_total_angular_momentum (q mu : F) : F := nsqrt (mu * lit 2 * q).
(** kepler.py:826-855 *)
Definition orbital_distance (h mu e nu : F) (deg : bool) : F :=
  let nu' := if deg then radians nu else nu in
  sq h / (mu * (lit 1 + e * ncos nu')).
(** kepler.py:858-884 *)
Definition elliptic_radius (E a e : F) (deg : bool) : F :=
  let E' := if deg then radians E else E in a * (lit 1 - e * ncos E').
(** kepler.py:887-911 *)
Definition parabolic_radius (nu q : F) (deg : bool) : F :=
  let nu' := if deg then radians nu else nu in lit 2 * q / (lit 1 + ncos nu').
(** kepler.py:914-940 *)
Definition hyperbolic_radius (nu a e : F) (deg : bool) : F :=
  let nu' := if deg then radians nu else nu in
  a * (sq e - lit 1) / (lit 1 + e * ncos nu').
(** kepler.py:1382-1401 *)
Definition orbital_speed (r a mu : F) : F := nsqrt (mu * (lit 2 / r - lit 1 / a)).
(** kepler.py:1404-1421 ([a**3.0] is the cube) *)
Definition orbital_period (a mu : F) : F := lit 2 * npi * nsqrt (cube a / mu).
(** kepler.py:1424-1443 *)
Definition semi_major_axis (P mu : F) : F := ncbrt (sq (P / (lit 2 * npi)) * mu).
(** kepler.py:1446-1467 *)
Definition true_of_the_asymptote (e : F) (deg : bool) : F :=
  let th := narccos (lit (-1) / e) in if deg then degrees th else th.

(** 3x3 matrices as three rows *)
Definition mat3 := (F * F * F * (F * F * F) * (F * F * F))%type.
(** kepler.py:943-965 *)
Definition rot_mat_x (th : F) : mat3 :=
  ((lit 1, lit 0, lit 0), (lit 0, ncos th, - nsin th), (lit 0, nsin th, ncos th)).
(** kepler.py:968-990 *)
Definition rot_mat_y (th : F) : mat3 :=
  ((ncos th, lit 0, nsin th), (lit 0, lit 1, lit 0), (- nsin th, lit 0, ncos th)).
(** kepler.py:993-1015 *)
Definition rot_mat_z (th : F) : mat3 :=
  ((ncos th, - nsin th, lit 0), (nsin th, ncos th, lit 0), (lit 0, lit 0, lit 1)).
(** kepler.py:1614-1684 (for one orbit; arrays of angles expand along the last axis) *)
Definition euler_rotation_matrix (inc omega Omega : F) (deg : bool) : mat3 :=
  let omega := if deg then radians omega else omega in
  let inc := if deg then radians inc else inc in
  let Omega := if deg then radians Omega else Omega in
  let c1 := ncos Omega in let s1 := nsin Omega in
  let c2 := ncos inc in let s2 := nsin inc in
  let c3 := ncos omega in let s3 := nsin omega in
  ((c1*c3 - c2*s1*s3, - c1*s3 - c2*c3*s1, s1*s2),
   (c3*s1 + c1*c2*s3, c1*c2*c3 - s1*s3, - c1*s2),
   (s2*s3, c3*s2, c2)).

(** ** Stumpff functions on an array (kepler.py:1470-1611); [g] = contents of np.empty_like *)
Definition stumpff_masks (x : list F) : list bool * list bool * list bool :=
  (map (fun v => v >? lit 0) x, map (fun v => v =? lit 0) x, map (fun v => v <? lit 0) x).
(** kepler.py:1470-1495 *)
Definition stumpff0 (g : nat -> F) (x : list F) : list F :=
  let '(pos, zer, neg) := stumpff_masks x in
  let c := np_empty g (length x) in
  let c := mset pos (map (fun v => ncos (nsqrt v)) (mget pos x)) c in
  let c := mset_s zer (lit 1) c in
  mset neg (map (fun v => ncosh (nsqrt (- v))) (mget neg x)) c.
(** kepler.py:1498-1523 *)
Definition stumpff1 (g : nat -> F) (x : list F) : list F :=
  let '(pos, zer, neg) := stumpff_masks x in
  let c := np_empty g (length x) in
  let c := mset pos (map (fun v => nsin (nsqrt v) / nsqrt v) (mget pos x)) c in
  let c := mset_s zer (lit 1) c in
  mset neg (map (fun v => nsinh (nsqrt (- v)) / nsqrt (- v)) (mget neg x)) c.
(** kepler.py:1526-1551 *)
Definition stumpff2 (g : nat -> F) (x : list F) : list F :=
  let '(pos, zer, neg) := stumpff_masks x in
  let c := np_empty g (length x) in
  let c := mset pos (map (fun v => (lit 1 - ncos (nsqrt v)) / v) (mget pos x)) c in
  let c := mset_s zer (lit 0.5) c in
  mset neg (map (fun v => (lit 1 - ncosh (nsqrt (- v))) / v) (mget neg x)) c.
(** kepler.py:1554-1581 *)
Definition stumpff3 (g : nat -> F) (x : list F) : list F :=
  let '(pos, zer, neg) := stumpff_masks x in
  let c := np_empty g (length x) in
  let c := mset pos (map (fun v => (nsqrt v - nsin (nsqrt v)) / (nsqrt v * v)) (mget pos x)) c in
  let c := mset_s zer (lit 1 / lit 6) c in
  mset neg (map (fun v => (nsqrt (- v) - nsinh (nsqrt (- v))) / (nsqrt (- v) * v)) (mget neg x)) c.
(** kepler.py:1584-1611 *)
Definition stumpff (g0 g1 g2 g3 : nat -> F) (x : list F) :=
  (stumpff0 g0 x, stumpff1 g1 x, stumpff2 g2 x, stumpff3 g3 x).

(** ** Anomaly conversions *)

(** The common preamble of the anomaly functions, e.g. kepler.py:648-654: decide between
    the scalar and the array path, broadcast a scalar against an array
    ([np.ones(shape)*x], simplified to filling with [x]: 1.0*x = x), compare shapes. *)
Inductive pair2 :=
| PSc (x e : F)
| PArr (shape memx : list nat) (dx : list F) (meme : list nat) (de : list F).
Definition broadcast (x e : arg F) : res pair2 :=
  match x, e with
  | Sc v, Sc w => Ok (PSc v w)
  | Sc v, Arr s m d => Ok (PArr s (seq 0 (length d)) (map (fun _ => v) d) m d)
  | Arr s m d, Sc w => Ok (PArr s m d (seq 0 (length d)) (map (fun _ => w) d))
  | Arr s m d, Arr s' m' d' =>
      if shape_eqb s s' then Ok (PArr s m d m' d') else Raise TypeError
  end.

(** the three masks [e > 1], [e == 1], [e < 1] *)
Definition hyp_of (e : list F) := map (fun v => v >? lit 1) e.
Definition per_of (e : list F) := map (fun v => v =? lit 1) e.
Definition eli_of (e : list F) := map (fun v => v <? lit 1) e.

(** three masked assignments into an np.empty buffer (kepler.py:656-667, 715-726, 774-781) *)
Definition by_masks (g : nat -> F) (fh fp fe : F -> F -> F) (dx de : list F) : list F :=
  let E := np_empty g (length dx) in
  let E := mset (hyp_of de) (map2 fh (mget (hyp_of de) dx) (mget (hyp_of de) de)) E in
  let E := mset (per_of de) (map2 fp (mget (per_of de) dx) (mget (per_of de) de)) E in
  mset (eli_of de) (map2 fe (mget (eli_of de) dx) (mget (eli_of de) de)) E.
(** the scalar [if e > 1 ... elif e == 1 ... else ...] (kepler.py:669-674 etc.) *)
Definition by_cases (fh fp fe : F -> F -> F) (x e : F) : F :=
  if e >? lit 1 then fh x e else if e =? lit 1 then fp x e else fe x e.

Definition wrap2pi (x : F) : F := nmod (x + n2pi) n2pi.

(** kepler.py:661-667 / 670-674 *)
Definition t2e_hyp (nu e : F) : F :=
  lit 2 * narctanh (nsqrt ((e - lit 1)/(e + lit 1)) * ntan (nu * lit 0.5)).
Definition t2e_per (nu e : F) : F := ntan (nu * lit 0.5).
Definition t2e_eli (nu e : F) : F :=
  lit 2 * narctan (nsqrt ((lit 1 - e)/(lit 1 + e)) * ntan (nu * lit 0.5)).
(** kepler.py:720-726 / 729-733 *)
Definition e2t_hyp (E e : F) : F :=
  lit 2 * narctan (nsqrt ((e + lit 1)/(e - lit 1)) * ntanh (E * lit 0.5)).
Definition e2t_per (E e : F) : F := lit 2 * narctan E.
Definition e2t_eli (E e : F) : F :=
  lit 2 * narctan (nsqrt ((lit 1 + e)/(lit 1 - e)) * ntan (E * lit 0.5)).
(** kepler.py:779-781 / 784-788 *)
Definition e2m_hyp (E e : F) : F := e * nsinh E - E.
Definition e2m_per (E e : F) : F := E + cube E / lit 3.
Definition e2m_eli (E e : F) : F := E - e * nsin E.

Definition in_rad (deg : bool) (x : arg F) : arg F := if deg then amap radians x else x.
Definition out_deg (deg : bool) (x : arg F) : arg F := if deg then amap degrees x else x.

(** kepler.py:625-681 *)
Definition true_to_eccentric (g : nat -> F) (nu e : arg F) (deg : bool) : res (arg F) :=
  rlet p := broadcast (in_rad deg nu) e in
  Ok (out_deg deg (amap wrap2pi
    match p with
    | PSc x e => Sc (by_cases t2e_hyp t2e_per t2e_eli x e)
    | PArr s _ dx _ de => fresh s (by_masks g t2e_hyp t2e_per t2e_eli dx de)
    end)).
(** kepler.py:684-739 *)
Definition eccentric_to_true (g : nat -> F) (E e : arg F) (deg : bool) : res (arg F) :=
  rlet p := broadcast (in_rad deg E) e in
  Ok (out_deg deg (amap wrap2pi
    match p with
    | PSc x e => Sc (by_cases e2t_hyp e2t_per e2t_eli x e)
    | PArr s _ dx _ de => fresh s (by_masks g e2t_hyp e2t_per e2t_eli dx de)
    end)).
(** kepler.py:742-792 *)
Definition eccentric_to_mean (g : nat -> F) (E e : arg F) (deg : bool) : res (arg F) :=
  rlet p := broadcast (in_rad deg E) e in
  Ok (out_deg deg
    match p with
    | PSc x e => Sc (by_cases e2m_hyp e2m_per e2m_eli x e)
    | PArr s _ dx _ de => fresh s (by_masks g e2m_hyp e2m_per e2m_eli dx de)
    end).
(** kepler.py:795-823; [g1], [g2]: the two np.empty buffers *)
Definition true_to_mean (g1 g2 : nat -> F) (nu e : arg F) (deg : bool) : res (arg F) :=
  rlet E := true_to_eccentric g1 (in_rad deg nu) e false in
  rlet M := eccentric_to_mean g2 E e false in
  Ok (out_deg deg M).

(** ** The Laguerre solver *)
Record solver_options := { tol : F; max_iter : Z; degree : F }.
(** defaults, kepler.py:1018 and orbit.py:110-114 *)
Definition default_options : solver_options :=
  {| tol := lit 1e-12; max_iter := 5000; degree := lit 5 |}.

Section Laguerre.
Variables (M e : F) (o : solver_options).
(** kepler.py:1075-1092 *)
Definition lag_f (E : F) : F :=
  if e >? lit 1 then M + E - e * nsinh E else M - E + e * nsin E.
Definition lag_fp (E : F) : F :=
  if e >? lit 1 then lit 1 - e * ncosh E else e * ncos E - lit 1.
Definition lag_fpp (E : F) : F :=
  if e >? lit 1 then (- e) * nsinh E else (- e) * nsin E.
(** kepler.py:1103-1117: one iteration, the new [E] *)
Definition lag_step (E f_eval : F) : F :=
  let n := degree o in
  let fp_eval := lag_fp E in
  let sqrt_term := nsqrt (nabs (sq (n - lit 1) * sq fp_eval
                                - n * (n - lit 1) * f_eval * lag_fpp E)) in
  let denom_p := fp_eval + sqrt_term in
  let denom_m := fp_eval - sqrt_term in
  let delta := if nabs denom_p >? nabs denom_m then n * f_eval / denom_p
               else n * f_eval / denom_m in
  E - delta.
(** kepler.py:1100-1122, [None] = out of fuel (excluded by [laguerre_total]) *)
Fixpoint lag_loop (fuel : nat) (E f_eval : F) (it_num : Z) : option (F * Z) :=
  if nabs f_eval >=? tol o then
    match fuel with
    | O => None
    | S fuel' =>
        let it' := (it_num + 1)%Z in
        let E' := lag_step E f_eval in
        let f' := lag_f E' in
        if (it' >=? max_iter o)%Z then Some (E', it') else lag_loop fuel' E' f' it'
    end
  else Some (E, it_num).
End Laguerre.
(** kepler.py:1018-1124; the fuel is enough by theorem [laguerre_total] *)
Definition lag_fuel (o : solver_options) : nat := S (Z.to_nat (max_iter o)).
Definition laguerre_solve_kepler_opt (E0 M e : F) (o : solver_options) : option (F * Z) :=
  lag_loop M e o (lag_fuel o) E0 (lag_f M e E0) 0%Z.
Definition laguerre_solve_kepler (E0 M e : F) (o : solver_options) : F * Z :=
  match laguerre_solve_kepler_opt E0 M e o with Some r => r | None => (nan, (-1)%Z) end.

(** kepler.py:1127-1148 *)
Definition get_hyperbolic_kepler_guess (M e : F) : F := nlog (lit 2 * M / e + lit 1.8).
(** kepler.py:1151-1186 *)
Definition get_kepler_guess (M e : F) : F :=
  let M' := if M >? npi then n2pi - M else M in
  let E0 := if M' <? lit 0.25 then
              M' + e * nsin M' / (lit 1 - nsin (M' + e) + nsin M')
            else if M' <? lit 2 then M' + e
            else M' + (e * (npi - M')) / (lit 1 + e) in
  if M >? npi then n2pi - E0 else E0.
(** kepler.py:1233-1236 / 1241-1244 *)
Definition guess_el (M e : F) : F :=
  if e >? lit 1 then get_hyperbolic_kepler_guess M e else get_kepler_guess M e.
(** kepler.py:1189-1246; the element loop walks M and e in memory order and fills a fresh
    C-ordered array; a zero-size array makes np.nditer raise ValueError *)
Definition kepler_guess (M e : arg F) : res (arg F) :=
  rlet p := broadcast M e in
  match p with
  | PSc M e => Ok (Sc (guess_el M e))
  | PArr s mM dM me de =>
      if (length dM =? 0)%nat then Raise ValueError
      else Ok (fresh s (map2 guess_el (nditer nan mM dM) (nditer nan me de)))
  end.

(** kepler.py:1315-1318 / 1333-1336 *)
Definition parabolic_m2e (M : F) : F :=
  let A := lit 3 / lit 2 * M in
  let B := ncbrt (A + nsqrt (sq A + lit 1)) in
  B - lit 1 / B.
(** kepler.py:1311-1324 (loop body) and 1330-1339 (scalar path after the e == 0 shortcut) *)
Definition m2e_el (o : solver_options) (M e : F) : F :=
  if e >? lit 1 then fst (laguerre_solve_kepler (get_hyperbolic_kepler_guess M e) M e o)
  else if e =? lit 1 then parabolic_m2e M
  else fst (laguerre_solve_kepler (get_kepler_guess M e) M e o).
(** kepler.py:1249-1344 *)
Definition mean_to_eccentric (M e : arg F) (o : solver_options) (deg : bool) : res (arg F) :=
  rlet p := broadcast (in_rad deg M) e in
  match p with
  | PSc M' e =>
      if e =? lit 0 then Ok M
      else Ok (out_deg deg (Sc (m2e_el o M' e)))
  | PArr s mM dM me de =>
      if (length dM =? 0)%nat then Ok (fresh s [])
      else Ok (out_deg deg (fresh s (map2 (m2e_el o) (nditer nan mM dM) (nditer nan me de))))
  end.
(** kepler.py:1347-1379 *)
Definition mean_to_true (g : nat -> F) (M e : arg F) (o : solver_options) (deg : bool) : res (arg F) :=
  rlet E := mean_to_eccentric (in_rad deg M) e o false in
  rlet nu := eccentric_to_true g E e false in
  Ok (out_deg deg nu).
End Kepler.
Arguments pair2 F : clear implicits.
Arguments mat3 F : clear implicits.
Arguments solver_options F : clear implicits.
