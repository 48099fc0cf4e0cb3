(** * Model of the conversions of /repo/pyorb/kepler.py
    (cart_to_kep, kep_to_cart, kep_to_equi, equi_to_kep, cart_to_equi, equi_to_cart,
    kep_equivalent).  Line numbers refer to /repo/pyorb/kepler.py.

    Arrays of shape (N,) are lists; arrays of shape (3,N) are lists of triples; arrays of
    shape (6,N) are lists of [six].  An expression built from element-wise operations on
    arrays of one length is written as one [map] of the scalar expression; boolean-mask
    reads and writes are kept as [mget]/[mset]. *)
From Coq Require Import List Bool ZArith QArith.
From Verif Require Import NP KeplerModel.
Import ListNotations.

(** What a caller may hand to the conversion functions.  Arrays with three or more
    dimensions are not modelled. *)
Inductive kinput (F : Type) :=
| KNotArray                    (* not an ndarray                              *)
| KZeroDim                     (* 0-dimensional ndarray                       *)
| KBadRows (shape : list nat)  (* ndarray whose first dimension is not 6      *)
| KVec (c : six F)             (* shape (6,)                                  *)
| KMat (l : list (six F)).     (* shape (6, N)                                *)
Arguments KNotArray {F}. Arguments KZeroDim {F}. Arguments KBadRows {F} _.
Arguments KVec {F} _. Arguments KMat {F} _.
(** the gravitational parameter: a float or an (N,) array *)
Inductive muarg (F : Type) := MuS (x : F) | MuV (l : list F).
Arguments MuS {F} _. Arguments MuV {F} _.

Section Conv.
Context {F : Type} `{NP F}.
Local Open Scope np_scope.

Definition v3 := (F * F * F)%type.
Definition c0 (v : v3) : F := fst (fst v).
Definition c1 (v : v3) : F := snd (fst v).
Definition c2 (v : v3) : F := snd v.
Definition vmul (a b : v3) : v3 := (c0 a * c0 b, c1 a * c1 b, c2 a * c2 b).
Definition vsub (a b : v3) : v3 := (c0 a - c0 b, c1 a - c1 b, c2 a - c2 b).
Definition vdivs (a : v3) (s : F) : v3 := (c0 a / s, c1 a / s, c2 a / s).
Definition vscale (s : F) (a : v3) : v3 := (s * c0 a, s * c1 a, s * c2 a).
(** np.sum(..., axis=0) *)
Definition vsum (a : v3) : F := c0 a + c1 a + c2 a.
(** np.linalg.norm(..., axis=0) *)
Definition vnorm (a : v3) : F := nsqrt (vsum (vmul a a)).
(** np.cross *)
Definition vcross (a b : v3) : v3 :=
  (c1 a * c2 b - c2 a * c1 b, c2 a * c0 b - c0 a * c2 b, c0 a * c1 b - c1 a * c0 b).

(** kepler.py:402 *)
Definition ecc_el (mu vn rn vr : F) (r v : v3) : v3 :=
  vscale (lit 1 / mu) (vsub (vscale (sq vn - mu/rn) r) (vscale (rn * vr) v)).

(** [x\[m\] = 2.0*np.pi - x\[m\]] *)
Definition flip2pi (m : list bool) (x : list F) : list F :=
  mset m (map (fun v => n2pi - v) (mget m x)) x.
(** kepler.py:475-476, 514-515 *)
Definition clamp (x : list F) : list F :=
  let x := mset_s (map (fun v => v >? lit 1) x) (lit 1) x in
  mset_s (map (fun v => v <? lit (-1)) x) (lit (-1)) x.

(** kepler.py:388-541: the (6,N) computation of cart_to_kep.  [g k]: contents of the k-th
    buffer obtained from np.empty / np.empty_like. *)
Definition cart_to_kep_cols (g : nat -> nat -> F) (cols : list (six F)) (mu : list F)
    (deg : bool) : list (six F) :=
  let N := length cols in
  let ez : v3 := (lit 0, lit 0, lit 1) in                                   (* 388 *)
  let o3 := np_empty (g 3%nat) N in                                         (* 390 *)
  let o4 := np_empty (g 4%nat) N in
  let r := map (fun c => (s0 c, s1 c, s2 c)) cols in                        (* 392 *)
  let v := map (fun c => (s3 c, s4 c, s5 c)) cols in
  let rn := map vnorm r in
  let vn := map vnorm v in
  let vr := map3 (fun r rn v => vsum (vmul (vdivs r rn) v)) r rn v in       (* 397 *)
  let epsilon := map3 (fun vn mu rn => sq vn * lit 0.5 - mu/rn) vn mu rn in (* 399 *)
  let e := map6l ecc_el mu vn rn vr r v in                                  (* 402 *)
  let o1 := map vnorm e in                                                  (* 403 *)
  let e_hyp := map (fun x => x >=? lit 1) o1 in                             (* 410 *)
  let o0 := map2 (fun mu eps => (- mu)/(lit 2 * eps)) mu epsilon in
  let o0 := mset e_hyp (map (fun x => - x) (mget e_hyp o0)) o0 in           (* 412 *)
  let h := map2 vcross r v in                                               (* 415 *)
  let hn := map vnorm h in
  let o2 := map2 (fun h hn => narccos (c2 h/hn)) h hn in                    (* 417 *)
  let eg := map (fun x => x >? e_lim) o1 in                                 (* 420 *)
  let ig := mand (map (fun x => x >? i_lim) o2) (map (fun x => x <? npi - i_lim) o2) in
  let el := mnot eg in
  let il := mnot ig in
  let eg_ig := mand eg ig in
  let eg_il := mand eg il in
  let el_ig := mand el ig in
  let el_il := mand el il in
  let n := np_empty (fun j => (g 10 j, g 11 j, g 12 j)%nat) N in            (* 440 *)
  let nn := np_empty (g 13%nat) N in
  let n := mset ig (map (vcross ez) (mget ig h)) n in                       (* 442 *)
  let nn := mset ig (map vnorm (mget ig n)) nn in
  let ny_neg := mand (map (fun n => c1 n <? lit 0) n) ig in                 (* 446 *)
  let o4 := mset ig (map2 (fun n nn => narccos (c0 n/nn)) (mget ig n) (mget ig nn)) o4 in
  let o4 := flip2pi ny_neg o4 in
  let o4 := mset_s il (lit 0) o4 in                                         (* 451 *)
  let o3 := mset_s el (lit 0) o3 in                                         (* 455 *)
  let cos_om := np_empty (g 14%nat) N in                                    (* 459 *)
  let cos_om := mset eg_ig
      (map4 (fun n e nn o1 => vsum (vmul n e) / (nn * o1))
            (mget eg_ig n) (mget eg_ig e) (mget eg_ig nn) (mget eg_ig o1)) cos_om in
  let cos_om := mset eg_il
      (map2 (fun e o1 => c0 e / o1) (mget eg_il e) (mget eg_il o1)) cos_om in
  let cos_om := mget eg cos_om in                                           (* 472 *)
  let cos_om := clamp cos_om in
  let o3 := mset eg (map narccos cos_om) o3 in                              (* 478 *)
  let ez_neg := mand (map (fun e => c2 e <? lit 0) e) eg_ig in              (* 481 *)
  let o3 := flip2pi ez_neg o3 in
  let ey_neg := mand (map (fun x => x <? npi * lit 0.5) o2) eg_il in        (* 486 *)
  let ey_neg2 := mand ey_neg (map (fun e => c1 e <? lit 0) e) in
  let o3 := flip2pi ey_neg2 o3 in
  let ey_neg := mand (map (fun x => x >? npi * lit 0.5) o2) eg_il in        (* 491 *)
  let ey_neg2 := mand ey_neg (map (fun e => c1 e >=? lit 0) e) in
  let o3 := flip2pi ey_neg2 o3 in
  let cos_nu := np_empty (g 15%nat) N in                                    (* 496 *)
  let cos_nu := mset eg
      (map4 (fun e r o1 rn => vsum (vmul e r) / (o1 * rn))
            (mget eg e) (mget eg r) (mget eg o1) (mget eg rn)) cos_nu in
  let cos_nu := mset el_ig
      (map4 (fun n nn r rn => vsum (vmul (vdivs n nn) (vdivs r rn)))
            (mget el_ig n) (mget el_ig nn) (mget el_ig r) (mget el_ig rn)) cos_nu in
  let cos_nu := mset el_il
      (map2 (fun r rn => c0 r / rn) (mget el_il r) (mget el_il rn)) cos_nu in
  let cos_nu := clamp cos_nu in
  let o5 := map narccos cos_nu in                                           (* 517 *)
  let tmp := mand (map (fun x => x <? lit 0) vr) eg in                      (* 521 *)
  let o5 := flip2pi tmp o5 in
  let tmp := mand (map (fun r => c2 r <? lit 0) r) el_ig in                 (* 525 *)
  let o5 := flip2pi tmp o5 in
  let tmp := mand (map (fun x => x <? npi * lit 0.5) o2) el_il in           (* 530 *)
  let tmp2 := mand tmp (map (fun r => c1 r <? lit 0) r) in
  let o5 := flip2pi tmp2 o5 in
  let tmp := mand (map (fun x => x >? npi * lit 0.5) o2) el_il in           (* 535 *)
  let tmp2 := mand tmp (map (fun r => c1 r >=? lit 0) r) in
  let o5 := flip2pi tmp2 o5 in
  let d := fun row => if deg then map degrees row else row in               (* 540 *)
  zip6 o0 o1 (d o2) (d o3) (d o4) (d o5).

(** broadcasting of [mu] against the (N,) rows in cart_to_kep: a float or a length-1 array
    is stretched, any other mismatch raises ValueError *)
Definition mu_bcast (n : nat) (mu : muarg F) : res (list F) :=
  match mu with
  | MuS x => Ok (repeat x n)
  | MuV l => if (length l =? n)%nat then Ok l
             else match l with [x] => Ok (repeat x n) | _ => Raise ValueError end
  end.

(** kepler.py:337-547.  First component: the caller's array after the call (its shape is
    set to (6,1) at line 380 and only restored at line 544). *)
Definition cart_to_kep (g : nat -> nat -> F) (cart : kinput F) (mu : muarg F) (deg : bool)
  : kinput F * res (kinput F) :=
  match cart with
  | KNotArray => (cart, Raise TypeError)
  | KZeroDim => (cart, Raise IndexError)              (* cart.shape[0] *)
  | KBadRows _ => (cart, Raise ValueError)
  | KVec c =>
      match mu_bcast 1 mu with
      | Raise x => (KMat [c], Raise x)
      | Ok mus => match cart_to_kep_cols g [c] mus deg with
                  | [o] => (KVec c, Ok (KVec o))
                  | _ => (KVec c, Raise ValueError)   (* impossible: o has one column *)
                  end
      end
  | KMat l =>
      match mu_bcast (length l) mu with
      | Raise x => (cart, Raise x)
      | Ok mus => (cart, Ok (KMat (cart_to_kep_cols g l mus deg)))
      end
  end.

(** ** kep_to_cart *)
Definition ang6 (f : F -> F) (c : six F) : six F :=
  mk6 (s0 c) (s1 c) (f (s2 c)) (f (s3 c)) (f (s4 c)) (f (s5 c)).
Definition m00 (m : mat3 F) : F := fst (fst (fst (fst m))).
Definition m01 (m : mat3 F) : F := snd (fst (fst (fst m))).
Definition m10 (m : mat3 F) : F := fst (fst (snd (fst m))).
Definition m11 (m : mat3 F) : F := snd (fst (snd (fst m))).
Definition m20 (m : mat3 F) : F := fst (fst (snd m)).
Definition m21 (m : mat3 F) : F := snd (fst (snd m)).
Definition m02 (m : mat3 F) : F := snd (fst (fst m)).
Definition m12 (m : mat3 F) : F := snd (snd (fst m)).
Definition m22 (m : mat3 F) : F := snd (snd m).

(** kepler.py:1736-1750: the argument after the in-place edits (radians, negated a) *)
Definition kep_edit (deg : bool) (cols : list (six F)) : list (six F) :=
  let cols := if deg then map (ang6 radians) cols else cols in
  let e := map s1 cols in
  let a := map s0 cols in
  let hyp := map (fun x => x >? lit 1) e in
  let a := mset hyp (map (fun x => x * lit (-1)) (mget hyp a)) a in         (* 1750 *)
  zip6 a e (map s2 cols) (map s3 cols) (map s4 cols) (map s5 cols).
(** kepler.py:1739-1779 (from the edited array) *)
Definition kep_to_cart_cols (g : nat -> F) (kep : list (six F)) (mu : list F) : list (six F) :=
  let nu := map s5 kep in
  let omega := map s3 kep in
  let asc_node := map s4 kep in
  let inc := map s2 kep in
  let e := map s1 kep in
  let a := map s0 kep in
  let per := map (fun x => x =? lit 1) e in                                 (* 1746 *)
  let nper := mnot per in
  let h := np_empty g (length kep) in                                       (* 1752 *)
  let h := mset nper (map3 orbit_total_angular_momentum
                           (mget nper a) (mget nper e) (mget nper mu)) h in
  let h := mset per (map2 parabolic_total_angular_momentum (mget per a) (mget per mu)) h in
  let rn := map4 (fun h mu e nu => orbital_distance h mu e nu false) h mu e nu in
  let R := map3 (fun i o O => euler_rotation_matrix i o O false) inc omega asc_node in
  let rx := map2 (fun rn nu => rn * ncos nu) rn nu in
  let ry := map2 (fun rn nu => rn * nsin nu) rn nu in
  let row (a b : mat3 F -> F) := map3 (fun R x y => a R * x + b R * y) R in
  let vn := map2 (fun mu h => mu / h) mu h in                               (* 1769 *)
  let vx := map2 (fun vn nu => (- vn) * nsin nu) vn nu in
  let vy := map3 (fun vn e nu => vn * (e + ncos nu)) vn e nu in
  zip6 (row m00 m01 rx ry) (row m10 m11 rx ry) (row m20 m21 rx ry)
       (row m00 m01 vx vy) (row m10 m11 vx vy) (row m20 m21 vx vy).
(** kepler.py:1785-1786 *)
Definition kep_restore (deg : bool) (cols : list (six F)) : list (six F) :=
  if deg then map (ang6 degrees) cols else cols.

(** mu as used by kep_to_cart: a float is expanded (1732); an array must have N entries,
    because it is indexed with a boolean mask of length N (1753) *)
Definition mu_mask (n : nat) (mu : muarg F) : res (list F) :=
  match mu with
  | MuS x => Ok (repeat x n)
  | MuV l => if (length l =? n)%nat then Ok l else Raise IndexError
  end.

(** kepler.py:1687-1788.  First component: the caller's array after the call. *)
Definition kep_to_cart (g : nat -> F) (kep : kinput F) (mu : muarg F) (deg : bool)
  : kinput F * res (kinput F) :=
  match kep with
  | KNotArray => (kep, Raise TypeError)
  | KZeroDim => (kep, Raise IndexError)
  | KBadRows _ => (kep, Raise ValueError)
  | KVec c =>
      let k := kep_edit deg [c] in
      match mu_mask 1 mu with
      | Raise x => (KMat k, Raise x)
      | Ok mus => match kep_to_cart_cols g k mus, kep_restore deg k with
                  | [x], [k'] => (KVec k', Ok (KVec x))
                  | _, _ => (KMat k, Raise ValueError)  (* impossible: one column *)
                  end
      end
  | KMat l =>
      let k := kep_edit deg l in
      match mu_mask (length l) mu with
      | Raise x => (KMat k, Raise x)
      | Ok mus => (KMat (kep_restore deg k), Ok (KMat (kep_to_cart_cols g k mus)))
      end
  end.

(** ** Equinoctial elements; the columns of a (6,N) array, a (6,) array is one column *)
Definition circ (deg : bool) : F := if deg then lit 360 else n2pi.
(** kepler.py:234-278 *)
Definition kep_to_equi_cols (deg : bool) (kep : list (six F)) : list (six F) :=
  let om_bar := map2 (fun x y => x + y) (map s3 kep) (map s4 kep) in
  let OM := map s4 kep in
  let hi := map (fun x => lit 0.5 * x) (map s2 kep) in
  let lambda0 := map2 (fun x y => x + y) om_bar (map s5 kep) in
  let d := fun row => if deg then map radians row else row in
  let om_bar := d om_bar in
  let OM := d OM in
  let hi := d hi in
  zip6 (map s0 kep)
       (map2 (fun e o => e * nsin o) (map s1 kep) om_bar)
       (map2 (fun e o => e * ncos o) (map s1 kep) om_bar)
       (map2 (fun hi O => ntan hi * nsin O) hi OM)
       (map2 (fun hi O => ntan hi * ncos O) hi OM)
       (map (fun l => nmod (l + circ deg) (circ deg)) lambda0).
(** kepler.py:281-334; [g k]: contents of row k of the np.empty buffer *)
Definition equi_to_kep_cols (g : nat -> nat -> F) (deg : bool) (equi : list (six F))
  : list (six F) :=
  let N := length equi in
  let k3 := np_empty (g 3%nat) N in
  let k5 := np_empty (g 5%nat) N in
  let k0 := map s0 equi in
  let k1 := map2 (fun h k => nsqrt (sq h + sq k)) (map s1 equi) (map s2 equi) in  (* 310 *)
  let om_bar := map2 narctan2 (map s1 equi) (map s2 equi) in
  let hi := map2 (fun p q => narctan (nsqrt (sq p + sq q))) (map s3 equi) (map s4 equi) in
  let k2 := map (fun x => lit 2 * x) hi in
  let k4 := map2 narctan2 (map s3 equi) (map s4 equi) in                          (* 316 *)
  let d := fun row => if deg then map degrees row else row in
  let om_bar := d om_bar in
  let k4 := d k4 in
  let k2 := d k2 in
  let eg := map (fun x => x >? e_lim) k1 in                                       (* 324 *)
  let el := mnot eg in
  let k3 := mset eg (map2 (fun x y => x - y) (mget eg om_bar) (mget eg k4)) k3 in
  let k3 := mset_s el (lit 0) k3 in
  let lam := map s5 equi in
  let k5 := mset eg (map2 (fun x y => x - y) (mget eg lam) (mget eg om_bar)) k5 in
  let k5 := mset el (map2 (fun x y => x - y) (mget el lam) (mget el k4)) k5 in
  let w := map (fun x => nmod (x + circ deg) (circ deg)) in                       (* 333 *)
  zip6 k0 k1 k2 (w k3) (w k4) (w k5).

(** array or vector, for the functions without validation; anything else raises TypeError
    (a simplification: the exact exception is not modelled) *)
Definition on_cols (f : list (six F) -> res (list (six F))) (x : kinput F) : res (kinput F) :=
  match x with
  | KVec c => rlet r := f [c] in
              match r with [y] => Ok (KVec y) | _ => Raise ValueError (* impossible *) end
  | KMat l => rlet r := f l in Ok (KMat r)
  | _ => Raise TypeError
  end.
Definition kep_to_equi (kep : kinput F) (deg : bool) : res (kinput F) :=
  on_cols (fun l => Ok (kep_to_equi_cols deg l)) kep.
Definition equi_to_kep (g : nat -> nat -> F) (equi : kinput F) (deg : bool) : res (kinput F) :=
  on_cols (fun l => Ok (equi_to_kep_cols g deg l)) equi.

Definition set5 (c : six F) (x : F) : six F := mk6 (s0 c) (s1 c) (s2 c) (s3 c) (s4 c) x.
(** the data of an array/scalar result *)
Definition adata (x : arg F) : list F := match x with Sc v => [v] | Arr _ _ d => d end.
(** [kep\[K_nu, eg\] = f(kep\[K_nu, eg\], kep\[K_e, eg\])], kepler.py:185-186, 224-230 *)
Definition set_nu_masked (f : arg F -> arg F -> res (arg F)) (kep : list (six F))
  : res (list (six F)) :=
  let eg := map (fun c => s1 c >? e_lim) kep in
  let nu := mget eg (map s5 kep) in
  let e := mget eg (map s1 kep) in
  rlet x := f (fresh [length nu] nu) (fresh [length e] e) in
  Ok (map2 set5 kep (mset eg (adata x) (map s5 kep))).
(** kepler.py:150-187; first component: the caller's array after the call *)
Definition cart_to_equi (g : nat -> nat -> F) (g1 g2 : nat -> F) (cart : kinput F)
    (mu : muarg F) (deg : bool) : kinput F * res (kinput F) :=
  let '(cart', kep) := cart_to_kep g cart mu deg in
  (cart', rlet k := kep in
          rlet k := on_cols (set_nu_masked (fun nu e => true_to_mean g1 g2 nu e deg)) k in
          kep_to_equi k deg).
(** kepler.py:190-231 (the argument is not modified: kep_to_cart edits the fresh [kep]) *)
Definition equi_to_cart (g : nat -> nat -> F) (g1 g2 : nat -> F) (equi : kinput F)
    (mu : muarg F) (o : solver_options F) (deg : bool) : res (kinput F) :=
  rlet k := equi_to_kep g equi deg in
  rlet k := on_cols (set_nu_masked (fun M e => mean_to_true g1 M e o deg)) k in
  snd (kep_to_cart g2 k mu deg).

(** ** kep_equivalent, kepler.py:550-582 *)
Definition isfinite (x : F) : bool := negb (isnan (x - x)).
(** np.isclose(a, b) with the default rtol = 1e-5, atol = 1e-8 *)
Definition isclose (a b : F) : bool :=
  (nabs (a - b) <=? (lit 1e-8 + lit 1e-5 * nabs b)) && isfinite b || (a =? b).
Definition allclose6 (a b : six F) : bool :=
  isclose (s0 a) (s0 b) && isclose (s1 a) (s1 b) && isclose (s2 a) (s2 b)
  && isclose (s3 a) (s3 b) && isclose (s4 a) (s4 b) && isclose (s5 a) (s5 b).
Definition kep_equivalent_vec (k1 k2 : six F) : bool :=
  if allclose6 k1 k2 then true
  else if negb (isclose (s0 k1) (s0 k2)) then false
  else if (if (s1 k1 <? e_lim) && (s1 k2 <? e_lim)
           then negb (isclose (s3 k1 + s5 k1) (s3 k2 + s5 k2))
           else negb (isclose (s3 k1) (s3 k2)) || negb (isclose (s5 k1) (s5 k2)))
       then false
  else if ((s2 k1 >? i_lim) || (s2 k2 >? i_lim))
          && (negb (isclose (s2 k1) (s2 k2)) || negb (isclose (s4 k1) (s4 k2)))
       then false
  else true.
Definition kep_equivalent (k1 k2 : kinput F) : res bool :=
  match k1, k2 with
  | KVec a, KVec b => Ok (kep_equivalent_vec a b)
  | KMat _, KVec _ | KVec _, KMat _ | KMat _, KMat _ => Raise ValueError
  | _, _ => Raise TypeError
  end.
End Conv.
Arguments v3 F : clear implicits.
