(** * Integer arrays as arguments of the conversions of /repo/pyorb/kepler.py

    ConvModel.v and KeplerModel.v describe the conversions for float64 arrays.  The code allocates
    its result buffers with the dtype of an argument (kepler.py:267, 307, 390, 656, 715, 774, 1297,
    1734, 1752, 1764, 1773), so that with an integer array every store into such a buffer drops the
    fraction.  This file repeats these functions with the stores made explicit: [c] is applied to
    every value stored into a buffer of the dtype of the argument.  For float64 [c] is the identity
    and the functions are those of the main model (theorem [C67_float]).

    Simplified: integers are not bounded (no overflow), unsigned and float32 arrays are left out.
    Line numbers refer to /repo/pyorb/kepler.py. *)
From Coq Require Import List Bool ZArith QArith.
From Verif Require Import NP KeplerModel ConvModel.
Import ListNotations.

Inductive dtype := DFloat | DInt.
(** the dtype of a product (np.ones(shape, dtype=d) * x, e.g. 650) *)
Definition dmul (a b : dtype) : dtype := match a, b with DInt, DInt => DInt | _, _ => DFloat end.

Section Dtype.
Context {F : Type} `{NP F}.
Local Open Scope np_scope.

(** ** The (6,N) conversions *)
Section Store.
Variable c : F -> F.
Definition flip2pi_d (m : list bool) (x : list F) : list F :=
  mset m (map (fun v => c (n2pi - v)) (mget m x)) x.
(** kepler.py:388-541 *)
Definition cart_to_kep_cols_d (g : nat -> nat -> F) (cols : list (six F)) (mu : list F)
    (deg : bool) : list (six F) :=
  let N := length cols in
  let ez : v3 F := (lit 0, lit 0, lit 1) in                                 (* 388 *)
  let o3 := np_empty (g 3%nat) N in                                         (* 390 *)
  let o4 := np_empty (g 4%nat) N in
  let r := map (fun c => (s0 c, s1 c, s2 c)) cols in                        (* 392 *)
  let v := map (fun c => (s3 c, s4 c, s5 c)) cols in
  let rn := map vnorm r in
  let vn := map vnorm v in
  let vr := map3 (fun r rn v => vsum (vmul (vdivs r rn) v)) r rn v in       (* 397 *)
  let epsilon := map3 (fun vn mu rn => sq vn * lit 0.5 - mu/rn) vn mu rn in (* 399 *)
  let e := map6l ecc_el mu vn rn vr r v in                                  (* 402 *)
  let o1 := map (fun e => c (vnorm e)) e in                                 (* 403 *)
  let e_hyp := map (fun x => x >=? lit 1) o1 in                             (* 410 *)
  let o0 := map2 (fun mu eps => c ((- mu)/(lit 2 * eps))) mu epsilon in
  let o0 := mset e_hyp (map (fun x => c (- x)) (mget e_hyp o0)) o0 in       (* 412 *)
  let h := map2 vcross r v in                                               (* 415 *)
  let hn := map vnorm h in
  let o2 := map2 (fun h hn => c (narccos (c2 h/hn))) h hn in                (* 417 *)
  let eg := map (fun x => x >? e_lim) o1 in                                 (* 420 *)
  let ig := mand (map (fun x => x >? i_lim) o2) (map (fun x => x <? npi - i_lim) o2) in
  let el := mnot eg in
  let il := mnot ig in
  let eg_ig := mand eg ig in
  let eg_il := mand eg il in
  let el_ig := mand el ig in
  let el_il := mand el il in
  let n := np_empty (fun j => (g 10 j, g 11 j, g 12 j)%nat) N in            (* 440: dtype of h *)
  let nn := np_empty (g 13%nat) N in                                        (* 441: float64 *)
  let n := mset ig (map (fun h => let w := vcross ez h in (c (c0 w), c (c1 w), c (c2 w)))
                        (mget ig h)) n in                                   (* 442 *)
  let nn := mset ig (map vnorm (mget ig n)) nn in
  let ny_neg := mand (map (fun n => c1 n <? lit 0) n) ig in                 (* 446 *)
  let o4 := mset ig (map2 (fun n nn => c (narccos (c0 n/nn))) (mget ig n) (mget ig nn)) o4 in
  let o4 := flip2pi_d ny_neg o4 in
  let o4 := mset_s il (c (lit 0)) o4 in                                     (* 451 *)
  let o3 := mset_s el (c (lit 0)) o3 in                                     (* 455 *)
  let cos_om := np_empty (g 14%nat) N in                                    (* 459: float64 *)
  let cos_om := mset eg_ig
      (map4 (fun n e nn o1 => vsum (vmul n e) / (nn * o1))
            (mget eg_ig n) (mget eg_ig e) (mget eg_ig nn) (mget eg_ig o1)) cos_om in
  let cos_om := mset eg_il
      (map2 (fun e o1 => c0 e / o1) (mget eg_il e) (mget eg_il o1)) cos_om in
  let cos_om := mget eg cos_om in                                           (* 472 *)
  let cos_om := clamp cos_om in
  let o3 := mset eg (map (fun x => c (narccos x)) cos_om) o3 in             (* 478 *)
  let ez_neg := mand (map (fun e => c2 e <? lit 0) e) eg_ig in              (* 481 *)
  let o3 := flip2pi_d ez_neg o3 in
  let ey_neg := mand (map (fun x => x <? npi * lit 0.5) o2) eg_il in        (* 486 *)
  let ey_neg2 := mand ey_neg (map (fun e => c1 e <? lit 0) e) in
  let o3 := flip2pi_d ey_neg2 o3 in
  let ey_neg := mand (map (fun x => x >? npi * lit 0.5) o2) eg_il in        (* 491 *)
  let ey_neg2 := mand ey_neg (map (fun e => c1 e >=? lit 0) e) in
  let o3 := flip2pi_d ey_neg2 o3 in
  let cos_nu := np_empty (g 15%nat) N in                                    (* 496: float64 *)
  let cos_nu := mset eg
      (map4 (fun e r o1 rn => vsum (vmul e r) / (o1 * rn))
            (mget eg e) (mget eg r) (mget eg o1) (mget eg rn)) cos_nu in
  let cos_nu := mset el_ig
      (map4 (fun n nn r rn => vsum (vmul (vdivs n nn) (vdivs r rn)))
            (mget el_ig n) (mget el_ig nn) (mget el_ig r) (mget el_ig rn)) cos_nu in
  let cos_nu := mset el_il
      (map2 (fun r rn => c0 r / rn) (mget el_il r) (mget el_il rn)) cos_nu in
  let cos_nu := clamp cos_nu in
  let o5 := map (fun x => c (narccos x)) cos_nu in                          (* 517 *)
  let tmp := mand (map (fun x => x <? lit 0) vr) eg in                      (* 521 *)
  let o5 := flip2pi_d tmp o5 in
  let tmp := mand (map (fun r => c2 r <? lit 0) r) el_ig in                 (* 525 *)
  let o5 := flip2pi_d tmp o5 in
  let tmp := mand (map (fun x => x <? npi * lit 0.5) o2) el_il in           (* 530 *)
  let tmp2 := mand tmp (map (fun r => c1 r <? lit 0) r) in
  let o5 := flip2pi_d tmp2 o5 in
  let tmp := mand (map (fun x => x >? npi * lit 0.5) o2) el_il in           (* 535 *)
  let tmp2 := mand tmp (map (fun r => c1 r >=? lit 0) r) in
  let o5 := flip2pi_d tmp2 o5 in
  let d := fun row => if deg then map (fun x => c (degrees x)) row else row in   (* 540 *)
  zip6 o0 o1 (d o2) (d o3) (d o4) (d o5).

(** kepler.py:1736-1750: the caller's array after the in-place edits *)
Definition kep_edit_d (deg : bool) (cols : list (six F)) : list (six F) :=
  let cols := if deg then map (ang6 (fun x => c (radians x))) cols else cols in
  let e := map s1 cols in
  let a := map s0 cols in
  let hyp := map (fun x => x >? lit 1) e in
  let a := mset hyp (map (fun x => c (x * lit (-1))) (mget hyp a)) a in     (* 1750 *)
  zip6 a e (map s2 cols) (map s3 cols) (map s4 cols) (map s5 cols).
(** kepler.py:1739-1779; [h] (1752), [r] (1764), [v] (1773) and [x] (1734) have the dtype of kep *)
Definition kep_to_cart_cols_d (g : nat -> F) (kep : list (six F)) (mu : list F) : list (six F) :=
  let nu := map s5 kep in
  let omega := map s3 kep in
  let asc_node := map s4 kep in
  let inc := map s2 kep in
  let e := map s1 kep in
  let a := map s0 kep in
  let per := map (fun x => x =? lit 1) e in                                 (* 1746 *)
  let nper := mnot per in
  let h := np_empty g (length kep) in                                       (* 1752 *)
  let h := mset nper (map3 (fun a e mu => c (orbit_total_angular_momentum a e mu))
                           (mget nper a) (mget nper e) (mget nper mu)) h in
  let h := mset per (map2 (fun q mu => c (parabolic_total_angular_momentum q mu))
                          (mget per a) (mget per mu)) h in
  let rn := map4 (fun h mu e nu => orbital_distance h mu e nu false) h mu e nu in
  let R := map3 (fun i o O => euler_rotation_matrix i o O false) inc omega asc_node in
  let rx := map2 (fun rn nu => rn * ncos nu) rn nu in
  let ry := map2 (fun rn nu => rn * nsin nu) rn nu in
  let row (a b : mat3 F -> F) := map3 (fun R x y => c (c (a R * x + b R * y))) R in
  let vn := map2 (fun mu h => mu / h) mu h in                               (* 1769 *)
  let vx := map2 (fun vn nu => (- vn) * nsin nu) vn nu in
  let vy := map3 (fun vn e nu => vn * (e + ncos nu)) vn e nu in
  zip6 (row m00 m01 rx ry) (row m10 m11 rx ry) (row m20 m21 rx ry)
       (row m00 m01 vx vy) (row m10 m11 vx vy) (row m20 m21 vx vy).
(** kepler.py:1785-1786 *)
Definition kep_restore_d (deg : bool) (cols : list (six F)) : list (six F) :=
  if deg then map (ang6 (fun x => c (degrees x))) cols else cols.

(** kepler.py:234-278 *)
Definition kep_to_equi_cols_d (deg : bool) (kep : list (six F)) : list (six F) :=
  let om_bar := map2 (fun x y => x + y) (map s3 kep) (map s4 kep) in
  let OM := map s4 kep in
  let hi := map (fun x => lit 0.5 * x) (map s2 kep) in
  let lambda0 := map2 (fun x y => x + y) om_bar (map s5 kep) in
  let d := fun row => if deg then map radians row else row in
  let om_bar := d om_bar in
  let OM := d OM in
  let hi := d hi in
  zip6 (map (fun k => c (s0 k)) kep)
       (map2 (fun e o => c (e * nsin o)) (map s1 kep) om_bar)
       (map2 (fun e o => c (e * ncos o)) (map s1 kep) om_bar)
       (map2 (fun hi O => c (ntan hi * nsin O)) hi OM)
       (map2 (fun hi O => c (ntan hi * ncos O)) hi OM)
       (map (fun l => c (nmod (l + circ deg) (circ deg))) lambda0).
(** kepler.py:281-334 *)
Definition equi_to_kep_cols_d (g : nat -> nat -> F) (deg : bool) (equi : list (six F))
  : list (six F) :=
  let N := length equi in
  let k3 := np_empty (g 3%nat) N in
  let k5 := np_empty (g 5%nat) N in
  let k0 := map (fun q => c (s0 q)) equi in
  let k1 := map2 (fun h k => c (nsqrt (sq h + sq k))) (map s1 equi) (map s2 equi) in  (* 310 *)
  let om_bar := map2 narctan2 (map s1 equi) (map s2 equi) in
  let hi := map2 (fun p q => narctan (nsqrt (sq p + sq q))) (map s3 equi) (map s4 equi) in
  let k2 := map (fun x => c (lit 2 * x)) hi in
  let k4 := map2 (fun p q => c (narctan2 p q)) (map s3 equi) (map s4 equi) in     (* 316 *)
  let om_bar := if deg then map degrees om_bar else om_bar in
  let d := fun row => if deg then map (fun x => c (degrees x)) row else row in
  let k4 := d k4 in
  let k2 := d k2 in
  let eg := map (fun x => x >? e_lim) k1 in                                       (* 324 *)
  let el := mnot eg in
  let k3 := mset eg (map2 (fun x y => c (x - y)) (mget eg om_bar) (mget eg k4)) k3 in
  let k3 := mset_s el (c (lit 0)) k3 in
  let lam := map s5 equi in
  let k5 := mset eg (map2 (fun x y => c (x - y)) (mget eg lam) (mget eg om_bar)) k5 in
  let k5 := mset el (map2 (fun x y => c (x - y)) (mget el lam) (mget el k4)) k5 in
  let w := map (fun x => c (nmod (x + circ deg) (circ deg))) in                   (* 333 *)
  zip6 k0 k1 k2 (w k3) (w k4) (w k5).

(** ** Anomalies: the masked stores (656-667, 715-726, 774-781) *)
Definition by_masks_d (g : nat -> F) (fh fp fe : F -> F -> F) (dx de : list F) : list F :=
  by_masks g (fun x e => c (fh x e)) (fun x e => c (fp x e)) (fun x e => c (fe x e)) dx de.
End Store.

(** [tr]: what an integer array keeps of a float stored into it *)
Variable tr : F -> F.
Definition store (d : dtype) (x : F) : F := match d with DFloat => x | DInt => tr x end.

(** kepler.py:337-547 for an array [cart] of dtype [d] *)
Definition cart_to_kep_d (d : dtype) (g : nat -> nat -> F) (cart : kinput F) (mu : muarg F)
    (deg : bool) : kinput F * res (kinput F) :=
  match cart with
  | KNotArray => (cart, Raise TypeError)
  | KZeroDim => (cart, Raise IndexError)
  | KBadRows _ => (cart, Raise ValueError)
  | KVec c =>
      match mu_bcast 1 mu with
      | Raise x => (KMat [c], Raise x)
      | Ok mus => match cart_to_kep_cols_d (store d) g [c] mus deg with
                  | [o] => (KVec c, Ok (KVec o))
                  | _ => (KVec c, Raise ValueError)
                  end
      end
  | KMat l =>
      match mu_bcast (length l) mu with
      | Raise x => (cart, Raise x)
      | Ok mus => (cart, Ok (KMat (cart_to_kep_cols_d (store d) g l mus deg)))
      end
  end.
(** kepler.py:1687-1788; first component: the caller's array after the call *)
Definition kep_to_cart_d (d : dtype) (g : nat -> F) (kep : kinput F) (mu : muarg F) (deg : bool)
  : kinput F * res (kinput F) :=
  match kep with
  | KNotArray => (kep, Raise TypeError)
  | KZeroDim => (kep, Raise IndexError)
  | KBadRows _ => (kep, Raise ValueError)
  | KVec c =>
      let k := kep_edit_d (store d) deg [c] in
      match mu_mask 1 mu with
      | Raise x => (KMat k, Raise x)
      | Ok mus => match kep_to_cart_cols_d (store d) g k mus, kep_restore_d (store d) deg k with
                  | [x], [k'] => (KVec k', Ok (KVec x))
                  | _, _ => (KMat k, Raise ValueError)
                  end
      end
  | KMat l =>
      let k := kep_edit_d (store d) deg l in
      match mu_mask (length l) mu with
      | Raise x => (KMat k, Raise x)
      | Ok mus => (KMat (kep_restore_d (store d) deg k), Ok (KMat (kep_to_cart_cols_d (store d) g k mus)))
      end
  end.
(** kepler.py:234-278, 281-334 *)
Definition kep_to_equi_d (d : dtype) (kep : kinput F) (deg : bool) : res (kinput F) :=
  on_cols (fun l => Ok (kep_to_equi_cols_d (store d) deg l)) kep.
Definition equi_to_kep_d (d : dtype) (g : nat -> nat -> F) (equi : kinput F) (deg : bool)
  : res (kinput F) :=
  on_cols (fun l => Ok (equi_to_kep_cols_d (store d) g deg l)) equi.

(** ** Anomaly conversions of typed arguments *)
Definition targ := (arg F * dtype)%type.
(** the dtype of [_nu] / [_E] / [_M] after lines 642-652 (701-711, 760-770, 1283-1293), which is
    the dtype of the result buffer: np.radians gives float64; a scalar is multiplied with ones of
    the dtype of [e] *)
Definition buf (deg : bool) (x e : targ) : dtype :=
  if deg then DFloat
  else match fst x, fst e with
       | Arr _ _ _, _ => snd x
       | Sc _, Arr _ _ _ => dmul (snd e) (snd x)
       | Sc _, Sc _ => DFloat
       end.
(** kepler.py:625-681; np.mod makes the result float64 *)
Definition true_to_eccentric_d (g : nat -> F) (nu e : targ) (deg : bool) : res targ :=
  rlet p := broadcast (in_rad deg (fst nu)) (fst e) in
  Ok (out_deg deg (amap wrap2pi
    match p with
    | PSc x e => Sc (by_cases t2e_hyp t2e_per t2e_eli x e)
    | PArr s _ dx _ de => fresh s (by_masks_d (store (buf deg nu e)) g t2e_hyp t2e_per t2e_eli dx de)
    end), DFloat).
(** kepler.py:684-739 *)
Definition eccentric_to_true_d (g : nat -> F) (E e : targ) (deg : bool) : res targ :=
  rlet p := broadcast (in_rad deg (fst E)) (fst e) in
  Ok (out_deg deg (amap wrap2pi
    match p with
    | PSc x e => Sc (by_cases e2t_hyp e2t_per e2t_eli x e)
    | PArr s _ dx _ de => fresh s (by_masks_d (store (buf deg E e)) g e2t_hyp e2t_per e2t_eli dx de)
    end), DFloat).
(** kepler.py:742-792; the buffer itself is returned (radians) *)
Definition eccentric_to_mean_d (g : nat -> F) (E e : targ) (deg : bool) : res targ :=
  rlet p := broadcast (in_rad deg (fst E)) (fst e) in
  Ok (out_deg deg
    match p with
    | PSc x e => Sc (by_cases e2m_hyp e2m_per e2m_eli x e)
    | PArr s _ dx _ de => fresh s (by_masks_d (store (buf deg E e)) g e2m_hyp e2m_per e2m_eli dx de)
    end, buf deg E e).
(** dtype of np.radians(x) if degrees else x *)
Definition drad (deg : bool) (x : targ) : targ :=
  (in_rad deg (fst x), if deg then DFloat else snd x).
(** kepler.py:795-823 *)
Definition true_to_mean_d (g1 g2 : nat -> F) (nu e : targ) (deg : bool) : res targ :=
  rlet E := true_to_eccentric_d g1 (drad deg nu) e false in
  rlet M := eccentric_to_mean_d g2 E e false in
  Ok (out_deg deg (fst M), if deg then DFloat else snd M).
(** kepler.py:1249-1344; [Ec\[...\] = E_calc] (1324) stores into the buffer of line 1297 *)
Definition mean_to_eccentric_d (M e : targ) (o : solver_options F) (deg : bool) : res targ :=
  rlet p := broadcast (in_rad deg (fst M)) (fst e) in
  match p with
  | PSc M' e' =>
      if e' =? lit 0 then Ok M
      else Ok (out_deg deg (Sc (m2e_el o M' e')), DFloat)
  | PArr s mM dM me de =>
      if (length dM =? 0)%nat then Ok (fresh s [], buf deg M e)
      else Ok (out_deg deg (fresh s (map2 (fun M' e' => store (buf deg M e) (m2e_el o M' e'))
                                          (nditer nan mM dM) (nditer nan me de))), buf deg M e)
  end.
(** kepler.py:1347-1379 *)
Definition mean_to_true_d (g : nat -> F) (M e : targ) (o : solver_options F) (deg : bool) : res targ :=
  rlet E := mean_to_eccentric_d (drad deg M) e o false in
  rlet nu := eccentric_to_true_d g E e false in
  Ok (out_deg deg (fst nu), if deg then DFloat else snd nu).

(** ** The chained conversions: [kep] has the dtype of the argument, and so have [kep\[K_nu, eg\]] and [kep\[K_e, eg\]];
    the anomalies are stored back into [kep] (185-186, 224-230) *)
Definition set_nu_masked_d (d : dtype) (f : targ -> targ -> res targ) (kep : list (six F)) : res (list (six F)) :=
  let eg := map (fun c => s1 c >? e_lim) kep in
  let nu := mget eg (map s5 kep) in
  let e := mget eg (map s1 kep) in
  rlet x := f (fresh [length nu] nu, d) (fresh [length e] e, d) in
  Ok (map2 set5 kep (mset eg (map (store d) (adata (fst x))) (map s5 kep))).
(** kepler.py:150-187 *)
Definition cart_to_equi_d (d : dtype) (g : nat -> nat -> F) (g1 g2 : nat -> F) (cart : kinput F)
    (mu : muarg F) (deg : bool) : kinput F * res (kinput F) :=
  let '(cart', kep) := cart_to_kep_d d g cart mu deg in
  (cart', rlet k := kep in
          rlet k := on_cols (set_nu_masked_d d (fun nu e => true_to_mean_d g1 g2 nu e deg)) k in
          kep_to_equi_d d k deg).
(** kepler.py:190-231 *)
Definition equi_to_cart_d (d : dtype) (g : nat -> nat -> F) (g1 g2 : nat -> F) (equi : kinput F)
    (mu : muarg F) (o : solver_options F) (deg : bool) : res (kinput F) :=
  rlet k := equi_to_kep_d d g equi deg in
  rlet k := on_cols (set_nu_masked_d d (fun M e => mean_to_true_d g1 M e o deg)) k in
  snd (kep_to_cart_d d g2 k mu deg).
End Dtype.
Arguments targ F : clear implicits.
