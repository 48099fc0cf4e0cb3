(** * Model of /repo/pyorb/orbit.py, class Orbit.
    Line numbers refer to /repo/pyorb/orbit.py.

    The object is a record; a method is a function from the object to the object after the
    call and the returned value or exception ([M A]).  Values assigned to elements are
    floats or ndarrays ([arg F]); Python lists, [epoch], [dtype], [__str__] and printing are
    not modelled.  [gb]: contents of buffers from np.empty. *)
From Coq Require Import Ascii String List Bool ZArith QArith.
From Verif Require Import NP KeplerModel ConvModel UnitModel.
Import ListNotations.
Local Open Scope nat_scope.

(** orbit.py:98 *)
Inductive anomaly := ATrue | AEcc | AMean.
Definition anomaly_eqb (a b : anomaly) : bool :=
  match a, b with ATrue, ATrue | AEcc, AEcc | AMean, AMean => true | _, _ => false end.
(** membership in Orbit.ANOMALY *)
Definition anomaly_of (s : string) : option anomaly :=
  if String.eqb s "true" then Some ATrue
  else if String.eqb s "eccentric" then Some AEcc
  else if String.eqb s "mean" then Some AMean else None.
(** str.strip (ASCII white space) *)
Definition is_space (c : ascii) : bool :=
  let n := nat_of_ascii c in
  (Nat.eqb n 32 || (Nat.leb 9 n && Nat.leb n 13) || (Nat.leb 28 n && Nat.leb n 31))%bool.
Fixpoint lstrip (s : string) : string :=
  match s with
  | EmptyString => EmptyString
  | String c t => if is_space c then lstrip t else s
  end.
Fixpoint srev_app (s acc : string) : string :=
  match s with EmptyString => acc | String c t => srev_app t (String c acc) end.
Definition srev (s : string) : string := srev_app s EmptyString.
Definition strip (s : string) : string := srev (lstrip (srev (lstrip s))).

(** index arguments: [slice(None)], a slice with non-negative bounds and step 1, an int, a
    list/array of ints, a boolean mask, any slice [start:stop:step] *)
Inductive Idx :=
| IAll | IRange (lo hi : nat) | IInt (z : Z) | IList (zs : list Z) | IMask (bs : list bool)
| ISlice (start stop : option Z) (step : Z).
(** CPython slice.indices: a bound is made non-negative and clipped *)
Definition slice_clip (n step z : Z) : Z :=
  if (z <? 0)%Z
  then if (z + n <? 0)%Z then (if (step <? 0)%Z then -1 else 0)%Z else (z + n)%Z
  else if (n <=? z)%Z then (if (step <? 0)%Z then n - 1 else n)%Z else z.
Definition slice_first (n step : Z) (start : option Z) : Z :=
  match start with
  | None => if (step <? 0)%Z then (n - 1)%Z else 0%Z
  | Some z => slice_clip n step z
  end.
Definition slice_last (n step : Z) (stop : option Z) : Z :=
  match stop with
  | None => if (step <? 0)%Z then (-1)%Z else n
  | Some z => slice_clip n step z
  end.
Definition slice_count (a b step : Z) : Z :=
  if (step <? 0)%Z then (if (b <? a)%Z then (a - b - 1) / (- step) + 1 else 0)%Z
  else (if (a <? b)%Z then (b - a - 1) / step + 1 else 0)%Z.
Definition slice_positions (n : nat) (start stop : option Z) (step : Z) : list nat :=
  let a := slice_first (Z.of_nat n) step start in
  let b := slice_last (Z.of_nat n) step stop in
  map (fun i => Z.to_nat (a + Z.of_nat i * step)) (seq 0 (Z.to_nat (slice_count a b step))).
Fixpoint true_positions (k : nat) (bs : list bool) : list nat :=
  match bs with
  | [] => []
  | b :: t => if b then k :: true_positions (S k) t else true_positions (S k) t
  end.
Fixpoint resolve_list (n : nat) (zs : list Z) : res (list nat) :=
  match zs with
  | [] => Ok []
  | z :: t => match py_index n z with
              | None => Raise IndexError
              | Some j => rlet ps := resolve_list n t in Ok (j :: ps)
              end
  end.
(** the positions selected in an axis of length [n]; [badmask]: what a mask of the wrong
    length raises (IndexError when indexing, ValueError in np.delete) *)
Definition resolve_gen (badmask : exn) (n : nat) (i : Idx) : res (list nat) :=
  match i with
  | IAll => Ok (seq 0 n)
  | IRange lo hi => Ok (seq lo (Nat.min hi n - lo))
  | IInt z => resolve_list n [z]
  | IList zs => resolve_list n zs
  | IMask bs => if Nat.eqb (length bs) n then Ok (true_positions 0 bs) else Raise badmask
  | ISlice start stop step =>
      if (step =? 0)%Z then Raise ValueError else Ok (slice_positions n start stop step)
  end.
Definition resolve := resolve_gen IndexError.
Definition resolve_del := resolve_gen ValueError.

Section Positions.
Context {A : Type}.
(** [l\[ps\]] *)
Definition pick (ps : list nat) (l : list A) : list A :=
  flat_map (fun p => match nth_error l p with Some x => [x] | None => [] end) ps.
(** [l\[ps\] = vs], element by element *)
Fixpoint put (ps : list nat) (vs l : list A) : list A :=
  match ps, vs with
  | p :: ps', v :: vs' => put ps' vs' (upd_nth p v l)
  | _, _ => l
  end.
(** np.delete of positions *)
Fixpoint delete_from (k : nat) (ps : list nat) (l : list A) : list A :=
  match l with
  | [] => []
  | x :: t => if existsb (Nat.eqb k) ps then delete_from (S k) ps t
              else x :: delete_from (S k) ps t
  end.
End Positions.
Definition delete_at {A} (ps : list nat) (l : list A) : list A := delete_from 0 ps l.

(** rows of a column *)
Definition row_get {A} (k : nat) (c : six A) : A :=
  match k with 0 => s0 c | 1 => s1 c | 2 => s2 c | 3 => s3 c | 4 => s4 c | _ => s5 c end.
Definition row_set {A} (k : nat) (c : six A) (x : A) : six A :=
  match k with
  | 0 => mk6 x (s1 c) (s2 c) (s3 c) (s4 c) (s5 c)
  | 1 => mk6 (s0 c) x (s2 c) (s3 c) (s4 c) (s5 c)
  | 2 => mk6 (s0 c) (s1 c) x (s3 c) (s4 c) (s5 c)
  | 3 => mk6 (s0 c) (s1 c) (s2 c) x (s4 c) (s5 c)
  | 4 => mk6 (s0 c) (s1 c) (s2 c) (s3 c) x (s5 c)
  | _ => mk6 (s0 c) (s1 c) (s2 c) (s3 c) (s4 c) x
  end.
Definition six_of {A} (f : nat -> A) : six A := mk6 (f 0) (f 1) (f 2) (f 3) (f 4) (f 5).

(** numpy broadcasting of an assigned value.  Leading dimensions of size 1 are dropped. *)
Fixpoint strip_ones (s : list nat) : list nat :=
  match s with 1 :: t => strip_ones t | _ => s end.

Section Orbit.
Context {F : Type} `{NP F}.
Variable gb : nat -> nat -> F.
Local Open Scope np_scope.

(** to a target of shape (n,) *)
Definition bcast1 (n : nat) (v : arg F) : res (list F) :=
  match v with
  | Sc x => Ok (repeat x n)
  | Arr s _ d =>
      match strip_ones s with
      | [] => Ok (repeat (nth 0 d nan) n)
      | [k] => if Nat.eqb k n then Ok d else Raise ValueError
      | _ => Raise ValueError
      end
  end.
(** to a target of shape (r, n): the n columns, each a function of the row *)
Definition bcast2 (r n : nat) (v : arg F) : res (list (nat -> F)) :=
  match v with
  | Sc x => Ok (repeat (fun _ => x) n)
  | Arr s _ d =>
      match strip_ones s with
      | [] => Ok (repeat (fun _ => nth 0 d nan) n)
      | [k] => if Nat.eqb k n then Ok (map (fun x _ => x) d) else Raise ValueError
      | [k; l] =>
          if negb (Nat.eqb k r) then Raise ValueError
          else if Nat.eqb l n
               then Ok (map (fun j i => nth (i * l + j) d nan) (seq 0 n))
          else if Nat.eqb l 1 then Ok (repeat (fun i => nth i d nan) n)
          else Raise ValueError
      | _ => Raise ValueError
      end
  end.

(** ** The object (orbit.py:102-135, 334-341); [oE] may become a scalar or an array of
    another length because line 888 replaces it. *)
Record orb := mkorb {
  oM0 : F; oG : F;
  oauto : bool; odirect : bool; okro : bool; ocro : bool; odeg : bool;
  otype : anomaly; oopts : solver_options F;
  om : list F; ocart : list (six F); okep : list (six F);
  onu : list F; oE : arg F; oMa : list F;
  ocf : list bool; okf : list bool;
  oit : option nat }.

Definition M (A : Type) := orb -> orb * res A.
Definition ret {A} (x : A) : M A := fun s => (s, Ok x).
Definition raise {A} (e : exn) : M A := fun s => (s, Raise e).
Definition bind {A B} (m : M A) (f : A -> M B) : M B :=
  fun s => match m s with (s', Ok x) => f x s' | (s', Raise e) => (s', Raise e) end.
Definition get : M orb := fun s => (s, Ok s).
Definition modify (f : orb -> orb) : M unit := fun s => (f s, Ok tt).
Definition lift {A} (r : res A) : M A := fun s => (s, r).

Definition with_cart (f : list (six F) -> list (six F)) (s : orb) : orb :=
  mkorb (oM0 s) (oG s) (oauto s) (odirect s) (okro s) (ocro s) (odeg s) (otype s) (oopts s)
        (om s) (f (ocart s)) (okep s) (onu s) (oE s) (oMa s) (ocf s) (okf s) (oit s).
Definition with_kep (f : list (six F) -> list (six F)) (s : orb) : orb :=
  mkorb (oM0 s) (oG s) (oauto s) (odirect s) (okro s) (ocro s) (odeg s) (otype s) (oopts s)
        (om s) (ocart s) (f (okep s)) (onu s) (oE s) (oMa s) (ocf s) (okf s) (oit s).
Definition with_m (f : list F -> list F) (s : orb) : orb :=
  mkorb (oM0 s) (oG s) (oauto s) (odirect s) (okro s) (ocro s) (odeg s) (otype s) (oopts s)
        (f (om s)) (ocart s) (okep s) (onu s) (oE s) (oMa s) (ocf s) (okf s) (oit s).
Definition with_nu (f : list F -> list F) (s : orb) : orb :=
  mkorb (oM0 s) (oG s) (oauto s) (odirect s) (okro s) (ocro s) (odeg s) (otype s) (oopts s)
        (om s) (ocart s) (okep s) (f (onu s)) (oE s) (oMa s) (ocf s) (okf s) (oit s).
Definition with_E (f : arg F -> arg F) (s : orb) : orb :=
  mkorb (oM0 s) (oG s) (oauto s) (odirect s) (okro s) (ocro s) (odeg s) (otype s) (oopts s)
        (om s) (ocart s) (okep s) (onu s) (f (oE s)) (oMa s) (ocf s) (okf s) (oit s).
Definition with_Ma (f : list F -> list F) (s : orb) : orb :=
  mkorb (oM0 s) (oG s) (oauto s) (odirect s) (okro s) (ocro s) (odeg s) (otype s) (oopts s)
        (om s) (ocart s) (okep s) (onu s) (oE s) (f (oMa s)) (ocf s) (okf s) (oit s).
Definition with_cf (f : list bool -> list bool) (s : orb) : orb :=
  mkorb (oM0 s) (oG s) (oauto s) (odirect s) (okro s) (ocro s) (odeg s) (otype s) (oopts s)
        (om s) (ocart s) (okep s) (onu s) (oE s) (oMa s) (f (ocf s)) (okf s) (oit s).
Definition with_kf (f : list bool -> list bool) (s : orb) : orb :=
  mkorb (oM0 s) (oG s) (oauto s) (odirect s) (okro s) (ocro s) (odeg s) (otype s) (oopts s)
        (om s) (ocart s) (okep s) (onu s) (oE s) (oMa s) (ocf s) (f (okf s)) (oit s).
Definition with_type (t : anomaly) (s : orb) : orb :=
  mkorb (oM0 s) (oG s) (oauto s) (odirect s) (okro s) (ocro s) (odeg s) t (oopts s)
        (om s) (ocart s) (okep s) (onu s) (oE s) (oMa s) (ocf s) (okf s) (oit s).
Definition with_it (t : option nat) (s : orb) : orb :=
  mkorb (oM0 s) (oG s) (oauto s) (odirect s) (okro s) (ocro s) (odeg s) (otype s) (oopts s)
        (om s) (ocart s) (okep s) (onu s) (oE s) (oMa s) (ocf s) (okf s) t.
(** assignment of the public attributes auto_update, direct_update, kepler_read_only,
    cartesian_read_only *)
Definition with_flags (a d k c : bool) (s : orb) : orb :=
  mkorb (oM0 s) (oG s) a d k c (odeg s) (otype s) (oopts s)
        (om s) (ocart s) (okep s) (onu s) (oE s) (oMa s) (ocf s) (okf s) (oit s).

Declare Scope orb_scope.
Delimit Scope orb_scope with orb.
Notation "'do' x <- m ;; k" := (bind m (fun x => k))
  (at level 200, x pattern, m at level 100, k at level 200) : orb_scope.
Notation "m ;;; k" := (bind m (fun _ => k)) (at level 199, right associativity) : orb_scope.
Local Open Scope orb_scope.

(** orbit.py:503-511 (the assertion that both arrays have one width is C41) *)
Definition num (s : orb) : nat := length (okep s).
(** [self.G*(self.M0 + m)] *)
Definition mu_of (s : orb) (m : F) : F := oG s * (oM0 s + m).
Definition nan6 (c : six F) : bool :=
  isnan (s0 c) || isnan (s1 c) || isnan (s2 c) || isnan (s3 c) || isnan (s4 c) || isnan (s5 c).
(** orbit.py:446-449, 475-478: the mask of selected columns without NaN *)
Definition do_mask (cols : list (six F)) (ps : list nat) : list bool :=
  let m := put ps (repeat true (length ps)) (repeat false (length cols)) in
  put ps (map (fun c => negb (nan6 c)) (pick ps cols)) m.
Definition any (m : list bool) : bool := existsb (fun b => b) m.

Definition from_mat (k : res (kinput F)) : res (list (six F)) :=
  match k with
  | Ok (KMat l) => Ok l
  | Ok _ => Raise ValueError   (* impossible: (6,N) in, (6,N) out *)
  | Raise e => Raise e
  end.

(** orbit.py:468-501.  [self.e] (lines 493, 499) calls _kep_check (157-161), which calls
    calculate_kepler again; [fuel] bounds that recursion, out of fuel is Python's
    RecursionError (never reached, see C64_depth in PropsOrbitRec.v). *)
Fixpoint calculate_kepler_f (fuel : nat) (inds : Idx) : M unit :=
  match fuel with
  | O => raise RecursionError
  | S f =>
    do s <- get ;;
    do ps <- lift (resolve (num s) inds) ;;
    let dm := do_mask (ocart s) ps in
    if negb (any dm) then ret tt
    else
      modify (with_kf (mset_s dm true)) ;;;                                       (* 483 *)
      do s <- get ;;
      do k <- lift (from_mat (snd (cart_to_kep gb (KMat (mget dm (ocart s)))
                       (MuV (map (mu_of s) (mget dm (om s)))) (odeg s)))) ;;
      modify (with_kep (mset dm k)) ;;;                                           (* 484 *)
      let conv (fn : arg F -> arg F -> bool -> res (arg F)) : M unit :=
        do st1 <- get ;;
        let nu := mget dm (map s5 (okep st1)) in                                  (* 492 *)
        (if oauto st1 && negb (odirect st1)                                       (* self.e *)
         then calculate_kepler_f f (IMask (map negb (okf st1))) else ret tt) ;;;
        do st2 <- get ;;
        let e := mget dm (map s1 (okep st2)) in
        do x <- lift (fn (fresh [length nu] nu) (fresh [length e] e) (odeg st2)) ;;
        modify (with_kep (fun kep => map2 set5 kep (mset dm (adata x) (map s5 kep)))) in
      match otype s with
      | AEcc => conv (true_to_eccentric (gb 20))
      | AMean => conv (true_to_mean (gb 20) (gb 21))
      | ATrue => ret tt
      end
  end.
Definition calculate_kepler := calculate_kepler_f 3.

(** orbit.py:157-161 *)
Definition kep_check : M unit :=
  do s <- get ;;
  if oauto s && negb (odirect s) then calculate_kepler (IMask (map negb (okf s))) else ret tt.

(** orbit.py:709-805: a, e, i, omega, Omega, anom = rows 0..5 *)
Definition get_kep_row (k : nat) : M (list F) :=
  kep_check ;;; do s <- get ;; ret (map (row_get k) (okep s)).
Definition get_anom := get_kep_row 5.
Definition get_e := get_kep_row 1.

(** [row\[inds\]]: an int index gives a scalar, lists and masks a new array, slices a view; the
    view of a slice with negative step lies backwards in memory *)
Definition sel (row : list F) (inds : Idx) : res (arg F) :=
  rlet ps := resolve (length row) inds in
  match inds with
  | IInt _ => match pick ps row with [x] => Ok (Sc x) | _ => Raise IndexError end
  | ISlice _ _ step =>
      let k := length (pick ps row) in
      Ok (Arr [k] (if (step <? 0)%Z then rev (seq 0 k) else seq 0 k) (pick ps row))
  | _ => Ok (fresh [length (pick ps row)] (pick ps row))
  end.
(** [row\[inds\] = value] *)
Definition assign (row : list F) (inds : Idx) (v : arg F) : res (list F) :=
  rlet ps := resolve (length row) inds in
  rlet vs := bcast1 (length ps) v in
  Ok (put ps vs row).

(** orbit.py:844-862 *)
Definition calc_true_anomaly (inds : Idx) : M unit :=
  do s <- get ;;
  do x <-
    match otype s with
    | AEcc =>
        do an <- get_anom ;; do xa <- lift (sel an inds) ;;
        do e <- get_e ;; do xe <- lift (sel e inds) ;;
        lift (eccentric_to_true (gb 22) xa xe (odeg s))
    | AMean =>
        do an <- get_anom ;; do xa <- lift (sel an inds) ;;
        do e <- get_e ;; do xe <- lift (sel e inds) ;;
        lift (mean_to_true (gb 22) xa xe (oopts s) (odeg s))
    | ATrue => do an <- get_anom ;; lift (sel an inds)
    end ;;
  do s <- get ;;
  do row <- lift (assign (onu s) inds x) ;;
  modify (with_nu (fun _ => row)).
(** orbit.py:864-881 *)
Definition calc_mean_anomaly (inds : Idx) : M unit :=
  do s <- get ;;
  do x <-
    match otype s with
    | AEcc =>
        do an <- get_anom ;; do xa <- lift (sel an inds) ;;
        do e <- get_e ;; do xe <- lift (sel e inds) ;;
        lift (eccentric_to_mean (gb 23) xa xe (odeg s))
    | ATrue =>
        do an <- get_anom ;; do xa <- lift (sel an inds) ;;
        do e <- get_e ;; do xe <- lift (sel e inds) ;;
        lift (true_to_mean (gb 23) (gb 24) xa xe (odeg s))
    | AMean => do an <- get_anom ;; lift (sel an inds)
    end ;;
  do s <- get ;;
  do row <- lift (assign (oMa s) inds x) ;;
  modify (with_Ma (fun _ => row)).
(** orbit.py:883-901; for type mean line 888 replaces the whole attribute *)
Definition calc_eccentric_anomaly (inds : Idx) : M unit :=
  do s <- get ;;
  match otype s with
  | AMean =>
      do an <- get_anom ;; do xa <- lift (sel an inds) ;;
      do e <- get_e ;; do xe <- lift (sel e inds) ;;
      do x <- lift (mean_to_eccentric xa xe (oopts s) (odeg s)) ;;
      modify (with_E (fun _ => x))
  | _ =>
      do x <-
        match otype s with
        | ATrue =>
            do an <- get_anom ;; do xa <- lift (sel an inds) ;;
            do e <- get_e ;; do xe <- lift (sel e inds) ;;
            lift (true_to_eccentric (gb 25) xa xe (odeg s))
        | _ => do an <- get_anom ;; lift (sel an inds)
        end ;;
      do s <- get ;;
      match oE s with
      | Sc _ => raise TypeError                        (* np.float64 is not assignable *)
      | Arr _ _ d => do row <- lift (assign d inds x) ;;
                     modify (with_E (fun _ => fresh [length row] row))
      end
  end.

(** orbit.py:439-466 *)
Definition calculate_cartesian (inds : Idx) : M unit :=
  do s <- get ;;
  do ps <- lift (resolve (num s) inds) ;;
  let dm := do_mask (okep s) ps in
  if negb (any dm) then ret tt
  else
    modify (with_cf (mset_s dm true)) ;;;                                         (* 454 *)
    let kep_tmp := mget dm (okep s) in                                            (* 456/458 *)
    do kep_tmp <-
      match otype s with
      | ATrue => ret kep_tmp
      | _ => calc_true_anomaly (IMask dm) ;;;
             do s <- get ;; ret (map2 set5 kep_tmp (mget dm (onu s)))             (* 460 *)
      end ;;
    do s <- get ;;
    do c <- lift (from_mat (snd (kep_to_cart (gb 26) (KMat kep_tmp)
                     (MuV (map (mu_of s) (mget dm (om s)))) (odeg s)))) ;;
    modify (with_cart (mset dm c)).

(** orbit.py:151-155 *)
Definition cart_check : M unit :=
  do s <- get ;;
  if oauto s && negb (odirect s) then calculate_cartesian (IMask (map negb (ocf s))) else ret tt.

(** ** Getters *)
(** orbit.py:551-556 *)
Definition get_cartesian : M (list (six F)) := cart_check ;;; do s <- get ;; ret (ocart s).
(** orbit.py:684-689 *)
Definition get_kepler : M (list (six F)) := kep_check ;;; do s <- get ;; ret (okep s).
(** orbit.py:576-671: x, y, z, vx, vy, vz = rows 0..5 *)
Definition get_cart_row (k : nat) : M (list F) :=
  cart_check ;;; do s <- get ;; ret (map (row_get k) (ocart s)).
Definition pos_of (c : six F) : v3 F := (s0 c, s1 c, s2 c).
Definition vel_of (c : six F) : v3 F := (s3 c, s4 c, s5 c).
(** orbit.py:513-518, 532-537 *)
Definition get_r : M (list (v3 F)) := cart_check ;;; do s <- get ;; ret (map pos_of (ocart s)).
Definition get_v : M (list (v3 F)) := cart_check ;;; do s <- get ;; ret (map vel_of (ocart s)).
(** orbit.py:1042-1047 *)
Definition get_period : M (list F) :=
  kep_check ;;; do a <- get_kep_row 0 ;; do s <- get ;;
  ret (map2 orbital_period a (map (mu_of s) (om s))).
Definition circle (deg : bool) : F := if deg then lit 360 else npi * lit 2.
(** orbit.py:818-827 *)
Definition get_mean_motion : M (list F) :=
  do s <- get ;; do p <- get_period ;; ret (map (fun p => circle (odeg s) / p) p).
(** orbit.py:903-916 *)
Definition get_eccentric_anomaly : M (arg F) :=
  do s <- get ;;
  match otype s with
  | AEcc => do an <- get_anom ;; ret (fresh [length an] an)
  | _ => calc_eccentric_anomaly IAll ;;; do s <- get ;; ret (oE s)
  end.
(** orbit.py:942-950 *)
Definition get_true_anomaly : M (list F) :=
  do s <- get ;;
  match otype s with
  | ATrue => get_anom
  | _ => calc_true_anomaly IAll ;;; do s <- get ;; ret (onu s)
  end.
(** orbit.py:976-984 *)
Definition get_mean_anomaly : M (list F) :=
  do s <- get ;;
  match otype s with
  | AMean => get_anom
  | _ => calc_mean_anomaly IAll ;;; do s <- get ;; ret (oMa s)
  end.
(** orbit.py:1012-1014 *)
Definition get_apoapsis : M (list F) :=
  do e <- get_e ;; do a <- get_kep_row 0 ;; ret (map2 (fun e a => (lit 1 + e) * a) e a).
(** orbit.py:1016-1018 *)
Definition get_periapsis : M (list F) :=
  do e <- get_e ;; do a <- get_kep_row 0 ;; ret (map2 (fun e a => (lit 1 - e) * a) e a).
(** orbit.py:1020-1022 *)
Definition get_mean_longitude : M (list F) :=
  do m <- get_mean_anomaly ;; do o <- get_kep_row 3 ;; do Om <- get_kep_row 4 ;;
  ret (map3 (fun m o Om => m + o + Om) m o Om).
(** orbit.py:1024-1031 *)
Definition get_equinoctial : M (kinput F) :=
  do kep <- get_kepler ;; do m <- get_mean_anomaly ;; do s <- get ;;
  let e := kep_to_equi_cols (odeg s) (map2 set5 kep m) in
  match e with [c] => ret (KVec c) | _ => ret (KMat e) end.
(** orbit.py:1062-1067 *)
Definition get_velocity : M (list F) :=
  cart_check ;;; do v <- get_v ;; ret (map vnorm v).
(** orbit.py:1080-1094 *)
Definition get_speed : M (list F) :=
  kep_check ;;;
  do E <- get_eccentric_anomaly ;; do a <- get_kep_row 0 ;; do e <- get_e ;;
  do s <- get ;;
  do E <- lift (bcast1 (length a) E) ;;   (* element-wise with the (N,) rows *)
  let r := map3 (fun E a e => elliptic_radius E a e (odeg s)) E a e in
  do a <- get_kep_row 0 ;; do s <- get ;;
  ret (map3 orbital_speed r a (map (mu_of s) (om s))).

(** ** Setters *)
Definition all_false (l : list bool) : list bool := map (fun _ => false) l.
Definition all_true (l : list bool) : list bool := map (fun _ => true) l.
Definition set_row (k : nat) (cols : list (six F)) (vs : list F) : list (six F) :=
  map2 (row_set k) cols vs.
(** orbit.py:583-682, setters of x, y, z, vx, vy, vz (rows 0..5) *)
Definition set_cart_row (k : nat) (v : arg F) : M unit :=
  do s <- get ;;
  if ocro s then raise AttributeError else
  do vs <- lift (bcast1 (length (ocart s)) v) ;;
  modify (with_cart (fun c => set_row k c vs)) ;;;
  do s <- get ;;
  if odirect s then calculate_kepler IAll else modify (with_kf all_false).
(** orbit.py:716-816, setters of a, e, i, omega, Omega, anom (rows 0..5) *)
Definition set_kep_row (k : nat) (v : arg F) : M unit :=
  do s <- get ;;
  if okro s then raise AttributeError else
  do vs <- lift (bcast1 (length (okep s)) v) ;;
  modify (with_kep (fun c => set_row k c vs)) ;;;
  do s <- get ;;
  if odirect s then calculate_cartesian IAll else modify (with_cf all_false).
Definition set_anom := set_kep_row 5.

(** after a whole-state write: orbit.py:526-530, 545-549, 570-574 *)
Definition after_cart : M unit :=
  do s <- get ;;
  if odirect s then calculate_kepler IAll
  else modify (with_kf all_false) ;;; modify (with_cf all_true).
(** orbit.py:703-707 *)
Definition after_kep : M unit :=
  do s <- get ;;
  if odirect s then calculate_cartesian IAll
  else modify (with_cf all_false) ;;; modify (with_kf all_true).
Definition set_top (c : six F) (f : nat -> F) : six F :=
  mk6 (f 0) (f 1) (f 2) (s3 c) (s4 c) (s5 c).
Definition set_bot (c : six F) (f : nat -> F) : six F :=
  mk6 (s0 c) (s1 c) (s2 c) (f 0) (f 1) (f 2).
(** orbit.py:520-530 *)
Definition set_r (v : arg F) : M unit :=
  do s <- get ;;
  if ocro s then raise AttributeError else
  do vs <- lift (bcast2 3 (length (ocart s)) v) ;;
  modify (with_cart (fun c => map2 set_top c vs)) ;;; after_cart.
(** orbit.py:539-549 *)
Definition set_v (v : arg F) : M unit :=
  do s <- get ;;
  if ocro s then raise AttributeError else
  do vs <- lift (bcast2 3 (length (ocart s)) v) ;;
  modify (with_cart (fun c => map2 set_bot c vs)) ;;; after_cart.
(** the value of a whole-state setter, orbit.py:562-568, 695-701: a 1-d array becomes one
    column; indexing a 0-d array with [:, :] raises IndexError *)
Definition whole_value (n : nat) (v : arg F) : res (list (six F)) :=
  match v with
  | Arr [] _ _ => Raise IndexError
  | Arr [k] m d => rlet cs := bcast2 6 n (Arr [k; 1] m d) in Ok (map six_of cs)
  | _ => rlet cs := bcast2 6 n v in Ok (map six_of cs)
  end.
(** orbit.py:558-574 *)
Definition set_cartesian (v : arg F) : M unit :=
  do s <- get ;;
  if ocro s then raise AttributeError else
  do cs <- lift (whole_value (length (ocart s)) v) ;;
  modify (with_cart (fun _ => cs)) ;;; after_cart.
(** orbit.py:691-707 *)
Definition set_kepler (v : arg F) : M unit :=
  do s <- get ;;
  if okro s then raise AttributeError else
  do cs <- lift (whole_value (length (okep s)) v) ;;
  modify (with_kep (fun _ => cs)) ;;; after_kep.
(** orbit.py:937-940, 971-974, 1007-1010 *)
Definition after_anom : M unit :=
  do s <- get ;;
  if odirect s then calculate_cartesian IAll else modify (with_cf all_false).
(** orbit.py:918-940 *)
Definition set_eccentric_anomaly (v : arg F) : M unit :=
  do s <- get ;;
  if okro s then raise AttributeError else
  match otype s with
  | AEcc => set_anom v
  | ATrue => do e <- get_e ;;
             do x <- lift (eccentric_to_true (gb 27) v (fresh [length e] e) (odeg s)) ;; set_anom x
  | AMean => do e <- get_e ;;
             do x <- lift (eccentric_to_mean (gb 27) v (fresh [length e] e) (odeg s)) ;; set_anom x
  end ;;; after_anom.
(** orbit.py:952-974 *)
Definition set_true_anomaly (v : arg F) : M unit :=
  do s <- get ;;
  if okro s then raise AttributeError else
  match otype s with
  | ATrue => set_anom v
  | AEcc => do e <- get_e ;;
            do x <- lift (true_to_eccentric (gb 27) v (fresh [length e] e) (odeg s)) ;; set_anom x
  | AMean => do e <- get_e ;;
             do x <- lift (true_to_mean (gb 27) (gb 28) v (fresh [length e] e) (odeg s)) ;;
             set_anom x
  end ;;; after_anom.
(** orbit.py:986-1010 *)
Definition set_mean_anomaly (v : arg F) : M unit :=
  do s <- get ;;
  if okro s then raise AttributeError else
  match otype s with
  | AMean => set_anom v
  | ATrue => do e <- get_e ;;
             do x <- lift (mean_to_true (gb 27) v (fresh [length e] e) (oopts s) (odeg s)) ;;
             set_anom x
  | AEcc => do e <- get_e ;;
            do x <- lift (mean_to_eccentric v (fresh [length e] e) (oopts s) (odeg s)) ;;
            set_anom x
  end ;;; after_anom.
(** orbit.py:1049-1060: the setter function takes no value, so the assignment itself raises *)
Definition set_period (v : arg F) : M unit := raise TypeError.
(** orbit.py:829-842 (line 837 assigns the period) *)
Definition set_mean_motion (v : arg F) : M unit :=
  do s <- get ;;
  if okro s then raise AttributeError else set_period v ;;; after_anom.
(** orbit.py:1033-1040 *)
Definition set_head (c k : six F) : six F := mk6 (s0 k) (s1 k) (s2 k) (s3 k) (s4 k) (s5 c).
Definition set_equinoctial (vals : kinput F) : M unit :=
  do s <- get ;;
  do elems <- lift (equi_to_kep gb vals (odeg s)) ;;
  match elems with
  | KVec k =>
      modify (with_kep (map (fun c => set_head c k))) ;;;                         (* 1039 *)
      set_mean_anomaly (Arr [] [0%nat] [s5 k])             (* elems[5, ...] is 0-dimensional *)
  | KMat l =>
      (match l with
       | [k] => modify (with_kep (map (fun c => set_head c k)))
       | _ => if Nat.eqb (length l) (length (okep s))
              then modify (with_kep (fun c => map2 set_head c l)) else raise ValueError
       end) ;;;
      set_mean_anomaly (fresh [length l] (map s5 l))
  | _ => raise TypeError
  end.
(** orbit.py:1069-1078: [self.v *= q] reads [self.v], scales, and assigns [self.v] *)
Definition set_velocity (v : arg F) : M unit :=
  do s <- get ;;
  if ocro s then raise AttributeError else
  do old <- get_v ;;
  do cur <- get_v ;;
  do sp <- lift (bcast1 (length old) v) ;;
  let q := map2 (fun x n => x / n) sp (map vnorm cur) in
  let new := map2 (fun (u : v3 F) q => (c0 u * q, c1 u * q, c2 u * q)) old q in
  set_v (fresh [3; length new] (map c0 new ++ map c1 new ++ map c2 new)) ;;;
  do s <- get ;;
  if odirect s then calculate_kepler IAll else modify (with_kf all_false).
(** orbit.py:219-231 *)
Definition set_type (val : string) : M unit :=
  match anomaly_of (strip (lower val)) with
  | None => raise ValueError
  | Some t =>
      do s <- get ;;
      if anomaly_eqb (otype s) t then ret tt
      else
        match t with
        | ATrue => do x <- get_true_anomaly ;; set_anom (fresh [length x] x)
        | AEcc => do x <- get_eccentric_anomaly ;; set_anom x
        | AMean => do x <- get_mean_anomaly ;; set_anom (fresh [length x] x)
        end ;;;
        modify (with_type t)
  end.

(** orbit.py:233-244; [dt] a float or an array with one entry per orbit *)
Definition propagate (dt : arg F) : M unit :=
  do s <- get ;;
  let wrap := if odeg s then lit 360 else lit 2 * npi in
  do m <- get_mean_anomaly ;;
  do n <- get_mean_motion ;;
  do dts <- lift (bcast1 (length n) dt) ;;
  let x := map3 (fun m n dt => nmod (m + n * dt) wrap) m n dts in
  set_mean_anomaly (fresh [length x] x) ;;;
  do s <- get ;;
  if odirect s then calculate_cartesian IAll else ret tt.

(** ** Containers *)
Definition del_arg (inds : Idx) (x : arg F) : res (arg F) :=
  match x with
  | Sc _ => Raise IndexError                       (* AxisError, an IndexError *)
  | Arr _ _ d => rlet ps := resolve_del (length d) inds in
                 Ok (fresh [length (delete_at ps d)] (delete_at ps d))
  end.
Definition del {A} (inds : Idx) (l : list A) : res (list A) :=
  rlet ps := resolve_del (length l) inds in Ok (delete_at ps l).
(** orbit.py:246-261 *)
Definition delete (inds : Idx) : M unit :=
  do s <- get ;;
  do m <- lift (del inds (om s)) ;;      modify (with_m (fun _ => m)) ;;;
  do c <- lift (del inds (ocart s)) ;;   modify (with_cart (fun _ => c)) ;;;
  do k <- lift (del inds (okep s)) ;;    modify (with_kep (fun _ => k)) ;;;
  do nu <- lift (del inds (onu s)) ;;    modify (with_nu (fun _ => nu)) ;;;
  do E <- lift (del_arg inds (oE s)) ;;  modify (with_E (fun _ => E)) ;;;
  do Ma <- lift (del inds (oMa s)) ;;    modify (with_Ma (fun _ => Ma)) ;;;
  do cf <- lift (del inds (ocf s)) ;;    modify (with_cf (fun _ => cf)) ;;;
  do kf <- lift (del inds (okf s)) ;;    modify (with_kf (fun _ => kf)).
Definition nan6c : six F := mk6 nan nan nan nan nan nan.
(** orbit.py:325-341 *)
Definition allocate (n : nat) : M unit :=
  modify (fun s =>
    mkorb (oM0 s) (oG s) (oauto s) (odirect s) (okro s) (ocro s) (odeg s) (otype s) (oopts s)
          (repeat (lit 0) n) (repeat nan6c n) (repeat nan6c n)
          (repeat nan n) (fresh [n] (repeat nan n)) (repeat nan n)
          (repeat false n) (repeat false n) (oit s)).

(** keyword arguments of update; other keywords are ignored by the code *)
Record kws := mkkws {
  kw_cartesian : option (arg F); kw_kepler : option (arg F); kw_m : option (arg F);
  kw_c : six (option (arg F));      (* x y z vx vy vz         *)
  kw_k : six (option (arg F)) }.    (* a e i omega Omega anom *)
Definition no6 : six (option (arg F)) := mk6 None None None None None None.
Definition no_kws := mkkws None None None no6 no6.
Definition is_some {A} (o : option A) : bool := match o with Some _ => true | None => false end.
Definition some6 {A} (c : six (option A)) : bool :=
  is_some (s0 c) || is_some (s1 c) || is_some (s2 c)
  || is_some (s3 c) || is_some (s4 c) || is_some (s5 c).
(** [x\[:, inds\] = v] on a (6,N) array: the target is (6,) for an int and (6,K) otherwise *)
Definition assign_cols (cols : list (six F)) (inds : Idx) (v : arg F) : res (list (six F)) :=
  rlet ps := resolve (length cols) inds in
  match inds with
  | IInt _ => rlet vs := bcast1 6 v in
              Ok (put ps (repeat (six_of (fun i => nth i vs nan)) (length ps)) cols)
  | _ => rlet cs := bcast2 6 (length ps) v in Ok (put ps (map six_of cs) cols)
  end.
(** [x\[k, inds\] = v] *)
Definition assign_row (k : nat) (cols : list (six F)) (inds : Idx) (v : arg F)
  : res (list (six F)) :=
  rlet row := assign (map (row_get k) cols) inds v in Ok (set_row k cols row).
(** loops 419-421 and 429-431 *)
Fixpoint assign_keys (ks : list (nat * option (arg F))) (cols : list (six F)) (inds : Idx)
  : list (six F) * res unit :=
  match ks with
  | [] => (cols, Ok tt)
  | (_, None) :: t => assign_keys t cols inds
  | (k, Some v) :: t => match assign_row k cols inds v with
                        | Raise e => (cols, Raise e)
                        | Ok cols' => assign_keys t cols' inds
                        end
  end.
Definition keys {A} (c : six A) : list (nat * A) :=
  [(0, s0 c); (1, s1 c); (2, s2 c); (3, s3 c); (4, s4 c); (5, s5 c)]%nat.
Definition flag (inds : Idx) (b : bool) (l : list bool) : res (list bool) :=
  rlet ps := resolve (length l) inds in Ok (put ps (repeat b (length ps)) l).
(** orbit.py:377-381, 423-427 *)
Definition mark_cart (inds : Idx) : M unit :=
  do s <- get ;;
  if odirect s then calculate_kepler IAll
  else do kf <- lift (flag inds false (okf s)) ;; modify (with_kf (fun _ => kf)) ;;;
       do cf <- lift (flag inds true (ocf s)) ;; modify (with_cf (fun _ => cf)).
(** orbit.py:388-392, 433-437 *)
Definition mark_kep (inds : Idx) : M unit :=
  do s <- get ;;
  if odirect s then calculate_cartesian IAll
  else do cf <- lift (flag inds false (ocf s)) ;; modify (with_cf (fun _ => cf)) ;;;
       do kf <- lift (flag inds true (okf s)) ;; modify (with_kf (fun _ => kf)).
(** orbit.py:343-437 *)
Definition update (inds : Idx) (kw : kws) : M unit :=
  do s <- get ;;
  match kw_cartesian kw with
  | Some v =>                                                                     (* 372-382 *)
      if ocro s then raise AttributeError else
      do cs <- lift (assign_cols (ocart s) inds v) ;;
      modify (with_cart (fun _ => cs)) ;;; mark_cart inds
  | None =>
  match kw_kepler kw with
  | Some v =>                                                                     (* 384-393 *)
      if okro s then raise AttributeError else
      do cs <- lift (assign_cols (okep s) inds v) ;;
      modify (with_kep (fun _ => cs)) ;;; mark_kep inds
  | None =>
      let cart_updated := some6 (kw_c kw) in
      let kep_updated := some6 (kw_k kw) in
      if cart_updated && ocro s then raise AttributeError                         (* 395-400 *)
      else if kep_updated && okro s then raise AttributeError                     (* 402-406 *)
      else if kep_updated && cart_updated then raise ValueError                   (* 407-409 *)
      else
        match kw_m kw with                                                        (* 412-416 *)
        | None => ret tt
        | Some v => if odirect s then raise ValueError
                    else do row <- lift (assign (om s) inds v) ;;
                         modify (with_m (fun _ => row))
        end ;;;
        (if cart_updated then                                                     (* 418-427 *)
           (fun s => let '(cs, r) := assign_keys (keys (kw_c kw)) (ocart s) inds in
                     (with_cart (fun _ => cs) s, r)) ;;; mark_cart inds
         else ret tt) ;;;
        (if kep_updated then                                                      (* 428-437 *)
           (fun s => let '(cs, r) := assign_keys (keys (kw_k kw)) (okep s) inds in
                     (with_kep (fun _ => cs) s, r)) ;;; mark_kep inds
         else ret tt)
  end
  end.
Definition drop_m (kw : kws) : kws := mkkws (kw_cartesian kw) (kw_kepler kw) None (kw_c kw) (kw_k kw).
(** orbit.py:263-323 *)
Definition add_orbits (n : nat) (kw : kws) : M unit :=
  do s <- get ;;
  let k := num s in
  let inds := IRange k (k + n) in
  modify (with_m (fun l => l ++ repeat (lit 0) n)) ;;;
  modify (with_cart (fun l => l ++ repeat nan6c n)) ;;;
  modify (with_kep (fun l => l ++ repeat nan6c n)) ;;;
  modify (with_nu (fun l => l ++ repeat nan n)) ;;;
  match oE s with
  | Sc _ => raise ValueError                        (* np.append of a 0-d array, axis=0 *)
  | Arr _ _ d => modify (with_E (fun _ => fresh [length d + n]%nat (d ++ repeat nan n)))
  end ;;;
  modify (with_Ma (fun l => l ++ repeat nan n)) ;;;
  modify (with_cf (fun l => l ++ repeat false n)) ;;;
  modify (with_kf (fun l => l ++ repeat false n)) ;;;
  match kw_m kw with
  | None => ret tt
  | Some v => do s <- get ;; do row <- lift (assign (om s) inds v) ;;
              modify (with_m (fun _ => row))
  end ;;;
  update inds (drop_m kw).
(** [orb.m\[inds\] = v] (orb.m is a public mutable array) *)
Definition set_m (inds : Idx) (v : arg F) : M unit :=
  do s <- get ;; do row <- lift (assign (om s) inds v) ;; modify (with_m (fun _ => row)).

(** ** Construction, indexing, iteration *)
(** configuration keywords of the constructor *)
Record config := mkconfig {
  cf_auto : bool; cf_direct : bool; cf_G : F; cf_opts : solver_options F; cf_deg : bool;
  cf_type : string; cf_num : nat; cf_kro : bool; cf_cro : bool }.
(** orbit.py:102-135 *)
Definition init (M0 : F) (c : config) (kw : kws) : res orb :=
  match anomaly_of (cf_type c) with
  | None => Raise ValueError
  | Some t =>
      let s0 := mkorb M0 (cf_G c) (cf_auto c) (cf_direct c) false false (cf_deg c) t
                      (cf_opts c) [] [] [] [] (fresh [0%nat] []) [] [] [] None in
      let body : M unit :=
        allocate (cf_num c) ;;;
        match kw_m kw with None => ret tt | Some v => set_m IAll v end ;;;
        (if Nat.eqb (cf_num c) 0 then ret tt else update IAll (drop_m kw)) in
      match body s0 with
      | (s, Ok _) => Ok (with_flags (cf_auto c) (cf_direct c) (cf_kro c) (cf_cro c) s)
      | (_, Raise e) => Raise e
      end
  end.
(** orbit.py:169-199: only masses, elements and settings are taken over; flags and anomaly
    caches of the new object are those of a freshly allocated one *)
Definition getitem (inds : Idx) (s : orb) : res orb :=
  rlet ps := resolve (length (om s)) inds in
  let m := pick ps (om s) in
  let n := length m in
  rlet ps' := resolve (length (okep s)) inds in
  Ok (mkorb (oM0 s) (oG s) (oauto s) (odirect s) (okro s) (ocro s) (odeg s) (otype s) (oopts s)
            m (pick ps' (ocart s)) (pick ps' (okep s))
            (repeat nan n) (fresh [n] (repeat nan n)) (repeat nan n)
            (repeat false n) (repeat false n) None).
(** orbit.py:163-167 *)
Definition copy (s : orb) : res orb := getitem IAll s.
(** orbit.py:204-206 *)
Definition iter : M unit := modify (with_it (Some 0%nat)).
(** orbit.py:208-213 *)
Definition next : M orb :=
  do s <- get ;;
  match oit s with
  | None => raise AttributeError
  | Some k => if Nat.ltb k (num s)
              then modify (with_it (Some (S k))) ;;;
                   do s <- get ;; lift (getitem (IInt (Z.of_nat k)) s)
              else raise StopIteration
  end.

(** ** Histories *)
Inductive op :=
| OGetCart | OGetKep | OGetTrue | OGetEcc | OGetMean | OGetPeriod | OGetEqui
| OGetVelocity | OGetSpeed
| OSetCartRow (k : nat) (v : arg F) | OSetKepRow (k : nat) (v : arg F)
| OSetR (v : arg F) | OSetV (v : arg F) | OSetCart (v : arg F) | OSetKep (v : arg F)
| OSetTrue (v : arg F) | OSetEcc (v : arg F) | OSetMean (v : arg F)
| OSetPeriod (v : arg F) | OSetMeanMotion (v : arg F) | OSetEqui (v : kinput F)
| OSetVelocity (v : arg F) | OSetType (s : string)
| OSetM (inds : Idx) (v : arg F) | OSetFlags (a d k c : bool)
| OUpdate (inds : Idx) (kw : kws) | OCalcCart (inds : Idx) | OCalcKep (inds : Idx)
| OCalcTrue (inds : Idx) | OCalcMean (inds : Idx) | OCalcEcc (inds : Idx)
| OPropagate (dt : arg F) | ODelete (inds : Idx) | OAdd (n : nat) (kw : kws) | OAllocate (n : nat)
| OIter | ONext.
Definition void {A} (m : M A) : M unit := m ;;; ret tt.
Definition run_op (o : op) : M unit :=
  match o with
  | OGetCart => void get_cartesian | OGetKep => void get_kepler
  | OGetTrue => void get_true_anomaly | OGetEcc => void get_eccentric_anomaly
  | OGetMean => void get_mean_anomaly | OGetPeriod => void get_period
  | OGetEqui => void get_equinoctial
  | OGetVelocity => void get_velocity | OGetSpeed => void get_speed
  | OSetCartRow k v => set_cart_row k v | OSetKepRow k v => set_kep_row k v
  | OSetR v => set_r v | OSetV v => set_v v
  | OSetCart v => set_cartesian v | OSetKep v => set_kepler v
  | OSetTrue v => set_true_anomaly v | OSetEcc v => set_eccentric_anomaly v
  | OSetMean v => set_mean_anomaly v
  | OSetPeriod v => set_period v | OSetMeanMotion v => set_mean_motion v
  | OSetEqui v => set_equinoctial v
  | OSetVelocity v => set_velocity v | OSetType t => set_type t
  | OSetM i v => set_m i v | OSetFlags a d k c => modify (with_flags a d k c)
  | OUpdate i kw => update i kw | OCalcCart i => calculate_cartesian i
  | OCalcKep i => calculate_kepler i
  | OCalcTrue i => calc_true_anomaly i | OCalcMean i => calc_mean_anomaly i
  | OCalcEcc i => calc_eccentric_anomaly i
  | OPropagate dt => propagate dt | ODelete i => delete i
  | OAdd n kw => add_orbits n kw | OAllocate n => allocate n
  | OIter => iter | ONext => void next
  end.
End Orbit.
Arguments orb F : clear implicits.
Arguments kws F : clear implicits.
Arguments config F : clear implicits.
Arguments op F : clear implicits.
