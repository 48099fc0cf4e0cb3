(** * The Orbit class with its arrays in memory (/repo/pyorb/orbit.py).
    OrbitModel.v keeps the arrays of an object as values.  Here every attribute is a reference to a
    memory cell, [self._cart\[...\] = x] writes into the cell the attribute refers to,
    [self._cart = x] makes the attribute refer to another cell, [.copy()] allocates a cell, and the
    caller may keep the references handed out and write through them.  Numbers, strings and booleans
    are immutable in Python and stay values; [epoch] is not modelled.  Argument arrays are read when
    the call starts.  Method bodies follow OrbitModel.v; line numbers refer to orbit.py. *)
From Coq Require Import Ascii String List Bool ZArith QArith.
From Verif Require Import NP KeplerModel ConvModel UnitModel OrbitModel.
Import ListNotations.
Local Open Scope nat_scope.

Section Heap.
Context {F : Type} `{NP F}.
Notation orb := (orb F).
(** contents of a cell: an ndarray of floats (or a numpy float), a (6,N) ndarray, an ndarray of
    booleans, a dict of solver options *)
Inductive cell := CA (x : arg F) | C6 (l : list (six F)) | CB (l : list bool) | CO (o : solver_options F).
Definition cA (c : cell) : arg F := match c with CA x => x | _ => fresh [0] [] end.
Definition c6 (c : cell) : list (six F) := match c with C6 l => l | _ => [] end.
Definition cB (c : cell) : list bool := match c with CB l => l | _ => [] end.
Definition cO (d : solver_options F) (c : cell) : solver_options F := match c with CO o => o | _ => d end.
(** memory: the cells allocated so far; an address is a position *)
Definition heap := list cell.
Definition ld (h : heap) (a : nat) : cell := nth a h (CB []).
(** an object: its immutable attributes (kept in a record [orb] whose arrays are not used) and the
    cells its attributes solver_options, m, _cart, _kep, _true_anomaly, _eccentric_anomaly,
    _mean_anomaly, __cart_calculated, __kep_calculated refer to *)
Record obj := mkobj { b_s : orb;
  a_o : nat; a_m : nat; a_cart : nat; a_kep : nat; a_nu : nat; a_E : nat; a_Ma : nat; a_cf : nat; a_kf : nat }.
Definition arr1 (l : list F) : cell := CA (fresh [length l] l).
(** the values an object has in a memory *)
Definition view (b : obj) (h : heap) : orb :=
  let s := b_s b in
  mkorb (oM0 s) (oG s) (oauto s) (odirect s) (okro s) (ocro s) (odeg s) (otype s) (cO (oopts s) (ld h (a_o b)))
    (adata (cA (ld h (a_m b)))) (c6 (ld h (a_cart b))) (c6 (ld h (a_kep b)))
    (adata (cA (ld h (a_nu b)))) (cA (ld h (a_E b))) (adata (cA (ld h (a_Ma b))))
    (cB (ld h (a_cf b))) (cB (ld h (a_kf b))) (oit s).

(** ** Methods: memory and object before, memory and object after, value or exception *)
Definition HM (A : Type) := obj * heap -> (obj * heap) * res A.
Definition hret {A} (x : A) : HM A := fun st => (st, Ok x).
Definition hraise {A} (e : exn) : HM A := fun st => (st, Raise e).
Definition hbind {A B} (m : HM A) (f : A -> HM B) : HM B :=
  fun st => match m st with (st', Ok x) => f x st' | (st', Raise e) => (st', Raise e) end.
Definition hlift {A} (r : res A) : HM A := fun st => (st, r).
(** reading attributes *)
Definition hget : HM orb := fun st => (st, Ok (view (fst st) (snd st))).
(** [self.attr\[...\] = ...]: the cell is changed in place *)
Definition wr (a : obj -> nat) (g : cell -> cell) : HM unit :=
  fun st => let '(b, h) := st in ((b, upd_nth (a b) (g (ld h (a b))) h), Ok tt).
Definition w_m (g : list F -> list F) : HM unit := wr a_m (fun c => arr1 (g (adata (cA c)))).
Definition w_cart (g : list (six F) -> list (six F)) : HM unit := wr a_cart (fun c => C6 (g (c6 c))).
Definition w_kep (g : list (six F) -> list (six F)) : HM unit := wr a_kep (fun c => C6 (g (c6 c))).
Definition w_nu (g : list F -> list F) : HM unit := wr a_nu (fun c => arr1 (g (adata (cA c)))).
Definition w_E (g : arg F -> arg F) : HM unit := wr a_E (fun c => CA (g (cA c))).
Definition w_Ma (g : list F -> list F) : HM unit := wr a_Ma (fun c => arr1 (g (adata (cA c)))).
Definition w_cf (g : list bool -> list bool) : HM unit := wr a_cf (fun c => CB (g (cB c))).
Definition w_kf (g : list bool -> list bool) : HM unit := wr a_kf (fun c => CB (g (cB c))).
(** a new array: [.copy()], results of numpy functions *)
Definition hnew (c : cell) : HM nat := fun st => let '(b, h) := st in ((b, h ++ [c]), Ok (length h)).
(** [self.attr = <new array>] *)
Definition rb (set : obj -> nat -> obj) (c : cell) : HM unit :=
  fun st => let '(b, h) := st in ((set b (length h), h ++ [c]), Ok tt).
Definition to_m b a := mkobj (b_s b) (a_o b) a (a_cart b) (a_kep b) (a_nu b) (a_E b) (a_Ma b) (a_cf b) (a_kf b).
Definition to_cart b a := mkobj (b_s b) (a_o b) (a_m b) a (a_kep b) (a_nu b) (a_E b) (a_Ma b) (a_cf b) (a_kf b).
Definition to_kep b a := mkobj (b_s b) (a_o b) (a_m b) (a_cart b) a (a_nu b) (a_E b) (a_Ma b) (a_cf b) (a_kf b).
Definition to_nu b a := mkobj (b_s b) (a_o b) (a_m b) (a_cart b) (a_kep b) a (a_E b) (a_Ma b) (a_cf b) (a_kf b).
Definition to_E b a := mkobj (b_s b) (a_o b) (a_m b) (a_cart b) (a_kep b) (a_nu b) a (a_Ma b) (a_cf b) (a_kf b).
Definition to_Ma b a := mkobj (b_s b) (a_o b) (a_m b) (a_cart b) (a_kep b) (a_nu b) (a_E b) a (a_cf b) (a_kf b).
Definition to_cf b a := mkobj (b_s b) (a_o b) (a_m b) (a_cart b) (a_kep b) (a_nu b) (a_E b) (a_Ma b) a (a_kf b).
Definition to_kf b a := mkobj (b_s b) (a_o b) (a_m b) (a_cart b) (a_kep b) (a_nu b) (a_E b) (a_Ma b) (a_cf b) a.
Definition rb_m (l : list F) := rb to_m (arr1 l).
Definition rb_cart (l : list (six F)) := rb to_cart (C6 l).
Definition rb_kep (l : list (six F)) := rb to_kep (C6 l).
Definition rb_nu (l : list F) := rb to_nu (arr1 l).
Definition rb_E (x : arg F) := rb to_E (CA x).
Definition rb_Ma (l : list F) := rb to_Ma (arr1 l).
Definition rb_cf (l : list bool) := rb to_cf (CB l).
Definition rb_kf (l : list bool) := rb to_kf (CB l).
(** assignment of an immutable attribute *)
Definition hset (g : orb -> orb) : HM unit :=
  fun st => let '(b, h) := st in
    ((mkobj (g (b_s b)) (a_o b) (a_m b) (a_cart b) (a_kep b) (a_nu b) (a_E b) (a_Ma b) (a_cf b) (a_kf b), h), Ok tt).
(** the contents of an array *)
Definition deref (m : HM nat) : HM (arg F) := hbind m (fun a st => (st, Ok (cA (ld (snd st) a)))).
Definition rd1 (m : HM nat) : HM (list F) := hbind (deref m) (fun x => hret (adata x)).

Declare Scope heap_scope.
Notation "'do' x <- m ;; k" := (hbind m (fun x => k))
  (at level 200, x pattern, m at level 100, k at level 200) : heap_scope.
Notation "m ;;; k" := (hbind m (fun _ => k)) (at level 199, right associativity) : heap_scope.
Local Open Scope heap_scope.
Local Open Scope np_scope.
Variable gb : nat -> nat -> F.

(** 468-501 *)
Fixpoint h_calculate_kepler_f (fuel : nat) (inds : Idx) : HM unit :=
  match fuel with
  | O => hraise RecursionError
  | S f =>
    do s <- hget ;;
    do ps <- hlift (resolve (num s) inds) ;;
    let dm := do_mask (ocart s) ps in
    if negb (any dm) then hret tt
    else
      w_kf (mset_s dm true) ;;;                                                   (* 483 *)
      do s <- hget ;;
      do k <- hlift (from_mat (snd (cart_to_kep gb (KMat (mget dm (ocart s)))
                       (MuV (map (mu_of s) (mget dm (om s)))) (odeg s)))) ;;
      w_kep (mset dm k) ;;;                                                       (* 484 *)
      let conv (fn : arg F -> arg F -> bool -> res (arg F)) : HM unit :=
        do st1 <- hget ;;
        let nu := mget dm (map s5 (okep st1)) in                                  (* 492 *)
        (if oauto st1 && negb (odirect st1)                                       (* self.e *)
         then h_calculate_kepler_f f (IMask (map negb (okf st1))) else hret tt) ;;;
        do row <- rd1 (do st2 <- hget ;; hnew (arr1 (map s1 (okep st2)))) ;;      (* .copy() *)
        let e := mget dm row in
        do st2 <- hget ;;
        do x <- hlift (fn (fresh [length nu] nu) (fresh [length e] e) (odeg st2)) ;;
        w_kep (fun kep => map2 set5 kep (mset dm (adata x) (map s5 kep))) in
      match otype s with
      | AEcc => conv (true_to_eccentric (gb 20))
      | AMean => conv (true_to_mean (gb 20) (gb 21))
      | ATrue => hret tt
      end
  end.
Definition h_calculate_kepler := h_calculate_kepler_f 3.
(** 157-161 *)
Definition h_kep_check : HM unit :=
  do s <- hget ;;
  if oauto s && negb (odirect s) then h_calculate_kepler (IMask (map negb (okf s))) else hret tt.
(** 709-805: [self._kep\[k, :\].copy()] *)
Definition h_get_kep_row (k : nat) : HM nat :=
  h_kep_check ;;; do s <- hget ;; hnew (arr1 (map (row_get k) (okep s))).
Definition h_anom := rd1 (h_get_kep_row 5).
Definition h_e := rd1 (h_get_kep_row 1).
(** 844-862: line 848, 854, 861 write into the array *)
Definition h_calc_true_anomaly (inds : Idx) : HM unit :=
  do s <- hget ;;
  do x <-
    match otype s with
    | AEcc =>
        do an <- h_anom ;; do xa <- hlift (sel an inds) ;;
        do e <- h_e ;; do xe <- hlift (sel e inds) ;;
        hlift (eccentric_to_true (gb 22) xa xe (odeg s))
    | AMean =>
        do an <- h_anom ;; do xa <- hlift (sel an inds) ;;
        do e <- h_e ;; do xe <- hlift (sel e inds) ;;
        hlift (mean_to_true (gb 22) xa xe (oopts s) (odeg s))
    | ATrue => do an <- h_anom ;; hlift (sel an inds)
    end ;;
  do s <- hget ;;
  do row <- hlift (assign (onu s) inds x) ;;
  w_nu (fun _ => row).
(** 864-881 *)
Definition h_calc_mean_anomaly (inds : Idx) : HM unit :=
  do s <- hget ;;
  do x <-
    match otype s with
    | AEcc =>
        do an <- h_anom ;; do xa <- hlift (sel an inds) ;;
        do e <- h_e ;; do xe <- hlift (sel e inds) ;;
        hlift (eccentric_to_mean (gb 23) xa xe (odeg s))
    | ATrue =>
        do an <- h_anom ;; do xa <- hlift (sel an inds) ;;
        do e <- h_e ;; do xe <- hlift (sel e inds) ;;
        hlift (true_to_mean (gb 23) (gb 24) xa xe (odeg s))
    | AMean => do an <- h_anom ;; hlift (sel an inds)
    end ;;
  do s <- hget ;;
  do row <- hlift (assign (oMa s) inds x) ;;
  w_Ma (fun _ => row).
(** 883-901; line 888 replaces the attribute, lines 894 and 900 write into the array *)
Definition h_calc_eccentric_anomaly (inds : Idx) : HM unit :=
  do s <- hget ;;
  match otype s with
  | AMean =>
      do an <- h_anom ;; do xa <- hlift (sel an inds) ;;
      do e <- h_e ;; do xe <- hlift (sel e inds) ;;
      do x <- hlift (mean_to_eccentric xa xe (oopts s) (odeg s)) ;;
      rb_E x
  | _ =>
      do x <-
        match otype s with
        | ATrue =>
            do an <- h_anom ;; do xa <- hlift (sel an inds) ;;
            do e <- h_e ;; do xe <- hlift (sel e inds) ;;
            hlift (true_to_eccentric (gb 25) xa xe (odeg s))
        | _ => do an <- h_anom ;; hlift (sel an inds)
        end ;;
      do s <- hget ;;
      match oE s with
      | Sc _ => hraise TypeError
      | Arr _ _ d => do row <- hlift (assign d inds x) ;;
                     w_E (fun _ => fresh [length row] row)
      end
  end.
(** 439-466; indexing with a mask (456, 458, 463) copies *)
Definition h_calculate_cartesian (inds : Idx) : HM unit :=
  do s <- hget ;;
  do ps <- hlift (resolve (num s) inds) ;;
  let dm := do_mask (okep s) ps in
  if negb (any dm) then hret tt
  else
    w_cf (mset_s dm true) ;;;                                                     (* 454 *)
    let kep_tmp := mget dm (okep s) in                                            (* 456/458 *)
    do kep_tmp <-
      match otype s with
      | ATrue => hret kep_tmp
      | _ => h_calc_true_anomaly (IMask dm) ;;;
             do s <- hget ;; hret (map2 set5 kep_tmp (mget dm (onu s)))           (* 460 *)
      end ;;
    do s <- hget ;;
    do c <- hlift (from_mat (snd (kep_to_cart (gb 26) (KMat kep_tmp)
                     (MuV (map (mu_of s) (mget dm (om s)))) (odeg s)))) ;;
    w_cart (mset dm c).
(** 151-155 *)
Definition h_cart_check : HM unit :=
  do s <- hget ;;
  if oauto s && negb (odirect s) then h_calculate_cartesian (IMask (map negb (ocf s))) else hret tt.

(** ** Getters: they return references *)
(** a (6,N) or (3,N) array as the caller sees it *)
Definition flat6 (l : list (six F)) : arg F :=
  fresh [6; length l] (map s0 l ++ map s1 l ++ map s2 l ++ map s3 l ++ map s4 l ++ map s5 l).
Definition flat3 (l : list (v3 F)) : arg F :=
  fresh [3; length l] (map c0 l ++ map c1 l ++ map c2 l).
Definition flatk (k : kinput F) : arg F :=
  match k with
  | KVec c => fresh [6] [s0 c; s1 c; s2 c; s3 c; s4 c; s5 c]
  | KMat l => flat6 l
  | _ => fresh [0] []
  end.
Definition flat1 (l : list F) : arg F := fresh [length l] l.
(** 551-556, 684-689: [self._cart.copy()] *)
Definition h_get_cartesian : HM nat := h_cart_check ;;; do s <- hget ;; hnew (CA (flat6 (ocart s))).
Definition h_get_kepler : HM nat := h_kep_check ;;; do s <- hget ;; hnew (CA (flat6 (okep s))).
(** 576-671 *)
Definition h_get_cart_row (k : nat) : HM nat :=
  h_cart_check ;;; do s <- hget ;; hnew (arr1 (map (row_get k) (ocart s))).
(** 513-518, 532-537 *)
Definition h_get_r : HM nat := h_cart_check ;;; do s <- hget ;; hnew (CA (flat3 (map pos_of (ocart s)))).
Definition h_get_v : HM nat := h_cart_check ;;; do s <- hget ;; hnew (CA (flat3 (map vel_of (ocart s)))).
(** 1042-1047 *)
Definition h_get_period : HM nat :=
  h_kep_check ;;; do a <- rd1 (h_get_kep_row 0) ;; do s <- hget ;;
  hnew (arr1 (map2 orbital_period a (map (mu_of s) (om s)))).
(** 818-827 *)
Definition h_get_mean_motion : HM nat :=
  do s <- hget ;; do p <- rd1 h_get_period ;; hnew (arr1 (map (fun p => circle (odeg s) / p) p)).
(** 903-916: [self._eccentric_anomaly.copy()] *)
Definition h_get_eccentric_anomaly : HM nat :=
  do s <- hget ;;
  match otype s with
  | AEcc => h_get_kep_row 5
  | _ => h_calc_eccentric_anomaly IAll ;;; do s <- hget ;; hnew (CA (oE s))
  end.
(** 942-950 *)
Definition h_get_true_anomaly : HM nat :=
  do s <- hget ;;
  match otype s with
  | ATrue => h_get_kep_row 5
  | _ => h_calc_true_anomaly IAll ;;; do s <- hget ;; hnew (arr1 (onu s))
  end.
(** 976-984 *)
Definition h_get_mean_anomaly : HM nat :=
  do s <- hget ;;
  match otype s with
  | AMean => h_get_kep_row 5
  | _ => h_calc_mean_anomaly IAll ;;; do s <- hget ;; hnew (arr1 (oMa s))
  end.
(** 1012-1022 *)
Definition h_get_apoapsis : HM nat :=
  do e <- h_e ;; do a <- rd1 (h_get_kep_row 0) ;; hnew (arr1 (map2 (fun e a => (lit 1 + e) * a) e a)).
Definition h_get_periapsis : HM nat :=
  do e <- h_e ;; do a <- rd1 (h_get_kep_row 0) ;; hnew (arr1 (map2 (fun e a => (lit 1 - e) * a) e a)).
Definition h_get_mean_longitude : HM nat :=
  do m <- rd1 h_get_mean_anomaly ;; do o <- rd1 (h_get_kep_row 3) ;; do Om <- rd1 (h_get_kep_row 4) ;;
  hnew (arr1 (map3 (fun m o Om => m + o + Om) m o Om)).
(** 1024-1031: line 1027 writes into the copy that [self.kepler] returned *)
Definition h_get_equinoctial : HM nat :=
  do k <- h_get_kepler ;; do kep <- (do s <- hget ;; hret (okep s)) ;;
  do m <- rd1 h_get_mean_anomaly ;;
  (fun st => let '(b, h) := st in ((b, upd_nth k (CA (flat6 (map2 set5 kep m))) h), Ok tt)) ;;;
  do s <- hget ;;
  let e := kep_to_equi_cols (odeg s) (map2 set5 kep m) in
  match e with [c] => hnew (CA (flatk (KVec c))) | _ => hnew (CA (flatk (KMat e))) end.
(** the columns of the array [self.v] returned *)
Definition h_v : HM (list (v3 F)) :=
  h_get_v ;;; do s <- hget ;; hret (map vel_of (ocart s)).
(** 1062-1067 *)
Definition h_get_velocity : HM nat :=
  h_cart_check ;;; do v <- h_v ;; hnew (arr1 (map vnorm v)).
(** 1080-1094 *)
Definition h_get_speed : HM nat :=
  h_kep_check ;;;
  do E <- deref h_get_eccentric_anomaly ;; do a <- rd1 (h_get_kep_row 0) ;; do e <- h_e ;;
  do s <- hget ;;
  do E <- hlift (bcast1 (length a) E) ;;
  let r := map3 (fun E a e => elliptic_radius E a e (odeg s)) E a e in
  do a <- rd1 (h_get_kep_row 0) ;; do s <- hget ;;
  hnew (arr1 (map3 orbital_speed r a (map (mu_of s) (om s)))).

(** ** Setters: they copy the values into the arrays of the object *)
(** 583-682 *)
Definition h_set_cart_row (k : nat) (v : arg F) : HM unit :=
  do s <- hget ;;
  if ocro s then hraise AttributeError else
  do vs <- hlift (bcast1 (length (ocart s)) v) ;;
  w_cart (fun c => set_row k c vs) ;;;
  do s <- hget ;;
  if odirect s then h_calculate_kepler IAll else w_kf all_false.
(** 716-816 *)
Definition h_set_kep_row (k : nat) (v : arg F) : HM unit :=
  do s <- hget ;;
  if okro s then hraise AttributeError else
  do vs <- hlift (bcast1 (length (okep s)) v) ;;
  w_kep (fun c => set_row k c vs) ;;;
  do s <- hget ;;
  if odirect s then h_calculate_cartesian IAll else w_cf all_false.
Definition h_set_anom := h_set_kep_row 5.
(** 526-530, 545-549, 570-574 *)
Definition h_after_cart : HM unit :=
  do s <- hget ;;
  if odirect s then h_calculate_kepler IAll else w_kf all_false ;;; w_cf all_true.
(** 703-707 *)
Definition h_after_kep : HM unit :=
  do s <- hget ;;
  if odirect s then h_calculate_cartesian IAll else w_cf all_false ;;; w_kf all_true.
(** 520-530, 539-549 *)
Definition h_set_r (v : arg F) : HM unit :=
  do s <- hget ;;
  if ocro s then hraise AttributeError else
  do vs <- hlift (bcast2 3 (length (ocart s)) v) ;;
  w_cart (fun c => map2 set_top c vs) ;;; h_after_cart.
Definition h_set_v (v : arg F) : HM unit :=
  do s <- hget ;;
  if ocro s then hraise AttributeError else
  do vs <- hlift (bcast2 3 (length (ocart s)) v) ;;
  w_cart (fun c => map2 set_bot c vs) ;;; h_after_cart.
(** 558-574, 691-707 *)
Definition h_set_cartesian (v : arg F) : HM unit :=
  do s <- hget ;;
  if ocro s then hraise AttributeError else
  do cs <- hlift (whole_value (length (ocart s)) v) ;;
  w_cart (fun _ => cs) ;;; h_after_cart.
Definition h_set_kepler (v : arg F) : HM unit :=
  do s <- hget ;;
  if okro s then hraise AttributeError else
  do cs <- hlift (whole_value (length (okep s)) v) ;;
  w_kep (fun _ => cs) ;;; h_after_kep.
(** 937-940, 971-974, 1007-1010 *)
Definition h_after_anom : HM unit :=
  do s <- hget ;;
  if odirect s then h_calculate_cartesian IAll else w_cf all_false.
(** 918-940 *)
Definition h_set_eccentric_anomaly (v : arg F) : HM unit :=
  do s <- hget ;;
  if okro s then hraise AttributeError else
  match otype s with
  | AEcc => h_set_anom v
  | ATrue => do e <- h_e ;;
             do x <- hlift (eccentric_to_true (gb 27) v (fresh [length e] e) (odeg s)) ;; h_set_anom x
  | AMean => do e <- h_e ;;
             do x <- hlift (eccentric_to_mean (gb 27) v (fresh [length e] e) (odeg s)) ;; h_set_anom x
  end ;;; h_after_anom.
(** 952-974 *)
Definition h_set_true_anomaly (v : arg F) : HM unit :=
  do s <- hget ;;
  if okro s then hraise AttributeError else
  match otype s with
  | ATrue => h_set_anom v
  | AEcc => do e <- h_e ;;
            do x <- hlift (true_to_eccentric (gb 27) v (fresh [length e] e) (odeg s)) ;; h_set_anom x
  | AMean => do e <- h_e ;;
             do x <- hlift (true_to_mean (gb 27) (gb 28) v (fresh [length e] e) (odeg s)) ;;
             h_set_anom x
  end ;;; h_after_anom.
(** 986-1010 *)
Definition h_set_mean_anomaly (v : arg F) : HM unit :=
  do s <- hget ;;
  if okro s then hraise AttributeError else
  match otype s with
  | AMean => h_set_anom v
  | ATrue => do e <- h_e ;;
             do x <- hlift (mean_to_true (gb 27) v (fresh [length e] e) (oopts s) (odeg s)) ;;
             h_set_anom x
  | AEcc => do e <- h_e ;;
            do x <- hlift (mean_to_eccentric v (fresh [length e] e) (oopts s) (odeg s)) ;;
            h_set_anom x
  end ;;; h_after_anom.
(** 1049-1060, 829-842 *)
Definition h_set_period (v : arg F) : HM unit := hraise TypeError.
Definition h_set_mean_motion (v : arg F) : HM unit :=
  do s <- hget ;;
  if okro s then hraise AttributeError else h_set_period v ;;; h_after_anom.
(** 1033-1040 *)
Definition h_set_equinoctial (vals : kinput F) : HM unit :=
  do s <- hget ;;
  do elems <- hlift (equi_to_kep gb vals (odeg s)) ;;
  match elems with
  | KVec k =>
      w_kep (map (fun c => set_head c k)) ;;;
      h_set_mean_anomaly (Arr [] [0%nat] [s5 k])
  | KMat l =>
      (match l with
       | [k] => w_kep (map (fun c => set_head c k))
       | _ => if Nat.eqb (length l) (length (okep s))
              then w_kep (fun c => map2 set_head c l) else hraise ValueError
       end) ;;;
      h_set_mean_anomaly (fresh [length l] (map s5 l))
  | _ => hraise TypeError
  end.
(** 1069-1078: [self.v *= q] scales the copy that [self.v] returned and assigns it *)
Definition h_set_velocity (v : arg F) : HM unit :=
  do s <- hget ;;
  if ocro s then hraise AttributeError else
  do old <- h_v ;;
  do cur <- h_v ;;
  do sp <- hlift (bcast1 (length old) v) ;;
  let q := map2 (fun x n => x / n) sp (map vnorm cur) in
  let new := map2 (fun (u : v3 F) q => (c0 u * q, c1 u * q, c2 u * q)) old q in
  h_set_v (fresh [3; length new] (map c0 new ++ map c1 new ++ map c2 new)) ;;;
  do s <- hget ;;
  if odirect s then h_calculate_kepler IAll else w_kf all_false.
(** 219-231 *)
Definition h_set_type (val : string) : HM unit :=
  match anomaly_of (strip (lower val)) with
  | None => hraise ValueError
  | Some t =>
      do s <- hget ;;
      if anomaly_eqb (otype s) t then hret tt
      else
        match t with
        | ATrue => do x <- rd1 h_get_true_anomaly ;; h_set_anom (fresh [length x] x)
        | AEcc => do x <- deref h_get_eccentric_anomaly ;; h_set_anom x
        | AMean => do x <- rd1 h_get_mean_anomaly ;; h_set_anom (fresh [length x] x)
        end ;;;
        hset (with_type t)
  end.
(** 233-244 *)
Definition h_propagate (dt : arg F) : HM unit :=
  do s <- hget ;;
  let wrap := if odeg s then lit 360 else lit 2 * npi in
  do m <- rd1 h_get_mean_anomaly ;;
  do n <- rd1 h_get_mean_motion ;;
  do dts <- hlift (bcast1 (length n) dt) ;;
  let x := map3 (fun m n dt => nmod (m + n * dt) wrap) m n dts in
  h_set_mean_anomaly (fresh [length x] x) ;;;
  do s <- hget ;;
  if odirect s then h_calculate_cartesian IAll else hret tt.

(** ** Containers: np.delete, np.append and np.full return new arrays *)
(** 246-261 *)
Definition h_delete (inds : Idx) : HM unit :=
  do s <- hget ;;
  do m <- hlift (del inds (om s)) ;;      rb_m m ;;;
  do c <- hlift (del inds (ocart s)) ;;   rb_cart c ;;;
  do k <- hlift (del inds (okep s)) ;;    rb_kep k ;;;
  do nu <- hlift (del inds (onu s)) ;;    rb_nu nu ;;;
  do E <- hlift (del_arg inds (oE s)) ;;  rb_E E ;;;
  do Ma <- hlift (del inds (oMa s)) ;;    rb_Ma Ma ;;;
  do cf <- hlift (del inds (ocf s)) ;;    rb_cf cf ;;;
  do kf <- hlift (del inds (okf s)) ;;    rb_kf kf.
(** 325-341 *)
Definition h_allocate (n : nat) : HM unit :=
  rb_m (repeat (lit 0) n) ;;; rb_cart (repeat nan6c n) ;;; rb_kep (repeat nan6c n) ;;;
  rb_nu (repeat nan n) ;;; rb_E (fresh [n] (repeat nan n)) ;;; rb_Ma (repeat nan n) ;;;
  rb_cf (repeat false n) ;;; rb_kf (repeat false n).
(** 377-381, 423-427 *)
Definition h_mark_cart (inds : Idx) : HM unit :=
  do s <- hget ;;
  if odirect s then h_calculate_kepler IAll
  else do kf <- hlift (flag inds false (okf s)) ;; w_kf (fun _ => kf) ;;;
       do cf <- hlift (flag inds true (ocf s)) ;; w_cf (fun _ => cf).
(** 388-392, 433-437 *)
Definition h_mark_kep (inds : Idx) : HM unit :=
  do s <- hget ;;
  if odirect s then h_calculate_cartesian IAll
  else do cf <- hlift (flag inds false (ocf s)) ;; w_cf (fun _ => cf) ;;;
       do kf <- hlift (flag inds true (okf s)) ;; w_kf (fun _ => kf).
(** 343-437 *)
Definition h_update (inds : Idx) (kw : kws F) : HM unit :=
  do s <- hget ;;
  match kw_cartesian kw with
  | Some v =>
      if ocro s then hraise AttributeError else
      do cs <- hlift (assign_cols (ocart s) inds v) ;;
      w_cart (fun _ => cs) ;;; h_mark_cart inds
  | None =>
  match kw_kepler kw with
  | Some v =>
      if okro s then hraise AttributeError else
      do cs <- hlift (assign_cols (okep s) inds v) ;;
      w_kep (fun _ => cs) ;;; h_mark_kep inds
  | None =>
      let cart_updated := some6 (kw_c kw) in
      let kep_updated := some6 (kw_k kw) in
      if cart_updated && ocro s then hraise AttributeError
      else if kep_updated && okro s then hraise AttributeError
      else if kep_updated && cart_updated then hraise ValueError
      else
        match kw_m kw with
        | None => hret tt
        | Some v => if odirect s then hraise ValueError
                    else do row <- hlift (assign (om s) inds v) ;;
                         w_m (fun _ => row)
        end ;;;
        (if cart_updated then
           (do s <- hget ;; let '(cs, r) := assign_keys (keys (kw_c kw)) (ocart s) inds in
            w_cart (fun _ => cs) ;;; hlift r) ;;; h_mark_cart inds
         else hret tt) ;;;
        (if kep_updated then
           (do s <- hget ;; let '(cs, r) := assign_keys (keys (kw_k kw)) (okep s) inds in
            w_kep (fun _ => cs) ;;; hlift r) ;;; h_mark_kep inds
         else hret tt)
  end
  end.
(** 263-323 *)
Definition h_add_orbits (n : nat) (kw : kws F) : HM unit :=
  do s <- hget ;;
  let k := num s in
  let inds := IRange k (k + n) in
  rb_m (om s ++ repeat (lit 0) n) ;;;
  rb_cart (ocart s ++ repeat nan6c n) ;;;
  rb_kep (okep s ++ repeat nan6c n) ;;;
  rb_nu (onu s ++ repeat nan n) ;;;
  match oE s with
  | Sc _ => hraise ValueError
  | Arr _ _ d => rb_E (fresh [length d + n]%nat (d ++ repeat nan n))
  end ;;;
  rb_Ma (oMa s ++ repeat nan n) ;;;
  rb_cf (ocf s ++ repeat false n) ;;;
  rb_kf (okf s ++ repeat false n) ;;;
  match kw_m kw with
  | None => hret tt
  | Some v => do s <- hget ;; do row <- hlift (assign (om s) inds v) ;;
              w_m (fun _ => row)
  end ;;;
  h_update inds (drop_m kw).
(** [orb.m\[inds\] = v] *)
Definition h_set_m (inds : Idx) (v : arg F) : HM unit :=
  do s <- hget ;; do row <- hlift (assign (om s) inds v) ;; w_m (fun _ => row).

(** ** Construction, indexing, iteration *)
(** 102-135; the dict of line 110 and (before allocate) no arrays *)
Definition h_blank (s : orb) (o : solver_options F) (h : heap) : obj * heap :=
  let n := length h in
  (mkobj s n (n + 1) (n + 2) (n + 3) (n + 4) (n + 5) (n + 6) (n + 7) (n + 8),
   h ++ [CO o; arr1 []; C6 []; C6 []; arr1 []; CA (fresh [0%nat] []); arr1 []; CB []; CB []]).
Definition h_init (M0 : F) (c : config F) (kw : kws F) (h : heap) : heap * res obj :=
  match anomaly_of (cf_type c) with
  | None => (h, Raise ValueError)
  | Some t =>
      let s0 := mkorb M0 (cf_G c) (cf_auto c) (cf_direct c) false false (cf_deg c) t
                      (cf_opts c) [] [] [] [] (fresh [0%nat] []) [] [] [] None in
      let body : HM unit :=
        h_allocate (cf_num c) ;;;
        match kw_m kw with None => hret tt | Some v => h_set_m IAll v end ;;;
        (if Nat.eqb (cf_num c) 0 then hret tt else h_update IAll (drop_m kw)) ;;;
        hset (with_flags (cf_auto c) (cf_direct c) (cf_kro c) (cf_cro c)) in
      match body (h_blank s0 (cf_opts c) h) with
      | ((b, h), Ok _) => (h, Ok b)
      | ((_, h), Raise e) => (h, Raise e)
      end
  end.
Definition anom_name (t : anomaly) : string :=
  match t with ATrue => "true" | AEcc => "eccentric" | AMean => "mean" end%string.
(** 169-199 *)
Definition h_getitem (inds : Idx) (b : obj) (h : heap) : heap * res obj :=
  let s := view b h in
  match resolve (length (om s)) inds with
  | Raise e => (h, Raise e)
  | Ok ps =>
      let m := pick ps (om s) in
      let h := h ++ [arr1 m] in                                                   (* 170 *)
      match h_init (oM0 s) (mkconfig true true (oG s) (oopts s) (odeg s) (anom_name (otype s)) (length m) false false)
                   (mkkws None None (Some (flat1 m)) no6 no6) h with              (* 176-186 *)
      | (h, Raise e) => (h, Raise e)
      | (h, Ok t) =>
          match (hset (with_flags (oauto s) (odirect s) (okro s) (ocro s)) ;;;    (* 187-190 *)
                 do ps' <- hlift (resolve (length (okep s)) inds) ;;
                 rb_cart (pick ps' (ocart s)) ;;;                                 (* 192 *)
                 rb_kep (pick ps' (okep s))) (t, h) with                          (* 193 *)
          | ((t, h), Ok _) => (h, Ok t)
          | ((_, h), Raise e) => (h, Raise e)
          end
      end
  end.
(** 204-213 *)
Definition h_iter : HM unit := hset (with_it (Some 0%nat)).
Definition h_next : HM obj :=
  do s <- hget ;;
  match oit s with
  | None => hraise AttributeError
  | Some k => if Nat.ltb k (num s)
              then hset (with_it (Some (S k))) ;;;
                   (fun st => let '(b, h) := st in
                    let '(h', r) := h_getitem (IInt (Z.of_nat k)) b h in ((b, h'), r))
              else hraise StopIteration
  end.

Definition hvoid {A} (m : HM A) : HM unit := m ;;; hret tt.
Definition h_run (o : op F) : HM unit :=
  match o with
  | OGetCart => hvoid h_get_cartesian | OGetKep => hvoid h_get_kepler
  | OGetTrue => hvoid h_get_true_anomaly | OGetEcc => hvoid h_get_eccentric_anomaly
  | OGetMean => hvoid h_get_mean_anomaly | OGetPeriod => hvoid h_get_period
  | OGetEqui => hvoid h_get_equinoctial
  | OGetVelocity => hvoid h_get_velocity | OGetSpeed => hvoid h_get_speed
  | OSetCartRow k v => h_set_cart_row k v | OSetKepRow k v => h_set_kep_row k v
  | OSetR v => h_set_r v | OSetV v => h_set_v v
  | OSetCart v => h_set_cartesian v | OSetKep v => h_set_kepler v
  | OSetTrue v => h_set_true_anomaly v | OSetEcc v => h_set_eccentric_anomaly v
  | OSetMean v => h_set_mean_anomaly v
  | OSetPeriod v => h_set_period v | OSetMeanMotion v => h_set_mean_motion v
  | OSetEqui v => h_set_equinoctial v
  | OSetVelocity v => h_set_velocity v | OSetType t => h_set_type t
  | OSetM i v => h_set_m i v | OSetFlags a d k c => hset (with_flags a d k c)
  | OUpdate i kw => h_update i kw | OCalcCart i => h_calculate_cartesian i
  | OCalcKep i => h_calculate_kepler i
  | OCalcTrue i => h_calc_true_anomaly i | OCalcMean i => h_calc_mean_anomaly i
  | OCalcEcc i => h_calc_eccentric_anomaly i
  | OPropagate dt => h_propagate dt | ODelete i => h_delete i
  | OAdd n kw => h_add_orbits n kw | OAllocate n => h_allocate n
  | OIter => h_iter | ONext => hvoid h_next
  end.
(** the arrays an object hands out *)
Inductive getter := GR | GV | GCart | GKep | GCartRow (k : nat) | GKepRow (k : nat) | GTrue | GEcc | GMean
  | GPeriod | GMeanMotion | GApo | GPeri | GMeanLon | GEqui | GVelocity | GSpeed.
Definition h_getter (g : getter) : HM nat :=
  match g with
  | GR => h_get_r | GV => h_get_v | GCart => h_get_cartesian | GKep => h_get_kepler
  | GCartRow k => h_get_cart_row k | GKepRow k => h_get_kep_row k
  | GTrue => h_get_true_anomaly | GEcc => h_get_eccentric_anomaly | GMean => h_get_mean_anomaly
  | GPeriod => h_get_period | GMeanMotion => h_get_mean_motion
  | GApo => h_get_apoapsis | GPeri => h_get_periapsis | GMeanLon => h_get_mean_longitude
  | GEqui => h_get_equinoctial | GVelocity => h_get_velocity | GSpeed => h_get_speed
  end.
End Heap.
Arguments obj F : clear implicits.
Arguments cell F : clear implicits.
Arguments heap F : clear implicits.
