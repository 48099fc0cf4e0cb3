(** * Programs that use Orbit objects and arrays
    A caller has variables for arrays and for Orbit objects and executes statements.  [hstep] executes
    a statement in memory (HeapModel.v), where arrays are shared by reference.  [vstep] executes it
    on values: the caller's arrays and the objects are a list of values and a statement changes only
    what it names.  Which of the two Python programs look like is the question of PropsHeap.v. *)
From Coq Require Import Ascii String List Bool ZArith QArith.
From Verif Require Import NP KeplerModel ConvModel UnitModel OrbitModel HeapModel HeapSim.
Import ListNotations.
Local Open Scope nat_scope.

Section Spec.
Context {F : Type} `{NP F}.
Notation orb := (orb F).
Notation obj := (obj F).
Notation heap := (heap F).
(** statements; [o] and [i] number the object and the array variables in order of creation; the
    arguments of calls may depend on the contents of the array variables *)
Inductive cmd :=
| UNew (x : arg F)                                   (* x = np.array(...)                 *)
| UPoke (i : nat) (d : list F)                       (* x\[...\] = d                        *)
| UOrbit (M0 : F) (c : config F) (kw : list (arg F) -> kws F)    (* Orbit(M0, ...)        *)
| UCall (o : nat) (f : list (arg F) -> op F)         (* any method call or assignment     *)
| UGet (o : nat) (g : getter)                        (* x = orb.r, x = orb.a, ...         *)
| UItem (o : nat) (i : Idx)                          (* orb\[i\]; orb.copy() is orb\[:\]    *)
| UNext (o : nat)                                    (* next(orb)                         *)
| UOpt (o : nat) (f : solver_options F -> solver_options F)      (* orb.solver_options\[..\] = *)
| UMass (o : nat)                                    (* x = orb.m                         *)
| USetMass (o i : nat).                              (* orb.m = x                         *)
Definition no_mass (c : cmd) : bool := match c with UMass _ | USetMass _ _ => false | _ => true end.

(** [x\[...\] = d] with as many numbers as [x] has *)
Definition poked (x : arg F) (d : list F) : arg F :=
  match x with
  | Arr s p e => if Nat.eqb (length d) (length e) then Arr s p d else x
  | Sc _ => x
  end.
Definition poke_res (x : arg F) (d : list F) : res unit :=
  match x with
  | Arr s p e => if Nat.eqb (length d) (length e) then Ok tt else Raise ValueError
  | Sc _ => Raise TypeError
  end.

(** ** In memory *)
Record world := mkw { w_h : heap; w_objs : list obj; w_refs : list nat }.
Definition refvals (w : world) : list (arg F) := map (fun a => cA (ld (w_h w) a)) (w_refs w).
Definition hstep (gb : nat -> nat -> F) (c : cmd) (w : world) : world * res unit :=
  let h := w_h w in let objs := w_objs w in let refs := w_refs w in
  let with_obj o (k : obj -> world * res unit) :=
    match nth_error objs o with Some b => k b | None => (w, Raise IndexError) end in
  let with_ref i (k : nat -> world * res unit) :=
    match nth_error refs i with Some a => k a | None => (w, Raise IndexError) end in
  match c with
  | UNew x => (mkw (h ++ [CA x]) objs (refs ++ [length h]), Ok tt)
  | UPoke i d => with_ref i (fun a =>
      let x := cA (ld h a) in (mkw (upd_nth a (CA (poked x d)) h) objs refs, poke_res x d))
  | UOrbit M0 c kw =>
      match h_init gb M0 c (kw (refvals w)) h with
      | (h', Ok b) => (mkw h' (objs ++ [b]) refs, Ok tt)
      | (h', Raise e) => (mkw h' objs refs, Raise e)
      end
  | UCall o f => with_obj o (fun b =>
      let '((b', h'), r) := h_run gb (f (refvals w)) (b, h) in (mkw h' (upd_nth o b' objs) refs, r))
  | UGet o g => with_obj o (fun b =>
      match h_getter gb g (b, h) with
      | ((b', h'), Ok a) => (mkw h' (upd_nth o b' objs) (refs ++ [a]), Ok tt)
      | ((b', h'), Raise e) => (mkw h' (upd_nth o b' objs) refs, Raise e)
      end)
  | UItem o i => with_obj o (fun b =>
      match h_getitem gb i b h with
      | (h', Ok t) => (mkw h' (objs ++ [t]) refs, Ok tt)
      | (h', Raise e) => (mkw h' objs refs, Raise e)
      end)
  | UNext o => with_obj o (fun b =>
      match h_next gb (b, h) with
      | ((b', h'), Ok t) => (mkw h' (upd_nth o b' objs ++ [t]) refs, Ok tt)
      | ((b', h'), Raise e) => (mkw h' (upd_nth o b' objs) refs, Raise e)
      end)
  | UOpt o f => with_obj o (fun b =>
      (mkw (upd_nth (a_o b) (CO (f (cO (oopts (b_s b)) (ld h (a_o b))))) h) objs refs, Ok tt))
  | UMass o => with_obj o (fun b => (mkw h objs (refs ++ [a_m b]), Ok tt))
  | USetMass o i => with_obj o (fun b => with_ref i (fun a =>
      match cA (ld h a) with                        (* other than 1-d: not modelled *)
      | Arr [_] _ _ => (mkw h (upd_nth o (to_m b a) objs) refs, Ok tt)
      | _ => (w, Raise TypeError)
      end))
  end.
(** a program: statements, each with the contents its np.empty buffers happen to have; an exception
    is caught and the program goes on *)
Definition program := list ((nat -> nat -> F) * cmd).
Fixpoint hrun (p : program) (w : world) : world * list (res unit) :=
  match p with
  | [] => (w, [])
  | (gb, c) :: t => let '(w, r) := hstep gb c w in let '(w, rs) := hrun t w in (w, r :: rs)
  end.

(** ** On values *)
Record vworld := mkv { v_objs : list orb; v_refs : list (arg F) }.
Definition with_opts (f : solver_options F -> solver_options F) (s : orb) : orb :=
  mkorb (oM0 s) (oG s) (oauto s) (odirect s) (okro s) (ocro s) (odeg s) (otype s) (f (oopts s))
        (om s) (ocart s) (okep s) (onu s) (oE s) (oMa s) (ocf s) (okf s) (oit s).
Definition vstep (gb : nat -> nat -> F) (c : cmd) (v : vworld) : vworld * res unit :=
  let objs := v_objs v in let refs := v_refs v in
  let with_obj o (k : orb -> vworld * res unit) :=
    match nth_error objs o with Some b => k b | None => (v, Raise IndexError) end in
  let with_ref i (k : arg F -> vworld * res unit) :=
    match nth_error refs i with Some a => k a | None => (v, Raise IndexError) end in
  match c with
  | UNew x => (mkv objs (refs ++ [x]), Ok tt)
  | UPoke i d => with_ref i (fun x => (mkv objs (upd_nth i (poked x d) refs), poke_res x d))
  | UOrbit M0 c kw =>
      match init gb M0 c (kw refs) with
      | Ok s => (mkv (objs ++ [s]) refs, Ok tt)
      | Raise e => (v, Raise e)
      end
  | UCall o f => with_obj o (fun s =>
      let '(s', r) := run_op gb (f refs) s in (mkv (upd_nth o s' objs) refs, r))
  | UGet o g => with_obj o (fun s =>
      match v_getter gb g s with
      | (s', Ok x) => (mkv (upd_nth o s' objs) (refs ++ [x]), Ok tt)
      | (s', Raise e) => (mkv (upd_nth o s' objs) refs, Raise e)
      end)
  | UItem o i => with_obj o (fun s =>
      match getitem i s with
      | Ok t => (mkv (objs ++ [t]) refs, Ok tt)
      | Raise e => (v, Raise e)
      end)
  | UNext o => with_obj o (fun s =>
      match next s with
      | (s', Ok t) => (mkv (upd_nth o s' objs ++ [t]) refs, Ok tt)
      | (s', Raise e) => (mkv (upd_nth o s' objs) refs, Raise e)
      end)
  | UOpt o f => with_obj o (fun s => (mkv (upd_nth o (with_opts f s) objs) refs, Ok tt))
  | UMass o => with_obj o (fun s => (mkv objs (refs ++ [flat1 (om s)]), Ok tt))
  | USetMass o i => with_obj o (fun s => with_ref i (fun x =>
      match x with
      | Arr [_] _ d => (mkv (upd_nth o (with_m (fun _ => d) s) objs) refs, Ok tt)
      | _ => (v, Raise TypeError)
      end))
  end.
Fixpoint vrun (p : program) (v : vworld) : vworld * list (res unit) :=
  match p with
  | [] => (v, [])
  | (gb, c) :: t => let '(v, r) := vstep gb c v in let '(v, rs) := vrun t v in (v, r :: rs)
  end.
(** what the caller can see of a memory *)
Definition vals (w : world) : vworld := mkv (map (fun b => view b (w_h w)) (w_objs w)) (refvals w).
(** equal but for the masses *)
Definition but_mass (s s' : orb) : Prop := with_m (fun _ => []) s = with_m (fun _ => []) s'.
(** the object a statement acts on *)
Definition acts_on (c : cmd) : option nat :=
  match c with
  | UCall o _ | UGet o _ | UNext o | UOpt o _ | USetMass o _ => Some o
  | _ => None
  end.
End Spec.
Arguments cmd F : clear implicits.
Arguments world F : clear implicits.
Arguments vworld F : clear implicits.
Arguments program F : clear implicits.
