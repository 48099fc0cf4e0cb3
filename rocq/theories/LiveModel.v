(** * Assigning the plain public attributes of a live object (orbit.py:108-119)

    [orb.M0 = x], [orb.G = x], [orb.degrees = b], [orb.solver_options = o] are ordinary attribute
    assignments: no property setter runs, nothing is recalculated and no flag changes. *)
From Coq Require Import List Bool.
From Verif Require Import NP KeplerModel ConvModel UnitModel OrbitModel OrbitSpec.
Import ListNotations.

Section Live.
Context {F : Type} `{NP F}.
Notation orb := (orb F).
(** the attributes: orbit.py:117, 108, 119 and 110-115 *)
Inductive attr := AM0 (x : F) | AG (x : F) | ADegrees (b : bool) | ASolver (o : solver_options F).
(** plain assignment of one attribute (no setter: orbit.py:108-119); everything else is left alone.  Not
    modelled: changing one key of the [solver_options] dictionary in place, which is [ASolver] with that key
    changed unless the dictionary is shared. *)
Definition set_attr (a : attr) (s : orb) : orb :=
  mkorb (match a with AM0 x => x | _ => oM0 s end) (match a with AG x => x | _ => oG s end)
        (oauto s) (odirect s) (okro s) (ocro s) (match a with ADegrees b => b | _ => odeg s end)
        (otype s) (match a with ASolver o => o | _ => oopts s end)
        (om s) (ocart s) (okep s) (onu s) (oE s) (oMa s) (ocf s) (okf s) (oit s).
(** a caller's program: operations of OrbitModel.v and attribute assignments in any order *)
Inductive live := LOp (gb : nat -> nat -> F) (o : op F) | LSet (a : attr).
(** one step; an operation that raises leaves the state it reached *)
Definition live_step (l : live) (s : orb) : orb :=
  match l with LOp gb o => fst (run_op gb o s) | LSet a => set_attr a s end.
(** the whole program *)
Fixpoint live_run (p : list live) (s : orb) : orb :=
  match p with [] => s | l :: p => live_run p (live_step l s) end.
(** [ok o s] at every operation; attribute assignments are unrestricted *)
Fixpoint live_ok (ok : (nat -> nat -> F) -> op F -> orb -> Prop) (p : list live) (s : orb) : Prop :=
  match p with
  | [] => True
  | l :: p => match l with LOp gb o => ok gb o s | LSet _ => True end /\ live_ok ok p (live_step l s)
  end.
End Live.
Arguments attr : clear implicits.
Arguments live : clear implicits.
