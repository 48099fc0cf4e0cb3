(** * Orbit.__str__ (orbit.py:137-149) *)
From Coq Require Import Ascii String List Bool Arith.
From Verif Require Import NP KeplerModel ConvModel UnitModel OrbitModel.
Import ListNotations.
Local Open Scope nat_scope.

(** [f'{key:<w}']: filled with blanks on the right *)
Fixpoint ljust (w : nat) (s : string) : string :=
  match w, s with
  | O, _ => s
  | S w', EmptyString => String " "%char (ljust w' EmptyString)
  | S w', String c s' => String c (ljust w' s')
  end.
(** orbit.py:95-96 *)
Definition CARTESIAN_names : list string := ["x"; "y"; "z"; "vx"; "vy"; "vz"]%string.
Definition KEPLER_names : list string := ["a"; "e"; "i"; "omega"; "Omega"; "anom"]%string.
Definition newline : string := String (ascii_of_nat 10) EmptyString.

Section Str.
Context {F : Type} `{NP F}.
(** [fe x] is [f'{x:<.4e}'], [dec n] is [f'{n}'] *)
Variables (fe : F -> string) (dec : nat -> string).
Definition six_list (k : six F) : list F := [s0 k; s1 k; s2 k; s3 k; s4 k; s5 k].
Definition str_line (kv : F) (kkey : string) (cv : F) (ckey : string) : string :=
  (ljust 5 kkey ++ ": " ++ fe kv ++ "   " ++ ljust 2 ckey ++ ": " ++ fe cv)%string.
Fixpoint zip4 (kv : list F) (kk : list string) (cv : list F) (ck : list string) : list string :=
  match kv, kk, cv, ck with
  | a :: kv, b :: kk, c :: cv, d :: ck => str_line a b c d :: zip4 kv kk cv ck
  | _, _, _, _ => []
  end.
(** orbit.py:137-149; reads the attributes [_kep], [_cart] and changes nothing *)
Definition str_orbit (s : orb F) : string :=
  match okep s, ocart s with
  | [k], [c] => String.concat newline (zip4 (six_list k) KEPLER_names (six_list c) CARTESIAN_names)
  | _, _ => (dec (num s) ++ " Orbits")%string
  end.
End Str.
