(** * Model of /repo/pyorb/const.py and /repo/pyorb/unit.py *)
From Coq Require Import Ascii String List Bool ZArith QArith.
From Verif Require Import NP.
Import ListNotations.
Local Open Scope string_scope.

(** ** const.py: the class [_const] (const.py:16-35)

    An instance is its attribute dictionary.  [V]: the values, [veq]: Python's [==]. *)
Section Const.
Context {V : Type} (veq : V -> V -> bool).
Definition dict := list (string * V).
Fixpoint lookup (d : dict) (k : string) : option V :=
  match d with
  | [] => None
  | (k', v) :: d' => if String.eqb k k' then Some v else lookup d' k
  end.
(** const.py:25-30 *)
Definition const_setattr (d : dict) (name : string) (value : V) : dict * res unit :=
  match lookup d name with
  | Some old => if veq old value then (d, Ok tt) else (d, Raise ConstError)
  | None => ((d ++ [(name, value)])%list, Ok tt)
  end.
(** const.py:32-35 *)
Definition const_delattr (d : dict) (name : string) : dict * res unit :=
  match lookup d name with
  | Some _ => (d, Raise ConstError)
  | None => (d, Raise NameError)
  end.
(** const.py:22-23: [self.__dict__ = self._shared_state] is an attribute assignment, so it
    runs const.py:25-30 and stores the key "__dict__" in the instance's own dictionary;
    [shared] is the value of [_shared_state]. *)
Definition const_init (shared : V) : dict * res unit := const_setattr [] "__dict__" shared.

Inductive const_op := CSet (name : string) (v : V) | CDel (name : string).
Definition const_step (d : dict) (o : const_op) : dict * res unit :=
  match o with CSet n v => const_setattr d n v | CDel n => const_delattr d n end.
Definition const_run (d : dict) (ops : list const_op) : dict :=
  fold_left (fun d o => fst (const_step d o)) ops d.
(** a program holding several instances *)
Inductive world_op := WNew | WOp (i : nat) (o : const_op).
Fixpoint upd_nth {A} (i : nat) (x : A) (l : list A) : list A :=
  match l, i with
  | [], _ => []
  | _ :: t, O => x :: t
  | y :: t, S i' => y :: upd_nth i' x t
  end.
Definition world_step (shared : V) (w : list dict) (o : world_op) : list dict :=
  match o with
  | WNew => (w ++ [fst (const_init shared)])%list
  | WOp i o => match nth_error w i with
               | Some d => upd_nth i (fst (const_step d o)) w
               | None => w
               end
  end.
Definition world_run (shared : V) (ops : list world_op) : list dict :=
  fold_left (world_step shared) ops [].
End Const.

(** ** const.py: the module (const.py:37-72) *)
Section ConstModule.
Context {F : Type} `{NP F}.
Local Open Scope np_scope.
Inductive cval := CNum (x : F) | CInt (z : Z) | CDict.
Definition cval_eq (a b : cval) : bool :=
  match a, b with
  | CNum x, CNum y => x =? y
  | CInt x, CInt y => Z.eqb x y
  | CNum x, CInt z | CInt z, CNum x => x =? lit (inject_Z z)
  | CDict, CDict => true
  | _, _ => false
  end.
(** the constants used by the library, const.py:40-64 ([e], const.py:42, is not used) *)
Definition C_2pi : F := lit 2 * npi.
Definition C_G : F := lit 6.6743e-11.
Definition C_AU : F := lit 1.495978707e11.
Definition C_M_sol : F := lit 1.98847e30.
Definition C_GM_sol : F := lit 1.32712440018e20.
Definition C_wgs84_GM : F := lit 3986004.418e8.
(** const.py:37-69 as a sequence of attribute assignments *)
Definition module_ops : list (const_op (V := cval)) :=
  [ CSet "pi" (CNum npi); CSet "_2pi" (CNum C_2pi); CSet "_4pi" (CNum (lit 4 * npi));
    CSet "c" (CNum (lit 299792458)); CSet "G" (CNum C_G);
    CSet "wgs84_a" (CNum (lit 6378137)); CSet "wgs84_invf" (CNum (lit 298.257223563));
    CSet "wgs84_f" (CNum (lit 1 / lit 298.257223563));
    CSet "wgs84_omega" (CNum (lit 7292115e-11));
    CSet "wgs84_GM" (CNum C_wgs84_GM); CSet "wgs84_M_earth" (CNum (C_wgs84_GM / C_G));
    CSet "AU" (CNum C_AU); CSet "M_sol" (CNum C_M_sol); CSet "GM_sol" (CNum C_GM_sol);
    CSet "K_a" (CInt 0); CSet "K_e" (CInt 1); CSet "K_i" (CInt 2);
    CSet "K_om" (CInt 3); CSet "K_OM" (CInt 4); CSet "K_nu" (CInt 5);
    CSet "E_a" (CInt 0); CSet "E_h" (CInt 1); CSet "E_k" (CInt 2);
    CSet "E_p" (CInt 3); CSet "E_q" (CInt 4); CSet "E_lam" (CInt 5) ].
Definition const_module : dict := const_run cval_eq (fst (const_init cval_eq CDict)) module_ops.
End ConstModule.
Arguments cval F : clear implicits.

(** ** unit.py: get_G (unit.py:13-66).  Strings are ASCII. *)
Definition lower_ascii (c : ascii) : ascii :=
  let n := nat_of_ascii c in
  if andb (Nat.leb 65 n) (Nat.leb n 90) then ascii_of_nat (n + 32) else c.
Fixpoint lower (s : string) : string :=
  match s with EmptyString => EmptyString | String c t => String (lower_ascii c) (lower t) end.
Fixpoint remove_char (c : ascii) (s : string) : string :=
  match s with
  | EmptyString => EmptyString
  | String d t => if Ascii.eqb c d then remove_char c t else String d (remove_char c t)
  end.
(** a unit argument: a string, a float, or anything else (ints included) *)
Inductive uarg (F : Type) := UStr (s : string) | UFloat (x : F) | UOther.
Arguments UStr {F} _. Arguments UFloat {F} _. Arguments UOther {F}.

Section Unit.
Context {F : Type} `{NP F}.
Local Open Scope np_scope.
(** unit.py:15-28 *)
Definition unit_mass (m : uarg F) : res F :=
  match m with
  | UStr s =>
      let s := remove_char "-" (remove_char " " (remove_char "_" (lower s))) in
      if String.eqb s "kg" then Ok (lit 1)
      else if String.eqb s "g" then Ok (lit 1e-3)
      else if String.eqb s "msun" || String.eqb s "msol" then Ok C_M_sol
      else Raise TypeError
  | UFloat x => Ok x
  | UOther => Raise TypeError
  end.
(** unit.py:30-45 *)
Definition unit_time (t : uarg F) : res F :=
  match t with
  | UStr s =>
      let s := lower s in
      if String.eqb s "s" then Ok (lit 1)
      else if String.eqb s "h" then Ok (lit 3600)
      else if String.eqb s "d" then Ok (lit 3600 * lit 24)
      else if String.eqb s "y" then Ok (lit 3600 * lit 24 * lit 365.25)
      else Raise TypeError
  | UFloat x => Ok x
  | UOther => Raise TypeError
  end.
(** unit.py:47-64 *)
Definition unit_length (l : uarg F) : res F :=
  match l with
  | UStr s =>
      let s := lower s in
      if String.eqb s "m" then Ok (lit 1)
      else if String.eqb s "cm" then Ok (lit 1e-2)
      else if String.eqb s "km" then Ok (lit 1e3)
      else if String.eqb s "au" then Ok C_AU
      else if String.eqb s "pc" then Ok (lit 3.08567758149137e16)
      else Raise TypeError
  | UFloat x => Ok x
  | UOther => Raise TypeError
  end.
(** unit.py:13-66 *)
Definition get_G (length mass time : uarg F) : res F :=
  rlet m := unit_mass mass in
  rlet t := unit_time time in
  rlet l := unit_length length in
  Ok (C_G * (m * sq t / cube l)).
End Unit.

(** ** unit.py: angle_units (unit.py:69-102)
    [V]: values, [rad]/[dg]: np.radians/np.degrees on them. *)
Section AngleUnits.
Context {V : Type} (rad dg : V -> V).
(** what a wrapped function can return: None, one value, or a tuple/list *)
Inductive ret := RNone | ROne (v : V) | RTuple (l : list V).
(** [out_arg_inds]: None, a bool, or a list of indices *)
Inductive outspec := ONone | OBool (b : bool) | OInds (l : list Z).
Definition kwargs := list (string * V).
(** Python list index, negative indices count from the end *)
Definition py_index (n : nat) (i : Z) : option nat :=
  let j := if (i <? 0)%Z then (i + Z.of_nat n)%Z else i in
  if ((0 <=? j) && (j <? Z.of_nat n))%Z then Some (Z.to_nat j) else None.
(** [l\[i\] = f(l\[i\])] *)
Definition app_at (f : V -> V) (l : list V) (i : Z) : res (list V) :=
  match py_index (length l) i with
  | None => Raise IndexError
  | Some j => match nth_error l j with
              | Some v => Ok (upd_nth j (f v) l)
              | None => Raise IndexError
              end
  end.
Fixpoint app_all (f : V -> V) (l : list V) (is : list Z) : res (list V) :=
  match is with [] => Ok l | i :: t => rlet l' := app_at f l i in app_all f l' t end.
Definition map_key (f : V -> V) (kw : kwargs) (k : string) : kwargs :=
  map (fun '(k', v) => if String.eqb k k' then (k', f v) else (k', v)) kw.
(** [call]: the value of the keyword "degrees" in the call, if given; [dflt]: the wrapper's
    default; [kw] are the remaining keywords *)
Definition angle_units (in_inds : option (list Z)) (in_keys : option (list string))
    (out : outspec) (dflt : bool) (func : list V -> kwargs -> res ret)
    (call : option bool) (args : list V) (kw : kwargs) : res ret :=
  if negb (match call with Some b => b | None => dflt end) then func args kw      (* 77-78 *)
  else
    rlet args := match in_inds with None => Ok args | Some is => app_all rad args is end in
    let kw := match in_keys with None => kw | Some ks => fold_left (map_key rad) ks kw end in
    rlet r := func args kw in                                                     (* 89 *)
    match out, r with
    | ONone, _ | _, RNone => Ok r
    | OBool _, ROne v => Ok (ROne (dg v))                     (* also for [False] (92-93) *)
    | OBool _, RTuple l => Ok (RTuple (map dg l))             (* np.degrees of a sequence *)
    | OInds is, RTuple l => rlet l' := app_all dg l is in Ok (RTuple l')
    | OInds _, ROne _ => Raise TypeError                      (* list(ret) of a scalar     *)
    end.
End AngleUnits.
Arguments ret V : clear implicits.
Arguments kwargs V : clear implicits.
