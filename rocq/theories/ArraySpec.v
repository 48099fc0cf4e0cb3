(** * Specification vocabulary for arrays: shapes, logical entries, element-wise calls.
    Independent of the masks and buffers of the model. *)
From Coq Require Import List Bool Arith ZArith QArith.
From Verif Require Import NP ConvModel.
Import ListNotations.

Section ArraySpec.
Context {F : Type}.

(** shape and entries (logical order) of an "array or float" *)
Definition shape_of (x : arg F) : list nat := match x with Sc _ => [] | Arr s _ _ => s end.
Definition entries (x : arg F) : list F := match x with Sc v => [v] | Arr _ _ d => d end.
Definition is_arr (x : arg F) : bool := match x with Sc _ => false | Arr _ _ _ => true end.
Definition size (s : list nat) : nat := fold_right Nat.mul 1%nat s.
(** the j-th entry, a float is repeated *)
Definition at_ (x : arg F) (j : nat) : option F :=
  match x with Sc v => Some v | Arr _ _ d => nth_error d j end.
(** an array holds as many entries as its shape says *)
Definition wf_arg (x : arg F) : Prop :=
  match x with Sc _ => True | Arr s m d => length d = size s end.
(** memory order = logical (C) order *)
Definition c_order (x : arg F) : Prop :=
  match x with Sc _ => True | Arr s m d => m = seq 0 (length d) end.
(** shapes that broadcast: a float with anything, arrays of equal shape *)
Definition compatible (x e : arg F) : Prop :=
  match x, e with Arr s _ _, Arr s' _ _ => s = s' | _, _ => True end.
Definition joint_shape (x e : arg F) : list nat := if is_arr x then shape_of x else shape_of e.

(** [f x e] succeeds, has the shape of the array argument(s), and its j-th entry is the
    result of the call of [f] on the two floats found at position j. *)
Definition elementwise (f : arg F -> arg F -> res (arg F)) (x e : arg F) : Prop :=
  exists r, f x e = Ok r
    /\ shape_of r = joint_shape x e
    /\ length (entries r) = size (joint_shape x e)
    /\ forall j xj ej, at_ x j = Some xj -> at_ e j = Some ej -> (j < size (joint_shape x e))%nat ->
         exists y, f (Sc xj) (Sc ej) = Ok (Sc y) /\ nth_error (entries r) j = Some y.

(** shape of a conversion argument; [None]: not an array *)
Definition kshape (x : kinput F) : option (list nat) :=
  match x with
  | KNotArray => None
  | KZeroDim => Some []
  | KBadRows s => Some s
  | KVec _ => Some [6%nat]
  | KMat l => Some [6%nat; length l]
  end.
(** the gravitational parameter belonging to column j of n (a float or a length-1 array is
    used for every column) *)
Definition mu_at (mu : muarg F) (n j : nat) : option F :=
  match mu with
  | MuS x => Some x
  | MuV l => if (length l =? n)%nat then nth_error l j else match l with [x] => Some x | _ => None end
  end.
End ArraySpec.

(** comparing [e] with 1 gives exactly one of >, ==, < (false for NaN) *)
Definition ordered1 {F} `{NP F} (e : F) : Prop :=
  match ltb (lit 1) e, eqb e (lit 1), ltb e (lit 1) with
  | true, false, false | false, true, false | false, false, true => True
  | _, _, _ => False
  end.
