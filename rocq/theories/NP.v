(** * numpy scalar operations, 1-d arrays and exceptions, as used by pyorb.

    The code of /repo/pyorb uses numpy scalars and arrays of dtype float64.  [NP F]
    collects the scalar operations the code calls, for an arbitrary carrier [F]; the
    model of the code is generic in [F], so theorems about control flow hold for every
    arithmetic (rounded binary64 included).  [NPReal.v] gives the exact instance used
    for the analysis. *)
From Coq Require Import List Bool ZArith QArith Lia.
Import ListNotations.

(** ** Scalars *)
Class NP (F : Type) := {
  lit : Q -> F;                 (* a Python float/int literal                *)
  npi : F;                      (* np.pi                                     *)
  nan : F;                      (* np.nan                                    *)
  add : F -> F -> F;  sub : F -> F -> F;
  mul : F -> F -> F;  div : F -> F -> F;
  opp : F -> F;       nabs : F -> F;      (* unary minus, np.abs             *)
  nsqrt : F -> F;     ncbrt : F -> F;     nlog : F -> F;
  nsin : F -> F;      ncos : F -> F;      ntan : F -> F;
  narctan : F -> F;   narccos : F -> F;   narctan2 : F -> F -> F;
  nsinh : F -> F;     ncosh : F -> F;     ntanh : F -> F;  narctanh : F -> F;
  nmod : F -> F -> F;                     (* np.mod                          *)
  ltb : F -> F -> bool;  leb : F -> F -> bool;  eqb : F -> F -> bool
}.

Declare Scope np_scope.
Delimit Scope np_scope with np.
Notation "x + y" := (add x y) : np_scope.
Notation "x - y" := (sub x y) : np_scope.
Notation "x * y" := (mul x y) : np_scope.
Notation "x / y" := (div x y) : np_scope.
Notation "- x" := (opp x) : np_scope.
Notation "x <? y" := (ltb x y) : np_scope.
Notation "x <=? y" := (leb x y) : np_scope.
Notation "x =? y" := (eqb x y) : np_scope.
Notation "x >? y" := (ltb y x) (at level 70, only parsing) : np_scope.
Notation "x >=? y" := (leb y x) (at level 70, only parsing) : np_scope.
Arguments lit {F NP} _%Q.

Section Scalar.
Context {F : Type} `{NP F}.
Local Open Scope np_scope.

(** [x**2] and [x**3] (numpy evaluates small integer powers as products). *)
Definition sq (x : F) : F := x * x.
Definition cube (x : F) : F := x * x * x.
(** np.radians / np.degrees: one multiplication by the constant pi/180 resp. 180/pi. *)
Definition radians (x : F) : F := x * (npi / lit 180).
Definition degrees (x : F) : F := x * (lit 180 / npi).
(** np.isnan: IEEE NaN is the only value different from itself. *)
Definition isnan (x : F) : bool := negb (x =? x).
(** kepler.py uses both [2.0*np.pi] and [const._2pi] (const.py:43), the same product. *)
Definition n2pi : F := lit 2 * npi.
End Scalar.

(** ** Exceptions as values *)
Inductive exn :=
| TypeError | ValueError | AttributeError | IndexError | NameError | ConstError
| StopIteration | RecursionError.

Inductive res (A : Type) := Ok (a : A) | Raise (e : exn).
Arguments Ok {A} _.  Arguments Raise {A} _.
Definition rbind {A B} (r : res A) (f : A -> res B) : res B :=
  match r with Ok a => f a | Raise e => Raise e end.
Notation "'rlet' x := r 'in' k" := (rbind r (fun x => k))
  (at level 200, x pattern, r at level 100, k at level 200).

(** ** 1-d arrays (rows) as lists, element-wise operations and boolean masks *)
Section Arrays.
Context {A B C : Type}.
Fixpoint map2 (f : A -> B -> C) (l : list A) (l' : list B) : list C :=
  match l, l' with x :: t, y :: t' => f x y :: map2 f t t' | _, _ => [] end.
End Arrays.
Fixpoint map3 {A B C D} (f : A -> B -> C -> D) l1 l2 l3 : list D :=
  match l1, l2, l3 with
  | a :: t1, b :: t2, c :: t3 => f a b c :: map3 f t1 t2 t3
  | _, _, _ => [] end.
Fixpoint map4 {A B C D E} (f : A -> B -> C -> D -> E) l1 l2 l3 l4 : list E :=
  match l1, l2, l3, l4 with
  | a :: t1, b :: t2, c :: t3, d :: t4 => f a b c d :: map4 f t1 t2 t3 t4
  | _, _, _, _ => [] end.
Definition map6l {A B C D E G H} (f : A -> B -> C -> D -> E -> G -> H)
    l1 l2 l3 l4 l5 l6 : list H :=
  map2 (fun k x => k x) (map2 (fun k x => k x) (map4 f l1 l2 l3 l4) l5) l6.
Section Masks.
Context {A : Type}.
(** [x\[mask\]] (read) *)
Fixpoint mget (m : list bool) (l : list A) : list A :=
  match m, l with
  | b :: m', x :: l' => if b then x :: mget m' l' else mget m' l'
  | _, _ => []
  end.
(** [x\[mask\] = new] (write of an array with one entry per selected position) *)
Fixpoint mset (m : list bool) (new old : list A) : list A :=
  match m, old with
  | b :: m', x :: o' =>
      if b then match new with
                | v :: n' => v :: mset m' n' o'
                | [] => x :: mset m' [] o'
                end
      else x :: mset m' new o'
  | _, _ => old
  end.
(** [x\[mask\] = v] (write of a scalar) *)
Fixpoint mset_s (m : list bool) (v : A) (old : list A) : list A :=
  match m, old with
  | b :: m', x :: o' => (if b then v else x) :: mset_s m' v o'
  | _, _ => old
  end.
End Masks.
(** np.empty(n): [n] entries with arbitrary contents [g]. *)
Definition np_empty {A} (g : nat -> A) (n : nat) : list A := map g (seq 0 n).
Definition mand (a b : list bool) : list bool := map2 andb a b.   (* np.logical_and *)
Definition mnot (a : list bool) : list bool := map negb a.        (* np.logical_not *)

(** ** Columns of six elements *)
Record six (A : Type) := mk6 { s0 : A; s1 : A; s2 : A; s3 : A; s4 : A; s5 : A }.
Arguments mk6 {A} _ _ _ _ _ _.
Arguments s0 {A} _. Arguments s1 {A} _. Arguments s2 {A} _.
Arguments s3 {A} _. Arguments s4 {A} _. Arguments s5 {A} _.

Definition map6 {A B} (f : A -> B) (c : six A) : six B :=
  mk6 (f (s0 c)) (f (s1 c)) (f (s2 c)) (f (s3 c)) (f (s4 c)) (f (s5 c)).

(** six rows of equal length back to a list of columns *)
Fixpoint zip6 {A} (a b c d e f : list A) : list (six A) :=
  match a, b, c, d, e, f with
  | x0 :: a', x1 :: b', x2 :: c', x3 :: d', x4 :: e', x5 :: f' =>
      mk6 x0 x1 x2 x3 x4 x5 :: zip6 a' b' c' d' e' f'
  | _, _, _, _, _, _ => []
  end.

(** ** "numpy.ndarray or float" arguments.
    [Arr shape mem data]: [data] are the elements in logical (C) order; [mem] lists the
    logical indices in the order in which they lie in memory (the order in which a plain
    [np.nditer] visits them); a freshly allocated array has [mem = seq 0 n]. *)
Inductive arg (F : Type) :=
| Sc (x : F)
| Arr (shape : list nat) (mem : list nat) (data : list F).
Arguments Sc {F} _.  Arguments Arr {F} _ _ _.

Definition fresh {F} (shape : list nat) (data : list F) : arg F :=
  Arr shape (seq 0 (length data)) data.
Fixpoint shape_eqb (a b : list nat) : bool :=
  match a, b with
  | [], [] => true
  | x :: a', y :: b' => Nat.eqb x y && shape_eqb a' b'
  | _, _ => false
  end.
(** element-wise unary function on an "array or float"; numpy ufuncs return a scalar for a
    0-dimensional array (shape [()]), a contiguous array for a 1-dimensional one (also if the
    argument is a reversed view) and keep the order of the axes otherwise *)
Definition amap {F} (f : F -> F) (x : arg F) : arg F :=
  match x with
  | Sc v => Sc (f v)
  | Arr [] m [v] => Sc (f v)
  | Arr [n] m d => Arr [n] (seq 0 (length d)) (map f d)
  | Arr s m d => Arr s m (map f d)
  end.
(** order in which [np.nditer] visits an array *)
Definition nditer {F} (dflt : F) (mem : list nat) (d : list F) : list F :=
  map (fun i => nth i d dflt) mem.
