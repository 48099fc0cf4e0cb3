(** * Rounded instances of the scalar operations.

    [NP_rd rd L]: sums, differences, products, quotients and square roots are the exact result
    rounded by [rd] (what IEEE 754 prescribes); the functions of the mathematics library are
    arbitrary real functions [L], rounded by [rd], on the domain where the exact function is
    finite.  [rd := rnd p] is round-to-nearest-even with p digits and unbounded exponents. *)
From Coq Require Import Reals QArith Qreals ZArith.
From Verif Require Import NP NPReal.
Local Open Scope R_scope.

Record libm := { l_cbrt : R -> R; l_log : R -> R; l_sin : R -> R; l_cos : R -> R; l_tan : R -> R;
  l_atan : R -> R; l_acos : R -> R; l_sinh : R -> R; l_cosh : R -> R; l_tanh : R -> R;
  l_atanh : R -> R; l_atan2 : R -> R -> R; l_mod : R -> R -> R }.

Section Rounded.
Context (rd : R -> R) (L : libm).
Definition rnum (a : num) : num := match a with Fin x => Fin (rd x) | _ => a end.
(** a library function: special values and domain as the exact one, value from [L] *)
Definition lib1 (f : R -> R) (exact : num -> num) (a : num) : num :=
  match a, exact a with Fin x, Fin _ => Fin (rd (f x)) | _, y => rnum y end.
Definition lib2 (f : R -> R -> R) (exact : num -> num -> num) (a b : num) : num :=
  match a, b, exact a b with Fin x, Fin y, Fin _ => Fin (rd (f x y)) | _, _, y => rnum y end.

Definition NP_rd : NP num := {|
  lit q := Fin (rd (Q2R q)); npi := Fin (rd PI); nan := NaN;
  add a b := rnum (num_add a b); sub a b := rnum (num_sub a b);
  mul a b := rnum (num_mul a b); div a b := rnum (num_div a b);
  opp := num_opp; nabs := num_abs;
  nsqrt a := rnum (num_sqrt a);
  ncbrt := lib1 (l_cbrt L) num_cbrt; nlog := lib1 (l_log L) num_log;
  nsin := lib1 (l_sin L) num_sin; ncos := lib1 (l_cos L) num_cos; ntan := lib1 (l_tan L) num_tan;
  narctan := lib1 (l_atan L) num_atan; narccos := lib1 (l_acos L) num_acos;
  narctan2 := lib2 (l_atan2 L) num_atan2;
  nsinh := lib1 (l_sinh L) num_sinh; ncosh := lib1 (l_cosh L) num_cosh;
  ntanh := lib1 (l_tanh L) num_tanh; narctanh := lib1 (l_atanh L) num_atanh;
  nmod := lib2 (l_mod L) num_mod;
  ltb := num_ltb; leb := num_leb; eqb := num_eqb |}.
End Rounded.
