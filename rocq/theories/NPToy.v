(** * A small computable arithmetic (integers), used only to evaluate concrete examples of the
    theorems that hold for every arithmetic.  It is not a model of floats. *)
From Coq Require Import ZArith QArith Qround.
From Verif Require Import NP.
Local Open Scope Z_scope.

Definition NP_toy : NP Z := {|
  lit q := Qfloor q; npi := 3; nan := -99;
  add := Z.add; sub := Z.sub; mul := Z.mul; div := Z.div;
  opp := Z.opp; nabs := Z.abs;
  nsqrt := Z.sqrt; ncbrt := (fun x => x); nlog := Z.log2;
  nsin := (fun x => x); ncos := (fun x => 1); ntan := (fun x => x);
  narctan := (fun x => x); narccos := (fun x => 1 - x); narctan2 := (fun y x => y - x);
  nsinh := (fun x => x); ncosh := (fun x => 1); ntanh := (fun x => x); narctanh := (fun x => x);
  nmod := Z.modulo;
  ltb := Z.ltb; leb := Z.leb; eqb := Z.eqb |}.
