(** * The toy arithmetic of NPToy.v, with -99 behaving like NaN in comparisons *)
From Coq Require Import ZArith QArith Qround.
From Verif Require Import NP.
Local Open Scope Z_scope.

Definition NP_toyn : NP Z := {|
  lit q := Qfloor q; npi := 3; nan := -99;
  add := Z.add; sub := Z.sub; mul := Z.mul; div := Z.div;
  opp := Z.opp; nabs := Z.abs;
  nsqrt := Z.sqrt; ncbrt := (fun x => x); nlog := Z.log2;
  nsin := (fun x => x); ncos := (fun x => 1); ntan := (fun x => x);
  narctan := (fun x => x); narccos := (fun x => 1 - x); narctan2 := (fun y x => y - x);
  nsinh := (fun x => x); ncosh := (fun x => 1); ntanh := (fun x => x); narctanh := (fun x => x);
  nmod := Z.modulo;
  ltb := (fun x y => if (x =? -99) || (y =? -99) then false else x <? y)%bool;
  leb := (fun x y => if (x =? -99) || (y =? -99) then false else x <=? y)%bool;
  eqb := (fun x y => if (x =? -99) || (y =? -99) then false else x =? y)%bool |}.
