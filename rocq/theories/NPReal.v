(** * The exact instance: IEEE-like special values over Coq's reals.

    Finite arithmetic is exact (no rounding, no overflow, no signed zero). *)
From Coq Require Import Reals QArith Qreals ZArith Lra.
From Verif Require Import NP.
Local Open Scope R_scope.

Inductive num := Fin (x : R) | PInf | NInf | NaN.

Definition Rltb (x y : R) : bool := if Rlt_dec x y then true else false.
Definition Rleb (x y : R) : bool := if Rle_dec x y then true else false.
Definition Reqb (x y : R) : bool := if Req_EM_T x y then true else false.

(** real versions of numpy functions missing from Coq's library *)
Definition Rcbrt (x : R) : R :=
  if Rlt_dec 0 x then Rpower x (1/3)
  else if Rlt_dec x 0 then - Rpower (- x) (1/3) else 0.
Definition Ratanh (x : R) : R := ln ((1 + x) / (1 - x)) / 2.
Definition Rmod (x y : R) : R := x - y * IZR (Int_part (x / y)).
Definition Ratan2 (y x : R) : R :=
  if Rlt_dec 0 x then atan (y / x)
  else if Rlt_dec x 0 then (if Rle_dec 0 y then atan (y / x) + PI else atan (y / x) - PI)
  else if Rlt_dec 0 y then PI / 2 else if Rlt_dec y 0 then - (PI / 2) else 0.

Definition num_sign (x : R) (z p n : num) : num :=
  if Rlt_dec 0 x then p else if Rlt_dec x 0 then n else z.

Definition num_opp (a : num) : num :=
  match a with Fin x => Fin (- x) | PInf => NInf | NInf => PInf | NaN => NaN end.
Definition num_add (a b : num) : num :=
  match a, b with
  | NaN, _ | _, NaN => NaN
  | Fin x, Fin y => Fin (x + y)
  | PInf, NInf | NInf, PInf => NaN
  | PInf, _ | _, PInf => PInf
  | NInf, _ | _, NInf => NInf
  end.
Definition num_sub (a b : num) : num :=
  match a, b with Fin x, Fin y => Fin (x - y) | _, _ => num_add a (num_opp b) end.
Definition num_mul (a b : num) : num :=
  match a, b with
  | NaN, _ | _, NaN => NaN
  | Fin x, Fin y => Fin (x * y)
  | Fin x, PInf | PInf, Fin x => num_sign x NaN PInf NInf
  | Fin x, NInf | NInf, Fin x => num_sign x NaN NInf PInf
  | PInf, PInf | NInf, NInf => PInf
  | PInf, NInf | NInf, PInf => NInf
  end.
Definition num_div (a b : num) : num :=
  match a, b with
  | NaN, _ | _, NaN => NaN
  | Fin x, Fin y => if Req_EM_T y 0 then num_sign x NaN PInf NInf else Fin (x / y)
  | Fin _, _ => Fin 0
  | PInf, Fin y => if Rlt_dec y 0 then NInf else PInf
  | NInf, Fin y => if Rlt_dec y 0 then PInf else NInf
  | _, _ => NaN
  end.
Definition num_abs (a : num) : num :=
  match a with Fin x => Fin (Rabs x) | NaN => NaN | _ => PInf end.
Definition num_sqrt (a : num) : num :=
  match a with
  | Fin x => if Rlt_dec x 0 then NaN else Fin (sqrt x)
  | PInf => PInf | _ => NaN
  end.
Definition num_cbrt (a : num) : num := match a with Fin x => Fin (Rcbrt x) | _ => a end.
Definition num_log (a : num) : num :=
  match a with
  | Fin x => if Rlt_dec 0 x then Fin (ln x) else if Rlt_dec x 0 then NaN else NInf
  | PInf => PInf | _ => NaN
  end.
Definition num_sin (a : num) : num := match a with Fin x => Fin (sin x) | _ => NaN end.
Definition num_cos (a : num) : num := match a with Fin x => Fin (cos x) | _ => NaN end.
(** an exact pole (never representable in binary64) is given the limit from the left *)
Definition num_tan (a : num) : num :=
  match a with Fin x => if Req_EM_T (cos x) 0 then PInf else Fin (tan x) | _ => NaN end.
Definition num_atan (a : num) : num :=
  match a with Fin x => Fin (atan x) | PInf => Fin (PI/2) | NInf => Fin (-(PI/2)) | NaN => NaN end.
Definition num_acos (a : num) : num :=
  match a with
  | Fin x => if Rle_dec (-1) x then if Rle_dec x 1 then Fin (acos x) else NaN else NaN
  | _ => NaN
  end.
(** arctan2 of infinities is not used on any path studied; modelled as NaN *)
Definition num_atan2 (a b : num) : num :=
  match a, b with Fin y, Fin x => Fin (Ratan2 y x) | _, _ => NaN end.
Definition num_sinh (a : num) : num := match a with Fin x => Fin (sinh x) | _ => a end.
Definition num_cosh (a : num) : num :=
  match a with Fin x => Fin (cosh x) | NaN => NaN | _ => PInf end.
Definition num_tanh (a : num) : num :=
  match a with Fin x => Fin (tanh x) | PInf => Fin 1 | NInf => Fin (-1) | NaN => NaN end.
Definition num_atanh (a : num) : num :=
  match a with
  | Fin x => if Rlt_dec (-1) x then
               if Rlt_dec x 1 then Fin (Ratanh x) else if Req_EM_T x 1 then PInf else NaN
             else if Req_EM_T x (-1) then NInf else NaN
  | _ => NaN
  end.
Definition num_mod (a b : num) : num :=
  match a, b with
  | Fin x, Fin y => if Req_EM_T y 0 then NaN else Fin (Rmod x y)
  | _, _ => NaN
  end.
Definition num_ltb (a b : num) : bool :=
  match a, b with
  | Fin x, Fin y => Rltb x y
  | NInf, (Fin _ | PInf) => true
  | Fin _, PInf => true
  | _, _ => false
  end.
Definition num_eqb (a b : num) : bool :=
  match a, b with
  | Fin x, Fin y => Reqb x y
  | PInf, PInf | NInf, NInf => true
  | _, _ => false
  end.
Definition num_leb (a b : num) : bool :=
  match a, b with Fin x, Fin y => Rleb x y | _, _ => orb (num_ltb a b) (num_eqb a b) end.

#[global] Instance NP_num : NP num := {|
  lit q := Fin (Q2R q); npi := Fin PI; nan := NaN;
  add := num_add; sub := num_sub; mul := num_mul; div := num_div;
  opp := num_opp; nabs := num_abs;
  nsqrt := num_sqrt; ncbrt := num_cbrt; nlog := num_log;
  nsin := num_sin; ncos := num_cos; ntan := num_tan;
  narctan := num_atan; narccos := num_acos; narctan2 := num_atan2;
  nsinh := num_sinh; ncosh := num_cosh; ntanh := num_tanh; narctanh := num_atanh;
  nmod := num_mod;
  ltb := num_ltb; leb := num_leb; eqb := num_eqb |}.
