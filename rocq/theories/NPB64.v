(** * IEEE 754 binary64 as an instance of the scalar operations.

    [NP_b64 L]: numbers are the binary64 data of Flocq (finite numbers, signed zeros, infinities,
    one NaN); + - * / sqrt, comparisons, abs and negation are the IEEE operations, rounding to
    nearest even, with overflow, gradual underflow and NaN.  The functions of the mathematics
    library and np.mod are arbitrary functions [L] on these data. *)
From Coq Require Import ZArith QArith Reals Bool.
From Flocq Require Import Core.Core IEEE754.BinarySingleNaN.
From Verif Require Import NP.
Local Open Scope Z_scope.

Definition b64 := binary_float 53 1024.
Lemma b64_prec : Prec_gt_0 53. Proof. reflexivity. Qed.
Lemma b64_emax : Prec_lt_emax 53 1024. Proof. reflexivity. Qed.

(** the number m * 2^e, rounded *)
Definition bz (m e : Z) : b64 := binary_normalize 53 1024 b64_prec b64_emax mode_NE m e false.
(** A literal p/q: the rounded quotient.  The value is the correctly rounded literal when p and q are
    representable, as they are for every literal of the code. *)
Definition blit (q : Q) : b64 :=
  @Bdiv 53 1024 b64_prec b64_emax mode_NE (bz (Qnum q) 0) (bz (Zpos (Qden q)) 0).
(** np.pi = 0x1.921fb54442d18p+1 *)
Definition bpi : b64 := bz 7074237752028440 (-51).

Record blib := { bl_cbrt : b64 -> b64; bl_log : b64 -> b64; bl_sin : b64 -> b64; bl_cos : b64 -> b64;
  bl_tan : b64 -> b64; bl_atan : b64 -> b64; bl_acos : b64 -> b64; bl_sinh : b64 -> b64;
  bl_cosh : b64 -> b64; bl_tanh : b64 -> b64; bl_atanh : b64 -> b64;
  bl_atan2 : b64 -> b64 -> b64; bl_mod : b64 -> b64 -> b64 }.

Definition NP_b64 (L : blib) : NP b64 := {|
  lit := blit; npi := bpi; nan := B754_nan;
  add := @Bplus 53 1024 b64_prec b64_emax mode_NE; sub := @Bminus 53 1024 b64_prec b64_emax mode_NE;
  mul := @Bmult 53 1024 b64_prec b64_emax mode_NE; div := @Bdiv 53 1024 b64_prec b64_emax mode_NE;
  opp := Bopp; nabs := Babs; nsqrt := @Bsqrt 53 1024 b64_prec b64_emax mode_NE;
  ncbrt := bl_cbrt L; nlog := bl_log L; nsin := bl_sin L; ncos := bl_cos L; ntan := bl_tan L;
  narctan := bl_atan L; narccos := bl_acos L; narctan2 := bl_atan2 L;
  nsinh := bl_sinh L; ncosh := bl_cosh L; ntanh := bl_tanh L; narctanh := bl_atanh L;
  nmod := bl_mod L;
  ltb := Bltb; leb := Bleb; eqb := Beqb |}.

(** decidable equality of data through their sign, mantissa and exponent *)
Lemma b64_eq (x y : b64) : B2SF x = B2SF y -> x = y.
Proof. apply B2SF_inj. Qed.

(** comparison with a number is a trichotomy *)
Lemma cmp_some (x y : b64) : is_nan x = false -> is_nan y = false -> exists c, Bcompare x y = Some c.
Proof.
  unfold Bcompare. destruct x as [s|[]| |[] m e B]; destruct y as [s'|[]| |[] m' e' B']; cbn; intros; try discriminate; eauto.
Qed.
Lemma tricho (x y : b64) : is_nan x = false -> is_nan y = false ->
  match Bltb y x, Beqb x y, Bltb x y with
  | true, false, false | false, true, false | false, false, true => True
  | _, _, _ => False
  end.
Proof.
  intros Nx Ny. destruct (cmp_some x y Nx Ny) as [c C]. pose proof (Bcompare_swap _ _ x y) as S. rewrite C in S.
  unfold Bltb, Beqb, SpecFloat.SFltb, SpecFloat.SFeqb. unfold Bcompare in C, S. rewrite C, S. destruct c; exact I.
Qed.
