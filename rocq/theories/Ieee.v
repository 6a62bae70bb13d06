(** * The IEEE 754 instance of the arithmetic: [long double] qualities, [float] parameters.

    Uses Flocq's BinarySingleNaN (all NaN payloads identified). Rounding to nearest-even, FLT_EVAL_METHOD 0.
    [long double] is the x87 80-bit format (64 bits of precision, 15-bit exponent), as on x86-64 Linux; [double] data are
    modelled in the same format (their values are a subset; the aggregation classes, which accumulate in [double], have
    their own instance in SpecDouble.v). *)
From Coq Require Import ZArith Reals.
From Flocq Require Import Core BinarySingleNaN.
From Verif Require Import Base Arith.

(** [float], [double] and [long double] (x87). *)
Definition f32 : Set := binary_float 24 128.
Definition f64 : Set := binary_float 53 1024.
Definition f80 : Set := binary_float 64 16384.

#[global] Instance prec32 : Prec_gt_0 24 := eq_refl.
#[global] Instance prec64 : Prec_gt_0 53 := eq_refl.
#[global] Instance prec80 : Prec_gt_0 64 := eq_refl.
#[global] Instance emax32 : Prec_lt_emax 24 128 := eq_refl.
#[global] Instance emax64 : Prec_lt_emax 53 1024 := eq_refl.
#[global] Instance emax80 : Prec_lt_emax 64 16384 := eq_refl.

(** Conversion between formats, rounding to nearest-even. *)
Definition conv {p e : Z} (p' e' : Z) (Hp : Prec_gt_0 p') (He : Prec_lt_emax p' e') (x : binary_float p e) : binary_float p' e' :=
  match x with
  | B754_zero s => B754_zero s
  | B754_infinity s => B754_infinity s
  | B754_nan => B754_nan
  | B754_finite s m ex _ => binary_normalize p' e' Hp He mode_NE (cond_Zopp s (Zpos m)) ex s
  end.

Definition to32 {p e} (x : binary_float p e) : f32 := conv 24 128 prec32 emax32 x.
Definition to64 {p e} (x : binary_float p e) : f64 := conv 53 1024 prec64 emax64 x.
Definition to80 {p e} (x : binary_float p e) : f80 := conv 64 16384 prec80 emax80 x.

Definition int80 (z : Z) : f80 := binary_normalize 64 16384 prec80 emax80 mode_NE z 0 false.
Definition int64 (z : Z) : f64 := binary_normalize 53 1024 prec64 emax64 mode_NE z 0 false.
Definition int32 (z : Z) : f32 := binary_normalize 24 128 prec32 emax32 mode_NE z 0 false.

(** src/lpaggreg/headers/lpglobal.h:6: the literal 0.0000000000001, a double; 10^13 is a double, so the correctly rounded
    quotient is the correctly rounded literal. *)
Definition prec_literal : f64 := Bdiv mode_NE (int64 1) (int64 10000000000000).

(** The arithmetic of the code; [lg] stands for the [log] that the unqualified calls of src/lpaggreg/sources/complexity.cpp:39-52
    and src/lpaggreg/headers/complexity.h:47 resolve to, as a function of long doubles (arbitrary; LogRef.v has the reading in
    which it is the C library's log on double).
    [x/2] on float is a division by the int 2 converted to float; [1-x] likewise converts the 1
    (src/lpaggreg/sources/opartitioner.cpp:71, src/lpaggreg/sources/tradeoff.cpp:5). *)
Definition IA (lg : f80 -> f80) : arith := {|
  num := f80; n_zero := B754_zero false; n_one := int80 1;
  n_add := Bplus mode_NE; n_sub := Bminus mode_NE; n_mul := Bmult mode_NE; n_div := Bdiv mode_NE;
  n_log := lg; n_ofZ := int80;
  n_ltb := Bltb; n_leb := Bleb; n_eqb := Beqb; n_abs := Babs;
  n_prec := to80 prec_literal; n_float := (fun x => to80 (to32 x));
  par := f32; p_zero := B754_zero false; p_ltb := Bltb;
  p_add := Bplus mode_NE; p_sub := Bminus mode_NE;
  p_half := (fun x => Bdiv mode_NE x (int32 2)); p_compl := (fun x => Bminus mode_NE (int32 1) x);
  p_num := to80 |}.

(** Exact real qualities with [float] parameters (their value is exact, their arithmetic rounds). *)
Definition Fpar : params := {|
  pp := f32; pp_zero := B754_zero false; pp_ltb := Bltb;
  pp_add := Bplus mode_NE; pp_sub := Bminus mode_NE;
  pp_half := (fun x => Bdiv mode_NE x (int32 2)); pp_compl := (fun x => Bminus mode_NE (int32 1) x);
  pp_num := (fun x => B2R x) |}.
