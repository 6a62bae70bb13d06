(** * The aggregation classes in [double], and specification vocabulary for their accuracy (no proofs).

    src/lpaggreg/headers/oaggregationn.h:24-25, 39-40, 54-55, 69-70, src/lpaggreg/headers/haggregationn.h:25-26, 40-41, 55-56,
    70-71, src/lpaggreg/headers/daggregationn.h:25-26, 40-41, 55-56: sums and means are [double], and so are the data they add up. *)
From Coq Require Import ZArith Reals.
From Flocq Require Import Core BinarySingleNaN.
From Verif Require Import Base Arith Ieee SpecParts.

(** [double] arithmetic, rounding to nearest-even; the aggregation classes use [n_zero], [n_add], [n_div] and [n_ofZ] (the part's
    int size converted to double, src/lpaggreg/sources/oaggregationn.cpp:14) only. The parameter is not used by them. *)
Definition DA (lg : f64 -> f64) : arith := {|
  num := f64; n_zero := B754_zero false; n_one := int64 1;
  n_add := Bplus mode_NE; n_sub := Bminus mode_NE; n_mul := Bmult mode_NE; n_div := Bdiv mode_NE;
  n_log := lg; n_ofZ := int64;
  n_ltb := Bltb; n_leb := Bleb; n_eqb := Beqb; n_abs := Babs;
  n_prec := prec_literal; n_float := (fun x => to64 (to32 x));
  par := f32; p_zero := B754_zero false; p_ltb := Bltb;
  p_add := Bplus mode_NE; p_sub := Bminus mode_NE;
  p_half := (fun x => Bdiv mode_NE x (int32 2)); p_compl := (fun x => Bminus mode_NE (int32 1) x);
  p_num := to64 |}.

(** [sm] is a (sum, mean) pair: finite, the sum within c*T of S, the mean within (c + 2^-52) T/N of S/N plus half the smallest
    positive double. *)
Definition near_sum_mean (c S T : R) (N : Z) (sm : f64 * f64) : Prop :=
  is_finite (fst sm) = true /\ (Rabs (B2R (fst sm) - S) <= c * T)%R /\
  is_finite (snd sm) = true /\ (Rabs (B2R (snd sm) - S / IZR N) <= (c + bpow radix2 (-52)) * (T / IZR N) + bpow radix2 (-1075))%R.

(** [sm] is the exact sum with the correctly rounded mean. *)
Definition exact_sum_mean (S : R) (N : Z) (sm : f64 * f64) : Prop :=
  is_finite (fst sm) = true /\ B2R (fst sm) = S /\
  is_finite (snd sm) = true /\ B2R (snd sm) = round radix2 (FLT_exp (-1074) 53) ZnearestE (S / IZR N).

(** A finite double holding an integer. *)
Definition integer64 (x : f64) : Prop := is_finite x = true /\ exists z, B2R x = IZR z.
