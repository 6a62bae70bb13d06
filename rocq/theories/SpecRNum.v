(** * Specification vocabulary for the R functions in the code's own arithmetic (no proofs). *)
From Coq Require Import Reals.
From Flocq Require Import Core BinarySingleNaN.
From Verif Require Import Base Arith Ieee RApi.

(** The array of real numbers that an array of floating-point numbers stands for. *)
Definition exact_array {lg} (micro : rarray (IA lg)) : rarray RA := @mkRArr RA (map (fun x : f80 => B2R x) (ra_data micro)) (ra_dim micro).

(** The conversion of a long double to the double of an R vector (seen as a long double again). *)
Definition as_double (x : f80) : f80 := to80 (to64 x).

(** Rounding allowed for numbers that R shows, all of them at most 12. *)
Definition rd_err : R := bpow radix2 (-49).
