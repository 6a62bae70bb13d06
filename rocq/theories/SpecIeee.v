(** * Specification vocabulary for float parameters (no proofs). *)
From Coq Require Import ZArith Reals.
From Flocq Require Import Core BinarySingleNaN.
From Verif Require Import Base Ieee.

(** A finite float in [0,1]. *)
Definition unit32 (x : f32) : Prop := is_finite x = true /\ (0 <= B2R x <= 1)%R.

(** A finite float that is at least 2^-24. *)
Definition thr32 (th : f32) : Prop := is_finite th = true /\ (bpow radix2 (-24) <= B2R th)%R.

(** A finite float below 2^-24. *)
Definition tiny32 (th : f32) : Prop := is_finite th = true /\ (B2R th < bpow radix2 (-24))%R.

(** A zero (of either sign). *)
Definition is_zero {p e} (x : binary_float p e) : bool := match x with B754_zero _ => true | _ => false end.

(** What is assumed of [log] for the degenerate data of C50: finite on the integers of an int, and log(2) is not 0. *)
Definition log_ok (lg : f80 -> f80) : Prop :=
  (forall z, (1 <= z <= 2147483647)%Z -> is_finite (lg (int80 z)) = true) /\ is_zero (lg (int80 2)) = false.
