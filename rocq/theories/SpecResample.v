(** * Specification vocabulary: a finer time resolution that adds no information (no proofs). *)
From Coq Require Import Reals.
From Verif Require Import Base SpecParts SpecInfo.

(** Every slice is divided into [m] equal slices, each with an equal share of its value. *)
Definition refine (m : nat) (r : list R) : list R := flat_map (fun x => repeat (x / INR m)%R m) r.

(** The interval of the [m] times finer axis that covers the same time. *)
Definition finer (m : nat) (ab : Z * Z) : Z * Z := (fst ab * Z.of_nat m, snd ab * Z.of_nat m + Z.of_nat m - 1).

(** Sum of all the data. *)
Definition all_data (rows : list (list R)) : R := Rsum total rows.
