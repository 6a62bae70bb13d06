(** * Specification vocabulary: a finer time resolution of spatiotemporal data that adds no information (no proofs). *)
From Coq Require Import Reals List.
From Verif Require Import Base SpecParts SpecInfo SpecResample.

(** Every slice of every leaf, in every component, is divided into [k] slices with an equal share (components, leaves, slices). *)
Definition finer_data (k : nat) (comps : list (list (list R))) : list (list (list R)) := map (map (refine k)) comps.

(** The rectangle of the finer axis with the same node that covers the same time. *)
Definition finer_rect (k : nat) (r : Z * Z * Z) : Z * Z * Z := let '(h, i, j) := r in (h, fst (finer k (i, j)), snd (finer k (i, j))).
