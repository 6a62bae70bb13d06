(** * Specification vocabulary: equal shares of the data of the leaves in every time slice (no proofs). *)
From Coq Require Import Reals List.
From Verif Require Import Base Arith SpecTree SpecInfo SpecData.

(** Each copy (leaf [y] of the second hierarchy) has, in every slice and every component, an equal share of the data of its leaf [w y]. *)
Definition equal_shares_slices (k : nat) (L' : Z) (w : Z -> Z) (comps comps' : list (list (list R))) : Prop :=
  Forall2 (fun c c' => forall y, leaf L' y -> elt [] c' y = map (fun v => v / INR k)%R (elt [] c (w y))) comps comps'.

(** The same rectangle in the second hierarchy: node [s h], same slices. *)
Definition renamed (s : Z -> Z) (r : Z * Z * Z) : Z * Z * Z := let '(h, i, j) := r in (s h, i, j).
