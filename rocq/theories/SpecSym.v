(** * Specification vocabulary: data that should be treated alike (no proofs). *)
From Coq Require Import Reals Permutation.
From Verif Require Import Base SpecTree SpecParts.

Definition zero_row (r : list R) : Prop := Forall (fun v => v = 0%R) r.

(** The same components, in any order, up to components that are zero everywhere. *)
Definition same_components {X : Type} (zero : X -> Prop) (c c' : list X) : Prop :=
  exists z z', Forall zero z /\ Forall zero z' /\ Permutation (z ++ c) (z' ++ c').

(** Time runs backwards: slice i becomes slice n-1-i. *)
Definition mirror (n : Z) (ab : Z * Z) : Z * Z := (n - 1 - snd ab, n - 1 - fst ab).

(** [s] renames the nodes of one hierarchy into those of another one of the same size: a bijection, leaves to leaves, parents to parents. *)
Record renaming (L : Z) (ps ps' : list Z) (s : Z -> Z) : Prop := {
  rn_size : vlen ps' = vlen ps;
  rn_leaf : forall h, node ps h -> (leaf L (s h) <-> leaf L h);
  rn_node : forall h, node ps h -> node ps' (s h);
  rn_inj : forall h k, node ps h -> node ps k -> s h = s k -> h = k;
  rn_onto : forall k, node ps' k -> exists h, node ps h /\ s h = k;
  rn_parent : forall h, node ps h -> parent ps' (s h) = (if parent ps h =? -1 then -1 else s (parent ps h))
}.
