(** * Specification vocabulary: a part of the data on its own (no proofs). *)
From Verif Require Import Base SpecTree SpecInfo SpecData.

(** An interval of an analysis of the slices from [a] on, in terms of the slices of the whole. *)
Definition shift (a : Z) (ij : Z * Z) : Z * Z := (a + fst ij, a + snd ij).

(** The hierarchy [ps'] with [L'] leaves is the part of [ps] (with [L] leaves) below node [h]; its node [y] is node [f y] of [ps]. *)
Record subtree (L : Z) (ps : list Z) (h : Z) (L' : Z) (ps' : list Z) (f : Z -> Z) : Prop := {
  st_leaf : forall y, node ps' y -> (leaf L (f y) <-> leaf L' y);
  st_node : forall y, node ps' y -> node ps (f y) /\ below ps (f y) h;
  st_inj : forall y z, node ps' y -> node ps' z -> f y = f z -> y = z;
  st_onto : forall x, node ps x -> below ps x h -> exists y, node ps' y /\ f y = x;
  st_root : forall y, node ps' y -> parent ps' y = -1 -> f y = h;
  st_parent : forall y, node ps' y -> parent ps' y <> -1 -> parent ps (f y) = f (parent ps' y)
}.

(** The data of the leaves below [h]. *)
Definition subtree_data {X} (d : X) (L' : Z) (f : Z -> Z) (c c' : list (list X)) : Prop :=
  Forall2 (fun r r' => forall y, leaf L' y -> elt d r' y = elt d r (f y)) c c'.

(** The data of the leaves below [h] in the slices [a..b]. *)
Definition window_data {X} (L' : Z) (f : Z -> Z) (a b : Z) (c c' : list (list (list X))) : Prop :=
  Forall2 (fun r r' => forall y, leaf L' y -> elt [] r' y = slice (elt [] r (f y)) a b) c c'.
