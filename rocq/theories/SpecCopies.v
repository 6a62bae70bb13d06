(** * Specification vocabulary: a finer space resolution, every leaf replaced by a group of [k] equal leaves (no proofs). *)
From Coq Require Import Reals List.
From Verif Require Import Base Arith SpecTree SpecInfo SpecData.

(** Every node [h] of the first hierarchy is the node [s h] of the second one, no longer a leaf; leaf [y] of the second one is one of the [k] copies of leaf [w y] of
    the first one, directly below it. *)
Record leaf_copies (k : nat) (L : Z) (ps : list Z) (L' : Z) (ps' : list Z) (s w : Z -> Z) : Prop := {
  lc_node : forall h, node ps h -> node ps' (s h) /\ ~ leaf L' (s h);
  lc_inj : forall h g, node ps h -> node ps g -> s h = s g -> h = g;
  lc_onto : forall y, node ps' y -> ~ leaf L' y -> exists h, node ps h /\ s h = y;
  lc_parent : forall h, node ps h -> parent ps' (s h) = if parent ps h =? -1 then -1 else s (parent ps h);
  lc_copy : forall y, leaf L' y -> leaf L (w y) /\ parent ps' y = s (w y);
  lc_count : forall x, leaf L x -> vlen (filter (fun y => w y =? x) (zrange 0 L')) = Z.of_nat k
}.

(** Each copy has an equal share of the data of its leaf, in every component. *)
Definition equal_shares (k : nat) (L' : Z) (w : Z -> Z) (comps comps' : list (list R)) : Prop :=
  Forall2 (fun c c' => forall y, leaf L' y -> elt 0%R c' y = (elt 0%R c (w y) / INR k)%R) comps comps'.
