(** * Specification vocabulary: a hierarchy made even by single-child nodes (no proofs). *)
From Coq Require Import Reals.
From Verif Require Import Base SpecTree SpecParts SpecInfo SpecData.

(** [ps'] is the hierarchy [ps] with some nodes repeated (a node with one child stands above a repeated node); node [y] of
    [ps'] stands for node [g y] of [ps]. *)
Record padding (L : Z) (ps ps' : list Z) (g : Z -> Z) : Prop := {
  pd_node : forall y, node ps' y -> node ps (g y);
  pd_leaf : forall x, leaf L x -> g x = x;
  pd_onto : forall h, node ps h -> exists y, node ps' y /\ g y = h;
  pd_below : forall x y, leaf L x -> node ps' y -> (below ps' x y <-> below ps x (g y));
  pd_mono : forall y z, node ps' y -> node ps' z -> below ps' y z -> below ps (g y) (g z)
}.

(** Gain and loss of a node of any hierarchy: those of the values of the leaves below it, summed over the components. *)
Definition tree_gain (L : Z) (ps : list Z) (comps : list (list R)) (h : Z) : R := Rsum (fun c => gain_of (map (elt 0%R c) (leavesof L ps h))) comps.
Definition tree_loss (L : Z) (ps : list Z) (comps : list (list R)) (h : Z) : R := Rsum (fun c => loss_of (map (elt 0%R c) (leavesof L ps h))) comps.

(** The same for a node and the slices [i..j]. *)
Definition rect_gain (L : Z) (ps : list Z) (comps : list (list (list R))) (r : Z * Z * Z) : R :=
  let '(h, i, j) := r in Rsum (fun c => gain_of (flat_map (fun x => slice (elt [] c x) i j) (leavesof L ps h))) comps.
Definition rect_loss (L : Z) (ps : list Z) (comps : list (list (list R))) (r : Z * Z * Z) : R :=
  let '(h, i, j) := r in Rsum (fun c => loss_of (flat_map (fun x => slice (elt [] c x) i j) (leavesof L ps h))) comps.

(** A rectangle of the padded hierarchy as a rectangle of the hierarchy. *)
Definition unpad (g : Z -> Z) (r : Z * Z * Z) : Z * Z * Z := let '(h, i, j) := r in (g h, i, j).
