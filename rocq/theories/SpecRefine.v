(** * Specification vocabulary: a hierarchy with more levels (no proofs). *)
From Verif Require Import Base SpecTree.

(** Every node [h] of [ps] is also a node of [ps'], called [s h] there: with the same leaves below, and ancestors stay ancestors. *)
Record more_levels (L : Z) (ps ps' : list Z) (s : Z -> Z) : Prop := {
  ml_node : forall h, node ps h -> node ps' (s h);
  ml_below : forall x h, leaf L x -> node ps h -> (below ps' x (s h) <-> below ps x h);
  ml_mono : forall h k, node ps h -> node ps k -> below ps h k -> below ps' (s h) (s k)
}.
