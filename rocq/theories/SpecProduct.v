(** * Specification vocabulary: partitions of (leaf, slice) cells built from partitions of one dimension (no proofs). *)
From Verif Require Import Base.

(** Every node h of [c] over each interval of its own list [l h]. With l constant: a grid. *)
Definition stacked (c : list Z) (l : Z -> list (Z * Z)) : list (Z * Z * Z) := flat_map (fun h => map (fun ab => (h, fst ab, snd ab)) (l h)) c.
