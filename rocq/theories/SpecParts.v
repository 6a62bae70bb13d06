(** * Specification vocabulary for partitions (no proofs, independent of the algorithms). *)
From Coq Require Import Reals.
From Verif Require Import Base SpecTree.

(** [tiles a n l]: the intervals [l], in order, are non-empty, contiguous and cover exactly a, ..., n-1. *)
Inductive tiles : Z -> Z -> list (Z * Z) -> Prop :=
| tiles_nil : forall n, tiles n n []
| tiles_cons : forall a e n r, a <= e < n -> tiles (e + 1) n r -> tiles a n ((a, e) :: r).

(** A set of nodes that covers every leaf exactly once. *)
Definition node_cover (L : Z) (ps : list Z) (l : list Z) : Prop :=
  NoDup l /\ (forall h, In h l -> node ps h) /\
  forall x, leaf L x -> exists h, In h l /\ below ps x h /\ forall h', In h' l -> below ps x h' -> h' = h.

(** A set of nodes below [h] that covers every leaf below [h] exactly once. *)
Definition node_split (L : Z) (ps : list Z) (h : Z) (l : list Z) : Prop :=
  NoDup l /\ (forall y, In y l -> node ps y /\ below ps y h) /\
  forall x, leaf L x -> below ps x h -> exists y, In y l /\ below ps x y /\ forall y', In y' l -> below ps x y' -> y' = y.

(** A list of rectangles (node, start, end) that covers every (leaf, slice) exactly once. *)
Definition rect_cover (L : Z) (ps : list Z) (n : Z) (l : list (Z * Z * Z)) : Prop :=
  NoDup l /\ (forall h a b, In (h, a, b) l -> node ps h /\ 0 <= a <= b /\ b < n) /\
  forall x o, leaf L x -> 0 <= o < n ->
    exists h a b, In (h, a, b) l /\ below ps x h /\ a <= o <= b /\
      forall h' a' b', In (h', a', b') l -> below ps x h' -> a' <= o <= b' -> (h', a', b') = (h, a, b).

(** A list of rectangles that covers (leaves below [h]) x (slices [i..j]) exactly once. *)
Definition rect_split (L : Z) (ps : list Z) (h i j : Z) (l : list (Z * Z * Z)) : Prop :=
  NoDup l /\ (forall y a b, In (y, a, b) l -> node ps y /\ below ps y h /\ i <= a <= b /\ b <= j) /\
  forall x o, leaf L x -> below ps x h -> i <= o <= j ->
    exists y a b, In (y, a, b) l /\ below ps x y /\ a <= o <= b /\
      forall y' a' b', In (y', a', b') l -> below ps x y' -> a' <= o <= b' -> (y', a', b') = (y, a, b).

(** Rectangles in which the node covering a given leaf never moves back up the hierarchy as time advances. *)
Definition never_up (L : Z) (ps : list Z) (l : list (Z * Z * Z)) : Prop :=
  forall x h a b h' a' b', leaf L x -> In (h, a, b) l -> In (h', a', b') l ->
    below ps x h -> below ps x h' -> b < a' -> below ps h' h.

(** Sum of [f] over a list. *)
Definition Rsum {X : Type} (f : X -> R) (l : list X) : R := fold_right Rplus 0%R (map f l).

(** With weight [a] on gain and [b] on loss, a partition of total gain G' and loss L' is not better than one of
    gain G and loss L: value a*G-b*L first, then larger gain, then smaller loss. *)
Definition no_better (a b G L G' L' : R) : Prop :=
  (a * G' - b * L' < a * G - b * L \/
   (a * G' - b * L' = a * G - b * L /\ (G' < G \/ (G' = G /\ L <= L'))))%R.
