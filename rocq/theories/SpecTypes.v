(** * Specification vocabulary: components (types of events) added up (no proofs). *)
From Coq Require Import Reals.
From Verif Require Import Base SpecInfo.

(** Sum of two components, slice by slice (or leaf by leaf). *)
Definition add_row (a b : list R) : list R := map (fun xy => (fst xy + snd xy)%R) (combine a b).
(** Sum of two spatiotemporal components, cell by cell. *)
Definition add_comp (a b : list (list R)) : list (list R) := map (fun xy => add_row (fst xy) (snd xy)) (combine a b).

(** Sum of a group of components with [n] values (respectively [L] leaves and [n] slices) each. *)
Definition add_rows (n : nat) (g : list (list R)) : list R := fold_right add_row (repeat 0%R n) g.
Definition add_comps (L n : nat) (g : list (list (list R))) : list (list R) := fold_right add_comp (repeat (repeat 0%R n) L) g.

(** All the components of the group are multiples of the same one. *)
Definition multiples (g : list (list R)) : Prop :=
  exists c, nonneg c /\ forall r, In r g -> exists a, (0 <= a)%R /\ r = map (Rmult a) c.
Definition multiples2 (g : list (list (list R))) : Prop :=
  exists c, Forall nonneg c /\ forall r, In r g -> exists a, (0 <= a)%R /\ r = map (map (Rmult a)) c.
