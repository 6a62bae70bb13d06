(** * Specification vocabulary: nested vectors whose rows have different lengths (no proofs). *)
From Verif Require Import Base Values.

(** Every inner vector cut to the length of the first one at its level. *)
Definition crop {X : Type} (n : Z) (l : list X) : list X := firstn (Z.to_nat n) l.
Definition cropped2 {X : Type} (d : list (list X)) : list (list X) := map (crop (size2 d)) d.
Definition cropped3 {X : Type} (d : list (list (list X))) : list (list (list X)) := map (fun x => map (crop (size3 d)) (crop (size2 d) x)) d.
Definition cropped4 {X : Type} (d : list (list (list (list X)))) : list (list (list (list X))) :=
  map (fun y => map (fun x => map (crop (size4 d)) (crop (size3 d) x)) (crop (size2 d) y)) d.

(** Nested vectors without any value where the first one at each level would be. *)
Definition void2 {X : Type} (d : list (list X)) : Prop := match d with [] => True | r :: _ => r = [] end.
Definition void3 {X : Type} (d : list (list (list X))) : Prop := match d with [] => True | r :: _ => void2 r end.
Definition void4 {X : Type} (d : list (list (list (list X)))) : Prop := match d with [] => True | r :: _ => void3 r end.
