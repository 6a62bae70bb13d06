(** * Specification vocabulary: data seen by two of the three aggregations (no proofs). *)
From Coq Require Import Reals.
From Verif Require Import Base Arith Quality Utm Hierarchy SpecParts.

(** A triangular matrix of one slice: its only cell. *)
Definition one_cell {X : Type} (x : X) : utm X := mkU 1 1 [x].

(** Hierarchical data [leaf][component] as spatiotemporal data [leaf][component][slice] with one slice; and with one component. *)
Definition one_slice {X : Type} (d : list (list X)) : list (list (list X)) := map (map (fun x => [x])) d.
Definition one_slice1 {X : Type} (d : list X) : list (list X) := map (fun x => [x]) d.

(** A hierarchical table as a spatiotemporal table over one slice. *)
Definition sliced {X M : Type} (r : res (option (list X) * M)) : res (option (list (utm X)) * M) :=
  let* tm := r in Ok (option_map (map one_cell) (fst tm), snd tm).

(** Gain and loss of a node are at least the sums of its children's (C12: true of the qualities of any non-negative data). *)
Definition superadditive {P} (t : list (quality (RP P))) (m : meta) : Prop :=
  forall h ch qs q, vget (m_children m) h = Ok ch -> ch <> [] -> mmap (vget t) ch = Ok qs -> vget t h = Ok q ->
    (Rsum (@gain (RP P)) qs <= gain q)%R /\ (Rsum (@loss (RP P)) qs <= loss q)%R.
