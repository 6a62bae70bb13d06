(** * Specification vocabulary for pjdump2micro (no proofs). *)
From Coq Require Import Sorting.Sorted Reals.
From Verif Require Import Base Arith RApi SpecR Slicer SpecSlicer.

(** The rows of a trace that are states; those that are variables. *)
Definition states (data : list drow) : list drow := filter (fun w => match dr_nature w with NState => true | NVariable => false end) data.
Definition variables (data : list drow) : list drow := filter (fun w => match dr_nature w with NVariable => true | NState => false end) data.

(** [l] lists the names that satisfy [P], each once, in increasing order. *)
Definition lists (P : Z -> Prop) (l : list Z) : Prop := StronglySorted Z.lt l /\ forall x, In x l <-> P x.

(** Some row of the resource (with the state) is inside a slice. *)
Definition seen (trace : list drow) (t0 t1 : R) (n r : Z) : Prop := exists w k, In w trace /\ dr_res w = r /\ inside t0 t1 n w k.
Definition seen_state (trace : list drow) (t0 t1 : R) (n v : Z) : Prop := exists w k, In w trace /\ dr_state w = v /\ inside t0 t1 n w k.

(** The containers of a trace are pairs (name, name of the parent). *)
Definition is_parent (containers : list (Z * Z)) (x : Z) : Prop := exists c, In (c, x) containers.
Definition is_container (containers : list (Z * Z)) (x : Z) : Prop := exists q, In (x, q) containers.

(** [y] is [d] levels above [x]. *)
Inductive above (containers : list (Z * Z)) : nat -> Z -> Z -> Prop :=
| above_0 : forall x, above containers 0 x x
| above_S : forall d x q y, In (x, q) containers -> above containers d q y -> above containers (S d) x y.

(** The containers form a tree above the resources that satisfy [P]: the first one is the root, names are unique, all parents are containers, the resources are
    containers, the root is above all of them and above all parents. (What the first line says about the parent of the root does not matter, provided that it is
    a container.) *)
Definition tree_of (containers : list (Z * Z)) (P : Z -> Prop) (root : Z) : Prop :=
  exists q0 rest, containers = (root, q0) :: rest /\ NoDup (map fst containers) /\
    (forall q, is_parent containers q -> is_container containers q) /\
    (forall x, P x -> is_container containers x) /\
    (forall x, P x \/ is_parent containers x -> exists d, above rest d x root).

(** Every parent is above one of the resources. *)
Definition no_empty (containers : list (Z * Z)) (P : Z -> Prop) : Prop :=
  forall q, is_parent containers q -> exists x d, P x /\ above (tl containers) d x q.

(** ** Counters *)
Definition counted (trace : list drow) (t0 t1 : R) (n r : Z) : Prop := exists t k, measured trace t0 t1 n r t k.
Definition counter_type (trace : list drow) (t0 t1 : R) (n t : Z) : Prop := exists r k, measured trace t0 t1 n r t k.

(** The mean rate of a counter in a slice; 0 where nothing is measured, and instead of a negative mean. *)
Definition counter_value (trace : list drow) (t0 t1 : R) (n r t k : Z) : R :=
  if ClassicalDedekindReals.sig_not_dec (measured trace t0 t1 n r t k) then Rmax 0 (mean_rate trace r t (slice_lo t0 t1 n k) (slice_hi t0 t1 n k)) else 0%R.
