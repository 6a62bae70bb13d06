(** * Specification vocabulary for the R helpers omacro and hmacro (no proofs). *)
From Coq Require Import Reals.
From Verif Require Import Base SpecTree SpecParts Arith RApi SpecR.

(** The mean of f(s), ..., f(e). *)
Definition mean_over (f : Z -> R) (s e : Z) : R := (Rsum f (zrange s (e + 1)) / IZR (e - s + 1))%R.

(** The parents vector of an R user, with nodes counted from 0. *)
Definition from0 (h : list Z) : list Z := map (fun x => x - 1) h.

(** The sum of [micro[x,ty,ti]] over the elements x of Space below the node [sp] (nodes counted from 1). *)
Definition leaf_sum (micro : rarray RA) (h : list Z) (d0 sp ty ti : Z) : R :=
  Rsum (fun x => r_val micro (x + 1) ty ti) (leavesof d0 (from0 h) (sp - 1)).

(** The parent of a node, as the R functions report it: the root is its own parent. *)
Definition parent_is (h : list Z) (root sp pa : Z) : Prop :=
  if sp =? root + 1 then pa = sp else vget h (sp - 1) = Ok pa.

(** The sum of a column over the rows that satisfy a condition. *)
Definition sum_where {X : Type} (cond : X -> bool) (col : X -> R) (rows : list X) : R := Rsum col (filter cond rows).

(** A path of the hierarchy of an R user: all nodes 1, ..., n once, the leaves 1, ..., L first, in order, every node before its parent, the root last. *)
Definition r_path (h : list Z) (L root : Z) (p : list Z) : Prop :=
  vlen p = vlen h /\ NoDup p /\ (forall x, In x p <-> 1 <= x <= vlen h) /\ (forall i, 1 <= i <= L -> vget p (i - 1) = Ok i) /\
  (forall i j c q, vget p i = Ok c -> vget p j = Ok q -> vget h (c - 1) = Ok q -> i < j) /\ vget p (vlen h - 1) = Ok (root + 1).
