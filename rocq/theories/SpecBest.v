(** * Specification vocabulary: gain and loss of the parts of an R array (no proofs). *)
From Coq Require Import Reals.
From Verif Require Import Base Arith RApi SpecR SpecInfo SpecParts SpecTree SpecMacro.

(** [f] (gain or loss) of the slices [s..e] of an array: for every [i,j] the values [micro[i,j,s:e]]. *)
Definition interval (f : list R -> R) (micro : rarray RA) (d0 d1 s e : Z) : R :=
  Rsum (fun '(i, j) => f (map (fun k => r_val micro i j k) (zrange s (e + 1)))) (list_prod (upto d0) (upto d1)).

(** [f] of node [x] (counted from 1) of the hierarchy vector [h]: for every [j,k] the values [micro[i,j,k]] of the elements [i] below it. *)
Definition subtree (f : list R -> R) (micro : rarray RA) (d0 d1 d2 : Z) (h : list Z) (x : Z) : R :=
  Rsum (fun '(j, k) => f (map (fun i => r_val micro (i + 1) j k) (leavesof d0 (from0 h) (x - 1)))) (list_prod (upto d1) (upto d2)).

(** [f] of node [x] and slices [s..e]: for every [j] all values [micro[i,j,k]] with [i] below the node and [k] in the slices. *)
Definition rectangle (f : list R -> R) (micro : rarray RA) (d0 d1 : Z) (h : list Z) (x s e : Z) : R :=
  Rsum (fun j => f (flat_map (fun i => map (fun k => r_val micro (i + 1) j k) (zrange s (e + 1))) (leavesof d0 (from0 h) (x - 1)))) (upto d1).

(** What normalize() makes of the value of node [x]: divided by the one of the root, except for nodes that come after the root. *)
Definition relative (root x : Z) (value whole : R) : R := if x <=? root then (value / whole)%R else value.
