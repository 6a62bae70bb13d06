(** * Specification vocabulary for the R interface (no proofs). *)
From Coq Require Import Sorting.Sorted.
From Verif Require Import Base Arith RApi SpecSearch.

(** A 3-dimensional R array: [dim] is c(d0,d1,d2), all positive, and there are as many elements. *)
Definition r_cube {A} (micro : rarray A) (d0 d1 d2 : Z) : Prop :=
  ra_dim micro = [d0; d1; d2] /\ 1 <= d0 /\ 1 <= d1 /\ 1 <= d2 /\ vlen (ra_data micro) = d0 * d1 * d2.

(** R's subscript [micro[i,j,k]] (1-based, first index fastest). *)
Definition r_at {A} (micro : rarray A) (i j k : Z) : res (num A) :=
  match ra_dim micro with
  | [d0; d1; d2] => vget (ra_data micro) ((i - 1) + (j - 1) * d0 + (k - 1) * (d0 * d1))
  | _ => UB
  end.

Section S.
Context (A : arith).

(** R's [==] on parameters. *)
Definition same (p q : par A) : bool := negb (p_ltb A p q) && negb (p_ltb A q p).

(** [df[df$Parameter == p,]] without the column Parameter. *)
Definition rows_at {X : Type} (p : par A) (df : list (par A * X)) : list X := map snd (filter (fun r => same p (fst r)) df).

(** The sum of a column, from the top. *)
Definition column_sum (l : list (num A)) : num A := fold_left (n_add A) l (n_zero A).

(** The two frames fit together: the Parameter column of Qualities increases strictly from 0 and stays within 0 and 1, the rows of Partitions
    are grouped by these parameters in this order, and POpt is one of them. *)
Definition frames_ok {Row : Type} (one : par A) (r : rresult A Row) : Prop :=
  StronglySorted (plt A) (map fst (rr_quals r)) /\ hd_error (map fst (rr_quals r)) = Some (p_zero A) /\
  (forall p, In p (map fst (rr_quals r)) -> p = p_zero A \/ p = one \/ plt A (p_zero A) p /\ plt A p one) /\
  rr_parts r = concat (map (fun p => map (fun x => (p, x)) (rows_at p (rr_parts r))) (map fst (rr_quals r))) /\
  In (rr_popt r) (map fst (rr_quals r)).

(** The gains and losses [gl] of rows, and a row of Qualities: there are unrounded numbers behind both, and the second is the
    column sum of the first. *)
Definition totals (rd : num A -> num A) (gl : list (num A * num A)) (q : num A * num A) : Prop :=
  exists gs ls, gl = combine (map rd gs) (map rd ls) /\ length gs = length ls /\ q = (rd (column_sum gs), rd (column_sum ls)).
End S.

(** ** Exact arithmetic *)
From Coq Require Import Reals.
From Verif Require Import SpecInfo SpecParts.

(** [micro[i,j,k]] as a real number. *)
Definition r_val (micro : rarray RA) (i j k : Z) : R := match r_at micro i j k with Ok x => x | _ => 0%R end.

(** All subscripts of a dimension of size [d]. *)
Definition upto (d : Z) : list Z := zrange 1 (d + 1).

(** What oaggregate looks at: for every [i,j] the series [micro[i,j,]]. *)
Definition r_series (micro : rarray RA) (d0 d1 d2 : Z) : list (list R) :=
  map (fun '(i, j) => map (fun k => r_val micro i j k) (upto d2)) (list_prod (upto d0) (upto d1)).

(** What haggregate looks at: for every [j,k] the leaves' values [micro[,j,k]]. *)
Definition r_columns (micro : rarray RA) (d0 d1 d2 : Z) : list (list R) :=
  map (fun '(j, k) => map (fun i => r_val micro i j k) (upto d0)) (list_prod (upto d1) (upto d2)).

(** What daggregate looks at: for every [j] the whole slab [micro[,j,]]. *)
Definition r_slabs (micro : rarray RA) (d0 d1 d2 : Z) : list (list R) :=
  map (fun j => map (fun '(i, k) => r_val micro i j k) (list_prod (upto d0) (upto d2))) (upto d1).

(** POpt: the row of Qualities closest to gain 1 and loss 0, the largest parameter among equals. *)
Definition closest (quals : list (R * (R * R))) (p : R) : Prop :=
  exists g l, In (p, (g, l)) quals /\
    forall p' g' l', In (p', (g', l')) quals -> (dist2 g l < dist2 g' l' \/ dist2 g l = dist2 g' l' /\ p' <= p)%R.

(** The rows of Qualities lie in the unit square, with gain and loss growing with the parameter. *)
Definition unit_curve (quals : list (R * (R * R))) : Prop :=
  (forall p g l, In (p, (g, l)) quals -> 0 <= g <= 1 /\ 0 <= l <= 1)%R /\
  (forall p g l p' g' l', In (p, (g, l)) quals -> In (p', (g', l')) quals -> (p <= p')%R -> (g <= g' /\ l <= l')%R).
