(** * Specification vocabulary for normalised quality tables in long double (no proofs). *)
From Coq Require Import ZArith Reals.
From Flocq Require Import Core.
From Verif Require Import Base Arith Quality Hierarchy SpecTree SpecParts SpecInfo SpecData SpecNum.

(** Error allowed for an entry normalised by the measure [g0] of the whole, data of total [t0]. *)
Definition norm_err (E k : Z) (d t0 g0 : R) : R := (6 * num_err E k d * (t0 / g0))%R.

(** How far from the optimum of the exact normalised measures the computed partition can be: [N] cells, [K] components. *)
Definition nopt_err (E N K : Z) (d t0 g0 l0 : R) : R :=
  (2 * (norm_err E (N + K) d t0 g0 + norm_err E (N + K) d t0 l0) + IZR (N * N) * bpow radix2 (-57))%R.

(** Error allowed for the total of a partition reported by the code: [N] cells, [K] components. *)
Definition ntot_err (E N K : Z) (d t0 g0 : R) : R := (norm_err E (N + K) d t0 g0 + IZR (N * N) * bpow radix2 (-59))%R.

(** The measure [g0] of the whole is at least twice the error bound of C77. *)
Definition well_above (E k : Z) (d t0 g0 : R) : Prop := (0 < g0 /\ 2 * num_err E k d * t0 <= g0)%R.

(** Exact values of lists of parts, gains and losses normalised by those of the whole. *)
Definition onvalue (a b : R) (rows : list (list R)) (n : Z) (l : list (Z * Z)) : R :=
  Rsum (fun ij => a * (ogain rows (fst ij) (snd ij) / ogain rows 0 (n - 1)) - b * (oloss rows (fst ij) (snd ij) / oloss rows 0 (n - 1)))%R l.
Definition hnvalue (a b : R) (m : meta) (comps : list (list R)) (l : list Z) : R :=
  Rsum (fun h => a * (hgain m comps h / hgain m comps (m_root m)) - b * (hloss m comps h / hloss m comps (m_root m)))%R l.
Definition dnvalue (a b : R) (m : meta) (comps : list (list (list R))) (n : Z) (l : list (Z * Z * Z)) : R :=
  Rsum (fun '(h, i, j) => a * (dgain m comps h i j / dgain m comps (m_root m) 0 (n - 1)) -
                          b * (dloss m comps h i j / dloss m comps (m_root m) 0 (n - 1)))%R l.
