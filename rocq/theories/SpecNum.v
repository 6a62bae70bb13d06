(** * Specification vocabulary for the rounding errors of the quality tables (no proofs). *)
From Coq Require Import ZArith Reals.
From Flocq Require Import Core BinarySingleNaN.
From Verif Require Import Base Arith Quality Hierarchy SpecTree Ieee SpecParts SpecInfo SpecData Values.

(** The logarithm of the C library is accurate: on numbers between 2^-E and 2^E it is finite and off by at most
    d (1 + |ln x|). *)
Definition log_accurate (E : Z) (d : R) (lg : f80 -> f80) : Prop :=
  forall x : f80, is_finite x = true -> (bpow radix2 (- E) <= B2R x <= bpow radix2 E)%R ->
    is_finite (lg x) = true /\ (Rabs (B2R (lg x) - ln (B2R x)) <= d * (1 + Rabs (ln (B2R x))))%R.

(** A datum: finite and either zero or at least 2^(1-E). *)
Definition datum (E : Z) (x : f80) : Prop :=
  is_finite x = true /\ (B2R x = 0 \/ bpow radix2 (1 - E) <= B2R x)%R.

(** The real numbers that the floating-point data stand for. *)
Definition reals (l : list f80) : list R := map (fun x : f80 => B2R x) l.

(** The relative error allowed for a table computed from [k] numbers per entry. *)
Definition num_err (E k : Z) (d : R) : R := (IZR E * (75 * d + IZR k * bpow radix2 (-56)))%R.

(** [x] is a finite long double within [e] of the real number [r]. *)
Definition within (e : R) (x : f80) (r : R) : Prop := is_finite x = true /\ (Rabs (B2R x - r) <= e)%R.

(** ** Ordered data: one row of [ov_osize v] floating-point values per component. *)
Definition odata_f {lg} (v : ovalues (IA lg)) (rows : list (list f80)) : Prop :=
  0 <= ov_vsize v <= 2147483647 /\ 0 <= ov_osize v <= 65535 /\
  mmap (ov_row v) (zrange 0 (ov_vsize v)) = Ok rows /\ Forall (fun r : list f80 => vlen r = ov_osize v) rows.

(** Sum of the values of the slices i..j, over all components. *)
Definition ototal (rows : list (list R)) (i j : Z) : R := Rsum (fun r => total (slice r i j)) rows.

(** Exact information value of a list of intervals: sum of a*gain-b*loss over them. *)
Definition ovalue (a b : R) (rows : list (list R)) (l : list (Z * Z)) : R :=
  Rsum (fun ij => a * ogain rows (fst ij) (snd ij) - b * oloss rows (fst ij) (snd ij))%R l.

(** How far from the optimum, relative to the total of the data, a partition into at most [n] parts can be that is computed
    from [K] components. *)
Definition opt_err (E n K : Z) (d : R) : R :=
  (IZR E * (300 * d + IZR (n + K) * bpow radix2 (-54) + IZR (n * n) * bpow radix2 (-57)))%R.

(** ** Hierarchical data: for every component the vector of the leaves' values. *)
Definition hdata_f {lg} (v : hvalues (IA lg)) (comps : list (list f80)) : Prop :=
  0 <= hv_vsize v <= 2147483647 /\ well_built (hv_meta v) /\ 2 <= m_hsize (hv_meta v) /\ m_leaves (hv_meta v) <= 2147483647 /\
  mmap (fun k => mmap (fun h => hv_value v h k) (zrange 0 (m_leaves (hv_meta v)))) (zrange 0 (hv_vsize v)) = Ok comps.

(** Sum of the values of the leaves below [h], over all components. *)
Definition htotal (m : meta) (comps : list (list R)) (h : Z) : R := Rsum (fun c => total (hcells m c h)) comps.

(** Exact information value of a list of nodes. *)
Definition hvalue (a b : R) (m : meta) (comps : list (list R)) (l : list Z) : R :=
  Rsum (fun h => a * hgain m comps h - b * hloss m comps h)%R l.

(** ** Spatiotemporal data: for every component and leaf a row of values over time. *)
Definition ddata_f {lg} (v : dvalues (IA lg)) (comps : list (list (list f80))) : Prop :=
  0 <= dv_vsize v <= 2147483647 /\ 1 <= dv_osize v <= 65535 /\ well_built (dv_meta v) /\ 2 <= m_hsize (dv_meta v) /\
  m_leaves (dv_meta v) * dv_osize v <= 2147483647 /\
  mmap (fun k => mmap (fun h => dv_row v h k) (zrange 0 (m_leaves (dv_meta v)))) (zrange 0 (dv_vsize v)) = Ok comps /\
  Forall (Forall (fun r : list f80 => vlen r = dv_osize v)) comps.

Definition dtotal (m : meta) (comps : list (list (list R))) (h i j : Z) : R := Rsum (fun c => total (dcells m c h i j)) comps.

(** Exact information value of a list of rectangles. *)
Definition dvalue (a b : R) (m : meta) (comps : list (list (list R))) (l : list (Z * Z * Z)) : R :=
  Rsum (fun '(h, i, j) => a * dgain m comps h i j - b * dloss m comps h i j)%R l.
