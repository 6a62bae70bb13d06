(** * Specification vocabulary: the data held by a values object and the tables a user expects from them
    (no proofs, independent of the algorithms that fill the tables). *)
From Coq Require Import Reals.
From Verif Require Import Base Arith Quality Utm UtmProofs Hierarchy SpecTree SpecParts SpecInfo Values.

(** Element [i] of a vector ([d] outside). *)
Definition elt {X : Type} (d : X) (l : list X) (i : Z) : X := nth (Z.to_nat i) l d.

(** Rectangular nested vectors: all inner vectors of a level have the same length. *)
Definition rect2 {X} (d : list (list X)) (b : Z) : Prop := Forall (fun r => vlen r = b) d.
Definition rect3 {X} (d : list (list (list X))) (b c : Z) : Prop := Forall (fun r => vlen r = b /\ rect2 r c) d.
Definition rect4 {X} (d : list (list (list (list X)))) (b c e : Z) : Prop := Forall (fun r => vlen r = b /\ rect3 r c e) d.

(** ** Ordered data: one row of [ov_osize v] values per component. *)
Definition orows {P} (v : ovalues (RP P)) (rows : list (list R)) : Prop :=
  mmap (ov_row v) (zrange 0 (ov_vsize v)) = Ok rows /\ Forall (fun r : list R => vlen r = ov_osize v) rows.

(** [v] holds the data [rows] and is within the supported size. *)
Definition odata_ok {P} (v : ovalues (RP P)) (rows : list (list R)) : Prop :=
  0 <= ov_vsize v /\ 0 <= ov_osize v <= 65535 /\ orows v rows.

(** Gain and loss of the interval [i..j]: summed over the components. *)
Definition ogain (rows : list (list R)) (i j : Z) : R := Rsum (fun r => gain_of (slice r i j)) rows.
Definition oloss (rows : list (list R)) (i j : Z) : R := Rsum (fun r => loss_of (slice r i j)) rows.

(** The table holds these gains and losses. *)
Definition otable {P} (t : utm (quality (RP P))) (n : Z) (rows : list (list R)) : Prop :=
  utm_shape t n /\ forall i j, 0 <= i <= j -> j < n -> u_get t i j = Ok (@mkQ (RP P) (ogain rows i j) (oloss rows i j)).

(** ** Hierarchical data: for every component the vector of the leaves' values. *)
Definition hcomps {P} (v : hvalues (RP P)) (comps : list (list R)) : Prop :=
  mmap (fun k => mmap (fun h => hv_value v h k) (zrange 0 (m_leaves (hv_meta v)))) (zrange 0 (hv_vsize v)) = Ok comps.

Definition hdata_ok {P} (v : hvalues (RP P)) (comps : list (list R)) : Prop :=
  0 <= hv_vsize v /\ well_built (hv_meta v) /\ 2 <= m_hsize (hv_meta v) /\ hcomps v comps.

(** The values of the leaves below node [h]. *)
Definition hcells (m : meta) (c : list R) (h : Z) : list R :=
  map (elt 0%R c) (leavesof (m_leaves m) (m_parents m) h).
Definition hgain (m : meta) (comps : list (list R)) (h : Z) : R := Rsum (fun c => gain_of (hcells m c h)) comps.
Definition hloss (m : meta) (comps : list (list R)) (h : Z) : R := Rsum (fun c => loss_of (hcells m c h)) comps.

Definition htable {P} (t : list (quality (RP P))) (m : meta) (comps : list (list R)) : Prop :=
  vlen t = m_hsize m /\
  forall h, 0 <= h < m_hsize m -> vget t h = Ok (@mkQ (RP P) (hgain m comps h) (hloss m comps h)).

(** ** Spatiotemporal data: for every component and leaf a row of values over time. *)
Definition dcomps {P} (v : dvalues (RP P)) (comps : list (list (list R))) : Prop :=
  mmap (fun k => mmap (fun h => dv_row v h k) (zrange 0 (m_leaves (dv_meta v)))) (zrange 0 (dv_vsize v)) = Ok comps /\
  Forall (Forall (fun r : list R => vlen r = dv_osize v)) comps.

Definition ddata_ok {P} (v : dvalues (RP P)) (comps : list (list (list R))) : Prop :=
  0 <= dv_vsize v /\ 1 <= dv_osize v <= 65535 /\ well_built (dv_meta v) /\ 2 <= m_hsize (dv_meta v) /\ dcomps v comps.

(** The values of the cells (leaf below [h]) x (slice in [i..j]). *)
Definition dcells (m : meta) (c : list (list R)) (h i j : Z) : list R :=
  flat_map (fun x => slice (elt [] c x) i j) (leavesof (m_leaves m) (m_parents m) h).
Definition dgain (m : meta) (comps : list (list (list R))) (h i j : Z) : R := Rsum (fun c => gain_of (dcells m c h i j)) comps.
Definition dloss (m : meta) (comps : list (list (list R))) (h i j : Z) : R := Rsum (fun c => loss_of (dcells m c h i j)) comps.

Definition dtable {P} (t : list (utm (quality (RP P)))) (m : meta) (n : Z) (comps : list (list (list R))) : Prop :=
  vlen t = m_hsize m /\ Forall (fun u => utm_shape u n) t /\
  forall h i j, 0 <= h < m_hsize m -> 0 <= i <= j -> j < n ->
    mm_get t h i j = Ok (@mkQ (RP P) (dgain m comps h i j) (dloss m comps h i j)).

(** ** Histories of calls on a qualities object. *)
Inductive qcall : Type := Compute | Normalize.

(** The table holds the gains and losses of the data divided by those of the whole interval. *)
Definition otable_norm {P} (t : utm (quality (RP P))) (n : Z) (rows : list (list R)) : Prop :=
  utm_shape t n /\ forall i j, 0 <= i <= j -> j < n ->
    u_get t i j = Ok (@mkQ (RP P) (ogain rows i j / ogain rows 0 (n - 1))%R (oloss rows i j / oloss rows 0 (n - 1))%R).

(** All data multiplied by a constant. *)
Definition scaled (c : R) (rows : list (list R)) : list (list R) := map (map (Rmult c)) rows.

(** Component [k] of rows: the k-th value of every row. *)
Definition columns {X : Type} (d : X) (w : Z) (rows : list (list X)) : list (list X) :=
  map (fun k => map (fun r => elt d r k) rows) (zrange 0 w).
