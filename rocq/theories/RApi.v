(** * The C++ code embedded in R/lpaggreg.R: oaggregate, haggregate and daggregate.

    This is the interface an R user sees: a 3-dimensional array, a vector of parents with 1-based indices (0 for the root) and a
    threshold go in; two data frames, the optimal parameter and the area under the curve come out. *)
From Verif Require Import Base Arith Quality Utm Hierarchy Values Qualities Partitions Partitioners Search.

Section M.
Context (A : arith).
Notation num := (num A).
Notation par := (par A).

(** An R numeric array: its elements in memory order and its [dim] attribute. *)
Record rarray : Type := mkRArr { ra_data : list num; ra_dim : list Z }.

(** [cubeArray(i,j,k)] of Armadillo on the memory of the R array (R/lpaggreg.R:40, 47): column-major order. An index out of
    bounds makes Armadillo throw; it is UB here. *)
Definition cube_at (micro : rarray) (d0 d1 d2 i j k : Z) : res num :=
  if (0 <=? i) && (i <? d0) && (0 <=? j) && (j <? d1) && (0 <=? k) && (k <? d2)
  then vget (ra_data micro) (i + j * d0 + k * d0 * d1) else UB.

(** R/lpaggreg.R:37-52 [convertToMicroModel]; the three loops push_back in order. *)
Definition convertToMicroModel (micro : rarray) : res (list (list (list num))) :=
  let* d0 := vget (ra_dim micro) 0 in
  let* d1 := vget (ra_dim micro) 1 in
  let* d2 := vget (ra_dim micro) 2 in
  mmap (fun i => mmap (fun j => mmap (fun k => cube_at micro d0 d1 d2 i j k) (zrange 0 d2)) (zrange 0 d1)) (zrange 0 d0).

(** R/lpaggreg.R:54-61 [convertToHierarchy]; the R vector holds whole numbers. *)
Definition convertToHierarchy (h : list Z) : list Z := map (fun x => x - 1) h.

(** What the three functions return: the rows of Partitions, the rows of Qualities, POpt and AUC. *)
Record rresult (Row : Type) : Type := mkRR { rr_parts : list (par * Row); rr_quals : list (par * (num * num)); rr_popt : par; rr_auc : num }.
Arguments mkRR {Row}.
Arguments rr_parts {Row} r.
Arguments rr_quals {Row} r.
Arguments rr_popt {Row} r.
Arguments rr_auc {Row} r.

(** [rd] is the conversion of lp_quality_type to the doubles of an R vector. *)
Context (rd : num -> num).

(** R/lpaggreg.R:72-108, 120-156, 168-210: filling the two data frames (the float parameter, POpt and AUC become doubles exactly). *)
Definition r_frames {Pn Tu Row : Type} (row : Tu -> Row) (st : @pstate A Pn Tu) : res (rresult Row) :=
  let parts := map (fun pt => (fst pt, row (snd pt))) (ps_tuples st) in
  let quals := map (fun pq => (fst pq, (rd (gain (snd pq)), rd (loss (snd pq))))) (ps_qual st) in
  let* popt := s_getP A st P_OPT in
  let* auc := s_auc A st in
  Ok (mkRR parts quals popt auc).

(** R/lpaggreg.R:79-86, 127-134, 177-186: one row of Partitions. *)
Definition o_row (x : Z * Z * num * num) : Z * Z * num * num :=
  let '(s, e, g, l) := x in (s + 1, e + 1, rd g, rd l).
Definition h_row (x : Z * Z * num * num) : Z * Z * num * num :=
  let '(h, n, g, l) := x in (h + 1, n, rd g, rd l).
Definition d_row (x : Z * Z * Z * Z * num * num) : Z * Z * Z * Z * num * num :=
  let '(h, n, s, e, g, l) := x in (h + 1, n, s + 1, e + 1, rd g, rd l).

(** src/lpaggreg/headers/partitioner.h:18: the default arguments min=0.0 and max=1.0 of computeBestPartitions. *)
Definition p_one : par := p_compl A (p_zero A).

(** R/lpaggreg.R:64-109 [oaggregate]. *)
Definition r_oaggregate (strict : bool) (fuel : nat) (micro : rarray) (th : par) : res (rresult (Z * Z * num * num)) :=
  let* m := convertToMicroModel micro in
  let* o := oq_compute A (oq_ofValues A (ov3_of A m)) in
  let* o := oq_normalize A o in
  match oq_table o with
  | None => UB
  | Some t => let* st := o_search A strict fuel t (ps_empty A) th (p_zero A) p_one in r_frames o_row st
  end.

(** R/lpaggreg.R:112-157 [haggregate]. *)
Definition r_haggregate (strict : bool) (fuel : nat) (micro : rarray) (h : list Z) (th : par) : res (rresult (Z * Z * num * num)) :=
  let* m := convertToMicroModel micro in
  let* v := hv3_of A m (convertToHierarchy h) in
  let* o := hq_compute A (hq_ofValues A v) in
  let* o := hq_normalize A o in
  match hq_table o with
  | None => UB
  | Some t => let* st := h_search A strict fuel t (hv_meta v) (ps_empty A) th (p_zero A) p_one in r_frames h_row st
  end.

(** R/lpaggreg.R:160-211 [daggregate]. *)
Definition r_daggregate (strict : bool) (fuel : nat) (micro : rarray) (h : list Z) (th : par) : res (rresult (Z * Z * Z * Z * num * num)) :=
  let* m := convertToMicroModel micro in
  let* v := dv3_of A m (convertToHierarchy h) in
  let* o := dq_compute A (dq_ofValues A v) in
  let* o := dq_normalize A o in
  match dq_table o with
  | None => UB
  | Some t => let* st := d_search A strict fuel t (dv_meta v) (ps_empty A) th (p_zero A) p_one in r_frames d_row st
  end.
End M.

Arguments mkRArr {A}.
Arguments ra_data {A} r.
Arguments ra_dim {A} r.
Arguments mkRR {A Row}.
Arguments rr_parts {A Row} r.
Arguments rr_quals {A Row} r.
Arguments rr_popt {A Row} r.
Arguments rr_auc {A Row} r.
