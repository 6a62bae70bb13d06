(** * A client's session: one qualities object, its tables, and the partitions obtained from them.

    A client calls computeQualities() and normalize() on one qualities object, and computeBestPartition(p) on partitioners.
    A partitioner keeps the table pointer that the qualities object had when the partitioner was made
    (src/lpaggreg/sources/opartitioner.cpp:3-11, src/lpaggreg/sources/hpartitioner.cpp:4-12,
    src/lpaggreg/sources/dpartitioner.cpp:3-11), so a partitioner is identified here with the number of the table it was made
    on. The first half is the pointer-level session; the second half is the value-level one: tables and partitions are
    plain values, normalize() replaces the current table, and nothing is shared. *)
From Verif Require Import Base Arith Quality Utm Hierarchy Values Qualities Partitions Partitioners TradeoffHeap.

(** [SCompute]: computeQualities(); [SNormalize]: normalize(); [SBest k p]: computeBestPartition(p) of a partitioner made
    while table number k was current. *)
Inductive sevent (P : Type) : Type := SCompute | SNormalize | SBest (k : Z) (p : P).
Arguments SCompute {P}.
Arguments SNormalize {P}.
Arguments SBest {P} k p.

Section Pointers.
Context (A : arith) (PT C K : Type).
Variables (compute : heap A -> res (heap A * PT)) (normalize : heap A -> PT -> res (heap A))
          (best : heap A -> PT -> par A -> res (heap A * hpn A C K)).

(** The heap, the tables computed so far (the last one is current) and the partitions returned so far, each with its table. *)
Definition hs_state : Type := (heap A * list PT * list (Z * hpn A C K))%type.

Definition hs_step (e : sevent (par A)) (st : hs_state) : res hs_state :=
  let '(hp, tabs, log) := st in
  match e with
  | SCompute => let* r := compute hp in
                let '(hp, t) := r in Ok (hp, tabs ++ [t], log)
  | SNormalize => let* t := vget tabs (vlen tabs - 1) in
                  let* hp := normalize hp t in Ok (hp, tabs, log)
  | SBest k p => let* t := vget tabs k in
                 let* r := best hp t p in
                 let '(hp, y) := r in Ok (hp, tabs, log ++ [(k, y)])
  end.

Definition hs_run (es : list (sevent (par A))) : res hs_state := mfold hs_step es ([], [], []).
End Pointers.

Section Values.
Context (A : arith) (VT N : Type).
Variables (compute : res VT) (normalize : VT -> res VT) (best : VT -> par A -> res N).

Definition vs_state : Type := (list VT * list (Z * N))%type.

Definition vs_step (e : sevent (par A)) (st : vs_state) : res vs_state :=
  let '(tabs, log) := st in
  match e with
  | SCompute => let* t := compute in Ok (tabs ++ [t], log)
  | SNormalize => let* t := vget tabs (vlen tabs - 1) in
                  let* t := normalize t in
                  let* tabs := vset tabs (vlen tabs - 1) t in Ok (tabs, log)
  | SBest k p => let* t := vget tabs k in
                 let* x := best t p in Ok (tabs, log ++ [(k, x)])
  end.

Definition vs_run (es : list (sevent (par A))) : res vs_state := mfold vs_step es ([], []).
End Values.

Section Inst.
Context (A : arith).

Definition some_table {T : Type} (o : option T) : res T := match o with Some t => Ok t | None => UB end.

(** src/lpaggreg/sources/oqualities.cpp:13-43, src/lpaggreg/sources/opartitioner.cpp:44-66: ordered sessions. *)
Definition oh_run (v : ovalues A) : list (sevent (par A)) -> res (hs_state A (utm Z) (list Z) (Z * Z)) :=
  hs_run A _ _ _ (fun hp => oh_compute A hp v) (fun hp t => oh_normalize A hp t (ov_osize v)) (oh_best A).
Definition ov_run (v : ovalues A) : list (sevent (par A)) -> res (vs_state (utm (quality A)) (opartition A)) :=
  vs_run A _ _ (let* o := oq_compute A (oq_ofValues A v) in some_table (oq_table o))
         (fun t => let* o := oq_normalize A (mkOQ A (Some v) (Some t)) in some_table (oq_table o)) (o_best A).

(** src/lpaggreg/sources/hqualities.cpp:14-53, src/lpaggreg/sources/hpartitioner.cpp:45-77: hierarchical sessions. *)
Definition hh_run (v : hvalues A) : list (sevent (par A)) -> res (hs_state A (list Z) (list bool) (Z * Z)) :=
  hs_run A _ _ _ (fun hp => hh_compute A hp v (hv_meta v)) (fun hp t => hh_normalize A hp t (m_root (hv_meta v)))
         (fun hp t => hh_best A hp t (hv_meta v)).
Definition hv_run (v : hvalues A) : list (sevent (par A)) -> res (vs_state (list (quality A)) (hpartition A)) :=
  vs_run A _ _ (let* o := hq_compute A (hq_ofValues A v) in some_table (hq_table o))
         (fun t => let* o := hq_normalize A (mkHQ A (Some v) (Some t) (hv_meta v)) in some_table (hq_table o))
         (fun t => h_best A t (hv_meta v)).

(** [computeQualities] of DQualities (src/lpaggreg/sources/dqualities.cpp:31-34): the matrices are stored one after the
    other, each with new Quality objects. *)
Definition d_store (r : heap A * list (utm Z)) (u : utm (quality A)) : heap A * list (utm Z) :=
  (fst r ++ u_data u, snd r ++ [mkU (u_size u) (u_elements u) (zrange (vlen (fst r)) (vlen (fst r) + vlen (u_data u)))]).
Definition dh_compute (hp : heap A) (v : dvalues A) (m : meta) : res (heap A * list (utm Z)) :=
  let* t := dq_computeTable A v m in
  Ok (fold_left d_store t (hp, [])).

(** src/lpaggreg/sources/dqualities.cpp:13-77, src/lpaggreg/sources/dpartitioner.cpp:45-91: spatiotemporal sessions. *)
Definition dh_run (v : dvalues A) : list (sevent (par A)) -> res (hs_state A (list (utm Z)) (list (utm Z)) (Z * Z * (Z * Z))) :=
  hs_run A _ _ _ (fun hp => dh_compute hp v (dv_meta v)) (fun hp t => dh_normalize A hp t (dv_meta v) (dv_osize v))
         (fun hp t => dh_best A hp t (dv_meta v)).
Definition dv_run (v : dvalues A) : list (sevent (par A)) -> res (vs_state (list (utm (quality A))) (dpartition A)) :=
  vs_run A _ _ (let* o := dq_compute A (dq_ofValues A v) in some_table (dq_table o))
         (fun t => let* o := dq_normalize A (mkDQ A (Some v) (Some t) (dv_meta v)) in some_table (dq_table o))
         (fun t => d_best A t (dv_meta v)).
End Inst.
