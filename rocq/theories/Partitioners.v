(** * computeBestPartition of OPartitioner, HPartitioner and DPartitioner. *)
From Verif Require Import Base Arith Quality Utm Hierarchy Qualities Partitions.

Section M.
Context (A : arith).
Notation quality := (quality A).
Notation tradeoff := (tradeoff A).

(** ** OPartitioner (constructors src/lpaggreg/sources/opartitioner.cpp:3-11: the table is an argument of the functions below). *)

(** src/lpaggreg/sources/opartitioner.cpp:55-62, body of the cut_t loop. *)
Definition ob_try (t : utm quality) (p : par A) (i c : Z) (st : list Z * list tradeoff) : res (list Z * list tradeoff) :=
  let '(cut, tr) := st in
  let* q := u_get t i c in
  let* nxt := vget tr (c + 1) in
  let tt := t_add A (t_set A q p) nxt in
  let* cur := vget tr i in
  if t_gtb A tt cur then
    let* cut := vset cut i c in
    let* tr := vset tr i tt in
    Ok (cut, tr)
  else Ok (cut, tr).

(** src/lpaggreg/sources/opartitioner.cpp:53-63, body of the i loop. *)
Definition ob_line (t : utm quality) (p : par A) (size i : Z) (st : list Z * list tradeoff) : res (list Z * list tradeoff) :=
  let '(cut, tr) := st in
  let* q := u_get t i (size - 1) in
  let* tr := vset tr i (t_set A q p) in
  for_up i (size - 1) (ob_try t p i) (cut, tr).

(** src/lpaggreg/sources/opartitioner.cpp:46-63: the tables [cut] and [tradeoff]. *)
Definition ob_tables (t : utm quality) (p : par A) : res (list Z * list tradeoff) :=
  let size := u_size t in
  for_down size 0 (ob_line t p size) (vrep size (size - 1), vrep size (t_zero A)).

(** src/lpaggreg/sources/opartitioner.cpp:44-66 [computeBestPartition]. *)
Definition o_best (t : utm quality) (p : par A) : res (opartition A) :=
  let* st := ob_tables t p in
  on_make A (fst st) t p.

(** ** HPartitioner (constructors src/lpaggreg/sources/hpartitioner.cpp:4-12). *)
Definition hb_state : Type := (list tradeoff * list tradeoff * list bool)%type.

(** [tradeoffChildren[parents[h]] += tradeoff[h]] (src/lpaggreg/sources/hpartitioner.cpp:60, 68). *)
Definition hb_toParent (m : meta) (h : Z) (tr tc : list tradeoff) : res (list tradeoff) :=
  let* p := vget (m_parents m) h in
  let* x := vget tc p in
  let* y := vget tr h in
  vset tc p (t_add A x y).

(** src/lpaggreg/sources/hpartitioner.cpp:58-61, leaf loop body. *)
Definition hb_leaf (t : list quality) (m : meta) (p : par A) (h : Z) (st : hb_state) : res hb_state :=
  let '(tr, tc, agg) := st in
  let* q := vget t h in
  let* tr := vset tr h (t_set A q p) in
  let* tc := hb_toParent m h tr tc in
  Ok (tr, tc, agg).

(** src/lpaggreg/sources/hpartitioner.cpp:63-67 and 70-74: decision at one internal node. *)
Definition hb_decide (t : list quality) (p : par A) (h : Z) (st : hb_state) : res hb_state :=
  let '(tr, tc, agg) := st in
  let* q := vget t h in
  let* tr := vset tr h (t_set A q p) in
  let* x := vget tr h in
  let* c := vget tc h in
  if t_ltb A x c then
    let* agg := vset agg h false in
    let* tr := vset tr h c in
    Ok (tr, tc, agg)
  else Ok (tr, tc, agg).

(** src/lpaggreg/sources/hpartitioner.cpp:62-69, internal-node loop body. *)
Definition hb_node (t : list quality) (m : meta) (p : par A) (h : Z) (st : hb_state) : res hb_state :=
  let* st := hb_decide t p h st in
  let '(tr, tc, agg) := st in
  let* tc := hb_toParent m h tr tc in
  Ok (tr, tc, agg).

(** src/lpaggreg/sources/hpartitioner.cpp:47-74. *)
Definition hb_tables (t : list quality) (m : meta) (p : par A) : res hb_state :=
  let hsize := m_hsize m in
  let* r := path_loop (m_path m) 0 (m_leaves m) (hb_leaf t m p)
              (vrep hsize (t_zero A), vrep hsize (t_zero A), vrep hsize true) in
  let* r := path_loop (m_path m) (m_leaves m) (hsize - 1) (hb_node t m p) (fst r) in
  hb_decide t p (snd r) (fst r).

(** src/lpaggreg/sources/hpartitioner.cpp:45-77 [computeBestPartition]. *)
Definition h_best (t : list quality) (m : meta) (p : par A) : res (hpartition A) :=
  let* st := hb_tables t m p in
  hn_make A (snd st) t p m.

(** ** DPartitioner (constructors src/lpaggreg/sources/dpartitioner.cpp:3-11). *)
Definition db_state : Type := (list (utm Z) * list (utm tradeoff) * list (utm tradeoff))%type.

(** src/lpaggreg/sources/dpartitioner.cpp:70-79, body of the cut_t loop. Line 72 overwrites the tradeoff stored for
    (i, cut_t) by that of the single part, as in the source. *)
Definition db_try (t : list (utm quality)) (p : par A) (h i j c : Z) (st : db_state) : res db_state :=
  let '(cuts, tr, tc) := st in
  let* q := mm_get t h i c in
  let* tr := mm_set tr h i c (t_set A q p) in
  let* x := mm_get tr h i c in
  let* y := mm_get tr h (c + 1) j in
  let tt := t_add A (t_add A (t_zero A) x) y in
  let* cur := mm_get tr h i j in
  if t_gtb A tt cur then
    let* cuts := mm_set cuts h i j c in
    let* tr := mm_set tr h i j tt in
    Ok (cuts, tr, tc)
  else Ok (cuts, tr, tc).

(** src/lpaggreg/sources/dpartitioner.cpp:62-69: initial choice for (h,i,j): the single part, or (internal nodes only)
    the children. *)
Definition db_init (t : list (utm quality)) (m : meta) (p : par A) (k h i j : Z) (st : db_state) : res db_state :=
  let '(cuts, tr, tc) := st in
  let* cuts := mm_set cuts h i j j in
  let* q := mm_get t h i j in
  let* tr := mm_set tr h i j (t_set A q p) in
  if m_leaves m <=? k then
    let* c := mm_get tc h i j in
    let* x := mm_get tr h i j in
    if t_gtb A c x then
      let* cuts := mm_set cuts h i j (-1) in
      let* tr := mm_set tr h i j c in
      Ok (cuts, tr, tc)
    else Ok (cuts, tr, tc)
  else Ok (cuts, tr, tc).

(** src/lpaggreg/sources/dpartitioner.cpp:61-83, body of the j loop. *)
Definition db_cell (t : list (utm quality)) (m : meta) (p : par A) (k h i j : Z) (st : db_state) : res db_state :=
  let* st := db_init t m p k h i j st in
  let* st := for_up i j (db_try t p h i j) st in
  let '(cuts, tr, tc) := st in
  if k <? m_hsize m - 1 then
    let* pr := vget (m_parents m) h in
    let* x := mm_get tc pr i j in
    let* y := mm_get tr h i j in
    let* tc := mm_set tc pr i j (t_add A x y) in
    Ok (cuts, tr, tc)
  else Ok (cuts, tr, tc).

(** src/lpaggreg/sources/dpartitioner.cpp:60-84: all intervals of one node. *)
Definition db_node (t : list (utm quality)) (m : meta) (p : par A) (osize k h : Z) (st : db_state) : res db_state :=
  for_down osize 0 (fun i st => for_up i osize (db_cell t m p k h i) st) st.

(** src/lpaggreg/sources/dpartitioner.cpp:59-88: the node loop with its [break] at the root. *)
Fixpoint db_loop (fuel : nat) (t : list (utm quality)) (m : meta) (p : par A) (osize k h : Z) (st : db_state) : res db_state :=
  match fuel with
  | O => OutOfFuel
  | S fuel' =>
      if k <? m_hsize m then
        let* st := db_node t m p osize k h st in
        if h =? m_root m then Ok st
        else let* h' := vget (m_path m) (k + 1) in
             db_loop fuel' t m p osize (k + 1) h' st
      else Ok st
  end.

(** src/lpaggreg/sources/dpartitioner.cpp:47-88. *)
Definition db_tables (t : list (utm quality)) (m : meta) (p : par A) : res db_state :=
  let hsize := m_hsize m in
  let* u := vget t 0 in
  let osize := u_size u in
  let* h := vget (m_path m) 0 in
  db_loop (S (Z.to_nat hsize)) t m p osize 0 h
    (vrep hsize (u_new osize (osize - 1)), vrep hsize (u_new osize (t_zero A)), vrep hsize (u_new osize (t_zero A))).

(** src/lpaggreg/sources/dpartitioner.cpp:45-91 [computeBestPartition]. *)
Definition d_best (t : list (utm quality)) (m : meta) (p : par A) : res (dpartition A) :=
  let* st := db_tables t m p in
  dn_make A (fst (fst st)) t p m.

End M.
