(** * Pointer-level model of computeBestPartition and normalize.

    In the source the Quality objects live on the heap and are reached through [shared_ptr<Quality>]: the quality tables
    hold pointers, every Tradeoff holds a pointer, every part of a partition holds a pointer. The implicit copy
    assignment of Tradeoff (src/lpaggreg/headers/tradeoff.h:11-37: the user-defined one is commented out in
    src/lpaggreg/sources/tradeoff.cpp:33-36) copies the pointer, so two tradeoffs may share one Quality, and [+=] mutates
    that Quality. The other model files give tradeoffs and parts value semantics; here the pointers are explicit: the heap
    is the list of all Quality objects allocated so far, an address is an index into it. *)
From Verif Require Import Base Arith Quality Utm Hierarchy Values Qualities Partitions.

Section M.
Context (A : arith).
Notation num := (num A).
Notation quality := (quality A).
Notation tradeoff := (tradeoff A).

Definition heap : Type := list quality.

(** [shared_ptr<Quality>(new Quality(q))]. *)
Definition h_alloc (hp : heap) (q : quality) : heap * Z := (hp ++ [q], vlen hp).

(** src/lpaggreg/headers/tradeoff.h:14-17: a Tradeoff object. *)
Record tobj : Type := mkTO { to_q : Z; to_v : num }.

(** What the comparison operators read ([getValue()], [getQuality()->...]). *)
Definition to_val (hp : heap) (o : tobj) : res tradeoff := let* q := vget hp (to_q o) in Ok (mkT q (to_v o)).

(** src/lpaggreg/sources/tradeoff.cpp:9-13 [set] with 3-6 [computePIC]: the old pointer of the object is dropped. *)
Definition to_set (hp : heap) (o : tobj) (qa : Z) (p : par A) : res (heap * tobj) :=
  let* q := vget hp qa in
  let '(hp, a) := h_alloc hp (mkQ (gain q) (loss q)) in
  let* q := vget hp a in
  Ok (hp, mkTO a (pic A q p)).

(** src/lpaggreg/sources/tradeoff.cpp:59-63 [operator+=]: mutates the Quality the left operand points to. *)
Definition to_add (hp : heap) (a b : tobj) : res (heap * tobj) :=
  let* x := vget hp (to_q a) in
  let* y := vget hp (to_q b) in
  let* hp := vset hp (to_q a) (q_add A x y) in
  Ok (hp, mkTO (to_q a) (n_add A (to_v a) (to_v b))).

(** The implicit copy assignment [*a = *b]: pointer and value. *)
Definition to_copy (b : tobj) : tobj := mkTO (to_q b) (to_v b).

(** A returned partition: the choices made (cuts or flags), the parts with the pointers they hold, the parameter and the
    pointer to the total quality. *)
Record hpn (C K : Type) : Type := mkHN { pn_choice : C; pn_parts : list (K * Z); pn_par : par A; pn_qual : Z }.
Arguments mkHN {C K}.
Arguments pn_choice {C K} h.
Arguments pn_parts {C K} h.
Arguments pn_par {C K} h.
Arguments pn_qual {C K} h.

(** src/lpaggreg/sources/opartition.cpp:58-64, src/lpaggreg/sources/hpartition.cpp:90-96,
    src/lpaggreg/sources/dpartition.cpp:85-91 [computeQuality]: a new Quality, to which the parts' are added. *)
Definition pn_total {K : Type} (hp : heap) (parts : list (K * Z)) : res (heap * Z) :=
  let '(hp, a) := h_alloc hp (q_zero A) in
  let* hp := mfold (fun kx hp => let* t := vget hp a in
                                 let* q := vget hp (snd kx) in
                                 vset hp a (q_add A t q)) parts hp in
  Ok (hp, a).

(** ** OPartitioner *)

(** src/lpaggreg/sources/opartitioner.cpp:55-62; the state is (heap, tradeoff_t, cut, tradeoff). *)
Definition oh_state : Type := (heap * tobj * list Z * list tobj)%type.
Definition oh_try (t : utm Z) (p : par A) (i c : Z) (st : oh_state) : res oh_state :=
  let '(hp, tx, cut, tr) := st in
  let* qa := u_get t i c in
  let* r := to_set hp tx qa p in
  let '(hp, tx) := r in
  let* nxt := vget tr (c + 1) in
  let* r := to_add hp tx nxt in
  let '(hp, tx) := r in
  let* cur := vget tr i in
  let* x := to_val hp tx in
  let* y := to_val hp cur in
  if t_gtb A x y then
    let* cut := vset cut i c in
    let* tr := vset tr i (to_copy tx) in
    Ok (hp, tx, cut, tr)
  else Ok (hp, tx, cut, tr).

(** src/lpaggreg/sources/opartitioner.cpp:53-63. *)
Definition oh_line (t : utm Z) (p : par A) (size i : Z) (st : oh_state) : res oh_state :=
  let '(hp, tx, cut, tr) := st in
  let* qa := u_get t i (size - 1) in
  let* o := vget tr i in
  let* r := to_set hp o qa p in
  let '(hp, o) := r in
  let* tr := vset tr i o in
  for_up i (size - 1) (oh_try t p i) (hp, tx, cut, tr).

(** src/lpaggreg/sources/opartitioner.cpp:46-63. *)
Definition oh_tables (hp : heap) (t : utm Z) (p : par A) : res oh_state :=
  let size := u_size t in
  let n := vlen hp in
  let tr := map (fun i => mkTO (n + i) (n_zero A)) (zrange 0 size) in
  let hp := hp ++ vrep size (q_zero A) in
  let '(hp, a) := h_alloc hp (q_zero A) in
  for_down size 0 (oh_line t p size) (hp, mkTO a (n_zero A), vrep size (size - 1), tr).

(** src/lpaggreg/sources/opartition.cpp:49-55 [computeParts]: the part holds the table's pointer. *)
Fixpoint oh_loop (fuel : nat) (cuts : list Z) (t : utm Z) (i : Z) : res (list ((Z * Z) * Z)) :=
  match fuel with
  | O => OutOfFuel
  | S fuel' =>
      if (0 <=? i) && (i <? vlen cuts) then
        let* c := vget cuts i in
        let* q := u_get t i c in
        let* r := oh_loop fuel' cuts t (c + 1) in
        Ok ((i, c, q) :: r)
      else Ok []
  end.

(** src/lpaggreg/sources/opartitioner.cpp:44-66 [computeBestPartition] and src/lpaggreg/sources/opartition.cpp:30-34. *)
Definition oh_best (hp : heap) (t : utm Z) (p : par A) : res (heap * hpn (list Z) (Z * Z)) :=
  let* st := oh_tables hp t p in
  let '(hp, _, cut, _) := st in
  let* parts := oh_loop (S (length cut)) cut t 0 in
  let* r := pn_total hp parts in
  let '(hp, a) := r in
  Ok (hp, mkHN cut parts p a).

(** ** HPartitioner *)
Definition hh_state : Type := (heap * list tobj * list tobj * list bool)%type.

(** src/lpaggreg/sources/hpartitioner.cpp:60, 68: [*tradeoffChildren[parents[h]] += *tradeoff[h]]. *)
Definition hh_toParent (m : meta) (h : Z) (hp : heap) (tr tc : list tobj) : res (heap * list tobj) :=
  let* p := vget (m_parents m) h in
  let* x := vget tc p in
  let* y := vget tr h in
  let* r := to_add hp x y in
  let '(hp, x) := r in
  let* tc := vset tc p x in
  Ok (hp, tc).

(** src/lpaggreg/sources/hpartitioner.cpp:58-61. *)
Definition hh_leaf (t : list Z) (m : meta) (p : par A) (h : Z) (st : hh_state) : res hh_state :=
  let '(hp, tr, tc, agg) := st in
  let* qa := vget t h in
  let* o := vget tr h in
  let* r := to_set hp o qa p in
  let '(hp, o) := r in
  let* tr := vset tr h o in
  let* r := hh_toParent m h hp tr tc in
  let '(hp, tc) := r in
  Ok (hp, tr, tc, agg).

(** src/lpaggreg/sources/hpartitioner.cpp:63-67 and 70-74. *)
Definition hh_decide (t : list Z) (p : par A) (h : Z) (st : hh_state) : res hh_state :=
  let '(hp, tr, tc, agg) := st in
  let* qa := vget t h in
  let* o := vget tr h in
  let* r := to_set hp o qa p in
  let '(hp, o) := r in
  let* tr := vset tr h o in
  let* x := vget tr h in
  let* c := vget tc h in
  let* xv := to_val hp x in
  let* cv := to_val hp c in
  if t_ltb A xv cv then
    let* agg := vset agg h false in
    let* tr := vset tr h (to_copy c) in
    Ok (hp, tr, tc, agg)
  else Ok (hp, tr, tc, agg).

(** src/lpaggreg/sources/hpartitioner.cpp:62-69. *)
Definition hh_node (t : list Z) (m : meta) (p : par A) (h : Z) (st : hh_state) : res hh_state :=
  let* st := hh_decide t p h st in
  let '(hp, tr, tc, agg) := st in
  let* r := hh_toParent m h hp tr tc in
  let '(hp, tc) := r in
  Ok (hp, tr, tc, agg).

(** src/lpaggreg/sources/hpartitioner.cpp:47-74. The two tradeoffs of node h are allocated one after the other (51-52). *)
Definition hh_tables (hp : heap) (t : list Z) (m : meta) (p : par A) : res hh_state :=
  let hsize := m_hsize m in
  let n := vlen hp in
  let tr := map (fun h => mkTO (n + 2 * h) (n_zero A)) (zrange 0 hsize) in
  let tc := map (fun h => mkTO (n + 2 * h + 1) (n_zero A)) (zrange 0 hsize) in
  let hp := hp ++ vrep (2 * hsize) (q_zero A) in
  let* r := path_loop (m_path m) 0 (m_leaves m) (hh_leaf t m p) (hp, tr, tc, vrep hsize true) in
  let* r := path_loop (m_path m) (m_leaves m) (hsize - 1) (hh_node t m p) (fst r) in
  hh_decide t p (snd r) (fst r).

(** src/lpaggreg/sources/hpartition.cpp:78-87 [computeSubPart]: the part holds the table's pointer. *)
Fixpoint hh_sub (fuel : nat) (agg : list bool) (t : list Z) (m : meta) (h : Z) : res (list ((Z * Z) * Z)) :=
  match fuel with
  | O => OutOfFuel
  | S fuel' =>
      let* a := vget agg h in
      if (a : bool) then
        let* q := vget t h in
        Ok [(h, m_sizeof m h, q)]
      else
        let* ch := vget (m_children m) h in
        let* ls := mmap (hh_sub fuel' agg t m) ch in
        Ok (concat ls)
  end.

(** src/lpaggreg/sources/hpartitioner.cpp:45-77 [computeBestPartition] and src/lpaggreg/sources/hpartition.cpp:65-76. *)
Definition hh_best (hp : heap) (t : list Z) (m : meta) (p : par A) : res (heap * hpn (list bool) (Z * Z)) :=
  let* st := hh_tables hp t m p in
  let '(hp, _, _, agg) := st in
  let* parts := hh_sub (S (Z.to_nat (m_hsize m))) agg t m (m_root m) in
  let* r := pn_total hp parts in
  let '(hp, a) := r in
  Ok (hp, mkHN agg parts p a).

(** ** DPartitioner *)
Definition dh_state : Type := (heap * list (utm Z) * list (utm tobj) * list (utm tobj))%type.

(** src/lpaggreg/sources/dpartitioner.cpp:70-79. *)
Definition dh_try (t : list (utm Z)) (p : par A) (h i j c : Z) (st : dh_state) : res dh_state :=
  let '(hp, cuts, tr, tc) := st in
  let '(hp, a) := h_alloc hp (q_zero A) in
  let tx := mkTO a (n_zero A) in
  let* qa := mm_get t h i c in
  let* o := mm_get tr h i c in
  let* r := to_set hp o qa p in
  let '(hp, o) := r in
  let* tr := mm_set tr h i c o in
  let* x := mm_get tr h i c in
  let* r := to_add hp tx x in
  let '(hp, tx) := r in
  let* y := mm_get tr h (c + 1) j in
  let* r := to_add hp tx y in
  let '(hp, tx) := r in
  let* cur := mm_get tr h i j in
  let* tv := to_val hp tx in
  let* cv := to_val hp cur in
  if t_gtb A tv cv then
    let* cuts := mm_set cuts h i j c in
    let* tr := mm_set tr h i j (to_copy tx) in
    Ok (hp, cuts, tr, tc)
  else Ok (hp, cuts, tr, tc).

(** src/lpaggreg/sources/dpartitioner.cpp:62-69. *)
Definition dh_init (t : list (utm Z)) (m : meta) (p : par A) (k h i j : Z) (st : dh_state) : res dh_state :=
  let '(hp, cuts, tr, tc) := st in
  let* cuts := mm_set cuts h i j j in
  let* qa := mm_get t h i j in
  let* o := mm_get tr h i j in
  let* r := to_set hp o qa p in
  let '(hp, o) := r in
  let* tr := mm_set tr h i j o in
  if m_leaves m <=? k then
    let* c := mm_get tc h i j in
    let* x := mm_get tr h i j in
    let* cv := to_val hp c in
    let* xv := to_val hp x in
    if t_gtb A cv xv then
      let* cuts := mm_set cuts h i j (-1) in
      let* tr := mm_set tr h i j (to_copy c) in
      Ok (hp, cuts, tr, tc)
    else Ok (hp, cuts, tr, tc)
  else Ok (hp, cuts, tr, tc).

(** src/lpaggreg/sources/dpartitioner.cpp:61-83. *)
Definition dh_cell (t : list (utm Z)) (m : meta) (p : par A) (k h i j : Z) (st : dh_state) : res dh_state :=
  let* st := dh_init t m p k h i j st in
  let* st := for_up i j (dh_try t p h i j) st in
  let '(hp, cuts, tr, tc) := st in
  if k <? m_hsize m - 1 then
    let* pr := vget (m_parents m) h in
    let* x := mm_get tc pr i j in
    let* y := mm_get tr h i j in
    let* r := to_add hp x y in
    let '(hp, x) := r in
    let* tc := mm_set tc pr i j x in
    Ok (hp, cuts, tr, tc)
  else Ok (hp, cuts, tr, tc).

(** src/lpaggreg/sources/dpartitioner.cpp:60-84. *)
Definition dh_node (t : list (utm Z)) (m : meta) (p : par A) (osize k h : Z) (st : dh_state) : res dh_state :=
  for_down osize 0 (fun i st => for_up i osize (dh_cell t m p k h i) st) st.

(** src/lpaggreg/sources/dpartitioner.cpp:59-88. *)
Fixpoint dh_nodes (fuel : nat) (t : list (utm Z)) (m : meta) (p : par A) (osize k h : Z) (st : dh_state) : res dh_state :=
  match fuel with
  | O => OutOfFuel
  | S fuel' =>
      if k <? m_hsize m then
        let* st := dh_node t m p osize k h st in
        if h =? m_root m then Ok st
        else let* h' := vget (m_path m) (k + 1) in
             dh_nodes fuel' t m p osize (k + 1) h' st
      else Ok st
  end.

(** A matrix of fresh tradeoffs with addresses from [base] on
    (src/lpaggreg/sources/uppertriangularmatrix.cpp:38-44). *)
Definition u_fresh (osize base : Z) : utm tobj :=
  mkU osize (u_count osize) (map (fun e => mkTO (base + e) (n_zero A)) (zrange 0 (u_count osize))).

(** src/lpaggreg/sources/dpartitioner.cpp:47-88. For every node the matrix of [tradeoff] is allocated, then that of
    [tradeoffChildren] (53-54). *)
Definition dh_tables (hp : heap) (t : list (utm Z)) (m : meta) (p : par A) : res dh_state :=
  let hsize := m_hsize m in
  let* u := vget t 0 in
  let osize := u_size u in
  let n := vlen hp in
  let e := u_count osize in
  let tr := map (fun h => u_fresh osize (n + 2 * h * e)) (zrange 0 hsize) in
  let tc := map (fun h => u_fresh osize (n + (2 * h + 1) * e)) (zrange 0 hsize) in
  let hp := hp ++ vrep (2 * hsize * e) (q_zero A) in
  let* h := vget (m_path m) 0 in
  dh_nodes (S (Z.to_nat hsize)) t m p osize 0 h (hp, vrep hsize (u_new osize (osize - 1)), tr, tc).

(** src/lpaggreg/sources/dpartition.cpp:69-82 [computeSubPart]; a part is ((node, leaves), (start, end)). *)
Fixpoint dh_sub (fuel : nat) (cuts : list (utm Z)) (t : list (utm Z)) (m : meta) (h i j : Z) : res (list ((Z * Z * (Z * Z)) * Z)) :=
  match fuel with
  | O => OutOfFuel
  | S fuel' =>
      let* cut := mm_get cuts h i j in
      if cut =? -1 then
        let* ch := vget (m_children m) h in
        let* ls := mmap (fun c => dh_sub fuel' cuts t m c i j) ch in
        Ok (concat ls)
      else
        let* q := mm_get t h i cut in
        let part := ((h, m_sizeof m h, (i, cut)), q) in
        if cut <? j then
          let* r := dh_sub fuel' cuts t m h (cut + 1) j in
          Ok (part :: r)
        else Ok [part]
  end.

(** src/lpaggreg/sources/dpartitioner.cpp:45-91 [computeBestPartition] and src/lpaggreg/sources/dpartition.cpp:53-67. *)
Definition dh_best (hp : heap) (t : list (utm Z)) (m : meta) (p : par A) : res (heap * hpn (list (utm Z)) (Z * Z * (Z * Z))) :=
  let* st := dh_tables hp t m p in
  let '(hp, cuts, _, _) := st in
  let* u := vget t 0 in
  let* parts := dh_sub (S (Z.to_nat (m_hsize m + u_size u))) cuts t m (m_root m) 0 (u_size u - 1) in
  let* r := pn_total hp parts in
  let '(hp, a) := r in
  Ok (hp, mkHN cuts parts p a).

(** ** normalize, on the objects the table points to *)

(** [*q /= *max] (src/lpaggreg/sources/quality.cpp:61-65) for the pointers [a] and [mx]. *)
Definition h_div (hp : heap) (a mx : Z) : res heap :=
  let* q := vget hp a in
  let* x := vget hp mx in
  vset hp a (q_div A q x).

(** src/lpaggreg/sources/oqualities.cpp:13-19. *)
Definition oh_normalize (hp : heap) (t : utm Z) (osize : Z) : res heap :=
  let* mx := u_get t 0 (osize - 1) in
  for_up 0 (u_elements t) (fun i hp => let* a := u_at t i in h_div hp a mx) hp.

(** src/lpaggreg/sources/hqualities.cpp:14-20. *)
Definition hh_normalize (hp : heap) (t : list Z) (root : Z) : res heap :=
  let* mx := vget t root in
  for_up 0 (vlen t) (fun i hp => let* a := vget t i in h_div hp a mx) hp.

(** src/lpaggreg/sources/dqualities.cpp:13-21. *)
Definition dh_normalize (hp : heap) (t : list (utm Z)) (m : meta) (osize : Z) : res heap :=
  let* ur := vget t (m_root m) in
  let* mx := u_get ur 0 (osize - 1) in
  for_up 0 (m_hsize m) (fun h hp =>
    let* u := vget t h in
    for_up 0 (u_elements u) (fun i hp => let* a := u_at u i in h_div hp a mx) hp) hp.

(** [computeQualities] (src/lpaggreg/sources/oqualities.cpp:21-43, src/lpaggreg/sources/hqualities.cpp:22-53,
    src/lpaggreg/sources/dqualities.cpp:23-77) allocates a new table with new Quality objects. Simplification: the new
    objects are not reachable from anywhere else while they are filled, so they are allocated with their final contents. *)
Definition h_store (hp : heap) (qs : list quality) : heap * list Z := (hp ++ qs, zrange (vlen hp) (vlen hp + vlen qs)).
Definition oh_compute (hp : heap) (v : ovalues A) : res (heap * utm Z) :=
  let* t := oq_computeTable A v in
  let '(hp, l) := h_store hp (u_data t) in
  Ok (hp, mkU (u_size t) (u_elements t) l).
Definition hh_compute (hp : heap) (v : hvalues A) (m : meta) : res (heap * list Z) :=
  let* t := hq_computeTable A v m in
  Ok (h_store hp t).

End M.

Arguments mkHN {A C K}.
Arguments pn_choice {A C K} h.
Arguments pn_parts {A C K} h.
Arguments pn_par {A C K} h.
Arguments pn_qual {A C K} h.
Arguments to_q {A} t.
Arguments to_v {A} t.
