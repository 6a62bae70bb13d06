(** * OQualities, HQualities, DQualities: computation and normalisation of gain/loss tables. *)
From Verif Require Import Base Arith Quality Utm Hierarchy Values.

Section M.
Context (A : arith).
Notation num := (num A).
Notation quality := (quality A).

(** [q->addToGain(g); q->addToLoss(l)] on one table entry. *)
Definition q_bump (q : quality) (g l : num) : quality := q_addLoss A (q_addGain A q g) l.

(** [ms[h](i,j) = ms[h](i,j) + x]. *)
Definition mm_addto (ms : list (utm num)) (h i j : Z) (x : num) : res (list (utm num)) :=
  let* y := mm_get ms h i j in mm_set ms h i j (n_add A y x).

(** ** OQualities (src/lpaggreg/headers/oqualities.h:18-34; getters src/lpaggreg/sources/oqualities.cpp:45-53). *)
Record oqual : Type := mkOQ { oq_values : option (ovalues A); oq_table : option (utm quality) }.

(** src/lpaggreg/sources/oqualities.cpp:3-11: the two constructors. *)
Definition oq_ofTable (t : utm quality) : oqual := mkOQ None (Some t).
Definition oq_ofValues (v : ovalues A) : oqual := mkOQ (Some v) None.

(** src/lpaggreg/sources/oqualities.cpp:35-40, body of the j-loop. *)
Definition oq_cell (i j : Z) (st : utm num * utm num * utm quality) : res (utm num * utm num * utm quality) :=
  let '(sum, info, q) := st in
  let* s1 := u_get sum (i + 1) j in
  let* s2 := u_get sum i i in
  let* sum := u_set sum i j (n_add A s1 s2) in
  let* f1 := u_get info (i + 1) j in
  let* f2 := u_get info i i in
  let* info := u_set info i j (n_add A f1 f2) in
  let* s := u_get sum i j in
  let* f := u_get info i j in
  let* c := u_get q i j in
  let* q := u_set q i j (q_bump c (entropyReduction A s f) (divergence A (j - i + 1) s f)) in
  Ok (sum, info, q).

(** src/lpaggreg/sources/oqualities.cpp:32-41, body of the i-loop. *)
Definition oq_line (v : ovalues A) (osize k i : Z) (st : utm num * utm num * utm quality)
  : res (utm num * utm num * utm quality) :=
  let '(sum, info, q) := st in
  let* r := ov_row v k in
  let* x := vget r i in
  let* sum := u_set sum i i x in
  let* info := u_set info i i (entropyReduction A x (n_zero A)) in
  for_up (i + 1) osize (oq_cell i) (sum, info, q).

(** src/lpaggreg/sources/oqualities.cpp:26-42: the table for the given values. The matrices [sum] and [info] are
    shared by all components, as in the source. *)
Definition oq_computeTable (v : ovalues A) : res (utm quality) :=
  let osize := ov_osize v in
  let vsize := ov_vsize v in
  let* st := for_up 0 vsize
      (fun k st => for_down osize 0 (oq_line v osize k) st)
      (u_new osize (n_zero A), u_new osize (n_zero A), u_new osize (q_zero A)) in
  Ok (snd st).

(** src/lpaggreg/sources/oqualities.cpp:21-43 [computeQualities]. *)
Definition oq_compute (o : oqual) : res oqual :=
  match oq_values o with
  | None => Ok o
  | Some v => let* t := oq_computeTable v in Ok (mkOQ (oq_values o) (Some t))
  end.

(** src/lpaggreg/sources/oqualities.cpp:13-19 [normalize]: [max] is a pointer to the cell (0, osize-1) of the table
    itself, so it is re-read in every iteration. *)
Definition u_normalize (t : utm quality) (imax : Z) : res (utm quality) :=
  for_up 0 (u_elements t)
    (fun i t => let* q := u_at t i in
                let* mx := vget (u_data t) imax in
                u_put t i (q_div A q mx)) t.

Definition oq_normalize (o : oqual) : res oqual :=
  match oq_table o, oq_values o with
  | Some t, Some v =>
      let* _ := u_get t 0 (ov_osize v - 1) in
      let* t' := u_normalize t (u_index (u_size t) 0 (ov_osize v - 1)) in
      Ok (mkOQ (oq_values o) (Some t'))
  | _, _ => UB (* null pointer dereference *)
  end.

(** ** HQualities (src/lpaggreg/headers/hqualities.h:17-37; getters src/lpaggreg/sources/hqualities.cpp:55-68). *)
Record hqual : Type := mkHQ { hq_values : option (hvalues A); hq_table : option (list quality); hq_meta : meta }.

(** src/lpaggreg/sources/hqualities.cpp:4-12. *)
Definition hq_ofTable (t : list quality) (m : meta) : hqual := mkHQ None (Some t) m.
Definition hq_ofValues (v : hvalues A) : hqual := mkHQ (Some v) None (hv_meta v).

(** The loop [for (h = path[i]; i < n; h = path[++i]) body] started with [i = a]; it leaves [h] at
    [path[max(a,n)]]. *)
Definition path_loop {S : Type} (path : list Z) (a n : Z) (body : Z -> S -> res S) (s : S) : res (S * Z) :=
  let* h := vget path a in
  for_up a n (fun i sh => let '(s, h) := sh in
                          let* s' := body h s in
                          let* h' := vget path (i + 1) in
                          Ok (s', h')) (s, h).

(** src/lpaggreg/sources/hqualities.cpp:38-43, body of the leaf loop. *)
Definition hq_leaf (v : hvalues A) (m : meta) (k h : Z) (st : list num * list num) : res (list num * list num) :=
  let '(sum, info) := st in
  let* x := hv_value v h k in
  let* sum := vset sum h x in
  let* p := vget (m_parents m) h in
  let* sp := vget sum p in
  let* sh := vget sum h in
  let* sum := vset sum p (n_add A sp sh) in
  let* sh := vget sum h in
  let* info := vset info h (entropyReduction A sh (n_zero A)) in
  let* ip := vget info p in
  let* ih := vget info h in
  let* info := vset info p (n_add A ip ih) in
  Ok (sum, info).

(** src/lpaggreg/sources/hqualities.cpp:47-48 (and 50-51): update of one node's quality. *)
Definition hq_update (m : meta) (sum info : list num) (h : Z) (q : list quality) : res (list quality) :=
  let* s := vget sum h in
  let* f := vget info h in
  let* c := vget q h in
  vset q h (q_bump c (entropyReduction A s f) (divergence A (m_sizeof m h) s f)).

(** src/lpaggreg/sources/hqualities.cpp:44-49, body of the internal-node loop. *)
Definition hq_node (m : meta) (h : Z) (st : list num * list num * list quality)
  : res (list num * list num * list quality) :=
  let '(sum, info, q) := st in
  let* p := vget (m_parents m) h in
  let* sp := vget sum p in
  let* sh := vget sum h in
  let* sum := vset sum p (n_add A sp sh) in
  let* ip := vget info p in
  let* ih := vget info h in
  let* info := vset info p (n_add A ip ih) in
  let* q := hq_update m sum info h q in
  Ok (sum, info, q).

(** src/lpaggreg/sources/hqualities.cpp:33-52, one component. *)
Definition hq_component (v : hvalues A) (m : meta) (k : Z) (q : list quality) : res (list quality) :=
  let hsize := m_hsize m in
  let* r := path_loop (m_path m) 0 (m_leaves m) (hq_leaf v m k)
                      (vrep hsize (n_zero A), vrep hsize (n_zero A)) in
  let '((sum, info), _) := r in
  let* r := path_loop (m_path m) (m_leaves m) (hsize - 1) (hq_node m) (sum, info, q) in
  let '((sum, info, q), h) := r in
  hq_update m sum info h q.

(** src/lpaggreg/sources/hqualities.cpp:27-53. *)
Definition hq_computeTable (v : hvalues A) (m : meta) : res (list quality) :=
  for_up 0 (hv_vsize v) (hq_component v m) (vrep (m_hsize m) (q_zero A)).

(** src/lpaggreg/sources/hqualities.cpp:22-53 [computeQualities]. *)
Definition hq_compute (o : hqual) : res hqual :=
  match hq_values o with
  | None => Ok o
  | Some v => let* t := hq_computeTable v (hq_meta o) in Ok (mkHQ (hq_values o) (Some t) (hq_meta o))
  end.

(** src/lpaggreg/sources/hqualities.cpp:14-20 [normalize]: [max] points to the root's entry of the same vector. *)
Definition h_normalize (t : list quality) (root : Z) : res (list quality) :=
  for_up 0 (vlen t)
    (fun i t => let* q := vget t i in
                let* mx := vget t root in
                vset t i (q_div A q mx)) t.

Definition hq_normalize (o : hqual) : res hqual :=
  match hq_table o with
  | None => UB
  | Some t => let* _ := vget t (m_root (hq_meta o)) in
              let* t' := h_normalize t (m_root (hq_meta o)) in
              Ok (mkHQ (hq_values o) (Some t') (hq_meta o))
  end.

(** ** DQualities (src/lpaggreg/headers/dqualities.h:19-39; getters src/lpaggreg/sources/dqualities.cpp:79-92). *)
Record dqual : Type := mkDQ { dq_values : option (dvalues A); dq_table : option (list (utm quality)); dq_meta : meta }.

(** src/lpaggreg/sources/dqualities.cpp:3-11. *)
Definition dq_ofTable (t : list (utm quality)) (m : meta) : dqual := mkDQ None (Some t) m.
Definition dq_ofValues (v : dvalues A) : dqual := mkDQ (Some v) None (dv_meta v).

Definition dq_state : Type := (list (utm num) * list (utm num) * list (utm quality))%type.

(** src/lpaggreg/sources/dqualities.cpp:53-54 / 63-64 / 72-73: update of one cell's quality. *)
Definition dq_update (sum info : list (utm num)) (n h i j : Z) (q : list (utm quality)) : res (list (utm quality)) :=
  let* s := mm_get sum h i j in
  let* f := mm_get info h i j in
  let* c := mm_get q h i j in
  mm_set q h i j (q_bump c (entropyReduction A s f) (divergence A n s f)).

(** [sum[p](i,j) += sum[h](i,j); info[p](i,j) += info[h](i,j)] (src/lpaggreg/sources/dqualities.cpp:48-49, 55-56, 65-66). *)
Definition dq_toParent (m : meta) (h i j : Z) (sum info : list (utm num)) : res (list (utm num) * list (utm num)) :=
  let* p := vget (m_parents m) h in
  let* s := mm_get sum h i j in
  let* sum := mm_addto sum p i j s in
  let* f := mm_get info h i j in
  let* info := mm_addto info p i j f in
  Ok (sum, info).

(** src/lpaggreg/sources/dqualities.cpp:50-57, body of the j-loop of the leaf phase. *)
Definition dq_leafCell (m : meta) (h i j : Z) (st : dq_state) : res dq_state :=
  let '(sum, info, q) := st in
  let* s1 := mm_get sum h (i + 1) j in
  let* s2 := mm_get sum h i i in
  let* sum := mm_set sum h i j (n_add A s1 s2) in
  let* f1 := mm_get info h (i + 1) j in
  let* f2 := mm_get info h i i in
  let* info := mm_set info h i j (n_add A f1 f2) in
  let* q := dq_update sum info (j - i + 1) h i j q in
  let* si := dq_toParent m h i j sum info in
  let '(sum, info) := si in
  Ok (sum, info, q).

(** src/lpaggreg/sources/dqualities.cpp:45-58, body of the i-loop of the leaf phase. *)
Definition dq_leafLine (v : dvalues A) (m : meta) (osize k h i : Z) (st : dq_state) : res dq_state :=
  let '(sum, info, q) := st in
  let* r := dv_row v h k in
  let* x := vget r i in
  let* sum := mm_set sum h i i x in
  let* info := mm_set info h i i (entropyReduction A x (n_zero A)) in
  let* si := dq_toParent m h i i sum info in
  let '(sum, info) := si in
  for_up (i + 1) osize (dq_leafCell m h i) (sum, info, q).

Definition dq_leaf (v : dvalues A) (m : meta) (osize k h : Z) (st : dq_state) : res dq_state :=
  for_down osize 0 (dq_leafLine v m osize k h) st.

(** src/lpaggreg/sources/dqualities.cpp:60-69, body of the internal-node loop. *)
Definition dq_nodeCell (m : meta) (h i j : Z) (st : dq_state) : res dq_state :=
  let '(sum, info, q) := st in
  let* q := dq_update sum info ((j - i + 1) * m_sizeof m h) h i j q in
  let* si := dq_toParent m h i j sum info in
  let '(sum, info) := si in
  Ok (sum, info, q).

Definition dq_node (m : meta) (osize h : Z) (st : dq_state) : res dq_state :=
  for_down osize 0 (fun i st => for_up i osize (dq_nodeCell m h i) st) st.

(** src/lpaggreg/sources/dqualities.cpp:70-75, the root. *)
Definition dq_root (m : meta) (osize h : Z) (st : dq_state) : res dq_state :=
  for_down osize 0 (fun i st => for_up i osize
     (fun j st => let '(sum, info, q) := st in
                  let* q := dq_update sum info ((j - i + 1) * m_sizeof m h) h i j q in
                  Ok (sum, info, q)) st) st.

(** src/lpaggreg/sources/dqualities.cpp:35-76, one component. *)
Definition dq_component (v : dvalues A) (m : meta) (k : Z) (q : list (utm quality)) : res (list (utm quality)) :=
  let hsize := m_hsize m in
  let osize := dv_osize v in
  let fresh := vrep hsize (u_new osize (n_zero A)) in
  let* r := path_loop (m_path m) 0 (m_leaves m) (dq_leaf v m osize k) (fresh, fresh, q) in
  let* r := path_loop (m_path m) (m_leaves m) (hsize - 1) (dq_node m osize) (fst r) in
  let* st := dq_root m osize (snd r) (fst r) in
  Ok (snd st).

(** src/lpaggreg/sources/dqualities.cpp:28-76. *)
Definition dq_computeTable (v : dvalues A) (m : meta) : res (list (utm quality)) :=
  for_up 0 (dv_vsize v) (dq_component v m) (vrep (m_hsize m) (u_new (dv_osize v) (q_zero A))).

(** src/lpaggreg/sources/dqualities.cpp:23-77 [computeQualities]. *)
Definition dq_compute (o : dqual) : res dqual :=
  match dq_values o with
  | None => Ok o
  | Some v => let* t := dq_computeTable v (dq_meta o) in Ok (mkDQ (dq_values o) (Some t) (dq_meta o))
  end.

(** src/lpaggreg/sources/dqualities.cpp:13-21 [normalize]: [max] points to cell (0, osize-1) of the root's matrix. *)
Definition d_normalize (t : list (utm quality)) (hsize root imax : Z) : res (list (utm quality)) :=
  for_up 0 hsize
    (fun h t =>
       let* u := vget t h in
       for_up 0 (u_elements u)
         (fun i t => let* u := vget t h in
                     let* q := u_at u i in
                     let* ur := vget t root in
                     let* mx := vget (u_data ur) imax in
                     let* u' := u_put u i (q_div A q mx) in
                     vset t h u') t) t.

Definition dq_normalize (o : dqual) : res dqual :=
  match dq_table o, dq_values o with
  | Some t, Some v =>
      let m := dq_meta o in
      let* ur := vget t (m_root m) in
      let* _ := u_get ur 0 (dv_osize v - 1) in
      let* t' := d_normalize t (m_hsize m) (m_root m) (u_index (u_size ur) 0 (dv_osize v - 1)) in
      Ok (mkDQ (dq_values o) (Some t') m)
  | _, _ => UB
  end.

End M.

Arguments oq_values {A} o.
Arguments oq_table {A} o.
Arguments hq_values {A} h.
Arguments hq_table {A} h.
Arguments hq_meta {A} h.
Arguments dq_values {A} d.
Arguments dq_table {A} d.
Arguments dq_meta {A} d.
