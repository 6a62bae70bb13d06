(** * The value containers and their loops in machine words: 32-bit unsigned sizes, [int] loop counters.

    Values.v and Qualities.v compute sizes and indices in unbounded integers. This file models the same lines with the conversions the C++ code really makes,
    so that P_Words.v can say exactly when the two agree. *)
From Verif Require Import Base Arith Quality Utm Hierarchy Values Qualities.

Definition two31 : Z := 2147483648.

(** The loop [for (int k = 0; k < vsize; k++)] with [unsigned vsize] (src/lpaggreg/sources/oqualities.cpp:31, src/lpaggreg/sources/hqualities.cpp:33, src/lpaggreg/sources/dqualities.cpp:35): k is converted to
    unsigned in the comparison; when [vsize] is at least 2^31 the increment of k = 2^31-1 is reached and overflows (undefined behaviour). Simplification: the iterations before
    it are not executed in the model, since the execution as a whole is undefined. *)
Definition for_int {S : Type} (vsize : Z) (body : Z -> S -> res S) (s : S) : res S :=
  if vsize <? two31 then for_up 0 vsize body s else UB.

Section M.
Context (A : arith).
Notation val := (num A).
Notation quality := (quality A).

(** src/lpaggreg/sources/ovaluesn.cpp:63-67, 112-116 with src/lpaggreg/headers/ovalues.h (unsigned members): SIZE1*SIZE2 is computed in size_t and converted to unsigned. *)
Definition ov3_w (v : list (list (list val))) : ovalues A :=
  mkOV A (wrap (size1 v * size2 v)) (wrap (size3 v)) (ON3 A (wrap (size1 v)) (wrap (size2 v)) v).
Definition ov4_w (v : list (list (list (list val)))) : ovalues A :=
  mkOV A (wrap (size1 v * size2 v * size3 v)) (wrap (size4 v)) (ON4 A (wrap (size1 v)) (wrap (size2 v)) (wrap (size3 v)) v).

(** src/lpaggreg/sources/hvaluesn.cpp:76-80, 121-125; the number of leaves is handled as in Values.v. *)
Definition hv3_w (v : list (list (list val))) (parents : list Z) : res (hvalues A) :=
  let* m := meta_build (size1 v) parents in Ok (mkHV A (wrap (size2 v * size3 v)) m (HN3 A (wrap (size2 v)) (wrap (size3 v)) v)).
Definition hv4_w (v : list (list (list (list val)))) (parents : list Z) : res (hvalues A) :=
  let* m := meta_build (size1 v) parents in
  Ok (mkHV A (wrap (size2 v * size3 v * size4 v)) m (HN4 A (wrap (size2 v)) (wrap (size3 v)) (wrap (size4 v)) v)).

(** src/lpaggreg/sources/dvaluesn.cpp:63. *)
Definition dv4_w (v : list (list (list (list val)))) (parents : list Z) : res (dvalues A) :=
  let* m := meta_build (size1 v) parents in
  Ok (mkDV A (wrap (size2 v * size3 v)) (wrap (size4 v)) m (DN4 A (wrap (size2 v)) (wrap (size3 v)) v)).

(** src/lpaggreg/sources/ovaluesn.cpp:12-14, 33-35, 73-75, 100-110, 122-124: in toI the product k*j is unsigned. *)
Definition ov_row_w (v : ovalues A) (index : Z) : res (list val) :=
  match ov_data v with
  | ON4 _ _ j k d =>
      let* a := udiv index (wrap (k * j)) in
      let* q := udiv index k in
      let* b := umod q j in
      let* c := umod index k in
      vget3 d a b c
  | _ => ov_row v index
  end.

(** src/lpaggreg/sources/hvaluesn.cpp:4-22, 109-119. *)
Definition hv_value_w (v : hvalues A) (h index : Z) : res val :=
  match hv_data v with
  | HN4 _ _ j k d =>
      let* a := udiv index (wrap (k * j)) in
      let* q := udiv index k in
      let* b := umod q j in
      let* c := umod index k in
      vget4 d h a b c
  | _ => hv_value v h index
  end.

(** src/lpaggreg/sources/oqualities.cpp:32-41 (as [oq_line], reading through [ov_row_w]). *)
Definition oq_line_w (v : ovalues A) (osize k i : Z) (st : utm val * utm val * utm quality) : res (utm val * utm val * utm quality) :=
  let '(sum, info, q) := st in
  let* r := ov_row_w v k in
  let* x := vget r i in
  let* sum := u_set sum i i x in
  let* info := u_set info i i (entropyReduction A x (n_zero A)) in
  for_up (i + 1) osize (oq_cell A i) (sum, info, q).

(** src/lpaggreg/sources/oqualities.cpp:26-42. *)
Definition o_table_w (v : ovalues A) : res (option (utm quality)) :=
  let osize := ov_osize v in
  let* st := for_int (ov_vsize v) (fun k st => for_down osize 0 (oq_line_w v osize k) st)
      (u_new osize (n_zero A), u_new osize (n_zero A), u_new osize (q_zero A)) in
  Ok (Some (snd st)).

(** src/lpaggreg/sources/hqualities.cpp:38-43 (as [hq_leaf], reading through [hv_value_w]). *)
Definition hq_leaf_w (v : hvalues A) (m : meta) (k h : Z) (st : list val * list val) : res (list val * list val) :=
  let '(sum, info) := st in
  let* x := hv_value_w v h k in
  let* sum := vset sum h x in
  let* p := vget (m_parents m) h in
  let* sp := vget sum p in
  let* sh := vget sum h in
  let* sum := vset sum p (n_add A sp sh) in
  let* sh := vget sum h in
  let* info := vset info h (entropyReduction A sh (n_zero A)) in
  let* ip := vget info p in
  let* ih := vget info h in
  let* info := vset info p (n_add A ip ih) in
  Ok (sum, info).

(** src/lpaggreg/sources/hqualities.cpp:33-52. *)
Definition hq_component_w (v : hvalues A) (m : meta) (k : Z) (q : list quality) : res (list quality) :=
  let hsize := m_hsize m in
  let* r := path_loop (m_path m) 0 (m_leaves m) (hq_leaf_w v m k) (vrep hsize (n_zero A), vrep hsize (n_zero A)) in
  let '((sum, info), _) := r in
  let* r := path_loop (m_path m) (m_leaves m) (hsize - 1) (hq_node A m) (sum, info, q) in
  let '((sum, info, q), h) := r in
  hq_update A m sum info h q.

(** src/lpaggreg/sources/hqualities.cpp:22-53. *)
Definition h_table_w (r : res (hvalues A)) : res (option (list quality) * meta) :=
  let* v := r in
  let m := hv_meta v in
  let* t := for_int (hv_vsize v) (hq_component_w v m) (vrep (m_hsize m) (q_zero A)) in
  Ok (Some t, m).

(** src/lpaggreg/sources/dqualities.cpp:21-77. The rows are read with toI, toJ, which make no product. *)
Definition d_table_w (r : res (dvalues A)) : res (option (list (utm quality)) * meta) :=
  let* v := r in
  let m := dv_meta v in
  let* t := for_int (dv_vsize v) (dq_component A v m) (vrep (m_hsize m) (u_new (dv_osize v) (q_zero A))) in
  Ok (Some t, m).
End M.
