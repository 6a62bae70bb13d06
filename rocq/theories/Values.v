(** * Data containers: OValues, HValues, DValues (1 to 4 dimensions). *)
From Verif Require Import Base Arith Hierarchy.

(** src/lpaggreg/headers/lpglobal.h:21-24: SIZE1..SIZE4 of a nested vector (0 when an outer level is empty).
    The products assigned to [unsigned int vsize] are not wrapped in this model. *)
Definition size1 {X} (v : list X) : Z := vlen v.
Definition size2 {X} (v : list (list X)) : Z := match v with [] => 0 | r :: _ => vlen r end.
Definition size3 {X} (v : list (list (list X))) : Z := match v with [] => 0 | r :: _ => size2 r end.
Definition size4 {X} (v : list (list (list (list X)))) : Z := match v with [] => 0 | r :: _ => size3 r end.

(** Unsigned division and remainder; division by zero is undefined behaviour. *)
Definition udiv (a b : Z) : res Z := if b =? 0 then UB else Ok (a / b).
Definition umod (a b : Z) : res Z := if b =? 0 then UB else Ok (a mod b).

Definition vget2 {X} (v : list (list X)) (a b : Z) : res X :=
  let* r := vget v a in vget r b.
Definition vget3 {X} (v : list (list (list X))) (a b c : Z) : res X :=
  let* r := vget v a in vget2 r b c.
Definition vget4 {X} (v : list (list (list (list X)))) (a b c d : Z) : res X :=
  let* r := vget v a in vget3 r b c d.
Definition vset2 {X} (v : list (list X)) (a b : Z) (x : X) : res (list (list X)) :=
  let* r := vget v a in let* r' := vset r b x in vset v a r'.
Definition vset3 {X} (v : list (list (list X))) (a b c : Z) (x : X) : res (list (list (list X))) :=
  let* r := vget v a in let* r' := vset2 r b c x in vset v a r'.
Definition vset4 {X} (v : list (list (list (list X)))) (a b c d : Z) (x : X) : res (list (list (list (list X)))) :=
  let* r := vget v a in let* r' := vset3 r b c d x in vset v a r'.

Section M.
Context (A : arith).
Notation val := (num A).

(** ** Ordered values (src/lpaggreg/headers/ovalues.h, src/lpaggreg/headers/ovaluesn.h).
    The base class src/lpaggreg/sources/ovalues.cpp:3-10 stores the two sizes; getI/getJ/getK (src/lpaggreg/sources/ovaluesn.cpp:45-53, 85-98) are in Aggregation.v. *)
Inductive odata : Type :=
| ON1 (v : list val)
| ON2 (v : list (list val))
| ON3 (i j : Z) (v : list (list (list val)))
| ON4 (i j k : Z) (v : list (list (list (list val)))).

Record ovalues : Type := mkOV { ov_vsize : Z; ov_osize : Z; ov_data : odata }.

(** src/lpaggreg/sources/ovaluesn.cpp:3, 24, 63-67, 112-116: constructors from nested vectors. *)
Definition ov1_of (v : list val) : ovalues := mkOV 1 (size1 v) (ON1 v).
Definition ov2_of (v : list (list val)) : ovalues := mkOV (size1 v) (size2 v) (ON2 v).
Definition ov3_of (v : list (list (list val))) : ovalues :=
  mkOV (size1 v * size2 v) (size3 v) (ON3 (size1 v) (size2 v) v).
Definition ov4_of (v : list (list (list (list val)))) : ovalues :=
  mkOV (size1 v * size2 v * size3 v) (size4 v) (ON4 (size1 v) (size2 v) (size3 v) v).

(** src/lpaggreg/sources/ovaluesn.cpp:8-10, 29-31, 69-71, 118-120: zero-initialised constructors. *)
Definition ov1_new (osize : Z) : ovalues := mkOV 1 osize (ON1 (vrep osize (n_zero A))).
Definition ov2_new (vsize osize : Z) : ovalues := mkOV vsize osize (ON2 (vrep vsize (vrep osize (n_zero A)))).
Definition ov3_new (i j osize : Z) : ovalues :=
  mkOV (i * j) osize (ON3 i j (vrep i (vrep j (vrep osize (n_zero A))))).
Definition ov4_new (i j k osize : Z) : ovalues :=
  mkOV (i * j * k) osize (ON4 i j k (vrep i (vrep j (vrep k (vrep osize (n_zero A)))))).

(** src/lpaggreg/sources/ovaluesn.cpp:12-14, 33-35, 73-75 (toI, toJ 55-61), 122-124 (toI, toJ, toK 100-110):
    [operator[](index)], the row of component [index]. *)
Definition ov_row (v : ovalues) (index : Z) : res (list val) :=
  match ov_data v with
  | ON1 d => Ok d
  | ON2 d => vget d index
  | ON3 _ j d => let* a := udiv index j in let* b := umod index j in vget2 d a b
  | ON4 _ j k d =>
      let* a := udiv index (k * j) in
      let* q := udiv index k in
      let* b := umod q j in
      let* c := umod index k in
      vget3 d a b c
  end.

(** Element access [operator()(..., o)]: src/lpaggreg/sources/ovaluesn.cpp:16-18, 37-39, 77-79, 126-128. The leading coordinates
    that a class does not have are ignored. *)
Definition ov_get (v : ovalues) (a b c o : Z) : res val :=
  match ov_data v with
  | ON1 d => vget d o
  | ON2 d => vget2 d a o
  | ON3 _ _ d => vget3 d a b o
  | ON4 _ _ _ d => vget4 d a b c o
  end.

(** Element write [operator()(..., o, val)]: src/lpaggreg/sources/ovaluesn.cpp:20-22, 41-43, 81-83, 130-132. *)
Definition ov_set (v : ovalues) (a b c o : Z) (x : val) : res ovalues :=
  match ov_data v with
  | ON1 d => let* d' := vset d o x in Ok (mkOV (ov_vsize v) (ov_osize v) (ON1 d'))
  | ON2 d => let* d' := vset2 d a o x in Ok (mkOV (ov_vsize v) (ov_osize v) (ON2 d'))
  | ON3 i j d => let* d' := vset3 d a b o x in Ok (mkOV (ov_vsize v) (ov_osize v) (ON3 i j d'))
  | ON4 i j k d => let* d' := vset4 d a b c o x in Ok (mkOV (ov_vsize v) (ov_osize v) (ON4 i j k d'))
  end.

(** ** Hierarchical values (src/lpaggreg/headers/hvalues.h:47-68, src/lpaggreg/headers/hvaluesn.h; getters src/lpaggreg/sources/hvalues.cpp:35-40). *)
Inductive hdata : Type :=
| HN1 (v : list val)
| HN2 (v : list (list val))
| HN3 (i j : Z) (v : list (list (list val)))
| HN4 (i j k : Z) (v : list (list (list (list val)))).

Record hvalues : Type := mkHV { hv_vsize : Z; hv_meta : meta; hv_data : hdata }.

(** src/lpaggreg/sources/hvaluesn.cpp:24, 41, 76-80, 121-125 and src/lpaggreg/sources/hvalues.cpp:3-6. *)
Definition hv1_of (v : list val) (parents : list Z) : res hvalues :=
  let* m := meta_build (size1 v) parents in Ok (mkHV 1 m (HN1 v)).
Definition hv2_of (v : list (list val)) (parents : list Z) : res hvalues :=
  let* m := meta_build (size1 v) parents in Ok (mkHV (size2 v) m (HN2 v)).
Definition hv3_of (v : list (list (list val))) (parents : list Z) : res hvalues :=
  let* m := meta_build (size1 v) parents in Ok (mkHV (size2 v * size3 v) m (HN3 (size2 v) (size3 v) v)).
Definition hv4_of (v : list (list (list (list val)))) (parents : list Z) : res hvalues :=
  let* m := meta_build (size1 v) parents in
  Ok (mkHV (size2 v * size3 v * size4 v) m (HN4 (size2 v) (size3 v) (size4 v) v)).

(** src/lpaggreg/sources/hvaluesn.cpp:29-31, 46-48, 82-84, 127-129: zero-initialised constructors. *)
Definition hv1_new (leaves : Z) (parents : list Z) : res hvalues :=
  let* m := meta_build leaves parents in Ok (mkHV 1 m (HN1 (vrep leaves (n_zero A)))).
Definition hv2_new (leaves vsize : Z) (parents : list Z) : res hvalues :=
  let* m := meta_build leaves parents in Ok (mkHV vsize m (HN2 (vrep leaves (vrep vsize (n_zero A))))).
Definition hv3_new (leaves i j : Z) (parents : list Z) : res hvalues :=
  let* m := meta_build leaves parents in
  Ok (mkHV (i * j) m (HN3 i j (vrep leaves (vrep i (vrep j (n_zero A)))))).
Definition hv4_new (leaves i j k : Z) (parents : list Z) : res hvalues :=
  let* m := meta_build leaves parents in
  Ok (mkHV (i * j * k) m (HN4 i j k (vrep leaves (vrep i (vrep j (vrep k (n_zero A))))))).

(** [getValue(h,index)]: src/lpaggreg/sources/hvaluesn.cpp:4-22 (toI, toJ, toK 68-74, 109-119), reached through [values->operator[](h)[index]]
    (HValuesProxy, src/lpaggreg/sources/hvalues.cpp:8-11, 43-51). *)
Definition hv_value (v : hvalues) (h index : Z) : res val :=
  match hv_data v with
  | HN1 d => vget d h
  | HN2 d => vget2 d h index
  | HN3 _ j d => let* a := udiv index j in let* b := umod index j in vget3 d h a b
  | HN4 _ j k d =>
      let* a := udiv index (k * j) in
      let* q := udiv index k in
      let* b := umod q j in
      let* c := umod index k in
      vget4 d h a b c
  end.

(** [operator()(h, ...)]: src/lpaggreg/sources/hvaluesn.cpp:33-35, 50-52, 86-88, 131-133. *)
Definition hv_get (v : hvalues) (h a b c : Z) : res val :=
  match hv_data v with
  | HN1 d => vget d h
  | HN2 d => vget2 d h a
  | HN3 _ _ d => vget3 d h a b
  | HN4 _ _ _ d => vget4 d h a b c
  end.

(** [operator()(h, ..., val)]: src/lpaggreg/sources/hvaluesn.cpp:37-39, 54-56, 90-92, 135-137. *)
Definition hv_set (v : hvalues) (h a b c : Z) (x : val) : res hvalues :=
  match hv_data v with
  | HN1 d => let* d' := vset d h x in Ok (mkHV (hv_vsize v) (hv_meta v) (HN1 d'))
  | HN2 d => let* d' := vset2 d h a x in Ok (mkHV (hv_vsize v) (hv_meta v) (HN2 d'))
  | HN3 i j d => let* d' := vset3 d h a b x in Ok (mkHV (hv_vsize v) (hv_meta v) (HN3 i j d'))
  | HN4 i j k d => let* d' := vset4 d h a b c x in Ok (mkHV (hv_vsize v) (hv_meta v) (HN4 i j k d'))
  end.

(** ** Spatiotemporal values (src/lpaggreg/headers/dvalues.h, src/lpaggreg/headers/dvaluesn.h; getters src/lpaggreg/sources/dvalues.cpp:4-23). *)
Inductive ddata : Type :=
| DN2 (v : list (list val))
| DN3 (v : list (list (list val)))
| DN4 (i j : Z) (v : list (list (list (list val)))).

Record dvalues : Type := mkDV { dv_vsize : Z; dv_osize : Z; dv_meta : meta; dv_data : ddata }.

(** src/lpaggreg/sources/dvaluesn.cpp:3, 28, 63 and src/lpaggreg/sources/dvalues.cpp:25-28. *)
Definition dv2_of (v : list (list val)) (parents : list Z) : res dvalues :=
  let* m := meta_build (size1 v) parents in Ok (mkDV 1 (size2 v) m (DN2 v)).
Definition dv3_of (v : list (list (list val))) (parents : list Z) : res dvalues :=
  let* m := meta_build (size1 v) parents in Ok (mkDV (size2 v) (size3 v) m (DN3 v)).
Definition dv4_of (v : list (list (list (list val)))) (parents : list Z) : res dvalues :=
  let* m := meta_build (size1 v) parents in
  Ok (mkDV (size2 v * size3 v) (size4 v) m (DN4 (size2 v) (size3 v) v)).

(** src/lpaggreg/sources/dvaluesn.cpp:8-11, 33-36, 68-71: zero-initialised constructors. *)
Definition dv2_new (leaves osize : Z) (parents : list Z) : res dvalues :=
  let* m := meta_build leaves parents in Ok (mkDV 1 osize m (DN2 (vrep leaves (vrep osize (n_zero A))))).
Definition dv3_new (leaves vsize osize : Z) (parents : list Z) : res dvalues :=
  let* m := meta_build leaves parents in
  Ok (mkDV vsize osize m (DN3 (vrep leaves (vrep vsize (vrep osize (n_zero A)))))).
Definition dv4_new (leaves i j osize : Z) (parents : list Z) : res dvalues :=
  let* m := meta_build leaves parents in
  Ok (mkDV (i * j) osize m (DN4 i j (vrep leaves (vrep i (vrep j (vrep osize (n_zero A))))))).

(** [getValue(h,index)]: src/lpaggreg/sources/dvaluesn.cpp:23-26, 48-51, 93-96 (toI, toJ 53-61), reached through
    [values->operator[](h)[index]] (DValuesProxy, src/lpaggreg/sources/dvalues.cpp:9-12, 30-38). *)
Definition dv_row (v : dvalues) (h index : Z) : res (list val) :=
  match dv_data v with
  | DN2 d => vget d h
  | DN3 d => vget2 d h index
  | DN4 _ j d => let* a := udiv index j in let* b := umod index j in vget3 d h a b
  end.

(** [operator()(h, ..., o)]: src/lpaggreg/sources/dvaluesn.cpp:13-16, 38-41, 73-76. *)
Definition dv_get (v : dvalues) (h a b o : Z) : res val :=
  match dv_data v with
  | DN2 d => vget2 d h o
  | DN3 d => vget3 d h a o
  | DN4 _ _ d => vget4 d h a b o
  end.

(** [operator()(h, ..., o, val)]: src/lpaggreg/sources/dvaluesn.cpp:18-21, 43-46, 78-81. *)
Definition dv_set (v : dvalues) (h a b o : Z) (x : val) : res dvalues :=
  match dv_data v with
  | DN2 d => let* d' := vset2 d h o x in Ok (mkDV (dv_vsize v) (dv_osize v) (dv_meta v) (DN2 d'))
  | DN3 d => let* d' := vset3 d h a o x in Ok (mkDV (dv_vsize v) (dv_osize v) (dv_meta v) (DN3 d'))
  | DN4 i j d => let* d' := vset4 d h a b o x in Ok (mkDV (dv_vsize v) (dv_osize v) (dv_meta v) (DN4 i j d'))
  end.

End M.

Arguments ov_vsize {A} o.
Arguments ov_osize {A} o.
Arguments ov_data {A} o.
Arguments ov_row {A} v index.
Arguments ov_get {A} v a b c o.
Arguments ov_set {A} v a b c o x.
Arguments hv_vsize {A} h.
Arguments hv_meta {A} h.
Arguments hv_data {A} h.
Arguments hv_value {A} v h index.
Arguments hv_get {A} v h a b c.
Arguments hv_set {A} v h a b c x.
Arguments dv_vsize {A} d.
Arguments dv_osize {A} d.
Arguments dv_meta {A} d.
Arguments dv_data {A} d.
Arguments dv_row {A} v h index.
Arguments dv_get {A} v h a b o.
Arguments dv_set {A} v h a b o x.
