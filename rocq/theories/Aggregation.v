(** * OAggregation, HAggregation, DAggregation: sums and means per part.

    The constructors (src/lpaggreg/sources/oaggregation.cpp:4-17, src/lpaggreg/sources/haggregation.cpp:4-17,
    src/lpaggreg/sources/daggregation.cpp:3-16; src/lpaggreg/sources/oaggregationn.cpp:3-6, 27-30, 54-57, 85-88;
    src/lpaggreg/sources/haggregationn.cpp:3-6, 37-40, 72-75, 111-114; src/lpaggreg/sources/daggregationn.cpp:4-7, 40-43,
    79-82) store the part and the data and call [compute]; [getSum]/[getMean]
    (src/lpaggreg/sources/oaggregationn.cpp:17-25, 44-52, 75-83, 110-118; src/lpaggreg/sources/haggregationn.cpp:27-35,
    62-70, 101-109, 144-152; src/lpaggreg/sources/daggregationn.cpp:30-38, 69-77, 112-120) return what it stored, here a
    list of pairs (sum, mean).

    The C++ code adds these sums up in [double]: SpecDouble.v instantiates [num] with it (C81). Other theorems about sums are
    about the exact real instance. *)
From Verif Require Import Base Arith Quality Utm Hierarchy Values Partitions.

Section M.
Context (A : arith).
Notation num := (num A).

(** Inner loop [for (o=start; o<=end; o++) sum += f(o)] from 0 and the mean
    (src/lpaggreg/sources/oaggregationn.cpp:10-14, 35-40, 65-70, 99-104). *)
Definition oa_sum (s e : Z) (f : Z -> res num) : res num :=
  for_up s (e + 1) (fun o acc => let* x := f o in Ok (n_add A acc x)) (n_zero A).

Definition mean (sum : num) (size : Z) : num := n_div A sum (n_ofZ A size).

(** ** Ordered aggregates. *)

(** src/lpaggreg/sources/oaggregationn.cpp:8-15 [OAggregateN1::compute]: (sum, mean). *)
Definition oa1 (x : opart A) (v : ovalues A) : res (num * num) :=
  let* s := oa_sum (op_start x) (op_end x) (fun o => ov_get v 0 0 0 o) in
  Ok (s, mean s (op_size x)).

(** src/lpaggreg/sources/oaggregationn.cpp:32-42 [OAggregateN2::compute]. *)
Definition oa2 (x : opart A) (v : ovalues A) : res (list (num * num)) :=
  mmap (fun i => let* s := oa_sum (op_start x) (op_end x) (fun o => ov_get v i 0 0 o) in
                 Ok (s, mean s (op_size x)))
       (zrange 0 (ov_vsize v)).

(** [getI]/[getJ]/[getK] of the data classes: src/lpaggreg/sources/ovaluesn.cpp:45-53, 85-98. *)
Definition ov_I (v : ovalues A) : Z := match ov_data v with ON3 _ i _ _ => i | ON4 _ i _ _ _ => i | _ => 0 end.
Definition ov_J (v : ovalues A) : Z := match ov_data v with ON3 _ _ j _ => j | ON4 _ _ j _ _ => j | _ => 0 end.
Definition ov_K (v : ovalues A) : Z := match ov_data v with ON4 _ _ _ k _ => k | _ => 0 end.

(** src/lpaggreg/sources/oaggregationn.cpp:59-73 [OAggregateN3::compute]. *)
Definition oa3 (x : opart A) (v : ovalues A) : res (list (list (num * num))) :=
  mmap (fun i => mmap (fun j =>
          let* s := oa_sum (op_start x) (op_end x) (fun o => ov_get v i j 0 o) in
          Ok (s, mean s (op_size x))) (zrange 0 (ov_J v)))
       (zrange 0 (ov_I v)).

(** src/lpaggreg/sources/oaggregationn.cpp:90-108 [OAggregateN4::compute]. *)
Definition oa4 (x : opart A) (v : ovalues A) : res (list (list (list (num * num)))) :=
  mmap (fun i => mmap (fun j => mmap (fun k =>
          let* s := oa_sum (op_start x) (op_end x) (fun o => ov_get v i j k o) in
          Ok (s, mean s (op_size x))) (zrange 0 (ov_K v))) (zrange 0 (ov_J v)))
       (zrange 0 (ov_I v)).

(** src/lpaggreg/sources/oaggregationn.cpp:120-166: one aggregate per part, in order. *)
Definition oagg1 (x : opartition A) (v : ovalues A) : res (list (num * num)) := mmap (fun q => oa1 q v) (on_parts x).
Definition oagg2 (x : opartition A) (v : ovalues A) := mmap (fun q => oa2 q v) (on_parts x).
Definition oagg3 (x : opartition A) (v : ovalues A) := mmap (fun q => oa3 q v) (on_parts x).
Definition oagg4 (x : opartition A) (v : ovalues A) := mmap (fun q => oa4 q v) (on_parts x).

(** ** Hierarchical and spatiotemporal aggregates.

    [subSum(h, ...)]: src/lpaggreg/sources/haggregationn.cpp:15-25, 50-60, 89-99, 132-142 and
    src/lpaggreg/sources/daggregationn.cpp:18-28, 57-67, 100-111. The loop variable shadows [h] and iterates over the
    children of [part.getH()], not of [h], as in the source. [f] reads a leaf's value. *)
Fixpoint sub_sum (fuel : nat) (m : meta) (parth : Z) (f : Z -> res num) (h : Z) : res num :=
  match fuel with
  | O => OutOfFuel
  | S fuel' =>
      if h <? m_leaves m then f h
      else
        let* ch := vget (m_children m) parth in
        mfold (fun c acc => let* x := sub_sum fuel' m parth f c in Ok (n_add A acc x)) ch (n_zero A)
  end.

(** src/lpaggreg/sources/haggregationn.cpp:8-13 [HAggregateN1::compute]. *)
Definition ha1 (fuel : nat) (x : hpart A) (v : hvalues A) : res (num * num) :=
  let m := hv_meta v in
  let* s := sub_sum fuel m (hp_h x) (fun h => hv_get v h 0 0 0) (m_root m) in
  Ok (s, mean s (hp_size x)).

(** src/lpaggreg/sources/haggregationn.cpp:42-48 [HAggregateN2::compute]. *)
Definition ha2 (fuel : nat) (x : hpart A) (v : hvalues A) : res (list (num * num)) :=
  let m := hv_meta v in
  mmap (fun i => let* s := sub_sum fuel m (hp_h x) (fun h => hv_get v h i 0 0) (m_root m) in
                 Ok (s, mean s (hp_size x))) (zrange 0 (hv_vsize v)).

(** [getI]/[getJ]/[getK]: src/lpaggreg/sources/hvaluesn.cpp:58-66, 94-107. *)
Definition hv_I (v : hvalues A) : Z := match hv_data v with HN3 _ i _ _ => i | HN4 _ i _ _ _ => i | _ => 0 end.
Definition hv_J (v : hvalues A) : Z := match hv_data v with HN3 _ _ j _ => j | HN4 _ _ j _ _ => j | _ => 0 end.
Definition hv_K (v : hvalues A) : Z := match hv_data v with HN4 _ _ _ k _ => k | _ => 0 end.

(** src/lpaggreg/sources/haggregationn.cpp:77-87 and 116-130 [HAggregateN3/N4::compute]. *)
Definition ha3 (fuel : nat) (x : hpart A) (v : hvalues A) : res (list (list (num * num))) :=
  let m := hv_meta v in
  mmap (fun i => mmap (fun j =>
     let* s := sub_sum fuel m (hp_h x) (fun h => hv_get v h i j 0) (m_root m) in
     Ok (s, mean s (hp_size x))) (zrange 0 (hv_J v))) (zrange 0 (hv_I v)).
Definition ha4 (fuel : nat) (x : hpart A) (v : hvalues A) : res (list (list (list (num * num)))) :=
  let m := hv_meta v in
  mmap (fun i => mmap (fun j => mmap (fun k =>
     let* s := sub_sum fuel m (hp_h x) (fun h => hv_get v h i j k) (m_root m) in
     Ok (s, mean s (hp_size x))) (zrange 0 (hv_K v))) (zrange 0 (hv_J v))) (zrange 0 (hv_I v)).

(** src/lpaggreg/sources/haggregationn.cpp:154-200: the aggregation objects; one aggregate per part, in order. *)
Definition hagg1 fuel (x : hpartition A) (v : hvalues A) := mmap (fun q => ha1 fuel q v) (hn_parts x).
Definition hagg2 fuel (x : hpartition A) (v : hvalues A) := mmap (fun q => ha2 fuel q v) (hn_parts x).
Definition hagg3 fuel (x : hpartition A) (v : hvalues A) := mmap (fun q => ha3 fuel q v) (hn_parts x).
Definition hagg4 fuel (x : hpartition A) (v : hvalues A) := mmap (fun q => ha4 fuel q v) (hn_parts x).

(** src/lpaggreg/sources/daggregationn.cpp:9-16 [DAggregateN2::compute]. *)
Definition da2 (fuel : nat) (x : dpart A) (v : dvalues A) : res (num * num) :=
  let m := dv_meta v in
  let* s := oa_sum (dp_start x) (dp_end x)
              (fun o => sub_sum fuel m (dp_h x) (fun h => dv_get v h 0 0 o) (m_root m)) in
  Ok (s, mean s (dp_size x)).

(** src/lpaggreg/sources/daggregationn.cpp:45-55 [DAggregateN3::compute]. *)
Definition da3 (fuel : nat) (x : dpart A) (v : dvalues A) : res (list (num * num)) :=
  let m := dv_meta v in
  mmap (fun i =>
    let* s := oa_sum (dp_start x) (dp_end x)
                (fun o => sub_sum fuel m (dp_h x) (fun h => dv_get v h i 0 o) (m_root m)) in
    Ok (s, mean s (dp_size x))) (zrange 0 (dv_vsize v)).

(** [getI]/[getJ]: src/lpaggreg/sources/dvaluesn.cpp:83-91. *)
Definition dv_I (v : dvalues A) : Z := match dv_data v with DN4 _ i _ _ => i | _ => 0 end.
Definition dv_J (v : dvalues A) : Z := match dv_data v with DN4 _ _ j _ => j | _ => 0 end.

(** src/lpaggreg/sources/daggregationn.cpp:84-98 [DAggregateN4::compute]. *)
Definition da4 (fuel : nat) (x : dpart A) (v : dvalues A) : res (list (list (num * num))) :=
  let m := dv_meta v in
  mmap (fun i => mmap (fun j =>
    let* s := oa_sum (dp_start x) (dp_end x)
                (fun o => sub_sum fuel m (dp_h x) (fun h => dv_get v h i j o) (m_root m)) in
    Ok (s, mean s (dp_size x))) (zrange 0 (dv_J v))) (zrange 0 (dv_I v)).

(** src/lpaggreg/sources/daggregationn.cpp:122-156: the aggregation objects; one aggregate per part, in order. *)
Definition dagg2 fuel (x : dpartition A) (v : dvalues A) := mmap (fun q => da2 fuel q v) (dn_parts x).
Definition dagg3 fuel (x : dpartition A) (v : dvalues A) := mmap (fun q => da3 fuel q v) (dn_parts x).
Definition dagg4 fuel (x : dpartition A) (v : dvalues A) := mmap (fun q => da4 fuel q v) (dn_parts x).

End M.
