(** * OPartition, HPartition, DPartition. *)
From Verif Require Import Base Arith Quality Utm Hierarchy.

Section M.
Context (A : arith).
Notation quality := (quality A).

(** src/lpaggreg/sources/opartition.cpp:58-64, src/lpaggreg/sources/hpartition.cpp:90-96, src/lpaggreg/sources/dpartition.cpp:85-91 [computeQuality]. *)
Definition sum_quality (qs : list quality) : quality := fold_left (q_add A) qs (q_zero A).

(** Constructors and getters of parts and partitions are the records' constructors and projections: src/lpaggreg/sources/partition.cpp:4-17,
    src/lpaggreg/sources/opartition.cpp:4-17, 24-27, 37-47, 67-70; src/lpaggreg/sources/hpartition.cpp:4-22, 99-117; src/lpaggreg/sources/dpartition.cpp:3-6, 18-26, 33-46, 93-111.
    The variants of [==] under [PARTITION_COMPARE_QUALITY] (src/lpaggreg/sources/opartition.cpp:100-111, src/lpaggreg/sources/hpartition.cpp:52-63,
    src/lpaggreg/sources/dpartition.cpp:136-141) are not compiled (src/lpaggreg/headers/lpglobal.h:14) and not modelled. *)

(** ** Ordered partitions (src/lpaggreg/headers/opartition.h). *)
Record opart : Type := mkOPart { op_start : Z; op_end : Z; op_quality : quality }.

(** src/lpaggreg/sources/opartition.cpp:19-22 [getSize]. *)
Definition op_size (x : opart) : Z := op_end x - op_start x + 1.

Record opartition : Type := mkOPn {
  on_cuts : list Z; on_parts : list opart; on_table : utm quality; on_param : par A; on_quality : quality }.

(** src/lpaggreg/sources/opartition.cpp:49-55 [computeParts]: [for (int i=0; i<cuts.size(); i=cuts[i]+1)].
    The comparison is unsigned, so a negative [i] ends the loop. *)
Fixpoint on_loop (fuel : nat) (cuts : list Z) (t : utm quality) (i : Z) : res (list opart) :=
  match fuel with
  | O => OutOfFuel
  | S fuel' =>
      if (0 <=? i) && (i <? vlen cuts) then
        let* c := vget cuts i in
        let* q := u_get t i c in
        let* r := on_loop fuel' cuts t (c + 1) in
        Ok (mkOPart i c q :: r)
      else Ok []
  end.

(** src/lpaggreg/sources/opartition.cpp:30-34: the constructor. More than [cuts.size()] iterations revisit an index,
    i.e. never end; hence the fuel. *)
Definition on_make (cuts : list Z) (t : utm quality) (p : par A) : res opartition :=
  let* parts := on_loop (S (length cuts)) cuts t 0 in
  Ok (mkOPn cuts parts t p (sum_quality (map op_quality parts))).

(** src/lpaggreg/sources/opartition.cpp:72-80 [OPart ==], [!=]. *)
Definition opart_eqb (a b : opart) : bool := (op_start a =? op_start b) && (op_end a =? op_end b).

(** src/lpaggreg/sources/opartition.cpp:84-96 and src/lpaggreg/sources/hpartition.cpp:36-48: same length and equal elements. *)
Fixpoint list_eqb {X : Type} (eqb : X -> X -> bool) (l1 l2 : list X) : bool :=
  match l1, l2 with
  | [], [] => true
  | x :: r1, y :: r2 => if eqb x y then list_eqb eqb r1 r2 else false
  | _, _ => false
  end.

(** src/lpaggreg/sources/opartition.cpp:84-96 [OPartition ==]. *)
Definition on_eqb (a b : opartition) : bool := list_eqb opart_eqb (on_parts a) (on_parts b).

(** ** Hierarchical partitions (src/lpaggreg/headers/hpartition.h). *)
Record hpart : Type := mkHPart { hp_h : Z; hp_size : Z; hp_quality : quality }.

Record hpartition : Type := mkHPn {
  hn_agg : list bool; hn_parts : list hpart; hn_table : list quality; hn_param : par A; hn_meta : meta;
  hn_quality : quality }.

(** src/lpaggreg/sources/hpartition.cpp:78-87 [computeSubPart]; [fuel] bounds the recursion depth. *)
Fixpoint hn_sub (fuel : nat) (agg : list bool) (t : list quality) (m : meta) (h : Z) : res (list hpart) :=
  match fuel with
  | O => OutOfFuel
  | S fuel' =>
      let* a := vget agg h in
      if (a : bool) then
        let* q := vget t h in
        Ok [mkHPart h (m_sizeof m h) q]
      else
        let* ch := vget (m_children m) h in
        let* ls := mmap (hn_sub fuel' agg t m) ch in
        Ok (concat ls)
  end.

(** src/lpaggreg/sources/hpartition.cpp:65-76: constructor and [computeParts]. A recursion deeper than the number of
    nodes revisits a node, i.e. never ends; hence the fuel. *)
Definition hn_make (agg : list bool) (t : list quality) (p : par A) (m : meta) : res hpartition :=
  let* parts := hn_sub (S (Z.to_nat (m_hsize m))) agg t m (m_root m) in
  Ok (mkHPn agg parts t p m (sum_quality (map hp_quality parts))).

(** src/lpaggreg/sources/hpartition.cpp:24-32 [HPart ==], 36-48 [HPartition ==]. *)
Definition hpart_eqb (a b : hpart) : bool := (hp_size a =? hp_size b) && (hp_h a =? hp_h b).
Definition hn_eqb (a b : hpartition) : bool := list_eqb hpart_eqb (hn_parts a) (hn_parts b).

(** ** Spatiotemporal partitions (src/lpaggreg/headers/dpartition.h). *)
Record dpart : Type := mkDPart { dp_h : Z; dp_hsize : Z; dp_start : Z; dp_end : Z; dp_quality : quality }.

(** src/lpaggreg/sources/dpartition.cpp:28-31 [getOSize], 48-51 [getSize]. *)
Definition dp_osize (x : dpart) : Z := dp_end x - dp_start x + 1.
Definition dp_size (x : dpart) : Z := dp_hsize x * dp_osize x.

Record dpartition : Type := mkDPn {
  dn_cuts : list (utm Z); dn_parts : list dpart; dn_table : list (utm quality); dn_param : par A; dn_meta : meta;
  dn_quality : quality }.

(** src/lpaggreg/sources/dpartition.cpp:69-82 [computeSubPart]. *)
Fixpoint dn_sub (fuel : nat) (cuts : list (utm Z)) (t : list (utm quality)) (m : meta) (h i j : Z) : res (list dpart) :=
  match fuel with
  | O => OutOfFuel
  | S fuel' =>
      let* cut := mm_get cuts h i j in
      if cut =? -1 then
        let* ch := vget (m_children m) h in
        let* ls := mmap (fun c => dn_sub fuel' cuts t m c i j) ch in
        Ok (concat ls)
      else
        let* q := mm_get t h i cut in
        let part := mkDPart h (m_sizeof m h) i cut q in
        if cut <? j then
          let* r := dn_sub fuel' cuts t m h (cut + 1) j in
          Ok (part :: r)
        else Ok [part]
  end.

(** src/lpaggreg/sources/dpartition.cpp:53-67: constructor and [computeParts]. Along a recursion on a tree with cuts
    inside the interval, the node goes down or the start increases, so the fuel suffices. *)
Definition dn_make (cuts : list (utm Z)) (t : list (utm quality)) (p : par A) (m : meta) : res dpartition :=
  let* u := vget t 0 in
  let j := u_size u - 1 in
  let* parts := dn_sub (S (Z.to_nat (m_hsize m + u_size u))) cuts t m (m_root m) 0 j in
  Ok (mkDPn cuts parts t p m (sum_quality (map dp_quality parts))).

(** src/lpaggreg/sources/dpartition.cpp:8-16 [DPart ==]. *)
Definition dpart_eqb (a b : dpart) : bool :=
  (dp_start a =? dp_start b) && (dp_end a =? dp_end b) && (dp_h a =? dp_h b) && (dp_size a =? dp_size b).

(** src/lpaggreg/sources/dpartition.cpp:113-134 [DPartition ==]: same number of parts, and every part of the first
    occurs in the second. *)
Definition dn_eqb (a b : dpartition) : bool :=
  if vlen (dn_parts a) =? vlen (dn_parts b)
  then forallb (fun x => existsb (dpart_eqb x) (dn_parts b)) (dn_parts a)
  else false.

End M.

Arguments op_start {A} o.
Arguments op_end {A} o.
Arguments op_quality {A} o.
Arguments op_size {A} x.
Arguments on_cuts {A} o.
Arguments on_parts {A} o.
Arguments on_table {A} o.
Arguments on_param {A} o.
Arguments on_quality {A} o.
Arguments hp_h {A} h.
Arguments hp_size {A} h.
Arguments hp_quality {A} h.
Arguments hn_agg {A} h.
Arguments hn_parts {A} h.
Arguments hn_table {A} h.
Arguments hn_param {A} h.
Arguments hn_meta {A} h.
Arguments hn_quality {A} h.
Arguments dp_h {A} d.
Arguments dp_hsize {A} d.
Arguments dp_start {A} d.
Arguments dp_end {A} d.
Arguments dp_quality {A} d.
Arguments dp_osize {A} x.
Arguments dp_size {A} x.
Arguments dn_cuts {A} d.
Arguments dn_parts {A} d.
Arguments dn_table {A} d.
Arguments dn_param {A} d.
Arguments dn_meta {A} d.
Arguments dn_quality {A} d.
