(** * Partitioner: the search over parameters, result lists, getP and computeAUC. *)
From Verif Require Import Base Arith Quality Utm Hierarchy Partitions Partitioners.

Section M.
Context (A : arith).
Notation par := (par A).
Notation quality := (quality A).

(** [std::map<float, X>]: association list sorted by the float order; keys [a], [b] are the same
    when neither [a < b] nor [b < a]. *)
Fixpoint fmap_get {X : Type} (m : list (par * X)) (k : par) : option X :=
  match m with
  | [] => None
  | (k', x) :: r => if p_ltb A k k' then None else if p_ltb A k' k then fmap_get r k else Some x
  end.

Fixpoint fmap_set {X : Type} (m : list (par * X)) (k : par) (x : X) : list (par * X) :=
  match m with
  | [] => [(k, x)]
  | (k', x') :: r =>
      if p_ltb A k k' then (k, x) :: (k', x') :: r
      else if p_ltb A k' k then (k', x') :: fmap_set r k x
      else (k', x) :: r
  end.

Fixpoint fmap_erase {X : Type} (m : list (par * X)) (k : par) : list (par * X) :=
  match m with
  | [] => []
  | (k', x') :: r =>
      if p_ltb A k k' then m
      else if p_ltb A k' k then (k', x') :: fmap_erase r k
      else r
  end.

Definition fmap_at {X : Type} (m : list (par * X)) (k : par) : res X :=
  match fmap_get m k with Some x => Ok x | None => UB end. (* operator[] would yield a null pointer *)

(** [vector::erase] at index [n]. *)
Fixpoint erase_at {X : Type} (n : nat) (l : list X) : list X :=
  match l, n with
  | [], _ => []
  | _ :: r, O => r
  | x :: r, S n' => x :: erase_at n' r
  end.

Section Generic.
(** One partitioner: a partition type with its accessors and its [computeBestPartition]. *)
Context {Pn Tu : Type}.
Context (best : par -> res Pn) (pn_param : Pn -> par) (pn_eqb : Pn -> Pn -> bool)
        (pn_quality : Pn -> quality) (pn_tuples : Pn -> list Tu).

(** src/lpaggreg/headers/partitioner.h:25-27; the getters src/lpaggreg/sources/partitioner.cpp:8-11, 35-38,
    src/lpaggreg/sources/opartitioner.cpp:81-89, src/lpaggreg/sources/hpartitioner.cpp:79-87,
    src/lpaggreg/sources/dpartitioner.cpp:94-102 are the projections. See e.g. src/lpaggreg/headers/opartitioner.h:31-33. *)
Record pstate : Type := mkPS {
  ps_list : list par; ps_parts : list (par * Pn); ps_tuples : list (par * Tu); ps_qual : list (par * quality) }.

(** src/lpaggreg/sources/partitioner.cpp:3-6. *)
Definition ps_empty : pstate := mkPS [] [] [] [].

(** The stop condition and midpoint of [addBestQualities]
    (src/lpaggreg/sources/opartitioner.cpp:70-71, src/lpaggreg/sources/hpartitioner.cpp:91-92, src/lpaggreg/sources/dpartitioner.cpp:106-107). *)
Definition s_wide (th a b : par) : bool := p_ltb A th (p_sub A b a).
Definition s_mid (a b : par) : par := p_add A a (p_half A (p_sub A b a)).

(** src/lpaggreg/sources/opartitioner.cpp:68-79, src/lpaggreg/sources/hpartitioner.cpp:89-100, src/lpaggreg/sources/dpartitioner.cpp:104-115 [addBestQualities];
    the state is (pList, partitions). *)
Fixpoint s_add (fuel : nat) (th : par) (a b : Pn) (st : list par * list (par * Pn)) : res (list par * list (par * Pn)) :=
  match fuel with
  | O => OutOfFuel
  | S fuel' =>
      if negb (pn_eqb a b) && s_wide th (pn_param a) (pn_param b) then
        let x := s_mid (pn_param a) (pn_param b) in
        let* c := best x in
        let* st := s_add fuel' th a c st in
        let '(l, ps) := st in
        s_add fuel' th c b (l ++ [x], fmap_set ps x c)
      else Ok st
  end.

(** src/lpaggreg/sources/opartitioner.cpp:28-34 (src/lpaggreg/sources/hpartitioner.cpp:29-35, src/lpaggreg/sources/dpartitioner.cpp:28-34), body at index [idx].
    [vector::erase] invalidates the iterator that the loop then decrements; with [strict = true] this is
    undefined behaviour, with [strict = false] the iterator keeps denoting the same index, which is what
    pointer-like vector iterators do. *)
Definition s_dedup1 (strict : bool) (idx : Z) (st : list par * list (par * Pn)) : res (list par * list (par * Pn)) :=
  let '(l, ps) := st in
  let* k := vget l idx in
  let* k2 := vget l (idx - 1) in
  let* x := fmap_at ps k in
  let* x2 := fmap_at ps k2 in
  if pn_eqb x x2 then
    if strict then UB else Ok (erase_at (Z.to_nat idx) l, fmap_erase ps k)
  else Ok (l, ps).

Definition s_dedup (strict : bool) (st : list par * list (par * Pn)) : res (list par * list (par * Pn)) :=
  for_down (vlen (fst st)) 1 (s_dedup1 strict) st.

(** src/lpaggreg/sources/opartitioner.cpp:35-41 (src/lpaggreg/sources/hpartitioner.cpp:36-42, src/lpaggreg/sources/dpartitioner.cpp:35-41): the tuples are pushed
    to the list, the qualities are entered in the map, in the order of the map [partitions]. *)
Definition s_tuples (ps : list (par * Pn)) (ts : list (par * Tu)) : list (par * Tu) :=
  fold_left (fun ts kx => fold_left (fun ts t => ts ++ [(fst kx, t)]) (pn_tuples (snd kx)) ts) ps ts.
Definition s_quals (ps : list (par * Pn)) (m : list (par * quality)) : list (par * quality) :=
  fold_left (fun m kx => fmap_set m (fst kx) (pn_quality (snd kx))) ps m.

(** [clear()] of a container (src/lpaggreg/sources/opartitioner.cpp:15-18). *)
Definition cleared {X : Type} (l : list X) : list X := [].

(** src/lpaggreg/sources/opartitioner.cpp:13-42, src/lpaggreg/sources/hpartitioner.cpp:14-43, src/lpaggreg/sources/dpartitioner.cpp:13-42
    [computeBestPartitions]. [prev] is the state before the call. *)
Definition s_computeBestPartitions (strict : bool) (fuel : nat) (prev : pstate) (th mn mx : par) : res pstate :=
  let l := cleared (ps_list prev) in
  let ps := cleared (ps_parts prev) in
  let ts := cleared (ps_tuples prev) in
  let qs := cleared (ps_qual prev) in
  let* a := best mn in
  let l := l ++ [mn] in
  let ps := fmap_set ps mn a in
  let* b := best mx in
  let* st := s_add fuel th a b (l, ps) in
  let '(l, ps) := st in
  let* st := s_dedup strict (l ++ [mx], fmap_set ps mx b) in
  let '(l, ps) := st in
  Ok (mkPS l ps (s_tuples ps ts) (s_quals ps qs)).

(** src/lpaggreg/headers/lpglobal.h:10-12. *)
Definition P_MIN : Z := 0.
Definition P_MAX : Z := 1.
Definition P_OPT : Z := 2.
Definition RAND_MAX : Z := 2147483647.

(** src/lpaggreg/sources/partitioner.cpp:40-54 [computePOpt]; [popt] starts uninitialised. *)
Definition s_score (q : quality) : num A :=
  let g1 := n_sub A (gain q) (n_one A) in
  n_add A (n_mul A g1 g1) (n_mul A (loss q) (loss q)).

Definition s_popt (st : pstate) : res par :=
  let* r := mfold (fun p sp => let '(score, popt) := sp in
                     let* q := fmap_at (ps_qual st) p in
                     if n_leb A (s_score q) score then Ok (s_score q, Some p) else Ok (score, popt))
                  (ps_list st) (n_ofZ A RAND_MAX, None) in
  match snd r with
  | Some p => Ok p
  | None => UB (* uninitialised variable returned *)
  end.

(** src/lpaggreg/sources/partitioner.cpp:13-24 [getP]. *)
Definition s_getP (st : pstate) (strategy : Z) : res par :=
  if strategy =? P_MIN then Ok (p_zero A)
  else if strategy =? P_MAX then vget (ps_list st) (vlen (ps_list st) - 1)
  else if strategy =? P_OPT then s_popt st
  else Ok (p_zero A).

(** src/lpaggreg/sources/partitioner.cpp:26-33 [computeAUC]. [pList.size()-1] is unsigned: on an empty list the loop
    runs and reads out of bounds. *)
Definition s_auc (st : pstate) : res (num A) :=
  match ps_list st with
  | [] => UB
  | _ =>
    let* auc := for_up 0 (vlen (ps_list st) - 1)
      (fun i auc =>
         let* p1 := vget (ps_list st) (i + 1) in
         let* p0 := vget (ps_list st) i in
         let* q1 := fmap_at (ps_qual st) p1 in
         let* q0 := fmap_at (ps_qual st) p0 in
         Ok (n_float A (n_add A auc
               (n_div A (n_mul A (n_sub A (gain q1) (gain q0)) (n_add A (loss q1) (loss q0))) (n_ofZ A 2)))))
      (n_zero A) in
    Ok (n_float A (n_sub A (n_one A) auc))
  end.

End Generic.

Arguments ps_list {Pn Tu} p.
Arguments ps_parts {Pn Tu} p.
Arguments ps_tuples {Pn Tu} p.
Arguments ps_qual {Pn Tu} p.

(** ** The three partitioners. *)

(** Tuple contents: src/lpaggreg/sources/opartitioner.cpp:37, src/lpaggreg/sources/hpartitioner.cpp:38, src/lpaggreg/sources/dpartitioner.cpp:37. *)
Definition o_tuples (x : opartition A) : list (Z * Z * num A * num A) :=
  map (fun q => (op_start q, op_end q, gain (op_quality q), loss (op_quality q))) (on_parts x).
Definition h_tuples (x : hpartition A) : list (Z * Z * num A * num A) :=
  map (fun q => (hp_h q, hp_size q, gain (hp_quality q), loss (hp_quality q))) (hn_parts x).
Definition d_tuples (x : dpartition A) : list (Z * Z * Z * Z * num A * num A) :=
  map (fun q => (dp_h q, dp_size q, dp_start q, dp_end q, gain (dp_quality q), loss (dp_quality q))) (dn_parts x).

Definition o_search strict fuel (t : utm quality) prev th mn mx :=
  s_computeBestPartitions (Tu := (Z * Z * num A * num A)%type)
    (o_best A t) on_param (on_eqb A) on_quality o_tuples strict fuel prev th mn mx.
Definition h_search strict fuel (t : list quality) (m : meta) prev th mn mx :=
  s_computeBestPartitions (Tu := (Z * Z * num A * num A)%type)
    (h_best A t m) hn_param (hn_eqb A) hn_quality h_tuples strict fuel prev th mn mx.
Definition d_search strict fuel (t : list (utm quality)) (m : meta) prev th mn mx :=
  s_computeBestPartitions (Tu := (Z * Z * Z * Z * num A * num A)%type)
    (d_best A t m) dn_param (dn_eqb A) dn_quality d_tuples strict fuel prev th mn mx.

End M.

Arguments ps_list {A Pn Tu} p.
Arguments ps_parts {A Pn Tu} p.
Arguments ps_tuples {A Pn Tu} p.
Arguments ps_qual {A Pn Tu} p.
