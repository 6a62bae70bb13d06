(** * Specification vocabulary: sums and means of the data over the cells of a part (no proofs). *)
From Coq Require Import Reals.
From Verif Require Import Base Arith Hierarchy Values SpecTree SpecParts.

(** Left-to-right sum from 0 in the given arithmetic. *)
Definition seqsum (A : arith) (l : list (num A)) : num A := fold_left (n_add A) l (n_zero A).

(** (sum, sum / number of elements). *)
Definition sum_mean (A : arith) (s : num A) (size : Z) : num A * num A := (s, n_div A s (n_ofZ A size)).

(** Elements of the data objects (0 outside). *)
Definition ov_at {A} (v : ovalues A) (a b c o : Z) : num A := match ov_get v a b c o with Ok x => x | _ => n_zero A end.
Definition hv_at {A} (v : hvalues A) (h a b c : Z) : num A := match hv_get v h a b c with Ok x => x | _ => n_zero A end.
Definition dv_at {A} (v : dvalues A) (h a b o : Z) : num A := match dv_get v h a b o with Ok x => x | _ => n_zero A end.

(** The sum of component (a,b,c) over the slices s..e. *)
Definition osum {A} (v : ovalues A) (s e a b c : Z) : num A := seqsum A (map (ov_at v a b c) (zrange s (e + 1))).

(** The sum of component (a,b,c) over the leaves below node [h]. *)
Definition hsum {A} (v : hvalues A) (h a b c : Z) : num A :=
  seqsum A (map (fun x => hv_at v x a b c) (leavesof (m_leaves (hv_meta v)) (m_parents (hv_meta v)) h)).

(** The sum of component (a,b) over the leaves below node [h] and the slices s..e, slice by slice. *)
Definition dsum {A} (v : dvalues A) (h s e a b : Z) : num A :=
  seqsum A (map (fun o => seqsum A (map (fun x => dv_at v x a b o) (leavesof (m_leaves (dv_meta v)) (m_parents (dv_meta v)) h)))
                (zrange s (e + 1))).

(** A leaf, or a node all of whose children are leaves. *)
Definition shallow (m : meta) (h : Z) : Prop := forall c, node (m_parents m) c -> parent (m_parents m) c = h -> c < m_leaves m.
