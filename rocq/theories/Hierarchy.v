(** * HValuesMetaData: path, children, sizes and root of a hierarchy. *)
From Verif Require Import Base.

(** src/lpaggreg/headers/hvalues.h:15-45 class HValuesMetaData; the getters src/lpaggreg/sources/hvalues.cpp:53-86 are the projections. *)
Record meta : Type := mkMeta {
  m_hsize : Z;
  m_leaves : Z;                  (* leaveSize *)
  m_parents : list Z;
  m_children : list (list Z);
  m_size : list (Z * Z);         (* map<int,int> size *)
  m_path : list Z;
  m_root : Z
}.

Definition sp_state : Type := (list Z * list (list Z) * list (Z * Z))%type.

(** src/lpaggreg/sources/hvalues.cpp:15-22: the leaves start the path, with size 1; [children] gets
    leaveSize empty vectors and then one more for every h from leaveSize to hsize-1. *)
Definition sp_init (leaves hsize : Z) : sp_state :=
  (zrange 0 leaves,
   vrep leaves [] ++ vrep (hsize - leaves) [],
   map (fun h => (h, 1)) (zrange 0 leaves)).

(** src/lpaggreg/sources/hvalues.cpp:23-31: the while-style loop [for (int i=0; parents[path[i]]!=-1; i++)].
    [fuel] bounds the number of iterations. *)
Fixpoint sp_loop (fuel : nat) (parents : list Z) (i : Z) (st : sp_state) : res sp_state :=
  match fuel with
  | O => OutOfFuel
  | S fuel' =>
      let '(path, children, size) := st in
      let* h := vget path i in
      let* pr := vget parents h in
      if pr =? -1 then Ok st
      else
        let '(path', size') :=
          match imap_get size pr with
          | Some s => (path, imap_set size pr (s + imap_at size h))
          | None => (path ++ [pr], imap_set size pr (imap_at size h))
          end in
        let* ch := vget children pr in
        let* children' := vset children pr (ch ++ [h]) in
        sp_loop fuel' parents (i + 1) (path', children', size')
  end.

(** Fuel that always suffices (proved in HierarchyFacts.v). *)
Definition sp_fuel (leaves hsize : Z) : nat := S (S (Z.to_nat (Z.max leaves hsize))).

(** src/lpaggreg/sources/hvalues.cpp:13-33 [setPath] and 88-92 the constructor. *)
Definition meta_build_fuel (fuel : nat) (leaves : Z) (parents : list Z) : res meta :=
  let hsize := vlen parents in
  let* st := sp_loop fuel parents 0 (sp_init leaves hsize) in
  let '(path, children, size) := st in
  let* root := vget path (vlen path - 1) in
  Ok (mkMeta hsize leaves parents children size path root).

Definition meta_build (leaves : Z) (parents : list Z) : res meta :=
  meta_build_fuel (sp_fuel leaves (vlen parents)) leaves parents.

(** [(metaData.getSize())[h]]. *)
Definition m_sizeof (m : meta) (h : Z) : Z := imap_at (m_size m) h.
