(** * Specification vocabulary for hierarchies (no proofs, independent of the algorithms).

    A hierarchy is given by the number [L] of leaves (nodes 0..L-1) and the vector [ps] of parents
    (the root's parent is -1), exactly what a user passes to the library. *)
From Verif Require Import Base Hierarchy.

(** Parent of a node; -1 for the root and outside the vector. *)
Definition parent (ps : list Z) (h : Z) : Z :=
  match vget ps h with Ok p => p | _ => -1 end.

Definition node (ps : list Z) (h : Z) : Prop := 0 <= h < vlen ps.
Definition leaf (L : Z) (h : Z) : Prop := 0 <= h < L.

(** [below ps x h]: [x] is [h] or a descendant of [h]. *)
Inductive below (ps : list Z) : Z -> Z -> Prop :=
| below_refl : forall h, below ps h h
| below_up : forall x h, parent ps x <> -1 -> below ps (parent ps x) h -> below ps x h.

(** Decision procedure: climb at most as many steps as there are nodes. *)
Fixpoint climb (n : nat) (ps : list Z) (x h : Z) : bool :=
  (x =? h) || match n with
              | O => false
              | S n' => if parent ps x =? -1 then false else climb n' ps (parent ps x) h
              end.
Definition belowb (ps : list Z) (x h : Z) : bool := climb (length ps) ps x h.

(** The leaves below a node, in increasing order. *)
Definition leavesof (L : Z) (ps : list Z) (h : Z) : list Z := filter (fun x => belowb ps x h) (zrange 0 L).

(** A well-formed tree: leaves first, one root, every other node's parent is an internal node, every
    internal node has a child, and the root is reached from everywhere. *)
Record valid_tree (L : Z) (ps : list Z) (r : Z) : Prop := {
  vt_L : 0 < L <= vlen ps;
  vt_root : node ps r;
  vt_rootp : parent ps r = -1;
  vt_parent : forall h, node ps h -> h <> r -> L <= parent ps h < vlen ps;
  vt_child : forall h, L <= h < vlen ps -> exists c, node ps c /\ parent ps c = h;
  vt_reach : forall h, node ps h -> below ps h r
}.

(** All leaves at the same distance from the root. *)
Definition uniform_depth (L : Z) (ps : list Z) (r : Z) : Prop :=
  exists D, forall x, leaf L x -> Nat.iter D (parent ps) x = r.

(** What a user expects of the metadata object (properties C03 and C04): path, root, children, sizes. *)
Record well_built (m : meta) : Prop := {
  wb_tree : valid_tree (m_leaves m) (m_parents m) (m_root m);
  wb_hsize : m_hsize m = vlen (m_parents m);
  wb_len : vlen (m_path m) = m_hsize m;
  wb_nodup : NoDup (m_path m);
  wb_nodes : forall h, In h (m_path m) <-> node (m_parents m) h;
  wb_leaves : forall i, leaf (m_leaves m) i -> vget (m_path m) i = Ok i;
  wb_last : vget (m_path m) (m_hsize m - 1) = Ok (m_root m);
  wb_order : forall i j c h, vget (m_path m) i = Ok c -> vget (m_path m) j = Ok h ->
               parent (m_parents m) c = h -> i < j;
  wb_children : vlen (m_children m) = m_hsize m;
  wb_child : forall h, node (m_parents m) h ->     (* exactly the children of h, each once, in path order *)
               vget (m_children m) h = Ok (filter (fun c => parent (m_parents m) c =? h) (m_path m));
  wb_size : forall h, node (m_parents m) h ->
               imap_get (m_size m) h = Some (vlen (leavesof (m_leaves m) (m_parents m) h))
}.
