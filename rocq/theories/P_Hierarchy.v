(** * Properties C03-C06: the hierarchy metadata. *)
From Coq Require Import Lia.
From Verif Require Import Base Hierarchy SpecTree TreeFacts HierarchyFacts HierarchyStop HierarchyProofs.

(** C03, C04: for every tree whose leaves are all at the same depth the metadata is built without undefined
    behaviour and [well_built] holds (SpecTree.v): bottom-up path with every node once, leaves first, root last,
    exact children and sizes. *)
Theorem C03_C04_uniform : forall L ps r, valid_tree L ps r -> uniform_depth L ps r ->
  exists m, meta_build L ps = Ok m /\ well_built m /\ m_leaves m = L /\ m_parents m = ps /\ m_root m = r.
Proof. exact uniform_well_built. Qed.
Print Assumptions C03_C04_uniform.

(** C03 spelled out: path and root. *)
Theorem C03_path : forall L ps r m, valid_tree L ps r -> uniform_depth L ps r -> meta_build L ps = Ok m ->
  NoDup (m_path m) /\ (forall h, In h (m_path m) <-> 0 <= h < vlen ps) /\
  (forall i, 0 <= i < L -> vget (m_path m) i = Ok i) /\
  (forall i j c h, vget (m_path m) i = Ok c -> vget (m_path m) j = Ok h -> parent ps c = h -> i < j) /\
  vget (m_path m) (vlen (m_path m) - 1) = Ok (m_root m) /\
  parent ps (m_root m) = -1 /\ (forall h, 0 <= h < vlen ps -> parent ps h = -1 -> h = m_root m).
Proof. exact path_prf. Qed.
Print Assumptions C03_path.

(** C04 spelled out: children and sizes. *)
Theorem C04_children_sizes : forall L ps r m, valid_tree L ps r -> uniform_depth L ps r -> meta_build L ps = Ok m ->
  forall h, 0 <= h < vlen ps ->
    (exists ch, vget (m_children m) h = Ok ch /\ NoDup ch /\
       forall c, In c ch <-> 0 <= c < vlen ps /\ parent ps c = h) /\
    (exists lv, NoDup lv /\ (forall x, In x lv <-> 0 <= x < L /\ below ps x h) /\ m_sizeof m h = vlen lv) /\
    (h < L -> m_sizeof m h = 1).
Proof. exact children_sizes_prf. Qed.
Print Assumptions C04_children_sizes.

(** C05: on every valid tree the construction succeeds without undefined behaviour ... *)
Theorem C05_no_error : forall L ps r, valid_tree L ps r -> exists m, meta_build L ps = Ok m.
Proof. exact valid_build_ok. Qed.
Print Assumptions C05_no_error.

(** ... but with leaves at different depths the result can be wrong: the reported root is not the node whose
    parent is -1, the true root's size and children are incomplete. *)
Theorem C05_refuted : exists L ps r m, valid_tree L ps r /\ meta_build L ps = Ok m /\
  m_root m <> r /\ m_sizeof m r <> vlen (leavesof L ps r) /\
  (exists c ch, parent ps c = r /\ vget (m_children m) r = Ok ch /\ ~ In c ch).
Proof. exact uneven_prf. Qed.
Print Assumptions C05_refuted.

(** C06: for every input the construction stops within max(leaves,nodes)+1 iterations (with that much fuel the
    result is final and is not "out of fuel"). *)
Theorem C06_stops : forall L ps fuel, (Z.to_nat (Z.max L (vlen ps)) + 1 <= fuel)%nat ->
  meta_build_fuel fuel L ps = meta_build L ps /\ meta_build_fuel fuel L ps <> OutOfFuel.
Proof. exact meta_build_stops. Qed.
Print Assumptions C06_stops.

(** The hypotheses of C03/C04 are met by a three-level tree with four leaves. *)
Example C03_nonvacuous : valid_tree 4 [4; 4; 5; 5; 6; 6; -1] 6 /\ uniform_depth 4 [4; 4; 5; 5; 6; 6; -1] 6.
Proof. exact tree4_prf. Qed.

(** A cyclic hierarchy stops too (C06). *)
Example C06_cyclic : meta_build 1 [1; 1] = UB.
Proof. vm_compute. reflexivity. Qed.
