(** * C62: how a client can tell whether the metadata of a hierarchy is right. *)
From Coq Require Import Lia.
From Verif Require Import Base BaseFacts Arith Quality Utm Hierarchy Values Qualities SpecTree TreeFacts TreeDec HierarchyFacts HierarchyStop HierarchyProofs HierCheck.

(** For every valid tree, whatever the depths of its leaves: the metadata object is right in every respect (path, root,
    children, sizes: [well_built], SpecTree.v) if and only if the size reported for the reported root,
    getSize()[getRoot()], is the number of leaves. *)
Theorem C62_check : forall L ps r m, valid_tree L ps r -> meta_build L ps = Ok m ->
  (well_built m <-> m_sizeof m (m_root m) = L).
Proof. intros L ps r m V. exact (check_prf L ps r V m). Qed.
Print Assumptions C62_check.

(** It is never larger: a wrong construction is visible as a size that is too small. *)
Theorem C62_check_small : forall L ps r m, valid_tree L ps r -> meta_build L ps = Ok m ->
  m_sizeof m (m_root m) <= L /\ (~ well_built m -> m_sizeof m (m_root m) < L).
Proof.
  intros L ps r m V E. pose proof (check_le_prf L ps r V m E). split; auto.
  intro N. destruct (Z.eq_dec (m_sizeof m (m_root m)) L) as [K|]; [|lia].
  exfalso. apply N, (check_prf L ps r V m E); auto.
Qed.
Print Assumptions C62_check_small.

(** No node of the path is ever given too many leaves. *)
Theorem C62_sizes : forall L ps r m h, valid_tree L ps r -> meta_build L ps = Ok m -> In h (m_path m) ->
  1 <= m_sizeof m h <= vlen (leavesof L ps h).
Proof. intros L ps r m h V. exact (sizes_le_prf L ps r V m h). Qed.
Print Assumptions C62_sizes.

(** Consequence of a wrong construction: when nodes are missing from the path, computeQualities() of any hierarchical or
    spatiotemporal data with at least one component reads out of bounds. *)
Lemma path_loop_len : forall S path a n (body : Z -> S -> res S) s x, a <= n -> path_loop path a n body s = Ok x -> n < vlen path.
Proof.
  intros S path a n body s x Ha E. unfold path_loop in E. apply bind_ok in E. destruct E as [h [E1 E2]].
  destruct (Z.eq_dec a n) as [->|D]; [pose proof (vget_inv _ _ _ _ E1); lia|].
  replace n with (n - 1 + 1) in E2 by lia. rewrite for_up_snoc in E2 by lia. apply bind_ok in E2. destruct E2 as [[s1 h1] [_ E2]].
  apply bind_ok in E2. destruct E2 as [s2 [_ E2]]. apply bind_ok in E2. destruct E2 as [h2 [E2 _]].
  pose proof (vget_inv _ _ _ _ E2). lia.
Qed.

Lemma short_leaves : forall L ps r m, valid_tree L ps r -> meta_build L ps = Ok m -> vlen (m_path m) < vlen ps ->
  m_leaves m <= m_hsize m - 1 /\ m_hsize m = vlen ps.
Proof.
  intros L ps r m V Em Hs. destruct (meta_build_cinv L ps r V) as (v & path & ch & sz & i & x & E & B & Er & Ex).
  rewrite E in Em. injection Em as <-. cbn in *. split; auto.
  assert (L <= vlen path); [|lia]. pose proof (vt_L _ _ _ V).
  pose proof (ci_leaves _ _ _ _ _ _ _ _ B (L - 1) ltac:(unfold leaf; lia)) as K. pose proof (vget_inv _ _ _ _ K). lia.
Qed.

Theorem C62_hier_short : forall (A : arith) L ps r m (v : hvalues A), valid_tree L ps r -> meta_build L ps = Ok m ->
  hv_meta v = m -> 0 < hv_vsize v -> vlen (m_path m) < vlen ps -> forall o, hq_compute A (hq_ofValues A v) <> Ok o.
Proof.
  intros A L ps r m v V E Em Hv Hs o K. destruct (short_leaves L ps r m V E Hs) as [H1 H2].
  unfold hq_compute, hq_ofValues in K. cbn in K. apply bind_ok in K. destruct K as [t [K _]].
  unfold hq_computeTable in K. rewrite for_up_cons in K by lia. apply bind_ok in K. destruct K as [q [K _]].
  unfold hq_component in K. apply bind_ok in K. destruct K as [[[s1 s2] h1] [_ K]]. apply bind_ok in K. destruct K as [[[[s3 s4] s5] h2] [K _]].
  rewrite Em in K. apply path_loop_len in K; lia.
Qed.
Print Assumptions C62_hier_short.

Theorem C62_spatio_short : forall (A : arith) L ps r m (v : dvalues A), valid_tree L ps r -> meta_build L ps = Ok m ->
  dv_meta v = m -> 0 < dv_vsize v -> vlen (m_path m) < vlen ps -> forall o, dq_compute A (dq_ofValues A v) <> Ok o.
Proof.
  intros A L ps r m v V E Em Hv Hs o K. destruct (short_leaves L ps r m V E Hs) as [H1 H2].
  unfold dq_compute, dq_ofValues in K. cbn in K. apply bind_ok in K. destruct K as [t [K _]].
  unfold dq_computeTable in K. rewrite for_up_cons in K by lia. apply bind_ok in K. destruct K as [q [K _]].
  unfold dq_component in K. apply bind_ok in K. destruct K as [x1 [_ K]]. apply bind_ok in K. destruct K as [x2 [K _]].
  rewrite Em in K. apply path_loop_len in K; lia.
Qed.
Print Assumptions C62_spatio_short.

(** Both sides occur. Leaves at different depths, yet well built: leaf 0 below node 2 below the root 3, leaf 1 below the root. *)
Example C62_uneven_good : exists m, valid_tree 2 [2; 3; 3; -1] 3 /\ meta_build 2 [2; 3; 3; -1] = Ok m /\ well_built m /\ ~ uniform_depth 2 [2; 3; 3; -1] 3.
Proof.
  assert (V : valid_tree 2 [2; 3; 3; -1] 3) by (apply valid_treeb_ok; vm_compute; reflexivity).
  eexists. split; [exact V|]. split; [vm_compute; reflexivity|]. split.
  - apply (C62_check 2 [2; 3; 3; -1] 3); auto; vm_compute; reflexivity.
  - intros [D H]. pose proof (H 0 ltac:(unfold leaf; lia)) as H0. pose proof (H 1 ltac:(unfold leaf; lia)) as H1.
    assert (I0 : Nat.iter 2 (parent [2; 3; 3; -1]) 0 = 3) by reflexivity.
    assert (I1 : Nat.iter 1 (parent [2; 3; 3; -1]) 1 = 3) by reflexivity.
    pose proof (iter_root _ _ _ V _ _ 0 H0 I0). pose proof (iter_root _ _ _ V _ _ 1 H1 I1). lia.
Qed.

(** The same tree with the leaves numbered the other way round is not: the root's size is 1 instead of 2. *)
Example C62_uneven_bad : exists m, valid_tree 2 [3; 2; 3; -1] 3 /\ meta_build 2 [3; 2; 3; -1] = Ok m /\ m_sizeof m (m_root m) = 1 /\ ~ well_built m.
Proof.
  assert (V : valid_tree 2 [3; 2; 3; -1] 3) by (apply valid_treeb_ok; vm_compute; reflexivity).
  eexists. split; [exact V|]. split; [vm_compute; reflexivity|]. split; [vm_compute; reflexivity|].
  intro W. apply (proj1 (C62_check 2 [3; 2; 3; -1] 3 _ V eq_refl)) in W. vm_compute in W. discriminate.
Qed.

(** A node missing from the path: leaf 1 below 2 below 3 below 4 below the root 5, leaf 0 below the root. *)
Example C62_short_nonvacuous : exists m, valid_tree 2 [5; 2; 3; 4; 5; -1] 5 /\ meta_build 2 [5; 2; 3; 4; 5; -1] = Ok m /\
  vlen (m_path m) < vlen [5; 2; 3; 4; 5; -1].
Proof.
  eexists. split; [apply valid_treeb_ok; vm_compute; reflexivity|]. split; [vm_compute; reflexivity|]. vm_compute. reflexivity.
Qed.
