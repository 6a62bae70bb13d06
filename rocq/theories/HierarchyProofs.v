(** * Proofs of the hierarchy properties in the form used by P_Hierarchy.v. *)
From Coq Require Import Lia.
From Verif Require Import Base BaseFacts Hierarchy SpecTree TreeFacts HierarchyFacts HierarchyStop.

Lemma wb_rank : forall m, well_built m -> exists rank, forall h, node (m_parents m) h -> parent (m_parents m) h <> -1 ->
  node (m_parents m) (parent (m_parents m) h) /\ rank h < rank (parent (m_parents m) h).
Proof. intros m W. exact (valid_rank _ _ _ (wb_tree m W)). Qed.

Lemma wb_leaf_size : forall m x, well_built m -> leaf (m_leaves m) x -> leavesof (m_leaves m) (m_parents m) x = [x].
Proof.
  intros m x W Hx. destruct (wb_rank m W) as [rank Hr]. pose proof (wb_tree m W) as V.
  pose proof (vt_L _ _ _ V).
  apply (leavesof_leaf _ rank Hr (m_leaves m) ltac:(lia) x Hx). intros c Nc Hp.
  destruct (Z.eq_dec c (m_root m)) as [->|D]; [exfalso; apply Hp, (vt_rootp _ _ _ V)|].
  pose proof (vt_parent _ _ _ V c Nc D); lia.
Qed.

Lemma path_prf : forall L ps r m, valid_tree L ps r -> uniform_depth L ps r -> meta_build L ps = Ok m ->
  NoDup (m_path m) /\ (forall h, In h (m_path m) <-> 0 <= h < vlen ps) /\
  (forall i, 0 <= i < L -> vget (m_path m) i = Ok i) /\
  (forall i j c h, vget (m_path m) i = Ok c -> vget (m_path m) j = Ok h -> parent ps c = h -> i < j) /\
  vget (m_path m) (vlen (m_path m) - 1) = Ok (m_root m) /\
  parent ps (m_root m) = -1 /\ (forall h, 0 <= h < vlen ps -> parent ps h = -1 -> h = m_root m).
Proof.
  intros L ps r m V U E. destruct (uniform_well_built L ps r V U) as [m' [E' [W [EL [EP ER]]]]].
  rewrite E in E'; inversion E'; subst m'. clear E'.
  split; [apply (wb_nodup m W)|]. split; [intro h; rewrite (wb_nodes m W h), EP; reflexivity|].
  split; [intros i Hi; apply (wb_leaves m W); rewrite EL; exact Hi|].
  split; [intros i j c h; rewrite <- EP; apply (wb_order m W)|].
  split; [rewrite (wb_len m W); apply (wb_last m W)|].
  split; [rewrite ER; apply (vt_rootp _ _ _ V)|].
  intros h Hh P. rewrite ER. apply (valid_root_iff L ps r h V Hh); auto.
Qed.

Lemma children_sizes_prf : forall L ps r m, valid_tree L ps r -> uniform_depth L ps r -> meta_build L ps = Ok m ->
  forall h, 0 <= h < vlen ps ->
    (exists ch, vget (m_children m) h = Ok ch /\ NoDup ch /\
       forall c, In c ch <-> 0 <= c < vlen ps /\ parent ps c = h) /\
    (exists lv, NoDup lv /\ (forall x, In x lv <-> 0 <= x < L /\ below ps x h) /\ m_sizeof m h = vlen lv) /\
    (h < L -> m_sizeof m h = 1).
Proof.
  intros L ps r m V U E h Hh. destruct (uniform_well_built L ps r V U) as [m' [E' [W [EL [EP ER]]]]].
  rewrite E in E'; inversion E'; subst m'. clear E'.
  pose proof (vt_L _ _ _ V) as VL.
  assert (Nh : node (m_parents m) h) by (rewrite EP; exact Hh).
  destruct (valid_rank _ _ _ V) as [rank Hr].
  assert (SZ : m_sizeof m h = vlen (leavesof L ps h)).
  { unfold m_sizeof, imap_at. rewrite (wb_size m W h Nh), EL, EP. reflexivity. }
  split; [|split].
  - eexists; split; [apply (wb_child m W h Nh)|]. split; [apply NoDup_filter, (wb_nodup m W)|].
    intro c. rewrite filter_In, Z.eqb_eq, (wb_nodes m W c), EP. reflexivity.
  - exists (leavesof L ps h). split; [apply NoDup_leavesof|]. split; [|exact SZ].
    intro x. apply (In_leavesof ps rank Hr L). lia.
  - intro Hl. rewrite SZ. assert (K : leavesof (m_leaves m) (m_parents m) h = [h]).
    { apply wb_leaf_size; auto. rewrite EL. unfold leaf; lia. }
    rewrite EL, EP in K. rewrite K. reflexivity.
Qed.

Lemma uneven_prf : exists L ps r m, valid_tree L ps r /\ meta_build L ps = Ok m /\
  m_root m <> r /\ m_sizeof m r <> vlen (leavesof L ps r) /\
  (exists c ch, parent ps c = r /\ vget (m_children m) r = Ok ch /\ ~ In c ch).
Proof.
  exists 3, ps_uneven, 4, m_uneven. split; [exact uneven_valid|]. split; [exact uneven_build|].
  split; [discriminate|]. split; [vm_compute; discriminate|].
  exists 3, [0]. split; [reflexivity|]. split; [reflexivity|]. intros [K|[]]; discriminate.
Qed.

Lemma tree4_prf : valid_tree 4 [4; 4; 5; 5; 6; 6; -1] 6 /\ uniform_depth 4 [4; 4; 5; 5; 6; 6; -1] 6.
Proof.
  assert (N : forall h, node [4; 4; 5; 5; 6; 6; -1] h -> h = 0 \/ h = 1 \/ h = 2 \/ h = 3 \/ h = 4 \/ h = 5 \/ h = 6).
  { intros h H. unfold node, vlen in H; simpl in H. lia. }
  split.
  - constructor.
    + unfold vlen; simpl; lia.
    + unfold node, vlen; simpl; lia.
    + reflexivity.
    + intros h H D. apply N in H. unfold vlen; simpl.
      repeat (destruct H as [->|H]; [cbv [parent vget]; simpl; lia|]). subst; cbv [parent vget]; simpl; lia.
    + intros h H. unfold vlen in H; simpl in H. assert (h = 4 \/ h = 5 \/ h = 6) as [->|[->| ->]] by lia.
      * exists 0. split; [unfold node, vlen; simpl; lia|reflexivity].
      * exists 2. split; [unfold node, vlen; simpl; lia|reflexivity].
      * exists 4. split; [unfold node, vlen; simpl; lia|reflexivity].
    + intros h H. apply N in H.
      repeat (destruct H as [->|H]; [repeat (first [apply below_refl | apply below_up; [discriminate|]; cbv [parent vget]; simpl])|]).
      subst; apply below_refl.
  - exists 2%nat. intros x Hx. unfold leaf in Hx.
    assert (x = 0 \/ x = 1 \/ x = 2 \/ x = 3) as [->|[->|[->| ->]]] by lia; reflexivity.
Qed.
