(** * The traversal of a well-built hierarchy: leaves, inner nodes, root. *)
From Coq Require Import Lia Permutation.
From Verif Require Import Base BaseFacts Hierarchy SpecTree TreeFacts HierarchyProofs Arith Quality Utm Values Qualities.

(** Fold with an invariant over the processed prefix. *)
Lemma mfold_prefix : forall I S (f : I -> S -> res S) (Inv : list I -> S -> Prop) l p0 s,
  (forall pre x post s, p0 ++ l = pre ++ x :: post -> (length p0 <= length pre)%nat -> Inv pre s ->
     exists s', f x s = Ok s' /\ Inv (pre ++ [x]) s') ->
  Inv p0 s -> exists s', mfold f l s = Ok s' /\ Inv (p0 ++ l) s'.
Proof.
  intros I S f Inv l; induction l as [|x l IH]; intros p0 s H H0; simpl.
  - rewrite app_nil_r. eauto.
  - destruct (H p0 x l s eq_refl ltac:(lia) H0) as [s' [E H']]. rewrite E. simpl.
    assert (EQ : p0 ++ x :: l = (p0 ++ [x]) ++ l) by (rewrite <- app_assoc; reflexivity).
    rewrite EQ. apply IH; auto. intros pre y post s0 Eq Hl Hi. rewrite <- EQ in Eq. apply (H pre y post s0); auto.
    rewrite app_length in Hl. simpl in Hl. lia.
Qed.

Definition pth (path : list Z) (i : Z) : Z := match vget path i with Ok x => x | _ => 0 end.

Lemma path_loop_eq : forall S path a n (body : Z -> S -> res S) s, 0 <= a <= n -> n < vlen path ->
  path_loop path a n body s = let* s' := mfold body (map (pth path) (zrange a n)) s in Ok (s', pth path n).
Proof.
  intros S path a n body s Ha Hn. unfold path_loop.
  assert (P : forall i, 0 <= i < vlen path -> vget path i = Ok (pth path i)).
  { intros i Hi. unfold pth. destruct (vget_ok _ path i Hi) as [x ->]. auto. }
  rewrite P by lia. cbn [bind].
  remember (Z.to_nat (n - a)) as k eqn:Ek. revert a s Ha Ek.
  induction k as [|k IH]; intros a s Ha Ek.
  - replace n with a by lia. rewrite for_up_empty by lia. rewrite zrange_empty by lia. simpl. auto.
  - rewrite for_up_cons by lia. rewrite (zrange_cons a n) by lia. cbn [map mfold].
    destruct (body (pth path a) s) as [s'| |]; cbn [bind]; auto.
    rewrite P by lia. cbn [bind]. apply IH; lia.
Qed.

Lemma map_pth_all : forall path, map (pth path) (zrange 0 (vlen path)) = path.
Proof.
  intro path. apply vget_ext.
  - unfold vlen at 1. rewrite map_length, zrange_length. unfold vlen; lia.
  - intros i Hi. unfold vlen in Hi. rewrite map_length, zrange_length in Hi.
    assert (0 <= i < vlen path) by (unfold vlen in *; lia).
    rewrite (vget_map _ _ _ _ _ i) by (apply vget_zrange; lia). simpl. unfold pth.
    destruct (vget_ok _ path i ltac:(lia)) as [x ->]. auto.
Qed.

Section W.
Context (m : meta).
Hypothesis W : well_built m.
Notation ps := (m_parents m).
Notation L := (m_leaves m).
Notation hsize := (m_hsize m).
Notation root := (m_root m).

Definition kids (h : Z) : list Z := filter (fun c => parent ps c =? h) (m_path m).

Definition mid : list Z := map (pth (m_path m)) (zrange L (hsize - 1)).

Lemma wb_L : 0 < L <= hsize.
Proof. pose proof (vt_L _ _ _ (wb_tree m W)). rewrite (wb_hsize m W). auto. Qed.

Lemma wb_node_iff : forall h, node ps h <-> 0 <= h < hsize.
Proof. intro h. unfold node. rewrite (wb_hsize m W). tauto. Qed.

Lemma wb_root_inner : 2 <= hsize -> L <= root.
Proof.
  intro H2. pose proof (wb_tree m W) as V. destruct (Z_le_gt_dec L root) as [|G]; auto. exfalso.
  pose proof (vt_root _ _ _ V) as Nr. unfold node in Nr. rewrite <- (wb_hsize m W) in Nr.
  assert (exists h, 0 <= h < hsize /\ h <> root) as [h [Hh D]].
  { destruct (Z.eq_dec root 0) as [->|]; [exists 1|exists 0]; lia. }
  pose proof (vt_reach _ _ _ V h ltac:(apply wb_node_iff; lia)) as B.
  assert (Hn : node ps h) by (apply wb_node_iff; auto).
  clear Hh. revert D Hn. remember root as r eqn:Er in B |- *. induction B as [h|x h Hp B IH]; intros D N; subst; [congruence|].
  pose proof (vt_parent _ _ _ V x N D). destruct (Z.eq_dec (parent ps x) root) as [E|E]; [lia|].
  apply IH; auto; unfold node; lia.
Qed.

Lemma wb_split : 2 <= hsize -> m_path m = zrange 0 L ++ mid ++ [root].
Proof.
  intro H2. pose proof wb_L as HL. pose proof (wb_root_inner H2) as HR.
  assert (L <= hsize - 1).
  { pose proof (vt_root _ _ _ (wb_tree m W)) as Nr. apply wb_node_iff in Nr. lia. }
  rewrite <- (map_pth_all (m_path m)). rewrite (wb_len m W).
  rewrite (zrange_app 0 L hsize) by lia. rewrite map_app. f_equal.
  - rewrite <- (map_id (zrange 0 L)) at 2. apply map_ext_in. intros i Hi. apply In_zrange in Hi. unfold pth.
    rewrite (wb_leaves m W i); auto.
  - replace hsize with (hsize - 1 + 1) at 1 by lia. rewrite zrange_snoc by lia. rewrite map_app. f_equal.
    simpl. unfold pth. rewrite (wb_last m W). auto.
Qed.

Lemma leaf_loop : forall S (body : Z -> S -> res S) s, 2 <= hsize ->
  path_loop (m_path m) 0 L body s = let* s' := mfold body (zrange 0 L) s in Ok (s', pth (m_path m) L).
Proof.
  intros S body s H2. pose proof wb_L as HL. pose proof (wb_root_inner H2) as HR.
  pose proof (vt_root _ _ _ (wb_tree m W)) as Nr. apply wb_node_iff in Nr.
  rewrite path_loop_eq; [|lia|rewrite (wb_len m W); lia].
  replace (map (pth (m_path m)) (zrange 0 L)) with (zrange 0 L); auto.
  rewrite <- (map_id (zrange 0 L)) at 1. apply map_ext_in. intros i Hi. apply In_zrange in Hi. unfold pth.
  rewrite (wb_leaves m W i); auto.
Qed.

Lemma mid_loop : forall S (body : Z -> S -> res S) s, 2 <= hsize ->
  path_loop (m_path m) L (hsize - 1) body s = let* s' := mfold body mid s in Ok (s', root).
Proof.
  intros S body s H2. pose proof wb_L as HL. pose proof (wb_root_inner H2) as HR.
  pose proof (vt_root _ _ _ (wb_tree m W)) as Nr. apply wb_node_iff in Nr.
  rewrite path_loop_eq; [|lia|rewrite (wb_len m W); lia].
  replace (pth (m_path m) (hsize - 1)) with root; auto. unfold pth. rewrite (wb_last m W). auto.
Qed.

Lemma In_path : forall h, In h (m_path m) <-> 0 <= h < hsize.
Proof. intro h. rewrite (wb_nodes m W). apply wb_node_iff. Qed.

Lemma mid_inner : forall h, 2 <= hsize -> In h mid -> L <= h < hsize /\ h <> root.
Proof.
  intros h H2 Hm. pose proof (wb_split H2) as E. pose proof (wb_nodup m W) as N. rewrite E in N.
  assert (In h (m_path m)) by (rewrite E; apply in_or_app; right; apply in_or_app; auto).
  apply In_path in H. split.
  - destruct (Z_lt_le_dec h L); [exfalso|lia]. 
    assert (In h (zrange 0 L)) by (apply In_zrange; lia).
    apply in_split in H0. destruct H0 as [l1 [l2 H0]]. rewrite H0 in N. rewrite <- app_assoc in N. simpl in N.
    apply NoDup_remove_2 in N. apply N. apply in_or_app. right. apply in_or_app. right. apply in_or_app. auto.
  - intros ->. rewrite app_assoc in N. apply NoDup_remove_2 in N. rewrite app_nil_r in N. apply N. apply in_or_app; auto.
Qed.

(** When a node is processed, all its children have been processed. *)
Lemma kids_prefix : forall pre h post, m_path m = pre ++ h :: post ->
  kids h = filter (fun c => parent ps c =? h) pre.
Proof.
  intros pre h post E. unfold kids. rewrite E, filter_app.
  assert (G : forall l, (forall c, In c l -> parent ps c <> h) -> filter (fun c => parent ps c =? h) l = []).
  { induction l as [|c l IH]; intro Hl; simpl; auto. destruct (Z.eqb_spec (parent ps c) h) as [K|K].
    - exfalso; apply (Hl c); simpl; auto.
    - apply IH; intros; apply Hl; right; auto. }
  rewrite (G (h :: post)); [apply app_nil_r|]. intros c Hc Hp.
  assert (Hh : vget (m_path m) (vlen pre) = Ok h).
  { rewrite E, vget_app_r by lia. replace (vlen pre - vlen pre) with 0 by lia. reflexivity. }
  destruct (In_vget _ _ _ Hc) as [i [Ei Hi]].
  assert (Hc' : vget (m_path m) (vlen pre + i) = Ok c).
  { rewrite E, vget_app_r by lia. replace (vlen pre + i - vlen pre) with i by lia. exact Ei. }
  pose proof (wb_order m W _ _ _ _ Hc' Hh Hp). lia.
Qed.

Lemma kids_In : forall h c, In c (kids h) <-> 0 <= c < hsize /\ parent ps c = h.
Proof. intros h c. unfold kids. rewrite filter_In, In_path, Z.eqb_eq. tauto. Qed.

Lemma kids_NoDup : forall h, NoDup (kids h).
Proof. intro h. apply NoDup_filter. apply (wb_nodup m W). Qed.

Lemma kids_leaf : forall h, 0 <= h < L -> kids h = [].
Proof.
  intros h Hh. destruct (kids h) as [|c l] eqn:E; auto. exfalso.
  assert (In c (kids h)) by (rewrite E; left; auto). apply kids_In in H. destruct H as [Hc Hp].
  pose proof (wb_tree m W) as V.
  destruct (Z.eq_dec c root) as [->|D].
  - rewrite (vt_rootp _ _ _ V) in Hp. lia.
  - pose proof (vt_parent _ _ _ V c ltac:(apply wb_node_iff; auto) D). lia.
Qed.

Lemma kids_children : forall h, 0 <= h < hsize -> vget (m_children m) h = Ok (kids h).
Proof. intros h Hh. apply (wb_child m W). apply wb_node_iff; auto. Qed.

Lemma parent_range : forall h, 0 <= h < hsize -> h <> root -> L <= parent ps h < hsize /\ vget ps h = Ok (parent ps h) /\ parent ps h <> h.
Proof.
  intros h Hh D. pose proof (wb_tree m W) as V. assert (N : node ps h) by (apply wb_node_iff; auto).
  pose proof (vt_parent _ _ _ V h N D) as Hp. rewrite (wb_hsize m W). split; auto. split; [apply parent_vget; auto|].
  intro E. destruct (wb_rank m W) as [rank Hr]. destruct (Hr h N) as [_ K]; [lia|]. rewrite E in K. lia.
Qed.

Lemma size_leaves : forall h, 0 <= h < hsize -> m_sizeof m h = vlen (leavesof L ps h).
Proof. intros h Hh. unfold m_sizeof, imap_at. rewrite (wb_size m W); auto. apply wb_node_iff; auto. Qed.

(** Bottom-up induction. *)
Lemma tree_ind : forall Q : Z -> Prop,
  (forall h, 0 <= h < hsize -> (forall c, In c (kids h) -> Q c) -> Q h) -> forall h, 0 <= h < hsize -> Q h.
Proof.
  intros Q H h Hh.
  assert (G : forall n h i, vget (m_path m) i = Ok h -> (Z.to_nat i < n)%nat -> Q h).
  { induction n as [|n IH]; intros h0 i E F; [lia|].
    assert (R0 : 0 <= h0 < hsize) by (apply In_path; eapply vget_In; eauto).
    pose proof (vget_inv _ _ _ _ E).
    apply H; auto. intros c Hc. apply kids_In in Hc. destruct Hc as [Hc Hp].
    destruct (In_vget _ (m_path m) c) as [j [Ej Hj]]; [apply In_path; auto|].
    pose proof (wb_order m W _ _ _ _ Ej E Hp). apply (IH c j Ej). lia. }
  destruct (In_vget _ (m_path m) h) as [i [Ei Hi]]; [apply In_path; auto|]. apply (G (S (Z.to_nat i)) h i Ei). lia.
Qed.

Lemma leavesof_kids : forall h, L <= h < hsize -> Permutation (leavesof L ps h) (flat_map (leavesof L ps) (kids h)).
Proof.
  intros h Hh. destruct (wb_rank m W) as [rank Hr]. pose proof wb_L.
  apply (leavesof_children ps rank Hr L).
  - rewrite <- (wb_hsize m W). lia.
  - apply wb_node_iff; lia.
  - lia.
  - apply kids_NoDup.
  - intro c. rewrite kids_In, wb_node_iff. tauto.
Qed.
End W.
