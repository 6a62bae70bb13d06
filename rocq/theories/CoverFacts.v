(** * Covers of the leaves by nodes. *)
From Coq Require Import Lia Permutation.
From Verif Require Import Base BaseFacts Hierarchy SpecTree SpecParts TreeFacts HierarchyProofs TreePath.

Lemma NoDup_app_iff : forall X (a b : list X), NoDup (a ++ b) <-> NoDup a /\ NoDup b /\ forall x, In x a -> ~ In x b.
Proof.
  intros X a; induction a as [|x a IH]; intro b; simpl.
  - split; [intro; repeat split; auto; constructor|tauto].
  - split.
    + intro H. inversion H; subst. apply IH in H3. destruct H3 as (N1 & N2 & N3).
      split; [constructor; auto; intro; apply H2; apply in_or_app; auto|]. split; auto.
      intros y [->|Hy]; auto. intro; apply H2; apply in_or_app; auto.
    + intros (N1 & N2 & N3). inversion N1; subst. constructor.
      * intro K. apply in_app_or in K. destruct K; [contradiction|]. apply (N3 x); auto.
      * apply IH. repeat split; auto.
Qed.

Lemma NoDup_flat_map_inj : forall X Y (f : X -> list Y) l, NoDup (flat_map f l) ->
  forall a b x, In a l -> In b l -> In x (f a) -> In x (f b) -> a = b.
Proof.
  induction l as [|c l IH]; intros N a b x Ha Hb Hxa Hxb; [destruct Ha|].
  simpl in N. apply NoDup_app_iff in N. destruct N as (N1 & N2 & N3).
  destruct Ha as [->|Ha]; destruct Hb as [->|Hb]; auto.
  - exfalso. apply (N3 x); auto. apply in_flat_map; eauto.
  - exfalso. apply (N3 x); auto. apply in_flat_map; eauto.
  - eapply IH; eauto.
Qed.

Lemma NoDup_flat_map_nodup : forall X Y (f : X -> list Y) l, (forall a, In a l -> f a <> []) -> NoDup (flat_map f l) -> NoDup l.
Proof.
  induction l as [|c l IH]; intros Hne N; [constructor|].
  simpl in N. apply NoDup_app_iff in N. destruct N as (N1 & N2 & N3). constructor.
  - intro K. destruct (f c) as [|y r] eqn:E; [apply (Hne c); [left|]; auto|].
    apply (N3 y); [left; auto|]. apply in_flat_map. exists c. rewrite E. split; auto. left; auto.
  - apply IH; auto. intros; apply Hne; right; auto.
Qed.

Lemma NoDup_flat_map_intro : forall X Y (f : X -> list Y) l, NoDup l -> (forall a, In a l -> NoDup (f a)) ->
  (forall a b x, In a l -> In b l -> In x (f a) -> In x (f b) -> a = b) -> NoDup (flat_map f l).
Proof.
  induction l as [|c l IH]; intros N1 N2 D; simpl; [constructor|].
  inversion N1; subst. apply NoDup_app_iff. split; [apply N2; left; auto|]. split.
  - apply IH; auto; [intros; apply N2; right; auto|]. intros a b x Ha Hb. apply D; right; auto.
  - intros x Hx K. apply in_flat_map in K. destruct K as [b [Hb Hxb]].
    assert (c = b) by (eapply D; eauto; [left|right]; auto). subst; contradiction.
Qed.

Lemma filter_all : forall X (f : X -> bool) l, (forall x, In x l -> f x = true) -> filter f l = l.
Proof.
  intros X f l H. induction l as [|x l IH]; simpl; auto. rewrite H by (left; auto). f_equal. apply IH; intros; apply H; right; auto.
Qed.

Section W.
Context (m : meta).
Hypothesis W : well_built m.
Notation ps := (m_parents m).
Notation L := (m_leaves m).
Notation hsize := (m_hsize m).
Notation root := (m_root m).
Notation kids := (kids m).
Notation lv := (leavesof L ps).

Lemma lv_In : forall h x, In x (lv h) <-> 0 <= x < L /\ below ps x h.
Proof.
  intros h x. destruct (wb_rank m W) as [rank Hr]. apply (In_leavesof ps rank Hr L).
  pose proof (vt_L _ _ _ (wb_tree m W)). lia.
Qed.
Lemma lv_NoDup : forall h, NoDup (lv h).
Proof. intro h. apply NoDup_leavesof. Qed.
Lemma lv_leaf : forall x, 0 <= x < L -> lv x = [x].
Proof. intros x Hx. apply wb_leaf_size; auto. Qed.
Lemma lv_nonempty : forall h, 0 <= h < hsize -> lv h <> [].
Proof.
  apply (tree_ind m W). intros h Hh IH E.
  destruct (Z_lt_le_dec h L).
  - rewrite lv_leaf in E by lia. discriminate.
  - destruct (vt_child _ _ _ (wb_tree m W) h) as [c [Nc Hc]]; [rewrite <- (wb_hsize m W); lia|].
    apply (wb_node_iff m W) in Nc. apply (IH c); [apply (kids_In m W); auto|].
    destruct (lv c) as [|x r] eqn:Ec; auto. exfalso.
    assert (In x (flat_map lv (kids h))).
    { apply in_flat_map. exists c. split; [apply (kids_In m W); auto|]. rewrite Ec; left; auto. }
    apply (Permutation_in x (Permutation_sym (leavesof_kids m W h ltac:(lia)))) in H. rewrite E in H. destruct H.
Qed.
Lemma lv_root : lv root = zrange 0 L.
Proof.
  unfold leavesof. apply filter_all. intros x Hx. apply In_zrange in Hx.
  assert (K : In x (lv root)). { apply lv_In. split; auto. apply (vt_reach _ _ _ (wb_tree m W)). apply (wb_node_iff m W). pose proof (wb_L m W). lia. }
  apply filter_In in K. tauto.
Qed.

Lemma below_lv : forall y h, below ps y h -> forall x, In x (lv y) -> In x (lv h).
Proof. intros y h B x Hx. apply lv_In in Hx. apply lv_In. destruct Hx; split; auto. eapply below_trans; eauto. Qed.

Lemma below_node : forall x h, 0 <= x < hsize -> below ps x h -> 0 <= h < hsize.
Proof.
  intros x h Hx B. destruct (wb_rank m W) as [rank Hr].
  destruct (below_rank ps rank Hr x h B) as [K _]; [apply (wb_node_iff m W); auto|]. apply (wb_node_iff m W); auto.
Qed.
Lemma below_anti : forall x h, 0 <= x < hsize -> below ps x h -> below ps h x -> x = h.
Proof.
  intros x h Hx B1 B2. destruct (wb_rank m W) as [rank Hr]. eapply (below_antisym ps rank Hr); eauto. apply (wb_node_iff m W); auto.
Qed.

Lemma kid_below : forall h c, 0 <= h < hsize -> In c (kids h) -> parent ps c <> -1 /\ below ps c h /\ 0 <= c < hsize.
Proof.
  intros h c Hh Hc. apply (kids_In m W) in Hc. destruct Hc as [Hc Hp].
  assert (parent ps c <> -1) by lia. split; auto. split; auto. apply below_up; auto. rewrite Hp. constructor.
Qed.

Lemma below_kid : forall y h, 0 <= y < hsize -> below ps y h -> y <> h -> exists c, In c (kids h) /\ below ps y c.
Proof.
  intros y h Hy B. induction B as [h|y h Hp B IH]; intro D; [congruence|].
  assert (Hpar : 0 <= parent ps y < hsize).
  { destruct (Z.eq_dec y root) as [->|Dr]; [rewrite (vt_rootp _ _ _ (wb_tree m W)) in Hp; congruence|].
    destruct (parent_range m W y Hy Dr) as [K _]. pose proof (wb_L m W). lia. }
  destruct (Z.eq_dec (parent ps y) h) as [E|E].
  - exists y. split; [apply (kids_In m W); auto|constructor].
  - destruct (IH Hpar E) as [c [Hc Bc]]. exists c. split; auto. apply below_up; auto.
Qed.

Lemma kids_disjoint : forall h y c1 c2, 0 <= h < hsize -> 0 <= y < hsize -> In c1 (kids h) -> In c2 (kids h) ->
  below ps y c1 -> below ps y c2 -> c1 = c2.
Proof.
  intros h y c1 c2 Hh Hy H1 H2 B1 B2. destruct (wb_rank m W) as [rank Hr].
  destruct (kid_below h c1 Hh H1) as [P1 _]. apply (kids_In m W) in H1, H2.
  eapply (siblings_disjoint ps rank Hr y); eauto; [apply (wb_node_iff m W); auto|]. lia.
Qed.

(** Node lists covering the leaves below h exactly once, using nodes below h only. *)
Definition hcover (h : Z) (l : list Z) : Prop :=
  (forall y, In y l -> 0 <= y < hsize /\ below ps y h) /\ Permutation (flat_map lv l) (lv h).

Lemma hcover_NoDup : forall h l, hcover h l -> NoDup l /\ NoDup (flat_map lv l).
Proof.
  intros h l [H1 H2]. assert (N : NoDup (flat_map lv l)) by (eapply Permutation_NoDup; [apply Permutation_sym; eauto|apply lv_NoDup]).
  split; auto. eapply NoDup_flat_map_nodup; eauto. intros a Ha. apply lv_nonempty. apply H1; auto.
Qed.

Lemma hcover_self : forall h l, 0 <= h < hsize -> hcover h l -> In h l -> l = [h].
Proof.
  intros h l Hh C Hin. destruct (hcover_NoDup h l C) as [N1 N2]. destruct C as [H1 H2].
  assert (G : forall y, In y l -> y = h).
  { intros y Hy. destruct (lv y) as [|x r] eqn:E; [exfalso; apply (lv_nonempty y); [apply H1|]; auto|].
    apply (NoDup_flat_map_inj _ _ lv l N2 y h x); auto; [rewrite E; left; auto|].
    apply (below_lv y h); [apply H1; auto|]. rewrite E; left; auto. }
  destruct l as [|a [|b l]]; [destruct Hin| |].
  - f_equal. apply G; left; auto.
  - exfalso. inversion N1; subst. apply H3. left. rewrite (G a), (G b); simpl; auto.
Qed.

Lemma hcover_leaf : forall h l, 0 <= h < L -> hcover h l -> l = [h].
Proof.
  intros h l Hh C. pose proof (wb_L m W). apply hcover_self; auto; [lia|].
  destruct C as [H1 H2]. rewrite lv_leaf in H2 by auto.
  assert (K : In h (flat_map lv l)) by (eapply Permutation_in; [apply Permutation_sym; eauto|left; auto]).
  apply in_flat_map in K. destruct K as [y [Hy Hx]]. apply lv_In in Hx.
  destruct (H1 y Hy) as [Ry By]. replace h with y; auto. apply below_anti; tauto.
Qed.

Definition sub_l (l : list Z) (c : Z) : list Z := filter (fun y => belowb ps y c) l.

Lemma sub_l_In : forall l c y, (forall y, In y l -> 0 <= y < hsize) -> In y (sub_l l c) <-> In y l /\ below ps y c.
Proof.
  intros l c y Hl. unfold sub_l. rewrite filter_In. destruct (wb_rank m W) as [rank Hr]. split; intros [H1 H2]; split; auto.
  - apply (belowb_true ps rank Hr) in H2; auto. apply (wb_node_iff m W); auto.
  - apply (belowb_true ps rank Hr); auto. apply (wb_node_iff m W); auto.
Qed.

Lemma hcover_split : forall h l, 0 <= h < hsize -> hcover h l -> ~ In h l ->
  Permutation l (flat_map (sub_l l) (kids h)) /\ forall c, In c (kids h) -> hcover c (sub_l l c).
Proof.
  intros h l Hh C Hn. destruct (hcover_NoDup h l C) as [N1 N2]. destruct C as [H1 H2].
  assert (Hl : forall y, In y l -> 0 <= y < hsize) by (intros y Hy; apply H1; auto).
  assert (Hk : forall y, In y l -> exists c, In c (kids h) /\ below ps y c).
  { intros y Hy. destruct (H1 y Hy) as [Ry By]. apply below_kid; auto. intros ->; contradiction. }
  split.
  - apply NoDup_Permutation; auto.
    + apply NoDup_flat_map_intro; [apply (kids_NoDup m W)|intros; apply NoDup_filter; auto|].
      intros a b y Ha Hb Hya Hyb. apply sub_l_In in Hya, Hyb; auto. destruct Hya, Hyb.
      apply (kids_disjoint h y a b); auto.
    + intro y. rewrite in_flat_map. split.
      * intro Hy. destruct (Hk y Hy) as [c [Hc Bc]]. exists c. split; auto. apply sub_l_In; auto.
      * intros [c [_ Hy]]. apply sub_l_In in Hy; tauto.
  - intros c Hc. split.
    + intros y Hy. apply sub_l_In in Hy; auto. destruct Hy; split; auto.
    + destruct (kid_below h c Hh Hc) as (Pc & Bc & Rc).
      apply NoDup_Permutation; [|apply lv_NoDup|].
      * apply NoDup_flat_map_intro; [apply NoDup_filter; auto|intros; apply lv_NoDup|].
        intros a b x Ha Hb. apply sub_l_In in Ha, Hb; auto. apply (NoDup_flat_map_inj _ _ lv l N2); tauto.
      * intro x. rewrite in_flat_map. split.
        -- intros [y [Hy Hx]]. apply sub_l_In in Hy; auto. eapply below_lv; [|eauto]. tauto.
        -- intro Hx. assert (Hxh : In x (lv h)) by (eapply below_lv; eauto).
           apply (Permutation_in x (Permutation_sym H2)) in Hxh. apply in_flat_map in Hxh.
           destruct Hxh as [y [Hy Hxy]]. exists y. split; auto. apply sub_l_In; auto. split; auto.
           apply lv_In in Hx, Hxy. destruct Hx as [Rx Bx], Hxy as [_ By].
           destruct (below_linear ps x y c By Bx) as [|K]; auto.
           destruct (Hk y Hy) as [c' [Hc' B']].
           assert (c = c') by (apply (kids_disjoint h c); auto; [constructor|eapply below_trans; eauto]). subst c'. auto.
Qed.

Lemma node_cover_iff : forall l, node_cover L ps l <-> hcover root l.
Proof.
  intro l. pose proof (wb_L m W) as HL. pose proof (wb_tree m W) as V. split.
  - intros (N & Hn & Hc). split.
    + intros y Hy. split; [apply (wb_node_iff m W); auto|]. apply (vt_reach _ _ _ V); auto.
    + apply NoDup_Permutation; [|apply lv_NoDup|].
      * apply NoDup_flat_map_intro; auto; [intros; apply lv_NoDup|].
        intros a b x Ha Hb Hxa Hxb. apply lv_In in Hxa, Hxb. destruct Hxa as [Rx Ba], Hxb as [_ Bb].
        destruct (Hc x Rx) as (h & _ & _ & U). rewrite (U a), (U b); auto.
      * intro x. rewrite in_flat_map, lv_root, In_zrange. split.
        -- intros [y [Hy Hx]]. apply lv_In in Hx. tauto.
        -- intro Rx. destruct (Hc x Rx) as (h & Hh & B & _). exists h. split; auto. apply lv_In; auto.
  - intro C. destruct (hcover_NoDup root l C) as [N1 N2]. destruct C as [H1 H2]. split; auto. split.
    + intros h Hh. apply (wb_node_iff m W). apply H1; auto.
    + intros x Rx. assert (K : In x (flat_map lv l)).
      { eapply Permutation_in; [apply Permutation_sym; eauto|]. rewrite lv_root. apply In_zrange; auto. }
      apply in_flat_map in K. destruct K as [h [Hh Hx]]. exists h. apply lv_In in Hx. destruct Hx as [_ B].
      split; auto. split; auto. intros h' Hh' B'. apply (NoDup_flat_map_inj _ _ lv l N2 h' h x); auto; apply lv_In; auto.
Qed.

Lemma root_node : 0 <= root < hsize.
Proof. apply (wb_node_iff m W). apply (vt_root _ _ _ (wb_tree m W)). Qed.

End W.
