(** * A part of the hierarchy on its own: the decisions of HPartitioner below a node. *)
From Coq Require Import Reals Lia Permutation.
From Verif Require Import Base BaseFacts Arith Quality Utm Hierarchy SpecTree SpecParts SpecInfo SpecData SpecZoom Partitions Partitioners HierarchyFacts HierarchyProofs TreeFacts TreePath CoverFacts InfoFacts LexR HFacts HReal.

(** Restriction of the selected nodes to those below [h]. *)
Section One.
Context (m : meta).
Hypothesis W : well_built m.
Hypothesis H2 : 2 <= m_hsize m.
Notation ps := (m_parents m).

Lemma sub_below : forall G h, forall r, 0 <= r < m_hsize m -> 0 <= h < m_hsize m -> below ps h r -> (exists y, In y (hsel m G r) /\ below ps y h) ->
  forall u, 0 <= u < m_hsize m -> below ps u h -> (In u (hsel m G r) <-> In u (hsel m G h)).
Proof.
  intros G h r Hr Hh. revert r Hr. apply (tree_ind m W (fun r => below ps h r -> (exists y, In y (hsel m G r) /\ below ps y h) ->
    forall u, 0 <= u < m_hsize m -> below ps u h -> (In u (hsel m G r) <-> In u (hsel m G h)))).
  intros r Hr IH B (y & Iy & By) u Hu Bu. destruct (wb_rank m W) as [rank Hk].
  destruct (Z.eq_dec h r) as [->|D]; [tauto|].
  rewrite (hsel_eq m W H2 G r Hr) in Iy |- *. destruct (G r) eqn:Gr.
  - exfalso. destruct Iy as [<-|[]]. apply D. apply (below_antisym ps rank Hk); auto. apply (wb_node_iff m W). exact Hh.
  - assert (Sib : forall z c, 0 <= z < m_hsize m -> below ps z h -> In c (kids m r) -> In z (hsel m G c) -> below ps h c).
    { intros z c Hz Bz Ic Iz. apply (kids_In m W) in Ic. destruct Ic as [Hc Pc]. destruct (hsel_nodes m W H2 G c Hc z Iz) as [_ Bzc].
      destruct (below_linear _ _ _ _ Bz Bzc) as [K|K]; [exact K|]. (* c below h, h strictly below r *)
      destruct (Z.eq_dec c h) as [->|N]; [constructor|]. exfalso. destruct (below_strict ps c h K N) as [_ K']. rewrite Pc in K'. apply D. apply (below_antisym ps rank Hk); auto. apply (wb_node_iff m W). exact Hh. }
    apply in_flat_map in Iy. destruct Iy as (c & Ic & Iy).
    assert (Hc : 0 <= c < m_hsize m) by (apply (kids_In m W) in Ic; tauto).
    assert (Hy : 0 <= y < m_hsize m) by (apply (hsel_nodes m W H2 G c Hc y Iy)).
    pose proof (Sib y c Hy By Ic Iy) as Bc. rewrite <- (IH c Ic Bc ltac:(exists y; auto) u Hu Bu). split; intro I.
    + apply in_flat_map in I. destruct I as (c' & Ic' & Iu). pose proof (Sib u c' Hu Bu Ic' Iu) as Bc'.
      assert (c' = c) as ->; [|exact Iu]. apply (kids_In m W) in Ic, Ic'. destruct Ic as [_ P1]. destruct Ic' as [Hc' P2].
      apply (siblings_disjoint ps rank Hk h); auto; try (apply (wb_node_iff m W); assumption); rewrite P2; [lia|congruence].
    + apply in_flat_map. exists c. auto.
Qed.
End One.

Section Z.
Context (A : arith) (m m' : meta) (f : Z -> Z).
Hypothesis W : well_built m.
Hypothesis W' : well_built m'.
Hypothesis H2 : 2 <= m_hsize m.
Hypothesis H2' : 2 <= m_hsize m'.
Notation ps := (m_parents m).
Notation ps' := (m_parents m').
Context (h : Z).
Hypothesis St : subtree (m_leaves m) ps h (m_leaves m') ps' f.

Lemma z_node : forall y, 0 <= y < m_hsize m' -> 0 <= f y < m_hsize m.
Proof. intros y Hy. apply (wb_node_iff m W). apply (st_node _ _ _ _ _ _ St). apply (wb_node_iff m' W'). exact Hy. Qed.

Lemma z_kids : forall y, 0 <= y < m_hsize m' -> Permutation (map f (kids m' y)) (kids m (f y)).
Proof.
  intros y Hy. pose proof (proj2 (wb_node_iff m' W' y) Hy) as Ny. destruct (wb_rank m W) as [rank Hk]. apply NoDup_Permutation.
  - assert (K : forall c, In c (kids m' y) -> node ps' c) by (intros c Ic; apply (wb_node_iff m' W'); apply (kids_In m' W') in Ic; tauto).
    pose proof (kids_NoDup m' W' y) as N. induction (kids m' y) as [|c l IH]; [constructor|]. cbn [map]. inversion N; subst. constructor.
    + intro I. apply in_map_iff in I. destruct I as (c' & E & I'). apply (st_inj _ _ _ _ _ _ St) in E; [subst; contradiction|apply K; right; exact I'|apply K; left; reflexivity].
    + apply IH; [intros; apply K; right; assumption|assumption].
  - apply (kids_NoDup m W).
  - intro c. rewrite (kids_In m W), in_map_iff. split.
    + intros (c' & <- & I). apply (kids_In m' W') in I. destruct I as [Hc P]. split; [apply z_node; exact Hc|].
      rewrite (st_parent _ _ _ _ _ _ St) by (try (apply (wb_node_iff m' W'); exact Hc); lia). congruence.
    + intros [Hc P]. pose proof (proj2 (wb_node_iff m W c) Hc) as Nc. destruct (st_node _ _ _ _ _ _ St y Ny) as [Nf Bf].
      assert (Np : parent ps c <> -1) by (rewrite P; destruct Nf; lia).
      assert (Bc : below ps c h) by (apply below_up; [exact Np|rewrite P; exact Bf]).
      destruct (st_onto _ _ _ _ _ _ St c Nc Bc) as (z & Nz & Ez). exists z. split; [exact Ez|]. apply (kids_In m' W'). split; [apply (wb_node_iff m' W'); exact Nz|].
      destruct (Z.eq_dec (parent ps' z) (-1)) as [E|E].
      * exfalso. pose proof (st_root _ _ _ _ _ _ St z Nz E) as Eh. assert (Ech : c = h) by congruence. clear Ez Eh. rewrite Ech in *. destruct (Hk h Nc Np) as [_ Lt]. rewrite P in Lt.
        destruct (below_rank ps rank Hk _ _ Bf Nf) as [_ [Q|Q]]; [rewrite Q in Lt|]; lia.
      * destruct (wb_rank m' W') as [rank' Hk']. destruct (Hk' z Nz E) as [Npz _].
        pose proof (st_parent _ _ _ _ _ _ St z Nz E) as Q. rewrite Ez, P in Q. apply (st_inj _ _ _ _ _ _ St) in Q; auto.
Qed.

Lemma z_below : forall y x, below ps' y x -> node ps' y -> below ps (f y) (f x).
Proof.
  intros y x B. induction B as [x|y x Np B IH]; intro Ny; [constructor|]. destruct (wb_rank m' W') as [rank' Hk']. destruct (Hk' y Ny Np) as [Npy _].
  pose proof (st_parent _ _ _ _ _ _ St y Ny Np) as E. apply below_up; [rewrite E; destruct (st_node _ _ _ _ _ _ St _ Npy) as [[X _] _]; lia|rewrite E; apply IH; exact Npy].
Qed.
Lemma z_root : f (m_root m') = h.
Proof. apply (st_root _ _ _ _ _ _ St); [apply (vt_root _ _ _ (wb_tree m' W'))|apply (vt_rootp _ _ _ (wb_tree m' W'))]. Qed.
Lemma z_h : 0 <= h < m_hsize m.
Proof. rewrite <- z_root. apply z_node. apply (wb_node_iff m' W'). apply (vt_root _ _ _ (wb_tree m' W')). Qed.

Lemma z_leaves : forall y, 0 <= y < m_hsize m' -> Permutation (map f (leavesof (m_leaves m') ps' y)) (leavesof (m_leaves m) ps (f y)).
Proof.
  apply (tree_ind m' W'). intros y Hy IH. pose proof (proj2 (wb_node_iff m' W' y) Hy) as Ny. pose proof (st_leaf _ _ _ _ _ _ St y Ny) as Lf.
  destruct (Z_lt_le_dec y (m_leaves m')) as [D|D].
  - rewrite (lv_leaf m' W') by lia. rewrite (lv_leaf m W) by (apply Lf; split; lia). reflexivity.
  - pose proof (z_node y Hy) as Hf. assert (Df : m_leaves m <= f y) by (destruct (Z_lt_le_dec (f y) (m_leaves m)) as [Q|Q]; [exfalso; assert (leaf (m_leaves m') y) as [_ X] by (apply Lf; split; lia); lia|exact Q]).
    rewrite (leavesof_kids m' W' y) by lia. rewrite (leavesof_kids m W (f y)) by lia. rewrite <- (z_kids y Hy).
    clear - IH. induction (kids m' y) as [|c l IHl]; [reflexivity|]. cbn [flat_map map]. rewrite map_app. apply Permutation_app; [apply IH; left; reflexivity|apply IHl; intros; apply IH; right; assumption].
Qed.

(** The decisions. *)
Context (q : Z -> quality A) (p : par A) (T T' : Z -> tradeoff A) (G G' : Z -> bool).
Let q' := fun y => q (f y).
Hypothesis HT : forall x, 0 <= x < m_hsize m -> (T x, G x) = hdec A m q p T x.
Hypothesis HT' : forall y, 0 <= y < m_hsize m' -> (T' y, G' y) = hdec A m' q' p T' y.
Hypothesis Hcs : forall y, 0 <= y < m_hsize m' -> (forall c, In c (kids m' y) -> T' c = T (f c)) -> csum A T' (kids m' y) = csum A T (kids m (f y)).

Lemma z_dec : forall y, 0 <= y < m_hsize m' -> T' y = T (f y) /\ G' y = G (f y).
Proof.
  apply (tree_ind m' W'). intros y Hy IH. pose proof (z_node y Hy) as Hf. pose proof (proj2 (wb_node_iff m' W' y) Hy) as Ny. pose proof (st_leaf _ _ _ _ _ _ St y Ny) as Lf.
  assert (E : (T' y, G' y) = (T (f y), G (f y))); [|inversion E; auto].
  rewrite HT', HT by assumption. unfold hdec.
  assert (Lb : (y <? m_leaves m') = (f y <? m_leaves m)).
  { unfold leaf in Lf. destruct (Z.ltb_spec y (m_leaves m')), (Z.ltb_spec (f y) (m_leaves m)); auto; exfalso; [assert (0 <= f y < m_leaves m) by (apply Lf; lia)|assert (0 <= y < m_leaves m') by (apply Lf; lia)]; lia. }
  rewrite Lb. rewrite (Hcs y Hy) by (intros c Ic; apply IH; exact Ic). reflexivity.
Qed.

Lemma z_sel : forall y, 0 <= y < m_hsize m' -> Permutation (map f (hsel m' G' y)) (hsel m G (f y)).
Proof.
  apply (tree_ind m' W'). intros y Hy IH. pose proof (z_node y Hy) as Hf. rewrite (hsel_eq m' W' H2') by exact Hy. rewrite (hsel_eq m W H2) by exact Hf. rewrite (proj2 (z_dec y Hy)).
  destruct (G (f y)); [reflexivity|]. rewrite <- (z_kids y Hy). clear - IH. induction (kids m' y) as [|c l IHl]; [reflexivity|]. cbn [flat_map map]. rewrite map_app.
  apply Permutation_app; [apply IH; left; reflexivity|apply IHl; intros; apply IH; right; assumption].
Qed.

(** What is shown below [h] is what an analysis of the subtree shows. *)
Lemma z_parts : (exists y, In y (hsel m G (m_root m)) /\ below ps y h) ->
  forall y, 0 <= y < m_hsize m' -> (In y (hsel m' G' (m_root m')) <-> In (f y) (hsel m G (m_root m))).
Proof.
  intros Ex y Hy. pose proof (proj1 (wb_node_iff m W _) (vt_root _ _ _ (wb_tree m W))) as Hr. pose proof (proj1 (wb_node_iff m' W' _) (vt_root _ _ _ (wb_tree m' W'))) as Hr'.
  pose proof (proj2 (wb_node_iff m W h) z_h) as Nh. pose proof (proj2 (wb_node_iff m' W' y) Hy) as Ny.
  rewrite (sub_below m W H2 G h (m_root m) Hr z_h (vt_reach _ _ _ (wb_tree m W) h Nh) Ex (f y) (z_node y Hy) (proj2 (st_node _ _ _ _ _ _ St y Ny))).
  pose proof (z_sel (m_root m') Hr') as Pm. rewrite z_root in Pm. split; intro I.
  - apply (Permutation_in _ Pm). apply in_map. exact I.
  - apply (Permutation_in _ (Permutation_sym Pm)) in I. apply in_map_iff in I. destruct I as (z & E & Iz).
    destruct (hsel_nodes m' W' H2' G' _ Hr' z Iz) as [Hz _]. apply (st_inj _ _ _ _ _ _ St) in E; [subst; exact Iz|apply (wb_node_iff m' W'); exact Hz|exact Ny].
Qed.
End Z.
