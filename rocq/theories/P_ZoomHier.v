(** * Property C98, hierarchical: zooming into a part of the hierarchy, and independence of what is elsewhere.

    [subtree], [subtree_data] (SpecZoom): the hierarchy below a node with the data of its leaves. *)
From Coq Require Import Reals Lra Lia Permutation.
From Verif Require Import Base BaseFacts Arith Quality Utm UtmProofs Hierarchy HierarchyFacts HierarchyProofs SpecTree SpecParts SpecInfo SpecData SpecSym SpecShape SpecZoom Values Qualities Partitions Partitioners
  TreeFacts TreePath CoverFacts InfoFacts HQual HFacts HReal LexR OInfo DataFacts HProofs HDataProofs P_Rename ZoomTree.

(** Any arithmetic: what is shown below a node depends only on the qualities of the nodes below it. *)
Theorem C98_hier_local : forall A m (t t' : list (quality A)) p h x x', well_built m -> 2 <= m_hsize m -> vlen t = m_hsize m -> vlen t' = m_hsize m -> node (m_parents m) h ->
  (forall y, node (m_parents m) y -> below (m_parents m) y h -> vget t' y = vget t y) ->
  h_best A t m p = Ok x -> h_best A t' m p = Ok x' ->
  (exists y, In y (map hp_h (hn_parts x)) /\ below (m_parents m) y h) -> (exists y, In y (map hp_h (hn_parts x')) /\ below (m_parents m) y h) ->
  forall y, node (m_parents m) y -> below (m_parents m) y h -> (In y (map hp_h (hn_parts x')) <-> In y (map hp_h (hn_parts x))).
Proof.
  intros A m t t' p h x x' W H2 Lt Lt' Nh Eq E E' X X' y Ny By.
  pose proof (list_vrepr _ t _ (q_zero A) Lt) as U. pose proof (list_vrepr _ t' _ (q_zero A) Lt') as U'.
  destruct (h_best_ok A m W H2 t _ p U) as (x1 & T & G & E1 & Ep & _ & _ & HT). destruct (h_best_ok A m W H2 t' _ p U') as (x1' & T' & G' & E1' & Ep' & _ & _ & HT').
  rewrite E in E1. rewrite E' in E1'. inversion E1; inversion E1'; subst x1 x1'. rewrite Ep, mkhpart_h in *. rewrite Ep', mkhpart_h in *.
  assert (D : forall z, 0 <= z < m_hsize m -> below (m_parents m) z h -> T' z = T z /\ G' z = G z).
  { apply (tree_ind m W (fun z => below (m_parents m) z h -> T' z = T z /\ G' z = G z)). intros z Hz IH Bz. assert (K : (T' z, G' z) = (T z, G z)); [|inversion K; auto].
    rewrite HT, HT' by exact Hz. unfold hdec.
    rewrite (Eq z (proj2 (wb_node_iff m W z) Hz) Bz).
    rewrite (csum_ext A T' T); [reflexivity|]. intros c Ic. apply (IH c Ic). apply (kids_In m W) in Ic. destruct Ic as [Hc Pc]. apply below_up; [lia|]. rewrite Pc. exact Bz. }
  pose proof (proj1 (wb_node_iff m W h) Nh) as Hh. pose proof (proj1 (wb_node_iff m W y) Ny) as Hy. pose proof (proj1 (wb_node_iff m W _) (vt_root _ _ _ (wb_tree m W))) as Hr.
  pose proof (vt_reach _ _ _ (wb_tree m W) h Nh) as Br.
  rewrite (sub_below m W H2 G h _ Hr Hh Br X y Hy By). rewrite (sub_below m W H2 G' h _ Hr Hh Br X' y Hy By).
  assert (S : forall z, 0 <= z < m_hsize m -> below (m_parents m) z h -> hsel m G' z = hsel m G z).
  { apply (tree_ind m W (fun z => below (m_parents m) z h -> hsel m G' z = hsel m G z)). intros z Hz IH Bz. rewrite !(hsel_eq m W H2) by exact Hz. rewrite (proj2 (D z Hz Bz)).
    destruct (G z); [reflexivity|]. apply HFacts.flat_map_ext_in. intros c Ic. apply (IH c Ic). apply (kids_In m W) in Ic. destruct Ic as [Hc Pc]. apply below_up; [lia|]. rewrite Pc. exact Bz. }
  rewrite S by (auto; constructor). tauto.
Qed.
Print Assumptions C98_hier_local.

(** Exact arithmetic: an analysis of the subtree alone gives the same qualities and the same parts. *)
Theorem C98_hier_subtree : forall P (v v' : hvalues (RP P)) comps comps' f h t t' m m', hdata_ok v comps -> hdata_ok v' comps' ->
  h_table (RP P) (Ok v) = Ok (Some t, m) -> h_table (RP P) (Ok v') = Ok (Some t', m') ->
  subtree (m_leaves m) (m_parents m) h (m_leaves m') (m_parents m') f -> subtree_data 0%R (m_leaves m') f comps comps' ->
  (forall y, node (m_parents m') y -> vget t' y = vget t (f y)) /\
  forall p x x', h_best (RP P) t m p = Ok x -> h_best (RP P) t' m' p = Ok x' -> (exists y, In y (map hp_h (hn_parts x)) /\ below (m_parents m) y h) ->
    forall y, node (m_parents m') y -> (In y (map hp_h (hn_parts x')) <-> In (f y) (map hp_h (hn_parts x))).
Proof.
  intros P v v' comps comps' f h t t' m m' D D' Et Et' St Sd. unfold h_table in Et, Et'. cbn [bind] in Et, Et'.
  destruct (h_compute_prf P v comps D) as (t1 & E & T). destruct (h_compute_prf P v' _ D') as (t1' & E' & T').
  rewrite E in Et. rewrite E' in Et'. cbn [bind hq_table hq_meta] in Et, Et'. inversion Et; inversion Et'; subst t1 t1' m m'. clear Et Et' E E'.
  destruct D as (_ & W & H2 & _). destruct D' as (_ & W' & H2' & _). set (m := hv_meta v) in *. set (m' := hv_meta v') in *.
  assert (Pc : forall y, 0 <= y < m_hsize m' -> hgain m' comps' y = hgain m comps (f y) /\ hloss m' comps' y = hloss m comps (f y)).
  { intros y Hy. assert (Q : forall c c' : list R, (forall z, leaf (m_leaves m') z -> elt 0%R c' z = elt 0%R c (f z)) -> Permutation (hcells m' c' y) (hcells m c (f y))).
    { intros c c' Hc. unfold hcells. rewrite <- (Permutation_map (elt 0%R c) (z_leaves m m' f W W' h St y Hy)). rewrite map_map.
      rewrite (map_ext_in _ (fun z => elt 0%R c (f z))); [reflexivity|]. intros z Iz. apply (lv_In m' W') in Iz. apply Hc. exact (proj1 Iz). }
    unfold hgain, hloss. split; eapply Forall2_Rsum; try exact Sd; intros c c' Hc; [apply gain_perm|apply loss_perm]; apply Q; exact Hc. }
  assert (Tn : forall y, node (m_parents m') y -> vget t' y = vget t (f y)).
  { intros y Ny. pose proof (proj1 (wb_node_iff m' W' y) Ny) as Hy. rewrite (proj2 T' y Hy). rewrite (proj2 T (f y)) by (eapply z_node; eauto). destruct (Pc y Hy) as [-> ->]. reflexivity. }
  split; [exact Tn|]. intros p x x' B B' Ex y Ny. pose proof (proj1 (wb_node_iff m' W' y) Ny) as Hy.
  set (q := fun i => @mkQ (RP P) (hgain m comps i) (hloss m comps i)).
  assert (U : vrepr t (m_hsize m) q) by (exact (htable_repr P m t comps T)).
  assert (U' : vrepr t' (m_hsize m') (fun i => q (f i))).
  { eapply vrepr_ext; [exact (htable_repr P m' t' comps' T')|]. intros i Hi. cbn beta. unfold q. destruct (Pc i Hi) as [-> ->]. reflexivity. }
  destruct (h_best_ok (RP P) m W H2 t _ p U) as (x1 & Tr & G & E1 & Ep & _ & _ & HT). destruct (h_best_ok (RP P) m' W' H2' t' _ p U') as (x1' & Tr' & G' & E1' & Ep' & _ & _ & HT').
  rewrite B in E1. rewrite B' in E1'. inversion E1; inversion E1'; subst x1 x1'. rewrite Ep, mkhpart_h in *. rewrite Ep', mkhpart_h in *.
  apply (z_parts (RP P) m m' f W W' H2 H2' h St q p Tr Tr' G G' HT HT'); [|exact Ex|exact Hy].
  intros z Hz Hk. rewrite !csum_tsum. rewrite (map_ext_in _ (fun c => Tr (f c))) by exact Hk. rewrite <- map_map. apply tsum_perm. apply Permutation_map. apply (z_kids m m' f W W' h St z Hz).
Qed.
Print Assumptions C98_hier_subtree.
