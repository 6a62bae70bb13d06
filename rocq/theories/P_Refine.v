(** * Property C100: more levels in the hierarchy never make the result worse.

    [more_levels] (SpecRefine): every node of the first hierarchy is a node of the second one, which may have others. *)
From Coq Require Import Reals Lra Lia List.
From Verif Require Import Base BaseFacts Arith Quality Utm UtmFacts UtmProofs Hierarchy HierarchyFacts HierarchyProofs SpecTree SpecParts SpecInfo SpecData SpecShape SpecRefine Values Qualities Partitions Partitioners
  TreeFacts TreePath CoverFacts InfoFacts HQual DQual HFacts LexR OInfo HProofs DSel DProofs DataFacts DataCons HDataProofs DDataProofs P_HierData P_Spatio P_SpatioData.

Lemma r_NoDup_map : forall X Y (f : X -> Y) l, (forall x y, In x l -> In y l -> f x = f y -> x = y) -> NoDup l -> NoDup (map f l).
Proof.
  intros X Y f l. induction l as [|x l IH]; intros H ND; cbn; constructor; inversion ND as [|? ? N1 N2]; subst.
  - intros I. apply in_map_iff in I. destruct I as (y & E & I). apply N1. rewrite <- (H y x); cbn; auto.
  - apply IH; auto. intros; apply H; cbn; auto.
Qed.

Section Ref.
Context (m m' : meta) (s : Z -> Z).
Hypothesis W : well_built m.
Hypothesis W' : well_built m'.
Hypothesis EL : m_leaves m' = m_leaves m.
Hypothesis Ml : more_levels (m_leaves m) (m_parents m) (m_parents m') s.

Lemma l_leaves : forall h, node (m_parents m) h -> leavesof (m_leaves m') (m_parents m') (s h) = leavesof (m_leaves m) (m_parents m) h.
Proof.
  intros h Nh. rewrite EL. unfold leavesof. apply filter_ext_in. intros x Ix. apply In_zrange in Ix.
  destruct (wb_rank m W) as [rk Hr]. destruct (wb_rank m' W') as [rk' Hr']. pose proof (vt_L _ _ _ (wb_tree m W)) as V1. pose proof (vt_L _ _ _ (wb_tree m' W')) as V2. rewrite EL in V2.
  assert (E : belowb (m_parents m') x (s h) = true <-> belowb (m_parents m) x h = true).
  { rewrite (belowb_true _ rk' Hr') by (unfold node; lia). rewrite (belowb_true _ rk Hr) by (unfold node; lia). apply (ml_below _ _ _ _ Ml); auto. }
  destruct (belowb (m_parents m') x (s h)), (belowb (m_parents m) x h); auto; [symmetry; apply E; auto|apply E; auto].
Qed.
Lemma l_has : forall h, node (m_parents m) h -> exists x, leaf (m_leaves m) x /\ below (m_parents m) x h.
Proof.
  intros h Nh. destruct (leavesof (m_leaves m) (m_parents m) h) as [|x xs] eqn:E; [exfalso; apply (lv_nonempty m W h); [apply (wb_node_iff m W); exact Nh|exact E]|].
  exists x. apply (lv_In m W). rewrite E. left. reflexivity.
Qed.

Lemma l_cover : forall l, node_cover (m_leaves m) (m_parents m) l -> node_cover (m_leaves m') (m_parents m') (map s l).
Proof.
  intros l (ND & N & C). rewrite EL. split; [|split].
  - apply r_NoDup_map; auto. intros y z Iy Iz E. destruct (l_has y (N y Iy)) as (x & Hx & B). destruct (C x Hx) as (h & _ & _ & U).
    rewrite (U y Iy B), (U z Iz); [reflexivity|]. apply (ml_below _ _ _ _ Ml); auto. rewrite <- E. apply (ml_below _ _ _ _ Ml); auto.
  - intros h I. apply in_map_iff in I. destruct I as (y & <- & I). apply (ml_node _ _ _ _ Ml); auto.
  - intros x Hx. destruct (C x Hx) as (h & I & B & U). exists (s h). split; [apply in_map, I|]. split; [apply (ml_below _ _ _ _ Ml); auto|].
    intros h' I' B'. apply in_map_iff in I'. destruct I' as (y & <- & I'). f_equal. apply U; auto. apply (ml_below _ _ _ _ Ml); auto.
Qed.

Definition named (r : Z * Z * Z) : Z * Z * Z := let '(h, i, j) := r in (s h, i, j).
Lemma l_rect : forall n l, rect_cover (m_leaves m) (m_parents m) n l -> never_up (m_leaves m) (m_parents m) l ->
  rect_cover (m_leaves m') (m_parents m') n (map named l) /\ never_up (m_leaves m') (m_parents m') (map named l).
Proof.
  intros n l (ND & N & C) NU. rewrite EL. split; [split; [|split]|].
  - apply r_NoDup_map; auto. intros [[y i] j] [[z i'] j'] Iy Iz E. cbn in E. injection E as E -> ->. destruct (N _ _ _ Iy) as (Ny & Hi & Hj). destruct (N _ _ _ Iz) as (Nz & _).
    destruct (l_has y Ny) as (x & Hx & B). destruct (C x i' Hx ltac:(lia)) as (h & a & b & _ & _ & _ & U).
    rewrite (U _ _ _ Iy B ltac:(lia)), (U _ _ _ Iz); [reflexivity| |lia]. apply (ml_below _ _ _ _ Ml); auto. rewrite <- E. apply (ml_below _ _ _ _ Ml); auto.
  - intros h a b I. apply in_map_iff in I. destruct I as ([[y i] j] & E & I). cbn in E. injection E as <- <- <-. destruct (N _ _ _ I) as (Ny & K). split; [apply (ml_node _ _ _ _ Ml); auto|exact K].
  - intros x o Hx Ho. destruct (C x o Hx Ho) as (h & a & b & I & B & K & U). destruct (N _ _ _ I) as (Nh & _). exists (s h), a, b. split; [apply (in_map named _ _ I)|].
    split; [apply (ml_below _ _ _ _ Ml); auto|]. split; [exact K|].
    intros h' a' b' I' B' K'. apply in_map_iff in I'. destruct I' as ([[y i] j] & E & I'). cbn in E. injection E as <- <- <-. destruct (N _ _ _ I') as (Ny & _).
    apply (ml_below _ _ _ _ Ml) in B'; auto. pose proof (U _ _ _ I' B' K') as Q. injection Q as -> -> ->. reflexivity.
  - intros x h a b h' a' b' Hx I I' B B' K. apply in_map_iff in I. destruct I as ([[y i] j] & E & I). cbn in E. injection E as <- <- <-. apply in_map_iff in I'. destruct I' as ([[z i'] j'] & E & I'). cbn in E. injection E as <- <- <-.
    destruct (N _ _ _ I) as (Ny & _). destruct (N _ _ _ I') as (Nz & _). apply (ml_mono _ _ _ _ Ml); auto. apply (NU x y i j z i' j'); auto; apply (ml_below _ _ _ _ Ml); auto.
Qed.
End Ref.

(** The common nodes have the same qualities, and at every parameter the result on the hierarchy with more levels is at least as good. *)
Theorem C100_hier : forall P (v v' : hvalues (RP P)) comps s t t' m m', hdata_ok v comps -> hdata_ok v' comps ->
  h_table (RP P) (Ok v) = Ok (Some t, m) -> h_table (RP P) (Ok v') = Ok (Some t', m') ->
  m_leaves m' = m_leaves m -> more_levels (m_leaves m) (m_parents m) (m_parents m') s ->
  (forall h, node (m_parents m) h -> vget t' (s h) = vget t h) /\
  forall p x x', h_best (RP P) t m p = Ok x -> h_best (RP P) t' m' p = Ok x' ->
    (pp_num P p * gain (hn_quality x) - pp_num P (pp_compl P p) * loss (hn_quality x) <=
     pp_num P p * gain (hn_quality x') - pp_num P (pp_compl P p) * loss (hn_quality x'))%R.
Proof.
  intros P v v' comps s t t' m m' D D' Et Et' EL Ml. unfold h_table in Et, Et'. cbn [bind] in Et, Et'.
  destruct (h_compute_prf P v comps D) as (t1 & E & T). destruct (h_compute_prf P v' comps D') as (t1' & E' & T').
  rewrite E in Et. rewrite E' in Et'. cbn [bind hq_table hq_meta] in Et, Et'. inversion Et; inversion Et'; subst t1 t1' m m'. clear Et Et' E E'.
  destruct D as (_ & W & H2 & _). destruct D' as (_ & W' & H2' & _). set (m := hv_meta v) in *. set (m' := hv_meta v') in *.
  assert (Gy : forall h, node (m_parents m) h -> hgain m' comps (s h) = hgain m comps h /\ hloss m' comps (s h) = hloss m comps h).
  { intros h Nh. unfold hgain, hloss, hcells. rewrite (l_leaves m m' s W W' EL Ml h Nh). auto. }
  pose proof (htable_repr P m t comps T) as U. pose proof (htable_repr P m' t' comps T') as U'. split.
  - intros h Nh. rewrite (proj2 U h) by (apply (wb_node_iff m W); exact Nh). rewrite (proj2 U' (s h)) by (apply (wb_node_iff m' W'); apply (ml_node _ _ _ _ Ml); exact Nh). destruct (Gy h Nh) as [-> ->]. reflexivity.
  - intros p x x' Ex Ex'. destruct (h_total P m W H2 t _ _ p x U Ex) as (C & G & Ls). remember (map hp_h (hn_parts x)) as l eqn:El.
    pose proof (h_value_le P m' W' H2' t' _ _ p x' _ U' Ex' (l_cover m m' s EL Ml W l C)) as K || pose proof (h_value_le P m' W' H2' t' _ _ p x' _ U' Ex' (l_cover m m' s W EL Ml l C)) as K.
    rewrite !Rsum_map in K. rewrite G, Ls.
    rewrite (Rsum_ext _ (fun h => hgain m' comps (s h)) (hgain m comps) l) in K by (intros h I; apply Gy, C, I).
    rewrite (Rsum_ext _ (fun h => hloss m' comps (s h)) (hloss m comps) l) in K by (intros h I; apply Gy, C, I). exact K.
Qed.
Print Assumptions C100_hier.

Theorem C100_spatio : forall P (v v' : dvalues (RP P)) comps s t t' m m', ddata_ok v comps -> ddata_ok v' comps -> dv_osize v' = dv_osize v ->
  d_table (RP P) (Ok v) = Ok (Some t, m) -> d_table (RP P) (Ok v') = Ok (Some t', m') ->
  m_leaves m' = m_leaves m -> more_levels (m_leaves m) (m_parents m) (m_parents m') s ->
  (forall h i j, node (m_parents m) h -> 0 <= i <= j -> j < dv_osize v -> mm_get t' (s h) i j = mm_get t h i j) /\
  forall p x x', d_best (RP P) t m p = Ok x -> d_best (RP P) t' m' p = Ok x' ->
    (pp_num P p * gain (dn_quality x) - pp_num P (pp_compl P p) * loss (dn_quality x) <=
     pp_num P p * gain (dn_quality x') - pp_num P (pp_compl P p) * loss (dn_quality x'))%R.
Proof.
  intros P v v' comps s t t' m m' D D' Eo Et Et' EL Ml. unfold d_table in Et, Et'. cbn [bind] in Et, Et'.
  destruct (d_compute_prf P v comps D) as (t1 & E & T). destruct (d_compute_prf P v' comps D') as (t1' & E' & T').
  rewrite E in Et. rewrite E' in Et'. cbn [bind dq_table dq_meta] in Et, Et'. inversion Et; inversion Et'; subst t1 t1' m m'. clear Et Et' E E'.
  destruct D as (_ & Hn & W & H2 & _). destruct D' as (_ & Hn' & W' & H2' & _). set (m := dv_meta v) in *. set (m' := dv_meta v') in *. rewrite Eo in *.
  assert (Gy : forall h i j, node (m_parents m) h -> dgain m' comps (s h) i j = dgain m comps h i j /\ dloss m' comps (s h) i j = dloss m comps h i j).
  { intros h i j Nh. unfold dgain, dloss, dcells. rewrite (l_leaves m m' s W W' EL Ml h Nh). auto. }
  pose proof (dtable_repr P m _ Hn t comps T) as U. pose proof (dtable_repr P m' _ Hn' t' comps T') as U'. split.
  - intros h i j Nh Hi Hj. rewrite (mrepr_get _ _ _ _ _ h i j U) by (try lia; apply (wb_node_iff m W); exact Nh).
    rewrite (mrepr_get _ _ _ _ _ (s h) i j U') by (try lia; apply (wb_node_iff m' W'); apply (ml_node _ _ _ _ Ml); exact Nh). destruct (Gy h i j Nh) as [-> ->]. reflexivity.
  - intros p x x' Ex Ex'. pose proof T as (S0 & F0 & _). destruct (d_cover_prf m W (RP P) t _ p Hn S0 F0) as (x1 & E1 & _ & C & NU & _). rewrite Ex in E1. inversion E1; subst x1.
    destruct (d_total P m W _ Hn _ _ t p x U Ex) as (_ & G & Ls). remember (map rect (dn_parts x)) as l eqn:El.
    destruct (l_rect m m' s W EL Ml _ l C NU) as [C' N'].
    pose proof (d_value_le P m' W' _ Hn' _ _ t' p x' _ U' Ex' C' N') as K. rewrite !Rsum_map in K. rewrite G, Ls.
    rewrite (Rsum_ext _ (fun y => un3 (dgain m' comps) (named s y)) (un3 (dgain m comps)) l) in K by (intros [[h i] j] I; cbn [un3 named]; apply Gy; exact (proj1 (proj1 (proj2 C) h i j I))).
    rewrite (Rsum_ext _ (fun y => un3 (dloss m' comps) (named s y)) (un3 (dloss m comps)) l) in K by (intros [[h i] j] I; cbn [un3 named]; apply Gy; exact (proj1 (proj1 (proj2 C) h i j I))). exact K.
Qed.
Print Assumptions C100_spatio.
