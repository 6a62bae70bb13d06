(** * Property C98, spatiotemporal: zooming into a part of the hierarchy and of the time.

    [subtree], [window_data] (SpecZoom): the hierarchy below a node, with the data of its leaves in an interval of time. *)
From Coq Require Import Reals Lra Lia Permutation.
From Verif Require Import Base BaseFacts Arith Quality Utm UtmFacts UtmProofs Hierarchy HierarchyFacts HierarchyProofs SpecTree SpecParts SpecInfo SpecData SpecSym SpecShape SpecZoom Values Qualities Partitions Partitioners
  TreeFacts TreePath CoverFacts InfoFacts DQual HFacts HReal LexR OInfo DataFacts DFacts DSel DProofs DDataProofs P_Rename ZoomFacts ZoomTree ZoomGrid.

Lemma skipn_add : forall X a b (l : list X), skipn a (skipn b l) = skipn (b + a)%nat l.
Proof. intros X a b. induction b as [|b IH]; intros l; [reflexivity|]. destruct l as [|x l]; [cbn; apply skipn_nil|]. cbn [skipn Nat.add]. apply IH. Qed.

Lemma slice_slice : forall X (r : list X) a b i j, 0 <= a -> 0 <= i <= j -> j <= b - a -> slice (slice r a b) i j = slice r (a + i) (a + j).
Proof.
  intros X r a b i j Ha Hi Hj. unfold slice. rewrite skipn_firstn_comm, firstn_firstn, skipn_add. f_equal; [lia|]. f_equal. lia.
Qed.

Theorem C98_spatio : forall P (v v' : dvalues (RP P)) comps comps' f h a b t t' m m', ddata_ok v comps -> ddata_ok v' comps' ->
  0 <= a -> b < dv_osize v -> dv_osize v' = b - a + 1 ->
  d_table (RP P) (Ok v) = Ok (Some t, m) -> d_table (RP P) (Ok v') = Ok (Some t', m') ->
  subtree (m_leaves m) (m_parents m) h (m_leaves m') (m_parents m') f -> window_data (m_leaves m') f a b comps comps' ->
  (forall y i j, node (m_parents m') y -> 0 <= i <= j -> j <= b - a -> exists q, mm_get t' y i j = Ok q /\ mm_get t (f y) (a + i) (a + j) = Ok q) /\
  forall p x x' e, b = dv_osize v - 1 -> d_best (RP P) t m p = Ok x -> d_best (RP P) t' m' p = Ok x' -> In (h, a, e) (map rect (dn_parts x)) ->
    forall y i j, node (m_parents m') y -> 0 <= i -> (In (y, i, j) (map rect (dn_parts x')) <-> In (f y, a + i, a + j) (map rect (dn_parts x))).
Proof.
  intros P v v' comps comps' f h a b t t' m m' D D' Ha Hb Eo Et Et' St Sd. unfold d_table in Et, Et'. cbn [bind] in Et, Et'.
  destruct (d_compute_prf P v comps D) as (t1 & E & T). destruct (d_compute_prf P v' _ D') as (t1' & E' & T').
  rewrite E in Et. rewrite E' in Et'. cbn [bind dq_table dq_meta] in Et, Et'. inversion Et; inversion Et'; subst t1 t1' m m'. clear Et Et' E E'.
  destruct D as (_ & Hn & W & H2 & _). destruct D' as (_ & Hn' & W' & H2' & _). set (m := dv_meta v) in *. set (m' := dv_meta v') in *. set (n := dv_osize v) in *. rewrite Eo in *.
  assert (Pc : forall y i j, 0 <= y < m_hsize m' -> 0 <= i <= j -> j <= b - a -> dgain m' comps' y i j = dgain m comps (f y) (a + i) (a + j) /\ dloss m' comps' y i j = dloss m comps (f y) (a + i) (a + j)).
  { intros y i j Hy Hi Hj.
    assert (Q : forall c c' : list (list R), (forall z, leaf (m_leaves m') z -> elt [] c' z = slice (elt [] c (f z)) a b) -> Permutation (dcells m' c' y i j) (dcells m c (f y) (a + i) (a + j))).
    { intros c c' Hc. unfold dcells. rewrite <- (z_leaves m m' f W W' h St y Hy).
      assert (Ll : forall z, In z (leavesof (m_leaves m') (m_parents m') y) -> leaf (m_leaves m') z) by (intros z Iz; apply (lv_In m' W') in Iz; exact (proj1 Iz)).
      clear Sd. induction (leavesof (m_leaves m') (m_parents m') y) as [|z l IH]; [reflexivity|]. cbn [flat_map map]. rewrite Hc by (apply Ll; left; reflexivity). rewrite slice_slice by lia.
      apply Permutation_app_head. apply IH. intros; apply Ll; right; assumption. }
    unfold dgain, dloss. split; eapply Forall2_Rsum; try exact Sd; intros c c' Hc; [apply gain_perm|apply loss_perm]; apply Q; exact Hc. }
  set (q := fun y i j => @mkQ (RP P) (dgain m comps y i j) (dloss m comps y i j)).
  assert (U : mrepr t (m_hsize m) n q) by (exact (dtable_repr P m n ltac:(lia) t comps T)).
  assert (U' : mrepr t' (m_hsize m') (b - a + 1) (fun y i j => q (f y) (a + i) (a + j))).
  { eapply mrepr_ext; [exact (dtable_repr P m' (b - a + 1) ltac:(lia) t' comps' T')|]. intros y i j Hy Hi Hj. cbn beta. unfold q. destruct (Pc y i j Hy Hi ltac:(lia)) as [-> ->]. reflexivity. }
  split.
  - intros y i j Ny Hi Hj. pose proof (proj1 (wb_node_iff m' W' y) Ny) as Hy. eexists. split; [apply (mrepr_get _ _ _ _ _ y i j U'); lia|].
    apply (mrepr_get _ _ _ _ _ (f y) (a + i) (a + j) U); [eapply z_node; eauto|lia|lia].
  - intros p x x' e Eb B B' Ie y i j Ny Hi. pose proof (proj1 (wb_node_iff m' W' y) Ny) as Hy. replace (b - a + 1) with (n - a) in * by lia.
    destruct (d_best_ok (RP P) m W t n q p U ltac:(lia)) as (x1 & C & Tr & E1 & OK & Ep & _ & _ & HT).
    destruct (d_best_ok (RP P) m' W' t' (n - a) _ p U' ltac:(lia)) as (x1' & C' & Tr' & E1' & OK' & Ep' & _ & _ & HT').
    rewrite B in E1. rewrite B' in E1'. inversion E1; inversion E1'; subst x1 x1'. rewrite Ep, rect_mkdpart in *. rewrite Ep', rect_mkdpart.
    apply (w_parts (RP P) m m' f W W' h St n a ltac:(lia) q p Tr Tr' C C' OK OK' HT HT') with (e := e); [|exact Ie|exact Hy|exact Hi].
    intros z k Hz Hk Hkk. rewrite !csum_tsum. rewrite (map_ext_in _ (fun c => Tr (f c) (a + k))) by exact Hkk. rewrite <- (map_map f (fun c => Tr c (a + k))). apply tsum_perm. apply Permutation_map. apply (z_kids m m' f W W' h St z Hz).
Qed.
Print Assumptions C98_spatio.
