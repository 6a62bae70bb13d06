(** * Property C97: types of events added up. Exact arithmetic, every kind of parameter.

    [add_rows], [add_comps], [multiples], [multiples2] (SpecTypes): the sum of a group of components; all components of a group
    are multiples of the same one. The data of [v] are the components of all the groups, those of [v'] one component per group. *)
From Coq Require Import Reals Lra Lia Permutation.
From Verif Require Import Base BaseFacts Arith Quality Utm UtmFacts UtmProofs Hierarchy HierarchyFacts SpecTree SpecParts SpecInfo SpecData SpecSym SpecShape SpecTypes Values Qualities Partitions Partitioners
  TreeFacts TreePath InfoFacts OQual HQual DQual OFacts LexR OInfo DataFacts DataCons NormFacts OReal OProofs HProofs DProofs ODataProofs HDataProofs DDataProofs P_Ordered P_Hier P_Spatio P_OrderedData P_HierData P_SpatioData P_Nested P_Shape P_Sym P_Rename TypesFacts TypesCells.

Lemma rows_ok : forall n rows, 0 <= n -> Forall (fun r : list R => vlen r = n) rows -> Forall nonneg rows -> Forall (row_ok (Z.to_nat n)) rows.
Proof.
  intros n rows Hn H N. apply Forall_forall. intros r I. split; [|exact (proj1 (Forall_forall _ _) N r I)]. pose proof (proj1 (Forall_forall _ _) H r I) as E. cbv beta in E. unfold vlen in E. lia.
Qed.
Lemma value_le : forall a b G G' L L' : R, (0 <= a)%R -> (0 <= b)%R -> (G <= G')%R -> (L' <= L)%R -> (a * G - b * L <= a * G' - b * L')%R.
Proof. intros. assert (a * G <= a * G')%R by (apply Rmult_le_compat_l; auto). assert (b * L' <= b * L)%R by (apply Rmult_le_compat_l; auto). lra. Qed.
Lemma no_better_le : forall a b G L G' L', no_better a b G L G' L' -> (a * G' - b * L' <= a * G - b * L)%R.
Proof. unfold no_better. intros. lra. Qed.

(** ** Ordered *)
Theorem C97_ordered : forall P (v v' : ovalues (RP P)) gs t t', let n := ov_osize v in
  odata_ok v (concat gs) -> Forall nonneg (concat gs) -> odata_ok v' (map (add_rows (Z.to_nat n)) gs) -> ov_osize v' = n ->
  o_table (RP P) v = Ok (Some t) -> o_table (RP P) v' = Ok (Some t') ->
  (forall i j, 0 <= i <= j -> j < n -> exists q q', u_get t i j = Ok q /\ u_get t' i j = Ok q' /\ (gain q <= gain q')%R /\ (loss q' <= loss q)%R) /\
  forall p x x', (0 <= pp_num P p)%R -> (0 <= pp_num P (pp_compl P p))%R -> o_best (RP P) t p = Ok x -> o_best (RP P) t' p = Ok x' ->
    (pp_num P p * gain (on_quality x) - pp_num P (pp_compl P p) * loss (on_quality x) <= pp_num P p * gain (on_quality x') - pp_num P (pp_compl P p) * loss (on_quality x'))%R.
Proof.
  intros P v v' gs t t' n D NN D' En Et Et'. destruct (o_compute_data P v _ D) as (t1 & E & T). destruct (o_compute_data P v' _ D') as (t1' & E' & T').
  unfold o_table in Et, Et'. rewrite E in Et. rewrite E' in Et'. cbn [bind oq_table] in Et, Et'. inversion Et; inversion Et'; subst t1 t1'. rewrite En in T'. fold n in T.
  pose proof (D_n P v _ D) as Hn. fold n in Hn. pose proof (rows_ok n _ (proj1 Hn) (D_len P v _ D) NN) as Ro.
  pose proof (fun i j => o_types (Z.to_nat n) gs i j Ro) as K. split.
  - intros i j Hi Hj. destruct (K i j) as (K1 & K2 & _). eexists _, _. split; [apply (proj2 T); assumption|]. split; [apply (proj2 T'); assumption|]. cbn [gain loss]. auto.
  - intros p x x' Pa Pb Ex Ex'. destruct (o_total P t n _ _ p x Hn (otable_repr P t n _ Hn T) Ex) as (Tl & -> & ->).
    eapply Rle_trans; [|apply no_better_le; exact (o_no_better P t' n _ _ p x' _ Hn (otable_repr P t' n _ Hn T') Ex' Tl)].
    apply value_le; auto; apply Rsum_le; intros ab _; apply K.
Qed.
Print Assumptions C97_ordered.

Theorem C97_ordered_multiples : forall P (v v' : ovalues (RP P)) gs, let n := ov_osize v in
  odata_ok v (concat gs) -> Forall nonneg (concat gs) -> odata_ok v' (map (add_rows (Z.to_nat n)) gs) -> ov_osize v' = n -> Forall multiples gs ->
  o_table (RP P) v = o_table (RP P) v' /\ o_ntable (RP P) v = o_ntable (RP P) v'.
Proof.
  intros P v v' gs n D NN D' En M. destruct (o_compute_data P v _ D) as (t & E & T). destruct (o_compute_data P v' _ D') as (t' & E' & T'). rewrite En in T'. fold n in T.
  pose proof (D_n P v _ D) as Hn. fold n in Hn. pose proof (rows_ok n _ (proj1 Hn) (D_len P v _ D) NN) as Ro.
  assert (Et : t = t').
  { eapply urepr_unique; [exact (otable_repr P _ _ _ Hn T)|]. eapply urepr_ext; [exact (otable_repr P _ _ _ Hn T')|]. intros i j _ _. cbn beta. destruct (o_types (Z.to_nat n) gs i j Ro) as (_ & _ & K). destruct (K M) as [-> ->]. reflexivity. }
  subst t'. apply (o_norm_same _ v v' t); auto.
Qed.
Print Assumptions C97_ordered_multiples.

(** ** Hierarchical *)
Theorem C97_hier : forall P (v v' : hvalues (RP P)) gs t t' m m', let L := m_leaves (hv_meta v) in
  hdata_ok v (concat gs) -> Forall nonneg (concat gs) -> hdata_ok v' (map (add_rows (Z.to_nat L)) gs) -> hv_meta v' = hv_meta v ->
  h_table (RP P) (Ok v) = Ok (Some t, m) -> h_table (RP P) (Ok v') = Ok (Some t', m') ->
  m' = m /\
  (forall h, 0 <= h < m_hsize m -> exists q q', vget t h = Ok q /\ vget t' h = Ok q' /\ (gain q <= gain q')%R /\ (loss q' <= loss q)%R) /\
  forall p x x', (0 <= pp_num P p)%R -> (0 <= pp_num P (pp_compl P p))%R -> h_best (RP P) t m p = Ok x -> h_best (RP P) t' m p = Ok x' ->
    (pp_num P p * gain (hn_quality x) - pp_num P (pp_compl P p) * loss (hn_quality x) <= pp_num P p * gain (hn_quality x') - pp_num P (pp_compl P p) * loss (hn_quality x'))%R.
Proof.
  intros P v v' gs t t' m m' L D NN D' En Et Et'. destruct (h_compute_prf P v _ D) as (t1 & E & T). destruct (h_compute_prf P v' _ D') as (t1' & E' & T').
  unfold h_table in Et, Et'. cbn [bind] in Et, Et'. rewrite E in Et. rewrite E' in Et'. cbn [bind hq_table hq_meta] in Et, Et'. inversion Et; inversion Et'; subst t1 t1' m m'. rewrite En in *.
  pose proof (hdata_len P v _ D) as CL. destruct D as (_ & W & H2 & _). pose proof (wb_L _ W) as HL.
  pose proof (rows_ok (m_leaves (hv_meta v)) (concat gs) ltac:(lia) CL NN) as Ro.
  pose proof (fun h => h_types (hv_meta v) gs h Ro) as K. cbv zeta in K. split; [reflexivity|]. split.
  - intros h Hh. destruct (K h) as (K1 & K2 & _). eexists _, _. split; [apply (proj2 T); assumption|]. split; [apply (proj2 T'); assumption|]. cbn [gain loss]. auto.
  - intros p x x' Pa Pb Ex Ex'. destruct (h_total P (hv_meta v) W H2 t _ _ p x (htable_repr P _ t _ T) Ex) as (Cv & -> & ->).
    set (l := map hp_h (hn_parts x)) in *.
    assert (Q : mmap (vget t') l = Ok (map (fun h => @mkQ (RP P) (hgain (hv_meta v) (map (add_rows (Z.to_nat L)) gs) h) (hloss (hv_meta v) (map (add_rows (Z.to_nat L)) gs) h)) l)).
    { assert (In' : forall h, In h l -> 0 <= h < m_hsize (hv_meta v)) by (intros h Ih; apply (wb_node_iff _ W); apply (proj1 (proj2 Cv)); exact Ih).
      clear Cv Ex. clearbody l. induction l as [|h l IH]; [reflexivity|]. cbn [mmap map]. rewrite (proj2 T' h (In' h (or_introl eq_refl))). cbn [bind].
      rewrite IH by (intros; apply In'; right; assumption). reflexivity. }
    destruct (h_optimal_prf (hv_meta v) W H2 P t' p x' l _ (proj1 T') Ex' Cv Q) as [O _]. rewrite !Rsum_map in O. cbn [gain loss] in O.
    eapply Rle_trans; [|exact O]. apply value_le; auto; apply Rsum_le; intros h _; apply K.
Qed.
Print Assumptions C97_hier.

Theorem C97_hier_multiples : forall P (v v' : hvalues (RP P)) gs, let L := m_leaves (hv_meta v) in
  hdata_ok v (concat gs) -> Forall nonneg (concat gs) -> hdata_ok v' (map (add_rows (Z.to_nat L)) gs) -> hv_meta v' = hv_meta v -> Forall multiples gs ->
  h_table (RP P) (Ok v) = h_table (RP P) (Ok v') /\ h_ntable (RP P) (Ok v) = h_ntable (RP P) (Ok v').
Proof.
  intros P v v' gs L D NN D' En M. destruct (h_compute_prf P v _ D) as (t & E & T). destruct (h_compute_prf P v' _ D') as (t' & E' & T').
  pose proof (hdata_len P v _ D) as CL. destruct D as (_ & W & H2 & _). pose proof (wb_L _ W) as HL.
  pose proof (rows_ok (m_leaves (hv_meta v)) (concat gs) ltac:(lia) CL NN) as Ro.
  assert (Et : t = t').
  { destruct T as [Lt T]. destruct T' as [Lt' T']. rewrite En in Lt', T'. apply vget_ext; [congruence|]. intros h Hh. rewrite Lt in Hh. rewrite T, T' by exact Hh.
    destruct (h_types (hv_meta v) gs h Ro) as (_ & _ & K). destruct (K M) as [-> ->]. reflexivity. }
  subst t'. apply (h_norm_same _ v v' t); auto.
Qed.
Print Assumptions C97_hier_multiples.

(** ** Spatiotemporal *)
Lemma comps_ok : forall (m : meta) n cs, 0 <= n -> Forall (comp_len m n) cs -> Forall (Forall nonneg) cs -> Forall (rect_ok (Z.to_nat (m_leaves m)) (Z.to_nat n)) cs.
Proof.
  intros m n cs Hn H N. apply Forall_forall. intros c I. destruct (proj1 (Forall_forall _ _) H c I) as [Lc Fc]. pose proof (proj1 (Forall_forall _ _) N c I) as Nc. split; [unfold vlen in Lc; lia|].
  apply Forall_forall. intros r J. split; [pose proof (proj1 (Forall_forall _ _) Fc r J) as Q; cbv beta in Q; unfold vlen in Q; lia|exact (proj1 (Forall_forall _ _) Nc r J)].
Qed.

Theorem C97_spatio : forall P (v v' : dvalues (RP P)) gs t t' m m', let L := m_leaves (dv_meta v) in let n := dv_osize v in
  ddata_ok v (concat gs) -> Forall (Forall nonneg) (concat gs) -> ddata_ok v' (map (add_comps (Z.to_nat L) (Z.to_nat n)) gs) -> dv_meta v' = dv_meta v -> dv_osize v' = n ->
  d_table (RP P) (Ok v) = Ok (Some t, m) -> d_table (RP P) (Ok v') = Ok (Some t', m') ->
  m' = m /\
  (forall h i j, 0 <= h < m_hsize m -> 0 <= i <= j -> j < n -> exists q q', mm_get t h i j = Ok q /\ mm_get t' h i j = Ok q' /\ (gain q <= gain q')%R /\ (loss q' <= loss q)%R) /\
  forall p x x', (0 <= pp_num P p)%R -> (0 <= pp_num P (pp_compl P p))%R -> d_best (RP P) t m p = Ok x -> d_best (RP P) t' m p = Ok x' ->
    (pp_num P p * gain (dn_quality x) - pp_num P (pp_compl P p) * loss (dn_quality x) <= pp_num P p * gain (dn_quality x') - pp_num P (pp_compl P p) * loss (dn_quality x'))%R.
Proof.
  intros P v v' gs t t' m m' L n D NN D' En Eo Et Et'. destruct (d_compute_prf P v _ D) as (t1 & E & T). destruct (d_compute_prf P v' _ D') as (t1' & E' & T').
  unfold d_table in Et, Et'. cbn [bind] in Et, Et'. rewrite E in Et. rewrite E' in Et'. cbn [bind dq_table dq_meta] in Et, Et'. inversion Et; inversion Et'; subst t1 t1' m m'. rewrite En, Eo in T'. fold n in T.
  pose proof (ddata_comp P v _ D) as CL. destruct D as (_ & Hn & W & H2 & _). fold n in Hn, CL.
  pose proof (comps_ok (dv_meta v) n (concat gs) ltac:(lia) CL NN) as Ro.
  pose proof (fun h i j => d_types (dv_meta v) (Z.to_nat n) gs h i j Ro) as K. cbv zeta in K. split; [exact En|]. split.
  - intros h i j Hh Hi Hj. destruct (K h i j) as (K1 & K2 & _). eexists _, _. split; [apply (proj2 (proj2 T)); assumption|]. split; [apply (proj2 (proj2 T')); assumption|]. cbn [gain loss]. auto.
  - intros p x x' Pa Pb Ex Ex'. pose proof (dtable_repr P _ _ Hn _ _ T) as U. pose proof (dtable_repr P _ _ Hn _ _ T') as U'.
    destruct (d_total P (dv_meta v) W n Hn _ _ t p x U Ex) as (Cv & -> & ->).
    destruct (d_cover_prf (dv_meta v) W (RP P) t n p Hn (proj1 T) (proj1 (proj2 T))) as (y & Ey & _ & _ & Nu & _). rewrite Ex in Ey. injection Ey as <-.
    eapply Rle_trans; [|apply no_better_le; exact (d_no_better P (dv_meta v) n _ _ t' p x' _ W Hn U' Ex' Cv Nu)].
    apply value_le; auto; apply Rsum_le; intros [[h i] j] _; apply K.
Qed.
Print Assumptions C97_spatio.

Theorem C97_spatio_multiples : forall P (v v' : dvalues (RP P)) gs, let L := m_leaves (dv_meta v) in let n := dv_osize v in
  ddata_ok v (concat gs) -> Forall (Forall nonneg) (concat gs) -> ddata_ok v' (map (add_comps (Z.to_nat L) (Z.to_nat n)) gs) -> dv_meta v' = dv_meta v -> dv_osize v' = n -> Forall multiples2 gs ->
  d_table (RP P) (Ok v) = d_table (RP P) (Ok v') /\ d_ntable (RP P) (Ok v) = d_ntable (RP P) (Ok v').
Proof.
  intros P v v' gs L n D NN D' En Eo M. destruct (d_compute_prf P v _ D) as (t & E & T). destruct (d_compute_prf P v' _ D') as (t' & E' & T'). rewrite En, Eo in T'. fold n in T.
  pose proof (ddata_comp P v _ D) as CL. destruct D as (_ & Hn & W & H2 & _). fold n in Hn, CL.
  pose proof (comps_ok (dv_meta v) n (concat gs) ltac:(lia) CL NN) as Ro.
  assert (Et : t = t').
  { eapply mrepr_unique; [exact (dtable_repr P _ _ Hn _ _ T)|]. eapply mrepr_ext; [exact (dtable_repr P _ _ Hn _ _ T')|]. intros h i j _ _ _. cbn beta.
    destruct (d_types (dv_meta v) (Z.to_nat n) gs h i j Ro) as (_ & _ & K). destruct (K M) as [-> ->]. reflexivity. }
  subst t'. apply (d_norm_same _ v v' t); auto.
Qed.
Print Assumptions C97_spatio_multiples.
