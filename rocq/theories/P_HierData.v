(** * Properties C11, C12, C16 and the hierarchical parts of C18, C28, C48, C49.

    [hq_compute A (hq_ofValues A v)] is HQualities(v).computeQualities(); [hdata_ok v comps] says that [v] is over a
    well-built hierarchy of at least two nodes and holds, for every component, the leaves' values [comps];
    [hgain m comps h], [hloss m comps h] are the gain and loss over the leaves below node [h] (SpecInfo/SpecData). *)
From Coq Require Import Reals Lra Lia.
From Verif Require Import Base BaseFacts Arith Quality Utm UtmProofs Hierarchy SpecTree SpecParts SpecInfo SpecData HierarchyFacts HierarchyProofs
  Values Qualities Partitions Partitioners TreePath HFacts CoverFacts InfoFacts OInfo DataFacts HQual HDataProofs DataCons HProofs ODataProofs Sim TreeDec P_OrderedData.

Lemma hdata_len : forall P (v : hvalues (RP P)) comps, hdata_ok v comps -> Forall (fun c : list R => vlen c = m_leaves (hv_meta v)) comps.
Proof.
  intros P v comps (Hv & W & H2 & Hc). pose proof (wb_L _ W) as HL.
  destruct (mmap_zrange (list R) _ _ comps [] Hv Hc) as (Lc & K & Ec). apply Forall_forall. intros c Hin.
  rewrite Ec in Hin. apply in_map_iff in Hin. destruct Hin as (k & <- & Hk). apply In_zrange in Hk. specialize (K k Hk). cbn beta in K.
  destruct (mmap_zrange R (fun h => hv_value v h k) (m_leaves (hv_meta v)) _ 0%R ltac:(lia) K) as (Ll & _). auto.
Qed.

(** ** C11 *)
Theorem C11_hier_qualities : forall P (v : hvalues (RP P)) comps, hdata_ok v comps ->
  exists t, hq_compute (RP P) (hq_ofValues (RP P) v) = Ok (mkHQ (RP P) (Some v) (Some t) (hv_meta v)) /\ htable t (hv_meta v) comps.
Proof. exact h_compute_prf. Qed.
Print Assumptions C11_hier_qualities.

(** From the user's nested vectors and parent vector: 1 to 4 dimensions, every tree with all leaves at the same depth. The
    components are the columns of the flattened rows. *)
Theorem C11_1d : forall P (d : list R) ps r, valid_tree (vlen d) ps r -> uniform_depth (vlen d) ps r -> 2 <= vlen ps ->
  exists v t m, hv1_of (RP P) d ps = Ok v /\ hq_compute (RP P) (hq_ofValues (RP P) v) = Ok (mkHQ (RP P) (Some v) (Some t) m) /\
    m_leaves m = vlen d /\ m_parents m = ps /\ htable t m [d].
Proof.
  intros P d ps r V U H2. destruct (hv1_data P ps r H2 d V U) as (v & E & (M1 & M2 & M3) & D).
  destruct (h_compute_prf P v _ D) as (t & Et & T). exists v, t, (hv_meta v). auto.
Qed.
Theorem C11_2d : forall P (d : list (list R)) ps r, valid_tree (vlen d) ps r -> uniform_depth (vlen d) ps r -> 2 <= vlen ps ->
  rect2 d (size2 d) ->
  exists v t m, hv2_of (RP P) d ps = Ok v /\ hq_compute (RP P) (hq_ofValues (RP P) v) = Ok (mkHQ (RP P) (Some v) (Some t) m) /\
    m_leaves m = vlen d /\ m_parents m = ps /\ htable t m (columns 0%R (size2 d) d).
Proof.
  intros P d ps r V U H2 Rd. destruct (hv2_data P ps r H2 d V U Rd) as (v & E & (M1 & M2 & M3) & D).
  destruct (h_compute_prf P v _ D) as (t & Et & T). exists v, t, (hv_meta v). auto.
Qed.
Theorem C11_3d : forall P (d : list (list (list R))) ps r, valid_tree (vlen d) ps r -> uniform_depth (vlen d) ps r -> 2 <= vlen ps ->
  rect3 d (size2 d) (size3 d) ->
  exists v t m, hv3_of (RP P) d ps = Ok v /\ hq_compute (RP P) (hq_ofValues (RP P) v) = Ok (mkHQ (RP P) (Some v) (Some t) m) /\
    m_leaves m = vlen d /\ m_parents m = ps /\ htable t m (columns 0%R (size2 d * size3 d) (map (@concat R) d)).
Proof.
  intros P d ps r V U H2 Rd. destruct (hv3_data P ps r H2 d V U Rd) as (v & E & (M1 & M2 & M3) & D).
  destruct (h_compute_prf P v _ D) as (t & Et & T). exists v, t, (hv_meta v). auto.
Qed.
Theorem C11_4d : forall P (d : list (list (list (list R)))) ps r, valid_tree (vlen d) ps r -> uniform_depth (vlen d) ps r -> 2 <= vlen ps ->
  rect4 d (size2 d) (size3 d) (size4 d) ->
  exists v t m, hv4_of (RP P) d ps = Ok v /\ hq_compute (RP P) (hq_ofValues (RP P) v) = Ok (mkHQ (RP P) (Some v) (Some t) m) /\
    m_leaves m = vlen d /\ m_parents m = ps /\
    htable t m (columns 0%R (size2 d * size3 d * size4 d) (map (fun x => concat (concat x)) d)).
Proof.
  intros P d ps r V U H2 Rd. destruct (hv4_data P ps r H2 d V U Rd) as (v & E & (M1 & M2 & M3) & D).
  destruct (h_compute_prf P v _ D) as (t & Et & T). exists v, t, (hv_meta v). auto.
Qed.
Print Assumptions C11_4d.

(** Leaves have gain and loss 0. *)
Theorem C11_leaves : forall P (v : hvalues (RP P)) comps o t h, hdata_ok v comps ->
  hq_compute (RP P) (hq_ofValues (RP P) v) = Ok o -> hq_table o = Some t -> 0 <= h < m_leaves (hv_meta v) ->
  vget t h = Ok (@mkQ (RP P) 0%R 0%R).
Proof.
  intros P v comps o t h D E Et Hh. destruct (h_compute_prf P v comps D) as (t' & E' & _ & T).
  rewrite E in E'. inversion E'; subst o. cbn in Et. inversion Et; subst t'. destruct D as (_ & W & _). pose proof (wb_L _ W).
  rewrite T by lia. destruct (hleaf_zero _ W comps h Hh) as [-> ->]. auto.
Qed.
Print Assumptions C11_leaves.

(** ** C12 *)
(** For non-negative data: both are >= 0, at least the sums over any set of nodes partitioning the node's leaves, and the
    root's are the largest of all partitions. *)
Theorem C12_hier_superadditive : forall P (v : hvalues (RP P)) comps o t h q, hdata_ok v comps -> Forall nonneg comps ->
  hq_compute (RP P) (hq_ofValues (RP P) v) = Ok o -> hq_table o = Some t ->
  0 <= h < m_hsize (hv_meta v) -> vget t h = Ok q ->
  (0 <= gain q)%R /\ (0 <= loss q)%R /\
  forall l ql, node_split (m_leaves (hv_meta v)) (m_parents (hv_meta v)) h l -> mmap (vget t) l = Ok ql ->
    (Rsum (@gain (RP P)) ql <= gain q)%R /\ (Rsum (@loss (RP P)) ql <= loss q)%R.
Proof.
  intros P v comps o t h q D NN E Et Hh Eq. destruct (h_compute_prf P v comps D) as (t' & E' & T).
  rewrite E in E'. inversion E'; subst o. cbn in Et. inversion Et; subst t'. pose proof (hdata_len P v comps D) as CL.
  destruct D as (_ & W & _). rewrite (proj2 T) in Eq by auto. inversion Eq; subst q. cbn [gain loss].
  split; [apply hgain_nonneg; auto|]. split; [apply hloss_nonneg; auto|]. intros l ql S El.
  assert (El' : mmap (vget t) l = Ok (map (fun h => @mkQ (RP P) (hgain (hv_meta v) comps h) (hloss (hv_meta v) comps h)) l)).
  { apply (mmap_vrepr _ t (m_hsize (hv_meta v))); [apply htable_repr; auto|]. intros y Hy. apply (wb_node_iff _ W). apply S; auto. }
  rewrite El in El'. inversion El'; subst ql. rewrite !Rsum_map. cbn [gain loss].
  apply (h_super _ W comps CL NN). apply node_split_perm; auto.
Qed.
Print Assumptions C12_hier_superadditive.

Theorem C12_root_largest : forall P (v : hvalues (RP P)) comps o t l ql q, hdata_ok v comps -> Forall nonneg comps ->
  hq_compute (RP P) (hq_ofValues (RP P) v) = Ok o -> hq_table o = Some t ->
  node_cover (m_leaves (hv_meta v)) (m_parents (hv_meta v)) l -> mmap (vget t) l = Ok ql ->
  vget t (m_root (hv_meta v)) = Ok q ->
  (Rsum (@gain (RP P)) ql <= gain q)%R /\ (Rsum (@loss (RP P)) ql <= loss q)%R.
Proof.
  intros P v comps o t l ql q D NN E Et C El Eq. pose proof D as (_ & W & _).
  destruct (C12_hier_superadditive P v comps o t (m_root (hv_meta v)) q D NN E Et (root_node _ W) Eq) as (_ & _ & K).
  apply (K l ql); auto. apply node_cover_split; auto.
Qed.
Print Assumptions C12_root_largest.

(** As C10: the loss of a node is 0 exactly when every component is constant on its leaves. *)
Theorem C12_hier_zero_loss : forall P (v : hvalues (RP P)) comps o t h q, hdata_ok v comps -> Forall nonneg comps ->
  hq_compute (RP P) (hq_ofValues (RP P) v) = Ok o -> hq_table o = Some t ->
  0 <= h < m_hsize (hv_meta v) -> vget t h = Ok q ->
  (loss q = 0%R <-> forall c x y, In c comps -> leaf (m_leaves (hv_meta v)) x -> leaf (m_leaves (hv_meta v)) y ->
     below (m_parents (hv_meta v)) x h -> below (m_parents (hv_meta v)) y h -> elt 0%R c x = elt 0%R c y).
Proof.
  intros P v comps o t h q D NN E Et Hh Eq. destruct (h_compute_prf P v comps D) as (t' & E' & T).
  rewrite E in E'. inversion E'; subst o. cbn in Et. inversion Et; subst t'. pose proof (hdata_len P v comps D) as CL.
  destruct D as (_ & W & _). rewrite (proj2 T) in Eq by auto. inversion Eq; subst q. cbn [loss].
  rewrite (hloss_zero _ W comps CL NN h). split.
  - intros K c x y Hc Lx Ly Bx By. apply K; auto; apply (lv_In _ W); auto.
  - intros K c x y Hc Hx Hy. apply (lv_In _ W) in Hx. apply (lv_In _ W) in Hy. destruct Hx, Hy. apply K; auto.
Qed.
Print Assumptions C12_hier_zero_loss.

(** ** C16 *)
(** Any arithmetic: nodes up to the root's index are divided by the root's quality before the call, nodes after it by the
    already normalised root's quality (root/root). *)
Theorem C16_hier_divides : forall A v (t : list (quality A)) m mx, well_built m -> vlen t = m_hsize m -> vget t (m_root m) = Ok mx ->
  exists t', hq_normalize A (mkHQ A v (Some t) m) = Ok (mkHQ A v (Some t') m) /\ vlen t' = m_hsize m /\
    (forall h q, 0 <= h <= m_root m -> vget t h = Ok q ->
       vget t' h = Ok (mkQ (n_div A (gain q) (gain mx)) (n_div A (loss q) (loss mx)))) /\
    (forall h q, m_root m < h < m_hsize m -> vget t h = Ok q ->
       vget t' h = Ok (mkQ (n_div A (gain q) (n_div A (gain mx) (gain mx))) (n_div A (loss q) (n_div A (loss mx) (loss mx))))).
Proof. exact h_normalize_prf. Qed.
Print Assumptions C16_hier_divides.

(** So with a non-zero root: everything is divided by the root's when the root is the last node, and nodes with a larger
    index keep their quality otherwise. *)
Theorem C16_hier_root_last : forall A v (t : list (quality A)) m mx, well_built m -> m_root m = m_hsize m - 1 -> vlen t = m_hsize m ->
  vget t (m_root m) = Ok mx ->
  exists t', hq_normalize A (mkHQ A v (Some t) m) = Ok (mkHQ A v (Some t') m) /\ vlen t' = m_hsize m /\
    forall h q, 0 <= h < m_hsize m -> vget t h = Ok q ->
       vget t' h = Ok (mkQ (n_div A (gain q) (gain mx)) (n_div A (loss q) (loss mx))).
Proof.
  intros A v t m mx W Er Ht Em. destruct (h_normalize_prf A v t m mx W Ht Em) as (t' & E & L' & K & _).
  exists t'. split; auto. split; auto. intros h q Hh. apply K. lia.
Qed.
Print Assumptions C16_hier_root_last.

Theorem C16_hier_after_root : forall P v (t : list (quality (RP P))) m mx o t' h q, well_built m -> vlen t = m_hsize m ->
  vget t (m_root m) = Ok mx -> gain mx <> 0%R -> loss mx <> 0%R ->
  hq_normalize (RP P) (mkHQ (RP P) v (Some t) m) = Ok o -> hq_table o = Some t' ->
  m_root m < h < m_hsize m -> vget t h = Ok q -> vget t' h = Ok q.
Proof.
  intros P v t m mx o t' h q W Ht Em G0 L0 E Et Hh Eq. destruct (h_normalize_prf (RP P) v t m mx W Ht Em) as (t2 & E2 & _ & _ & K).
  rewrite E in E2. inversion E2; subst o. cbn in Et. inversion Et; subst t2. rewrite (K h q Hh Eq). destruct q as [g l]. cbn [gain loss].
  f_equal. change (n_div (RP P)) with Rdiv. f_equal; unfold Rdiv; rewrite Rinv_r by auto; rewrite Rinv_1; apply Rmult_1_r.
Qed.
Print Assumptions C16_hier_after_root.

(** Data with non-zero root gain and loss and the root last: everything in [0,1] and the root is (1,1). *)
Theorem C16_hier_range : forall P (v : hvalues (RP P)) comps o o', hdata_ok v comps -> Forall nonneg comps ->
  m_root (hv_meta v) = m_hsize (hv_meta v) - 1 ->
  hgain (hv_meta v) comps (m_root (hv_meta v)) <> 0%R -> hloss (hv_meta v) comps (m_root (hv_meta v)) <> 0%R ->
  hq_compute (RP P) (hq_ofValues (RP P) v) = Ok o -> hq_normalize (RP P) o = Ok o' ->
  exists t, hq_table o' = Some t /\ vget t (m_root (hv_meta v)) = Ok (@mkQ (RP P) 1%R 1%R) /\
    forall h, 0 <= h < m_hsize (hv_meta v) -> exists q, vget t h = Ok q /\ (0 <= gain q <= 1)%R /\ (0 <= loss q <= 1)%R.
Proof.
  intros P v comps o o' D NN Er G0 L0 E E'. destruct (h_compute_prf P v comps D) as (t1 & E1 & T).
  rewrite E in E1. inversion E1; subst o. pose proof (hdata_len P v comps D) as CL. destruct D as (_ & W & _).
  pose proof (root_node _ W) as Hr.
  destruct (C16_hier_root_last (RP P) (Some v) t1 _ _ W Er (proj1 T) (proj2 T _ Hr)) as (t2 & E2 & L2 & K).
  rewrite E' in E2. inversion E2; subst o'. exists t2. split; auto. cbn [gain loss] in K. split.
  - rewrite (K _ _ Hr (proj2 T _ Hr)). cbn [gain loss]. change (n_div (RP P)) with Rdiv. unfold Rdiv. rewrite !Rinv_r by auto. auto.
  - intros h Hh. eexists. split; [apply (K _ _ Hh (proj2 T _ Hh))|]. cbn [gain loss]. change (n_div (RP P)) with Rdiv.
    destruct (h_part_whole _ W comps CL NN h) as [K1 K2].
    split; apply ratio_range; auto; split; auto; [apply hgain_nonneg|apply hloss_nonneg]; auto.
Qed.
Print Assumptions C16_hier_range.

(** ** C18 *)
Theorem C18_hier : forall P v (t : list (quality (RP P))) m mx o, well_built m -> vlen t = m_hsize m -> vget t (m_root m) = Ok mx ->
  gain mx <> 0%R -> loss mx <> 0%R ->
  hq_normalize (RP P) (mkHQ (RP P) v (Some t) m) = Ok o -> hq_normalize (RP P) o = Ok o.
Proof.
  intros P v t m mx o W Ht Em G0 L0 E. pose proof (root_node m W) as Hr.
  destruct (h_normalize_prf (RP P) v t m mx W Ht Em) as (t1 & E1 & L1 & K1 & K1').
  rewrite E in E1. inversion E1; subst o. pose proof (K1 _ _ ltac:(split; [apply Hr|apply Z.le_refl]) Em) as Er.
  change (n_div (RP P)) with Rdiv in *.
  assert (D1 : forall a : R, a <> 0%R -> (a / a = 1)%R) by (intros; unfold Rdiv; apply Rinv_r; auto).
  rewrite (D1 (gain mx) G0), (D1 (loss mx) L0) in *.
  destruct (h_normalize_prf (RP P) v t1 m _ W L1 Er) as (t2 & E2 & L2 & K2 & K2'). rewrite E2. do 3 f_equal.
  cbn [gain loss] in *. change (n_div (RP P)) with Rdiv in *.
  apply (nth_ext _ _ (q_zero (RP P)) (q_zero (RP P))). { unfold vlen in *; lia. }
  intros i Hi. assert (Hz : 0 <= Z.of_nat i < m_hsize m) by (unfold vlen in *; lia).
  pose proof (elt_vget _ (q_zero (RP P)) t1 (Z.of_nat i) ltac:(lia)) as X1. pose proof (elt_vget _ (q_zero (RP P)) t2 (Z.of_nat i) ltac:(lia)) as X2.
  unfold elt in X1, X2. rewrite Nat2Z.id in X1, X2.
  assert (X : vget t2 (Z.of_nat i) = Ok (nth i t1 (q_zero (RP P)))).
  { destruct (Z_le_gt_dec (Z.of_nat i) (m_root m)) as [Hle|Hgt].
    - rewrite (K2 (Z.of_nat i) _ ltac:(lia) X1). destruct (nth i t1 (q_zero (RP P))) as [g l]. cbn [gain loss]. do 2 f_equal; unfold Rdiv; rewrite Rinv_1; apply Rmult_1_r.
    - rewrite (K2' (Z.of_nat i) _ ltac:(lia) X1). destruct (nth i t1 (q_zero (RP P))) as [g l]. cbn [gain loss].
      rewrite (D1 1%R R1_neq_R0). do 2 f_equal; unfold Rdiv; rewrite Rinv_1; apply Rmult_1_r. }
  rewrite X in X2. inversion X2. auto.
Qed.
Print Assumptions C18_hier.

(** ** C28 *)
Theorem C28_hier_p0 : forall (v : hvalues RA) comps o t x, hdata_ok v comps -> Forall nonneg comps ->
  hq_compute RA (hq_ofValues RA v) = Ok o -> hq_table o = Some t -> h_best RA t (hv_meta v) 0%R = Ok x ->
  loss (hn_quality x) = 0%R.
Proof.
  intros v comps o t x D NN E Et Ex. change RA with (RP Rpar) in *. destruct (h_compute_prf Rpar v comps D) as (t' & E' & T).
  rewrite E in E'. inversion E'; subst o. cbn in Et. inversion Et; subst t'. pose proof (hdata_len _ v comps D) as CL. destruct D as (_ & W & H2 & _).
  eapply (h_extreme0 Rpar _ W H2 t); [apply htable_repr; eauto|exact Ex|reflexivity|cbn; lra| |].
  - intros; apply hloss_nonneg; auto.
  - intros; apply (hleaf_zero _ W); auto.
Qed.
Print Assumptions C28_hier_p0.

Theorem C28_hier_p1 : forall (v : hvalues RA) comps o t x, hdata_ok v comps -> Forall nonneg comps ->
  hq_compute RA (hq_ofValues RA v) = Ok o -> hq_table o = Some t -> h_best RA t (hv_meta v) 1%R = Ok x ->
  gain (hn_quality x) = hgain (hv_meta v) comps (m_root (hv_meta v)).
Proof.
  intros v comps o t x D NN E Et Ex. change RA with (RP Rpar) in *. destruct (h_compute_prf Rpar v comps D) as (t' & E' & T).
  rewrite E in E'. inversion E'; subst o. cbn in Et. inversion Et; subst t'. pose proof (hdata_len _ v comps D) as CL. destruct D as (_ & W & H2 & _).
  apply (h_extreme1 Rpar _ W H2 t _ _ 1%R x (htable_repr Rpar _ t comps T) Ex); [reflexivity|cbn; lra|].
  intros l C. apply (h_super _ W comps CL NN). apply node_split_perm; auto; [apply root_node; auto|apply node_cover_split; auto].
Qed.
Print Assumptions C28_hier_p1.

(** ** C48 *)
Theorem C48_hier_history : forall A (v : hvalues A) calls o,
  mfold (fun c o => match c with Compute => hq_compute A o | Normalize => hq_normalize A o end) calls (hq_ofValues A v) = Ok o ->
  hq_compute A o = hq_compute A (hq_ofValues A v).
Proof. exact hq_history_prf. Qed.
Print Assumptions C48_hier_history.

(** On a ready-made table computeQualities() does nothing; normalize() before computing dereferences null. *)
Theorem C48_hier_table : forall A (t : list (quality A)) m (v : hvalues A),
  hq_compute A (hq_ofTable A t m) = Ok (hq_ofTable A t m) /\ hq_normalize A (hq_ofValues A v) = UB.
Proof. intros; repeat split. Qed.
Print Assumptions C48_hier_table.

(** ** C49 *)
Theorem C49_hier : forall P (v v' : hvalues (RP P)) comps c o o' t t', (0 < c)%R -> Forall nonneg comps ->
  hdata_ok v comps -> hdata_ok v' (scaled c comps) -> hv_meta v' = hv_meta v ->
  hq_compute (RP P) (hq_ofValues (RP P) v) = Ok o -> hq_compute (RP P) (hq_ofValues (RP P) v') = Ok o' ->
  hq_table o = Some t -> hq_table o' = Some t' ->
  (* gains and losses are multiplied by c *)
  (forall h q, 0 <= h < m_hsize (hv_meta v) -> vget t h = Ok q -> vget t' h = Ok (@mkQ (RP P) (c * gain q)%R (c * loss q)%R)) /\
  (* same best partition for every parameter *)
  (forall p x x', h_best (RP P) t (hv_meta v) p = Ok x -> h_best (RP P) t' (hv_meta v) p = Ok x' ->
     map (fun q => (hp_h q, hp_size q)) (hn_parts x') = map (fun q => (hp_h q, hp_size q)) (hn_parts x)) /\
  (* same normalised table, when the root is the last node *)
  (m_root (hv_meta v) = m_hsize (hv_meta v) - 1 ->
   hgain (hv_meta v) comps (m_root (hv_meta v)) <> 0%R -> hloss (hv_meta v) comps (m_root (hv_meta v)) <> 0%R ->
   forall n n', hq_normalize (RP P) o = Ok n -> hq_normalize (RP P) o' = Ok n' -> hq_table n' = hq_table n).
Proof.
  intros P v v' comps c o o' t t' Hc NN D D' Em E E' Et Et'.
  destruct (h_compute_prf P v comps D) as (t1 & E1 & T1). destruct (h_compute_prf P v' _ D') as (t2 & E2 & T2).
  rewrite E in E1. rewrite E' in E2. inversion E1; inversion E2; subst o o'. cbn in Et, Et'. inversion Et; inversion Et'; subst t1 t2.
  pose proof (hdata_len P v comps D) as CL. destruct D as (_ & W & H2 & _). rewrite Em in *. set (m := hv_meta v) in *.
  assert (R1 : vrepr t (m_hsize m) (fun h => @mkQ (RP P) (hgain m comps h) (hloss m comps h))) by (apply htable_repr; auto).
  assert (R2 : vrepr t' (m_hsize m) (fun h => @mkQ (RP P) (c * hgain m comps h)%R (c * hloss m comps h)%R)).
  { eapply vrepr_ext; [apply htable_repr; exact T2|]. intros h Hh. cbn beta. destruct (hgain_scaled m W c comps h Hc NN CL) as [-> ->]. auto. }
  split; [|split].
  - intros h q Hh Eq. rewrite (vrepr_get _ _ _ _ h R1) in Eq by auto. inversion Eq; subst q. rewrite (vrepr_get _ _ _ _ h R2) by auto. auto.
  - intros p x x' Ex Ex'. exact (h_scaled_best P m W H2 t t' _ _ c p x x' Hc R1 R2 Ex Ex').
  - intros Er G0 L0 n n' N1 N2. pose proof (root_node m W) as Hr.
    destruct (C16_hier_root_last (RP P) (Some v) t m _ W Er (proj1 T1) (proj2 T1 _ Hr)) as (u1 & F1 & L1 & K1).
    destruct (C16_hier_root_last (RP P) (Some v') t' m _ W Er (proj1 R2) (vrepr_get _ _ _ _ _ R2 Hr)) as (u2 & F2 & L2 & K2).
    rewrite N1 in F1. rewrite N2 in F2. inversion F1; inversion F2; subst n n'. cbn [hq_table]. f_equal.
    apply (nth_ext _ _ (q_zero (RP P)) (q_zero (RP P))). { unfold vlen in *; lia. }
    intros i Hi. assert (Hz : 0 <= Z.of_nat i < m_hsize m) by (unfold vlen in *; lia).
    pose proof (elt_vget _ (q_zero (RP P)) u1 (Z.of_nat i) ltac:(lia)) as X1. pose proof (elt_vget _ (q_zero (RP P)) u2 (Z.of_nat i) ltac:(lia)) as X2.
    unfold elt in X1, X2. rewrite Nat2Z.id in X1, X2.
    rewrite (K1 _ _ Hz (vrepr_get _ _ _ _ _ R1 Hz)) in X1. rewrite (K2 _ _ Hz (vrepr_get _ _ _ _ _ R2 Hz)) in X2.
    cbn [gain loss] in X1, X2. change (n_div (RP P)) with Rdiv in *.
    assert (A1 : nth i u1 (q_zero (RP P)) = nth i u2 (q_zero (RP P))); [|auto].
    assert (Dv : forall a b : R, b <> 0%R -> (c * a / (c * b) = a / b)%R) by (intros; field; split; auto; lra).
    rewrite !Dv in X2 by auto. congruence.
Qed.
Print Assumptions C49_hier.

(** ** A concrete data set, over a hierarchy whose root (node 4) is not the last node: leaves 0,1 below node 5, leaves 2,3
    below node 6; two components, (1,1,1,1) and (2,0,2,0). *)
Definition exh_ps : list Z := [5; 5; 6; 6; -1; 4; 4].
Definition exh_d : list (list R) := [[1; 2]; [1; 0]; [1; 2]; [1; 0]]%R.
Definition exh_c : list (list R) := [[1; 1; 1; 1]; [2; 0; 2; 0]]%R.

Lemma exh_tree : valid_tree 4 exh_ps 4 /\ uniform_depth 4 exh_ps 4.
Proof. split; [apply valid_treeb_ok; reflexivity|apply (uniformb_ok 2); reflexivity]. Qed.

Example exh_data : exists v, hv2_of RA exh_d exh_ps = Ok v /\ m_root (hv_meta v) = 4 /\ m_hsize (hv_meta v) = 7 /\
  m_leaves (hv_meta v) = 4 /\ m_parents (hv_meta v) = exh_ps /\ hdata_ok v exh_c /\ Forall nonneg exh_c.
Proof.
  destruct exh_tree as [V U]. destruct (hv2_data Rpar exh_ps 4 ltac:(cbv; discriminate) exh_d V U ltac:(repeat constructor)) as (v & E & (M1 & M2 & M3) & D).
  exists v. split; auto. split; auto. assert (W : well_built (hv_meta v)) by apply D. split; [pose proof (wb_hsize _ W) as Eh; rewrite M2 in Eh; exact Eh|].
  split; auto. split; auto. split; [exact D|]. repeat constructor; lra.
Qed.

Lemma log2_4 : log2 4 = 2%R.
Proof. unfold log2. replace 4%R with (2 * 2)%R by ring. pose proof ln2_pos. rewrite ln_mult by lra. field. lra. Qed.

Ltac gain_tac := unfold gain_of, total, Rsum; cbn [map fold_right];
  repeat match goal with |- context [Rlt_dec ?a ?b] => destruct (Rlt_dec a b); try lra end; unfold xlog2;
  repeat match goal with |- context [Rlt_dec ?a ?b] => destruct (Rlt_dec a b); try lra end.

Lemma exh_values : gain_of [1; 1; 1; 1]%R = 8%R /\ gain_of [2; 0; 2; 0]%R = 4%R /\ gain_of [1; 1]%R = 2%R /\ gain_of [2; 0]%R = 0%R.
Proof.
  repeat split; gain_tac.
  - replace (1 + (1 + (1 + (1 + 0))))%R with 4%R by ring. rewrite log2_4, log2_1. ring.
  - replace (2 + (0 + (2 + (0 + 0))))%R with 4%R by ring. rewrite log2_4, log2_2. ring.
  - replace (1 + (1 + 0))%R with 2%R by ring. rewrite log2_2, log2_1. ring.
  - replace (2 + (0 + 0))%R with 2%R by ring. ring.
Qed.

Lemma exh_qualities : forall m, m_leaves m = 4 -> m_parents m = exh_ps ->
  hgain m exh_c 4 = 12%R /\ hloss m exh_c 4 = 4%R /\ hgain m exh_c 5 = 2%R /\ hloss m exh_c 5 = 2%R.
Proof.
  intros m EL EP. destruct exh_values as (G1 & G2 & G3 & G4). unfold hgain, hloss, hcells, loss_of. rewrite EL, EP.
  change (leavesof 4 exh_ps 4) with [0; 1; 2; 3]. change (leavesof 4 exh_ps 5) with [0; 1].
  unfold Rsum, exh_c. cbn [map fold_right]. unfold elt.
  change (Z.to_nat 0) with 0%nat. change (Z.to_nat 1) with 1%nat. change (Z.to_nat 2) with 2%nat. change (Z.to_nat 3) with 3%nat. cbn [nth].
  rewrite G1, G2, G3, G4. unfold vlen. cbn [length]. change (Z.of_nat 4) with 4. change (Z.of_nat 2) with 2. rewrite log2_4, log2_2.
  unfold total, Rsum. cbn [map fold_right]. repeat split; ring.
Qed.

(** C16: after computeQualities() and normalize(), node 5 keeps gain 2 and loss 2, although the root had gain 12 and loss 4
    and has become (1,1). *)
Theorem C16_hier_refuted : exists d ps r v o o' t, valid_tree (vlen d) ps r /\ uniform_depth (vlen d) ps r /\
  hv2_of RA d ps = Ok v /\ hq_compute RA (hq_ofValues RA v) = Ok o /\ hq_normalize RA o = Ok o' /\ hq_table o' = Some t /\
  (exists t0, hq_table o = Some t0 /\ vget t0 r = Ok (@mkQ RA 12%R 4%R) /\ vget t0 5 = Ok (@mkQ RA 2%R 2%R)) /\
  vget t r = Ok (@mkQ RA 1%R 1%R) /\ vget t 5 = Ok (@mkQ RA 2%R 2%R).
Proof.
  destruct exh_tree as [V U]. destruct exh_data as (v & E & Er & Eh & EL & EP & D & NN). change RA with (RP Rpar) in *. pose proof D as (_ & W & _).
  destruct (h_compute_prf Rpar v exh_c D) as (t0 & E0 & S0 & T0).
  destruct (exh_qualities (hv_meta v) EL EP) as (Q1 & Q2 & Q3 & Q4).
  pose proof (T0 4 ltac:(lia)) as K4. pose proof (T0 5 ltac:(lia)) as K5. rewrite Q1, Q2 in K4. rewrite Q3, Q4 in K5.
  assert (Em : vget t0 (m_root (hv_meta v)) = Ok (@mkQ (RP Rpar) 12%R 4%R)) by (rewrite Er; exact K4).
  destruct (h_normalize_prf (RP Rpar) (Some v) t0 _ _ W S0 Em) as (t & E1 & St & N1 & _).
  exists exh_d, exh_ps, 4, v, (mkHQ RA (Some v) (Some t0) (hv_meta v)), (mkHQ RA (Some v) (Some t) (hv_meta v)), t.
  split; auto. split; auto. split; auto. split; auto. split; auto. split; auto. split; [exists t0; auto|]. split.
  - rewrite (N1 4 _ ltac:(lia) K4). cbn [gain loss]. change (n_div (RP Rpar)) with Rdiv. unfold Rdiv. rewrite !Rinv_r by lra. reflexivity.
  - eapply (C16_hier_after_root Rpar (Some v) t0 (hv_meta v) _ _ t 5 _ W S0 Em); cbn [gain loss]; [lra|lra|exact E1|reflexivity|lia|exact K5].
Qed.
Print Assumptions C16_hier_refuted.

(** The hypotheses of the other theorems (root last, non-zero root) are met as well: leaves 0,1 below node 4, leaves 2,3 below
    node 5, root 6. *)
Example exh_root_last : exists v, hv2_of RA exh_d [4; 4; 5; 5; 6; 6; -1] = Ok v /\ hdata_ok v exh_c /\ Forall nonneg exh_c /\
  m_root (hv_meta v) = m_hsize (hv_meta v) - 1 /\
  hgain (hv_meta v) exh_c (m_root (hv_meta v)) <> 0%R /\ hloss (hv_meta v) exh_c (m_root (hv_meta v)) <> 0%R.
Proof.
  destruct tree4_prf as [V U]. destruct (hv2_data Rpar [4; 4; 5; 5; 6; 6; -1] 6 ltac:(cbv; discriminate) exh_d V U ltac:(repeat constructor)) as (v & E & (M1 & M2 & M3) & D).
  exists v. split; auto. assert (W : well_built (hv_meta v)) by apply D. split; [exact D|]. split; [repeat constructor; lra|].
  change RA with (RP Rpar). rewrite M3. split; [rewrite (wb_hsize _ W), M2; reflexivity|].
  destruct exh_values as (G1 & G2 & G3 & G4). unfold hgain, hloss, hcells, loss_of. rewrite M1, M2.
  change (leavesof (vlen exh_d) [4; 4; 5; 5; 6; 6; -1] 6) with [0; 1; 2; 3].
  unfold Rsum, exh_c. cbn [map fold_right]. unfold elt.
  change (Z.to_nat 0) with 0%nat. change (Z.to_nat 1) with 1%nat. change (Z.to_nat 2) with 2%nat. change (Z.to_nat 3) with 3%nat. cbn [nth].
  rewrite G1, G2. unfold vlen. cbn [length]. change (Z.of_nat 4) with 4. rewrite log2_4. unfold total, Rsum. cbn [map fold_right]. split; lra.
Qed.
