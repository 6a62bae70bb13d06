(** * Properties C13, C14, C17 and the spatiotemporal parts of C18, C28, C48, C49.

    [dq_compute A (dq_ofValues A v)] is DQualities(v).computeQualities(); [ddata_ok v comps] says that [v] is over a
    well-built hierarchy of at least two nodes and 1 to 65535 slices, and holds, for every component and leaf, the row [comps];
    [dgain m comps h i j], [dloss m comps h i j] are the gain and loss over the cells (leaf below [h]) x (slice in [i..j])
    (SpecInfo/SpecData). *)
From Coq Require Import Reals Lra Lia.
From Verif Require Import Base BaseFacts Arith Quality Utm UtmFacts UtmProofs Hierarchy SpecTree SpecParts SpecInfo SpecData HierarchyFacts HierarchyProofs
  Values Qualities Partitions Partitioners TreePath HFacts CoverFacts InfoFacts OInfo DataFacts NormFacts DQual DSel DProofs DDataProofs DataCons ODataProofs Sim TreeDec
  P_OrderedData P_HierData.

(** ** C13 *)
Theorem C13_spatio_qualities : forall P (v : dvalues (RP P)) comps, ddata_ok v comps ->
  exists t, dq_compute (RP P) (dq_ofValues (RP P) v) = Ok (mkDQ (RP P) (Some v) (Some t) (dv_meta v)) /\
    dtable t (dv_meta v) (dv_osize v) comps.
Proof. exact d_compute_prf. Qed.
Print Assumptions C13_spatio_qualities.

(** From the user's nested vectors and parent vector: 2 to 4 dimensions (first: leaf, last: slice). *)
Theorem C13_2d : forall P (d : list (list R)) ps r, valid_tree (vlen d) ps r -> uniform_depth (vlen d) ps r -> 2 <= vlen ps ->
  rect2 d (size2 d) -> 1 <= size2 d <= 65535 ->
  exists v t m, dv2_of (RP P) d ps = Ok v /\ dq_compute (RP P) (dq_ofValues (RP P) v) = Ok (mkDQ (RP P) (Some v) (Some t) m) /\
    m_leaves m = vlen d /\ m_parents m = ps /\ dtable t m (size2 d) [d].
Proof.
  intros P d ps r V U H2 Rd Hn. destruct (dv2_data P ps r H2 d V U Rd Hn) as (v & E & (M1 & M2 & M3) & En & D).
  destruct (d_compute_prf P v _ D) as (t & Et & T). exists v, t, (dv_meta v). rewrite En in T. auto.
Qed.
Theorem C13_3d : forall P (d : list (list (list R))) ps r, valid_tree (vlen d) ps r -> uniform_depth (vlen d) ps r -> 2 <= vlen ps ->
  rect3 d (size2 d) (size3 d) -> 1 <= size3 d <= 65535 ->
  exists v t m, dv3_of (RP P) d ps = Ok v /\ dq_compute (RP P) (dq_ofValues (RP P) v) = Ok (mkDQ (RP P) (Some v) (Some t) m) /\
    m_leaves m = vlen d /\ m_parents m = ps /\ dtable t m (size3 d) (columns [] (size2 d) d).
Proof.
  intros P d ps r V U H2 Rd Hn. destruct (dv3_data P ps r H2 d V U Rd Hn) as (v & E & (M1 & M2 & M3) & En & D).
  destruct (d_compute_prf P v _ D) as (t & Et & T). exists v, t, (dv_meta v). rewrite En in T. auto.
Qed.
Theorem C13_4d : forall P (d : list (list (list (list R)))) ps r, valid_tree (vlen d) ps r -> uniform_depth (vlen d) ps r -> 2 <= vlen ps ->
  rect4 d (size2 d) (size3 d) (size4 d) -> 1 <= size4 d <= 65535 ->
  exists v t m, dv4_of (RP P) d ps = Ok v /\ dq_compute (RP P) (dq_ofValues (RP P) v) = Ok (mkDQ (RP P) (Some v) (Some t) m) /\
    m_leaves m = vlen d /\ m_parents m = ps /\ dtable t m (size4 d) (columns [] (size2 d * size3 d) (map (@concat (list R)) d)).
Proof.
  intros P d ps r V U H2 Rd Hn. destruct (dv4_data P ps r H2 d V U Rd Hn) as (v & E & (M1 & M2 & M3) & En & D).
  destruct (d_compute_prf P v _ D) as (t & Et & T). exists v, t, (dv_meta v). rewrite En in T. auto.
Qed.
Print Assumptions C13_4d.

(** Cells over one leaf and one slice have gain and loss 0. *)
Theorem C13_single : forall P (v : dvalues (RP P)) comps o t h i, ddata_ok v comps ->
  dq_compute (RP P) (dq_ofValues (RP P) v) = Ok o -> dq_table o = Some t -> 0 <= h < m_leaves (dv_meta v) -> 0 <= i < dv_osize v ->
  mm_get t h i i = Ok (@mkQ (RP P) 0%R 0%R).
Proof.
  intros P v comps o t h i D E Et Hh Hi. destruct (d_compute_prf P v comps D) as (t' & E' & _ & _ & T).
  rewrite E in E'. inversion E'; subst o. cbn in Et. inversion Et; subst t'. pose proof (ddata_comp P v comps D) as CL. destruct D as (_ & _ & W & _). pose proof (wb_L _ W).
  rewrite T by lia. destruct (dsingle_zero _ W _ comps h i CL Hh Hi) as [-> ->]. auto.
Qed.
Print Assumptions C13_single.

(** ** C14 *)
Theorem C14_spatio_superadditive : forall P (v : dvalues (RP P)) comps o t h i j q, ddata_ok v comps -> Forall (Forall nonneg) comps ->
  dq_compute (RP P) (dq_ofValues (RP P) v) = Ok o -> dq_table o = Some t ->
  0 <= h < m_hsize (dv_meta v) -> 0 <= i <= j -> j < dv_osize v -> mm_get t h i j = Ok q ->
  (0 <= gain q)%R /\ (0 <= loss q)%R /\
  forall l ql, rect_split (m_leaves (dv_meta v)) (m_parents (dv_meta v)) h i j l -> mmap (fun '(h, a, b) => mm_get t h a b) l = Ok ql ->
    (Rsum (@gain (RP P)) ql <= gain q)%R /\ (Rsum (@loss (RP P)) ql <= loss q)%R.
Proof.
  intros P v comps o t h i j q D NN E Et Hh Hi Hj Eq. destruct (d_compute_prf P v comps D) as (t' & E' & T).
  rewrite E in E'. inversion E'; subst o. cbn in Et. inversion Et; subst t'. pose proof (ddata_comp P v comps D) as CL.
  destruct D as (_ & Hn & W & _). rewrite (proj2 (proj2 T)) in Eq by auto. inversion Eq; subst q. cbn [gain loss].
  split; [apply (dgain_nonneg _ W _ _ CL NN); auto|]. split; [apply (dloss_nonneg _ W _ _ CL NN); auto|]. intros l ql S El.
  assert (Hl : forall y a b, In (y, a, b) l -> 0 <= y < m_hsize (dv_meta v) /\ 0 <= a <= b /\ b < dv_osize v).
  { intros y a b Hy. destruct S as (_ & S & _). destruct (S _ _ _ Hy) as (S1 & _ & S2 & S3). split; [apply (wb_node_iff _ W); auto|lia]. }
  assert (El' := mmap_mrepr (RP P) t (m_hsize (dv_meta v)) (dv_osize v) _ l (dtable_repr P _ _ Hn t comps T) Hl).
  rewrite El in El'. inversion El'; subst ql. rewrite !Rsum_map.
  rewrite (Rsum_ext _ (fun x => gain (q3 (RP P) _ x)) (un3 (dgain (dv_meta v) comps))) by (intros [[a b] c] _; reflexivity).
  rewrite (Rsum_ext _ (fun x => loss (q3 (RP P) _ x)) (un3 (dloss (dv_meta v) comps))) by (intros [[a b] c] _; reflexivity).
  apply (d_super _ W _ comps CL NN); auto; [apply rect_split_perm; auto|]. intros; eapply Hl; eauto.
Qed.
Print Assumptions C14_spatio_superadditive.

Theorem C14_whole_largest : forall P (v : dvalues (RP P)) comps o t l ql q, ddata_ok v comps -> Forall (Forall nonneg) comps ->
  dq_compute (RP P) (dq_ofValues (RP P) v) = Ok o -> dq_table o = Some t ->
  rect_cover (m_leaves (dv_meta v)) (m_parents (dv_meta v)) (dv_osize v) l -> mmap (fun '(h, a, b) => mm_get t h a b) l = Ok ql ->
  mm_get t (m_root (dv_meta v)) 0 (dv_osize v - 1) = Ok q ->
  (Rsum (@gain (RP P)) ql <= gain q)%R /\ (Rsum (@loss (RP P)) ql <= loss q)%R.
Proof.
  intros P v comps o t l ql q D NN E Et C El Eq. pose proof D as (_ & Hn & W & _).
  destruct (C14_spatio_superadditive P v comps o t (m_root (dv_meta v)) 0 (dv_osize v - 1) q D NN E Et (root_node _ W) ltac:(lia) ltac:(lia) Eq) as (_ & _ & K).
  apply (K l ql); auto. apply rect_cover_split; auto.
Qed.
Print Assumptions C14_whole_largest.

(** The loss of a rectangle is 0 exactly when every component is constant on its cells. *)
Theorem C14_zero_loss : forall P (v : dvalues (RP P)) comps o t h i j q, ddata_ok v comps -> Forall (Forall nonneg) comps ->
  dq_compute (RP P) (dq_ofValues (RP P) v) = Ok o -> dq_table o = Some t ->
  0 <= h < m_hsize (dv_meta v) -> 0 <= i <= j -> j < dv_osize v -> mm_get t h i j = Ok q ->
  (loss q = 0%R <-> forall c x a y b, In c comps -> leaf (m_leaves (dv_meta v)) x -> leaf (m_leaves (dv_meta v)) y ->
     below (m_parents (dv_meta v)) x h -> below (m_parents (dv_meta v)) y h -> i <= a <= j -> i <= b <= j ->
     elt 0%R (elt [] c x) a = elt 0%R (elt [] c y) b).
Proof.
  intros P v comps o t h i j q D NN E Et Hh Hi Hj Eq. destruct (d_compute_prf P v comps D) as (t' & E' & T).
  rewrite E in E'. inversion E'; subst o. cbn in Et. inversion Et; subst t'. pose proof (ddata_comp P v comps D) as CL.
  destruct D as (_ & Hn & W & _). rewrite (proj2 (proj2 T)) in Eq by auto. inversion Eq; subst q. cbn [loss].
  rewrite (dloss_zero _ W _ comps CL NN h i j Hi Hj). unfold cval. cbn [fst snd]. split.
  - intros K c x a y b Hc Lx Ly Bx By Ha Hb. apply K; auto; apply (cl_In _ W); auto.
  - intros K c x a y b Hc Hx Hy. apply (cl_In _ W) in Hx. apply (cl_In _ W) in Hy. destruct Hx as [[]], Hy as [[]]. apply K; auto.
Qed.
Print Assumptions C14_zero_loss.

(** ** C17 *)
(** Any arithmetic: nodes up to the root's index are divided by the quality of (root, all slices) before the call, nodes
    after it by the already normalised one. *)
Theorem C17_spatio_divides : forall A (v : dvalues A) (t : list (utm (quality A))) m mx, well_built m -> 1 <= dv_osize v <= 65535 ->
  vlen t = m_hsize m -> Forall (fun u => utm_shape u (dv_osize v)) t -> mm_get t (m_root m) 0 (dv_osize v - 1) = Ok mx ->
  exists t', dq_normalize A (mkDQ A (Some v) (Some t) m) = Ok (mkDQ A (Some v) (Some t') m) /\ vlen t' = m_hsize m /\
    Forall (fun u => utm_shape u (dv_osize v)) t' /\
    (forall h i j q, 0 <= h <= m_root m -> 0 <= i <= j -> j < dv_osize v -> mm_get t h i j = Ok q ->
       mm_get t' h i j = Ok (mkQ (n_div A (gain q) (gain mx)) (n_div A (loss q) (loss mx)))) /\
    (forall h i j q, m_root m < h < m_hsize m -> 0 <= i <= j -> j < dv_osize v -> mm_get t h i j = Ok q ->
       mm_get t' h i j = Ok (mkQ (n_div A (gain q) (n_div A (gain mx) (gain mx))) (n_div A (loss q) (n_div A (loss mx) (loss mx))))).
Proof. exact d_normalize_prf. Qed.
Print Assumptions C17_spatio_divides.

Theorem C17_spatio_root_last : forall A (v : dvalues A) (t : list (utm (quality A))) m mx, well_built m -> m_root m = m_hsize m - 1 ->
  1 <= dv_osize v <= 65535 -> vlen t = m_hsize m -> Forall (fun u => utm_shape u (dv_osize v)) t ->
  mm_get t (m_root m) 0 (dv_osize v - 1) = Ok mx ->
  exists t', dq_normalize A (mkDQ A (Some v) (Some t) m) = Ok (mkDQ A (Some v) (Some t') m) /\ vlen t' = m_hsize m /\
    Forall (fun u => utm_shape u (dv_osize v)) t' /\
    forall h i j q, 0 <= h < m_hsize m -> 0 <= i <= j -> j < dv_osize v -> mm_get t h i j = Ok q ->
       mm_get t' h i j = Ok (mkQ (n_div A (gain q) (gain mx)) (n_div A (loss q) (loss mx))).
Proof.
  intros A v t m mx W Er Hn Ht F Em. destruct (d_normalize_prf A v t m mx W Hn Ht F Em) as (t' & E & L' & F' & K & _).
  exists t'. split; auto. split; auto. split; auto. intros h i j q Hh. apply K. lia.
Qed.
Print Assumptions C17_spatio_root_last.

Theorem C17_spatio_after_root : forall P (v : dvalues (RP P)) (t : list (utm (quality (RP P)))) m mx o t' h i j q, well_built m ->
  1 <= dv_osize v <= 65535 -> vlen t = m_hsize m -> Forall (fun u => utm_shape u (dv_osize v)) t ->
  mm_get t (m_root m) 0 (dv_osize v - 1) = Ok mx -> gain mx <> 0%R -> loss mx <> 0%R ->
  dq_normalize (RP P) (mkDQ (RP P) (Some v) (Some t) m) = Ok o -> dq_table o = Some t' ->
  m_root m < h < m_hsize m -> 0 <= i <= j -> j < dv_osize v -> mm_get t h i j = Ok q -> mm_get t' h i j = Ok q.
Proof.
  intros P v t m mx o t' h i j q W Hn Ht F Em G0 L0 E Et Hh Hi Hj Eq. destruct (d_normalize_prf (RP P) v t m mx W Hn Ht F Em) as (t2 & E2 & _ & _ & _ & K).
  rewrite E in E2. inversion E2; subst o. cbn in Et. inversion Et; subst t2. rewrite (K h i j q Hh Hi Hj Eq). destruct q as [g l]. cbn [gain loss].
  f_equal. change (n_div (RP P)) with Rdiv. f_equal; unfold Rdiv; rewrite Rinv_r by auto; rewrite Rinv_1; apply Rmult_1_r.
Qed.
Print Assumptions C17_spatio_after_root.

Theorem C17_spatio_range : forall P (v : dvalues (RP P)) comps o o', ddata_ok v comps -> Forall (Forall nonneg) comps ->
  m_root (dv_meta v) = m_hsize (dv_meta v) - 1 ->
  dgain (dv_meta v) comps (m_root (dv_meta v)) 0 (dv_osize v - 1) <> 0%R -> dloss (dv_meta v) comps (m_root (dv_meta v)) 0 (dv_osize v - 1) <> 0%R ->
  dq_compute (RP P) (dq_ofValues (RP P) v) = Ok o -> dq_normalize (RP P) o = Ok o' ->
  exists t, dq_table o' = Some t /\ mm_get t (m_root (dv_meta v)) 0 (dv_osize v - 1) = Ok (@mkQ (RP P) 1%R 1%R) /\
    forall h i j, 0 <= h < m_hsize (dv_meta v) -> 0 <= i <= j -> j < dv_osize v ->
      exists q, mm_get t h i j = Ok q /\ (0 <= gain q <= 1)%R /\ (0 <= loss q <= 1)%R.
Proof.
  intros P v comps o o' D NN Er G0 L0 E E'. destruct (d_compute_prf P v comps D) as (t1 & E1 & T1 & T2 & T3).
  rewrite E in E1. inversion E1; subst o. pose proof (ddata_comp P v comps D) as CL. destruct D as (_ & Hn & W & _).
  pose proof (root_node _ W) as Hr. assert (Tr := T3 (m_root (dv_meta v)) 0 (dv_osize v - 1) Hr ltac:(lia) ltac:(lia)).
  destruct (C17_spatio_root_last (RP P) v t1 _ _ W Er Hn T1 T2 Tr) as (t2 & E2 & L2 & F2 & K).
  rewrite E' in E2. inversion E2; subst o'. exists t2. split; auto. cbn [gain loss] in K. split.
  - rewrite (K (m_root (dv_meta v)) 0 (dv_osize v - 1) _ Hr ltac:(lia) ltac:(lia) Tr). cbn [gain loss]. change (n_div (RP P)) with Rdiv. unfold Rdiv. rewrite !Rinv_r by auto. auto.
  - intros h i j Hh Hi Hj. eexists. split; [apply (K _ _ _ _ Hh Hi Hj (T3 _ _ _ Hh Hi Hj))|]. cbn [gain loss]. change (n_div (RP P)) with Rdiv.
    destruct (d_part_whole _ W _ comps CL NN h i j Hi Hj) as [K1 K2].
    split; apply ratio_range; auto; split; auto; [apply (dgain_nonneg _ W _ _ CL NN)|apply (dloss_nonneg _ W _ _ CL NN)]; auto.
Qed.
Print Assumptions C17_spatio_range.

(** ** C18 *)
Theorem C18_spatio : forall P (v : dvalues (RP P)) (t : list (utm (quality (RP P)))) m mx o, well_built m -> 1 <= dv_osize v <= 65535 ->
  vlen t = m_hsize m -> Forall (fun u => utm_shape u (dv_osize v)) t ->
  mm_get t (m_root m) 0 (dv_osize v - 1) = Ok mx -> gain mx <> 0%R -> loss mx <> 0%R ->
  dq_normalize (RP P) (mkDQ (RP P) (Some v) (Some t) m) = Ok o -> dq_normalize (RP P) o = Ok o.
Proof.
  intros P v t m mx o W Hn Ht F Em G0 L0 E. pose proof (root_node m W) as Hr.
  pose proof (shape_mrepr _ t _ (dv_osize v) (q_zero (RP P)) ltac:(lia) Ht F) as R0.
  destruct (dq_normalize_ok (RP P) v t m _ R0 Hn Hr) as (t1 & E1 & R1). rewrite E in E1. inversion E1; subst o.
  destruct (dq_normalize_ok (RP P) v t1 m _ R1 Hn Hr) as (t2 & E2 & R2). rewrite E2. do 3 f_equal.
  refine (mrepr_unique _ t2 t1 _ _ _ R2 _). eapply mrepr_ext; [exact R1|]. intros h i j Hh Hi Hj. cbv beta.
  rewrite Em. rewrite Z.leb_refl. destruct mx as [g l]. cbn [gain loss] in G0, L0.
  generalize (match mm_get t h i j with Ok x => x | _ => q_zero (RP P) end). intros [a b].
  assert (D1 : forall a : R, a <> 0%R -> (a / a = 1)%R) by (intros; unfold Rdiv; apply Rinv_r; auto).
  assert (D2 : forall a : R, (a / 1 = a)%R) by (intros; unfold Rdiv; rewrite Rinv_1; apply Rmult_1_r).
  destruct (h <=? m_root m); unfold ndiv, q_div; cbn [gain loss]; change (n_div (RP P)) with Rdiv; rewrite ?(D1 g G0), ?(D1 l L0), ?(D1 1%R R1_neq_R0), ?D2; auto.
Qed.
Print Assumptions C18_spatio.

(** ** C28 *)
Theorem C28_spatio_p0 : forall (v : dvalues RA) comps o t x, ddata_ok v comps -> Forall (Forall nonneg) comps ->
  dq_compute RA (dq_ofValues RA v) = Ok o -> dq_table o = Some t -> d_best RA t (dv_meta v) 0%R = Ok x ->
  loss (dn_quality x) = 0%R.
Proof.
  intros v comps o t x D NN E Et Ex. change RA with (RP Rpar) in *. destruct (d_compute_prf Rpar v comps D) as (t' & E' & T).
  rewrite E in E'. inversion E'; subst o. cbn in Et. inversion Et; subst t'. pose proof (ddata_comp _ v comps D) as CL. destruct D as (_ & Hn & W & H2 & _).
  eapply (d_extreme0 Rpar _ W _ Hn _ _ t); [apply (dtable_repr Rpar _ _ Hn); eauto|exact Ex|reflexivity|cbn; lra| |].
  - intros; apply (dloss_nonneg _ W _ _ CL NN); auto.
  - intros; apply (dsingle_zero _ W _ _ _ _ CL); auto.
Qed.
Print Assumptions C28_spatio_p0.

Theorem C28_spatio_p1 : forall (v : dvalues RA) comps o t x, ddata_ok v comps -> Forall (Forall nonneg) comps ->
  dq_compute RA (dq_ofValues RA v) = Ok o -> dq_table o = Some t -> d_best RA t (dv_meta v) 1%R = Ok x ->
  gain (dn_quality x) = dgain (dv_meta v) comps (m_root (dv_meta v)) 0 (dv_osize v - 1).
Proof.
  intros v comps o t x D NN E Et Ex. change RA with (RP Rpar) in *. destruct (d_compute_prf Rpar v comps D) as (t' & E' & T).
  rewrite E in E'. inversion E'; subst o. cbn in Et. inversion Et; subst t'. pose proof (ddata_comp _ v comps D) as CL. destruct D as (_ & Hn & W & H2 & _).
  apply (d_extreme1 Rpar _ W _ Hn _ _ t 1%R x (dtable_repr Rpar _ _ Hn t comps T) Ex); [reflexivity|cbn; lra|].
  intros l C. apply (d_super _ W _ comps CL NN); try lia; [apply rect_split_perm; auto; apply rect_cover_split; auto|].
  intros y a b Hy. destruct C as (_ & C & _). apply (C _ _ _ Hy).
Qed.
Print Assumptions C28_spatio_p1.

(** ** C48 *)
Theorem C48_spatio_history : forall A (v : dvalues A) calls o,
  mfold (fun c o => match c with Compute => dq_compute A o | Normalize => dq_normalize A o end) calls (dq_ofValues A v) = Ok o ->
  dq_compute A o = dq_compute A (dq_ofValues A v).
Proof. exact dq_history_prf. Qed.
Print Assumptions C48_spatio_history.

Theorem C48_spatio_table : forall A (t : list (utm (quality A))) m (v : dvalues A),
  dq_compute A (dq_ofTable A t m) = Ok (dq_ofTable A t m) /\ dq_normalize A (dq_ofTable A t m) = UB /\ dq_normalize A (dq_ofValues A v) = UB.
Proof. intros; repeat split. Qed.
Print Assumptions C48_spatio_table.

(** ** C49 *)
Theorem C49_spatio : forall P (v v' : dvalues (RP P)) comps c o o' t t', (0 < c)%R -> Forall (Forall nonneg) comps ->
  ddata_ok v comps -> ddata_ok v' (map (scaled c) comps) -> dv_meta v' = dv_meta v -> dv_osize v' = dv_osize v ->
  dq_compute (RP P) (dq_ofValues (RP P) v) = Ok o -> dq_compute (RP P) (dq_ofValues (RP P) v') = Ok o' ->
  dq_table o = Some t -> dq_table o' = Some t' ->
  (forall h i j q, 0 <= h < m_hsize (dv_meta v) -> 0 <= i <= j -> j < dv_osize v -> mm_get t h i j = Ok q ->
     mm_get t' h i j = Ok (@mkQ (RP P) (c * gain q)%R (c * loss q)%R)) /\
  (forall p x x', d_best (RP P) t (dv_meta v) p = Ok x -> d_best (RP P) t' (dv_meta v) p = Ok x' ->
     map (fun y => (dp_h y, dp_start y, dp_end y, dp_size y)) (dn_parts x') = map (fun y => (dp_h y, dp_start y, dp_end y, dp_size y)) (dn_parts x)) /\
  (m_root (dv_meta v) = m_hsize (dv_meta v) - 1 ->
   dgain (dv_meta v) comps (m_root (dv_meta v)) 0 (dv_osize v - 1) <> 0%R ->
   dloss (dv_meta v) comps (m_root (dv_meta v)) 0 (dv_osize v - 1) <> 0%R ->
   forall n n', dq_normalize (RP P) o = Ok n -> dq_normalize (RP P) o' = Ok n' -> dq_table n' = dq_table n).
Proof.
  intros P v v' comps c o o' t t' Hc NN D D' Em En E E' Et Et'.
  destruct (d_compute_prf P v comps D) as (t1 & E1 & T1). destruct (d_compute_prf P v' _ D') as (t2 & E2 & T2).
  rewrite E in E1. rewrite E' in E2. inversion E1; inversion E2; subst o o'. cbn in Et, Et'. inversion Et; inversion Et'; subst t1 t2.
  pose proof (ddata_comp P v comps D) as CL. destruct D as (_ & Hn & W & H2 & _). rewrite Em, En in *. set (m := dv_meta v) in *.
  assert (R1 := dtable_repr P m _ Hn t comps T1).
  assert (R2 : mrepr t' (m_hsize m) (dv_osize v) (fun h i j => @mkQ (RP P) (c * dgain m comps h i j)%R (c * dloss m comps h i j)%R)).
  { eapply mrepr_ext; [apply (dtable_repr P m _ Hn); exact T2|]. intros h i j Hh Hi Hj. cbn beta. destruct (dgain_scaled m W _ c comps h i j Hc NN CL Hi Hj) as [-> ->]. auto. }
  split; [|split].
  - intros h i j q Hh Hi Hj Eq. rewrite (mrepr_get _ _ _ _ _ h i j R1) in Eq by auto. inversion Eq; subst q. rewrite (mrepr_get _ _ _ _ _ h i j R2) by auto. auto.
  - intros p x x' Ex Ex'. exact (d_scaled_best P m W _ Hn _ _ t t' c p x x' Hc R1 R2 Ex Ex').
  - intros Er G0 L0 n n' N1 N2. pose proof (root_node m W) as Hr.
    destruct (dq_normalize_ok (RP P) v t m _ R1 Hn Hr) as (u1 & F1 & K1).
    rewrite <- En in R2, Hn. destruct (dq_normalize_ok (RP P) v' t' m _ R2 Hn Hr) as (u2 & F2 & K2). rewrite En in *.
    rewrite N1 in F1. rewrite N2 in F2. inversion F1; inversion F2; subst n n'. cbn [dq_table]. f_equal.
    refine (mrepr_unique _ u2 u1 _ _ _ K2 _). eapply mrepr_ext; [exact K1|]. intros h i j Hh Hi Hj. cbv beta.
    replace (h <=? m_root m) with true by (symmetry; apply Z.leb_le; lia). unfold ndiv, q_div. cbn [gain loss]. change (n_div (RP P)) with Rdiv.
    assert (Dv : forall a b : R, b <> 0%R -> (c * a / (c * b) = a / b)%R) by (intros; field; split; auto; lra).
    rewrite !Dv by auto. auto.
Qed.
Print Assumptions C49_spatio.

(** ** A concrete data set over the hierarchy [exh_ps] (root 4 is not the last node) with two slices. *)
Definition exd_d : list (list R) := [[2; 0]; [0; 2]; [2; 0]; [0; 2]]%R.

Example exd_data : exists v, dv2_of RA exd_d exh_ps = Ok v /\ m_root (dv_meta v) = 4 /\ m_hsize (dv_meta v) = 7 /\
  m_leaves (dv_meta v) = 4 /\ m_parents (dv_meta v) = exh_ps /\ dv_osize v = 2 /\ ddata_ok v [exd_d] /\ Forall (Forall nonneg) [exd_d].
Proof.
  destruct exh_tree as [V U]. destruct (dv2_data Rpar exh_ps 4 ltac:(cbv; discriminate) exd_d V U ltac:(repeat constructor) ltac:(cbv; split; discriminate)) as (v & E & (M1 & M2 & M3) & M4 & D).
  exists v. split; auto. split; auto. assert (W : well_built (dv_meta v)) by apply D. split; [pose proof (wb_hsize _ W) as Eh; rewrite M2 in Eh; exact Eh|].
  split; auto. split; auto. split; auto. split; [exact D|]. repeat constructor; lra.
Qed.

Lemma log2_8 : log2 8 = 3%R.
Proof. unfold log2. replace 8%R with (2 * (2 * 2))%R by ring. pose proof ln2_pos. rewrite !ln_mult by lra. field. lra. Qed.

Lemma exd_qualities : forall m, m_leaves m = 4 -> m_parents m = exh_ps ->
  dgain m [exd_d] 4 0 1 = 16%R /\ dloss m [exd_d] 4 0 1 = 8%R /\ dgain m [exd_d] 5 0 1 = 4%R /\ dloss m [exd_d] 5 0 1 = 4%R.
Proof.
  intros m EL EP.
  assert (G1 : gain_of [2; 0; 0; 2; 2; 0; 0; 2]%R = 16%R).
  { gain_tac. replace (2 + (0 + (0 + (2 + (2 + (0 + (0 + (2 + 0))))))))%R with 8%R by ring. rewrite log2_8, log2_2. ring. }
  assert (G2 : gain_of [2; 0; 0; 2]%R = 4%R).
  { gain_tac. replace (2 + (0 + (0 + (2 + 0))))%R with 4%R by ring. rewrite log2_4, log2_2. ring. }
  unfold dgain, dloss, dcells, loss_of. rewrite EL, EP.
  change (leavesof 4 exh_ps 4) with [0; 1; 2; 3]. change (leavesof 4 exh_ps 5) with [0; 1].
  unfold Rsum, exd_d. cbn [map fold_right flat_map]. unfold elt, slice.
  change (Z.to_nat 0) with 0%nat. change (Z.to_nat 1) with 1%nat. change (Z.to_nat 2) with 2%nat. change (Z.to_nat 3) with 3%nat.
  change (Z.to_nat (1 - 0 + 1)) with 2%nat. cbn [nth firstn skipn app].
  rewrite G1, G2. unfold vlen. cbn [length]. change (Z.of_nat 8) with 8. change (Z.of_nat 4) with 4. rewrite log2_4, log2_8.
  unfold total, Rsum. cbn [map fold_right]. repeat split; ring.
Qed.

(** C17: after computeQualities() and normalize(), node 5 keeps its quality over both slices, (4,4), although the reference
    was (16,8) and has become (1,1). *)
Theorem C17_spatio_refuted : exists d ps r v o o' t, valid_tree (vlen d) ps r /\ uniform_depth (vlen d) ps r /\
  dv2_of RA d ps = Ok v /\ dq_compute RA (dq_ofValues RA v) = Ok o /\ dq_normalize RA o = Ok o' /\ dq_table o' = Some t /\
  (exists t0, dq_table o = Some t0 /\ mm_get t0 r 0 1 = Ok (@mkQ RA 16%R 8%R) /\ mm_get t0 5 0 1 = Ok (@mkQ RA 4%R 4%R)) /\
  mm_get t r 0 1 = Ok (@mkQ RA 1%R 1%R) /\ mm_get t 5 0 1 = Ok (@mkQ RA 4%R 4%R).
Proof.
  destruct exh_tree as [V U]. destruct exd_data as (v & E & Er & Eh & EL & EP & En & D & NN). change RA with (RP Rpar) in *. pose proof D as (_ & Hn & W & _).
  destruct (d_compute_prf Rpar v _ D) as (t0 & E0 & S0 & F0 & T0).
  destruct (exd_qualities (dv_meta v) EL EP) as (Q1 & Q2 & Q3 & Q4).
  pose proof (T0 4 0 1 ltac:(lia) ltac:(lia) ltac:(lia)) as K4. pose proof (T0 5 0 1 ltac:(lia) ltac:(lia) ltac:(lia)) as K5. rewrite Q1, Q2 in K4. rewrite Q3, Q4 in K5.
  assert (Em : mm_get t0 (m_root (dv_meta v)) 0 (dv_osize v - 1) = Ok (@mkQ (RP Rpar) 16%R 8%R)) by (rewrite Er, En; exact K4).
  destruct (d_normalize_prf (RP Rpar) v t0 _ _ W Hn S0 F0 Em) as (t & E1 & St & _ & N1 & _).
  exists exd_d, exh_ps, 4, v, (mkDQ RA (Some v) (Some t0) (dv_meta v)), (mkDQ RA (Some v) (Some t) (dv_meta v)), t.
  split; auto. split; auto. split; auto. split; auto. split; auto. split; auto. split; [exists t0; auto|]. split.
  - rewrite (N1 4 0 1 _ ltac:(lia) ltac:(lia) ltac:(lia) K4). cbn [gain loss]. change (n_div (RP Rpar)) with Rdiv. unfold Rdiv. rewrite !Rinv_r by lra. reflexivity.
  - eapply (C17_spatio_after_root Rpar v t0 (dv_meta v) _ _ t 5 0 1 _ W Hn S0 F0 Em); cbn [gain loss]; [lra|lra|exact E1|reflexivity|lia|lia|lia|exact K5].
Qed.
Print Assumptions C17_spatio_refuted.

(** The hypotheses of the other theorems (root last, non-zero reference) are met as well. *)
Example exd_root_last : exists v, dv2_of RA exd_d [4; 4; 5; 5; 6; 6; -1] = Ok v /\ ddata_ok v [exd_d] /\ Forall (Forall nonneg) [exd_d] /\
  m_root (dv_meta v) = m_hsize (dv_meta v) - 1 /\
  dgain (dv_meta v) [exd_d] (m_root (dv_meta v)) 0 (dv_osize v - 1) <> 0%R /\ dloss (dv_meta v) [exd_d] (m_root (dv_meta v)) 0 (dv_osize v - 1) <> 0%R.
Proof.
  destruct tree4_prf as [V U]. destruct (dv2_data Rpar [4; 4; 5; 5; 6; 6; -1] 6 ltac:(cbv; discriminate) exd_d V U ltac:(repeat constructor) ltac:(cbv; split; discriminate)) as (v & E & (M1 & M2 & M3) & M4 & D).
  exists v. split; auto. assert (W : well_built (dv_meta v)) by apply D. split; [exact D|]. split; [repeat constructor; lra|].
  change RA with (RP Rpar). rewrite M3, M4. split; [rewrite (wb_hsize _ W), M2; reflexivity|].
  assert (G1 : gain_of [2; 0; 0; 2; 2; 0; 0; 2]%R = 16%R).
  { gain_tac. replace (2 + (0 + (0 + (2 + (2 + (0 + (0 + (2 + 0))))))))%R with 8%R by ring. rewrite log2_8, log2_2. ring. }
  unfold dgain, dloss, dcells, loss_of. rewrite M1, M2.
  change (leavesof (vlen exd_d) [4; 4; 5; 5; 6; 6; -1] 6) with [0; 1; 2; 3]. change (size2 exd_d - 1) with 1.
  unfold Rsum, exd_d. cbn [map fold_right flat_map]. unfold elt, slice.
  change (Z.to_nat 0) with 0%nat. change (Z.to_nat 1) with 1%nat. change (Z.to_nat 2) with 2%nat. change (Z.to_nat 3) with 3%nat.
  change (Z.to_nat (1 - 0 + 1)) with 2%nat. cbn [nth firstn skipn app].
  rewrite G1. unfold vlen. cbn [length]. change (Z.of_nat 8) with 8. rewrite log2_8.
  unfold total, Rsum. cbn [map fold_right]. split; lra.
Qed.

Lemma exd_meta : exists m, well_built m /\ m_leaves m = 4 /\ m_parents m = exh_ps.
Proof. destruct exd_data as (v & _ & _ & _ & EL & EP & _ & (_ & _ & W & _) & _). exists (dv_meta v). auto. Qed.

(** A tiling of a rectangle that is not a grid: {leaf 0, slice 0}, {leaf 1, slice 0}, {node 5, slice 1} of node 5 x [0..1]. *)
Example exd_split : rect_split 4 exh_ps 5 0 1 [(0, 0, 0); (1, 0, 0); (5, 1, 1)].
Proof.
  assert (B : forall x y, In (x, y) [(0, 0); (1, 1); (5, 5); (0, 5); (1, 5)] -> below exh_ps x y).
  { intros x y K. cbn in K. repeat (destruct K as [K|K]; [inversion K; subst; apply (climb_sound 7); reflexivity|]). destruct K. }
  split; [repeat constructor; cbn; intuition discriminate|]. split.
  - intros y a b K. cbn in K. repeat (destruct K as [K|K]; [inversion K; subst; split; [split; cbv; congruence|split; [apply B; cbn; auto 10|lia]]|]). destruct K.
  - intros x o Hx Bx Ho. assert (Hx5 : x = 0 \/ x = 1).
    { assert (K : In x (leavesof 4 exh_ps 5)). { destruct exd_meta as (mm & W & EL & EP). rewrite <- EL, <- EP. apply (lv_In _ W). rewrite EL, EP. auto. }
      change (leavesof 4 exh_ps 5) with [0; 1] in K. cbn in K. intuition. }
    assert (N01 : ~ below exh_ps 0 1 /\ ~ below exh_ps 1 0).
    { assert (G : forall x y, leaf 4 x -> leaf 4 y -> below exh_ps x y -> x = y).
      { intros u w Hu Hw K. destruct exd_meta as (mm & W & EL & EP).
        assert (I : In u (leavesof 4 exh_ps w)). { rewrite <- EL, <- EP. apply (lv_In _ W). rewrite EL, EP. auto. }
        rewrite <- EL, <- EP in I. rewrite (lv_leaf _ W) in I by (rewrite EL; auto). cbn in I. intuition. }
      split; intro K; apply G in K; unfold leaf; lia. }
    assert (Ho2 : o = 0 \/ o = 1) by lia. destruct Ho2 as [->| ->].
    + exists x, 0, 0. destruct Hx5 as [->| ->]; (split; [cbn; auto|split; [apply below_refl|split; [lia|]]]);
       intros y' a' b' K; cbn in K; repeat (destruct K as [K|K]; [inversion K; subst; intros; first [tauto|lia|reflexivity]|]); destruct K.
    + exists 5, 1, 1. split; [cbn; auto|]. split; [apply B; cbn; destruct Hx5 as [->| ->]; auto 10|]. split; [lia|].
      intros y' a' b' K; cbn in K; repeat (destruct K as [K|K]; [inversion K; subst; intros; first [lia|reflexivity]|]); destruct K.
Qed.
