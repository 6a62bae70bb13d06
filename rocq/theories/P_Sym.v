(** * Properties C86 (components), C87 (time reversal) and C88 (names of nodes), exact arithmetic. *)
From Coq Require Import Reals Lra Lia Permutation.
From Verif Require Import Base BaseFacts Arith Quality Utm UtmFacts UtmProofs Hierarchy HierarchyFacts SpecTree SpecParts SpecInfo SpecData SpecSym SpecShape Values Qualities Partitions Partitioners
  InfoFacts OQual HQual DQual OInfo DataFacts NormFacts OReal OProofs HProofs DProofs ODataProofs HDataProofs DDataProofs P_Shape.

(** ** C86: order of components and zero components. *)
Lemma Rsum_same : forall X (zero : X -> Prop) (f : X -> R) c c', (forall x, zero x -> f x = 0%R) -> same_components zero c c' -> Rsum f c = Rsum f c'.
Proof.
  intros X zero f c c' Hz (z & z' & Z1 & Z2 & Pm). pose proof (Rsum_perm _ f _ _ Pm) as E. rewrite !Rsum_app in E.
  rewrite (Rsum_zero _ f z), (Rsum_zero _ f z') in E by (intros x Ix; apply Hz; first [exact (proj1 (Forall_forall _ _) Z1 x Ix)|exact (proj1 (Forall_forall _ _) Z2 x Ix)]). lra.
Qed.
Lemma zero_gain : forall l, (forall v, In v l -> v = 0%R) -> gain_of l = 0%R /\ loss_of l = 0%R.
Proof.
  intros l H. assert (T : total l = 0%R) by (rewrite (total_const 0 l H); lra). unfold loss_of, gain_of. rewrite T. destruct (Rlt_dec 0 0); split; lra.
Qed.

Lemma elt_In_or : forall X (d : X) l i, In (elt d l i) l \/ elt d l i = d.
Proof. intros X d l i. unfold elt. destruct (Nat.lt_ge_cases (Z.to_nat i) (length l)); [left; apply nth_In; assumption|right; apply nth_overflow; assumption]. Qed.

Lemma o_norm_same : forall A (v v' : ovalues A) t, ov_osize v = ov_osize v' ->
  oq_compute A (oq_ofValues A v) = Ok (mkOQ A (Some v) (Some t)) -> oq_compute A (oq_ofValues A v') = Ok (mkOQ A (Some v') (Some t)) ->
  o_table A v = o_table A v' /\ o_ntable A v = o_ntable A v'.
Proof.
  intros A v v' t En E E'. unfold o_table, o_ntable. rewrite E, E'. cbn [bind oq_table]. split; [reflexivity|]. unfold oq_normalize. cbn [oq_table oq_values]. rewrite En.
  destruct (u_get t 0 (ov_osize v' - 1)); cbn [bind]; auto. destruct (u_normalize A t _); reflexivity.
Qed.
Lemma h_norm_same : forall A (v v' : hvalues A) t, hv_meta v = hv_meta v' ->
  hq_compute A (hq_ofValues A v) = Ok (mkHQ A (Some v) (Some t) (hv_meta v)) -> hq_compute A (hq_ofValues A v') = Ok (mkHQ A (Some v') (Some t) (hv_meta v')) ->
  h_table A (Ok v) = h_table A (Ok v') /\ h_ntable A (Ok v) = h_ntable A (Ok v').
Proof.
  intros A v v' t En E E'. unfold h_table, h_ntable. cbn [bind]. rewrite E, E'. cbn [bind hq_table hq_meta]. rewrite En. split; [reflexivity|]. unfold hq_normalize. cbn [hq_table hq_values hq_meta].
  destruct (vget t (m_root (hv_meta v'))); cbn [bind]; auto. destruct (h_normalize A t _); reflexivity.
Qed.
Lemma d_norm_same : forall A (v v' : dvalues A) t, dv_meta v = dv_meta v' -> dv_osize v = dv_osize v' ->
  dq_compute A (dq_ofValues A v) = Ok (mkDQ A (Some v) (Some t) (dv_meta v)) -> dq_compute A (dq_ofValues A v') = Ok (mkDQ A (Some v') (Some t) (dv_meta v')) ->
  d_table A (Ok v) = d_table A (Ok v') /\ d_ntable A (Ok v) = d_ntable A (Ok v').
Proof.
  intros A v v' t En Eo E E'. unfold d_table, d_ntable. cbn [bind]. rewrite E, E'. cbn [bind dq_table dq_meta]. rewrite En. split; [reflexivity|]. unfold dq_normalize. cbn [dq_table dq_values dq_meta]. rewrite Eo.
  destruct (vget t (m_root (dv_meta v'))) as [ur| |]; cbn [bind]; auto. destruct (u_get ur 0 (dv_osize v' - 1)); cbn [bind]; auto. destruct (d_normalize A t _ _ _); reflexivity.
Qed.

Theorem C86_ordered : forall P (v v' : ovalues (RP P)) rows rows', odata_ok v rows -> odata_ok v' rows' -> ov_osize v = ov_osize v' -> same_components zero_row rows rows' ->
  o_table (RP P) v = o_table (RP P) v' /\ o_ntable (RP P) v = o_ntable (RP P) v'.
Proof.
  intros P v v' rows rows' D D' En S. destruct (o_compute_data P v rows D) as (t & E & T). destruct (o_compute_data P v' rows' D') as (t' & E' & T').
  pose proof (proj1 (proj2 D)) as Hn. pose proof (otable_repr P _ _ _ Hn T) as U. rewrite <- En in T'. pose proof (otable_repr P _ _ _ Hn T') as U'.
  assert (Et : t = t').
  { eapply urepr_unique; [exact U|]. eapply urepr_ext; [exact U'|]. intros i j _ _. cbn beta. f_equal; [apply (Rsum_same _ zero_row (fun r => gain_of (slice r i j)))|apply (Rsum_same _ zero_row (fun r => loss_of (slice r i j)))];
      try (destruct S as (z & z' & Z1 & Z2 & Pm); exists z', z; repeat split; auto using Permutation_sym); intros r Zr; apply zero_gain; intros x Ix; apply slice_In in Ix; exact (proj1 (Forall_forall _ _) Zr x Ix). }
  subst t'. apply (o_norm_same _ v v' t); assumption.
Qed.

Theorem C86_hier : forall P (v v' : hvalues (RP P)) comps comps', hdata_ok v comps -> hdata_ok v' comps' -> hv_meta v = hv_meta v' -> same_components zero_row comps comps' ->
  h_table (RP P) (Ok v) = h_table (RP P) (Ok v') /\ h_ntable (RP P) (Ok v) = h_ntable (RP P) (Ok v').
Proof.
  intros P v v' comps comps' D D' En S. destruct (h_compute_prf P v comps D) as (t & E & T). destruct (h_compute_prf P v' comps' D') as (t' & E' & T').
  assert (Z : forall (r : list R) h, zero_row r -> gain_of (hcells (hv_meta v) r h) = 0%R /\ loss_of (hcells (hv_meta v) r h) = 0%R).
  { intros r h Zr. apply zero_gain. intros x Ix. unfold hcells in Ix. apply in_map_iff in Ix. destruct Ix as (y & <- & _). destruct (elt_In_or _ 0%R r y) as [I|I]; [exact (proj1 (Forall_forall _ _) Zr _ I)|exact I]. }
  assert (Et : t = t').
  { destruct T as [L T]. destruct T' as [L' T']. rewrite <- En in L', T'. apply vget_ext; [congruence|]. intros h Hh. rewrite L in Hh. rewrite T, T' by exact Hh.
    f_equal. f_equal; [apply (Rsum_same _ zero_row (fun r => gain_of (hcells (hv_meta v) r h)))|apply (Rsum_same _ zero_row (fun r => loss_of (hcells (hv_meta v) r h)))]; auto; intros r Zr; apply (Z r h Zr). }
  subst t'. apply (h_norm_same _ v v' t); assumption.
Qed.

Theorem C86_spatio : forall P (v v' : dvalues (RP P)) comps comps', ddata_ok v comps -> ddata_ok v' comps' -> dv_meta v = dv_meta v' -> dv_osize v = dv_osize v' ->
  same_components (Forall zero_row) comps comps' -> d_table (RP P) (Ok v) = d_table (RP P) (Ok v') /\ d_ntable (RP P) (Ok v) = d_ntable (RP P) (Ok v').
Proof.
  intros P v v' comps comps' D D' En Eo S. destruct (d_compute_prf P v comps D) as (t & E & T). destruct (d_compute_prf P v' comps' D') as (t' & E' & T').
  pose proof (proj1 (proj2 D)) as Hn. rewrite <- En, <- Eo in T'. pose proof (dtable_repr P _ _ Hn _ _ T) as U. pose proof (dtable_repr P _ _ Hn _ _ T') as U'.
  assert (Z : forall (c : list (list R)) h i j, Forall zero_row c -> gain_of (dcells (dv_meta v) c h i j) = 0%R /\ loss_of (dcells (dv_meta v) c h i j) = 0%R).
  { intros c h i j Zr. apply zero_gain. intros x Ix. unfold dcells in Ix. apply in_flat_map in Ix. destruct Ix as (y & _ & Ix). apply slice_In in Ix. destruct (elt_In_or _ [] c y) as [I|I].
    - pose proof (proj1 (Forall_forall _ _) Zr _ I) as Zy. exact (proj1 (Forall_forall _ _) Zy x Ix).
    - rewrite I in Ix. destruct Ix. }
  assert (Et : t = t').
  { eapply mrepr_unique; [exact U|]. eapply mrepr_ext; [exact U'|]. intros h i j _ _ _. cbn beta. symmetry.
    f_equal; [apply (Rsum_same _ (Forall zero_row) (fun r => gain_of (dcells (dv_meta v) r h i j)))|apply (Rsum_same _ (Forall zero_row) (fun r => loss_of (dcells (dv_meta v) r h i j)))]; auto; intros r Zr; apply (Z r h i j Zr). }
  subst t'. apply (d_norm_same _ v v' t); assumption.
Qed.
