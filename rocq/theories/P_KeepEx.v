(** * Property C95: concrete cases that meet the hypotheses of its theorems. *)
From Coq Require Import Reals Lra Lia.
From Verif Require Import Base BaseFacts Arith Quality Utm UtmFacts UtmProofs Hierarchy HierarchyFacts SpecTree SpecParts SpecInfo SpecData SpecShape SpecOverlap Values Qualities Partitions Partitioners
  TreeFacts CoverFacts TreePath InfoFacts OQual OFacts HFacts LexR OInfo OReal HReal OProofs HProofs HQual DataFacts DataCons ODataProofs HDataProofs P_Ordered P_OrderedData P_HierData P_SpatioNot HierarchyProofs KeepFacts KeepSlices P_Keep.

(** One component, four slices: two equal busy slices, then two equal idle slices. *)
Definition keep_rows : list (list R) := [[1; 1; 0; 0]]%R.

Lemma keep_whole : ogain keep_rows 0 3 = 2%R /\ oloss keep_rows 0 3 = 2%R.
Proof.
  assert (X0 : xlog2 0 = 0%R) by (unfold xlog2; destruct (Rlt_dec 0 0); lra).
  assert (Lg1 : log2 1 = 0%R) by (unfold log2; rewrite ln_1; unfold Rdiv; apply Rmult_0_l).
  assert (X1 : xlog2 1 = 0%R) by (unfold xlog2; destruct (Rlt_dec 0 1); [rewrite Lg1|]; lra).
  assert (T : total [1; 1; 0; 0]%R = 2%R) by (rewrite !total_cons, total_nil; lra).
  assert (G : gain_of [1; 1; 0; 0]%R = 2%R).
  { unfold gain_of. rewrite T, !Rsum_cons, Rsum_nil, X0, X1, log2_2. destruct (Rlt_dec 0 2); lra. }
  assert (L : loss_of [1; 1; 0; 0]%R = 2%R).
  { unfold loss_of. rewrite G, T. unfold vlen. cbn [length]. change (Z.of_nat 4) with 4. rewrite log2_4. lra. }
  unfold ogain, oloss, keep_rows. rewrite !Rsum_cons, !Rsum_nil. change (slice [1; 1; 0; 0]%R 0 3) with [1; 1; 0; 0]%R. rewrite G, L. split; lra.
Qed.

Example C95_ordered_met : exists t t' x x', odata_ok (P := Rpar) (ov2_of RA keep_rows) keep_rows /\ Forall nonneg keep_rows /\
  o_table RA (ov2_of RA keep_rows) = Ok (Some t) /\ plain_or_normal (ov2_of RA keep_rows) keep_rows t /\ o_best RA t (1 / 2)%R = Ok x /\
  o_ntable RA (ov2_of RA keep_rows) = Ok (Some t') /\ plain_or_normal (ov2_of RA keep_rows) keep_rows t' /\ o_best RA t' (1 / 2)%R = Ok x' /\
  (exists q, In q (on_parts x) /\ op_start q <= 0 /\ 1 <= op_end q) /\ (exists q, In q (on_parts x') /\ op_start q <= 0 /\ 1 <= op_end q).
Proof.
  assert (D : odata_ok (P := Rpar) (ov2_of RA keep_rows) keep_rows).
  { split; [cbn; lia|]. split; [split; cbn; lia|]. apply (ov2_rows Rpar keep_rows). repeat constructor. }
  assert (NN : Forall nonneg keep_rows) by (repeat constructor; lra).
  destruct (o_compute_data Rpar _ _ D) as (t & E & T). destruct (o_normalized Rpar _ _ t D ltac:(cbn; lia) T) as (t' & E' & T').
  change (RP Rpar) with RA in *.
  destruct (C19_ordered_tiles RA t 4 (1 / 2)%R ltac:(lia) (proj1 T)) as (x & Ex & _). destruct (C19_ordered_tiles RA t' 4 (1 / 2)%R ltac:(lia) (proj1 T')) as (x' & Ex' & _).
  assert (Et : o_table RA (ov2_of RA keep_rows) = Ok (Some t)) by (unfold o_table; rewrite E; reflexivity).
  assert (Et' : o_ntable RA (ov2_of RA keep_rows) = Ok (Some t')) by (unfold o_ntable; rewrite E; cbn [bind]; rewrite E'; reflexivity).
  assert (P1 : plain_or_normal (ov2_of RA keep_rows) keep_rows t) by (left; exact Et).
  assert (P2 : plain_or_normal (ov2_of RA keep_rows) keep_rows t').
  { right. split; [exact Et'|]. change (ov_osize (ov2_of RA keep_rows) - 1) with 3. destruct keep_whole as [-> ->]. lra. }
  exists t, t', x, x'. do 8 (split; [assumption|]).
  assert (Eq : forall r k, In r keep_rows -> 0 <= k <= 1 -> elt 0%R r k = elt 0%R r 0) by (intros r k [<-|[]] Hk; assert (k = 0 \/ k = 1) as [->| ->] by lia; reflexivity).
  assert (Nz : exists r, In r keep_rows /\ elt 0%R r 0 <> 0%R) by (exists [1; 1; 0; 0]%R; split; [left; reflexivity|cbn; lra]).
  split; [apply (C95_ordered_run _ _ t (1 / 2)%R x D NN P1 ltac:(lra) Ex 0 1 ltac:(lia) ltac:(cbn; lia) Eq Nz)|apply (C95_ordered_run _ _ t' (1 / 2)%R x' D NN P2 ltac:(lra) Ex' 0 1 ltac:(lia) ltac:(cbn; lia) Eq Nz)].
Qed.

(** Two components, four leaves in two groups; the leaves of each group have the same data. *)
Definition keep_comps : list (list R) := [[1; 1; 0; 0]; [2; 2; 4; 4]]%R.
Example C95_hier_met : exists v t x, hv2_of RA [[1; 2]; [1; 2]; [0; 4]; [0; 4]]%R [4; 4; 5; 5; 6; 6; -1] = Ok v /\ hdata_ok (P := Rpar) v keep_comps /\ Forall nonneg keep_comps /\
  plain_or_normal_h v keep_comps t /\ h_best RA t (hv_meta v) (1 / 2)%R = Ok x /\
  (exists y, In y (hn_parts x) /\ below (m_parents (hv_meta v)) 4 (hp_h y)).
Proof.
  destruct tree4_prf as [V U]. destruct (hv2_data Rpar [4; 4; 5; 5; 6; 6; -1] 6 ltac:(cbv; discriminate) [[1; 2]; [1; 2]; [0; 4]; [0; 4]]%R V U ltac:(repeat constructor)) as (v & E & (M1 & M2 & M3) & D).
  change (vlen _) with 4 in M1.
  assert (D' : hdata_ok (P := Rpar) v keep_comps) by exact D. clear D.
  destruct (h_compute_prf Rpar v keep_comps D') as (t & Et & T). destruct (h_best_ok (RP Rpar) _ (proj1 (proj2 D')) (proj1 (proj2 (proj2 D'))) t _ (1 / 2)%R (htable_repr Rpar _ t _ T)) as (x & _ & _ & Ex & _).
  change (RP Rpar) with RA in *. exists v, t, x. assert (NN : Forall nonneg keep_comps) by (repeat constructor; lra).
  assert (Pt : plain_or_normal_h v keep_comps t) by (left; unfold h_table; cbn [bind]; rewrite Et; reflexivity).
  do 5 (split; [assumption|]).
  apply (C95_hier v keep_comps t (1 / 2)%R x D' NN Pt ltac:(lra) Ex 4); [rewrite M2; unfold node, vlen; cbn; lia|].
  rewrite M1, M2. intros c y z Ic Ly Lz By Bz.
  assert (Q : forall u, leaf 4 u -> below [4; 4; 5; 5; 6; 6; -1] u 4 -> u = 0 \/ u = 1).
  { intros u [Hu Hu'] B. assert (In u (leavesof (m_leaves (hv_meta v)) (m_parents (hv_meta v)) 4)) as Iu.
    { apply (lv_In _ (proj1 (proj2 D'))). split; [change (0 <= u < m_leaves (hv_meta v)); rewrite M1; lia|change (below (m_parents (hv_meta v)) u 4); rewrite M2; exact B]. }
    rewrite M1, M2 in Iu. change (In u [0; 1]) in Iu. destruct Iu as [<-|[<-|[]]]; auto. }
  destruct Ic as [<-|[<-|[]]]; destruct (Q y Ly By) as [->| ->]; destruct (Q z Lz Bz) as [->| ->]; reflexivity.
Qed.
