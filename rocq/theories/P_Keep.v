(** * Property C95: data that are alike are kept together. Exact arithmetic.

    [o_table], [o_ntable] (SpecShape): the table after computeQualities(), and after normalize() too. *)
From Coq Require Import Reals Lra Lia Permutation.
From Verif Require Import Base BaseFacts Arith Quality Utm UtmFacts UtmProofs Hierarchy HierarchyFacts SpecTree SpecParts SpecInfo SpecData SpecShape SpecOverlap Values Qualities Partitions Partitioners
  TreeFacts TreePath InfoFacts OQual OFacts HFacts CoverFacts LexR OInfo OReal HReal OProofs HProofs HQual DataFacts DataCons ODataProofs HDataProofs P_Ordered P_OrderedData P_HierData P_SpatioNot P_Nested KeepFacts KeepSlices.

(** The table of [v], plain or normalised (then the whole must have some gain and some loss). *)
Definition plain_or_normal (v : ovalues RA) (rows : list (list R)) (t : utm (quality RA)) : Prop :=
  o_table RA v = Ok (Some t) \/
  (o_ntable RA v = Ok (Some t) /\ ogain rows 0 (ov_osize v - 1) <> 0%R /\ oloss rows 0 (ov_osize v - 1) <> 0%R).

Lemma o_scaled : forall (v : ovalues RA) rows t, odata_ok (P := Rpar) v rows -> Forall nonneg rows -> 1 <= ov_osize v -> plain_or_normal v rows t ->
  exists g h, (0 < g)%R /\ (0 < h)%R /\ urepr t (ov_osize v) (fun i j => @mkQ RA (g * ogain rows i j)%R (h * oloss rows i j)%R).
Proof.
  intros v rows t D NN H1 [E|(E & G0 & L0)]; change RA with (RP Rpar) in *; destruct (o_compute_data Rpar v rows D) as (t1 & E1 & T1); pose proof (D_n Rpar v rows D) as B.
  - unfold o_table in E. rewrite E1 in E. cbn [bind oq_table] in E. inversion E; subst t1. exists 1%R, 1%R. split; [lra|]. split; [lra|].
    eapply urepr_ext; [exact (otable_repr Rpar _ _ _ B T1)|]. intros i j _ _. cbn beta. f_equal; change (num (RP Rpar)) with R; lra.
  - unfold o_ntable in E. rewrite E1 in E. cbn [bind] in E. destruct (o_normalized Rpar v rows t1 D H1 T1) as (t2 & E2 & T2). rewrite E2 in E. cbn [bind oq_table] in E. inversion E; subst t2.
    pose proof (ogain_nonneg rows _ (D_len Rpar v rows D) NN 0 (ov_osize v - 1)) as Gp. pose proof (oloss_nonneg rows _ (D_len Rpar v rows D) NN 0 (ov_osize v - 1)) as Lp.
    exists (/ ogain rows 0 (ov_osize v - 1))%R, (/ oloss rows 0 (ov_osize v - 1))%R. split; [apply Rinv_0_lt_compat; lra|]. split; [apply Rinv_0_lt_compat; lra|].
    eapply urepr_ext; [exact (otable_norm_repr Rpar _ _ _ B T2)|]. intros i j _ _. cbn beta. unfold Rdiv. f_equal; change (num (RP Rpar)) with R; apply Rmult_comm.
Qed.

Lemma in_coords : forall (x : opartition RA) i e, In (i, e) (ocoords x) -> exists q, In q (on_parts x) /\ op_start q = i /\ op_end q = e.
Proof. intros x i e I. unfold ocoords in I. apply in_map_iff in I. destruct I as (q & Eq & Iq). injection Eq as E1 E2. exists q. auto. Qed.
Lemma coords_in : forall (x : opartition RA) q, In q (on_parts x) -> In (op_start q, op_end q) (ocoords x).
Proof. intros x q I. unfold ocoords. apply in_map_iff. exists q. auto. Qed.

Lemma o_tiling : forall (v : ovalues RA) rows t (p : R) x, odata_ok (P := Rpar) v rows -> Forall nonneg rows -> 1 <= ov_osize v -> plain_or_normal v rows t -> o_best RA t p = Ok x ->
  tiles 0 (ov_osize v) (ocoords x).
Proof.
  intros v rows t p x D NN H1 T E. destruct (o_scaled v rows t D NN H1 T) as (g & h & Hg & Hh & U). exact (proj1 (o_total Rpar t _ _ _ p x (D_n Rpar v rows D) U E)).
Qed.

(** Two neighbouring slices with the same data are in the same part, unless the parts they are in contain no data at all. *)
Theorem C95_ordered : forall (v : ovalues RA) rows t (p : R) x, odata_ok (P := Rpar) v rows -> Forall nonneg rows -> plain_or_normal v rows t ->
  (0 < p < 1)%R -> o_best RA t p = Ok x ->
  forall s, 0 <= s -> s + 1 < ov_osize v -> (forall r, In r rows -> elt 0%R r s = elt 0%R r (s + 1)) ->
  (exists q, In q (on_parts x) /\ op_start q <= s /\ s + 1 <= op_end q) \/
  (exists q1 q2, In q1 (on_parts x) /\ In q2 (on_parts x) /\ op_end q1 = s /\ op_start q2 = s + 1 /\
     forall r k, In r rows -> op_start q1 <= k <= op_end q2 -> elt 0%R r k = 0%R).
Proof.
  intros v rows t p x D NN T Hp E s Hs Hn Eq. destruct (o_scaled v rows t D NN ltac:(lia) T) as (g & h & Hg & Hh & U).
  destruct (o_keep Rpar t _ rows g h p x (D_n Rpar v rows D) (D_len Rpar v rows D) NN Hg Hh ltac:(cbn; lra) ltac:(cbn; lra) U E s Hs Hn Eq) as [(i & e & I & K)|(i & e & I1 & I2 & Z)].
  - left. destruct (in_coords x i e I) as (q & Iq & <- & <-). exists q. split; [exact Iq|exact K].
  - right. destruct (in_coords x i s I1) as (q1 & J1 & <- & K1). destruct (in_coords x (s + 1) e I2) as (q2 & J2 & K2 & <-). exists q1, q2. repeat split; auto.
Qed.
Print Assumptions C95_ordered.

(** Runs of equal slices with some data are never cut. *)
Theorem C95_ordered_run : forall (v : ovalues RA) rows t (p : R) x, odata_ok (P := Rpar) v rows -> Forall nonneg rows -> plain_or_normal v rows t ->
  (0 < p < 1)%R -> o_best RA t p = Ok x ->
  forall a b, 0 <= a <= b -> b < ov_osize v -> (forall r k, In r rows -> a <= k <= b -> elt 0%R r k = elt 0%R r a) -> (exists r, In r rows /\ elt 0%R r a <> 0%R) ->
  exists q, In q (on_parts x) /\ op_start q <= a /\ b <= op_end q.
Proof.
  intros v rows t p x D NN T Hp E a b Ha Hb Eq (r0 & I0 & N0). remember (Z.to_nat (b - a)) as k eqn:Ek. revert b Ha Hb Eq Ek. induction k as [|k IH]; intros b Ha Hb Eq Ek.
  - assert (b = a) by lia. subst b. pose proof (o_tiling v rows t p x D NN ltac:(lia) T E) as Tl. destruct (tiles_at _ _ _ Tl a ltac:(lia)) as (i & e & I & K). destruct (in_coords x i e I) as (q & Iq & <- & <-). exists q. split; [exact Iq|exact K].
  - destruct (IH (b - 1)) as (q & Iq & Q1 & Q2); try lia; [intros r j Ir Hj; apply Eq; [exact Ir|lia]|].
    destruct (C95_ordered v rows t p x D NN T Hp E (b - 1) ltac:(lia) ltac:(lia)) as [(q' & Iq' & Q3 & Q4)|(q1 & q2 & I1 & I2 & Q3 & Q4 & Z)].
    { intros r Ir. rewrite (Eq r (b - 1) Ir ltac:(lia)), (Eq r (b - 1 + 1) Ir ltac:(lia)). reflexivity. }
    + assert (q' = q \/ op_start q' = op_start q /\ op_end q' = op_end q) as Q.
      { right. pose proof (o_tiling v rows t p x D NN ltac:(lia) T E) as Tl.
        pose proof (coords_in x q Iq) as J. pose proof (coords_in x q' Iq') as J'. destruct (tiles_in _ _ _ Tl _ _ J) as (l1 & l2 & El & T1 & Hq & T2). rewrite El in J'.
        apply in_app_or in J'. destruct J' as [J'|[J'|J']].
        - destruct (tiles_in _ _ _ T1 _ _ J') as (_ & _ & _ & _ & K & _). lia.
        - injection J' as J1 J2. auto.
        - destruct (tiles_in _ _ _ T2 _ _ J') as (m1 & m2 & _ & T3 & _). pose proof (tiles_le _ _ _ T3). lia. }
      exists q'. destruct Q as [->|[Q5 Q6]]; (split; [assumption|lia]).
    + exfalso. apply N0. assert (K1 : elt 0%R r0 (b - 1) = 0%R).
      { apply Z; [exact I0|]. assert (op_start q1 <= op_end q1 /\ op_start q2 <= op_end q2) as [O1 O2]; [|lia].
        pose proof (o_tiling v rows t p x D NN ltac:(lia) T E) as Tl.
        destruct (tiles_in _ _ _ Tl _ _ (coords_in x q1 I1)) as (_ & _ & _ & _ & O1 & _). destruct (tiles_in _ _ _ Tl _ _ (coords_in x q2 I2)) as (_ & _ & _ & _ & O2 & _). lia. }
      rewrite (Eq r0 (b - 1) I0 ltac:(lia)) in K1. exact K1.
Qed.
Print Assumptions C95_ordered_run.

(** The exception: a part without data that ends before the last slice is always a single slice, so idle phases are shown slice
    by slice, except at the end. Any parameter. *)
Theorem C95_idle : forall (v : ovalues RA) rows t (p : R) x, odata_ok (P := Rpar) v rows -> Forall nonneg rows -> plain_or_normal v rows t -> o_best RA t p = Ok x ->
  forall q, In q (on_parts x) -> op_end q < ov_osize v - 1 -> (forall r k, In r rows -> op_start q <= k <= op_end q -> elt 0%R r k = 0%R) -> op_start q = op_end q.
Proof.
  intros v rows t p x D NN T E q Iq Hq Z. assert (B : 0 <= ov_osize v <= 65535) by exact (D_n Rpar v rows D).
  assert (H1 : 1 <= ov_osize v).
  { destruct (Z_le_gt_dec 1 (ov_osize v)); [assumption|exfalso]. destruct T as [T|(T & G0 & _)].
    - change RA with (RP Rpar) in *. destruct (o_compute_data Rpar v rows D) as (t1 & E1 & T1). unfold o_table in T. rewrite E1 in T. cbn [bind oq_table] in T. inversion T; subst t1. pose proof (otable_repr Rpar _ _ _ B T1) as U. destruct (o_total Rpar t _ _ _ p x B U E) as (Tl & _).
      destruct (tiles_in _ _ _ Tl _ _ (coords_in x q Iq)) as (l1 & _ & _ & T2 & O1 & _). pose proof (tiles_le _ _ _ T2). lia.
    - apply G0. unfold ogain. apply Rsum_zero. intros r Ir. replace (ov_osize v) with 0 by lia. unfold slice. cbn. apply gain_of_nil. }
  destruct (o_scaled v rows t D NN H1 T) as (g & h & _ & _ & U).
  exact (o_idle Rpar t _ rows g h p x B (D_len Rpar v rows D) U E _ _ (coords_in x q Iq) Hq Z).
Qed.
Print Assumptions C95_idle.

(** ** Hierarchical: a node all of whose leaves have the same data is never split. *)
Section H.
Context (m : meta).
Hypothesis W : well_built m.
Hypothesis H2 : 2 <= m_hsize m.
Variables (comps : list (list R)) (g k : R).
Hypothesis CL : Forall (fun c => vlen c = m_leaves m) comps.
Hypothesis NN : Forall nonneg comps.
Hypothesis Hg : (0 <= g)%R.
Hypothesis Hk : (0 <= k)%R.
Notation q := (fun h => @mkQ RA (g * hgain m comps h)%R (k * hloss m comps h)%R).

Lemma kept_above : forall G (h : Z), 0 <= h < m_hsize m -> G h = true -> forall r, 0 <= r < m_hsize m -> below (m_parents m) h r -> exists z, In z (hsel m G r) /\ below (m_parents m) h z.
Proof.
  intros G h Hh EG. apply (tree_ind m W (fun r => below (m_parents m) h r -> exists z, In z (hsel m G r) /\ below (m_parents m) h z)). intros r Hr IH B.
  rewrite (hsel_eq m W H2 G r Hr). destruct (G r) eqn:Er; [exists r; split; [left; reflexivity|exact B]|].
  destruct (Z.eq_dec h r) as [->|D]; [congruence|]. destruct (below_kid m W h r Hh B D) as (c & Ic & Bc). destruct (IH c Ic Bc) as (z & Iz & Bz).
  exists z. split; [apply in_flat_map; eauto|exact Bz].
Qed.

Lemma h_keep_same : forall (t : list (quality RA)) (p : R) x, vrepr t (m_hsize m) q -> (0 <= p <= 1)%R -> h_best RA t m p = Ok x ->
  forall h, 0 <= h < m_hsize m -> (forall c y z, In c comps -> In y (leavesof (m_leaves m) (m_parents m) h) -> In z (leavesof (m_leaves m) (m_parents m) h) -> elt 0%R c y = elt 0%R c z) ->
  exists y, In y (hn_parts x) /\ below (m_parents m) h (hp_h y).
Proof.
  intros t p x Rq Hp E h Hh Eq. change RA with (RP Rpar) in *. destruct (h_best_ok _ m W H2 t _ p Rq) as (x' & T & G & E' & Ep & _ & _ & HG). rewrite E in E'. injection E' as <-.
  assert (EG : G h = true).
  { destruct (G h) eqn:EG; [reflexivity|exfalso]. destruct (h_split Rpar m q p T G HG h Hh EG) as (_ & Lt & _). rewrite (hT Rpar m W H2 q p T G HG h Hh) in Lt.
    pose proof (hsel_cover Rpar m W H2 q p T G HG h Hh) as [_ Cp]. destruct (h_super m W comps CL NN h _ Cp) as [S1 _].
    assert (L0 : hloss m comps h = 0%R) by (apply (hloss_zero m W comps CL NN h); exact Eq).
    assert (S2 : (0 <= Rsum (hloss m comps) (hsel m G h))%R) by (apply Rsum_nonneg; intros; apply (hloss_nonneg m W comps CL NN)).
    set (X := hq Rpar q (hsel m G h)) in Lt.
    assert (X1 : gain X = (g * Rsum (hgain m comps) (hsel m G h))%R) by (unfold X, hq; etransitivity; [exact (proj1 (qsum_Rsum Rpar _))|]; rewrite Rsum_map; cbn [gain]; apply Rsum_scal).
    assert (X2 : loss X = (k * Rsum (hloss m comps) (hsel m G h))%R) by (unfold X, hq; etransitivity; [exact (proj2 (qsum_Rsum Rpar _))|]; rewrite Rsum_map; cbn [loss]; apply Rsum_scal).
    rewrite !tset_val in Lt. rewrite X1, X2 in Lt. cbn [gain loss pp_num pp_compl Rpar] in Lt. rewrite L0 in Lt. change (num (RP Rpar)) with R in *.
    assert (K1 : (p * (g * Rsum (hgain m comps) (hsel m G h)) <= p * (g * hgain m comps h))%R) by (apply Rmult_le_compat_l; [lra|]; apply Rmult_le_compat_l; [lra|exact S1]).
    assert (K2 : (0 <= (1 - p) * (k * Rsum (hloss m comps) (hsel m G h)))%R) by (apply Rmult_le_pos; [lra|]; apply Rmult_le_pos; [lra|exact S2]). lra. }
  assert (Br : below (m_parents m) h (m_root m)).
  { apply (vt_reach _ _ _ (wb_tree m W)). apply (wb_node_iff m W). exact Hh. }
  destruct (kept_above G h Hh EG (m_root m) (root_node m W) Br) as (z & Iz & Bz). exists (mkhpart (RP Rpar) m q z). split; [rewrite Ep; apply in_map; exact Iz|exact Bz].
Qed.
End H.

(** The table of [v], plain or normalised (then the root must be the last node, see C16, and have some gain and some loss). *)
Definition plain_or_normal_h (v : hvalues RA) (comps : list (list R)) (t : list (quality RA)) : Prop :=
  h_table RA (Ok v) = Ok (Some t, hv_meta v) \/
  (h_ntable RA (Ok v) = Ok (Some t, hv_meta v) /\ m_root (hv_meta v) = m_hsize (hv_meta v) - 1 /\
   hgain (hv_meta v) comps (m_root (hv_meta v)) <> 0%R /\ hloss (hv_meta v) comps (m_root (hv_meta v)) <> 0%R).

Lemma h_scaled : forall (v : hvalues RA) comps t, hdata_ok (P := Rpar) v comps -> Forall nonneg comps -> plain_or_normal_h v comps t ->
  exists g k, (0 < g)%R /\ (0 < k)%R /\ vrepr t (m_hsize (hv_meta v)) (fun h => @mkQ RA (g * hgain (hv_meta v) comps h)%R (k * hloss (hv_meta v) comps h)%R).
Proof.
  intros v comps t D NN [E|(E & Er & G0 & L0)]; change RA with (RP Rpar) in *; destruct (h_compute_prf Rpar v comps D) as (t1 & E1 & T); pose proof (hdata_len Rpar v comps D) as CL.
  - unfold h_table in E. cbn [bind] in E. rewrite E1 in E. cbn [bind hq_table hq_meta] in E. inversion E; subst t1. exists 1%R, 1%R. split; [lra|]. split; [lra|].
    eapply vrepr_ext; [exact (htable_repr Rpar _ t comps T)|]. intros h Hh. cbn beta. f_equal; change (num (RP Rpar)) with R; lra.
  - destruct D as (_ & W & _). pose proof (root_node _ W) as Hr. unfold h_ntable in E. cbn [bind] in E. rewrite E1 in E. cbn [bind] in E.
    destruct (C16_hier_root_last (RP Rpar) (Some v) t1 _ _ W Er (proj1 T) (proj2 T _ Hr)) as (t2 & E2 & L2 & K). rewrite E2 in E. cbn [bind hq_table hq_meta] in E. inversion E; subst t2.
    pose proof (hgain_nonneg _ W comps CL NN (m_root (hv_meta v))) as Gp. pose proof (hloss_nonneg _ W comps CL NN (m_root (hv_meta v))) as Lp.
    exists (/ hgain (hv_meta v) comps (m_root (hv_meta v)))%R, (/ hloss (hv_meta v) comps (m_root (hv_meta v)))%R. split; [apply Rinv_0_lt_compat; lra|]. split; [apply Rinv_0_lt_compat; lra|].
    split; [exact L2|]. intros h Hh. rewrite (K h _ Hh (proj2 T h Hh)). cbn [gain loss]. f_equal. change (n_div (RP Rpar)) with Rdiv. unfold Rdiv. f_equal; change (num (RP Rpar)) with R; apply Rmult_comm.
Qed.

Theorem C95_hier : forall (v : hvalues RA) comps t (p : R) x, hdata_ok (P := Rpar) v comps -> Forall nonneg comps -> plain_or_normal_h v comps t ->
  (0 <= p <= 1)%R -> h_best RA t (hv_meta v) p = Ok x ->
  forall h, node (m_parents (hv_meta v)) h ->
  (forall c y z, In c comps -> leaf (m_leaves (hv_meta v)) y -> leaf (m_leaves (hv_meta v)) z -> below (m_parents (hv_meta v)) y h -> below (m_parents (hv_meta v)) z h -> elt 0%R c y = elt 0%R c z) ->
  exists y, In y (hn_parts x) /\ below (m_parents (hv_meta v)) h (hp_h y).
Proof.
  intros v comps t p x D NN T Hp E h Hh Eq. destruct (h_scaled v comps t D NN T) as (g & k & Hg & Hk & U). pose proof (hdata_len Rpar v comps D) as CL. destruct D as (_ & W & H2 & _).
  apply (h_keep_same (hv_meta v) W H2 comps g k CL NN ltac:(lra) ltac:(lra) t p x U Hp E h); [apply (wb_node_iff _ W); exact Hh|].
  intros c y z Ic Iy Iz. apply (lv_In _ W) in Iy, Iz. destruct Iy as [Ly By]. destruct Iz as [Lz Bz]. apply Eq; auto; unfold leaf; lia.
Qed.
Print Assumptions C95_hier.

(** ** Concrete cases *)
(** Idle slices before the activity are shown one by one, after the activity as one part, for the same data run backwards. *)
Definition idle_first : list (list R) := [[0; 0; 1]]%R.
Definition idle_last : list (list R) := [[1; 0; 0]]%R.

Lemma idle_vals : ogain idle_first 0 2 = 0%R /\ oloss idle_first 0 2 = log2 3 /\ ogain idle_first 1 2 = 0%R /\ oloss idle_first 1 2 = 1%R /\
  ogain idle_last 0 2 = 0%R /\ oloss idle_last 0 2 = log2 3 /\ ogain idle_last 0 1 = 0%R /\ oloss idle_last 0 1 = 1%R /\
  ogain idle_first 0 1 = 0%R /\ oloss idle_first 0 1 = 0%R /\ ogain idle_last 1 2 = 0%R /\ oloss idle_last 1 2 = 0%R.
Proof.
  assert (X0 : xlog2 0 = 0%R) by (unfold xlog2; destruct (Rlt_dec 0 0); lra).
  assert (Lg1 : log2 1 = 0%R) by (unfold log2; rewrite ln_1; unfold Rdiv; apply Rmult_0_l).
  assert (X1 : xlog2 1 = 0%R) by (unfold xlog2; destruct (Rlt_dec 0 1); [rewrite Lg1|]; lra).
  assert (GA : forall l, total l = 1%R -> Rsum xlog2 l = 0%R -> gain_of l = 0%R /\ loss_of l = log2 (IZR (vlen l))).
  { intros l Tl Xl. assert (G : gain_of l = 0%R) by (unfold gain_of; rewrite Tl, Xl, Lg1; destruct (Rlt_dec 0 1); lra). split; [exact G|]. unfold loss_of. rewrite G, Tl. lra. }
  assert (S : forall d i j l, slice d i j = l -> ogain [d] i j = gain_of l /\ oloss [d] i j = loss_of l).
  { intros d i j l <-. unfold ogain, oloss. rewrite !Rsum_cons, !Rsum_nil. split; lra. }
  assert (G3 : gain_of [0; 0; 1]%R = 0%R /\ loss_of [0; 0; 1]%R = log2 3) by (apply GA; [rewrite !total_cons, total_nil|rewrite !Rsum_cons, Rsum_nil, X0, X1]; lra).
  assert (G3' : gain_of [1; 0; 0]%R = 0%R /\ loss_of [1; 0; 0]%R = log2 3) by (apply GA; [rewrite !total_cons, total_nil|rewrite !Rsum_cons, Rsum_nil, X0, X1]; lra).
  assert (G2 : gain_of [0; 1]%R = 0%R /\ loss_of [0; 1]%R = 1%R) by (destruct (GA [0; 1]%R) as [Ga Gb]; [| |split; [exact Ga|rewrite Gb; exact log2_2]]; [rewrite !total_cons, total_nil|rewrite !Rsum_cons, Rsum_nil, X0, X1]; lra).
  assert (G2' : gain_of [1; 0]%R = 0%R /\ loss_of [1; 0]%R = 1%R) by (destruct (GA [1; 0]%R) as [Ga Gb]; [| |split; [exact Ga|rewrite Gb; exact log2_2]]; [rewrite !total_cons, total_nil|rewrite !Rsum_cons, Rsum_nil, X0, X1]; lra).
  assert (G0 : gain_of [0; 0]%R = 0%R /\ loss_of [0; 0]%R = 0%R) by (apply P_Sym.zero_gain; intros v [<-|[<-|[]]]; reflexivity).
  unfold idle_first, idle_last.
  destruct (S [0; 0; 1]%R 0 2 _ eq_refl) as [-> ->]. destruct (S [0; 0; 1]%R 1 2 _ eq_refl) as [-> ->]. destruct (S [1; 0; 0]%R 0 2 _ eq_refl) as [-> ->]. destruct (S [1; 0; 0]%R 0 1 _ eq_refl) as [-> ->].
  destruct (S [0; 0; 1]%R 0 1 _ eq_refl) as [-> ->]. destruct (S [1; 0; 0]%R 1 2 _ eq_refl) as [-> ->]. cbn. tauto.
Qed.

Theorem C95_idle_asymmetry : forall p : R, (0 <= p < 1)%R -> exists t t' x x',
  o_table RA (ov2_of RA idle_first) = Ok (Some t) /\ o_best RA t p = Ok x /\ map (fun q => (op_start q, op_end q)) (on_parts x) = [(0, 0); (1, 1); (2, 2)] /\
  o_table RA (ov2_of RA idle_last) = Ok (Some t') /\ o_best RA t' p = Ok x' /\ map (fun q => (op_start q, op_end q)) (on_parts x') = [(0, 0); (1, 2)].
Proof.
  intros p Hp.
  assert (D : forall d : list R, vlen d = 3 -> odata_ok (P := Rpar) (ov2_of RA [d]) [d] /\ ov_osize (ov2_of RA [d]) = 3).
  { intros d Hd. split; [|cbn; exact Hd]. split; [cbn; lia|]. split; [split; [cbn; rewrite Hd; lia|cbn; rewrite Hd; lia]|]. apply (ov2_rows Rpar [d]). repeat constructor. }
  assert (B : forall d : list R, vlen d = 3 -> exists t x, o_table RA (ov2_of RA [d]) = Ok (Some t) /\ o_best RA t p = Ok x /\ otable (P := Rpar) t 3 [d] /\ tiles 0 3 (ocoords x)).
  { intros d Hd. destruct (D d Hd) as [Dd Ho]. destruct (o_compute_data Rpar _ _ Dd) as (t & E & T). change (RP Rpar) with RA in *. rewrite Ho in T.
    destruct (C19_ordered_tiles RA t 3 p ltac:(lia) (proj1 T)) as (x & Ex & _ & Tx). exists t, x. split; [unfold o_table; rewrite E; reflexivity|]. auto. }
  destruct (B [0; 0; 1]%R eq_refl) as (t & x & Et & Ex & T & Tx). destruct (B [1; 0; 0]%R eq_refl) as (t' & x' & Et' & Ex' & T' & Tx').
  exists t, t', x, x'. split; [exact Et|]. split; [exact Ex|].
  destruct idle_vals as (A1 & A2 & A3 & A4 & A5 & A6 & A7 & A8 & A9 & A10 & A11 & A12).
  pose proof log2_3_bounds as [LB _].
  assert (N : forall d, In d [[0; 0; 1]; [1; 0; 0]]%R -> nonneg d) by (intros d [<-|[<-|[]]]; repeat constructor; lra).
  destruct (D [0; 0; 1]%R eq_refl) as [Df Of]. destruct (D [1; 0; 0]%R eq_refl) as [Dl Ol].
  assert (Z : forall (d : list R) k, vlen d = 3 -> 0 <= k < 3 -> ogain [d] k k = 0%R /\ oloss [d] k k = 0%R).
  { intros d k Hd Hk. destruct (D d Hd) as [Dd Ho]. apply (oloss_diag Rpar _ _ Dd). split; [lia|]. apply (Z.lt_le_trans k 3); [lia|]. apply Z.eq_le_incl. symmetry. exact Ho. }
  pose proof (otable_repr Rpar t 3 _ ltac:(lia) T) as U. pose proof (otable_repr Rpar t' 3 _ ltac:(lia) T') as U'.
  split.
  - pose proof (o_best_opt Rpar t 3 _ _ p x ltac:(lia) U Ex [(0, 0); (1, 1); (2, 2)] ltac:(repeat (constructor; try lia))) as K.
    rewrite !Rsum_cons, !Rsum_nil in K. cbn [fst snd pp_num pp_compl Rpar] in K.
    destruct (Z [0; 0; 1]%R 0 eq_refl ltac:(lia)) as [Z1 Z2]. destruct (Z [0; 0; 1]%R 1 eq_refl ltac:(lia)) as [Z3 Z4]. destruct (Z [0; 0; 1]%R 2 eq_refl ltac:(lia)) as [Z5 Z6]. rewrite Z1, Z2, Z3, Z4, Z5, Z6 in K. change (@ocoords (RP Rpar) x) with (@ocoords RA x) in K.
    change (map (fun q => (op_start q, op_end q)) (on_parts x)) with (ocoords x). destruct (tiles3 _ Tx) as [Ec|[Ec|[Ec|Ec]]]; rewrite Ec in K |- *.
    + rewrite !Rsum_cons, !Rsum_nil in K. cbn [fst snd] in K. unfold idle_first in *. rewrite A1, A2 in K. nra.
    + rewrite !Rsum_cons, !Rsum_nil in K. cbn [fst snd] in K. unfold idle_first in *. rewrite Z1, Z2, A3, A4 in K. nra.
    + exfalso. assert (I : In (0, 1) (ocoords x)) by (rewrite Ec; left; reflexivity). destruct (in_coords x 0 1 I) as (q & Iq & Q1 & Q2).
      assert (op_start q = op_end q); [|lia]. apply (C95_idle _ _ t p x Df ltac:(repeat constructor; lra) (or_introl Et) Ex q Iq); [rewrite Of; lia|].
      intros r k [<-|[]] Hk. assert (k = 0 \/ k = 1) as [->| ->] by lia; reflexivity.
    + reflexivity.
  - split; [exact Et'|]. split; [exact Ex'|].
    pose proof (o_best_opt Rpar t' 3 _ _ p x' ltac:(lia) U' Ex' [(0, 0); (1, 1); (2, 2)] ltac:(repeat (constructor; try lia))) as K.
    rewrite !Rsum_cons, !Rsum_nil in K. cbn [fst snd pp_num pp_compl Rpar] in K.
    destruct (Z [1; 0; 0]%R 0 eq_refl ltac:(lia)) as [Z1 Z2]. destruct (Z [1; 0; 0]%R 1 eq_refl ltac:(lia)) as [Z3 Z4]. destruct (Z [1; 0; 0]%R 2 eq_refl ltac:(lia)) as [Z5 Z6]. rewrite Z1, Z2, Z3, Z4, Z5, Z6 in K. change (@ocoords (RP Rpar) x') with (@ocoords RA x') in K.
    change (map (fun q => (op_start q, op_end q)) (on_parts x')) with (ocoords x'). destruct (tiles3 _ Tx') as [Ec|[Ec|[Ec|Ec]]].
    + rewrite Ec in K. rewrite !Rsum_cons, !Rsum_nil in K. cbn [fst snd] in K. unfold idle_last in *. rewrite A5, A6 in K. nra.
    + exact Ec.
    + rewrite Ec in K. rewrite !Rsum_cons, !Rsum_nil in K. cbn [fst snd] in K. unfold idle_last in *. rewrite Z5, Z6, A7, A8 in K. nra.
    + exfalso. destruct (o_first Rpar t' 3 _ _ p x' ltac:(lia) U' Ex' [(0, 0)] 1 1 [(2, 2)] Ec 2 [] ltac:(lia) ltac:(constructor)) as [Q|[_ Q]]; try lia.
      * rewrite !Rsum_cons, !Rsum_nil. cbn [fst snd]. unfold idle_last in *. rewrite A11, Z3, Z5. lra.
      * rewrite !Rsum_cons, !Rsum_nil. cbn [fst snd]. unfold idle_last in *. rewrite A12, Z4, Z6. lra.
Qed.
Print Assumptions C95_idle_asymmetry.
