(** * Property C104: every component k times, in any order. Gains and losses are multiplied by k, the best partitions and the
    normalised tables are the same. *)
From Coq Require Import Reals Lra Lia List Permutation.
From Verif Require Import Base BaseFacts Arith Quality Utm UtmFacts UtmProofs Hierarchy HierarchyFacts HierarchyProofs SpecTree SpecParts SpecInfo SpecData SpecShape Values Qualities Partitions Partitioners
  TreeFacts TreePath CoverFacts InfoFacts HFacts OFacts DFacts OProofs HProofs DProofs OInfo HQual DQual DReal LexR DataFacts ODataProofs HDataProofs DDataProofs P_Hier P_OrderedData P_HierData P_Spatio P_SpatioData P_RNum Sim.

(** [comps'] holds every component of [comps] exactly [k] times. *)
Definition times_over {X} (k : nat) (comps comps' : list X) : Prop := Permutation comps' (concat (repeat comps k)).

Lemma Rsum_times : forall X (f : X -> R) k l l', times_over k l l' -> Rsum f l' = (INR k * Rsum f l)%R.
Proof.
  intros X f k l l' H. rewrite (Rsum_perm _ _ _ _ H), Rsum_concat. clear H. induction k as [|k IH]; cbn [repeat]; [rewrite Rsum_nil; cbn [INR]; lra|]. rewrite Rsum_cons, IH, S_INR. lra.
Qed.

Theorem C104_ordered : forall P k (v v' : ovalues (RP P)) rows rows' t t', (0 < k)%nat -> odata_ok v rows -> odata_ok v' rows' -> times_over k rows rows' -> ov_osize v' = ov_osize v ->
  o_table (RP P) v = Ok (Some t) -> o_table (RP P) v' = Ok (Some t') ->
  (forall i j, 0 <= i <= j -> j < ov_osize v -> exists q, u_get t i j = Ok q /\ u_get t' i j = Ok (@mkQ (RP P) (INR k * gain q)%R (INR k * loss q)%R)) /\
  (forall p x x', o_best (RP P) t p = Ok x -> o_best (RP P) t' p = Ok x' -> map (fun q => (op_start q, op_end q)) (on_parts x') = map (fun q => (op_start q, op_end q)) (on_parts x)) /\
  (1 <= ov_osize v -> ogain rows 0 (ov_osize v - 1) <> 0%R -> oloss rows 0 (ov_osize v - 1) <> 0%R -> forall n n', o_ntable (RP P) v = Ok (Some n) -> o_ntable (RP P) v' = Ok (Some n') -> n' = n).
Proof.
  intros P k v v' rows rows' t t' K0 D D' Rk Eo Et Et'. pose proof (lt_0_INR k K0) as Kp.
  destruct (o_compute_data P v rows D) as (t1 & E & T). destruct (o_compute_data P v' rows' D') as (t1' & E' & T').
  unfold o_table in Et, Et'. rewrite E in Et. rewrite E' in Et'. cbn [bind oq_table] in Et, Et'. injection Et as ->. injection Et' as ->.
  pose proof (otable_repr P t _ rows (D_n P v rows D) T) as U. pose proof (otable_repr P t' _ rows' (D_n P v' rows' D') T') as U'.
  assert (U2 : urepr t' (ov_osize v) (fun i j => @mkQ (RP P) (INR k * ogain rows i j)%R (INR k * oloss rows i j)%R)).
  { rewrite Eo in U'. eapply urepr_ext; [exact U'|]. intros i j _ _. unfold ogain, oloss. rewrite !(Rsum_times _ _ k rows rows' Rk). reflexivity. }
  split; [|split].
  - intros i j Hi Hj. eexists. split; [apply (UtmFacts.urepr_get _ _ _ _ i j U Hi Hj)|]. apply (UtmFacts.urepr_get _ _ _ _ i j U2 Hi Hj).
  - intros p x x' Ex Ex'. exact (o_scaled_best P t t' _ _ _ (INR k) p x x' Kp U U2 Ex Ex').
  - intros H1 G0 L0 n n' N1 N2. destruct (o_normalized P v rows t D H1 T) as (u1 & F1 & U1). destruct (o_normalized P v' rows' t' D' ltac:(lia) T') as (u2 & F2 & U3).
    unfold o_ntable in N1, N2. rewrite E in N1. rewrite E' in N2. cbn [bind] in N1, N2. rewrite F1 in N1. rewrite F2 in N2. cbn [bind oq_table] in N1, N2. injection N1 as ->. injection N2 as ->.
    eapply urepr_unique; [|exact (otable_norm_repr P _ _ _ (D_n P v rows D) U1)]. rewrite Eo in U3. eapply urepr_ext; [exact (otable_norm_repr P _ _ _ (D_n P v rows D) U3)|].
    intros i j _ _. cbn beta. unfold ogain, oloss in *. rewrite !(Rsum_times _ _ k rows rows' Rk). f_equal; change (num (RP P)) with R in *; field; split; auto; lra.
Qed.
Print Assumptions C104_ordered.

Theorem C104_hier : forall P k (v v' : hvalues (RP P)) comps comps' m t t', (0 < k)%nat -> hdata_ok v comps -> hdata_ok v' comps' -> times_over k comps comps' ->
  h_table (RP P) (Ok v) = Ok (Some t, m) -> h_table (RP P) (Ok v') = Ok (Some t', m) ->
  (forall h, 0 <= h < m_hsize m -> exists q, vget t h = Ok q /\ vget t' h = Ok (@mkQ (RP P) (INR k * gain q)%R (INR k * loss q)%R)) /\
  (forall p x x', h_best (RP P) t m p = Ok x -> h_best (RP P) t' m p = Ok x' -> map (fun y => (hp_h y, hp_size y)) (hn_parts x') = map (fun y => (hp_h y, hp_size y)) (hn_parts x)) /\
  (m_root m = m_hsize m - 1 -> hgain m comps (m_root m) <> 0%R -> hloss m comps (m_root m) <> 0%R -> forall n n', h_ntable (RP P) (Ok v) = Ok (Some n, m) -> h_ntable (RP P) (Ok v') = Ok (Some n', m) -> n' = n).
Proof.
  intros P k v v' comps comps' m t t' K0 D D' Rk Et Et'. pose proof (lt_0_INR k K0) as Kp.
  destruct (h_compute_prf P v comps D) as (t1 & E & T). destruct (h_compute_prf P v' comps' D') as (t1' & E' & T').
  unfold h_table in Et, Et'. cbn [bind] in Et, Et'. rewrite E in Et. rewrite E' in Et'. cbn [bind hq_table hq_meta] in Et, Et'. injection Et as -> Em. injection Et' as -> Em'.
  destruct D as (_ & W & H2 & _). rewrite Em in *. rewrite Em' in *. pose proof (root_node m W) as Hr. pose proof (htable_repr P m t comps T) as U. pose proof (htable_repr P m t' comps' T') as U'.
  assert (U2 : vrepr t' (m_hsize m) (fun h => @mkQ (RP P) (INR k * hgain m comps h)%R (INR k * hloss m comps h)%R)).
  { eapply vrepr_ext; [exact U'|]. intros h _. unfold hgain, hloss. rewrite !(Rsum_times _ _ k comps comps' Rk). reflexivity. }
  split; [|split].
  - intros h Hh. eexists. split; [apply (proj2 U h Hh)|]. apply (proj2 U2 h Hh).
  - intros p x x' Ex Ex'. refine (h_sim (RP P) (RP P) (tscale P (INR k)) (tscale_hom P (INR k) Kp) p p m W H2 _ _ _ t t' x x' U U2 Ex Ex'). intros h _. apply tscale_set.
  - intros R1 G0 L0 n n' N1 N2.
    destruct (C16_hier_root_last (RP P) (Some v) t _ _ W R1 (proj1 T) (proj2 T _ Hr)) as (u & F & L1 & K1). destruct (C16_hier_root_last (RP P) (Some v') t' _ _ W R1 (proj1 T') (proj2 T' _ Hr)) as (u' & F' & L2 & K2).
    unfold h_ntable in N1, N2. cbn [bind] in N1, N2. rewrite E in N1. rewrite E' in N2. cbn [bind] in N1, N2. rewrite F in N1. rewrite F' in N2. cbn [bind hq_table hq_meta] in N1, N2. injection N1 as ->. injection N2 as ->.
    apply vget_ext; [lia|]. intros h Hh. rewrite (K1 h _ ltac:(lia) (proj2 T h ltac:(lia))), (K2 h _ ltac:(lia) (proj2 T' h ltac:(lia))). cbn [gain loss]. do 2 f_equal; unfold hgain, hloss in *; rewrite !(Rsum_times _ _ k comps comps' Rk);
      change (n_div (RP P)) with Rdiv; change (num (RP P)) with R in *; field; split; auto; lra.
Qed.
Print Assumptions C104_hier.

Theorem C104_spatio : forall P k (v v' : dvalues (RP P)) comps comps' m t t', (0 < k)%nat -> ddata_ok v comps -> ddata_ok v' comps' -> times_over k comps comps' -> dv_osize v' = dv_osize v ->
  d_table (RP P) (Ok v) = Ok (Some t, m) -> d_table (RP P) (Ok v') = Ok (Some t', m) ->
  (forall h i j, 0 <= h < m_hsize m -> 0 <= i <= j -> j < dv_osize v -> exists q, mm_get t h i j = Ok q /\ mm_get t' h i j = Ok (@mkQ (RP P) (INR k * gain q)%R (INR k * loss q)%R)) /\
  (forall p x x', d_best (RP P) t m p = Ok x -> d_best (RP P) t' m p = Ok x' -> map (fun y => (rect y, dp_size y)) (dn_parts x') = map (fun y => (rect y, dp_size y)) (dn_parts x)) /\
  (m_root m = m_hsize m - 1 -> dgain m comps (m_root m) 0 (dv_osize v - 1) <> 0%R -> dloss m comps (m_root m) 0 (dv_osize v - 1) <> 0%R ->
   forall n n', d_ntable (RP P) (Ok v) = Ok (Some n, m) -> d_ntable (RP P) (Ok v') = Ok (Some n', m) -> n' = n).
Proof.
  intros P k v v' comps comps' m t t' K0 D D' Rk Eo Et Et'. pose proof (lt_0_INR k K0) as Kp.
  destruct (d_compute_prf P v comps D) as (t1 & E & T). destruct (d_compute_prf P v' comps' D') as (t1' & E' & T').
  unfold d_table in Et, Et'. cbn [bind] in Et, Et'. rewrite E in Et. rewrite E' in Et'. cbn [bind dq_table dq_meta] in Et, Et'. injection Et as -> Em. injection Et' as -> Em'.
  destruct D as (_ & Hn & W & _). rewrite Em in *. rewrite Em' in *. rewrite Eo in *. set (n := dv_osize v) in *. pose proof (root_node m W) as Hr. pose proof (dtable_repr P m _ Hn t comps T) as U. pose proof (dtable_repr P m _ Hn t' comps' T') as U'.
  pose proof T as (S0 & F0 & _). pose proof T' as (S0' & F0' & _).
  assert (U2 : mrepr t' (m_hsize m) n (fun h i j => @mkQ (RP P) (INR k * dgain m comps h i j)%R (INR k * dloss m comps h i j)%R)).
  { eapply mrepr_ext; [exact U'|]. intros h i j _ _ _. unfold dgain, dloss. rewrite !(Rsum_times _ _ k comps comps' Rk). reflexivity. }
  split; [|split].
  - intros h i j Hh Hi Hj. eexists. split; [apply (mrepr_get _ _ _ _ _ h i j U Hh Hi Hj)|]. apply (mrepr_get _ _ _ _ _ h i j U2 Hh Hi Hj).
  - intros p x x' Ex Ex'. refine (d_sim (RP P) (RP P) (tscale P (INR k)) (tscale_hom P (INR k) Kp) p p m W n _ _ Hn _ t t' x x' U U2 Ex Ex'). intros h i j _ _ _. apply tscale_set.
  - intros R1 G0 L0 w w' N1 N2.
    destruct (C17_spatio_root_last (RP P) v t m _ W R1 Hn S0 F0 (mrepr_get _ _ _ _ _ _ 0 (n - 1) U Hr ltac:(lia) ltac:(lia))) as (u & F & L1 & Fu & K1).
    pose proof (C17_spatio_root_last (RP P) v' t' m) as Q. rewrite Eo in Q. fold n in Q. destruct (Q _ W R1 Hn S0' F0' (mrepr_get _ _ _ _ _ _ 0 (n - 1) U' Hr ltac:(lia) ltac:(lia))) as (u' & F' & L2 & Fu' & K2). clear Q.
    unfold d_ntable in N1, N2. cbn [bind] in N1, N2. rewrite E in N1. rewrite E' in N2. cbn [bind] in N1, N2. rewrite F in N1. rewrite F' in N2. cbn [bind dq_table dq_meta] in N1, N2. injection N1 as ->. injection N2 as ->.
    eapply mrepr_unique; [|exact (shape_mrepr _ w _ n (q_zero (RP P)) ltac:(lia) L1 Fu)]. eapply mrepr_ext; [exact (shape_mrepr _ w' _ n (q_zero (RP P)) ltac:(lia) L2 Fu')|].
    intros h i j Hh Hi Hj. cbv beta. rewrite (K1 h i j _ Hh Hi Hj (mrepr_get _ _ _ _ _ _ _ _ U Hh Hi Hj)), (K2 h i j _ Hh Hi Hj (mrepr_get _ _ _ _ _ _ _ _ U' Hh Hi Hj)). cbn [gain loss].
    f_equal; unfold dgain, dloss in *; rewrite !(Rsum_times _ _ k comps comps' Rk); change (n_div (RP P)) with Rdiv; change (num (RP P)) with R in *; field; split; auto; lra.
Qed.
Print Assumptions C104_spatio.
