(** * Property C101 after normalize(), spatiotemporal: the same parts at p' = p G' / (p G' + (1 - p) G). Exact arithmetic. *)
From Coq Require Import Reals Lra Lia List Permutation.
From Verif Require Import Base BaseFacts Arith Quality Utm UtmFacts UtmProofs Hierarchy HierarchyFacts HierarchyProofs SpecTree SpecParts SpecInfo SpecData SpecShape SpecResample SpecCopies SpecCopiesS Values Qualities Partitions Partitioners
  TreeFacts TreePath CoverFacts InfoFacts HFacts DFacts DProofs OInfo HQual DQual DReal LexR ODataProofs HDataProofs DDataProofs P_Hier P_HierData P_Spatio P_SpatioData P_RNum ResampleFacts P_Copies P_CopiesSpatio P_Slider.

Section Thm.
Context (k : nat) (s w : Z -> Z) (m m' : meta).
Hypothesis Lc : leaf_copies k (m_leaves m) (m_parents m) (m_leaves m') (m_parents m') s w.

Theorem C101_spatio_normal : forall (v v' : dvalues RA) comps comps' t t' (p p' : R) x x', (2 <= k)%nat -> ddata_ok (P := Rpar) v comps -> ddata_ok (P := Rpar) v' comps' -> dv_osize v' = dv_osize v ->
  Forall (Forall nonneg) comps -> equal_shares_slices k (m_leaves m') w comps comps' ->
  d_ntable RA (Ok v) = Ok (Some t, m) -> d_ntable RA (Ok v') = Ok (Some t', m') -> m_root m = m_hsize m - 1 -> m_root m' = m_hsize m' - 1 ->
  let G := dgain m comps (m_root m) 0 (dv_osize v - 1) in let G' := dgain m' comps' (m_root m') 0 (dv_osize v - 1) in
  (0 < G)%R -> (0 < dloss m comps (m_root m) 0 (dv_osize v - 1))%R -> (0 < p < 1)%R -> p' = (p * G' / (p * G' + (1 - p) * G))%R ->
  d_best RA t m p = Ok x -> d_best RA t' m' p' = Ok x' ->
  (p <= p' < 1)%R /\ Permutation (map rect (dn_parts x')) (map (renamed s) (map rect (dn_parts x))) /\ loss (dn_quality x') = loss (dn_quality x).
Proof.
  intros v v' comps comps' t t' p p' x x' K2 D D' Eo NN Es Et Et' Er Er' G G' PG PL Hp Ep Ex Ex'. assert (K0 : (0 < k)%nat) by lia.
  assert (Em : forall (u : dvalues RA) cs n tb, ddata_ok (P := Rpar) u cs -> d_ntable RA (Ok u) = Ok (Some tb, n) -> exists t1, d_table RA (Ok u) = Ok (Some t1, n) /\ vlen t1 = m_hsize n /\ Forall (fun y => utm_shape y (dv_osize u)) t1 /\ well_built n /\ dv_meta u = n).
  { intros u cs n tb Du E. change RA with (RP Rpar) in *. destruct (d_compute_prf Rpar u cs Du) as (t1 & E1 & T). unfold d_ntable in E. cbn [bind] in E. rewrite E1 in E. cbn [bind] in E.
    pose proof Du as (_ & Hn & W & _). pose proof (root_node _ W) as Hr. pose proof (dtable_repr Rpar _ _ Hn t1 cs T) as U1. pose proof T as (S0 & F0 & _).
    destruct (d_normalize_prf (RP Rpar) u t1 (dv_meta u) _ W Hn S0 F0 (mrepr_get _ _ _ _ _ _ 0 (dv_osize u - 1) U1 Hr ltac:(lia) ltac:(lia))) as (t2 & E2 & _). rewrite E2 in E. cbn [bind dq_table dq_meta] in E. injection E as _ <-.
    exists t1. split; [unfold d_table; cbn [bind]; rewrite E1; reflexivity|]. auto. }
  destruct (Em v comps m t D Et) as (u & Eu & Su & Fu & W & Mu). destruct (Em v' comps' m' t' D' Et') as (u' & Eu' & Su' & Fu' & W' & Mu'). clear Em.
  change RA with (RP Rpar) in *. pose proof (ddata_comp Rpar v comps D) as CL. rewrite Mu in CL. pose proof (proj1 (proj2 D)) as Hn. pose proof (root_node m W) as Hr. rewrite Eo in Fu'. set (n := dv_osize v) in *.
  destruct (s_qual k m m' s w n K0 W W' Lc comps comps' CL NN Es (m_root m) 0 (n - 1) Hr ltac:(lia) ltac:(lia)) as [EG EL]. rewrite (c_root k m m' s w K0 W W' Lc) in EG, EL. rewrite (dall_root m n W ltac:(lia) comps CL) in EG. fold G in EG. fold G' in EG.
  assert (GG : (G <= G')%R).
  { rewrite EG. assert (0 <= log2 (INR k) * Rsum all_data comps)%R; [|lra]. apply Rmult_le_pos; [apply (log2_k k K0)|]. apply Rsum_nonneg. intros c Ic. unfold all_data. apply Rsum_nonneg. intros r Ir. apply total_nonneg.
    exact (proj1 (Forall_forall _ _) (proj1 (Forall_forall _ _) NN c Ic) r Ir). }
  set (Lw := dloss m comps (m_root m) 0 (n - 1)) in *.
  assert (P1 : (0 < p * G')%R) by (apply Rmult_lt_0_compat; lra). assert (P2 : (0 < (1 - p) * G)%R) by (apply Rmult_lt_0_compat; lra).
  assert (Ec : (1 - p' = (1 - p) * G / (p * G' + (1 - p) * G))%R) by (rewrite Ep; field; lra).
  assert (Pp : (0 < p')%R) by (rewrite Ep; apply Rdiv_lt_0_compat; lra). assert (Pc : (0 < 1 - p')%R) by (rewrite Ec; apply Rdiv_lt_0_compat; lra).
  split.
  { split; [|lra]. apply (Rmult_le_reg_r (p * G' + (1 - p) * G)); [lra|]. rewrite Ep at 1. unfold Rdiv. rewrite (Rmult_assoc (p * G')), Rinv_l by lra.
    rewrite Rmult_1_r. assert (p * (1 - p) * G <= p * (1 - p) * G')%R by (apply Rmult_le_compat_l; [nra|lra]). nra. }
  assert (PLw : (0 < p * Lw)%R) by (apply Rmult_lt_0_compat; lra). assert (PG' : (0 < (1 - p) * G')%R) by (apply Rmult_lt_0_compat; lra).
  set (q := (p * Lw / (p * Lw + (1 - p) * G))%R).
  assert (Eq : q = (p' * Lw / (p' * Lw + (1 - p') * G'))%R).
  { unfold q. rewrite Ec, Ep. field. assert (0 < G' * (p * Lw))%R by (apply Rmult_lt_0_compat; lra). assert (0 < G' * ((1 - p) * G))%R by (apply Rmult_lt_0_compat; lra). repeat split; lra. }
  change RA with (RP Rpar) in *.
  destruct (d_cover_prf m W (RP Rpar) u n q Hn Su Fu) as (y & Ey & _). destruct (d_cover_prf m' W' (RP Rpar) u' n q Hn Su' Fu') as (y' & Ey' & _).
  destruct (C103_spatio v comps m u t D Eu Et Er PG PL p q y x ltac:(lra) eq_refl Ey Ex) as (_ & S1 & _ & Q1).
  assert (PL' : (0 < dloss m' comps' (m_root m') 0 (dv_osize v' - 1))%R) by (rewrite Eo, EL; exact PL).
  assert (PG2 : (0 < dgain m' comps' (m_root m') 0 (dv_osize v' - 1))%R) by (rewrite Eo; fold G'; lra).
  assert (Eq' : q = (p' * dloss m' comps' (m_root m') 0 (dv_osize v' - 1) / (p' * dloss m' comps' (m_root m') 0 (dv_osize v' - 1) + (1 - p') * dgain m' comps' (m_root m') 0 (dv_osize v' - 1)))%R) by (rewrite Eo, EL; exact Eq).
  destruct (C103_spatio v' comps' m' u' t' D' Eu' Et' Er' PG2 PL' p' q y' x' ltac:(lra) Eq' Ey' Ex') as (_ & S2 & _ & Q2).
  assert (Hq : (0 <= pp_num Rpar q)%R) by (cbn [pp_num Rpar]; unfold q; left; apply Rdiv_lt_0_compat; lra).
  destruct (C101_spatio_parts k s w m m' Lc Rpar v v' comps comps' u u' q y y' K2 D D' Eo NN Es Eu Eu' Hq Ey Ey') as (Pm & _ & Lq).
  assert (S1' : map rect (dn_parts x) = map rect (dn_parts y)) by (apply (f_equal (map fst)) in S1; rewrite !map_map in S1; exact S1).
  assert (S2' : map rect (dn_parts x') = map rect (dn_parts y')) by (apply (f_equal (map fst)) in S2; rewrite !map_map in S2; exact S2).
  split; [rewrite S1', S2'; exact Pm|]. change RA with (RP Rpar) in *. rewrite Eo, EL in Q2. etransitivity; [exact Q2|]. etransitivity; [|symmetry; exact Q1]. apply (f_equal (fun a : R => (a / Lw)%R)). exact Lq.
Qed.
End Thm.
Print Assumptions C101_spatio_normal.
