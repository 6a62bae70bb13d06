(** * Property C101 after normalize(), spatiotemporal: the concrete case of P_CopiesSEx. *)
From Coq Require Import Reals Lra Lia List.
From Verif Require Import Base BaseFacts Arith Quality Utm Hierarchy HierarchyFacts HierarchyProofs SpecTree SpecParts SpecInfo SpecData SpecShape SpecResample SpecCopies SpecCopiesS Values Qualities Partitions Partitioners
  UtmFacts TreeFacts TreePath TreeDec DataFacts DataCons CoverFacts InfoFacts HFacts HQual DQual DReal LexR OInfo DFacts HDataProofs DProofs DDataProofs P_HierData P_Spatio P_SpatioData P_RNum P_Copies P_CopiesSpatio P_CopiesEx P_CopiesSEx P_FinerNEx P_CopiesSNormal.

Example C101_spatio_normal_met : leaf_copies 2 2 cp_ps 4 cp_ps' cp_s cp_w /\
  exists v v' m m' t t' (p' : R) (x x' : dpartition RA), ddata_ok (P := Rpar) v [cps_d] /\ ddata_ok (P := Rpar) v' [cps_d'] /\ dv_osize v' = dv_osize v /\
    Forall (Forall nonneg) [cps_d] /\ equal_shares_slices 2 4 cp_w [cps_d] [cps_d'] /\ m_leaves m = 2 /\ m_parents m = cp_ps /\ m_leaves m' = 4 /\ m_parents m' = cp_ps' /\
    d_ntable RA (Ok v) = Ok (Some t, m) /\ d_ntable RA (Ok v') = Ok (Some t', m') /\ m_root m = m_hsize m - 1 /\ m_root m' = m_hsize m' - 1 /\
    let G := dgain m [cps_d] (m_root m) 0 (dv_osize v - 1) in let G' := dgain m' [cps_d'] (m_root m') 0 (dv_osize v - 1) in
    (0 < G)%R /\ (0 < dloss m [cps_d] (m_root m) 0 (dv_osize v - 1))%R /\ p' = (1 / 2 * G' / (1 / 2 * G' + (1 - 1 / 2) * G))%R /\
    d_best RA t m (1 / 2)%R = Ok x /\ d_best RA t' m' p' = Ok x'.
Proof.
  destruct C101_spatio_met as (_ & Lc & v & v' & m & m' & t1 & t1' & y & y' & E & E' & D & D' & O & O' & NN & Es & M1 & M2 & M1' & M2' & Et & Et' & _).
  split; [exact Lc|]. change RA with (RP Rpar) in *. destruct (d_compute_prf Rpar v _ D) as (u & E1 & T). destruct (d_compute_prf Rpar v' _ D') as (u' & E1' & T').
  unfold d_table in Et, Et'. cbn [bind] in Et, Et'. rewrite E1 in Et. rewrite E1' in Et'. cbn [bind dq_table dq_meta] in Et, Et'. injection Et as <- Em. injection Et' as <- Em'.
  pose proof D as (_ & Hn & W & _). pose proof D' as (_ & Hn' & W' & _). pose proof T as (S0 & F0 & _). pose proof T' as (S0' & F0' & _). rewrite Em in *. rewrite Em' in *.
  pose proof (root_node m W) as Hr. pose proof (root_node m' W') as Hr'.
  assert (R3 : m_root m = 2 /\ m_root m' = 6).
  { split.
    - unfold dv2_of in E. change (size1 cps_d) with 2 in E. destruct (meta_build 2 cp_ps) as [mm| |] eqn:Eb; cbn [bind] in E; try discriminate E. injection E as <-. cbn [dv_meta] in Em. subst mm. vm_compute in Eb. injection Eb as <-. reflexivity.
    - unfold dv2_of in E'. change (size1 cps_d') with 4 in E'. destruct (meta_build 4 cp_ps') as [mm| |] eqn:Eb; cbn [bind] in E'; try discriminate E'. injection E' as <-. cbn [dv_meta] in Em'. subst mm. vm_compute in Eb. injection Eb as <-. reflexivity. }
  assert (Er : m_root m = m_hsize m - 1) by (rewrite (wb_hsize m W), M2, (proj1 R3); reflexivity). assert (Er' : m_root m' = m_hsize m' - 1) by (rewrite (wb_hsize m' W'), M2', (proj2 R3); reflexivity).
  destruct (C17_spatio_root_last (RP Rpar) v u m _ W Er Hn S0 F0 (mrepr_get _ _ _ _ _ _ 0 (dv_osize v - 1) (dtable_repr Rpar _ _ Hn u _ T) Hr ltac:(lia) ltac:(lia))) as (t & En & Ln & Fn & _).
  destruct (C17_spatio_root_last (RP Rpar) v' u' m' _ W' Er' Hn' S0' F0' (mrepr_get _ _ _ _ _ _ 0 (dv_osize v' - 1) (dtable_repr Rpar _ _ Hn' u' _ T') Hr' ltac:(lia) ltac:(lia))) as (t' & En' & Ln' & Fn' & _).
  set (p' := (1 / 2 * dgain m' [cps_d'] (m_root m') 0 (dv_osize v - 1) / (1 / 2 * dgain m' [cps_d'] (m_root m') 0 (dv_osize v - 1) + (1 - 1 / 2) * dgain m [cps_d] (m_root m) 0 (dv_osize v - 1)))%R).
  destruct (d_cover_prf m W (RP Rpar) t _ (1 / 2)%R Hn Ln Fn) as (x & Ex & _). destruct (d_cover_prf m' W' (RP Rpar) t' _ p' Hn' Ln' Fn') as (x' & Ex' & _).
  exists v, v', m, m', t, t', p', x, x'. cbv zeta.
  split; [exact D|]. split; [exact D'|]. split; [rewrite O, O'; reflexivity|]. split; [exact NN|]. split; [exact Es|]. split; [exact M1|]. split; [exact M2|]. split; [exact M1'|]. split; [exact M2'|].
  split; [unfold d_ntable; cbn [bind]; rewrite E1; cbn [bind]; rewrite En; reflexivity|]. split; [unfold d_ntable; cbn [bind]; rewrite E1'; cbn [bind]; rewrite En'; reflexivity|]. split; [exact Er|]. split; [exact Er'|].
  assert (HC : dcells m cps_d (m_root m) 0 (dv_osize v - 1) = [3; 0; 1; 2]%R).
  { rewrite (rect_root m (dv_osize v) cps_d W ltac:(lia)); [reflexivity|]. pose proof (ddata_comp Rpar v _ D) as CL. rewrite Em in CL. inversion CL; subst. assumption. }
  unfold dgain at 1, dloss at 1. rewrite !Rsum_cons, !Rsum_nil, HC. destruct fin_gain as [F1 F2]. split; [lra|]. split; [lra|]. split; [reflexivity|]. split; [exact Ex|exact Ex'].
Qed.
Print Assumptions C101_spatio_normal_met.
