(** * Property C57_hier_stale, C57_spatio_stale: concrete data meeting the hypotheses, with positive gain and loss of the whole. *)
From Coq Require Import Reals Lra Lia List.
From Verif Require Import Base BaseFacts Arith Quality Utm Hierarchy HierarchyFacts HierarchyProofs SpecTree SpecParts SpecInfo SpecData SpecShape Values Qualities Partitions Partitioners
  TreePath TreeDec DataFacts DataCons InfoFacts HFacts HQual DQual DReal HDataProofs DDataProofs P_HierData P_SpatioData P_RNum P_Resample P_CopiesEx P_CopiesSEx P_FinerNEx.

Example C57_stale_met :
  (exists v : hvalues RA, hv2_of RA cp_d cp_ps = Ok v /\ hdata_ok (P := Rpar) v rs_rows /\ m_root (hv_meta v) = m_hsize (hv_meta v) - 1 /\
     (0 < hgain (hv_meta v) rs_rows (m_root (hv_meta v)))%R /\ (0 < hloss (hv_meta v) rs_rows (m_root (hv_meta v)))%R) /\
  (exists v : dvalues RA, dv2_of RA cps_d cp_ps = Ok v /\ ddata_ok (P := Rpar) v [cps_d] /\ m_root (dv_meta v) = m_hsize (dv_meta v) - 1 /\
     (0 < dgain (dv_meta v) [cps_d] (m_root (dv_meta v)) 0 (dv_osize v - 1))%R /\ (0 < dloss (dv_meta v) [cps_d] (m_root (dv_meta v)) 0 (dv_osize v - 1))%R).
Proof.
  assert (V : valid_tree 2 cp_ps 2) by (apply valid_treeb_ok; reflexivity). assert (U : uniform_depth 2 cp_ps 2) by (apply (uniformb_ok 1); reflexivity). split.
  - change RA with (RP Rpar). destruct (hv2_data Rpar cp_ps 2 ltac:(cbv; discriminate) cp_d V U ltac:(repeat constructor)) as (v & E & (M1 & M2 & M3) & D).
    change (columns 0%R (size2 cp_d) cp_d) with rs_rows in D. exists v. pose proof D as (_ & W & _). split; [exact E|]. split; [exact D|]. split; [rewrite (wb_hsize _ W), M2, M3; reflexivity|].
    assert (HC : hcells (hv_meta v) [3; 1]%R (m_root (hv_meta v)) = [3; 1]%R) by (unfold hcells; rewrite M1, M2, M3; reflexivity).
    destruct rs_whole as [W1 W2]. unfold ogain, oloss, rs_rows in W1, W2. rewrite Rsum_cons, Rsum_nil in W1, W2. change (slice [3; 1]%R 0 1) with [3; 1]%R in W1, W2. unfold hgain, hloss, rs_rows. rewrite !Rsum_cons, !Rsum_nil, HC. split; [exact W1|exact W2].
  - change RA with (RP Rpar). destruct (dv2_data Rpar cp_ps 2 ltac:(cbv; discriminate) cps_d V U ltac:(repeat constructor) ltac:(change (size2 cps_d) with 2; lia)) as (v & E & (M1 & M2 & M3) & O & D).
    exists v. pose proof D as (_ & Hn & W & _). split; [exact E|]. split; [exact D|]. split; [rewrite (wb_hsize _ W), M2, M3; reflexivity|].
    assert (HC : dcells (dv_meta v) cps_d (m_root (dv_meta v)) 0 (dv_osize v - 1) = [3; 0; 1; 2]%R).
    { change RA with (RP Rpar) in *. rewrite (rect_root (dv_meta v) (dv_osize v) cps_d W ltac:(lia)); [reflexivity|]. pose proof (ddata_comp Rpar v _ D) as CL. inversion CL; subst. assumption. }
    unfold dgain, dloss. rewrite !Rsum_cons, !Rsum_nil, HC. destruct fin_gain as [F1 F2]. split; lra.
Qed.
Print Assumptions C57_stale_met.
