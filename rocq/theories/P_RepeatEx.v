(** * Property C104: concrete cases, every component twice. *)
From Coq Require Import Reals Lra Lia List Permutation.
From Verif Require Import Base BaseFacts Arith Quality Utm Hierarchy HierarchyFacts HierarchyProofs SpecTree SpecParts SpecInfo SpecData SpecShape Values Qualities Partitions Partitioners
  UtmProofs TreePath TreeDec DataFacts DataCons InfoFacts HFacts HQual DQual DReal OReal OProofs ODataProofs HDataProofs DDataProofs P_Ordered P_OrderedData P_HierData P_SpatioData P_RNum P_Resample P_CopiesEx P_CopiesSEx P_FinerNEx P_Repeat.

Example C104_ordered_met : exists t t', let v := ov2_of RA rs_rows in let v' := ov2_of RA [[3; 1]; [3; 1]]%R in
  odata_ok (P := Rpar) v rs_rows /\ odata_ok (P := Rpar) v' [[3; 1]; [3; 1]]%R /\ times_over 2 rs_rows [[3; 1]; [3; 1]]%R /\ ov_osize v' = ov_osize v /\
  o_table RA v = Ok (Some t) /\ o_table RA v' = Ok (Some t') /\ (0 < ogain rs_rows 0 (ov_osize v - 1))%R /\ (0 < oloss rs_rows 0 (ov_osize v - 1))%R.
Proof.
  set (v := ov2_of RA rs_rows). set (v' := ov2_of RA [[3; 1]; [3; 1]]%R).
  assert (D : odata_ok (P := Rpar) v rs_rows) by (split; [cbn; lia|]; split; [split; cbn; lia|]; apply (ov2_rows Rpar rs_rows); repeat constructor).
  assert (D' : odata_ok (P := Rpar) v' [[3; 1]; [3; 1]]%R) by (split; [cbn; lia|]; split; [split; cbn; lia|]; apply (ov2_rows Rpar [[3; 1]; [3; 1]]%R); repeat constructor).
  destruct (o_compute_data Rpar _ _ D) as (t & E & _). destruct (o_compute_data Rpar _ _ D') as (t' & E' & _). change (RP Rpar) with RA in *.
  exists t, t'. cbv zeta. split; [exact D|]. split; [exact D'|]. split; [apply Permutation_refl|]. split; [reflexivity|]. split; [unfold o_table; rewrite E; reflexivity|]. split; [unfold o_table; rewrite E'; reflexivity|]. exact rs_whole.
Qed.

Example C104_hier_met : exists v v' m t t', hv2_of RA cp_d cp_ps = Ok v /\ hv2_of RA [[3; 3]; [1; 1]]%R cp_ps = Ok v' /\
  hdata_ok (P := Rpar) v rs_rows /\ hdata_ok (P := Rpar) v' [[3; 1]; [3; 1]]%R /\ times_over 2 rs_rows [[3; 1]; [3; 1]]%R /\
  h_table RA (Ok v) = Ok (Some t, m) /\ h_table RA (Ok v') = Ok (Some t', m) /\ m_root m = m_hsize m - 1 /\ (0 < hgain m rs_rows (m_root m))%R /\ (0 < hloss m rs_rows (m_root m))%R.
Proof.
  assert (V : valid_tree 2 cp_ps 2) by (apply valid_treeb_ok; reflexivity). assert (U : uniform_depth 2 cp_ps 2) by (apply (uniformb_ok 1); reflexivity). change RA with (RP Rpar).
  destruct (hv2_data Rpar cp_ps 2 ltac:(cbv; discriminate) cp_d V U ltac:(repeat constructor)) as (v & E & (M1 & M2 & M3) & D).
  destruct (hv2_data Rpar cp_ps 2 ltac:(cbv; discriminate) [[3; 3]; [1; 1]]%R V U ltac:(repeat constructor)) as (v' & E' & _ & D').
  change (columns 0%R (size2 cp_d) cp_d) with rs_rows in D. change (columns 0%R (size2 [[3; 3]; [1; 1]]%R) [[3; 3]; [1; 1]]%R) with [[3; 1]; [3; 1]]%R in D'.
  assert (Em : hv_meta v' = hv_meta v).
  { unfold hv2_of in E, E'. change (size1 cp_d) with 2 in E. change (size1 [[3; 3]; [1; 1]]%R) with 2 in E'. destruct (meta_build 2 cp_ps) as [mm| |]; cbn [bind] in E, E'; try discriminate E. injection E as <-. injection E' as <-. reflexivity. }
  destruct (h_compute_prf Rpar v _ D) as (t & E1 & _). destruct (h_compute_prf Rpar v' _ D') as (t' & E1' & _). pose proof D as (_ & W & _).
  exists v, v', (hv_meta v), t, t'. split; [exact E|]. split; [exact E'|]. split; [exact D|]. split; [exact D'|]. split; [apply Permutation_refl|]. split; [unfold h_table; cbn [bind]; rewrite E1; reflexivity|].
  split; [unfold h_table; cbn [bind]; rewrite E1'; cbn [bind hq_table hq_meta]; rewrite Em; reflexivity|]. split; [rewrite (wb_hsize _ W), M2, M3; reflexivity|].
  assert (HC : hcells (hv_meta v) [3; 1]%R (m_root (hv_meta v)) = [3; 1]%R) by (unfold hcells; rewrite M1, M2, M3; reflexivity).
  destruct rs_whole as [W1 W2]. unfold ogain, oloss, rs_rows in W1, W2. rewrite Rsum_cons, Rsum_nil in W1, W2. change (slice [3; 1]%R 0 1) with [3; 1]%R in W1, W2. unfold hgain, hloss, rs_rows. rewrite !Rsum_cons, !Rsum_nil, HC. split; [exact W1|exact W2].
Qed.

Definition rp_d3 : list (list (list R)) := [[[3; 0]; [3; 0]]; [[1; 2]; [1; 2]]]%R.
Example C104_spatio_met : exists v v' m t t', dv2_of RA cps_d cp_ps = Ok v /\ dv3_of RA rp_d3 cp_ps = Ok v' /\
  ddata_ok (P := Rpar) v [cps_d] /\ ddata_ok (P := Rpar) v' [cps_d; cps_d] /\ times_over 2 [cps_d] [cps_d; cps_d] /\ dv_osize v' = dv_osize v /\
  d_table RA (Ok v) = Ok (Some t, m) /\ d_table RA (Ok v') = Ok (Some t', m) /\ m_root m = m_hsize m - 1 /\
  (0 < dgain m [cps_d] (m_root m) 0 (dv_osize v - 1))%R /\ (0 < dloss m [cps_d] (m_root m) 0 (dv_osize v - 1))%R.
Proof.
  assert (V : valid_tree 2 cp_ps 2) by (apply valid_treeb_ok; reflexivity). assert (U : uniform_depth 2 cp_ps 2) by (apply (uniformb_ok 1); reflexivity). change RA with (RP Rpar).
  destruct (dv2_data Rpar cp_ps 2 ltac:(cbv; discriminate) cps_d V U ltac:(repeat constructor) ltac:(change (size2 cps_d) with 2; lia)) as (v & E & (M1 & M2 & M3) & O & D).
  destruct (dv3_data Rpar cp_ps 2 ltac:(cbv; discriminate) rp_d3 V U ltac:(repeat constructor) ltac:(change (size3 rp_d3) with 2; lia)) as (v' & E' & _ & O' & D').
  change (columns [] (size2 rp_d3) rp_d3) with [cps_d; cps_d] in D'.
  assert (Em : dv_meta v' = dv_meta v).
  { unfold dv2_of in E. unfold dv3_of in E'. change (size1 cps_d) with 2 in E. change (size1 rp_d3) with 2 in E'. destruct (meta_build 2 cp_ps) as [mm| |]; cbn [bind] in E, E'; try discriminate E. injection E as <-. injection E' as <-. reflexivity. }
  destruct (d_compute_prf Rpar v _ D) as (t & E1 & _). destruct (d_compute_prf Rpar v' _ D') as (t' & E1' & _). pose proof D as (_ & Hn & W & _).
  exists v, v', (dv_meta v), t, t'. split; [exact E|]. split; [exact E'|]. split; [exact D|]. split; [exact D'|]. split; [apply Permutation_refl|]. split; [rewrite O, O'; reflexivity|]. split; [unfold d_table; cbn [bind]; rewrite E1; reflexivity|].
  split; [unfold d_table; cbn [bind]; rewrite E1'; cbn [bind dq_table dq_meta]; rewrite Em; reflexivity|]. split; [rewrite (wb_hsize _ W), M2, M3; reflexivity|].
  assert (HC : dcells (dv_meta v) cps_d (m_root (dv_meta v)) 0 (dv_osize v - 1) = [3; 0; 1; 2]%R).
  { rewrite (rect_root (dv_meta v) (dv_osize v) cps_d W ltac:(lia)); [reflexivity|]. pose proof (ddata_comp Rpar v _ D) as CL. inversion CL; subst. assumption. }
  unfold dgain, dloss. rewrite !Rsum_cons, !Rsum_nil, HC. destruct fin_gain as [F1 F2]. split; lra.
Qed.
Print Assumptions C104_ordered_met.
Print Assumptions C104_hier_met.
Print Assumptions C104_spatio_met.
