(** * Property C103: concrete cases of the three theorems, at p = 1/2. *)
From Coq Require Import Reals Lra Lia List.
From Verif Require Import Base BaseFacts Arith Quality Utm Hierarchy HierarchyFacts HierarchyProofs SpecTree SpecParts SpecInfo SpecData SpecShape SpecResample SpecFinerS Values Qualities Partitions Partitioners
  UtmFacts TreeFacts TreePath TreeDec DataFacts DataCons CoverFacts InfoFacts HFacts HQual DQual DReal LexR OInfo OFacts DFacts DReal OProofs HProofs DProofs ODataProofs HDataProofs DDataProofs P_Ordered P_Hier P_OrderedData P_HierData P_Spatio P_SpatioData P_RNum P_Resample P_CopiesEx P_CopiesSEx P_FinerSEx P_FinerNEx P_Slider.

Definition sl_p (G L : R) : R := (1 / 2 * L / (1 / 2 * L + (1 - 1 / 2) * G))%R.

Example C103_ordered_met : exists t tn x xn, let v := ov2_of RA rs_rows in let G := ogain rs_rows 0 (ov_osize v - 1) in let L := oloss rs_rows 0 (ov_osize v - 1) in
  odata_ok (P := Rpar) v rs_rows /\ 1 <= ov_osize v /\ o_table RA v = Ok (Some t) /\ o_ntable RA v = Ok (Some tn) /\ (0 < G)%R /\ (0 < L)%R /\
  o_best RA t (sl_p G L) = Ok x /\ o_best RA tn (1 / 2)%R = Ok xn.
Proof.
  set (v := ov2_of RA rs_rows).
  assert (D : odata_ok (P := Rpar) v rs_rows) by (split; [cbn; lia|]; split; [split; cbn; lia|]; apply (ov2_rows Rpar rs_rows); repeat constructor).
  destruct (o_compute_data Rpar _ _ D) as (t & E & T). destruct (o_normalized Rpar _ _ t D ltac:(cbn; lia) T) as (tn & En & Tn). change (RP Rpar) with RA in *.
  destruct (C19_ordered_tiles RA t 2 (sl_p (ogain rs_rows 0 1) (oloss rs_rows 0 1)) ltac:(lia) (proj1 T)) as (x & Ex & _). destruct (C19_ordered_tiles RA tn 2 (1 / 2)%R ltac:(lia) (proj1 Tn)) as (xn & Exn & _).
  exists t, tn, x, xn. cbv zeta. change (ov_osize v - 1) with 1. destruct rs_whole as [W1 W2]. split; [exact D|]. split; [change (1 <= 2); lia|]. split; [unfold o_table; rewrite E; reflexivity|].
  split; [unfold o_ntable; rewrite E; cbn [bind]; rewrite En; reflexivity|]. split; [exact W1|]. split; [exact W2|]. split; [exact Ex|exact Exn].
Qed.

Example C103_hier_met : exists v m t tn (x xn : hpartition RA), let G := hgain m rs_rows (m_root m) in let L := hloss m rs_rows (m_root m) in
  hv2_of RA cp_d cp_ps = Ok v /\ hdata_ok (P := Rpar) v rs_rows /\ h_table RA (Ok v) = Ok (Some t, m) /\ h_ntable RA (Ok v) = Ok (Some tn, m) /\ m_root m = m_hsize m - 1 /\
  (0 < G)%R /\ (0 < L)%R /\ h_best RA t m (sl_p G L) = Ok x /\ h_best RA tn m (1 / 2)%R = Ok xn.
Proof.
  destruct C101_met as (_ & _ & v & v' & m & m' & t & t' & tn & tn' & x & x' & xn & xn' & p' & E & E' & D & D' & NN & Es & M1 & M2 & M1' & M2' & Et & Et' & Ex & Ex' & Etn & Etn' & Er & Er' & PG & PL & Ep & Exn & Exn').
  pose proof Et as Et0. unfold h_table in Et0. cbn [bind] in Et0. change RA with (RP Rpar) in *. destruct (h_compute_prf Rpar v _ D) as (t1 & E1 & T). rewrite E1 in Et0. cbn [bind hq_table hq_meta] in Et0. injection Et0 as -> Em.
  pose proof D as (_ & W & H2 & _). rewrite Em in *.
  destruct (h_cover_prf m W H2 RA t (sl_p (hgain m rs_rows (m_root m)) (hloss m rs_rows (m_root m))) (proj1 T)) as (x0 & Ex0 & _).
  exists v, m, t, tn, x0, xn. cbv zeta. repeat (split; [first [exact E|exact D|exact Et|exact Etn|exact Er|exact PG|exact PL|exact Ex0]|]). exact Exn.
Qed.

Example C103_spatio_met : exists v m t tn (x xn : dpartition RA), let G := dgain m [cps_d] (m_root m) 0 (dv_osize v - 1) in let L := dloss m [cps_d] (m_root m) 0 (dv_osize v - 1) in
  dv2_of RA cps_d cp_ps = Ok v /\ ddata_ok (P := Rpar) v [cps_d] /\ d_table RA (Ok v) = Ok (Some t, m) /\ d_ntable RA (Ok v) = Ok (Some tn, m) /\ m_root m = m_hsize m - 1 /\
  (0 < G)%R /\ (0 < L)%R /\ d_best RA t m (sl_p G L) = Ok x /\ d_best RA tn m (1 / 2)%R = Ok xn.
Proof.
  destruct C102_normal_met as (v & v' & m & tn & tn' & p' & xn & xn' & E & E' & D & D' & Eo & NN & Etn & Etn' & Er & PG & PL & Ep & Exn & Exn'). cbv zeta in *.
  change RA with (RP Rpar) in *. destruct (d_compute_prf Rpar v _ D) as (t & E1 & T). pose proof D as (_ & Hn & W & _). pose proof T as (S0 & F0 & _).
  assert (Em : dv_meta v = m).
  { unfold d_ntable in Etn. cbn [bind] in Etn. rewrite E1 in Etn. cbn [bind] in Etn. pose proof (root_node _ W) as Hr.
    destruct (d_normalize_prf (RP Rpar) v t (dv_meta v) _ W Hn S0 F0 (mrepr_get _ _ _ _ _ _ 0 (dv_osize v - 1) (dtable_repr Rpar _ _ Hn t _ T) Hr ltac:(lia) ltac:(lia))) as (t2 & E2 & _). rewrite E2 in Etn. cbn [bind dq_table dq_meta] in Etn. injection Etn as _ H. exact H. }
  rewrite Em in *.
  destruct (d_cover_prf m W RA t _ (sl_p (dgain m [cps_d] (m_root m) 0 (dv_osize v - 1)) (dloss m [cps_d] (m_root m) 0 (dv_osize v - 1))) Hn S0 F0) as (x0 & Ex0 & _).
  exists v, m, t, tn, x0, xn. cbv zeta. split; [exact E|]. split; [exact D|]. split; [unfold d_table; cbn [bind]; rewrite E1; reflexivity|]. split; [exact Etn|]. split; [exact Er|]. split; [exact PG|]. split; [exact PL|]. split; [exact Ex0|exact Exn].
Qed.
Print Assumptions C103_ordered_met.
Print Assumptions C103_hier_met.
Print Assumptions C103_spatio_met.
