(** * Property C102 after normalize(): the concrete case of P_FinerSEx. *)
From Coq Require Import Reals Lra Lia List.
From Verif Require Import Base BaseFacts Arith Quality Utm Hierarchy HierarchyFacts HierarchyProofs SpecTree SpecParts SpecInfo SpecData SpecShape SpecResample SpecFinerS Values Qualities Partitions Partitioners
  UtmFacts TreeFacts TreePath TreeDec DataFacts DataCons CoverFacts InfoFacts HFacts HQual DQual DReal LexR OInfo DFacts DSel DReal HDataProofs DProofs DDataProofs P_HierData P_SpatioData P_RNum P_FinerSpatio P_FinerValue P_FinerNormal P_CopiesEx P_CopiesSEx P_FinerSEx.

Lemma fin_gain : (0 < gain_of [3; 0; 1; 2])%R /\ (0 < loss_of [3; 0; 1; 2])%R.
Proof.
  assert (N : nonneg [3; 0; 1; 2]%R) by (repeat constructor; lra). split.
  - rewrite (gain_of_xl _ N). replace (total [3; 0; 1; 2])%R with 6%R by (unfold total; rewrite !Rsum_cons, Rsum_nil; lra). rewrite !Rsum_cons, Rsum_nil, xl_zero, !xl_pos by lra. rewrite ln_1.
    replace 6%R with (2 * 3)%R by lra. rewrite ln_mult by lra. pose proof ln2_pos. assert (L3 : (0 < ln 3)%R) by (rewrite <- ln_1; apply ln_increasing; lra). apply Rdiv_lt_0_compat; [nra|lra].
  - destruct (Rle_lt_or_eq_dec _ _ (loss_of_nonneg _ N)) as [H|H]; [exact H|exfalso]. assert (Q : (3 = 0)%R) by (apply (loss_of_zero _ N (eq_sym H)); cbn; auto). lra.
Qed.

Example C102_normal_met : exists v v' m t t' (p' : R) (x x' : dpartition RA), dv2_of RA cps_d cp_ps = Ok v /\ dv2_of RA fin_d cp_ps = Ok v' /\
    ddata_ok (P := Rpar) v [cps_d] /\ ddata_ok (P := Rpar) v' (finer_data 2 [cps_d]) /\ dv_osize v' = dv_osize v * Z.of_nat 2 /\ Forall (Forall nonneg) [cps_d] /\
    d_ntable RA (Ok v) = Ok (Some t, m) /\ d_ntable RA (Ok v') = Ok (Some t', m) /\ m_root m = m_hsize m - 1 /\
    let G := dgain m [cps_d] (m_root m) 0 (dv_osize v - 1) in let G' := dgain m (finer_data 2 [cps_d]) (m_root m) 0 (dv_osize v' - 1) in
    (0 < G)%R /\ (0 < dloss m [cps_d] (m_root m) 0 (dv_osize v - 1))%R /\ p' = (1 / 2 * G' / (1 / 2 * G' + (1 - 1 / 2) * G))%R /\
    d_best RA t m (1 / 2)%R = Ok x /\ d_best RA t' m p' = Ok x'.
Proof.
  assert (V : valid_tree 2 cp_ps 2) by (apply valid_treeb_ok; reflexivity). assert (U : uniform_depth 2 cp_ps 2) by (apply (uniformb_ok 1); reflexivity).
  destruct (dv2_data Rpar cp_ps 2 ltac:(cbv; discriminate) cps_d V U ltac:(repeat constructor) ltac:(change (size2 cps_d) with 2; lia)) as (v & E & (M1 & M2 & M3) & O & D).
  destruct (dv2_data Rpar cp_ps 2 ltac:(cbv; discriminate) fin_d V U ltac:(repeat constructor) ltac:(change (size2 fin_d) with 4; lia)) as (v' & E' & _ & O' & D').
  assert (Em : dv_meta v' = dv_meta v).
  { unfold dv2_of in E, E'. change (size1 cps_d) with 2 in E. change (size1 fin_d) with 2 in E'. destruct (meta_build 2 cp_ps) as [mm| |]; cbn [bind] in E, E'; try discriminate E. injection E as <-. injection E' as <-. reflexivity. }
  destruct (d_compute_prf Rpar v _ D) as (t1 & E1 & T). destruct (d_compute_prf Rpar v' _ D') as (t1' & E1' & T'). pose proof D as (_ & Hn & W & _). pose proof D' as (_ & Hn' & _).
  rewrite Em in E1', T'. pose proof T as (S0 & F0 & _). pose proof T' as (S0' & F0' & _). set (m := dv_meta v) in *.
  assert (Er : m_root m = m_hsize m - 1) by (rewrite (wb_hsize m W), M2, M3; reflexivity). pose proof (root_node m W) as Hr.
  destruct (C17_spatio_root_last (RP Rpar) v t1 m _ W Er Hn S0 F0 (mrepr_get _ _ _ _ _ _ 0 (dv_osize v - 1) (dtable_repr Rpar _ _ Hn t1 _ T) Hr ltac:(lia) ltac:(lia))) as (t & En & Ln & Fn & _).
  destruct (C17_spatio_root_last (RP Rpar) v' t1' m _ W Er Hn' S0' F0' (mrepr_get _ _ _ _ _ _ 0 (dv_osize v' - 1) (dtable_repr Rpar _ _ Hn' t1' _ T') Hr ltac:(lia) ltac:(lia))) as (t' & En' & Ln' & Fn' & _).
  set (p' := (1 / 2 * dgain m (finer_data 2 [cps_d]) (m_root m) 0 (dv_osize v' - 1) / (1 / 2 * dgain m (finer_data 2 [cps_d]) (m_root m) 0 (dv_osize v' - 1) + (1 - 1 / 2) * dgain m [cps_d] (m_root m) 0 (dv_osize v - 1)))%R).
  destruct (d_cover_prf m W RA t _ (1 / 2)%R Hn Ln Fn) as (x & Ex & _). destruct (d_cover_prf m W RA t' _ p' Hn' Ln' Fn') as (x' & Ex' & _).
  exists v, v', m, t, t', p', x, x'. cbv zeta. rewrite <- fin_data in D'. change RA with (RP Rpar) in *.
  split; [exact E|]. split; [exact E'|]. split; [exact D|]. split; [exact D'|]. split; [rewrite O, O'; reflexivity|]. split; [repeat constructor; lra|].
  split; [unfold d_ntable; cbn [bind]; rewrite E1; cbn [bind]; rewrite En; reflexivity|]. split; [unfold d_ntable; cbn [bind]; rewrite E1'; cbn [bind]; rewrite En'; reflexivity|]. split; [exact Er|].
  assert (HC : dcells m cps_d (m_root m) 0 (dv_osize v - 1) = [3; 0; 1; 2]%R).
  { rewrite (rect_root m (dv_osize v) cps_d W ltac:(lia)); [reflexivity|]. pose proof (ddata_comp Rpar v _ D) as CL. inversion CL; subst. assumption. }
  unfold dgain at 1, dloss at 1. rewrite !Rsum_cons, !Rsum_nil, HC. destruct fin_gain as [F1 F2]. split; [lra|]. split; [lra|]. split; [reflexivity|]. split; [exact Ex|exact Ex'].
Qed.
Print Assumptions C102_normal_met.
