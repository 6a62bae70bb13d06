(** * Property C102: a concrete hierarchy of two leaves with two slices, each slice divided in two. *)
From Coq Require Import Reals Lra Lia List.
From Verif Require Import Base BaseFacts Arith Quality Utm Hierarchy HierarchyFacts HierarchyProofs SpecTree SpecParts SpecInfo SpecData SpecShape SpecResample SpecFinerS Values Qualities Partitions Partitioners
  TreeFacts TreePath TreeDec DataFacts DataCons CoverFacts InfoFacts DQual DReal LexR OInfo HDataProofs DProofs DDataProofs P_FinerSpatio P_FinerValue P_CopiesEx P_CopiesSEx.

Definition fin_d : list (list R) := [[3 / 2; 3 / 2; 0; 0]; [1 / 2; 1 / 2; 1; 1]]%R.

Lemma fin_data : finer_data 2 [cps_d] = [fin_d].
Proof.
  change (finer_data 2 [cps_d]) with [[[3 / 2; 3 / 2; 0 / 2; 0 / 2]; [1 / 2; 1 / 2; 2 / 2; 2 / 2]]]%R. unfold fin_d. replace (0 / 2)%R with 0%R by lra. replace (2 / 2)%R with 1%R by lra. reflexivity.
Qed.

Example C102_met : (0 < 2)%nat /\ exists v v' m t t' (x x' : dpartition RA), dv2_of RA cps_d cp_ps = Ok v /\ dv2_of RA fin_d cp_ps = Ok v' /\
    ddata_ok (P := Rpar) v [cps_d] /\ ddata_ok (P := Rpar) v' (finer_data 2 [cps_d]) /\ dv_osize v = 2 /\ dv_osize v' = dv_osize v * Z.of_nat 2 /\ Forall (Forall nonneg) [cps_d] /\
    m_leaves m = 2 /\ m_parents m = cp_ps /\ d_table RA (Ok v) = Ok (Some t, m) /\ d_table RA (Ok v') = Ok (Some t', m) /\
    (0 <= pp_num Rpar (1 / 2)%R)%R /\ (0 <= pp_num Rpar (pp_compl Rpar (1 / 2)%R))%R /\ d_best RA t m (1 / 2)%R = Ok x /\ d_best RA t' m (1 / 2)%R = Ok x' /\ all_data cps_d = 6%R.
Proof.
  split; [lia|]. assert (V : valid_tree 2 cp_ps 2) by (apply valid_treeb_ok; reflexivity). assert (U : uniform_depth 2 cp_ps 2) by (apply (uniformb_ok 1); reflexivity).
  destruct (dv2_data Rpar cp_ps 2 ltac:(cbv; discriminate) cps_d V U ltac:(repeat constructor) ltac:(change (size2 cps_d) with 2; lia)) as (v & E & (M1 & M2 & _) & O & D).
  destruct (dv2_data Rpar cp_ps 2 ltac:(cbv; discriminate) fin_d V U ltac:(repeat constructor) ltac:(change (size2 fin_d) with 4; lia)) as (v' & E' & _ & O' & D').
  assert (Em : dv_meta v' = dv_meta v).
  { unfold dv2_of in E, E'. change (size1 cps_d) with 2 in E. change (size1 fin_d) with 2 in E'. destruct (meta_build 2 cp_ps) as [mm| |]; cbn [bind] in E, E'; try discriminate E. injection E as <-. injection E' as <-. reflexivity. }
  destruct (d_compute_prf Rpar v _ D) as (t & E1 & T). destruct (d_compute_prf Rpar v' _ D') as (t' & E1' & T'). pose proof D as (_ & Hn & W & _). pose proof D' as (_ & Hn' & _).
  rewrite Em in E1', T'. pose proof T as (S0 & F0 & _). pose proof T' as (S0' & F0' & _).
  destruct (d_cover_prf (dv_meta v) W RA t _ (1 / 2)%R Hn S0 F0) as (x & Ex & _). destruct (d_cover_prf (dv_meta v) W RA t' _ (1 / 2)%R Hn' S0' F0') as (x' & Ex' & _).
  exists v, v', (dv_meta v), t, t', x, x'. rewrite fin_data. change RA with (RP Rpar) in *.
  split; [exact E|]. split; [exact E'|]. split; [exact D|]. split; [exact D'|]. split; [exact O|]. split; [rewrite O, O'; reflexivity|]. split; [repeat constructor; lra|].
  split; [exact M1|]. split; [exact M2|]. split; [unfold d_table; cbn [bind]; rewrite E1; reflexivity|]. split; [unfold d_table; cbn [bind]; rewrite E1'; reflexivity|].
  split; [cbn; lra|]. split; [cbn; lra|]. split; [exact Ex|]. split; [exact Ex'|]. unfold all_data, cps_d, total. rewrite !Rsum_cons, !Rsum_nil. lra.
Qed.
Print Assumptions C102_met.
