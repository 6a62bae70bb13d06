(** * Property C101, spatiotemporal: a concrete hierarchy of two leaves with two slices, each leaf replaced by two. *)
From Coq Require Import Reals Lra Lia List.
From Verif Require Import Base BaseFacts Arith Quality Utm Hierarchy HierarchyFacts HierarchyProofs SpecTree SpecParts SpecInfo SpecData SpecShape SpecResample SpecCopies SpecCopiesS Values Qualities Partitions Partitioners
  TreeFacts TreePath TreeDec DataFacts DataCons CoverFacts InfoFacts DQual DReal LexR OInfo HDataProofs DProofs DDataProofs P_Copies P_CopiesSpatio P_CopiesEx.

Definition cps_d : list (list R) := [[3; 0]; [1; 2]]%R.
Definition cps_d' : list (list R) := [[3 / 2; 0]; [3 / 2; 0]; [1 / 2; 1]; [1 / 2; 1]]%R.

Example C101_spatio_met : (2 <= 2)%nat /\ leaf_copies 2 2 cp_ps 4 cp_ps' cp_s cp_w /\
  exists v v' m m' t t' (x x' : dpartition RA), dv2_of RA cps_d cp_ps = Ok v /\ dv2_of RA cps_d' cp_ps' = Ok v' /\ ddata_ok (P := Rpar) v [cps_d] /\ ddata_ok (P := Rpar) v' [cps_d'] /\
    dv_osize v = 2 /\ dv_osize v' = 2 /\ Forall (Forall nonneg) [cps_d] /\ equal_shares_slices 2 4 cp_w [cps_d] [cps_d'] /\
    m_leaves m = 2 /\ m_parents m = cp_ps /\ m_leaves m' = 4 /\ m_parents m' = cp_ps' /\
    d_table RA (Ok v) = Ok (Some t, m) /\ d_table RA (Ok v') = Ok (Some t', m') /\ (0 <= pp_num Rpar (1 / 2)%R)%R /\ d_best RA t m (1 / 2)%R = Ok x /\ d_best RA t' m' (1 / 2)%R = Ok x'.
Proof.
  split; [lia|]. split; [exact cp_copies|].
  assert (V : valid_tree 2 cp_ps 2) by (apply valid_treeb_ok; reflexivity). assert (V' : valid_tree 4 cp_ps' 6) by (apply valid_treeb_ok; reflexivity).
  assert (U : uniform_depth 2 cp_ps 2) by (apply (uniformb_ok 1); reflexivity). assert (U' : uniform_depth 4 cp_ps' 6) by (apply (uniformb_ok 2); reflexivity).
  destruct (dv2_data Rpar cp_ps 2 ltac:(cbv; discriminate) cps_d V U ltac:(repeat constructor) ltac:(change (size2 cps_d) with 2; lia)) as (v & E & (M1 & M2 & _) & O & D).
  destruct (dv2_data Rpar cp_ps' 6 ltac:(cbv; discriminate) cps_d' V' U' ltac:(repeat constructor) ltac:(change (size2 cps_d') with 2; lia)) as (v' & E' & (M1' & M2' & _) & O' & D').
  destruct (d_compute_prf Rpar v _ D) as (t & E1 & T). destruct (d_compute_prf Rpar v' _ D') as (t' & E1' & T'). pose proof D as (_ & Hn & W & _). pose proof D' as (_ & Hn' & W' & _).
  pose proof T as (S0 & F0 & _). pose proof T' as (S0' & F0' & _).
  destruct (d_cover_prf (dv_meta v) W RA t _ (1 / 2)%R Hn S0 F0) as (x & Ex & _). destruct (d_cover_prf (dv_meta v') W' RA t' _ (1 / 2)%R Hn' S0' F0') as (x' & Ex' & _).
  exists v, v', (dv_meta v), (dv_meta v'), t, t', x, x'. change RA with (RP Rpar) in *.
  split; [exact E|]. split; [exact E'|]. split; [exact D|]. split; [exact D'|]. split; [exact O|]. split; [exact O'|]. split; [repeat constructor; lra|]. split.
  { constructor; [|constructor]. intros y Ly. unfold leaf in Ly. assert (y = 0 \/ y = 1 \/ y = 2 \/ y = 3) as [->|[->|[->| ->]]] by lia; change (INR 2) with 2%R;
      [change ([3 / 2; 0] = [3 / 2; 0 / 2])%R|change ([3 / 2; 0] = [3 / 2; 0 / 2])%R|change ([1 / 2; 1] = [1 / 2; 2 / 2])%R|change ([1 / 2; 1] = [1 / 2; 2 / 2])%R]; repeat (apply f_equal2; [lra|]); reflexivity. }
  split; [exact M1|]. split; [exact M2|]. split; [exact M1'|]. split; [exact M2'|].
  split; [unfold d_table; cbn [bind]; rewrite E1; reflexivity|]. split; [unfold d_table; cbn [bind]; rewrite E1'; reflexivity|]. split; [cbn; lra|]. split; [exact Ex|exact Ex'].
Qed.
Print Assumptions C101_spatio_met.
