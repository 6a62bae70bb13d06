(** * Property C97: concrete cases that meet the hypotheses of its theorems, and data for which the change is strict. *)
From Coq Require Import Reals Lra Lia.
From Verif Require Import Base BaseFacts Arith Quality Utm UtmFacts UtmProofs Hierarchy HierarchyFacts SpecTree SpecParts SpecInfo SpecData SpecShape SpecTypes Values Qualities Partitions Partitioners
  TreeFacts TreePath InfoFacts OQual HQual DQual OFacts LexR OInfo OReal OProofs HProofs DProofs DataFacts DataCons ODataProofs HDataProofs DDataProofs P_Ordered P_OrderedData P_HierData P_SpatioData P_SpatioNot HierarchyProofs TypesFacts TypesCells P_Types.

(** Two types of events in the first group, the second twice as frequent as the first; one type in the second group. *)
Definition types_gs : list (list (list R)) := [[[1; 3]; [2; 6]]; [[1; 0]]]%R.
Example C97_ordered_met : exists t, let v := ov2_of RA (concat types_gs) in let v' := ov2_of RA (map (add_rows 2) types_gs) in
  odata_ok (P := Rpar) v (concat types_gs) /\ odata_ok (P := Rpar) v' (map (add_rows 2) types_gs) /\ Forall nonneg (concat types_gs) /\ Forall multiples types_gs /\
  o_table RA v = Ok (Some t) /\ o_table RA v' = Ok (Some t).
Proof.
  set (v := ov2_of RA (concat types_gs)). set (v' := ov2_of RA (map (add_rows 2) types_gs)).
  assert (D : odata_ok (P := Rpar) v (concat types_gs)).
  { split; [cbn; lia|]. split; [split; cbn; lia|]. apply (ov2_rows Rpar (concat types_gs)). repeat constructor. }
  assert (D' : odata_ok (P := Rpar) v' (map (add_rows 2) types_gs)).
  { split; [cbn; lia|]. split; [split; cbn; lia|]. apply (ov2_rows Rpar (map (add_rows 2) types_gs)). repeat constructor. }
  assert (NN : Forall nonneg (concat types_gs)) by (repeat constructor; lra).
  assert (M : Forall multiples types_gs).
  { constructor; [|constructor; [|constructor]].
    - exists [1; 3]%R. split; [repeat constructor; lra|]. intros r [<-|[<-|[]]]; [exists 1%R|exists 2%R]; (split; [lra|]); cbn [map]; repeat f_equal; lra.
    - exists [1; 0]%R. split; [repeat constructor; lra|]. intros r [<-|[]]. exists 1%R. split; [lra|]. cbn [map]. repeat f_equal; lra. }
  destruct (o_compute_data Rpar v _ D) as (t & E & T). exists t. cbv zeta. do 4 (split; [assumption|]).
  assert (Et : o_table RA v = Ok (Some t)) by (unfold o_table; change RA with (RP Rpar); rewrite E; reflexivity). split; [exact Et|].
  etransitivity; [symmetry; exact (proj1 (C97_ordered_multiples Rpar v v' types_gs D NN D' eq_refl M))|exact Et].
Qed.

(** Two types of events that never happen in the same slice: together they look constant and their sum loses nothing. *)
Definition strict_gs : list (list (list R)) := [[[1; 0]; [0; 1]]]%R.
Example C97_ordered_strict : exists t t' q q', let v := ov2_of RA (concat strict_gs) in let v' := ov2_of RA (map (add_rows 2) strict_gs) in
  odata_ok (P := Rpar) v (concat strict_gs) /\ odata_ok (P := Rpar) v' (map (add_rows 2) strict_gs) /\ Forall nonneg (concat strict_gs) /\
  o_table RA v = Ok (Some t) /\ o_table RA v' = Ok (Some t') /\ u_get t 0 1 = Ok q /\ u_get t' 0 1 = Ok q' /\
  (gain q = 0 /\ gain q' = 2)%R /\ (loss q = 2 /\ loss q' = 0)%R.
Proof.
  set (v := ov2_of RA (concat strict_gs)). set (v' := ov2_of RA (map (add_rows 2) strict_gs)).
  assert (D : odata_ok (P := Rpar) v (concat strict_gs)).
  { split; [cbn; lia|]. split; [split; cbn; lia|]. apply (ov2_rows Rpar (concat strict_gs)). repeat constructor. }
  assert (D' : odata_ok (P := Rpar) v' (map (add_rows 2) strict_gs)).
  { split; [cbn; lia|]. split; [split; cbn; lia|]. apply (ov2_rows Rpar (map (add_rows 2) strict_gs)). repeat constructor. }
  assert (NN : Forall nonneg (concat strict_gs)) by (repeat constructor; lra).
  destruct (o_compute_data Rpar v _ D) as (t & E & T). destruct (o_compute_data Rpar v' _ D') as (t' & E' & T'). change (RP Rpar) with RA in *.
  assert (Et : o_table RA v = Ok (Some t)) by (unfold o_table; rewrite E; reflexivity).
  assert (Et' : o_table RA v' = Ok (Some t')) by (unfold o_table; rewrite E'; reflexivity).
  eexists t, t', _, _. cbv zeta. do 5 (split; [assumption|]). split; [apply (proj2 T); change (ov_osize v) with 2; lia|]. split; [apply (proj2 T'); change (ov_osize v') with 2; lia|]. cbn [gain loss].
  assert (X0 : xlog2 0 = 0%R) by (unfold xlog2; destruct (Rlt_dec 0 0); lra).
  assert (Lg1 : log2 1 = 0%R) by (unfold log2; rewrite ln_1; unfold Rdiv; apply Rmult_0_l).
  assert (X1 : xlog2 1 = 0%R) by (unfold xlog2; destruct (Rlt_dec 0 1); [rewrite Lg1|]; lra).
  assert (G1 : forall a b : R, (a = 1 /\ b = 0)%R \/ (a = 0 /\ b = 1)%R -> gain_of [a; b] = 0%R /\ loss_of [a; b] = 1%R).
  { intros a b H. assert (Tt : total [a; b] = 1%R) by (rewrite !total_cons, total_nil; destruct H as [[-> ->]|[-> ->]]; lra).
    assert (G : gain_of [a; b] = 0%R). { unfold gain_of. rewrite Tt, !Rsum_cons, Rsum_nil. destruct H as [[-> ->]|[-> ->]]; rewrite X0, X1, ?Lg1; destruct (Rlt_dec 0 1); lra. }
    split; [exact G|]. unfold loss_of. rewrite G, Tt. unfold vlen. cbn [length]. change (Z.of_nat 2) with 2. rewrite log2_2. lra. }
  assert (G2 : forall a b : R, a = 1%R -> b = 1%R -> gain_of [a; b] = 2%R /\ loss_of [a; b] = 0%R).
  { intros a b -> ->. assert (Tt : total [1; 1]%R = 2%R) by (rewrite !total_cons, total_nil; lra).
    assert (G : gain_of [1; 1]%R = 2%R). { unfold gain_of. rewrite Tt, !Rsum_cons, Rsum_nil, X1, log2_2. destruct (Rlt_dec 0 2); lra. }
    split; [exact G|]. unfold loss_of. rewrite G, Tt. unfold vlen. cbn [length]. change (Z.of_nat 2) with 2. rewrite log2_2. lra. }
  destruct (G1 1%R 0%R ltac:(auto)) as [A1 A2]. destruct (G1 0%R 1%R ltac:(auto)) as [B1 B2]. destruct (G2 (1 + (0 + 0))%R (0 + (1 + 0))%R ltac:(lra) ltac:(lra)) as [C1 C2].
  unfold ogain, oloss.
  change (concat strict_gs) with [[1; 0]; [0; 1]]%R. change (map (add_rows 2) strict_gs) with [[1 + (0 + 0); 0 + (1 + 0)]]%R. rewrite !Rsum_cons, !Rsum_nil.
  change (slice [1; 0]%R 0 1) with [1; 0]%R. change (slice [0; 1]%R 0 1) with [0; 1]%R. change (slice [1 + (0 + 0); 0 + (1 + 0)]%R 0 1) with [1 + (0 + 0); 0 + (1 + 0)]%R.
  rewrite A1, A2, B1, B2, C1, C2. repeat split; lra.
Qed.

(** Four leaves in two groups; two proportional types in the first group, one in the second. *)
Definition types_hgs : list (list (list R)) := [[[1; 3; 0; 2]; [2; 6; 0; 4]]; [[1; 0; 5; 5]]]%R.
Example C97_hier_met : exists v v', hv2_of RA [[1; 2; 1]; [3; 6; 0]; [0; 0; 5]; [2; 4; 5]]%R [4; 4; 5; 5; 6; 6; -1] = Ok v /\
  hdata_ok (P := Rpar) v (concat types_hgs) /\ hdata_ok (P := Rpar) v' (map (add_rows 4) types_hgs) /\ hv_meta v' = hv_meta v /\ Forall nonneg (concat types_hgs) /\ Forall multiples types_hgs.
Proof.
  destruct tree4_prf as [V U].
  destruct (hv2_data Rpar [4; 4; 5; 5; 6; 6; -1] 6 ltac:(cbv; discriminate) [[1; 2; 1]; [3; 6; 0]; [0; 0; 5]; [2; 4; 5]]%R V U ltac:(repeat constructor)) as (v & E & _ & D).
  destruct (hv2_data Rpar [4; 4; 5; 5; 6; 6; -1] 6 ltac:(cbv; discriminate) [[1 + (2 + 0); 1 + 0]; [3 + (6 + 0); 0 + 0]; [0 + (0 + 0); 5 + 0]; [2 + (4 + 0); 5 + 0]]%R V U ltac:(repeat constructor)) as (v' & E' & _ & D').
  exists v, v'. split; [exact E|]. split; [exact D|]. split; [exact D'|].
  split. { unfold hv2_of in E, E'. change (size1 _) with 4 in E. change (size1 _) with 4 in E'. destruct (meta_build 4 [4; 4; 5; 5; 6; 6; -1]) as [m| |]; cbn [bind] in E, E'; inversion E; inversion E'; reflexivity. }
  split; [repeat constructor; lra|]. constructor; [|constructor; [|constructor]].
  - exists [1; 3; 0; 2]%R. split; [repeat constructor; lra|]. intros r [<-|[<-|[]]]; [exists 1%R|exists 2%R]; (split; [lra|]); cbn [map]; repeat f_equal; lra.
  - exists [1; 0; 5; 5]%R. split; [repeat constructor; lra|]. intros r [<-|[]]. exists 1%R. split; [lra|]. cbn [map]. repeat f_equal; lra.
Qed.

(** Two leaves, two slices; two proportional types added up. *)
Definition types_dgs : list (list (list (list R))) := [[[[1; 3]; [0; 2]]; [[2; 6]; [0; 4]]]]%R.
Example C97_spatio_met : exists v v', dv3_of RA [[[1; 3]; [2; 6]]; [[0; 2]; [0; 4]]]%R exn_ps = Ok v /\
  ddata_ok (P := Rpar) v (concat types_dgs) /\ ddata_ok (P := Rpar) v' (map (add_comps 2 2) types_dgs) /\ dv_meta v' = dv_meta v /\ dv_osize v' = dv_osize v /\
  Forall (Forall nonneg) (concat types_dgs) /\ Forall multiples2 types_dgs.
Proof.
  destruct exn_tree as [V U].
  destruct (dv3_data Rpar exn_ps 2 ltac:(cbv; discriminate) [[[1; 3]; [2; 6]]; [[0; 2]; [0; 4]]]%R V U ltac:(repeat constructor) ltac:(cbv; split; discriminate)) as (v & E & _ & O & D).
  destruct (dv2_data Rpar exn_ps 2 ltac:(cbv; discriminate) [[1 + (2 + 0); 3 + (6 + 0)]; [0 + (0 + 0); 2 + (4 + 0)]]%R V U ltac:(repeat constructor) ltac:(cbv; split; discriminate)) as (v' & E' & _ & O' & D').
  exists v, v'. split; [exact E|]. split; [exact D|]. split; [exact D'|].
  split. { unfold dv3_of in E. unfold dv2_of in E'. change (size1 _) with 2 in E. change (size1 _) with 2 in E'. destruct (meta_build 2 exn_ps) as [m| |]; cbn [bind] in E, E'; inversion E; inversion E'; reflexivity. }
  split; [etransitivity; [exact O'|symmetry; exact O]|]. split; [repeat constructor; lra|]. constructor; [|constructor].
  exists [[1; 3]; [0; 2]]%R. split; [repeat constructor; lra|]. intros r [<-|[<-|[]]]; [exists 1%R|exists 2%R]; (split; [lra|]); cbn [map]; repeat f_equal; lra.
Qed.
