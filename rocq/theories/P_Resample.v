(** * Property C96: a finer time resolution that adds no information does not change the analysis. Exact arithmetic.

    [refine m r] (SpecResample): every slice of [r] divided into [m] slices with an equal share; [finer m (i, e)]: the interval of
    the finer axis that covers the same time. [o_table], [o_ntable] (SpecShape): the table after computeQualities(), and after
    normalize() too. *)
From Coq Require Import Reals Lra Lia.
From Verif Require Import Base BaseFacts Arith Quality Utm UtmFacts UtmProofs SpecParts SpecInfo SpecData SpecShape SpecResample Values Qualities Partitions Partitioners
  InfoFacts OQual OFacts LexR OInfo OReal OProofs DataFacts DataCons ODataProofs P_Ordered P_OrderedData P_Nested P_Mirror KeepFacts KeepSlices P_Keep ResampleFacts ResampleBest.

Notation zlen m := (Z.of_nat m).

Lemma o_table_data : forall (v : ovalues RA) rows t, odata_ok (P := Rpar) v rows -> o_table RA v = Ok (Some t) -> otable (P := Rpar) t (ov_osize v) rows.
Proof.
  intros v rows t D E. change RA with (RP Rpar) in *. destruct (o_compute_data Rpar v rows D) as (t1 & E1 & T). unfold o_table in E. rewrite E1 in E. cbn [bind oq_table] in E. inversion E; subst t1. exact T.
Qed.
Lemma o_ntable_data : forall (v : ovalues RA) rows t, odata_ok (P := Rpar) v rows -> 1 <= ov_osize v -> o_ntable RA v = Ok (Some t) ->
  urepr t (ov_osize v) (fun i j => @mkQ RA (/ ogain rows 0 (ov_osize v - 1) * ogain rows i j)%R (/ oloss rows 0 (ov_osize v - 1) * oloss rows i j)%R).
Proof.
  intros v rows t D H1 E. change RA with (RP Rpar) in *. destruct (o_compute_data Rpar v rows D) as (t1 & E1 & T1). unfold o_ntable in E. rewrite E1 in E. cbn [bind] in E.
  destruct (o_normalized Rpar v rows t1 D H1 T1) as (t2 & E2 & T2). rewrite E2 in E. cbn [bind oq_table] in E. inversion E; subst t2.
  eapply urepr_ext; [exact (otable_norm_repr Rpar _ _ _ (D_n Rpar v rows D) T2)|]. intros i j _ _. cbn beta. unfold Rdiv. f_equal; change (num (RP Rpar)) with R; apply Rmult_comm.
Qed.
Lemma repr1 : forall (t : utm (quality RA)) n rows, 0 <= n <= 65535 -> otable (P := Rpar) t n rows -> urepr t n (fun i j => @mkQ RA (1 * ogain rows i j)%R (1 * oloss rows i j)%R).
Proof.
  intros t n rows B T. change RA with (RP Rpar) in *. eapply urepr_ext; [exact (otable_repr Rpar t n rows B T)|]. intros i j _ _. cbn beta. f_equal; change (num (RP Rpar)) with R; lra.
Qed.

(** What is read in the table, on the intervals of the coarse axis. *)
Theorem C96_table : forall m (v v' : ovalues RA) rows t t', (0 < m)%nat -> odata_ok (P := Rpar) v rows -> Forall nonneg rows ->
  odata_ok (P := Rpar) v' (map (refine m) rows) -> ov_osize v' = ov_osize v * zlen m -> o_table RA v = Ok (Some t) -> o_table RA v' = Ok (Some t') ->
  forall i j, 0 <= i <= j -> j < ov_osize v -> exists q q', u_get t i j = Ok q /\ u_get t' (fst (finer m (i, j))) (snd (finer m (i, j))) = Ok q' /\
    gain q' = (gain q + log2 (INR m) * Rsum (fun r => total (slice r i j)) rows)%R /\ loss q' = loss q.
Proof.
  intros m v v' rows t t' Hm D NN D' En Et Et' i j Hi Hj. pose proof (o_table_data _ _ _ D Et) as T. pose proof (o_table_data _ _ _ D' Et') as T'. rewrite En in T'.
  exists (@mkQ RA (ogain rows i j) (oloss rows i j)), (@mkQ RA (ogain (map (refine m) rows) (i * zlen m) (j * zlen m + zlen m - 1)) (oloss (map (refine m) rows) (i * zlen m) (j * zlen m + zlen m - 1))).
  split; [apply (proj2 T); lia|]. unfold finer. cbn [fst snd gain loss]. split; [apply (proj2 T'); nia|].
  rewrite (fine_gain m rows) by (auto; lia). rewrite (fine_loss m rows) by (auto; lia). split; reflexivity.
Qed.
Print Assumptions C96_table.

(** The best value differs by a constant that depends on neither the partition nor its parts. *)
Theorem C96_value : forall m (v v' : ovalues RA) rows t t' (p : R) x x', (0 < m)%nat -> odata_ok (P := Rpar) v rows -> Forall nonneg rows ->
  odata_ok (P := Rpar) v' (map (refine m) rows) -> ov_osize v' = ov_osize v * zlen m -> o_table RA v = Ok (Some t) -> o_table RA v' = Ok (Some t') ->
  (0 < p < 1)%R -> o_best RA t p = Ok x -> o_best RA t' p = Ok x' ->
  (p * gain (on_quality x') - (1 - p) * loss (on_quality x') = p * gain (on_quality x) - (1 - p) * loss (on_quality x) + p * log2 (INR m) * all_data rows)%R.
Proof.
  intros m v v' rows t t' p x x' Hm D NN D' En Et Et' Hp E E'. assert (Hn : 0 <= ov_osize v <= 65535) by exact (D_n Rpar v rows D). assert (Hn' : 0 <= ov_osize v * zlen m <= 65535) by (rewrite <- En; exact (D_n Rpar v' _ D')).
  pose proof (o_table_data _ _ _ D Et) as T. pose proof (o_table_data _ _ _ D' Et') as T'. rewrite En in T'.
  pose proof (value_prf Rpar m rows (ov_osize v) 1 1 1 1 p p Hm Hn (proj2 Hn') (D_len Rpar v rows D) NN ltac:(lra) ltac:(lra) ltac:(lra) ltac:(cbn; lra) ltac:(cbn; lra) ltac:(cbn; lra) ltac:(cbn; lra)
    t t' x x' (repr1 t _ _ Hn T) (repr1 t' _ _ Hn' T') E E') as K. cbn [pp_num pp_compl Rpar] in K. change (num (RP Rpar)) with R in K.
  apply (Rmult_eq_reg_l (1 - p)); [|lra]. change RA with (RP Rpar). change (num (RP Rpar)) with R. etransitivity; [|etransitivity; [exact (f_equal (fun z => z) K)|]]; ring.
Qed.
Print Assumptions C96_value.

(** With some data in every slice, the parts are the same intervals of time. *)
Theorem C96_parts : forall m (v v' : ovalues RA) rows t t' (p : R) x x', (0 < m)%nat -> odata_ok (P := Rpar) v rows -> Forall nonneg rows ->
  odata_ok (P := Rpar) v' (map (refine m) rows) -> ov_osize v' = ov_osize v * zlen m -> o_table RA v = Ok (Some t) -> o_table RA v' = Ok (Some t') ->
  (forall s, 0 <= s < ov_osize v -> exists r, In r rows /\ elt 0%R r s <> 0%R) ->
  (0 < p < 1)%R -> o_best RA t p = Ok x -> o_best RA t' p = Ok x' ->
  map (fun q => (op_start q, op_end q)) (on_parts x') = map (finer m) (map (fun q => (op_start q, op_end q)) (on_parts x)) /\
  gain (on_quality x') = (gain (on_quality x) + log2 (INR m) * all_data rows)%R /\ loss (on_quality x') = loss (on_quality x).
Proof.
  intros m v v' rows t t' p x x' Hm D NN D' En Et Et' Busy Hp E E'. assert (Hn : 0 <= ov_osize v <= 65535) by exact (D_n Rpar v rows D). assert (Hn' : 0 <= ov_osize v * zlen m <= 65535) by (rewrite <- En; exact (D_n Rpar v' _ D')).
  pose proof (o_table_data _ _ _ D Et) as T. pose proof (o_table_data _ _ _ D' Et') as T'. rewrite En in T'.
  destruct (parts_prf Rpar m rows (ov_osize v) 1 1 1 1 p p Hm Hn (proj2 Hn') (D_len Rpar v rows D) NN ltac:(lra) ltac:(lra) ltac:(lra) ltac:(lra) ltac:(cbn; lra) ltac:(cbn; lra) ltac:(cbn; lra) ltac:(cbn; lra) ltac:(cbn; lra)
    t t' x x' (repr1 t _ _ Hn T) (repr1 t' _ _ Hn' T') E E' Busy) as (K1 & K2 & K3). split; [exact K1|].
  destruct (o_total Rpar t _ _ _ p x Hn (repr1 t _ _ Hn T) E) as (_ & Q1 & Q2). destruct (o_total Rpar t' _ _ _ p x' Hn' (repr1 t' _ _ Hn' T') E') as (_ & Q3 & Q4).
  rewrite (Rsum_scal _ _ 1) in Q1. rewrite (Rsum_scal _ _ 1) in Q2. rewrite (Rsum_scal _ _ 1) in Q3. rewrite (Rsum_scal _ _ 1) in Q4. split.
  - etransitivity; [exact Q3|]. rewrite Rmult_1_l. etransitivity; [exact K2|]. f_equal. symmetry. etransitivity; [exact Q1|apply Rmult_1_l].
  - etransitivity; [exact Q4|]. rewrite Rmult_1_l. etransitivity; [exact K3|]. symmetry. etransitivity; [exact Q2|apply Rmult_1_l].
Qed.
Print Assumptions C96_parts.

(** After normalize() the slider must be moved, because the gain of the whole (by which it divides) has changed: the parts at [p]
    are those of the finer axis at p' = p G' / (p G' + (1 - p) G), where G and G' are the gains of the whole. *)
Theorem C96_normal : forall m (v v' : ovalues RA) rows t t' (p p' : R) x x', (0 < m)%nat -> odata_ok (P := Rpar) v rows -> Forall nonneg rows ->
  odata_ok (P := Rpar) v' (map (refine m) rows) -> ov_osize v' = ov_osize v * zlen m -> o_ntable RA v = Ok (Some t) -> o_ntable RA v' = Ok (Some t') ->
  (forall s, 0 <= s < ov_osize v -> exists r, In r rows /\ elt 0%R r s <> 0%R) ->
  let G := ogain rows 0 (ov_osize v - 1) in let G' := ogain (map (refine m) rows) 0 (ov_osize v' - 1) in
  (0 < G)%R -> (0 < oloss rows 0 (ov_osize v - 1))%R -> (0 < p < 1)%R -> p' = (p * G' / (p * G' + (1 - p) * G))%R ->
  o_best RA t p = Ok x -> o_best RA t' p' = Ok x' ->
  (p <= p' < 1)%R /\ map (fun q => (op_start q, op_end q)) (on_parts x') = map (finer m) (map (fun q => (op_start q, op_end q)) (on_parts x)) /\
  loss (on_quality x') = loss (on_quality x).
Proof.
  intros m v v' rows t t' p p' x x' Hm D NN D' En Et Et' Busy G G' PG PL Hp Ep E E'. assert (Hn : 0 <= ov_osize v <= 65535) by exact (D_n Rpar v rows D). assert (Hn' : 0 <= ov_osize v * zlen m <= 65535) by (rewrite <- En; exact (D_n Rpar v' _ D')).
  assert (H1 : 1 <= ov_osize v).
  { destruct (Z_le_gt_dec 1 (ov_osize v)); [assumption|exfalso]. replace (ov_osize v) with 0 in PL by lia. assert (Q : oloss rows 0 (0 - 1) = 0%R); [|lra].
    unfold oloss. apply Rsum_zero. intros r _. change (loss_of [] = 0%R). unfold loss_of. rewrite gain_of_nil, total_nil. lra. }
  assert (HM : 1 <= zlen m) by lia.
  assert (H1' : 1 <= ov_osize v') by (rewrite En; nia).
  pose proof (o_ntable_data _ _ _ D H1 Et) as T. pose proof (o_ntable_data _ _ _ D' H1' Et') as T'.
  assert (EG : G' = (G + log2 (INR m) * all_data rows)%R).
  { unfold G', G. rewrite En. replace (ov_osize v * zlen m - 1) with ((ov_osize v - 1) * zlen m + zlen m - 1) by lia. rewrite <- (Z.mul_0_l (zlen m)) at 1.
    rewrite (fine_gain m rows) by (auto; lia). rewrite (otot_all m rows (ov_osize v)) by (auto; exact (D_len Rpar v rows D)). reflexivity. }
  assert (EL : oloss (map (refine m) rows) 0 (ov_osize v' - 1) = oloss rows 0 (ov_osize v - 1)).
  { rewrite En. replace (ov_osize v * zlen m - 1) with ((ov_osize v - 1) * zlen m + zlen m - 1) by lia. rewrite <- (Z.mul_0_l (zlen m)) at 1. rewrite (fine_loss m rows) by (auto; lia). reflexivity. }
  assert (GG : (G <= G')%R).
  { rewrite EG. assert (0 <= log2 (INR m) * all_data rows)%R; [|lra]. apply Rmult_le_pos.
    - unfold log2, Rdiv. apply Rmult_le_pos; [|left; apply Rinv_0_lt_compat; exact ln2_pos].
      assert (1 <= INR m)%R as Im by (change 1%R with (INR 1); apply le_INR; lia). destruct (Rle_lt_or_eq_dec _ _ Im) as [I|I]; [left; rewrite <- ln_1; apply ln_increasing; lra|rewrite <- I, ln_1; lra].
    - unfold all_data. apply Rsum_nonneg. intros r Ir. apply total_nonneg. exact (proj1 (Forall_forall _ _) NN r Ir). }
  assert (P1 : (0 < p * G')%R) by (apply Rmult_lt_0_compat; lra). assert (P2 : (0 < (1 - p) * G)%R) by (apply Rmult_lt_0_compat; lra).
  assert (Ec : (1 - p' = (1 - p) * G / (p * G' + (1 - p) * G))%R) by (rewrite Ep; field; lra).
  assert (Pp : (0 < p')%R) by (rewrite Ep; apply Rdiv_lt_0_compat; lra). assert (Pc : (0 < 1 - p')%R) by (rewrite Ec; apply Rdiv_lt_0_compat; lra).
  assert (Bal : (p * / G * ((1 - p') * / oloss rows 0 (ov_osize v - 1)) = p' * / G' * ((1 - p) * / oloss rows 0 (ov_osize v - 1)))%R).
  { rewrite Ec, Ep. field. repeat split; lra. }
  split.
  { split; [|lra]. apply (Rmult_le_reg_r (p * G' + (1 - p) * G)); [lra|]. rewrite Ep at 1. unfold Rdiv. rewrite (Rmult_assoc (p * G')), Rinv_l by lra.
    rewrite Rmult_1_r. assert (p * (1 - p) * G <= p * (1 - p) * G')%R by (apply Rmult_le_compat_l; [nra|lra]). nra. }
  fold G in T. fold G' in T'. rewrite EL in T'. rewrite En in T'.
  set (Lw := oloss rows 0 (ov_osize v - 1)) in *.
  destruct (parts_prf Rpar m rows (ov_osize v) (/ G) (/ Lw) (/ G') (/ Lw) p p' Hm Hn (proj2 Hn') (D_len Rpar v rows D) NN ltac:(apply Rinv_0_lt_compat; lra) ltac:(apply Rinv_0_lt_compat; lra) ltac:(apply Rinv_0_lt_compat; lra) ltac:(apply Rinv_0_lt_compat; lra) ltac:(cbn; lra) ltac:(cbn; lra) ltac:(cbn; lra) ltac:(cbn; lra) Bal
    t t' x x' T T' E E' Busy) as (K1 & _ & K3). split; [exact K1|].
  destruct (o_total Rpar t _ _ _ p x Hn T E) as (_ & _ & Q2). destruct (o_total Rpar t' _ _ _ p' x' Hn' T' E') as (_ & _ & Q4).
  rewrite (Rsum_scal _ _ (/ Lw)) in Q2. rewrite (Rsum_scal _ _ (/ Lw)) in Q4. etransitivity; [exact Q4|]. etransitivity; [exact (f_equal (Rmult (/ Lw)) K3)|]. symmetry. exact Q2.
Qed.
Print Assumptions C96_normal.

(** ** A concrete case: one component, two slices 3 and 1, divided in two: 3/2, 3/2, 1/2, 1/2. *)
Definition rs_rows : list (list R) := [[3; 1]]%R.
Lemma rs_whole : (0 < ogain rs_rows 0 1)%R /\ (0 < oloss rs_rows 0 1)%R.
Proof.
  pose proof log2_3_bounds as [B1 B2].
  assert (Lg1 : log2 1 = 0%R) by (unfold log2; rewrite ln_1; unfold Rdiv; apply Rmult_0_l).
  assert (X1 : xlog2 1 = 0%R) by (unfold xlog2; destruct (Rlt_dec 0 1); [rewrite Lg1|]; lra).
  assert (X3 : xlog2 3 = (3 * log2 3)%R) by (unfold xlog2; destruct (Rlt_dec 0 3); lra).
  assert (T : total [3; 1]%R = 4%R) by (rewrite !total_cons, total_nil; lra).
  assert (G : gain_of [3; 1]%R = (8 - 3 * log2 3)%R) by (unfold gain_of; rewrite T, !Rsum_cons, Rsum_nil, X1, X3, log2_4'; destruct (Rlt_dec 0 4); lra).
  assert (L : loss_of [3; 1]%R = (3 * log2 3 - 4)%R) by (unfold loss_of; rewrite G, T; unfold vlen; cbn [length]; change (Z.of_nat 2) with 2; rewrite log2_2; lra).
  unfold ogain, oloss, rs_rows. rewrite !Rsum_cons, !Rsum_nil. change (slice [3; 1]%R 0 1) with [3; 1]%R. rewrite G, L. lra.
Qed.
Example C96_met : exists t t' x x' tn tn' xn xn' (p' : R),
  let v := ov2_of RA rs_rows in let v' := ov2_of RA (map (refine 2) rs_rows) in
  odata_ok (P := Rpar) v rs_rows /\ Forall nonneg rs_rows /\ odata_ok (P := Rpar) v' (map (refine 2) rs_rows) /\ ov_osize v' = ov_osize v * zlen 2 /\ ov_osize v' = 4 /\
  (forall s, 0 <= s < ov_osize v -> exists r, In r rs_rows /\ elt 0%R r s <> 0%R) /\
  o_table RA v = Ok (Some t) /\ o_table RA v' = Ok (Some t') /\ o_best RA t (1 / 2)%R = Ok x /\ o_best RA t' (1 / 2)%R = Ok x' /\
  (0 < ogain rs_rows 0 (ov_osize v - 1))%R /\ (0 < oloss rs_rows 0 (ov_osize v - 1))%R /\
  p' = (1 / 2 * ogain (map (refine 2) rs_rows) 0 (ov_osize v' - 1) / (1 / 2 * ogain (map (refine 2) rs_rows) 0 (ov_osize v' - 1) + (1 - 1 / 2) * ogain rs_rows 0 (ov_osize v - 1)))%R /\
  o_ntable RA v = Ok (Some tn) /\ o_ntable RA v' = Ok (Some tn') /\ o_best RA tn (1 / 2)%R = Ok xn /\ o_best RA tn' p' = Ok xn'.
Proof.
  set (v := ov2_of RA rs_rows). set (v' := ov2_of RA (map (refine 2) rs_rows)).
  assert (D : odata_ok (P := Rpar) v rs_rows) by (split; [cbn; lia|]; split; [split; cbn; lia|]; apply (ov2_rows Rpar rs_rows); repeat constructor).
  assert (D' : odata_ok (P := Rpar) v' (map (refine 2) rs_rows)) by (split; [cbn; lia|]; split; [split; cbn; lia|]; apply (ov2_rows Rpar (map (refine 2) rs_rows)); repeat constructor).
  destruct (o_compute_data Rpar _ _ D) as (t & E & T). destruct (o_normalized Rpar _ _ t D ltac:(cbn; lia) T) as (tn & En & Tn).
  destruct (o_compute_data Rpar _ _ D') as (t' & E' & T'). destruct (o_normalized Rpar _ _ t' D' ltac:(cbn; lia) T') as (tn' & En' & Tn').
  change (RP Rpar) with RA in *.
  set (p' := (1 / 2 * ogain (map (refine 2) rs_rows) 0 (ov_osize v' - 1) / (1 / 2 * ogain (map (refine 2) rs_rows) 0 (ov_osize v' - 1) + (1 - 1 / 2) * ogain rs_rows 0 (ov_osize v - 1)))%R).
  destruct (C19_ordered_tiles RA t 2 (1 / 2)%R ltac:(lia) (proj1 T)) as (x & Ex & _). destruct (C19_ordered_tiles RA t' 4 (1 / 2)%R ltac:(lia) (proj1 T')) as (x' & Ex' & _).
  destruct (C19_ordered_tiles RA tn 2 (1 / 2)%R ltac:(lia) (proj1 Tn)) as (xn & Exn & _). destruct (C19_ordered_tiles RA tn' 4 p' ltac:(lia) (proj1 Tn')) as (xn' & Exn' & _).
  exists t, t', x, x', tn, tn', xn, xn', p'. cbv zeta. split; [exact D|]. split; [repeat constructor; lra|]. split; [exact D'|]. split; [reflexivity|]. split; [reflexivity|].
  split. { intros s Hs. exists [3; 1]%R. split; [left; reflexivity|]. change (ov_osize v) with 2 in Hs. assert (s = 0 \/ s = 1) as [->| ->] by lia; [change (3 <> 0)%R|change (1 <> 0)%R]; lra. }
  split; [unfold o_table; rewrite E; reflexivity|]. split; [unfold o_table; rewrite E'; reflexivity|]. split; [exact Ex|]. split; [exact Ex'|].
  change (ov_osize v - 1) with 1. destruct rs_whole as [W1 W2]. split; [exact W1|]. split; [exact W2|]. split; [reflexivity|].
  split; [unfold o_ntable; rewrite E; cbn [bind]; rewrite En; reflexivity|]. split; [unfold o_ntable; rewrite E'; cbn [bind]; rewrite En'; reflexivity|]. auto.
Qed.
