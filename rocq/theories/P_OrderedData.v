(** * Properties C07, C08, C09, C10, C15, C18, C28, C48, C49 for ordered data.

    [oq_compute A (oq_ofValues A v)] is OQualities(v).computeQualities(); [odata_ok v rows] says that [v] holds the component
    rows [rows] (equally long, at most 65535 values each); [ogain rows i j], [oloss rows i j] are the gain and loss of the
    interval [i..j] defined in SpecInfo/SpecData. *)
From Coq Require Import Reals Lra Lia.
From Verif Require Import Base Arith Quality Utm UtmProofs SpecParts SpecInfo SpecData Values Qualities Partitions Partitioners
  InfoFacts OInfo DataFacts OProofs ODataProofs.

(** ** C07 *)
Theorem C07_ordered_qualities : forall P (v : ovalues (RP P)) rows, odata_ok v rows ->
  exists t, oq_compute (RP P) (oq_ofValues (RP P) v) = Ok (mkOQ (RP P) (Some v) (Some t)) /\ otable t (ov_osize v) rows.
Proof. exact o_compute_data. Qed.
Print Assumptions C07_ordered_qualities.

(** The same for the four constructors from (rectangular) nested vectors. *)
Theorem C07_1d : forall P (d : list R), vlen d <= 65535 ->
  exists t, oq_compute (RP P) (oq_ofValues (RP P) (ov1_of (RP P) d)) = Ok (mkOQ (RP P) (Some (ov1_of (RP P) d)) (Some t)) /\
    otable t (vlen d) [d].
Proof.
  intros P d H. apply (o_compute_data P (ov1_of (RP P) d)). split; [cbn; lia|]. split; [|apply ov1_rows].
  split; [apply size_nonneg|exact H].
Qed.
Theorem C07_2d : forall P (d : list (list R)), rect2 d (size2 d) -> size2 d <= 65535 ->
  exists t, oq_compute (RP P) (oq_ofValues (RP P) (ov2_of (RP P) d)) = Ok (mkOQ (RP P) (Some (ov2_of (RP P) d)) (Some t)) /\
    otable t (size2 d) d.
Proof.
  intros P d R H. apply (o_compute_data P (ov2_of (RP P) d)). split; [apply size_nonneg|]. split; [|apply ov2_rows; auto].
  split; [apply size2_nonneg|exact H].
Qed.
Theorem C07_3d : forall P (d : list (list (list R))), rect3 d (size2 d) (size3 d) -> size3 d <= 65535 ->
  exists t, oq_compute (RP P) (oq_ofValues (RP P) (ov3_of (RP P) d)) = Ok (mkOQ (RP P) (Some (ov3_of (RP P) d)) (Some t)) /\
    otable t (size3 d) (concat d).
Proof.
  intros P d R H. apply (o_compute_data P (ov3_of (RP P) d)).
  split; [apply Z.mul_nonneg_nonneg; [apply size_nonneg|apply size2_nonneg]|]. split; [|apply ov3_rows; auto].
  split; [apply size3_nonneg|exact H].
Qed.
Theorem C07_4d : forall P (d : list (list (list (list R)))), rect4 d (size2 d) (size3 d) (size4 d) -> size4 d <= 65535 ->
  exists t, oq_compute (RP P) (oq_ofValues (RP P) (ov4_of (RP P) d)) = Ok (mkOQ (RP P) (Some (ov4_of (RP P) d)) (Some t)) /\
    otable t (size4 d) (concat (concat d)).
Proof.
  intros P d R H. apply (o_compute_data P (ov4_of (RP P) d)).
  split; [apply Z.mul_nonneg_nonneg; [apply Z.mul_nonneg_nonneg; [apply size_nonneg|apply size2_nonneg]|apply size3_nonneg]|].
  split; [|apply ov4_rows; auto]. split; [apply size4_nonneg|exact H].
Qed.

(** Single slices have gain and loss 0. *)
Theorem C07_single_slices : forall P (v : ovalues (RP P)) rows i, odata_ok v rows -> 0 <= i < ov_osize v ->
  ogain rows i i = 0%R /\ oloss rows i i = 0%R.
Proof. intros P v rows i D. apply (oloss_diag P v rows D). Qed.

(** ** C08 *)
Theorem C08_ordered_nonneg : forall P (v : ovalues (RP P)) rows o t i j q, odata_ok v rows -> Forall nonneg rows ->
  oq_compute (RP P) (oq_ofValues (RP P) v) = Ok o -> oq_table o = Some t ->
  0 <= i <= j -> j < ov_osize v -> u_get t i j = Ok q -> (0 <= gain q)%R /\ (0 <= loss q)%R.
Proof.
  intros P v rows o t i j q D NN E Et Hi Hj Eq. destruct (o_compute_data P v rows D) as (t' & E' & _ & T).
  rewrite E in E'. inversion E'; subst o. cbn in Et. inversion Et; subst t'. rewrite T in Eq by auto. inversion Eq; subst q.
  cbn [gain loss]. pose proof (D_len P v rows D) as HL. split; [eapply ogain_nonneg|eapply oloss_nonneg]; eauto.
Qed.
Print Assumptions C08_ordered_nonneg.

(** ** C09: merging never decreases gain or loss; the whole interval has the largest of all partitions. *)
Theorem C09_merge : forall P (v : ovalues (RP P)) rows o t i c j q1 q2 q, odata_ok v rows -> Forall nonneg rows ->
  oq_compute (RP P) (oq_ofValues (RP P) v) = Ok o -> oq_table o = Some t ->
  0 <= i <= c -> c < j -> j < ov_osize v -> u_get t i c = Ok q1 -> u_get t (c + 1) j = Ok q2 -> u_get t i j = Ok q ->
  (gain q1 + gain q2 <= gain q)%R /\ (loss q1 + loss q2 <= loss q)%R.
Proof.
  intros P v rows o t i c j q1 q2 q D NN E Et Hi Hc Hj E1 E2 E3. destruct (o_compute_data P v rows D) as (t' & E' & _ & T).
  rewrite E in E'. inversion E'; subst o. cbn in Et. inversion Et; subst t'.
  rewrite T in E1, E2, E3 by lia. inversion E1; inversion E2; inversion E3; subst. cbn [gain loss].
  assert (Tl : tiles i (j + 1) [(i, c); (c + 1, j)]) by (repeat (constructor; try lia)).
  destruct (otiles_gain rows _ (D_len P v rows D) NN i j _ Tl) as [K1 K2]; try lia.
  unfold Rsum in K1, K2. cbn [map fold_right fst snd] in K1, K2. rewrite !Rplus_0_r in K1, K2. auto.
Qed.
Print Assumptions C09_merge.

Theorem C09_whole_largest : forall P (v : ovalues (RP P)) rows o t l ql q, odata_ok v rows -> Forall nonneg rows -> 1 <= ov_osize v ->
  oq_compute (RP P) (oq_ofValues (RP P) v) = Ok o -> oq_table o = Some t ->
  tiles 0 (ov_osize v) l -> mmap (fun ab => u_get t (fst ab) (snd ab)) l = Ok ql -> u_get t 0 (ov_osize v - 1) = Ok q ->
  (Rsum (@gain (RP P)) ql <= gain q)%R /\ (Rsum (@loss (RP P)) ql <= loss q)%R.
Proof.
  intros P v rows o t l ql q D NN Hn E Et Tl El Eq. destruct (o_compute_data P v rows D) as (t' & E' & T).
  rewrite E in E'. inversion E'; subst o. cbn in Et. inversion Et; subst t'.
  destruct (otable_cells P t _ rows l ql T Tl El) as [-> ->]. rewrite (proj2 T) in Eq by lia. inversion Eq; subst q.
  exact (o_whole P v rows D NN l Tl).
Qed.
Print Assumptions C09_whole_largest.

(** ** C10 *)
Theorem C10_zero_loss : forall P (v : ovalues (RP P)) rows o t i j q, odata_ok v rows -> Forall nonneg rows ->
  oq_compute (RP P) (oq_ofValues (RP P) v) = Ok o -> oq_table o = Some t ->
  0 <= i <= j -> j < ov_osize v -> u_get t i j = Ok q ->
  (loss q = 0%R <-> forall r x y, In r rows -> In x (slice r i j) -> In y (slice r i j) -> x = y).
Proof.
  intros P v rows o t i j q D NN E Et Hi Hj Eq. destruct (o_compute_data P v rows D) as (t' & E' & _ & T).
  rewrite E in E'. inversion E'; subst o. cbn in Et. inversion Et; subst t'. rewrite T in Eq by auto. inversion Eq; subst q.
  exact (oloss_zero rows _ (D_len P v rows D) NN i j).
Qed.
Print Assumptions C10_zero_loss.

(** ** C15 *)
(** Any arithmetic: every entry is divided by the entry (0,n-1) of the table before the call. *)
Theorem C15_ordered_divides : forall A (v : ovalues A) (t : utm (quality A)) n mx, 1 <= n <= 65535 -> utm_shape t n -> ov_osize v = n ->
  u_get t 0 (n - 1) = Ok mx ->
  exists t', oq_normalize A (mkOQ A (Some v) (Some t)) = Ok (mkOQ A (Some v) (Some t')) /\ utm_shape t' n /\
    forall i j q, 0 <= i <= j -> j < n -> u_get t i j = Ok q ->
      u_get t' i j = Ok (mkQ (n_div A (gain q) (gain mx)) (n_div A (loss q) (loss mx))).
Proof. exact o_normalize_prf. Qed.
Print Assumptions C15_ordered_divides.

(** Computed from non-negative data: all entries in [0,1], the whole interval is (1,1). *)
Theorem C15_ordered_range : forall P (v : ovalues (RP P)) rows o o', odata_ok v rows -> Forall nonneg rows -> 1 <= ov_osize v ->
  ogain rows 0 (ov_osize v - 1) <> 0%R -> oloss rows 0 (ov_osize v - 1) <> 0%R ->
  oq_compute (RP P) (oq_ofValues (RP P) v) = Ok o -> oq_normalize (RP P) o = Ok o' ->
  exists t, oq_table o' = Some t /\ u_get t 0 (ov_osize v - 1) = Ok (@mkQ (RP P) 1%R 1%R) /\
    forall i j, 0 <= i <= j -> j < ov_osize v -> exists q, u_get t i j = Ok q /\ (0 <= gain q <= 1)%R /\ (0 <= loss q <= 1)%R.
Proof.
  intros P v rows o o' D NN Hn G0 L0 E E'. destruct (o_compute_data P v rows D) as (t1 & E1 & T1).
  rewrite E in E1. inversion E1; subst o. destruct (o_normalized P v rows t1 D Hn T1) as (t2 & E2 & _ & T2).
  rewrite E' in E2. inversion E2; subst o'. exists t2. split; auto. split.
  - rewrite T2 by lia. unfold Rdiv. rewrite !Rinv_r by auto. auto.
  - intros i j Hi Hj. eexists. split; [apply T2; auto|]. exact (o_norm_range P v rows D NN G0 L0 i j Hi Hj).
Qed.
Print Assumptions C15_ordered_range.

(** ** C18 *)
Theorem C18_ordered : forall P (v : ovalues (RP P)) (t : utm (quality (RP P))) n mx o, 1 <= n <= 65535 -> utm_shape t n -> ov_osize v = n ->
  u_get t 0 (n - 1) = Ok mx -> gain mx <> 0%R -> loss mx <> 0%R ->
  oq_normalize (RP P) (mkOQ (RP P) (Some v) (Some t)) = Ok o -> oq_normalize (RP P) o = Ok o.
Proof. exact oq_normalize_twice_prf. Qed.
Print Assumptions C18_ordered.

(** ** C28 *)
(** At p = 0 the partition has loss 0 and the largest gain among the zero-loss partitions. *)
Theorem C28_ordered_p0 : forall (v : ovalues RA) rows o t x, odata_ok v rows -> Forall nonneg rows ->
  oq_compute RA (oq_ofValues RA v) = Ok o -> oq_table o = Some t -> o_best RA t 0%R = Ok x ->
  loss (on_quality x) = 0%R /\
  forall l, tiles 0 (ov_osize v) l -> Rsum (fun ab => oloss rows (fst ab) (snd ab)) l = 0%R ->
    (Rsum (fun ab => ogain rows (fst ab) (snd ab)) l <= gain (on_quality x))%R.
Proof.
  intros v rows o t x D NN E Et Ex. change RA with (RP Rpar) in *. destruct (o_compute_data Rpar v rows D) as (t' & E' & T).
  rewrite E in E'. inversion E'; subst o. cbn in Et. inversion Et; subst t'.
  apply (o_zero_data Rpar v rows t 0%R x D NN T Ex); [reflexivity|cbn; lra].
Qed.
Print Assumptions C28_ordered_p0.

(** At p = 1 the gain is that of the single aggregate. *)
Theorem C28_ordered_p1 : forall (v : ovalues RA) rows o t x, odata_ok v rows -> Forall nonneg rows -> 1 <= ov_osize v ->
  oq_compute RA (oq_ofValues RA v) = Ok o -> oq_table o = Some t -> o_best RA t 1%R = Ok x ->
  gain (on_quality x) = ogain rows 0 (ov_osize v - 1).
Proof.
  intros v rows o t x D NN Hn E Et Ex. change RA with (RP Rpar) in *. destruct (o_compute_data Rpar v rows D) as (t' & E' & T).
  rewrite E in E'. inversion E'; subst o. cbn in Et. inversion Et; subst t'.
  apply (o_one_data Rpar v rows t 1%R x D NN Hn T Ex); [reflexivity|cbn; lra].
Qed.
Print Assumptions C28_ordered_p1.

(** The same after normalisation. *)
Theorem C28_ordered_normalized : forall (v : ovalues RA) rows o o' t x0 x1, odata_ok v rows -> Forall nonneg rows -> 1 <= ov_osize v ->
  ogain rows 0 (ov_osize v - 1) <> 0%R -> oloss rows 0 (ov_osize v - 1) <> 0%R ->
  oq_compute RA (oq_ofValues RA v) = Ok o -> oq_normalize RA o = Ok o' -> oq_table o' = Some t ->
  o_best RA t 0%R = Ok x0 -> o_best RA t 1%R = Ok x1 ->
  loss (on_quality x0) = 0%R /\ gain (on_quality x1) = 1%R.
Proof.
  intros v rows o o' t x0 x1 D NN Hn G0 L0 E En Et E0 E1. change RA with (RP Rpar) in *. destruct (o_compute_data Rpar v rows D) as (t1 & E' & T1).
  rewrite E in E'. inversion E'; subst o. destruct (o_normalized Rpar v rows t1 D Hn T1) as (t2 & E2 & T2).
  rewrite En in E2. inversion E2; subst o'. cbn in Et. inversion Et; subst t2. split.
  - apply (o_zero_norm Rpar v rows t 0%R x0 D NN T2 G0 L0 E0); [reflexivity|cbn; lra].
  - apply (o_one_norm Rpar v rows t 1%R x1 D NN Hn T2 G0 E1); [reflexivity|cbn; lra].
Qed.
Print Assumptions C28_ordered_normalized.

(** ** C48 *)
(** computeQualities() after any history of computeQualities()/normalize() gives the same object as on a fresh one. *)
Theorem C48_ordered_history : forall A (v : ovalues A) calls o,
  mfold (fun c o => match c with Compute => oq_compute A o | Normalize => oq_normalize A o end) calls (oq_ofValues A v) = Ok o ->
  oq_compute A o = oq_compute A (oq_ofValues A v).
Proof. exact oq_history_prf. Qed.
Print Assumptions C48_ordered_history.

(** On a ready-made table computeQualities() does nothing; normalize() without values or before computing dereferences null. *)
Theorem C48_ordered_table : forall A (t : utm (quality A)) (v : ovalues A),
  oq_compute A (oq_ofTable A t) = Ok (oq_ofTable A t) /\ oq_normalize A (oq_ofTable A t) = UB /\ oq_normalize A (oq_ofValues A v) = UB.
Proof. intros; repeat split. Qed.
Print Assumptions C48_ordered_table.

(** ** C49 *)
Theorem C49_ordered : forall P (v v' : ovalues (RP P)) rows c o o' t t', (0 < c)%R -> Forall nonneg rows ->
  odata_ok v rows -> odata_ok v' (scaled c rows) -> ov_osize v' = ov_osize v ->
  oq_compute (RP P) (oq_ofValues (RP P) v) = Ok o -> oq_compute (RP P) (oq_ofValues (RP P) v') = Ok o' ->
  oq_table o = Some t -> oq_table o' = Some t' ->
  (* gains and losses are multiplied by c *)
  (forall i j q, 0 <= i <= j -> j < ov_osize v -> u_get t i j = Ok q -> u_get t' i j = Ok (@mkQ (RP P) (c * gain q)%R (c * loss q)%R)) /\
  (* same best partition for every parameter *)
  (forall p x x', o_best (RP P) t p = Ok x -> o_best (RP P) t' p = Ok x' ->
     map (fun q => (op_start q, op_end q)) (on_parts x') = map (fun q => (op_start q, op_end q)) (on_parts x)) /\
  (* same normalised table *)
  (1 <= ov_osize v -> ogain rows 0 (ov_osize v - 1) <> 0%R -> oloss rows 0 (ov_osize v - 1) <> 0%R ->
   forall n n', oq_normalize (RP P) o = Ok n -> oq_normalize (RP P) o' = Ok n' -> oq_table n' = oq_table n).
Proof.
  intros P v v' rows c o o' t t' Hc NN D D' En E E' Et Et'.
  destruct (o_compute_data P v rows D) as (t1 & E1 & T1). destruct (o_compute_data P v' _ D') as (t2 & E2 & T2).
  rewrite E in E1. rewrite E' in E2. inversion E1; inversion E2; subst o o'. cbn in Et, Et'. inversion Et; inversion Et'; subst t1 t2.
  pose proof T2 as T2'. rewrite En in T2'. destruct (o_scaled_table P t t' _ rows c (D_n P v rows D) Hc NN T1 T2') as [R1 R2].
  split; [|split].
  - intros i j q Hi Hj Eq. rewrite (UtmFacts.urepr_get _ _ _ _ i j R1) in Eq by auto. inversion Eq; subst q.
    apply (UtmFacts.urepr_get _ _ _ _ i j R2); auto.
  - intros p x x' Ex Ex'. exact (o_scaled_best P t t' _ _ _ c p x x' Hc R1 R2 Ex Ex').
  - intros Hn G0 L0 n n' N1 N2. destruct (o_normalized P v rows t D Hn T1) as (u1 & F1 & U1).
    destruct (o_normalized P v' _ t' D' ltac:(rewrite En; lia) T2) as (u2 & F2 & U2). rewrite N1 in F1. rewrite N2 in F2. inversion F1; inversion F2; subst n n'.
    cbn [oq_table]. f_equal. rewrite En in U2. exact (o_scaled_norm P u1 u2 _ rows c (D_n P v rows D) Hc NN G0 L0 U1 U2).
Qed.
Print Assumptions C49_ordered.

(** ** A concrete data set: two components over two slices, (1,1) and (2,0). The whole interval has gain 2 and loss 2. *)
Definition ex_rows : list (list R) := [[1; 1]; [2; 0]]%R.
Definition ex_v : ovalues RA := ov2_of RA ex_rows.

Example ex_data : odata_ok ex_v ex_rows /\ Forall nonneg ex_rows /\ ov_osize ex_v = 2.
Proof.
  split; [|split; [|reflexivity]].
  - split; [cbn; lia|]. split; [cbn; lia|]. apply ov2_rows. repeat constructor.
  - repeat constructor; lra.
Qed.

Lemma log2_1 : log2 1 = 0%R. Proof. unfold log2. rewrite ln_1. unfold Rdiv. ring. Qed.
Lemma log2_2 : log2 2 = 1%R. Proof. unfold log2. pose proof ln2_pos. field. lra. Qed.

Example ex_gain : ogain ex_rows 0 1 = 2%R /\ oloss ex_rows 0 1 = 2%R.
Proof.
  assert (G1 : gain_of [1; 1]%R = 2%R).
  { unfold gain_of, total, Rsum. cbn [map fold_right]. replace (1 + (1 + 0))%R with 2%R by ring.
    unfold xlog2. repeat match goal with |- context [Rlt_dec ?a ?b] => destruct (Rlt_dec a b); try lra end.
    rewrite log2_1, log2_2. ring. }
  assert (G2 : gain_of [2; 0]%R = 0%R).
  { unfold gain_of, total, Rsum. cbn [map fold_right]. replace (2 + (0 + 0))%R with 2%R by ring.
    unfold xlog2. repeat match goal with |- context [Rlt_dec ?a ?b] => destruct (Rlt_dec a b); try lra end. }
  split.
  - unfold ogain, Rsum, ex_rows. cbn [map fold_right].
    change (slice [1; 1]%R 0 1) with [1; 1]%R. change (slice [2; 0]%R 0 1) with [2; 0]%R. rewrite G1, G2. ring.
  - unfold oloss, Rsum, ex_rows. cbn [map fold_right].
    change (slice [1; 1]%R 0 1) with [1; 1]%R. change (slice [2; 0]%R 0 1) with [2; 0]%R. unfold loss_of. rewrite G1, G2.
    change (vlen [1; 1]%R) with 2. change (vlen [2; 0]%R) with 2. rewrite log2_2. unfold total, Rsum. cbn [map fold_right]. ring.
Qed.

(** All hypotheses of C15_ordered_range, C18, C28 and C49 hold for it. *)
Example ex_hypotheses : ogain ex_rows 0 (ov_osize ex_v - 1) <> 0%R /\ oloss ex_rows 0 (ov_osize ex_v - 1) <> 0%R /\
  odata_ok (ov2_of RA (scaled 3 ex_rows)) (scaled 3 ex_rows).
Proof.
  change (ov_osize ex_v - 1) with 1. destruct ex_gain as [-> ->]. repeat split; try lra; try (cbn; lia); try reflexivity.
  repeat constructor.
Qed.

Example ex_normalized : exists o o' t, oq_compute RA (oq_ofValues RA ex_v) = Ok o /\ oq_normalize RA o = Ok o' /\ oq_table o' = Some t /\
  u_get t 0 1 = Ok (@mkQ RA 1%R 1%R).
Proof.
  destruct ex_data as (D & NN & En). destruct (o_compute_data Rpar ex_v ex_rows D) as (t1 & E1 & T1).
  destruct (o_normalized Rpar ex_v ex_rows t1 D ltac:(cbn; lia) T1) as (t2 & E2 & T2).
  destruct ex_hypotheses as (G & L & _).
  destruct (C15_ordered_range Rpar ex_v ex_rows _ _ D NN ltac:(cbn; lia) G L E1 E2) as (t & Et & K & _).
  exists (mkOQ RA (Some ex_v) (Some t1)), (mkOQ RA (Some ex_v) (Some t2)), t. auto.
Qed.
