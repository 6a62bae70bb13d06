(** * Rounding errors of the ordered quality table. *)
From Coq Require Import ZArith Reals Lra Lia.
From Flocq Require Import Core BinarySingleNaN.
From Verif Require Import Base BaseFacts Arith Quality Utm UtmFacts UtmProofs Hierarchy Values Qualities Ieee SpecIeee IeeeFacts SpecParts SpecInfo SpecData
  InfoFacts OQual OInfo SpecNear NearFacts SpecNum NumFacts.

Section O.
Variables (lg : f80 -> f80) (E : Z) (d : R).
Hypothesis HE : (32 <= E <= 8000)%Z.
Hypothesis Hd : (0 <= d <= / 1024)%R.
Hypothesis HL : log_accurate E d lg.
Notation A := (IA lg).

Section Row.
Variable (x : Z -> f80).
Hypothesis Hx : forall o, datum E (x o).

Lemma datum_nonneg : forall y, datum E y -> (0 <= B2R y)%R.
Proof. intros y [_ [->|H]]; [lra|]. pose proof (bpow_gt_0 radix2 (1 - E)). lra. Qed.

Lemma rs_apS : forall k i, (Z.of_nat k <= 65535) -> (Rsum (fun o => B2R (x o)) (zrange i (i + Z.of_nat k + 1)) <= b2 E)%R ->
  apS (Z.of_nat k + 1) (rs A x i (i + Z.of_nat k)) (Rsum (fun o => B2R (x o)) (zrange i (i + Z.of_nat k + 1))).
Proof.
  induction k as [|k IH]; intros i Hk HS.
  - rewrite Z.add_0_r in *. rewrite rs_diag. rewrite zrange_cons, zrange_empty by lia. rewrite Rsum_cons, Rsum_nil, Rplus_0_r.
    apply apS_one; [apply Hx|apply datum_nonneg, Hx].
  - rewrite rs_step by lia. rewrite zrange_cons in * by lia. rewrite Rsum_cons in *. rewrite Nat2Z.inj_succ in *.
    replace (i + Z.succ (Z.of_nat k) + 1) with (i + 1 + Z.of_nat k + 1) in * by lia.
    replace (i + Z.succ (Z.of_nat k)) with (i + 1 + Z.of_nat k) by lia. rewrite Rplus_comm.
    replace (Z.succ (Z.of_nat k) + 1) with ((Z.of_nat k + 1) + 1) by lia.
    pose proof (datum_nonneg _ (Hx i)) as P. assert (HS' : (Rsum (fun o => B2R (x o)) (zrange (i + 1) (i + 1 + Z.of_nat k + 1)) <= b2 E)%R) by lra.
    apply (apS_add E HE); try lia; [lra|apply IH; auto; lia|apply apS_one; [apply Hx|exact P]].
Qed.

Notation en := (fun o => entropyReduction A (x o) (n_zero A)).
Lemma rs_apI : forall k i, (Z.of_nat k <= 65535) -> (Rsum (fun o => B2R (x o)) (zrange i (i + Z.of_nat k + 1)) <= b2 E)%R ->
  apI E d (Z.of_nat k + 1) (rs A en i (i + Z.of_nat k)) (Rsum (fun o => B2R (x o)) (zrange i (i + Z.of_nat k + 1)))
    (Rsum (fun o => xlog2 (B2R (x o))) (zrange i (i + Z.of_nat k + 1))).
Proof.
  induction k as [|k IH]; intros i Hk HS.
  - rewrite Z.add_0_r in *. rewrite rs_diag. rewrite zrange_cons, zrange_empty in * by lia. rewrite !Rsum_cons, !Rsum_nil, !Rplus_0_r in *.
    apply apI_one; auto.
  - rewrite rs_step by lia. rewrite zrange_cons in * by lia. rewrite !Rsum_cons in *. rewrite Nat2Z.inj_succ in *.
    replace (i + Z.succ (Z.of_nat k) + 1) with (i + 1 + Z.of_nat k + 1) in * by lia.
    replace (i + Z.succ (Z.of_nat k)) with (i + 1 + Z.of_nat k) by lia. rewrite !(Rplus_comm _ (Rsum _ _)).
    replace (Z.succ (Z.of_nat k) + 1) with ((Z.of_nat k + 1) + 1) by lia.
    pose proof (datum_nonneg _ (Hx i)) as P.
    assert (N0 : (0 <= Rsum (fun o => B2R (x o)) (zrange (i + 1) (i + 1 + Z.of_nat k + 1)))%R) by (apply Rsum_nonneg; intros; apply datum_nonneg, Hx).
    apply (apI_add E d HE Hd); try lia; [lra|apply IH; [lia|lra]|apply apI_one; auto; lra].
Qed.
End Row.

Variables (v : ovalues A) (rows : list (list f80)).
Hypothesis Hv : odata_f v rows.
Hypothesis Hdat : Forall (Forall (datum E)) rows.
Hypothesis Htot : (Rsum (fun r => total (reals r)) rows <= bpow radix2 (E - 1))%R.
Notation n := (ov_osize v).
Notation z80 := (B754_zero false : f80).

Definition fx (k o : Z) : f80 := elt z80 (elt [] rows k) o.

Lemma fx_datum : forall k o, datum E (fx k o).
Proof.
  intros k o. unfold fx, elt. assert (Z0 : datum E z80) by (split; [reflexivity|left; reflexivity]).
  destruct (nth_in_or_default (Z.to_nat k) rows []) as [H| ->]; [|destruct (Z.to_nat o); exact Z0].
  pose proof (proj1 (Forall_forall _ _) Hdat _ H) as F.
  destruct (nth_in_or_default (Z.to_nat o) (nth (Z.to_nat k) rows []) z80) as [H'| ->]; auto. exact (proj1 (Forall_forall _ _) F _ H').
Qed.

Lemma fx_rows : forall k, 0 <= k < ov_vsize v -> exists r, ov_row v k = Ok r /\ vrepr r n (fx k).
Proof.
  intros k Hk. destruct Hv as (V1 & V2 & V3 & V4). destruct (mmap_zrange (list f80) (ov_row v) _ rows [] (proj1 V1) V3) as (L & K & _).
  exists (elt [] rows k). split; [apply K; auto|].
  assert (In (elt [] rows k) rows). { unfold elt. apply nth_In. unfold vlen in L. lia. }
  assert (Hl : vlen (elt [] rows k) = n) by exact (proj1 (Forall_forall _ _) V4 _ H). split; auto. intros i Hi. apply (elt_vget f80). rewrite Hl; lia.
Qed.

Lemma total_slice : forall l i j, nonneg l -> (total (slice l i j) <= total l)%R.
Proof.
  intros l i j H. unfold slice. rewrite <- (firstn_skipn (Z.to_nat i) l) at 2. rewrite total_app.
  set (r := skipn (Z.to_nat i) l) in *. rewrite <- (firstn_skipn (Z.to_nat (j - i + 1)) r) at 2. rewrite total_app.
  rewrite <- (firstn_skipn (Z.to_nat i) l) in H. apply nonneg_app in H. destruct H as [H1 H2]. fold r in H2.
  rewrite <- (firstn_skipn (Z.to_nat (j - i + 1)) r) in H2. apply nonneg_app in H2. destruct H2 as [_ H3].
  pose proof (total_nonneg _ H1). pose proof (total_nonneg _ H3). lra.
Qed.

Lemma slice_map : forall X Y (f : X -> Y) l i j, slice (map f l) i j = map f (slice l i j).
Proof. intros. unfold slice. rewrite skipn_map, firstn_map. reflexivity. Qed.

Definition cellsR (i j k : Z) : list R := map (fun o => B2R (fx k o)) (zrange i (j + 1)).

Lemma cells_slice : forall i j k, 0 <= i <= j -> j < n -> 0 <= k < ov_vsize v -> slice (reals (elt [] rows k)) i j = cellsR i j k.
Proof.
  intros i j k Hi Hj Hk. destruct Hv as (V1 & V2 & V3 & V4). destruct (mmap_zrange (list f80) (ov_row v) _ rows [] (proj1 V1) V3) as (L & _ & _).
  assert (H : In (elt [] rows k) rows). { unfold elt. apply nth_In. unfold vlen in L. lia. }
  assert (Hl : vlen (elt [] rows k) = n) by exact (proj1 (Forall_forall _ _) V4 _ H).
  unfold reals. rewrite slice_map, (slice_elt f80 z80) by lia. rewrite map_map. reflexivity.
Qed.

Lemma rows_sum : forall (f : list R -> R), Rsum f (map reals rows) = Rsum (fun k => f (reals (elt [] rows k))) (zrange 0 (ov_vsize v)).
Proof.
  intro f. destruct Hv as (V1 & V2 & V3 & V4). destruct (mmap_zrange (list f80) (ov_row v) _ rows [] (proj1 V1) V3) as (_ & _ & Em).
  rewrite Em at 1. rewrite !Rsum_map. reflexivity.
Qed.

Lemma rows_slice : forall (f : list R -> R) i j, 0 <= i <= j -> j < n ->
  Rsum (fun r => f (slice r i j)) (map reals rows) = Rsum (fun k => f (cellsR i j k)) (zrange 0 (ov_vsize v)).
Proof.
  intros f i j Hi Hj. rewrite (rows_sum (fun r => f (slice r i j))). apply Rsum_ext. intros k Hk. apply In_zrange in Hk. rewrite cells_slice by lia. reflexivity.
Qed.

Lemma cells_datum : forall i j k, Forall (fun x : R => x = 0 \/ b2 (1 - E) <= x)%R (cellsR i j k).
Proof. intros i j k. apply Forall_forall. intros y Hy. apply in_map_iff in Hy. destruct Hy as [o [<- _]]. apply fx_datum. Qed.

(** The total of a part is at most the total of everything. *)
Lemma cells_le : forall i j m, 0 <= i <= j -> j < n -> 0 <= m <= ov_vsize v ->
  (Rsum (fun k => total (cellsR i j k)) (zrange 0 m) <= b2 (E - 1))%R.
Proof.
  intros i j m Hi Hj Hm. eapply Rle_trans; [|exact Htot].
  replace (Rsum (fun r => total (reals r)) rows) with (Rsum total (map reals rows)) by (rewrite Rsum_map; auto). rewrite rows_sum.
  rewrite (zrange_app 0 m (ov_vsize v)) by lia. rewrite Rsum_app.
  assert (NN : forall k, nonneg (reals (elt [] rows k))).
  { intro k. apply Forall_forall. intros y Hy. apply in_map_iff in Hy. destruct Hy as [z [<- Hz]]. apply datum_nonneg.
    unfold elt in Hz. destruct (nth_in_or_default (Z.to_nat k) rows []) as [H|H]; [|rewrite H in Hz; destruct Hz].
    exact (proj1 (Forall_forall _ _) (proj1 (Forall_forall _ _) Hdat _ H) _ Hz). }
  assert (P2 : (0 <= Rsum (fun k => total (reals (elt [] rows k))) (zrange m (ov_vsize v)))%R) by (apply Rsum_nonneg; intros; apply total_nonneg; auto).
  assert (P1 : (Rsum (fun k => total (cellsR i j k)) (zrange 0 m) <= Rsum (fun k => total (reals (elt [] rows k))) (zrange 0 m))%R); [|lra].
  apply Rsum_le. intros k Hk. apply In_zrange in Hk. rewrite <- cells_slice by lia.
  apply total_slice; auto.
Qed.

Lemma ocell_num : forall i j, 0 <= i <= j -> j < n ->
  within (num_err E (n + ov_vsize v) d * ototal (map reals rows) i j) (gain (oqcell A v fx i j)) (ogain (map reals rows) i j) /\
  within (num_err E (n + ov_vsize v) d * ototal (map reals rows) i j) (loss (oqcell A v fx i j)) (oloss (map reals rows) i j) /\
  (Rabs (ogain (map reals rows) i j) <= 3 * (ototal (map reals rows) i j * IZR E))%R /\
  (Rabs (oloss (map reals rows) i j) <= 3 * (ototal (map reals rows) i j * IZR E))%R.
Proof.
  intros i j Hi Hj. unfold ototal, ogain, oloss. rewrite !rows_slice by auto.
  assert (NE : (0 <= num_err E (n + ov_vsize v) d)%R).
  { unfold num_err. assert (0 <= IZR E)%R by (apply IZR_le; lia). assert (0 <= IZR (n + ov_vsize v))%R by (apply IZR_le; destruct Hv; lia).
    apply Rmult_le_pos; auto. pose proof (bpow_ge_0 radix2 (-56)). assert (0 <= IZR (n + ov_vsize v) * b2 (-56))%R by (apply Rmult_le_pos; auto). lra. }
  assert (TN : forall k, (0 <= total (cellsR i j k))%R) by (intro k; apply (total_datum E _ (cells_datum i j k))).
  unfold oqcell. destruct (Z.eq_dec i j) as [->|Ne].
  - assert (F0 : forall l c, fold_left (fun c k => ocomp A fx k j j c) l c = c).
    { intro l. induction l as [|k l IH]; intro c; auto. cbn [fold_left]. rewrite IH. unfold ocomp. rewrite Z.ltb_irrefl. reflexivity. }
    rewrite F0. assert (S1 : forall k, cellsR j j k = [B2R (fx k j)]) by (intro k; unfold cellsR; rewrite zrange_cons, zrange_empty by lia; reflexivity).
    rewrite (Rsum_zero _ (fun k => gain_of (cellsR j j k))) by (intros k _; rewrite S1; apply gain_of_single).
    rewrite (Rsum_zero _ (fun k => loss_of (cellsR j j k))) by (intros k _; rewrite S1; apply loss_of_single).
    assert (P : (0 <= num_err E (n + ov_vsize v) d * Rsum (fun k => total (cellsR j j k)) (zrange 0 (ov_vsize v)))%R).
    { apply Rmult_le_pos; auto. apply Rsum_nonneg. intros; apply TN. }
    assert (P' : (0 <= 3 * (Rsum (fun k => total (cellsR j j k)) (zrange 0 (ov_vsize v)) * IZR E))%R).
    { apply Rmult_le_pos; [lra|]. apply Rmult_le_pos; [apply Rsum_nonneg; intros; apply TN|apply IZR_le; lia]. }
    rewrite !Rabs_R0. split; [|split; [|split; exact P']];
      (split; [reflexivity|]; cbn [q_zero gain loss n_zero IA]; change (B2R z80) with 0%R; rewrite Rminus_0_r, Rabs_R0; exact P).
  - destruct Hv as (V1 & V2 & V3 & V4).
    assert (Inv : forall m, (Z.of_nat m <= ov_vsize v) -> let q := fold_left (fun c k => ocomp A fx k i j c) (zrange 0 (Z.of_nat m)) (q_zero A) in
      let T := Rsum (fun k => total (cellsR i j k)) (zrange 0 (Z.of_nat m)) in
      apQ E (5 * wr d + 22 * IZR (j - i + 1) * b2 (-64)) (Z.of_nat m) (gain q) T (Rsum (fun k => gain_of (cellsR i j k)) (zrange 0 (Z.of_nat m))) /\
      apQ E (5 * wr d + 22 * IZR (j - i + 1) * b2 (-64)) (Z.of_nat m) (loss q) T (Rsum (fun k => loss_of (cellsR i j k)) (zrange 0 (Z.of_nat m)))).
    { induction m as [|m IH]; intros Hm; cbn zeta.
      - change (Z.of_nat 0) with 0. rewrite zrange_empty by lia. rewrite !Rsum_nil. split; apply apQ_zero.
      - rewrite Nat2Z.inj_succ in *. specialize (IH ltac:(lia)). cbn zeta in IH. destruct IH as [IH1 IH2].
        pose proof (cells_le i j (Z.of_nat m + 1) Hi Hj ltac:(lia)) as CL.
        rewrite <- Z.add_1_r in *. rewrite zrange_snoc in * by lia. rewrite fold_left_app. cbn [fold_left]. rewrite !Rsum_app in *. rewrite !Rsum_cons, !Rsum_nil, !Rplus_0_r in *.
        set (k := Z.of_nat m) in *. set (q := fold_left (fun c k => ocomp A fx k i j c) (zrange 0 k) (q_zero A)) in *.
        unfold ocomp. destruct (Z.ltb_spec i j); [|lia]. unfold q_bump, q_addGain, q_addLoss. cbn [gain loss].
        destruct (total_datum E _ (cells_datum i j k)) as [T0 T1].
        assert (TP : (0 <= Rsum (fun k => total (cellsR i j k)) (zrange 0 k))%R) by (apply Rsum_nonneg; intros; apply TN).
        assert (SB : (total (cellsR i j k) <= b2 E)%R) by (apply Rle_trans with (b2 (E - 1)); [lra|apply bpow_le; lia]).
        assert (ES : total (cellsR i j k) = Rsum (fun o => B2R (fx k o)) (zrange i (i + Z.of_nat (Z.to_nat (j - i)) + 1))).
        { unfold total, cellsR. rewrite Rsum_map. f_equal. f_equal. lia. }
        pose proof (rs_apS (fx k) (fx_datum k) (Z.to_nat (j - i)) i ltac:(lia)) as RS.
        pose proof (rs_apI (fx k) (fx_datum k) (Z.to_nat (j - i)) i ltac:(lia)) as RI. rewrite <- ES in RS, RI. specialize (RS SB). specialize (RI SB).
        replace (Rsum (fun o => xlog2 (B2R (fx k o))) (zrange i (i + Z.of_nat (Z.to_nat (j - i)) + 1))) with (Rsum xlog2 (cellsR i j k)) in RI
          by (unfold cellsR; rewrite Rsum_map; f_equal; f_equal; lia).
        replace (i + Z.of_nat (Z.to_nat (j - i))) with j in RS, RI by lia. replace (Z.of_nat (Z.to_nat (j - i)) + 1) with (j - i + 1) in RS, RI by lia.
        assert (VL : vlen (cellsR i j k) = j - i + 1) by (unfold vlen, cellsR; rewrite map_length, zrange_length; lia).
        destruct (comp_ok lg E d HE Hd HL (j - i + 1) (j - i + 1) _ _ _ _ k q _ _ _ ltac:(lia) ltac:(lia) ltac:(lia) T1 CL RS RI IH1 IH2) as [C1 C2].
        unfold loss_of. rewrite VL. split; [exact C1|exact C2]. }
    specialize (Inv (Z.to_nat (ov_vsize v)) ltac:(lia)). cbn zeta in Inv. rewrite Z2Nat.id in Inv by lia. destruct Inv as [Q1 Q2].
    pose proof (proj2 (proj2 (proj2 Q1))) as M1. pose proof (proj2 (proj2 (proj2 Q2))) as M2.
    apply (apQ_err E d HE) in Q1; [|lia|lia]. apply (apQ_err E d HE) in Q2; [|lia|lia].
    assert (Le : (num_err E (j - i + 1 + ov_vsize v) d <= num_err E (n + ov_vsize v) d)%R).
    { unfold num_err. apply Rmult_le_compat_l; [apply IZR_le; lia|]. apply Rplus_le_compat_l. apply Rmult_le_compat_r; [apply bpow_ge_0|apply IZR_le; lia]. }
    assert (TT : (0 <= Rsum (fun k => total (cellsR i j k)) (zrange 0 (ov_vsize v)))%R) by (apply Rsum_nonneg; intros; apply TN).
    split; [|split; [|split; auto]]; (eapply within_le; [|eassumption]; apply Rmult_le_compat_r; auto).
Qed.

Lemma o_num_prf : exists t, oq_compute A (oq_ofValues A v) = Ok (mkOQ A (Some v) (Some t)) /\ utm_shape t n /\
  forall i j, 0 <= i <= j -> j < n -> exists q, u_get t i j = Ok q /\
    within (num_err E (n + ov_vsize v) d * ototal (map reals rows) i j) (gain q) (ogain (map reals rows) i j) /\
    within (num_err E (n + ov_vsize v) d * ototal (map reals rows) i j) (loss q) (oloss (map reals rows) i j) /\
    (Rabs (ogain (map reals rows) i j) <= 3 * (ototal (map reals rows) i j * IZR E))%R /\
    (Rabs (oloss (map reals rows) i j) <= 3 * (ototal (map reals rows) i j * IZR E))%R.
Proof.
  destruct Hv as (V1 & V2 & V3 & V4). destruct (oq_table_ok A v n fx V2 eq_refl fx_rows (proj1 V1)) as [t [Et R]]. exists t. unfold oq_compute, oq_ofValues. cbn [oq_values].
  rewrite Et. cbn [bind]. split; auto. split. { eapply repr_shape; eauto. }
  intros i j Hi Hj. exists (oqcell A v fx i j). split; [apply (urepr_get _ _ _ _ i j R); auto|]. apply ocell_num; auto.
Qed.

Lemma rows_nonneg : Forall nonneg (map reals rows).
Proof.
  apply Forall_map, Forall_forall. intros r Hr. apply Forall_map, Forall_forall. intros y Hy. apply datum_nonneg.
  exact (proj1 (Forall_forall _ _) (proj1 (Forall_forall _ _) Hdat _ Hr) _ Hy).
Qed.
Lemma ototal_nonneg : forall i j, (0 <= ototal (map reals rows) i j)%R.
Proof.
  intros i j. apply Rsum_nonneg. intros r Hr. apply total_nonneg, nonneg_slice. exact (proj1 (Forall_forall _ _) rows_nonneg _ Hr).
Qed.

(** The totals of the parts add up. *)
Lemma ototal_tiles : forall l, tiles 0 n l -> Rsum (fun ij => ototal (map reals rows) (fst ij) (snd ij)) l = ototal (map reals rows) 0 (n - 1).
Proof.
  intros l Tl. unfold ototal. rewrite Rsum_swap. apply Rsum_ext. intros r Hr. apply in_map_iff in Hr. destruct Hr as [r0 [<- Hr]].
  destruct Hv as (V1 & V2 & V3 & V4). pose proof (proj1 (Forall_forall _ _) V4 _ Hr) as Ln.
  rewrite (tiles_slices (reals r0) 0 n l Tl ltac:(lia)) by (unfold reals, vlen in *; rewrite map_length; lia).
  unfold total. rewrite Rsum_concat, Rsum_map. reflexivity.
Qed.
Lemma ototal_part : forall i j, 0 <= i <= j -> j < n -> (ototal (map reals rows) i j <= ototal (map reals rows) 0 (n - 1))%R.
Proof.
  intros i j Hi Hj. apply Rsum_le. intros r Hr. apply in_map_iff in Hr. destruct Hr as [r0 [<- Hr]].
  destruct Hv as (V1 & V2 & V3 & V4). pose proof (proj1 (Forall_forall _ _) V4 _ Hr) as Ln.
  assert (Ef : slice (reals r0) 0 (n - 1) = reals r0).
  { unfold slice. change (Z.to_nat 0) with O. rewrite skipn_O. apply firstn_all2. unfold reals, vlen in *. rewrite map_length. lia. }
  rewrite Ef. apply total_slice. apply (proj1 (Forall_forall _ _) rows_nonneg). apply in_map; auto.
Qed.
End O.

(** ** From table entries to the exact values of partitions. *)
Lemma value_close : forall lg (X : Type) (f : X -> quality (IA lg)) (G Lo T : X -> R) a b c l, (0 <= a <= 1)%R -> (0 <= b <= 1)%R ->
  (forall y, In y l -> within (c * T y) (gain (f y)) (G y) /\ within (c * T y) (loss (f y)) (Lo y)) ->
  (Rabs (exact_value a b (map f l) - Rsum (fun y => a * G y - b * Lo y) l) <= 2 * c * Rsum T l)%R.
Proof.
  intros lg X f G Lo T a b c l Ha Hb H. unfold exact_value. rewrite Rsum_map. induction l as [|y l IH].
  - rewrite !Rsum_nil, Rminus_diag_eq, Rabs_R0 by auto. lra.
  - rewrite !Rsum_cons. assert (IH' := IH ltac:(intros; apply H; right; auto)). destruct (H y ltac:(left; auto)) as [[_ W1] [_ W2]].
    set (g := B2R (gain (f y) : f80)) in *. set (o := B2R (loss (f y) : f80)) in *. set (s := Rsum (fun q : X => _) l) in *. set (s' := Rsum (fun y0 => a * G y0 - b * Lo y0)%R l) in *.
    replace (a * g - b * o + s - (a * G y - b * Lo y + s'))%R with (a * (g - G y) + - (b * (o - Lo y)) + (s - s'))%R by ring.
    eapply Rle_trans; [apply Rabs_triang|]. assert (Rabs (a * (g - G y) + - (b * (o - Lo y))) <= 2 * (c * T y))%R; [|lra].
    eapply Rle_trans; [apply Rabs_triang|]. rewrite Rabs_Ropp, !Rabs_mult, (Rabs_pos_eq a), (Rabs_pos_eq b) by lra.
    assert (a * Rabs (g - G y) <= 1 * (c * T y))%R by (apply Rmult_le_compat; try lra; apply Rabs_pos).
    assert (b * Rabs (o - Lo y) <= 1 * (c * T y))%R by (apply Rmult_le_compat; try lra; apply Rabs_pos). lra.
Qed.

(** A bound on the entries of the table. *)
Lemma num_err_small : forall E k d, (32 <= E <= 8000)%Z -> (0 <= d <= / 1024)%R -> (0 <= k <= 8589934592)%Z -> (0 <= num_err E k d <= IZR E * / 10)%R.
Proof.
  intros E k d HE Hd Hk. unfold num_err. assert (0 <= IZR E)%R by (apply IZR_le; lia). assert (0 <= IZR k <= 8589934592)%R by (split; apply IZR_le; lia).
  assert (Eb : b2 (-56) = (/ 72057594037927936)%R) by (cbn; f_equal). rewrite Eb. split.
  - apply Rmult_le_pos; lra.
  - apply Rmult_le_compat_l; lra.
Qed.

Lemma entry_le : forall E k d T T0 (x : f80) G, (32 <= E <= 8000)%Z -> (0 <= d <= / 1024)%R -> (0 <= k <= 8589934592)%Z -> (0 <= T <= T0)%R ->
  within (num_err E k d * T) x G -> (Rabs G <= 3 * (T * IZR E))%R -> fin_le (4 * (IZR E * T0)) x.
Proof.
  intros E k d T T0 x G HE Hd Hk HT [F W] HG. split; auto. destruct (num_err_small E k d HE Hd Hk) as [N0 N1].
  assert (num_err E k d * T <= IZR E * / 10 * T)%R by (apply Rmult_le_compat_r; lra).
  assert (IZR E * T <= IZR E * T0)%R by (apply Rmult_le_compat_l; [apply IZR_le; lia|lra]).
  assert (0 <= IZR E * T)%R by (apply Rmult_le_pos; [apply IZR_le; lia|lra]).
  replace (B2R x) with ((B2R x - G) + G)%R by ring. eapply Rle_trans; [apply Rabs_triang|]. lra.
Qed.

Lemma sane_T : forall E T, (32 <= E <= 8000)%Z -> (b2 (1 - E) <= T <= b2 (E - 1))%R -> sane_bound (4 * (IZR E * T)).
Proof.
  intros E T HE [H1 H2]. assert (ER : (32 <= IZR E <= 8000)%R) by (split; apply IZR_le; lia). pose proof (bpow_gt_0 radix2 (1 - E)) as P. split.
  - apply Rle_trans with (b2 (1 - E)); [apply bpow_le; lia|]. assert (1 * T <= IZR E * T)%R by (apply Rmult_le_compat_r; lra). lra.
  - apply Rle_trans with (b2 2 * (b2 13 * b2 (E - 1)))%R.
    + change (b2 2) with 4%R. apply Rmult_le_compat_l; [lra|]. apply Rmult_le_compat; try lra. change (b2 13) with 8192%R. lra.
    + rewrite <- !bpow_plus. apply bpow_le. lia.
Qed.

(** Collecting the three errors. *)
Lemma opt_collect : forall E n K d T vl vx wl wx, (32 <= E <= 8000)%Z -> (0 <= d)%R -> (0 <= T)%R ->
  (Rabs (vl - wl) <= 2 * num_err E (n + K) d * T)%R -> (Rabs (vx - wx) <= 2 * num_err E (n + K) d * T)%R ->
  (vl <= vx + slack n (4 * (IZR E * T)))%R -> (wl <= wx + opt_err E n K d * T)%R.
Proof.
  intros E n K d T vl vx wl wx HE Hd HT H1 H2 H3. apply Rabs_le_inv in H1, H2. unfold slack, num_err, opt_err in *.
  change (b2 (-57)) with (b2 (2 + -59)). change (b2 (-54)) with (b2 (2 + -56)). rewrite !bpow_plus. change (b2 2) with 4%R. lra.
Qed.
