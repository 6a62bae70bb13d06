(** * Examples for C77 and C78: concrete data and a concrete log that meet all hypotheses. *)
From Coq Require Import Reals Lra Lia.
From Flocq Require Import Core BinarySingleNaN Relative.
From Verif Require Import Base BaseFacts Arith Quality Utm UtmFacts UtmProofs Hierarchy SpecTree SpecParts SpecInfo SpecData HierarchyFacts HierarchyProofs
  Values Qualities Partitions Partitioners OProofs Ieee SpecIeee InfoFacts SpecNear P_Near P_Hierarchy P_NearEx SpecNum NumFacts P_Num LogRef.

(** Small natural numbers are data for E = 64. *)
Lemma int_datum : forall z, 0 <= z <= 100 -> datum 64 (int80 z).
Proof.
  intros z Hz. destruct (int80_exact z ltac:(lia)) as [E F]. split; auto. rewrite E.
  destruct (Z.eq_dec z 0) as [->|N]; [left; reflexivity|right]. apply Rle_trans with (bpow radix2 0); [apply bpow_le; lia|].
  change (bpow radix2 0) with (IZR 1). apply IZR_le. lia.
Qed.

Lemma log64_small : (0 <= bpow radix2 (-64) <= / 1024)%R.
Proof.
  split; [apply bpow_ge_0|]. apply Rle_trans with (bpow radix2 (-10)); [apply bpow_le; lia|]. change (bpow radix2 (-10)) with (/ 1024)%R. lra.
Qed.

Lemma sum_ok : forall x : R, (x <= 100)%R -> (x <= bpow radix2 (64 - 1))%R.
Proof.
  intros x H. apply Rle_trans with (bpow radix2 7); [change (bpow radix2 7) with 128%R; lra|apply bpow_le; lia].
Qed.

Ltac ints := repeat match goal with |- context [B2R (int80 ?z)] => rewrite (proj1 (int80_exact z ltac:(lia))) end.

(** Two components over three slices. *)
Definition ex_rows : list (list f80) := [[int80 1; int80 3; int80 2]; [int80 0; int80 5; int80 1]].
Definition ex_ov : ovalues (IA rounded_log) := mkOV (IA rounded_log) 2 3 (ON2 (IA rounded_log) ex_rows).

Example C77_ordered_nonvacuous : log_accurate 64 (bpow radix2 (-64)) rounded_log /\ odata_f ex_ov ex_rows /\ Forall (Forall (datum 64)) ex_rows /\
  (Rsum (fun r => total (reals r)) ex_rows <= bpow radix2 (64 - 1))%R /\ unit32 f_quarter.
Proof.
  split; [apply C77_rounded_log; lia|]. split; [|split; [|split]].
  - split; [cbn; lia|]. split; [cbn; lia|]. split; [reflexivity|]. repeat (constructor; [reflexivity|]). constructor.
  - unfold ex_rows. repeat (constructor; [repeat (constructor; [apply int_datum; lia|]); constructor|]). constructor.
  - apply sum_ok. unfold ex_rows, reals, total. cbn [map Rsum fold_right]. ints. lra.
  - apply ex_pars.
Qed.

(** Hence, for instance, the entry of all three slices is exact to 2^-40. *)
Example C77_ordered_example : exists t q, oq_compute (IA rounded_log) (oq_ofValues _ ex_ov) = Ok (mkOQ _ (Some ex_ov) (Some t)) /\ u_get t 0 2 = Ok q /\
  within (bpow radix2 (-40)) (gain q) (ogain (map reals ex_rows) 0 2) /\ within (bpow radix2 (-40)) (loss q) (oloss (map reals ex_rows) 0 2).
Proof.
  destruct C77_ordered_nonvacuous as (HL & Hv & Hd & Ht & _).
  destruct (C77_ordered rounded_log 64 (bpow radix2 (-64)) ex_ov ex_rows ltac:(lia) log64_small HL Hv Hd Ht) as (t & E1 & S & K).
  destruct (K 0 2 ltac:(lia) ltac:(reflexivity)) as (q & Eq & [F1 W1] & [F2 W2]). exists t, q. split; auto. split; auto.
  assert (B : (num_err 64 (ov_osize ex_ov + ov_vsize ex_ov) (bpow radix2 (-64)) * ototal (map reals ex_rows) 0 2 <= bpow radix2 (-40))%R).
  { assert (T : ototal (map reals ex_rows) 0 2 = 12%R).
    { unfold ototal, ex_rows, reals, total, slice. change (Z.to_nat 0) with O. change (Z.to_nat (2 - 0 + 1)) with 3%nat. cbn [map Rsum fold_right firstn skipn]. ints. lra. }
    rewrite T. unfold num_err. change (IZR (ov_osize ex_ov + ov_vsize ex_ov)) with 5%R.
    change (bpow radix2 (-64)) with (bpow radix2 (-24 + -40)). change (bpow radix2 (-56)) with (bpow radix2 (-16 + -40)). rewrite !bpow_plus.
    assert (P : (0 < bpow radix2 (-40))%R) by apply bpow_gt_0. set (b := bpow radix2 (-40)) in *.
    change (bpow radix2 (-24)) with (/ 16777216)%R. change (bpow radix2 (-16)) with (/ 65536)%R. lra. }
  split; split; auto; eapply Rle_trans; eauto.
Qed.

(** Four leaves, two components. *)
Definition ex_hd : list (list f80) := [[int80 1; int80 0]; [int80 3; int80 5]; [int80 2; int80 1]; [int80 2; int80 2]].
Definition ex_hc : list (list f80) := [[int80 1; int80 3; int80 2; int80 2]; [int80 0; int80 5; int80 1; int80 2]].

Example C77_hier_nonvacuous : exists v : hvalues (IA rounded_log), hv2_of (IA rounded_log) ex_hd [4; 4; 5; 5; 6; 6; -1] = Ok v /\
  hdata_f v ex_hc /\ Forall (Forall (datum 64)) ex_hc /\ (Rsum (fun c => total (reals c)) ex_hc <= bpow radix2 (64 - 1))%R.
Proof.
  destruct ex_tree as (m & E & W & H1 & H2). exists (mkHV (IA rounded_log) 2 m (HN2 (IA rounded_log) ex_hd)). split; [|split; [|split]].
  - unfold hv2_of. change (size1 ex_hd) with 4. rewrite E. reflexivity.
  - split; [cbn; lia|]. split; [exact W|]. cbn [hv_meta hv_vsize]. rewrite H1, H2. split; [lia|]. split; [lia|]. reflexivity.
  - unfold ex_hc. repeat (constructor; [repeat (constructor; [apply int_datum; lia|]); constructor|]). constructor.
  - apply sum_ok. unfold ex_hc, reals, total. cbn [map Rsum fold_right]. ints. lra.
Qed.

(** Four leaves, two components, two slices. *)
Definition ex_dd : list (list (list f80)) :=
  [[[int80 1; int80 0]; [int80 2; int80 2]]; [[int80 3; int80 5]; [int80 0; int80 1]]; [[int80 2; int80 1]; [int80 4; int80 0]]; [[int80 2; int80 2]; [int80 1; int80 1]]].
Definition ex_dc : list (list (list f80)) :=
  [[[int80 1; int80 0]; [int80 3; int80 5]; [int80 2; int80 1]; [int80 2; int80 2]]; [[int80 2; int80 2]; [int80 0; int80 1]; [int80 4; int80 0]; [int80 1; int80 1]]].

Example C77_spatio_nonvacuous : exists v : dvalues (IA rounded_log), dv3_of (IA rounded_log) ex_dd [4; 4; 5; 5; 6; 6; -1] = Ok v /\
  ddata_f v ex_dc /\ Forall (Forall (Forall (datum 64))) ex_dc /\ (Rsum (fun c => Rsum (fun r => total (reals r)) c) ex_dc <= bpow radix2 (64 - 1))%R.
Proof.
  destruct ex_tree as (m & E & W & H1 & H2). exists (mkDV (IA rounded_log) 2 2 m (DN3 (IA rounded_log) ex_dd)). split; [|split; [|split]].
  - unfold dv3_of. change (size1 ex_dd) with 4. rewrite E. reflexivity.
  - split; [cbn; lia|]. split; [cbn; lia|]. split; [exact W|]. cbn [dv_meta dv_vsize dv_osize]. rewrite H1, H2. split; [lia|]. split; [lia|]. split; [reflexivity|].
    repeat (constructor; [repeat (constructor; [reflexivity|]); constructor|]). constructor.
  - unfold ex_dc. repeat (constructor; [repeat (constructor; [repeat (constructor; [apply int_datum; lia|]); constructor|]); constructor|]). constructor.
  - apply sum_ok. unfold ex_dc, reals, total. cbn [map Rsum fold_right]. ints. lra.
Qed.

(** A double log that meets the hypothesis of [C77_double_log]: the double nearest to ln y. *)
Definition rounded_log64 (y : f64) : f64 :=
  binary_normalize 53 1024 prec64 emax64 mode_NE (ZnearestE (scaled_mantissa radix2 (FLT_exp (-1074) 53) (ln (B2R y)))) (cexp radix2 (FLT_exp (-1074) 53) (ln (B2R y))) false.

Lemma rnd64_err : forall x, (Rabs (rnd64 x - x) <= bpow radix2 (-53) * Rabs x + bpow radix2 (-1075))%R.
Proof.
  intro x. destruct (error_N_FLT radix2 (-1074) 53 ltac:(lia) (fun n => negb (Z.even n)) x) as (eps & eta & H1 & H2 & _ & E).
  rewrite E. assert (Hb : forall k, (/ 2 * bpow radix2 (k + 1) = bpow radix2 k)%R) by (intro k; rewrite bpow_plus; change (bpow radix2 1) with 2%R; field).
  change (- (53) + 1) with (-53 + 1) in H1. change (-1074) with (-1075 + 1) in H2 at 1. rewrite Hb in H1, H2.
  replace (x * (1 + eps) + eta - x)%R with (eps * x + eta)%R by ring.
  eapply Rle_trans; [apply Rabs_triang|]. rewrite Rabs_mult. pose proof (Rabs_pos x).
  apply Rplus_le_compat; auto. apply Rmult_le_compat_r; auto.
Qed.

(** ln of a positive double is at most 2^11. *)
Lemma ln64_range : forall y : f64, is_finite y = true -> (0 < B2R y)%R -> (Rabs (ln (B2R y)) <= 1100)%R.
Proof.
  intros y F P. pose proof (abs_B2R_lt_emax 53 1024 y) as U. rewrite Rabs_pos_eq in U by lra.
  assert (Lo : (bpow radix2 (-1074) <= B2R y)%R).
  { pose proof (generic_format_B2R 53 1024 y) as G. change (SpecFloat.fexp 53 1024) with (FLT_exp (-1074) 53) in G.
    pose proof (generic_format_ge_bpow radix2 (FLT_exp (-1074) 53) (-1074) ltac:(intro; apply Z.le_max_r) (B2R y) P G). auto. }
  assert (R0 : (bpow radix2 (- (1074)) <= B2R y <= bpow radix2 1074)%R).
  { split; [exact Lo|]. apply Rle_trans with (bpow radix2 1024); [lra|apply bpow_le; lia]. }
  pose proof (ln_range 1074 _ R0). pose proof ln2_range. lra.
Qed.

Example C77_double_log_nonvacuous : log64_accurate rounded_log64 /\ log_accurate 64 (bpow radix2 (-50)) (via_double rounded_log64).
Proof.
  assert (K : log64_accurate rounded_log64).
  { intros y F P. pose proof (ln64_range y F P) as LR. unfold rounded_log64.
    pose proof (binary_normalize_correct 53 1024 prec64 emax64 mode_NE (ZnearestE (scaled_mantissa radix2 (FLT_exp (-1074) 53) (ln (B2R y)))) (cexp radix2 (FLT_exp (-1074) 53) (ln (B2R y))) false) as K.
    cbv zeta in K. change (SpecFloat.fexp 53 1024) with (FLT_exp (-1074) 53) in K. change (round_mode mode_NE) with ZnearestE in K.
    change (F2R {| Fnum := ZnearestE (scaled_mantissa radix2 (FLT_exp (-1074) 53) (ln (B2R y))); Fexp := cexp radix2 (FLT_exp (-1074) 53) (ln (B2R y)) |}) with (rnd64 (ln (B2R y))) in K.
    assert (V : Valid_exp (FLT_exp (-1074) 53)) by (apply FLT_exp_valid; reflexivity).
    rewrite (round_generic _ _ _ (rnd64 (ln (B2R y)))) in K by (apply generic_format_round; auto with typeclass_instances).
    pose proof (rnd64_err (ln (B2R y))) as Er. set (x := ln (B2R y)) in *.
    assert (T1 : (bpow radix2 (-1075) <= bpow radix2 (-53))%R) by (apply bpow_le; lia).
    assert (T2 : (bpow radix2 (-52) = 2 * bpow radix2 (-53))%R) by (change (-52) with (1 + -53); rewrite bpow_plus; reflexivity).
    assert (T3 : (0 < bpow radix2 (-53) <= / 1024)%R).
    { split; [apply bpow_gt_0|]. apply Rle_trans with (bpow radix2 (-10)); [apply bpow_le; lia|]. change (bpow radix2 (-10)) with (/ 1024)%R. lra. }
    assert (T4 : (bpow radix2 (-53) * Rabs x <= / 1024 * 1100)%R) by (pose proof (Rabs_pos x); apply Rmult_le_compat; lra).
    rewrite Rlt_bool_true in K.
    - destruct K as (K1 & K2 & _). split; [exact K2|]. rewrite K1, T2. pose proof (Rabs_pos x).
      assert (0 <= bpow radix2 (-53) * Rabs x)%R by (apply Rmult_le_pos; lra). lra.
    - apply Rle_lt_trans with (bpow radix2 12); [|apply bpow_lt; lia]. change (bpow radix2 12) with 4096%R.
      replace (rnd64 x) with ((rnd64 x - x) + x)%R by ring. eapply Rle_trans; [apply Rabs_triang|]. lra. }
  split; auto. apply C77_double_log; auto. lia.
Qed.
