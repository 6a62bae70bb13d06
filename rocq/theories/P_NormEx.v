(** * Examples for C79 and C80: concrete data that meet all hypotheses, including well_above. *)
From Coq Require Import Reals Lra Lia.
From Flocq Require Import Core BinarySingleNaN.
From Verif Require Import Base BaseFacts Arith Quality Utm UtmProofs Hierarchy SpecTree SpecParts SpecInfo SpecData HierarchyFacts HierarchyProofs TreePath
  Values Qualities Partitions Partitioners Ieee SpecIeee InfoFacts OInfo SpecNear P_Near P_Hierarchy P_NearEx SpecNum NumFacts P_Num P_NumEx LogRef SpecNorm P_Norm CoverFacts.

Lemma log2_pow : forall k, (0 <= k)%nat -> log2 (2 ^ k) = INR k.
Proof.
  intros k _. unfold log2. rewrite ln_pow by lra. field. pose proof ln_lt_2. lra.
Qed.
Lemma l2_1 : log2 1 = 0%R. Proof. replace 1%R with (2 ^ 0)%R by lra. rewrite log2_pow by lia. cbn; lra. Qed.
Lemma l2_2 : log2 2 = 1%R. Proof. replace (log2 2) with (log2 (2 ^ 1)) by (f_equal; lra). rewrite log2_pow by lia. cbn; lra. Qed.
Lemma l2_4 : log2 4 = 2%R. Proof. replace 4%R with (2 ^ 2)%R by lra. rewrite log2_pow by lia. cbn; lra. Qed.
Lemma l2_8 : log2 8 = 3%R. Proof. replace 8%R with (2 ^ 3)%R by lra. rewrite log2_pow by lia. cbn; lra. Qed.
Lemma l2_16 : log2 16 = 4%R. Proof. replace 16%R with (2 ^ 4)%R by lra. rewrite log2_pow by lia. cbn; lra. Qed.
Lemma xl_of : forall v k, (0 < v)%R -> log2 v = k -> xlog2 v = (v * k)%R.
Proof. intros v k Hv <-. unfold xlog2. destruct (Rlt_dec 0 v); [reflexivity|lra]. Qed.

Lemma ex_gain4 : gain_of [1; 1; 2; 4]%R = 14%R /\ loss_of [1; 1; 2; 4]%R = 2%R /\ gain_of [4; 2; 1; 1]%R = 14%R /\ loss_of [4; 2; 1; 1]%R = 2%R.
Proof.
  assert (G1 : gain_of [1; 1; 2; 4]%R = 14%R).
  { unfold gain_of. replace (total [1; 1; 2; 4]%R) with 8%R by (unfold total; unfold Rsum; cbn [map fold_right]; lra).
    destruct (Rlt_dec 0 8); [|lra]. unfold Rsum; cbn [map fold_right]. rewrite l2_8, (xl_of 1 0), (xl_of 2 1), (xl_of 4 2) by (try lra; apply l2_1 || apply l2_2 || apply l2_4). lra. }
  assert (G2 : gain_of [4; 2; 1; 1]%R = 14%R).
  { unfold gain_of. replace (total [4; 2; 1; 1]%R) with 8%R by (unfold total; unfold Rsum; cbn [map fold_right]; lra).
    destruct (Rlt_dec 0 8); [|lra]. unfold Rsum; cbn [map fold_right]. rewrite l2_8, (xl_of 1 0), (xl_of 2 1), (xl_of 4 2) by (try lra; apply l2_1 || apply l2_2 || apply l2_4). lra. }
  split; [exact G1|]. split; [|split; [exact G2|]]; unfold loss_of; rewrite ?G1, ?G2; unfold total, vlen; unfold Rsum; cbn [length map fold_right]; change (IZR (Z.of_nat 4)) with 4%R; rewrite l2_4; lra.
Qed.
Lemma ex_gain8 : gain_of [1; 1; 2; 2; 4; 4; 1; 1]%R = 44%R /\ loss_of [1; 1; 2; 2; 4; 4; 1; 1]%R = 4%R.
Proof.
  assert (G1 : gain_of [1; 1; 2; 2; 4; 4; 1; 1]%R = 44%R).
  { unfold gain_of. replace (total [1; 1; 2; 2; 4; 4; 1; 1]%R) with 16%R by (unfold total; unfold Rsum; cbn [map fold_right]; lra).
    destruct (Rlt_dec 0 16); [|lra]. unfold Rsum; cbn [map fold_right]. rewrite l2_16, (xl_of 1 0), (xl_of 2 1), (xl_of 4 2) by (try lra; apply l2_1 || apply l2_2 || apply l2_4). lra. }
  split; [exact G1|]. unfold loss_of. rewrite G1. unfold total, vlen; unfold Rsum; cbn [length map fold_right]. change (IZR (Z.of_nat 8)) with 8%R. rewrite l2_8. lra.
Qed.

Lemma ex_above : forall k t g, 0 <= k <= 100 -> (0 <= t <= 100)%R -> (1 <= g)%R -> well_above 64 k (bpow radix2 (-64)) t g.
Proof.
  intros k t g Hk Ht Hg. split; [lra|]. unfold num_err.
  assert (K1 : (0 <= IZR k <= 100)%R) by (split; apply IZR_le; lia).
  change (bpow radix2 (-64)) with (bpow radix2 (-24 + -40)). change (bpow radix2 (-56)) with (bpow radix2 (-16 + -40)). rewrite !bpow_plus.
  change (bpow radix2 (-24)) with (/ 16777216)%R. change (bpow radix2 (-16)) with (/ 65536)%R.
  assert (P : (0 < bpow radix2 (-40) <= / 1048576)%R).
  { split; [apply bpow_gt_0|]. apply Rle_trans with (bpow radix2 (-20)); [apply bpow_le; lia|]. change (bpow radix2 (-20)) with (/ 1048576)%R. lra. }
  set (b := bpow radix2 (-40)) in *.
  assert (Q : (IZR k * (/ 65536 * b) <= 100 * (/ 65536 * / 1048576))%R) by (apply Rmult_le_compat; lra).
  assert (Q0 : (0 <= IZR k * (/ 65536 * b))%R) by (apply Rmult_le_pos; lra).
  apply Rle_trans with (2 * (64 * (75 * (/ 16777216 * / 1048576) + 100 * (/ 65536 * / 1048576))) * 100)%R; [|lra].
  apply Rmult_le_compat; lra.
Qed.

(** Two components over four slices. *)
Definition exn_rows : list (list f80) := [[int80 1; int80 1; int80 2; int80 4]; [int80 4; int80 2; int80 1; int80 1]].
Definition exn_ov : ovalues (IA rounded_log) := mkOV (IA rounded_log) 2 4 (ON2 (IA rounded_log) exn_rows).

Example C79_ordered_nonvacuous : let n := ov_osize exn_ov in let RW := map reals exn_rows in let k := n + ov_vsize exn_ov in let d := bpow radix2 (-64) in
  log_accurate 64 d rounded_log /\ odata_f exn_ov exn_rows /\ 1 <= n /\ Forall (Forall (datum 64)) exn_rows /\
  (Rsum (fun r => total (reals r)) exn_rows <= bpow radix2 (64 - 1))%R /\
  well_above 64 k d (ototal RW 0 (n - 1)) (ogain RW 0 (n - 1)) /\ well_above 64 k d (ototal RW 0 (n - 1)) (oloss RW 0 (n - 1)) /\ unit32 f_quarter.
Proof.
  cbv zeta. split; [apply C77_rounded_log; lia|]. split; [|split; [cbn; lia|]].
  { split; [cbn; lia|]. split; [cbn; lia|]. split; [reflexivity|]. repeat (constructor; [reflexivity|]). constructor. }
  split; [unfold exn_rows; repeat (constructor; [repeat (constructor; [apply int_datum; lia|]); constructor|]); constructor|].
  split; [apply sum_ok; unfold exn_rows, reals, total; unfold Rsum; cbn [map fold_right]; ints; lra|].
  assert (ER : map reals exn_rows = [[1; 1; 2; 4]; [4; 2; 1; 1]]%R) by (unfold exn_rows, reals; cbn [map]; ints; reflexivity).
  rewrite ER. change (ov_osize exn_ov) with 4. change (ov_vsize exn_ov) with 2. change (4 - 1) with 3. change (4 + 2) with 6. destruct ex_gain4 as (G1 & L1 & G2 & L2).
  assert (T : ototal [[1; 1; 2; 4]; [4; 2; 1; 1]]%R 0 3 = 16%R).
  { unfold ototal, total, slice. change (Z.to_nat 0) with O. change (Z.to_nat (3 - 0 + 1)) with 4%nat. unfold Rsum; cbn [map fold_right firstn skipn]. lra. }
  assert (G : ogain [[1; 1; 2; 4]; [4; 2; 1; 1]]%R 0 3 = 28%R).
  { unfold ogain, slice. change (Z.to_nat 0) with O. change (Z.to_nat (3 - 0 + 1)) with 4%nat. unfold Rsum; cbn [map fold_right firstn skipn]. rewrite G1, G2. lra. }
  assert (O : oloss [[1; 1; 2; 4]; [4; 2; 1; 1]]%R 0 3 = 4%R).
  { unfold oloss, slice. change (Z.to_nat 0) with O. change (Z.to_nat (3 - 0 + 1)) with 4%nat. unfold Rsum; cbn [map fold_right firstn skipn]. rewrite L1, L2. lra. }
  rewrite T, G, O. split; [apply ex_above; try lia; lra|]. split; [apply ex_above; try lia; lra|]. apply ex_pars.
Qed.

(** Four leaves, two components. *)
Definition exn_hd : list (list f80) := [[int80 1; int80 4]; [int80 1; int80 2]; [int80 2; int80 1]; [int80 4; int80 1]].
Definition exn_hc : list (list f80) := [[int80 1; int80 1; int80 2; int80 4]; [int80 4; int80 2; int80 1; int80 1]].

Example C79_hier_nonvacuous : exists v : hvalues (IA rounded_log), hv2_of (IA rounded_log) exn_hd [4; 4; 5; 5; 6; 6; -1] = Ok v /\
  let m := hv_meta v in let RC := map reals exn_hc in let k := m_leaves m + hv_vsize v in let d := bpow radix2 (-64) in
  hdata_f v exn_hc /\ Forall (Forall (datum 64)) exn_hc /\ (Rsum (fun c => total (reals c)) exn_hc <= bpow radix2 (64 - 1))%R /\
  m_root m = m_hsize m - 1 /\ well_above 64 k d (htotal m RC (m_root m)) (hgain m RC (m_root m)) /\
  well_above 64 k d (htotal m RC (m_root m)) (hloss m RC (m_root m)).
Proof.
  destruct ex_tree as (m & E & W & H1 & H2). exists (mkHV (IA rounded_log) 2 m (HN2 (IA rounded_log) exn_hd)). split; [|cbv zeta; split; [|split; [|split]]].
  - unfold hv2_of. change (size1 exn_hd) with 4. rewrite E. reflexivity.
  - split; [cbn; lia|]. split; [exact W|]. cbn [hv_meta hv_vsize]. rewrite H1, H2. split; [lia|]. split; [lia|]. reflexivity.
  - unfold exn_hc. repeat (constructor; [repeat (constructor; [apply int_datum; lia|]); constructor|]). constructor.
  - apply sum_ok. unfold exn_hc, reals, total. unfold Rsum; cbn [map fold_right]. ints. lra.
  - cbn [hv_meta hv_vsize]. assert (Er : m_root m = 6 /\ m_hsize m = 7) by (vm_compute in E; inversion E; split; reflexivity). destruct Er as [-> ->]. split; [reflexivity|].
    assert (Er : m_root m = 6) by (vm_compute in E; inversion E; reflexivity).
    assert (ER : map reals exn_hc = [[1; 1; 2; 4]; [4; 2; 1; 1]]%R) by (unfold exn_hc, reals; cbn [map]; ints; reflexivity).
    rewrite ER, H2. change (4 + 2) with 6. destruct ex_gain4 as (G1 & L1 & G2 & L2).
    assert (HC : forall c, hcells m c 6 = map (elt 0%R c) [0; 1; 2; 3]).
    { intro c. unfold hcells. rewrite <- Er at 1. rewrite (lv_root m W), H2. reflexivity. }
    assert (C1 : hcells m [1; 1; 2; 4]%R 6 = [1; 1; 2; 4]%R) by (rewrite HC; reflexivity).
    assert (C2 : hcells m [4; 2; 1; 1]%R 6 = [4; 2; 1; 1]%R) by (rewrite HC; reflexivity).
    assert (T : htotal m [[1; 1; 2; 4]; [4; 2; 1; 1]]%R 6 = 16%R) by (unfold htotal, total; unfold Rsum; cbn [map fold_right]; rewrite C1, C2; unfold Rsum; cbn [map fold_right]; lra).
    assert (G : hgain m [[1; 1; 2; 4]; [4; 2; 1; 1]]%R 6 = 28%R) by (unfold hgain; unfold Rsum; cbn [map fold_right]; rewrite C1, C2, G1, G2; lra).
    assert (O : hloss m [[1; 1; 2; 4]; [4; 2; 1; 1]]%R 6 = 4%R) by (unfold hloss; unfold Rsum; cbn [map fold_right]; rewrite C1, C2, L1, L2; lra).
    rewrite T, G, O. split; apply ex_above; try lia; lra.
Qed.

(** Four leaves, one component, two slices. *)
Definition exn_dd : list (list f80) := [[int80 1; int80 1]; [int80 2; int80 2]; [int80 4; int80 4]; [int80 1; int80 1]].

Example C79_spatio_nonvacuous : exists v : dvalues (IA rounded_log), dv2_of (IA rounded_log) exn_dd [4; 4; 5; 5; 6; 6; -1] = Ok v /\
  let m := dv_meta v in let n := dv_osize v in let RC := map (map reals) [exn_dd] in let k := m_leaves m * n + dv_vsize v in let d := bpow radix2 (-64) in
  ddata_f v [exn_dd] /\ Forall (Forall (Forall (datum 64))) [exn_dd] /\ (Rsum (fun c => Rsum (fun r => total (reals r)) c) [exn_dd] <= bpow radix2 (64 - 1))%R /\
  m_root m = m_hsize m - 1 /\ well_above 64 k d (dtotal m RC (m_root m) 0 (n - 1)) (dgain m RC (m_root m) 0 (n - 1)) /\
  well_above 64 k d (dtotal m RC (m_root m) 0 (n - 1)) (dloss m RC (m_root m) 0 (n - 1)).
Proof.
  destruct ex_tree as (m & E & W & H1 & H2). exists (mkDV (IA rounded_log) 1 2 m (DN2 (IA rounded_log) exn_dd)). split; [|cbv zeta; split; [|split; [|split]]].
  - unfold dv2_of. change (size1 exn_dd) with 4. rewrite E. reflexivity.
  - split; [cbn; lia|]. split; [cbn; lia|]. split; [exact W|]. cbn [dv_meta dv_vsize dv_osize]. rewrite H1, H2. split; [lia|]. split; [lia|]. split; [reflexivity|].
    repeat (constructor; [repeat (constructor; [reflexivity|]); constructor|]). constructor.
  - unfold exn_dd. repeat (constructor; [repeat (constructor; [repeat (constructor; [apply int_datum; lia|]); constructor|]); constructor|]). constructor.
  - apply sum_ok. unfold exn_dd, reals, total. unfold Rsum; cbn [map fold_right]. ints. lra.
  - cbn [dv_meta dv_vsize dv_osize]. assert (Er : m_root m = 6 /\ m_hsize m = 7) by (vm_compute in E; inversion E; split; reflexivity). destruct Er as [-> ->]. split; [reflexivity|].
    assert (Er : m_root m = 6) by (vm_compute in E; inversion E; reflexivity).
    assert (ER : map (map reals) [exn_dd] = [[[1; 1]; [2; 2]; [4; 4]; [1; 1]]]%R) by (unfold exn_dd, reals; cbn [map]; ints; reflexivity).
    rewrite ER, H2. change (2 - 1) with 1. change (4 * 2 + 1) with 9. destruct ex_gain8 as (G1 & L1).
    assert (C1 : dcells m [[1; 1]; [2; 2]; [4; 4]; [1; 1]]%R 6 0 1 = [1; 1; 2; 2; 4; 4; 1; 1]%R).
    { unfold dcells. rewrite <- Er at 1. rewrite (lv_root m W), H2. reflexivity. }
    assert (T : dtotal m [[[1; 1]; [2; 2]; [4; 4]; [1; 1]]]%R 6 0 1 = 16%R) by (unfold dtotal, total; unfold Rsum; cbn [map fold_right]; rewrite C1; unfold Rsum; cbn [map fold_right]; lra).
    assert (G : dgain m [[[1; 1]; [2; 2]; [4; 4]; [1; 1]]]%R 6 0 1 = 44%R) by (unfold dgain; unfold Rsum; cbn [map fold_right]; rewrite C1, G1; lra).
    assert (O : dloss m [[[1; 1]; [2; 2]; [4; 4]; [1; 1]]]%R 6 0 1 = 4%R) by (unfold dloss; unfold Rsum; cbn [map fold_right]; rewrite C1, L1; lra).
    rewrite T, G, O. split; apply ex_above; try lia; lra.
Qed.
