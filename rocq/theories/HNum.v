(** * Rounding errors of the hierarchical quality table. *)
From Coq Require Import ZArith Reals Lra Lia Permutation.
From Flocq Require Import Core BinarySingleNaN.
From Verif Require Import Base BaseFacts Arith Quality Utm UtmFacts UtmProofs Hierarchy SpecTree TreePath CoverFacts Values Qualities Ieee SpecIeee IeeeFacts SpecParts SpecInfo SpecData
  InfoFacts OInfo SpecNear NearFacts SpecNum NumFacts ONum HQual HQualA TreeNum.

Lemma num_err_mono : forall E k k' d, 0 <= E -> k <= k' -> (num_err E k d <= num_err E k' d)%R.
Proof.
  intros E k k' d HE Hk. unfold num_err. apply Rmult_le_compat_l; [apply IZR_le; auto|]. apply Rplus_le_compat_l.
  apply Rmult_le_compat_r; [apply bpow_ge_0|apply IZR_le; auto].
Qed.

(** Totals of covers. *)
Lemma elt_reals : forall c y, elt 0%R (reals c) y = B2R (elt (B754_zero false : f80) c y).
Proof. intros c y. unfold elt, reals. change 0%R with ((fun x : f80 => B2R x) (B754_zero false)) at 1. apply map_nth. Qed.

Section H.
Variables (lg : f80 -> f80) (E : Z) (d : R).
Hypothesis HE : (32 <= E <= 8000)%Z.
Hypothesis Hd : (0 <= d <= / 1024)%R.
Hypothesis HL : log_accurate E d lg.
Notation A := (IA lg).
Notation z80 := (B754_zero false : f80).
Variables (v : hvalues A) (comps : list (list f80)).
Hypothesis Hv : hdata_f v comps.
Hypothesis Hdat : Forall (Forall (datum E)) comps.
Hypothesis Htot : (Rsum (fun c => total (reals c)) comps <= bpow radix2 (E - 1))%R.
Notation m := (hv_meta v).
Notation L := (m_leaves m).
Notation K := (hv_vsize v).
Notation RC := (map reals comps).
Notation lv := (leavesof L (m_parents m)).

Definition hx (k h : Z) : f80 := elt z80 (elt [] comps k) h.

Lemma hx_datum : forall k h, datum E (hx k h).
Proof.
  intros k o. unfold hx, elt. assert (Z0 : datum E z80) by (split; [reflexivity|left; reflexivity]).
  destruct (nth_in_or_default (Z.to_nat k) comps []) as [H| ->]; [|destruct (Z.to_nat o); exact Z0].
  pose proof (proj1 (Forall_forall _ _) Hdat _ H) as F.
  destruct (nth_in_or_default (Z.to_nat o) (nth (Z.to_nat k) comps []) z80) as [H'| ->]; auto. exact (proj1 (Forall_forall _ _) F _ H').
Qed.

Lemma hx_value : forall k, 0 <= k < K -> (forall h, 0 <= h < L -> hv_value v h k = Ok (hx k h)) /\ elt [] comps k = map (hx k) (zrange 0 L).
Proof.
  intros k Hk. destruct Hv as (V1 & W & H2 & V3 & V4). pose proof (wb_L m W).
  destruct (mmap_zrange (list f80) _ _ comps [] (proj1 V1) V4) as (Lc & Kc & _). specialize (Kc k Hk). cbn beta in Kc.
  destruct (mmap_zrange f80 (fun h => hv_value v h k) L _ z80 ltac:(lia) Kc) as (_ & K2 & K3). split; auto.
Qed.

Lemma rc_sum : forall (f : list R -> R), Rsum f RC = Rsum (fun k => f (reals (elt [] comps k))) (zrange 0 K).
Proof.
  intro f. destruct Hv as (V1 & W & H2 & V3 & V4). destruct (mmap_zrange (list f80) _ _ comps [] (proj1 V1) V4) as (_ & _ & Em).
  rewrite Em at 1. rewrite !Rsum_map. reflexivity.
Qed.

Lemma hcells_hx : forall k h, hcells m (reals (elt [] comps k)) h = map (fun y => B2R (hx k y)) (lv h).
Proof. intros k h. unfold hcells, hx. apply map_ext. intro y. apply elt_reals. Qed.

Lemma hcells_datum : forall k h, Forall (fun x : R => x = 0 \/ b2 (1 - E) <= x)%R (hcells m (reals (elt [] comps k)) h).
Proof. intros k h. rewrite hcells_hx. apply Forall_map, Forall_forall. intros y _. apply hx_datum. Qed.

Lemma rc_nonneg : forall k y, (0 <= elt 0%R (reals (elt [] comps k)) y)%R.
Proof. intros k y. rewrite elt_reals. apply (datum_nonneg E), hx_datum. Qed.

(** The whole of a component. *)
Lemma comp_total : forall k, 0 <= k < K -> Rsum (fun y => B2R (hx k y)) (zrange 0 L) = total (reals (elt [] comps k)).
Proof.
  intros k Hk. destruct (hx_value k Hk) as [_ G]. unfold total, reals. rewrite Rsum_map, G, Rsum_map. reflexivity.
Qed.

Lemma hnum_le : forall h, 0 <= h < m_hsize m -> (Rsum (fun k => total (hcells m (reals (elt [] comps k)) h)) (zrange 0 K) <= b2 (E - 1))%R.
Proof.
  intros h Hh. eapply Rle_trans; [|exact Htot]. replace (Rsum (fun c => total (reals c)) comps) with (Rsum total RC) by (rewrite Rsum_map; auto).
  rewrite rc_sum. apply Rsum_le. intros k Hk. apply In_zrange in Hk. rewrite <- comp_total by auto. rewrite hcells_hx. unfold total. rewrite Rsum_map.
  unfold leavesof. apply Rsum_filter_le. intros y _. apply (datum_nonneg E), hx_datum.
Qed.

(** One entry. *)
Definition hcellF (h : Z) : quality A :=
  fold_left (fun q k => add_cellA A m (tsum A m (hx k)) (tsum A m (fun y => entropyReduction A (hx k y) (n_zero A))) q h) (zrange 0 K) (q_zero A).

Lemma hcell_num : forall h q, 0 <= h < m_hsize m -> q = (if h <? L then q_zero A else hcellF h) ->
  within (num_err E (L + K) d * htotal m RC h) (gain q) (hgain m RC h) /\
  within (num_err E (L + K) d * htotal m RC h) (loss q) (hloss m RC h) /\
  (Rabs (hgain m RC h) <= 3 * (htotal m RC h * IZR E))%R /\ (Rabs (hloss m RC h) <= 3 * (htotal m RC h * IZR E))%R.
Proof.
  intros h q Hh ->. destruct Hv as (V1 & W & H2 & V3 & V4). pose proof (wb_L m W) as HLL. pose proof (lv_len m W h) as LL.
  unfold htotal, hgain, hloss. rewrite !rc_sum. destruct (Z.ltb_spec h L) as [Lt|Ge].
  - rewrite (Rsum_zero _ (fun k => gain_of _)) by (intros k _; unfold hcells; rewrite (lv_leaf m W) by lia; apply gain_of_single).
    rewrite (Rsum_zero _ (fun k => loss_of _)) by (intros k _; unfold hcells; rewrite (lv_leaf m W) by lia; apply loss_of_single).
    assert (TP : (0 <= Rsum (fun k => total (hcells m (reals (elt [] comps k)) h)) (zrange 0 K))%R)
      by (apply Rsum_nonneg; intros k _; apply (total_datum E), hcells_datum).
    assert (P : (0 <= num_err E (L + K) d * Rsum (fun k => total (hcells m (reals (elt [] comps k)) h)) (zrange 0 K))%R).
    { apply Rmult_le_pos; auto. apply num_err_small; auto; lia. }
    assert (P' : (0 <= 3 * (Rsum (fun k => total (hcells m (reals (elt [] comps k)) h)) (zrange 0 K) * IZR E))%R).
    { apply Rmult_le_pos; [lra|]. apply Rmult_le_pos; [auto|apply IZR_le; lia]. }
    rewrite !Rabs_R0. split; [|split; [|split; exact P']];
      (split; [reflexivity|]; cbn [q_zero gain loss n_zero IA]; change (B2R z80) with 0%R; rewrite Rminus_0_r, Rabs_R0; exact P).
  - pose proof (lv_pos m W h Hh) as LP.
    destruct (comps_ok lg E d HE Hd HL (vlen (lv h)) K (fun k => tsum A m (hx k) h) (fun k => tsum A m (fun y => entropyReduction A (hx k y) (n_zero A)) h)
      (fun k => hcells m (reals (elt [] comps k)) h) ltac:(lia) ltac:(lia)) as (C1 & C2 & C3 & C4).
    + intros k Hk. split; [unfold hcells, vlen; rewrite map_length; reflexivity|]. split; [apply hcells_datum|].
      assert (TE : (Rsum (fun y => B2R (hx k y)) (zrange 0 L) <= b2 E)%R).
      { rewrite comp_total by auto. apply Rle_trans with (b2 (E - 1)); [|apply bpow_le; lia]. eapply Rle_trans; [|exact Htot].
        replace (Rsum (fun c => total (reals c)) comps) with (Rsum total RC) by (rewrite Rsum_map; auto). rewrite rc_sum.
        rewrite (zrange_app 0 k K), (zrange_cons k K) by lia. rewrite Rsum_app, Rsum_cons.
        assert (G : forall l, (0 <= Rsum (fun k => total (reals (elt [] comps k))) l)%R).
        { intro l. apply Rsum_nonneg. intros c _. apply total_nonneg. apply Forall_map, Forall_forall. intros y Hy. apply (datum_nonneg E).
          unfold elt in Hy. destruct (nth_in_or_default (Z.to_nat c) comps []) as [I|I]; [|rewrite I in Hy; destruct Hy].
          exact (proj1 (Forall_forall _ _) (proj1 (Forall_forall _ _) Hdat _ I) _ Hy). }
        pose proof (G (zrange 0 k)). pose proof (G (zrange (k + 1) K)). lra. }
      assert (LE : forall y, 0 <= y < L -> (B2R (hx k y) <= b2 E)%R).
      { intros y Hy. eapply Rle_trans; [|exact TE]. rewrite (zrange_app 0 y L), (zrange_cons y L) by lia. rewrite Rsum_app, Rsum_cons.
        assert (G : forall l, (0 <= Rsum (fun y => B2R (hx k y)) l)%R) by (intro l; apply Rsum_nonneg; intros; apply (datum_nonneg E), hx_datum).
        pose proof (G (zrange 0 y)). pose proof (G (zrange (y + 1) L)). lra. }
      assert (F1 : forall y, 0 <= y < L -> apS 1 (hx k y) (B2R (hx k y))) by (intros y _; destruct (hx_datum k y) as [Fy _]; apply apS_one; [exact Fy|apply (datum_nonneg E), hx_datum]).
      assert (F2 : forall y, 0 <= y < L -> apI E d 1 (entropyReduction A (hx k y) (n_zero A)) (B2R (hx k y)) (xlog2 (B2R (hx k y)))) by (intros y Hy; apply apI_one; auto; apply hx_datum).
      assert (M1 : 1 * L <= 4294967296) by lia.
      pose proof (tree_apS lg E d HE Hd m W 1 (hx k) (fun y => B2R (hx k y)) ltac:(lia) M1 TE F1 _ (tsum_ok A m W (hx k)) h Hh) as T1.
      pose proof (tree_apI lg E d HE Hd m W 1 (hx k) (fun y => entropyReduction A (hx k y) (n_zero A)) (fun y => B2R (hx k y)) (fun y => xlog2 (B2R (hx k y))) ltac:(lia) M1 TE F1 F2 _ (tsum_ok A m W _) h Hh) as T2.
      rewrite Z.mul_1_l in T1, T2. rewrite hcells_hx. unfold total. rewrite !Rsum_map. split; [exact T1|exact T2].
    + apply hnum_le; auto.
    + assert (EQ : hcellF h = fold_left (fun q c => q_bump A q (entropyReduction A (tsum A m (hx c) h) (tsum A m (fun y => entropyReduction A (hx c y) (n_zero A)) h))
          (divergence A (vlen (lv h)) (tsum A m (hx c) h) (tsum A m (fun y => entropyReduction A (hx c y) (n_zero A)) h))) (zrange 0 K) (q_zero A)).
      { unfold hcellF, add_cellA. rewrite (size_leaves m W) by auto. reflexivity. }
      rewrite EQ. assert (NM : (num_err E (vlen (lv h) + K) d <= num_err E (L + K) d)%R) by (apply num_err_mono; lia).
      assert (TP : (0 <= Rsum (fun k => total (hcells m (reals (elt [] comps k)) h)) (zrange 0 K))%R)
        by (apply Rsum_nonneg; intros k _; apply (total_datum E), hcells_datum).
      split; [|split; [|split; auto]]; (eapply within_le; [|eassumption]; apply Rmult_le_compat_r; auto).
Qed.

Lemma h_num_prf : exists t, hq_compute A (hq_ofValues A v) = Ok (mkHQ A (Some v) (Some t) m) /\ vlen t = m_hsize m /\
  forall h, 0 <= h < m_hsize m -> exists q, vget t h = Ok q /\
  within (num_err E (L + K) d * htotal m RC h) (gain q) (hgain m RC h) /\
  within (num_err E (L + K) d * htotal m RC h) (loss q) (hloss m RC h) /\
  (Rabs (hgain m RC h) <= 3 * (htotal m RC h * IZR E))%R /\ (Rabs (hloss m RC h) <= 3 * (htotal m RC h * IZR E))%R.
Proof.
  destruct Hv as (V1 & W & H2 & V3 & V4). pose proof (wb_L m W) as HLL.
  unfold hq_compute, hq_ofValues, hq_computeTable. cbn [hq_values hq_meta].
  destruct (for_up_inv _ (hq_component A v m) (fun k t => vrepr t (m_hsize m)
     (fun h => if h <? L then q_zero A else fold_left (fun q k => add_cellA A m (tsum A m (hx k)) (tsum A m (fun y => entropyReduction A (hx k y) (n_zero A))) q h) (zrange 0 k) (q_zero A))) 0 K
     (vrep (m_hsize m) (q_zero A))) as (t & E1 & R1).
  - lia.
  - intros k t Hk R1. destruct (hx_value k Hk) as [Hxk _].
    destruct (hqA_component_ok A m W H2 v k (hx k) Hxk _ _ (tsum_ok A m W _) (tsum_ok A m W _) _ t R1) as (t' & E1 & R2). exists t'. split; auto.
    eapply vrepr_ext; [exact R2|]. intros h Hh. cbv beta. rewrite (zrange_snoc 0 k), fold_left_app by lia. cbn [fold_left]. destruct (h <? L); auto.
  - eapply vrepr_ext; [apply vrepr_vrep; lia|]. intros h Hh. rewrite zrange_empty by lia. cbn [fold_left]. destruct (h <? L); auto.
  - rewrite E1. cbn [bind]. exists t. split; auto. destruct R1 as [R1 R2]. split; auto. intros h Hh. eexists. split; [apply R2; auto|].
    apply hcell_num; auto.
Qed.
End H.
