(** * Rounding errors of the spatiotemporal quality table. *)
From Coq Require Import ZArith Reals Lra Lia Permutation Bool.
From Flocq Require Import Core BinarySingleNaN.
From Verif Require Import Base BaseFacts Arith Quality Utm UtmFacts UtmProofs Hierarchy SpecTree TreePath CoverFacts Values Qualities Ieee SpecIeee IeeeFacts SpecParts SpecInfo SpecData
  InfoFacts OQual OInfo SpecNear NearFacts SpecNum NumFacts ONum HQual HQualA DQual DQualA TreeNum HNum.

Section D.
Variables (lg : f80 -> f80) (E : Z) (d : R).
Hypothesis HE : (32 <= E <= 8000)%Z.
Hypothesis Hd : (0 <= d <= / 1024)%R.
Hypothesis HL : log_accurate E d lg.
Notation A := (IA lg).
Notation z80 := (B754_zero false : f80).
Variables (v : dvalues A) (comps : list (list (list f80))).
Hypothesis Hv : ddata_f v comps.
Hypothesis Hdat : Forall (Forall (Forall (datum E))) comps.
Hypothesis Htot : (Rsum (fun c => Rsum (fun r => total (reals r)) c) comps <= bpow radix2 (E - 1))%R.
Notation m := (dv_meta v).
Notation L := (m_leaves m).
Notation K := (dv_vsize v).
Notation n := (dv_osize v).
Notation RC := (map (map reals) comps).
Notation lv := (leavesof L (m_parents m)).

Definition dx (k h o : Z) : f80 := elt z80 (elt [] (elt [] comps k) h) o.

Lemma dx_datum : forall k h o, datum E (dx k h o).
Proof.
  intros k h o. unfold dx, elt. assert (Z0 : datum E z80) by (split; [reflexivity|left; reflexivity]).
  destruct (nth_in_or_default (Z.to_nat k) comps []) as [H| ->]; [|destruct (Z.to_nat h), (Z.to_nat o); exact Z0].
  pose proof (proj1 (Forall_forall _ _) Hdat _ H) as F.
  destruct (nth_in_or_default (Z.to_nat h) (nth (Z.to_nat k) comps []) []) as [H'| ->]; [|destruct (Z.to_nat o); exact Z0].
  pose proof (proj1 (Forall_forall _ _) F _ H') as F'.
  destruct (nth_in_or_default (Z.to_nat o) (nth (Z.to_nat h) (nth (Z.to_nat k) comps []) []) z80) as [H2| ->]; auto. exact (proj1 (Forall_forall _ _) F' _ H2).
Qed.

Lemma dx_row : forall k, 0 <= k < K ->
  (forall h, 0 <= h < L -> dv_row v h k = Ok (elt [] (elt [] comps k) h) /\ vlen (elt [] (elt [] comps k) h) = n /\ vrepr (elt [] (elt [] comps k) h) n (dx k h)) /\
  elt [] comps k = map (elt [] (elt [] comps k)) (zrange 0 L).
Proof.
  intros k Hk. destruct Hv as (V1 & V2 & W & H2 & V3 & V4 & V5). pose proof (wb_L m W).
  destruct (mmap_zrange (list (list f80)) _ _ comps [] (proj1 V1) V4) as (Lc & Kc & _). specialize (Kc k Hk). cbn beta in Kc.
  destruct (mmap_zrange (list f80) (fun h => dv_row v h k) L _ [] ltac:(lia) Kc) as (Ll & K2 & K3). split; [|exact K3].
  intros h Hh. split; auto.
  assert (I1 : In (elt [] comps k) comps) by (unfold elt; apply nth_In; unfold vlen in Lc; lia).
  assert (Ln : vlen (elt [] (elt [] comps k) h) = n).
  { pose proof (proj1 (Forall_forall _ _) V5 _ I1) as F. apply (proj1 (Forall_forall _ _) F). unfold elt at 1. apply nth_In. unfold vlen in Ll; lia. }
  split; auto. split; auto. intros o Ho. apply (elt_vget f80). lia.
Qed.

Lemma drc_sum : forall (f : list (list R) -> R), Rsum f RC = Rsum (fun k => f (map reals (elt [] comps k))) (zrange 0 K).
Proof.
  intro f. destruct Hv as (V1 & V2 & W & H2 & V3 & V4 & V5). destruct (mmap_zrange (list (list f80)) _ _ comps [] (proj1 V1) V4) as (_ & _ & Em).
  rewrite Em at 1. rewrite !Rsum_map. reflexivity.
Qed.

(** Sum of a leaf's slices. *)
Definition lsum (f : R -> R) (k i j h : Z) : R := Rsum (fun o => f (B2R (dx k h o))) (zrange i (j + 1)).

Lemma dcells_dx : forall k h i j, 0 <= k < K -> 0 <= i <= j -> j < n ->
  dcells m (map reals (elt [] comps k)) h i j = flat_map (fun y => map (fun o => B2R (dx k y o)) (zrange i (j + 1))) (lv h).
Proof.
  intros k h i j Hk Hi Hj. destruct (dx_row k Hk) as [Hr _]. destruct Hv as (_ & _ & W & _). unfold dcells. rewrite !flat_map_concat_map. f_equal. apply map_ext_in. intros y Hy.
  apply (lv_In m W) in Hy. destruct (Hr y ltac:(tauto)) as (_ & Ln & _).
  assert (Ee : elt [] (map reals (elt [] comps k)) y = reals (elt [] (elt [] comps k) y)).
  { unfold elt. change (@nil R) with (reals []) at 1. apply map_nth. }
  rewrite Ee. unfold reals. rewrite slice_map, (slice_elt f80 z80) by lia. rewrite map_map. reflexivity.
Qed.

Lemma dcells_sum : forall f k h i j, 0 <= k < K -> 0 <= i <= j -> j < n ->
  Rsum f (dcells m (map reals (elt [] comps k)) h i j) = bsum m (lsum f k i j) h.
Proof.
  intros f k h i j Hk Hi Hj. rewrite dcells_dx by auto. unfold bsum, lsum. rewrite flat_map_concat_map, Rsum_concat, Rsum_map. apply Rsum_ext. intros y _. apply Rsum_map.
Qed.

Lemma dcells_len : forall k h i j, 0 <= k < K -> 0 <= i <= j -> j < n -> vlen (dcells m (map reals (elt [] comps k)) h i j) = (j - i + 1) * vlen (lv h).
Proof.
  intros k h i j Hk Hi Hj. rewrite dcells_dx by auto. induction (lv h) as [|y l IH]; [cbn; lia|]. cbn [flat_map]. rewrite vlen_app, IH.
  replace (vlen (map (fun o => B2R (dx k y o)) (zrange i (j + 1)))) with (j - i + 1) by (unfold vlen; rewrite map_length, zrange_length; lia).
  unfold vlen. cbn [length]. nia.
Qed.

Lemma dcells_datum : forall k h i j, 0 <= k < K -> 0 <= i <= j -> j < n -> Forall (fun x : R => x = 0 \/ b2 (1 - E) <= x)%R (dcells m (map reals (elt [] comps k)) h i j).
Proof.
  intros k h i j Hk Hi Hj. rewrite dcells_dx by auto. apply Forall_flat_map, Forall_forall. intros y _. apply Forall_map, Forall_forall. intros o _. apply dx_datum.
Qed.

Notation id := (fun x : R => x).
Lemma lsum_nonneg : forall k i j h, (0 <= lsum id k i j h)%R.
Proof. intros. unfold lsum. apply Rsum_nonneg. intros; apply (datum_nonneg E), dx_datum. Qed.

Lemma lsum_part : forall k i j h, 0 <= i <= j -> j < n -> (lsum id k i j h <= lsum id k 0 (n - 1) h)%R.
Proof.
  intros k i j h Hi Hj. unfold lsum. rewrite (zrange_app 0 i (n - 1 + 1)), (zrange_app i (j + 1) (n - 1 + 1)) by lia. rewrite !Rsum_app.
  assert (G : forall l, (0 <= Rsum (fun o => B2R (dx k h o)) l)%R) by (intro l; apply Rsum_nonneg; intros; apply (datum_nonneg E), dx_datum).
  pose proof (G (zrange 0 i)). pose proof (G (zrange (j + 1) (n - 1 + 1))). lra.
Qed.

(** The whole of a component. *)
Lemma dcomp_total : forall k, 0 <= k < K -> Rsum (lsum id k 0 (n - 1)) (zrange 0 L) = Rsum (fun r => total (reals r)) (elt [] comps k).
Proof.
  intros k Hk. destruct (dx_row k Hk) as [Hr G]. rewrite G, Rsum_map. apply Rsum_ext. intros y Hy. apply In_zrange in Hy.
  destruct (Hr y Hy) as (_ & Ln & _). destruct Hv as (_ & V2 & _).
  assert (Ef : slice (elt [] (elt [] comps k) y) 0 (n - 1) = elt [] (elt [] comps k) y).
  { unfold slice. change (Z.to_nat 0) with O. rewrite skipn_O. apply firstn_all2. unfold vlen in *. lia. }
  rewrite <- Ef, (slice_elt f80 z80) by lia. unfold total, reals, lsum. rewrite !Rsum_map. reflexivity.
Qed.

Lemma dall_total : (Rsum (fun k => Rsum (lsum id k 0 (n - 1)) (zrange 0 L)) (zrange 0 K) <= b2 (E - 1))%R.
Proof.
  eapply Rle_trans; [|exact Htot].
  assert (G : Rsum (fun c => Rsum (fun r => total (reals r)) c) comps = Rsum (fun c => Rsum total c) RC).
  { rewrite Rsum_map. apply Rsum_ext. intros c _. rewrite Rsum_map. reflexivity. }
  rewrite G, drc_sum. right. apply Rsum_ext. intros k Hk. apply In_zrange in Hk. rewrite dcomp_total by auto. rewrite Rsum_map. reflexivity.
Qed.

Lemma one_comp : forall k, 0 <= k < K -> (Rsum (lsum id k 0 (n - 1)) (zrange 0 L) <= b2 (E - 1))%R.
Proof.
  intros k Hk. eapply Rle_trans; [|exact dall_total]. rewrite (zrange_app 0 k K), (zrange_cons k K) by lia. rewrite Rsum_app, Rsum_cons.
  assert (G : forall l, (0 <= Rsum (fun k => Rsum (lsum id k 0 (n - 1)) (zrange 0 L)) l)%R) by (intro l; apply Rsum_nonneg; intros; apply Rsum_nonneg; intros; apply lsum_nonneg).
  pose proof (G (zrange 0 k)). pose proof (G (zrange (k + 1) K)). lra.
Qed.

Lemma dnum_le : forall h i j, 0 <= h < m_hsize m -> 0 <= i <= j -> j < n ->
  (Rsum (fun k => total (dcells m (map reals (elt [] comps k)) h i j)) (zrange 0 K) <= b2 (E - 1))%R.
Proof.
  intros h i j Hh Hi Hj. eapply Rle_trans; [|exact dall_total]. apply Rsum_le. intros k Hk. apply In_zrange in Hk. unfold total. rewrite dcells_sum by auto.
  unfold bsum, leavesof. eapply Rle_trans; [apply Rsum_filter_le; intros y _; apply lsum_nonneg|]. apply Rsum_le. intros y _. apply lsum_part; auto.
Qed.

(** One entry. *)
Notation tS := (fun k i j => tsum A m (csA A (dx k) i j)).
Notation tF := (fun k i j => tsum A m (csA A (fun h o => entropyReduction A (dx k h o) (n_zero A)) i j)).
Definition dcellF (h i j : Z) (l : list Z) : quality A := fold_left (fun q k => addcA A m (tS k) (tF k) q h i j) l (q_zero A).

Lemma dcell_num : forall h i j q, 0 <= h < m_hsize m -> 0 <= i <= j -> j < n -> q = (if (h <? L) && (i =? j) then q_zero A else dcellF h i j (zrange 0 K)) ->
  within (num_err E (L * n + K) d * dtotal m RC h i j) (gain q) (dgain m RC h i j) /\
  within (num_err E (L * n + K) d * dtotal m RC h i j) (loss q) (dloss m RC h i j) /\
  (Rabs (dgain m RC h i j) <= 3 * (dtotal m RC h i j * IZR E))%R /\ (Rabs (dloss m RC h i j) <= 3 * (dtotal m RC h i j * IZR E))%R.
Proof.
  intros h i j q Hh Hi Hj ->. pose proof Hv as (V1 & V2 & W & H2 & V3 & V4 & V5). pose proof (wb_L m W) as HLL. pose proof (lv_len m W h) as LL.
  unfold dtotal, dgain, dloss. rewrite !drc_sum.
  assert (TP : (0 <= Rsum (fun k => total (dcells m (map reals (elt [] comps k)) h i j)) (zrange 0 K))%R)
      by (apply Rsum_nonneg; intros k Hk; apply In_zrange in Hk; apply (total_datum E), dcells_datum; auto).
  destruct ((h <? L) && (i =? j)) eqn:B.
  - apply andb_true_iff in B. destruct B as [B1 B2]. apply Z.ltb_lt in B1. apply Z.eqb_eq in B2. subst j.
    assert (Sg : forall k, 0 <= k < K -> dcells m (map reals (elt [] comps k)) h i i = [B2R (dx k h i)]).
    { intros k Hk. rewrite dcells_dx by lia. rewrite (lv_leaf m W) by lia. rewrite zrange_cons, zrange_empty by lia. reflexivity. }
    rewrite (Rsum_zero _ (fun k => gain_of _)) by (intros k Hk; apply In_zrange in Hk; rewrite Sg by auto; apply gain_of_single).
    rewrite (Rsum_zero _ (fun k => loss_of _)) by (intros k Hk; apply In_zrange in Hk; rewrite Sg by auto; apply loss_of_single).
    assert (P : (0 <= num_err E (L * n + K) d * Rsum (fun k => total (dcells m (map reals (elt [] comps k)) h i i)) (zrange 0 K))%R).
    { apply Rmult_le_pos; auto. apply num_err_small; auto. nia. }
    assert (P' : (0 <= 3 * (Rsum (fun k => total (dcells m (map reals (elt [] comps k)) h i i)) (zrange 0 K) * IZR E))%R).
    { apply Rmult_le_pos; [lra|]. apply Rmult_le_pos; [auto|apply IZR_le; lia]. }
    rewrite !Rabs_R0. split; [|split; [|split; exact P']];
      (split; [reflexivity|]; cbn [q_zero gain loss n_zero IA]; change (B2R z80) with 0%R; rewrite Rminus_0_r, Rabs_R0; exact P).
  - clear B. pose proof (lv_pos m W h Hh) as LP. set (kk := j - i + 1). assert (Kk : 1 <= kk <= n) by (unfold kk; lia).
    assert (M1 : kk * L <= 4294967296) by nia. assert (M2 : 1 <= kk * vlen (lv h) <= 4294967296) by nia.
    destruct (comps_ok lg E d HE Hd HL (kk * vlen (lv h)) K (fun k => tS k i j h) (fun k => tF k i j h)
      (fun k => dcells m (map reals (elt [] comps k)) h i j) M2 ltac:(lia)) as (C1 & C2 & C3 & C4).
    + intros k Hk. split; [apply dcells_len; auto|]. split; [apply dcells_datum; auto|].
      assert (TE : (Rsum (lsum id k i j) (zrange 0 L) <= b2 E)%R).
      { apply Rle_trans with (b2 (E - 1)); [|apply bpow_le; lia]. eapply Rle_trans; [|apply (one_comp k Hk)]. apply Rsum_le. intros y _. apply lsum_part; auto. }
      assert (LE : forall y, 0 <= y < L -> (lsum id k i j y <= b2 E)%R).
      { intros y Hy. eapply Rle_trans; [|exact TE]. rewrite (zrange_app 0 y L), (zrange_cons y L) by lia. rewrite Rsum_app, Rsum_cons.
        assert (G : forall l, (0 <= Rsum (lsum id k i j) l)%R) by (intro l; apply Rsum_nonneg; intros; apply lsum_nonneg).
        pose proof (G (zrange 0 y)). pose proof (G (zrange (y + 1) L)). lra. }
      assert (Ej : i + Z.of_nat (Z.to_nat (j - i)) = j) by lia. assert (Ek : Z.of_nat (Z.to_nat (j - i)) + 1 = kk) by (unfold kk; lia).
      assert (F1 : forall y, 0 <= y < L -> apS kk (csA A (dx k) i j y) (lsum id k i j y)).
      { intros y Hy. pose proof (rs_apS lg E HE (dx k y) (dx_datum k y) (Z.to_nat (j - i)) i ltac:(lia)) as RS. rewrite Ej, Ek in RS. apply RS. apply (LE y Hy). }
      assert (F2 : forall y, 0 <= y < L -> apI E d kk (csA A (fun h o => entropyReduction A (dx k h o) (n_zero A)) i j y) (lsum id k i j y) (lsum xlog2 k i j y)).
      { intros y Hy. pose proof (rs_apI lg E d HE Hd HL (dx k y) (dx_datum k y) (Z.to_nat (j - i)) i ltac:(lia)) as RS. rewrite Ej, Ek in RS. apply RS. apply (LE y Hy). }
      pose proof (tree_apS lg E d HE Hd m W kk _ (lsum id k i j) ltac:(lia) M1 TE F1 _ (tsum_ok A m W _) h Hh) as T1.
      pose proof (tree_apI lg E d HE Hd m W kk _ _ (lsum id k i j) (lsum xlog2 k i j) ltac:(lia) M1 TE F1 F2 _ (tsum_ok A m W _) h Hh) as T2.
      unfold total. rewrite !dcells_sum by auto. split; [exact T1|exact T2].
    + apply dnum_le; auto.
    + change (fold_left _ (zrange 0 K) (q_zero A)) with (dcellF h i j (zrange 0 K)) in C1, C2.
      assert (NM : (num_err E (kk * vlen (lv h) + K) d <= num_err E (L * n + K) d)%R) by (apply num_err_mono; nia).
      split; [|split; [|split; auto]]; (eapply within_le; [|eassumption]; apply Rmult_le_compat_r; auto).
Qed.

Lemma d_num_prf : exists t, dq_compute A (dq_ofValues A v) = Ok (mkDQ A (Some v) (Some t) m) /\ vlen t = m_hsize m /\ Forall (fun u => utm_shape u n) t /\
  forall h i j, 0 <= h < m_hsize m -> 0 <= i <= j -> j < n -> exists q, mm_get t h i j = Ok q /\
    within (num_err E (L * n + K) d * dtotal m RC h i j) (gain q) (dgain m RC h i j) /\
    within (num_err E (L * n + K) d * dtotal m RC h i j) (loss q) (dloss m RC h i j) /\
    (Rabs (dgain m RC h i j) <= 3 * (dtotal m RC h i j * IZR E))%R /\ (Rabs (dloss m RC h i j) <= 3 * (dtotal m RC h i j * IZR E))%R.
Proof.
  pose proof Hv as (V1 & V2 & W & H2 & V3 & V4 & V5). pose proof (wb_L m W) as HLL.
  unfold dq_compute, dq_ofValues, dq_computeTable. cbn [dq_values dq_meta].
  destruct (for_up_inv _ (dq_component A v m) (fun k t => mrepr t (m_hsize m) n
     (fun h i j => if (h <? L) && (i =? j) then q_zero A else dcellF h i j (zrange 0 k))) 0 K
     (vrep (m_hsize m) (u_new n (q_zero A)))) as (t & E1 & R1).
  - lia.
  - intros k t Hk R1. destruct (dx_row k Hk) as [Hr _].
    destruct (dq_component_ok A m W H2 n V2 v k (elt [] (elt [] comps k)) (dx k)) with (S := tS k) (F := tF k)
      (Q0 := fun h i j => if (h <? L) && (i =? j) then q_zero A else dcellF h i j (zrange 0 k)) (q := t) as (t' & E1 & R2); auto.
    { intros h Hh. destruct (Hr h Hh) as (K1 & _ & K2). auto. }
    { intros i j Hi Hj. apply tsum_ok; auto. } { intros i j Hi Hj. apply tsum_ok; auto. }
    exists t'. split; auto. eapply mrepr_ext; [exact R2|]. intros h i j Hh Hi Hj. unfold donec.
    rewrite (zrange_snoc 0 k) by lia. unfold dcellF. rewrite fold_left_app. cbn [fold_left]. destruct ((h <? L) && (i =? j)); auto.
  - eapply mrepr_ext; [apply mrepr_new; lia|]. intros h i j Hh Hi Hj. rewrite zrange_empty by lia. unfold dcellF. cbn [fold_left]. destruct ((h <? L) && (i =? j)); auto.
  - rewrite E1. cbn [bind]. exists t. split; auto. split; [apply R1|]. split.
    + apply Forall_forall. intros u Hu. apply In_vget in Hu. destruct Hu as (h & Eh & Hh). rewrite (proj1 R1) in Hh.
      destruct (proj2 R1 h Hh) as (u' & Eu & Ru). rewrite Eh in Eu. inversion Eu; subst u'. exact (repr_shape _ _ _ _ Ru).
    + intros h i j Hh Hi Hj. eexists. split; [apply (mrepr_get _ _ _ _ _ h i j R1); auto|]. apply dcell_num; auto.
Qed.
End D.
