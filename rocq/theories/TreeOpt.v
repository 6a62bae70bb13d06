(** * From the accuracy of a table to the near-optimality of the partition: the part common to the two tree algorithms. *)
From Coq Require Import ZArith Reals Lra Lia Permutation.
From Flocq Require Import Core BinarySingleNaN.
From Verif Require Import Base BaseFacts Arith Quality Hierarchy SpecTree HierarchyFacts HierarchyProofs TreePath CoverFacts Values Qualities
  Ieee SpecIeee IeeeFacts SpecParts SpecInfo SpecData InfoFacts OInfo SpecNear NearFacts P_Near SpecNum NumFacts ONum HNum DNum TreeNum HQual HDataProofs DDataProofs.
Notation b2 := (bpow radix2).

Lemma opt_generic : forall lg E d N K T0 (p : f32) (X : Type) (q : X -> quality (IA lg)) (G Lo T : X -> R) l lx,
  (32 <= E <= 8000)%Z -> (0 <= d <= / 1024)%R -> unit32 p -> (T0 = 0 \/ b2 (1 - E) <= T0 <= b2 (E - 1))%R ->
  (forall y, In y l \/ In y lx -> (0 <= T y <= T0)%R /\ within (num_err E (N + K) d * T y) (gain (q y)) (G y) /\
     within (num_err E (N + K) d * T y) (loss (q y)) (Lo y) /\ (Rabs (G y) <= 3 * (T y * IZR E))%R /\ (Rabs (Lo y) <= 3 * (T y * IZR E))%R) ->
  Rsum T l = T0 -> Rsum T lx = T0 ->
  (sane_bound (4 * (IZR E * T0)) -> exact_value (wgain p) (wloss p) (map q l) <= exact_value (wgain p) (wloss p) (map q lx) + slack N (4 * (IZR E * T0)))%R ->
  (Rsum (fun y => wgain p * G y - wloss p * Lo y) l <= Rsum (fun y => wgain p * G y - wloss p * Lo y) lx + opt_err E N K d * T0)%R.
Proof.
  intros lg E d N K T0 p X q G Lo T l lx HE Hd Hp [T1|T1] Hy Sl Sx Opt.
  - assert (Z0 : forall l', (forall y, In y l' -> In y l \/ In y lx) -> Rsum (fun y => wgain p * G y - wloss p * Lo y)%R l' = 0%R).
    { intros l' Hl. apply Rsum_zero. intros y Iy. destruct (Hy y (Hl y Iy)) as (TP & _ & _ & A1 & A2).
      replace (T y) with 0%R in A1, A2 by lra. rewrite Rmult_0_l, Rmult_0_r in A1, A2.
      assert (G y = 0)%R by (apply Rabs_le_inv in A1, A2; lra). assert (Lo y = 0)%R by (apply Rabs_le_inv in A1, A2; lra).
      rewrite H, H0. ring. }
    rewrite (Z0 l), (Z0 lx) by auto. rewrite T1. lra.
  - assert (TP : (0 <= T0)%R) by (pose proof (bpow_gt_0 radix2 (1 - E)); lra).
    assert (Hc : forall l', (forall y, In y l' -> In y l \/ In y lx) -> Rsum T l' = T0 ->
      (Rabs (exact_value (wgain p) (wloss p) (map q l') - Rsum (fun y => wgain p * G y - wloss p * Lo y) l') <= 2 * num_err E (N + K) d * T0)%R).
    { intros l' Hl Sl'. destruct (C75_weights p Hp) as (_ & Rw & _). rewrite <- Sl'. apply value_close.
      - destruct Hp as [_ Hp]. exact Hp.
      - exact Rw.
      - intros y Iy. destruct (Hy y (Hl y Iy)) as (_ & W1 & W2 & _). auto. }
    exact (opt_collect E N K d T0 _ _ _ _ HE (proj1 Hd) TP (Hc l ltac:(auto) Sl) (Hc lx ltac:(auto) Sx) (Opt (sane_T E T0 HE T1))).
Qed.

(** ** Totals of covers, hierarchical. *)
Section H.
Variables (E : Z) (m : meta) (comps : list (list f80)).
Hypothesis (W : well_built m).
Hypothesis Hlen : Forall (fun c : list f80 => vlen c = m_leaves m) comps.
Hypothesis Hdat : Forall (Forall (datum E)) comps.
Notation RC := (map reals comps).

Lemma hcells_dat : forall c h, In c comps -> Forall (fun x : R => x = 0 \/ b2 (1 - E) <= x)%R (hcells m (reals c) h).
Proof.
  intros c h Hc. unfold hcells. apply Forall_map, Forall_forall. intros y _. rewrite elt_reals. unfold elt.
  destruct (nth_in_or_default (Z.to_nat y) c (B754_zero false : f80)) as [H| ->]; [|left; reflexivity].
  exact (proj2 (proj1 (Forall_forall _ _) (proj1 (Forall_forall _ _) Hdat _ Hc) _ H)).
Qed.

Lemma htotal_nonneg : forall h, (0 <= htotal m RC h)%R.
Proof.
  intro h. unfold htotal. rewrite Rsum_map. apply Rsum_nonneg. intros c Hc. apply (total_datum E), hcells_dat; auto.
Qed.

Lemma htotal_root_datum : (htotal m RC (m_root m) = 0 \/ b2 (1 - E) <= htotal m RC (m_root m))%R.
Proof.
  assert (G : htotal m RC (m_root m) = total (map (fun c => total (hcells m (reals c) (m_root m))) comps)).
  { unfold htotal, total at 2. rewrite !Rsum_map. reflexivity. }
  rewrite G.
  apply (total_datum E). apply Forall_map, Forall_forall. intros c Hc. apply total_datum, hcells_dat; auto.
Qed.

Lemma htotal_cover : forall l, node_cover (m_leaves m) (m_parents m) l -> Rsum (htotal m RC) l = htotal m RC (m_root m).
Proof.
  intros l C. unfold htotal. rewrite Rsum_swap. apply Rsum_ext. intros c _.
  pose proof (hcells_split m c (m_root m) l ltac:(apply node_split_perm; auto; [apply root_node; auto|apply node_cover_split; auto])) as P.
  unfold total. rewrite (Rsum_perm _ _ _ _ P), Rsum_concat, Rsum_map. reflexivity.
Qed.

Lemma htotal_part : forall h, (htotal m RC h <= htotal m RC (m_root m))%R.
Proof.
  intro h. unfold htotal. rewrite !Rsum_map. apply Rsum_le. intros c Hc. unfold hcells, total. rewrite (lv_root m W), !Rsum_map. unfold leavesof.
  apply Rsum_filter_le. intros y _. rewrite elt_reals. unfold elt.
  destruct (nth_in_or_default (Z.to_nat y) c (B754_zero false : f80)) as [H| ->]; [|apply Rle_refl].
  apply (datum_nonneg E). exact (proj1 (Forall_forall _ _) (proj1 (Forall_forall _ _) Hdat _ Hc) _ H).
Qed.

Lemma htotal_all : (Rsum (fun c => total (reals c)) comps <= b2 (E - 1))%R -> (htotal m RC (m_root m) <= b2 (E - 1))%R.
Proof.
  intro H. eapply Rle_trans; [|exact H]. right. unfold htotal. rewrite Rsum_map. apply Rsum_ext. intros c Hc.
  pose proof (proj1 (Forall_forall _ _) Hlen c Hc) as Lc. cbn beta in Lc. unfold hcells. rewrite (lv_root m W). f_equal.
  rewrite <- Lc. unfold vlen. replace (Z.of_nat (length c)) with (vlen (reals c)) by (unfold vlen, reals; rewrite map_length; auto).
  symmetry. apply list_elt.
Qed.
End H.

(** ** Totals of covers, spatiotemporal. *)
Section D.
Variables (lg : f80 -> f80) (E : Z) (d : R) (v : dvalues (IA lg)) (comps : list (list (list f80))).
Hypothesis HE : (32 <= E <= 8000)%Z.
Hypothesis Hd : (0 <= d <= / 1024)%R.
Hypothesis Hv : ddata_f v comps.
Hypothesis Hdat : Forall (Forall (Forall (datum E))) comps.
Hypothesis Htot : (Rsum (fun c => Rsum (fun r => total (reals r)) c) comps <= bpow radix2 (E - 1))%R.
Notation m := (dv_meta v).
Notation L := (m_leaves m).
Notation K := (dv_vsize v).
Notation n := (dv_osize v).
Notation RC := (map (map reals) comps).

Lemma dcomp_len_f : forall c, In c RC -> comp_len m n c.
Proof.
  intros c Hc. apply in_map_iff in Hc. destruct Hc as [c0 [<- Hc]]. pose proof Hv as (V1 & V2 & W & H2 & V3 & V4 & V5). pose proof (wb_L m W).
  destruct (mmap_zrange (list (list f80)) _ _ comps [] (proj1 V1) V4) as (Lc & Kc & Em).
  rewrite Em in Hc. apply in_map_iff in Hc. destruct Hc as [k [<- Hk]]. apply In_zrange in Hk. specialize (Kc k Hk). cbn beta in Kc.
  destruct (mmap_zrange (list f80) (fun h => dv_row v h k) L _ [] ltac:(lia) Kc) as (Ll & _ & _).
  split; [unfold vlen in *; rewrite map_length; exact Ll|]. apply Forall_map.
  assert (I1 : In (elt [] comps k) comps) by (unfold elt; apply nth_In; unfold vlen in Lc; lia).
  pose proof (proj1 (Forall_forall _ _) V5 _ I1) as F. revert F. apply Forall_impl. intros r Hr. unfold vlen, reals in *. rewrite map_length. exact Hr.
Qed.

Lemma dtotal_sum : forall h i j, 0 <= i <= j -> j < n -> dtotal m RC h i j = Rsum (fun k => bsum m (lsum comps (fun x => x) k i j) h) (zrange 0 K).
Proof.
  intros h i j Hi Hj. unfold dtotal. rewrite (drc_sum lg v comps Hv). apply Rsum_ext. intros k Hk. apply In_zrange in Hk.
  unfold total. eapply dcells_sum; eauto.
Qed.

Lemma dtotal_nonneg : forall h i j, 0 <= i <= j -> j < n -> (0 <= dtotal m RC h i j)%R.
Proof.
  intros h i j Hi Hj. rewrite dtotal_sum by auto. apply Rsum_nonneg. intros k _. unfold bsum. apply Rsum_nonneg. intros y _. apply (lsum_nonneg E); auto.
Qed.

Lemma dtotal_root_datum : (dtotal m RC (m_root m) 0 (n - 1) = 0 \/ b2 (1 - E) <= dtotal m RC (m_root m) 0 (n - 1))%R.
Proof.
  pose proof Hv as (V1 & V2 & _). unfold dtotal. rewrite (drc_sum lg v comps Hv).
  match goal with |- (?a = 0 \/ _)%R => assert (G : a = total (map (fun k => total (dcells m (map reals (elt [] comps k)) (m_root m) 0 (n - 1))) (zrange 0 K))) end.
  { unfold total at 2. rewrite !Rsum_map. reflexivity. }
  rewrite G. apply (total_datum E). apply Forall_map, Forall_forall. intros k Hk. apply In_zrange in Hk. apply total_datum. eapply dcells_datum; eauto; lia.
Qed.

Lemma dtotal_cover : forall l, rect_cover (m_leaves m) (m_parents m) n l ->
  Rsum (fun '(h, i, j) => dtotal m RC h i j) l = dtotal m RC (m_root m) 0 (n - 1).
Proof.
  intros l C. pose proof Hv as (V1 & V2 & W & _). transitivity (Rsum (fun r : Z * Z * Z => Rsum (fun c => total (let '(h, i, j) := r in dcells m c h i j)) RC) l).
  { apply Rsum_ext. intros [[h i] j] _. reflexivity. }
  rewrite Rsum_swap. unfold dtotal. apply Rsum_ext. intros c Hc.
  pose proof (dcells_split m W n c (m_root m) 0 (n - 1) l (dcomp_len_f c Hc) ltac:(lia) ltac:(lia)
    (rect_split_perm m W _ _ _ l (rect_cover_split m W n l C)) ltac:(intros y a b Hy; destruct (proj1 (proj2 C) y a b Hy) as (_ & K1 & K2); lia)) as P.
  unfold total. rewrite (Rsum_perm _ _ _ _ P), Rsum_concat, Rsum_map. reflexivity.
Qed.

Lemma dtotal_part : forall h i j, 0 <= i <= j -> j < n -> (dtotal m RC h i j <= dtotal m RC (m_root m) 0 (n - 1))%R.
Proof.
  intros h i j Hi Hj. pose proof Hv as (V1 & V2 & W & _). rewrite !dtotal_sum by lia. apply Rsum_le. intros k Hk. unfold bsum. rewrite (lv_root m W).
  unfold leavesof. eapply Rle_trans; [apply Rsum_filter_le; intros y _; apply (lsum_nonneg E); auto|].
  apply Rsum_le. intros y _. apply (lsum_part lg E); auto.
Qed.

Lemma dtotal_all : (dtotal m RC (m_root m) 0 (n - 1) <= b2 (E - 1))%R.
Proof.
  pose proof Hv as (V1 & V2 & W & _). rewrite dtotal_sum by lia. unfold bsum. rewrite (lv_root m W). eapply dall_total; eauto.
Qed.
End D.
