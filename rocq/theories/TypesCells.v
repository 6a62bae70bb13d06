(** * Components added up: the cells that each kind of aggregation reads.

    [add_rows], [add_comps], [multiples], [multiples2] (SpecTypes): the sum of a group of components; all components of a group
    are multiples of the same one. *)
From Coq Require Import Reals Lra Lia Permutation.
From Verif Require Import Base BaseFacts Arith Quality Utm UtmFacts UtmProofs Hierarchy HierarchyFacts SpecTree SpecParts SpecInfo SpecData SpecSym SpecShape SpecTypes Values Qualities Partitions Partitioners
  TreeFacts InfoFacts OQual HQual DQual OFacts LexR OInfo DataFacts NormFacts OReal OProofs HProofs DProofs ODataProofs HDataProofs DDataProofs P_Hier P_Spatio P_HierData P_Shape P_Sym P_Rename TypesFacts.

(** ** Cells of a sum. *)
Lemma combine_skip : forall X Y k (a : list X) (b : list Y), skipn k (combine a b) = combine (skipn k a) (skipn k b).
Proof. induction k as [|k IH]; intros [|x a] [|y b]; try reflexivity; cbn [skipn combine]; auto. rewrite combine_nil. reflexivity. Qed.
Lemma slice_add : forall a b i j, slice (add_row a b) i j = add_row (slice a i j) (slice b i j).
Proof. intros a b i j. unfold slice, add_row. rewrite skipn_map, firstn_map, combine_skip, combine_firstn. reflexivity. Qed.
Lemma slice_mult : forall c a i j, slice (map (Rmult a) c) i j = map (Rmult a) (slice c i j).
Proof. intros c a i j. unfold slice. rewrite skipn_map, firstn_map. reflexivity. Qed.
Lemma slice_same_len : forall (a b : list R) i j, length a = length b -> length (slice a i j) = length (slice b i j).
Proof. intros a b i j E. unfold slice. rewrite !firstn_length, !skipn_length, E. reflexivity. Qed.
Lemma slice_zero : forall k i j v, In v (slice (repeat 0%R k) i j) -> v = 0%R.
Proof. intros k i j v I. apply slice_In in I. apply repeat_spec in I. exact I. Qed.
Lemma elt_add : forall a b i, length a = length b -> elt 0%R (add_row a b) i = (elt 0 a i + elt 0 b i)%R.
Proof.
  intros a b i E. unfold elt. generalize (Z.to_nat i). revert b E. induction a as [|x a IH]; intros b E k; destruct b as [|y b]; try discriminate; [destruct k; cbn; lra|].
  rewrite add_cons. destruct k; cbn [nth]; [reflexivity|]. apply IH. cbn in E. lia.
Qed.
Lemma elt_mult : forall c a i, elt 0%R (map (Rmult a) c) i = (a * elt 0 c i)%R.
Proof. intros c a i. unfold elt. rewrite <- (Rmult_0_r a) at 1. apply map_nth. Qed.
Lemma hcells_add : forall m a b h, length a = length b -> hcells m (add_row a b) h = add_row (hcells m a h) (hcells m b h).
Proof.
  intros m a b h E. unfold hcells. induction (leavesof (m_leaves m) (m_parents m) h) as [|y l IH]; [reflexivity|]. cbn [map]. rewrite add_cons, IH, elt_add by exact E. reflexivity.
Qed.
Lemma hcells_mult : forall m c a h, hcells m (map (Rmult a) c) h = map (Rmult a) (hcells m c h).
Proof. intros m c a h. unfold hcells. rewrite map_map. apply map_ext. intro y. apply elt_mult. Qed.
Lemma nonneg_elt : forall c y, nonneg c -> (0 <= elt 0 c y)%R.
Proof. intros c y H. destruct (elt_In_or _ 0%R c y) as [I|E]; [exact (proj1 (Forall_forall _ _) H _ I)|lra]. Qed.
Lemma hcells_nonneg : forall m c h, nonneg c -> nonneg (hcells m c h).
Proof. intros m c h H. unfold hcells. apply Forall_map. apply Forall_forall. intros y _. apply nonneg_elt. exact H. Qed.

Definition rect_ok (L n : nat) (c : list (list R)) : Prop := length c = L /\ Forall (fun r => length r = n /\ nonneg r) c.
Lemma comp_add_len : forall L n a b, rect_ok L n a -> rect_ok L n b -> rect_ok L n (add_comp a b).
Proof.
  intros L n a b [La Fa] [Lb Fb]. split; [unfold add_comp; rewrite map_length, combine_length, La, Lb; apply Nat.min_id|].
  unfold add_comp. apply Forall_map. apply Forall_forall. intros [x y] I. pose proof (in_combine_l _ _ _ _ I) as I1. pose proof (in_combine_r _ _ _ _ I) as I2.
  destruct (proj1 (Forall_forall _ _) Fa x I1) as [Q1 Q2]. destruct (proj1 (Forall_forall _ _) Fb y I2) as [Q3 Q4]. cbn [fst snd]. split; [rewrite add_len; congruence|apply add_nonneg; auto].
Qed.
Lemma elt_comp : forall a b k, length a = length b -> elt [] (add_comp a b) k = add_row (elt [] a k) (elt [] b k).
Proof.
  intros a b k E. unfold elt. generalize (Z.to_nat k). revert b E. induction a as [|x a IH]; intros b E q; destruct b as [|y b]; try discriminate; [destruct q; reflexivity|].
  change (add_comp (x :: a) (y :: b)) with (add_row x y :: add_comp a b). destruct q; cbn [nth]; [reflexivity|]. apply IH. cbn in E. lia.
Qed.
Lemma add_app : forall a1 b1 a2 b2, length a1 = length b1 -> add_row (a1 ++ a2) (b1 ++ b2) = add_row a1 b1 ++ add_row a2 b2.
Proof.
  induction a1 as [|x a1 IH]; intros b1 a2 b2 E; destruct b1 as [|y b1]; try discriminate; [reflexivity|]. cbn [app]. rewrite !add_cons, IH by (cbn in E; lia). reflexivity.
Qed.
Lemma elt_len : forall L n c k, rect_ok L n c -> 0 <= k < Z.of_nat L -> length (elt [] c k) = n /\ nonneg (elt [] c k).
Proof.
  intros L n c k [Lc Fc] Hk. apply (proj1 (Forall_forall _ _) Fc). unfold elt. apply nth_In. lia.
Qed.
Lemma leaves_range : forall m h y, In y (leavesof (m_leaves m) (m_parents m) h) -> 0 <= y < m_leaves m.
Proof. intros m h y I. unfold leavesof in I. apply filter_In in I. destruct I as [I _]. apply In_zrange in I. lia. Qed.
Section Cells.
Variables (m : meta) (n : nat) (h i j : Z).
Notation L := (Z.to_nat (m_leaves m)).
Lemma dcells_add : forall a b, rect_ok L n a -> rect_ok L n b -> dcells m (add_comp a b) h i j = add_row (dcells m a h i j) (dcells m b h i j).
Proof.
  intros a b Ra Rb. unfold dcells. pose proof (leaves_range m h) as Rg. induction (leavesof (m_leaves m) (m_parents m) h) as [|y l IH]; [reflexivity|]. cbn [flat_map].
  pose proof (Rg y (or_introl eq_refl)) as Hy.
  rewrite IH by (intros; apply Rg; right; assumption). rewrite elt_comp by (destruct Ra, Rb; congruence). rewrite slice_add, <- add_app; [reflexivity|].
  apply slice_same_len. destruct (elt_len _ _ _ y Ra ltac:(lia)) as [-> _]. destruct (elt_len _ _ _ y Rb ltac:(lia)) as [-> _]. reflexivity.
Qed.
Lemma dcells_len : forall a b, rect_ok L n a -> rect_ok L n b -> length (dcells m a h i j) = length (dcells m b h i j).
Proof.
  intros a b Ra Rb. unfold dcells. pose proof (leaves_range m h) as Rg. induction (leavesof (m_leaves m) (m_parents m) h) as [|y l IH]; [reflexivity|]. cbn [flat_map]. rewrite !app_length.
  pose proof (Rg y (or_introl eq_refl)) as Hy. rewrite IH by (intros; apply Rg; right; assumption). f_equal.
  apply slice_same_len. destruct (elt_len _ _ _ y Ra ltac:(lia)) as [-> _]. destruct (elt_len _ _ _ y Rb ltac:(lia)) as [-> _]. reflexivity.
Qed.
Lemma dcells_nonneg : forall a, rect_ok L n a -> nonneg (dcells m a h i j).
Proof.
  intros a Ra. unfold dcells. apply Forall_forall. intros v I. apply in_flat_map in I. destruct I as (y & Iy & I). apply slice_In in I. destruct (elt_len _ _ _ y Ra ltac:(pose proof (leaves_range m h y Iy); lia)) as [_ N]. exact (proj1 (Forall_forall _ _) N v I).
Qed.
Lemma dcells_zero : forall v, In v (dcells m (repeat (repeat 0%R n) L) h i j) -> v = 0%R.
Proof.
  intros v I. unfold dcells in I. apply in_flat_map in I. destruct I as (y & Iy & I). apply slice_In in I. destruct (elt_In_or _ [] (repeat (repeat 0%R n) L) y) as [J|J].
  - apply repeat_spec in J. rewrite J in I. apply repeat_spec in I. exact I.
  - rewrite J in I. destruct I.
Qed.
Lemma dcells_mult : forall c a, dcells m (map (map (Rmult a)) c) h i j = map (Rmult a) (dcells m c h i j).
Proof.
  intros c a. unfold dcells. induction (leavesof (m_leaves m) (m_parents m) h) as [|y l IH]; [reflexivity|]. cbn [flat_map]. rewrite IH, map_app. f_equal.
  replace (elt [] (map (map (Rmult a)) c) y) with (map (Rmult a) (elt [] c y)); [apply slice_mult|].
  unfold elt. change (@nil R) with (map (Rmult a) []) at 2. symmetry. apply map_nth.
Qed.
Lemma zero_rect : rect_ok L n (repeat (repeat 0%R n) L).
Proof. split; [apply repeat_length|]. apply Forall_forall. intros r I. apply repeat_spec in I. subst r. split; [apply repeat_length|]. apply Forall_forall. intros v J. apply repeat_spec in J. lra. Qed.
End Cells.

(** ** The tables of the groups. *)
Lemma Forall_concat_in : forall X (F : X -> Prop) gs, Forall F (concat gs) -> forall g, In g gs -> Forall F g.
Proof. intros X F gs H g I. apply Forall_forall. intros x J. apply (proj1 (Forall_forall _ _) H). apply in_concat. eauto. Qed.

Definition row_ok (n : nat) (r : list R) : Prop := length r = n /\ nonneg r.
Lemma add_ok : forall n a b, row_ok n a -> row_ok n b -> row_ok n (add_row a b).
Proof. intros n a b [L1 N1] [L2 N2]. split; [rewrite add_len; congruence|apply add_nonneg; auto]. Qed.
Lemma zero_ok : forall n, row_ok n (repeat 0%R n).
Proof. intro n. split; [apply repeat_length|]. apply Forall_forall. intros v I. apply repeat_spec in I. lra. Qed.

Lemma o_types : forall n gs i j, Forall (row_ok n) (concat gs) ->
  (ogain (concat gs) i j <= ogain (map (add_rows n) gs) i j)%R /\ (oloss (map (add_rows n) gs) i j <= oloss (concat gs) i j)%R /\
  (Forall multiples gs -> ogain (concat gs) i j = ogain (map (add_rows n) gs) i j /\ oloss (concat gs) i j = oloss (map (add_rows n) gs) i j).
Proof.
  intros n gs i j H. unfold ogain, oloss. rewrite !Rsum_concat, !Rsum_map. pose proof (Forall_concat_in _ _ gs H) as Hg.
  set (N := length (slice (repeat 0%R n) i j)).
  assert (Lr : forall a, row_ok n a -> length (slice a i j) = N) by (intros a [La _]; apply slice_same_len; rewrite repeat_length; exact La).
  assert (K : forall g, In g gs -> _) by (intros g Ig; exact (types_le _ add_row (repeat 0%R n) (row_ok n) (fun r => slice r i j) N (zero_ok n) (add_ok n) (fun a b _ _ => slice_add a b i j) Lr (fun a Q => nonneg_slice _ _ _ (proj2 Q)) (slice_zero n i j) g (Hg g Ig))).
  split; [apply Rsum_le; intros g Ig; apply (K g Ig)|]. split; [apply Rsum_le; intros g Ig; apply (K g Ig)|].
  intro M. assert (Q : forall g, In g gs -> Rsum (fun r => gain_of (slice r i j)) g = gain_of (slice (add_rows n g) i j) /\ Rsum (fun r => loss_of (slice r i j)) g = loss_of (slice (add_rows n g) i j)).
  { intros g Ig. destruct (proj1 (Forall_forall _ _) M g Ig) as (c & Nc & Mc). destruct g as [|r g].
    - unfold add_rows. cbn [fold_right]. destruct (zero_gain _ (slice_zero n i j)) as [-> ->]. rewrite !Rsum_nil. auto.
    - apply (types_eq _ add_row (repeat 0%R n) (row_ok n) (fun r => slice r i j) N (zero_ok n) (add_ok n) (fun a b _ _ => slice_add a b i j) Lr (slice_zero n i j) (r :: g) (slice c i j) (Hg _ Ig)).
      + apply nonneg_slice. exact Nc.
      + destruct (Mc r (or_introl eq_refl)) as (a & _ & Er). rewrite <- (Lr r); [|exact (proj1 (Forall_forall _ _) (Hg _ Ig) r (or_introl eq_refl))]. rewrite Er, slice_mult, map_length. reflexivity.
      + intros x Ix. destruct (Mc x Ix) as (a & Pa & Ex). exists a. split; [exact Pa|]. rewrite Ex. apply slice_mult. }
  split; apply Rsum_ext; intros g Ig; apply (Q g Ig).
Qed.

Lemma h_types : forall m gs h, Forall (row_ok (Z.to_nat (m_leaves m))) (concat gs) -> let s := map (add_rows (Z.to_nat (m_leaves m))) gs in
  (hgain m (concat gs) h <= hgain m s h)%R /\ (hloss m s h <= hloss m (concat gs) h)%R /\
  (Forall multiples gs -> hgain m (concat gs) h = hgain m s h /\ hloss m (concat gs) h = hloss m s h).
Proof.
  intros m gs h H s. unfold s. set (n := Z.to_nat (m_leaves m)) in *. unfold hgain, hloss. rewrite !Rsum_concat, !Rsum_map. pose proof (Forall_concat_in _ _ gs H) as Hg.
  set (N := length (leavesof (m_leaves m) (m_parents m) h)).
  assert (Lr : forall a, row_ok n a -> length (hcells m a h) = N) by (intros a _; unfold hcells; apply map_length).
  assert (Ca : forall a b, row_ok n a -> row_ok n b -> hcells m (add_row a b) h = add_row (hcells m a h) (hcells m b h)) by (intros a b [L1 _] [L2 _]; apply hcells_add; congruence).
  assert (Z0 : forall v, In v (hcells m (repeat 0%R n) h) -> v = 0%R) by (intros v I; unfold hcells in I; apply in_map_iff in I; destruct I as (y & <- & _); destruct (elt_In_or _ 0%R (repeat 0%R n) y) as [J|J]; [apply repeat_spec in J|]; exact J).
  assert (K : forall g, In g gs -> _) by (intros g Ig; exact (types_le _ add_row (repeat 0%R n) (row_ok n) (fun r => hcells m r h) N (zero_ok n) (add_ok n) Ca Lr (fun a Q => hcells_nonneg m a h (proj2 Q)) Z0 g (Hg g Ig))).
  split; [apply Rsum_le; intros g Ig; apply (K g Ig)|]. split; [apply Rsum_le; intros g Ig; apply (K g Ig)|].
  intro M. assert (Q : forall g, In g gs -> Rsum (fun r => gain_of (hcells m r h)) g = gain_of (hcells m (add_rows n g) h) /\ Rsum (fun r => loss_of (hcells m r h)) g = loss_of (hcells m (add_rows n g) h)).
  { intros g Ig. destruct (proj1 (Forall_forall _ _) M g Ig) as (c & Nc & Mc).
    apply (types_eq _ add_row (repeat 0%R n) (row_ok n) (fun r => hcells m r h) N (zero_ok n) (add_ok n) Ca Lr Z0 g (hcells m c h) (Hg _ Ig)).
    - apply hcells_nonneg. exact Nc.
    - unfold hcells. apply map_length.
    - intros x Ix. destruct (Mc x Ix) as (a & Pa & Ex). exists a. split; [exact Pa|]. rewrite Ex. apply hcells_mult. }
  split; apply Rsum_ext; intros g Ig; apply (Q g Ig).
Qed.

Lemma d_types : forall m n gs h i j, Forall (rect_ok (Z.to_nat (m_leaves m)) n) (concat gs) -> let s := map (add_comps (Z.to_nat (m_leaves m)) n) gs in
  (dgain m (concat gs) h i j <= dgain m s h i j)%R /\ (dloss m s h i j <= dloss m (concat gs) h i j)%R /\
  (Forall multiples2 gs -> dgain m (concat gs) h i j = dgain m s h i j /\ dloss m (concat gs) h i j = dloss m s h i j).
Proof.
  intros m n gs h i j H s. unfold s. set (L := Z.to_nat (m_leaves m)) in *. unfold dgain, dloss. rewrite !Rsum_concat, !Rsum_map. pose proof (Forall_concat_in _ _ gs H) as Hg.
  set (z := repeat (repeat 0%R n) L). set (N := length (dcells m z h i j)). pose proof (zero_rect m n) as Zr. fold L in Zr. fold z in Zr.
  assert (Lr : forall a, rect_ok L n a -> length (dcells m a h i j) = N) by (intros a Ra; exact (dcells_len m n h i j a z Ra Zr)).
  assert (K : forall g, In g gs -> _) by (intros g Ig; exact (types_le _ add_comp z (rect_ok L n) (fun r => dcells m r h i j) N Zr (comp_add_len L n) (dcells_add m n h i j) Lr (dcells_nonneg m n h i j) (dcells_zero m n h i j) g (Hg g Ig))).
  split; [apply Rsum_le; intros g Ig; apply (K g Ig)|]. split; [apply Rsum_le; intros g Ig; apply (K g Ig)|].
  intro M. assert (Q : forall g, In g gs -> Rsum (fun r => gain_of (dcells m r h i j)) g = gain_of (dcells m (add_comps L n g) h i j) /\ Rsum (fun r => loss_of (dcells m r h i j)) g = loss_of (dcells m (add_comps L n g) h i j)).
  { intros g Ig. destruct (proj1 (Forall_forall _ _) M g Ig) as (c & Nc & Mc). destruct g as [|r g].
    - unfold add_comps. cbn [fold_right]. destruct (zero_gain _ (dcells_zero m n h i j)) as [Q1 Q2]. fold L in Q1, Q2. rewrite Q1, Q2, !Rsum_nil. auto.
    - apply (types_eq _ add_comp z (rect_ok L n) (fun r => dcells m r h i j) N Zr (comp_add_len L n) (dcells_add m n h i j) Lr (dcells_zero m n h i j) (r :: g) (dcells m c h i j) (Hg _ Ig)).
      + unfold dcells. apply Forall_forall. intros v I. apply in_flat_map in I. destruct I as (y & _ & I). apply slice_In in I. destruct (elt_In_or _ [] c y) as [J|J]; [exact (proj1 (Forall_forall _ _) (proj1 (Forall_forall _ _) Nc _ J) v I)|rewrite J in I; destruct I].
      + destruct (Mc r (or_introl eq_refl)) as (a & _ & Er). rewrite <- (Lr r); [|exact (proj1 (Forall_forall _ _) (Hg _ Ig) r (or_introl eq_refl))]. rewrite Er, dcells_mult, map_length. reflexivity.
      + intros x Ix. destruct (Mc x Ix) as (a & Pa & Ex). exists a. split; [exact Pa|]. rewrite Ex. apply dcells_mult. }
  split; apply Rsum_ext; intros g Ig; apply (Q g Ig).
Qed.
