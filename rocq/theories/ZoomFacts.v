(** * An interval of time on its own: the tables and the dynamic program of OPartitioner, in any arithmetic. *)
From Coq Require Import Lia.
From Verif Require Import Base BaseFacts Arith Quality Utm UtmFacts Values Qualities Partitions Partitioners SpecParts SpecInfo SpecData SpecShape SpecZoom OQual OFacts OInfo DataFacts.

Lemma zrange_shift : forall a i k, 0 <= k -> zrange (a + i) (a + i + k) = map (Z.add a) (zrange i (i + k)).
Proof.
  intros a i k Hk. revert i. generalize k Hk. clear k Hk. apply (natlike_ind (fun k => forall i, zrange (a + i) (a + i + k) = map (Z.add a) (zrange i (i + k)))).
  - intro i. rewrite !zrange_empty by lia. reflexivity.
  - intros k0 H IH i. rewrite <- Z.add_1_r, !Z.add_assoc, !zrange_snoc by lia. rewrite map_app, IH. cbn [map]. rewrite Z.add_assoc. reflexivity.
Qed.

Section R.
Context (A : arith).
Lemma rs_shift : forall (x : Z -> num A) a i j, i <= j -> rs A x (a + i) (a + j) = rs A (fun o => x (a + o)) i j.
Proof.
  intros x a i j H. assert (K : forall k, 0 <= k -> forall i, rs A x (a + i) (a + (i + k)) = rs A (fun o => x (a + o)) i (i + k)).
  { apply (natlike_ind (fun k => forall i, rs A x (a + i) (a + (i + k)) = rs A (fun o => x (a + o)) i (i + k))).
    - intro i0. rewrite Z.add_0_r, !rs_diag. reflexivity.
    - intros k Hk IH i0. rewrite (rs_step A x) by lia. rewrite (rs_step A (fun o => x (a + o))) by lia.
      replace (a + (i0 + Z.succ k)) with (a + ((i0 + 1) + k)) by lia. replace (i0 + Z.succ k) with ((i0 + 1) + k) by lia. rewrite <- Z.add_assoc, IH. reflexivity. }
  specialize (K (j - i) ltac:(lia) i). replace (i + (j - i)) with j in K by lia. exact K.
Qed.

Section T.
Variables (q : Z -> Z -> quality A) (p : par A) (n a : Z).
Hypothesis Ha : 0 <= a.
Let q' := fun i j => q (a + i) (a + j).

Lemma fold_shift : forall T T' i l ct, (forall c, In c l -> T' (c + 1) = T (a + (c + 1))) ->
  fold_left (ostep A q p T (a + i)) (map (Z.add a) l) (a + fst ct, snd ct) = (a + fst (fold_left (ostep A q' p T' i) l ct), snd (fold_left (ostep A q' p T' i) l ct)).
Proof.
  intros T T' i l. induction l as [|c l IH]; intros ct H; [reflexivity|]. cbn [map fold_left].
  rewrite <- IH by (intros; apply H; right; assumption). f_equal. unfold ostep, ocand, q'. cbn [snd]. rewrite (H c (or_introl eq_refl)), <- Z.add_assoc.
  destruct (t_gtb A _ (snd ct)); destruct ct; reflexivity.
Qed.

Lemma oline_shift : forall T T' i, 0 <= i < n - a -> (forall k, i < k < n - a -> T' k = T (a + k)) ->
  oline A n q p T (a + i) = (a + fst (oline A (n - a) q' p T' i), snd (oline A (n - a) q' p T' i)).
Proof.
  intros T T' i Hi H. unfold oline. rewrite <- (fold_shift T T').
  - cbn [fst snd]. replace (a + (n - a - 1)) with (n - 1) by lia. unfold q'. replace (a + (n - a - 1)) with (n - 1) by lia. f_equal.
    replace (n - 1) with (a + i + (n - a - 1 - i)) by lia. rewrite zrange_shift by lia. do 2 f_equal. lia.
  - intros c Ic. apply In_zrange in Ic. apply H. lia.
Qed.

Lemma tables_shift : forall C T C' T', (forall i, 0 <= i < n -> (C i, T i) = oline A n q p T i) -> (forall i, 0 <= i < n - a -> (C' i, T' i) = oline A (n - a) q' p T' i) ->
  forall i, 0 <= i < n - a -> C (a + i) = a + C' i /\ T (a + i) = T' i.
Proof.
  intros C T C' T' H H'.
  assert (K : forall k, 0 <= k -> forall i, 0 <= i < n - a -> n - a - i <= k -> C (a + i) = a + C' i /\ T (a + i) = T' i).
  { apply (natlike_ind (fun k => forall i, 0 <= i < n - a -> n - a - i <= k -> C (a + i) = a + C' i /\ T (a + i) = T' i)); [lia|].
    intros k Hk IH i Hi Hk'. assert (E : (C (a + i), T (a + i)) = (a + C' i, T' i)).
    { rewrite (H (a + i)) by lia. rewrite (oline_shift T T' i Hi) by (intros j Hj; symmetry; apply IH; lia). rewrite <- (H' i Hi). reflexivity. }
    inversion E. auto. }
  intros i Hi. apply (K (n - a - i)); lia.
Qed.

Lemma ochain_shift : forall C C' i l, (forall i, 0 <= i < n - a -> C (a + i) = a + C' i) -> 0 <= i -> ochain (n - a) C' i l -> ochain n C (a + i) (map (shift a) l).
Proof.
  intros C C' i l H Hi O. induction O as [|i r Hr O IH].
  - cbn [map]. replace (a + (n - a)) with n by lia. constructor.
  - cbn [map]. unfold shift at 1. cbn [fst snd]. rewrite <- (H i) by lia. constructor; [rewrite (H i) by lia; lia|].
    rewrite (H i) by lia. replace (a + C' i + 1) with (a + (C' i + 1)) by lia. apply IH. lia.
Qed.
Lemma ochain_det : forall C i l l', ochain n C i l -> ochain n C i l' -> l = l'.
Proof.
  intros C i l l' H. revert l'. induction H as [|i r Hr O IH]; intros l' H'; inversion H'; subst; try lia; auto. f_equal. auto.
Qed.
Lemma ochain_from : forall C i l, ochain n C i l -> forall j, In j (map fst l) -> exists pre post, l = pre ++ post /\ ochain n C j post /\ (forall ab, In ab pre -> snd ab < j) /\ (forall ab, In ab post -> j <= fst ab).
Proof.
  intros C i l H. induction H as [|i r Hr O IH]; intros j Ij; [destruct Ij|].
  assert (Lo : forall ab, In ab r -> C i + 1 <= fst ab).
  { intros ab Iab. clear IH Ij. revert ab Iab. clear Hr. remember (C i + 1) as k. clear Heqk. induction O as [|k r Hk O IH]; intros ab Iab; [destruct Iab|].
    destruct Iab as [<-|Iab]; [cbn; lia|]. specialize (IH ab Iab). lia. }
  destruct (Z.eq_dec j i) as [->|D].
  - exists [], ((i, C i) :: r). repeat split; [constructor; assumption|intros ab []|]. intros ab [<-|Iab]; [cbn; lia|]. specialize (Lo ab Iab). lia.
  - destruct Ij as [E|Ij]; [cbn in E; lia|]. destruct (IH j Ij) as (pre & post & -> & O' & H1 & H2). exists ((i, C i) :: pre), post. split; [reflexivity|]. split; [exact O'|]. split; [|exact H2].
    intros ab [<-|Iab]; [|auto]. cbn [snd]. apply in_map_iff in Ij. destruct Ij as (ab & <- & Iab). specialize (Lo ab Iab). lia.
Qed.
End T.

(** ** Cells *)
Lemma slice_repr : forall X (d : X) r a b, 0 <= a <= b -> b < vlen r -> vrepr (slice r a b) (b - a + 1) (fun i => elt d r (a + i)).
Proof.
  intros X d r a b Ha Hb. split; [apply slice_length; lia|]. intros i Hi. rewrite (slice_elt X d) by lia.
  rewrite (vget_map _ _ (elt d r) _ i (a + i)); [reflexivity|]. apply vget_zrange. lia.
Qed.
Lemma elt_repr : forall X (d : X) r, vrepr r (vlen r) (elt d r).
Proof.
  intros X d r. split; [reflexivity|]. intros i Hi. rewrite (list_elt X d r) at 1. rewrite (vget_map _ _ (elt d r) _ i i); [reflexivity|]. rewrite vget_zrange by lia. f_equal; lia.
Qed.

Lemma zoom_table : forall d a b, rect2 d (size2 d) -> 0 <= a <= b -> b < size2 d <= 65535 ->
  exists t t' q, o_table A (ov2_of A d) = Ok (Some t) /\ o_table A (ov2_of A (map (fun r => slice r a b) d)) = Ok (Some t') /\
    urepr t (size2 d) q /\ urepr t' (b - a + 1) (fun i j => q (a + i) (a + j)).
Proof.
  intros d a b Rd Ha Hb. set (d' := map (fun r => slice r a b) d).
  pose (x := fun k o => elt (n_zero A) (elt [] d k) o). pose (x' := fun k o => x k (a + o)).
  assert (V : vlen d' = vlen d) by (unfold d', vlen; rewrite map_length; reflexivity).
  assert (S2 : size2 d' = b - a + 1).
  { unfold d'. destruct d as [|r d0]; [cbn in Hb; lia|]. cbn [map size2] in *. apply slice_length; lia. }
  assert (Rk : forall k, 0 <= k < vlen d -> vget d k = Ok (elt [] d k) /\ vlen (elt [] d k) = size2 d).
  { intros k Hk. pose proof (proj2 (elt_repr _ [] d) k Hk) as E. split; [exact E|]. apply (proj1 (Forall_forall _ _) Rd). eapply vget_In; exact E. }
  destruct (oq_table_ok A (ov2_of A d) (size2 d) x ltac:(lia) eq_refl) as (t & Et & Ut).
  { intros k Hk. destruct (Rk k Hk) as [E L]. exists (elt [] d k). split; [exact E|]. rewrite <- L. apply elt_repr. }
  { apply Zle_0_nat. }
  destruct (oq_table_ok A (ov2_of A d') (b - a + 1) x' ltac:(lia) S2) as (t' & Et' & Ut').
  { intros k Hk. cbn [ov_vsize ov2_of] in Hk. change (size1 d') with (vlen d') in Hk. rewrite V in Hk. destruct (Rk k Hk) as [E L]. exists (slice (elt [] d k) a b). split; [|apply slice_repr; lia].
    change (vget d' k = Ok (slice (elt [] d k) a b)). exact (vget_map _ _ (fun r => slice r a b) d k _ E). }
  { apply Zle_0_nat. }
  exists t, t', (oqcell A (ov2_of A d) x).
  split; [unfold o_table, oq_compute, oq_ofValues; cbn [oq_values]; rewrite Et; reflexivity|]. split; [unfold o_table, oq_compute, oq_ofValues; cbn [oq_values]; rewrite Et'; reflexivity|]. split; [exact Ut|].
  eapply urepr_ext; [exact Ut'|]. intros i j Hi Hj. cbn beta. unfold oqcell. cbn [ov_vsize ov2_of]. change (size1 d') with (vlen d'). change (size1 d) with (vlen d). rewrite V.
  generalize (q_zero A). induction (zrange 0 (vlen d)) as [|k l IH]; intro c; [reflexivity|]. cbn [fold_left].
  replace (ocomp A x k (a + i) (a + j) c) with (ocomp A x' k i j c); [apply IH|].
  unfold ocomp. replace (a + i <? a + j) with (i <? j) by (destruct (Z.ltb_spec i j), (Z.ltb_spec (a + i) (a + j)); lia || reflexivity).
  destruct (i <? j); [|reflexivity]. rewrite !rs_shift by lia. replace (a + j - (a + i) + 1) with (j - i + 1) by lia. reflexivity.
Qed.
End R.

(** ** Tilings *)
Lemma tiles_from : forall i n l, tiles i n l -> forall a, In a (map fst l) -> exists pre post, l = pre ++ post /\ tiles i a pre /\ tiles a n post.
Proof.
  intros i n l T. induction T as [n|i e n r He T IH]; intros a Ia; [destruct Ia|]. destruct Ia as [<-|Ia].
  - exists [], ((i, e) :: r). cbn [fst]. split; [reflexivity|]. split; [constructor|constructor; assumption].
  - destruct (IH a Ia) as (pre & post & -> & T1 & T2). exists ((i, e) :: pre), post. split; [reflexivity|]. split; [|exact T2]. constructor; [|exact T1].
    clear - T1 He. assert (forall i n l, tiles i n l -> i <= n) as K by (intros i0 n0 l0 T0; induction T0; lia). specialize (K _ _ _ T1). lia.
Qed.
Lemma tiles_to : forall i n l, tiles i n l -> forall b, In b (map snd l) -> exists pre post, l = pre ++ post /\ tiles i (b + 1) pre /\ tiles (b + 1) n post.
Proof.
  intros i n l T. induction T as [n|i e n r He T IH]; intros b Ib; [destruct Ib|]. destruct Ib as [<-|Ib].
  - exists [(i, e)], r. cbn [snd]. split; [reflexivity|]. split; [|exact T]. constructor; [lia|constructor].
  - destruct (IH b Ib) as (pre & post & -> & T1 & T2). exists ((i, e) :: pre), post. split; [reflexivity|]. split; [|exact T2]. constructor; [|exact T1].
    clear - T1 He. assert (forall i n l, tiles i n l -> i <= n) as K by (intros i0 n0 l0 T0; induction T0; lia). specialize (K _ _ _ T1). lia.
Qed.
Lemma tiles_app : forall i k l, tiles i k l -> forall n l', tiles k n l' -> tiles i n (l ++ l').
Proof.
  intros i k l T. induction T as [k|i e k r He T IH]; intros n l' T'; [exact T'|]. cbn [app]. constructor; [|apply IH; exact T'].
  assert (forall i n l, tiles i n l -> i <= n) as K by (intros i0 n0 l0 T0; induction T0; lia). specialize (K _ _ _ T'). lia.
Qed.
Lemma tiles_shift : forall a i n l, tiles i n l -> tiles (a + i) (a + n) (map (shift a) l).
Proof.
  intros a i n l T. induction T as [n|i e n r He T IH]; [constructor|]. cbn [map]. unfold shift at 1. cbn [fst snd]. constructor; [lia|]. replace (a + e + 1) with (a + (e + 1)) by lia. exact IH.
Qed.
