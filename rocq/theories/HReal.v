(** * HPartitioner over exact reals: optimality, coarsest choice, canonical choice. *)
From Coq Require Import Reals Lra Lia Permutation.
From Verif Require Import Base BaseFacts Arith Quality Utm Hierarchy SpecTree SpecParts TreeFacts HierarchyProofs
  Partitions Partitioners TreePath CoverFacts HFacts LexR OReal.

(** Sums of reals, termwise below and equal in total, are termwise equal. *)
Lemma Rsum_eq_terms : forall X (f g : X -> R) l, (forall x, In x l -> (f x <= g x)%R) -> Rsum f l = Rsum g l ->
  forall x, In x l -> f x = g x.
Proof.
  intros X f g l. unfold Rsum. induction l as [|a l IH]; intros H E x Hx; [destruct Hx|]. cbn [map fold_right] in E.
  assert (G : (fold_right Rplus 0 (map f l) <= fold_right Rplus 0 (map g l))%R).
  { clear - H. induction l as [|b l IH]; simpl; [lra|].
    pose proof (H b ltac:(right; left; auto)). assert (forall x, In x (a :: l) -> (f x <= g x)%R).
    { intros x [->|Hx]; apply H; [left|right; right]; auto. } specialize (IH H1). lra. }
  pose proof (H a ltac:(left; auto)).
  destruct Hx as [<-|Hx]; [lra|]. apply IH; auto; [intros; apply H; right; auto|lra].
Qed.

Lemma Rsum_le : forall X (f g : X -> R) l, (forall x, In x l -> (f x <= g x)%R) -> (Rsum f l <= Rsum g l)%R.
Proof.
  intros X f g l H. unfold Rsum. induction l as [|a l IH]; simpl; [lra|].
  pose proof (H a ltac:(left; auto)). assert (forall x, In x l -> (f x <= g x)%R) by (intros; apply H; right; auto).
  specialize (IH H1). lra.
Qed.

Section H.
Context (P : params).
Notation A := (RP P).
Notation quality := (quality A).
Notation tradeoff := (tradeoff A).
Context (m : meta).
Hypothesis W : well_built m.
Hypothesis H2 : 2 <= m_hsize m.
Notation ps := (m_parents m).
Notation L := (m_leaves m).
Notation hsize := (m_hsize m).
Notation root := (m_root m).
Notation kids := (kids m).
Variable (q : Z -> quality).

Definition hq (l : list Z) : quality := qsum (map q l).
Definition hval (p : par A) (l : list Z) : R := t_value (t_set A (hq l) p).

Lemma hq_flat : forall (f : Z -> list Z) l, hq (flat_map f l) = qsum (map (fun c => hq (f c)) l).
Proof. intros f l. unfold hq. induction l as [|c l IH]; simpl; auto. rewrite map_app, qsum_app, IH. auto. Qed.

Lemma hval_flat : forall p (f : Z -> list Z) l, hval p (flat_map f l) = Rsum (fun c => hval p (f c)) l.
Proof.
  intros p f l. unfold hval. rewrite hq_flat. unfold Rsum. induction l as [|c l IH].
  - cbn [map]. rewrite tset_nil. reflexivity.
  - cbn [map]. rewrite tset_cons, tadd_val, IH. reflexivity.
Qed.

Lemma hval_perm : forall p l l', Permutation l l' -> hval p l = hval p l'.
Proof. intros p l l' H. unfold hval, hq. rewrite (qsum_perm P _ (map q l')); auto. apply Permutation_map; auto. Qed.

Lemma hval_one : forall p h, t_set A (hq [h]) p = t_set A (q h) p.
Proof. intros p h. unfold hq. cbn [map]. rewrite tset_cons, tset_nil, tadd_0_r. auto. Qed.

Section One.
Variable (p : par A) (T : Z -> tradeoff) (G : Z -> bool).
Hypothesis HTG : forall h, 0 <= h < hsize -> (T h, G h) = hdec A m q p T h.

Lemma csum_tsum : forall l, csum A T l = tsum (map T l).
Proof. intro l. unfold csum. rewrite tsum_fold, tadd_0_l. auto. Qed.

Lemma tsum_val : forall (f : Z -> tradeoff) l, t_value (tsum (map f l)) = Rsum (fun c => t_value (f c)) l.
Proof.
  intros f l. unfold Rsum. induction l as [|c l IH]; auto.
  change (tsum (map f (c :: l))) with (t_add A (f c) (tsum (map f l))). rewrite tadd_val, IH. auto.
Qed.

Lemma G_leaf : forall h, 0 <= h < L -> G h = true.
Proof.
  intros h Hh. pose proof (wb_L m W). pose proof (HTG h ltac:(lia)) as E. unfold hdec in E.
  replace (h <? L) with true in E by (symmetry; apply Z.ltb_lt; lia). congruence.
Qed.

Lemma hT : forall h, 0 <= h < hsize -> T h = t_set A (hq (hsel m G h)) p.
Proof.
  apply (tree_ind m W). intros h Hh IH. rewrite (hsel_eq m W) by auto. pose proof (HTG h Hh) as E. unfold hdec in E.
  destruct (h <? L) eqn:EL.
  - inversion E as [[E1 E2]]. rewrite E2, hval_one. auto.
  - destruct (t_ltb A (t_set A (q h) p) (csum A T (kids h))) eqn:EV; inversion E as [[E1 E2]].
    + rewrite E1, E2, csum_tsum, hq_flat, <- tset_sum, map_map. f_equal. apply map_ext_in. auto.
    + rewrite E2, hval_one. auto.
Qed.

(** At a split node the children are strictly better; at an aggregated inner node they are not. *)
Lemma h_split : forall h, 0 <= h < hsize -> G h = false -> L <= h /\
  (t_value (t_set A (q h) p) < t_value (T h))%R /\ t_value (T h) = Rsum (fun c => t_value (T c)) (kids h).
Proof.
  intros h Hh EG. pose proof (HTG h Hh) as E. unfold hdec in E.
  destruct (h <? L) eqn:EL; [inversion E; congruence|]. apply Z.ltb_ge in EL.
  destruct (t_ltb A (t_set A (q h) p) (csum A T (kids h))) eqn:EV; inversion E as [[E1 E2]]; [|congruence].
  apply tltb_spec in EV. split; auto. rewrite E1. split; auto.
  rewrite csum_tsum. apply tsum_val.
Qed.

Lemma h_keep : forall h, L <= h < hsize -> G h = true ->
  T h = t_set A (q h) p /\ (Rsum (fun c => t_value (T c)) (kids h) <= t_value (T h))%R.
Proof.
  intros h Hh EG. pose proof (wb_L m W). pose proof (HTG h ltac:(lia)) as E. unfold hdec in E.
  replace (h <? L) with false in E by (symmetry; apply Z.ltb_ge; lia).
  destruct (t_ltb A (t_set A (q h) p) (csum A T (kids h))) eqn:EV; inversion E as [[E1 E2]]; [congruence|].
  split; auto. assert (~ (t_value (t_set A (q h) p) < t_value (csum A T (kids h)))%R).
  { intro K. apply tltb_spec in K. congruence. }
  rewrite csum_tsum in H0.
  rewrite tsum_val in H0. rewrite E1. apply Rnot_lt_le in H0. exact H0.
Qed.

Lemma hopt : forall h, 0 <= h < hsize -> forall l, hcover m h l -> (hval p l <= t_value (T h))%R.
Proof.
  apply (tree_ind m W (fun h => forall l, hcover m h l -> (hval p l <= t_value (T h))%R)). intros h Hh IH l C.
  destruct (in_dec Z.eq_dec h l) as [Hin|Hn].
  - rewrite (hcover_self m W h l Hh C Hin). unfold hval. rewrite hval_one. destruct (G h) eqn:EG.
    + destruct (Z_lt_le_dec h L) as [Hl|Hl].
      * rewrite (hT h Hh). rewrite (hsel_eq m W) by auto. rewrite EG, hval_one. apply Rle_refl.
      * destruct (h_keep h ltac:(lia) EG) as [-> _]. apply Rle_refl.
    + apply Rlt_le. apply h_split; auto.
  - destruct (Z_lt_le_dec h L) as [Hl|Hl].
    { exfalso. apply Hn. rewrite (hcover_leaf m W h l); auto; [left; auto|lia]. }
    destruct (hcover_split m W h l Hh C Hn) as [Pm Hc].
    rewrite (hval_perm p _ _ Pm), hval_flat.
    apply Rle_trans with (Rsum (fun c => t_value (T c)) (kids h)).
    + apply Rsum_le. intros c Hk. apply IH; auto.
    + destruct (G h) eqn:EG.
      * apply h_keep; auto. lia.
      * right. symmetry. apply h_split; auto.
Qed.

(** Every optimal cover refines the chosen one. *)
Lemma hcoarse : forall h, 0 <= h < hsize -> forall l, hcover m h l -> hval p l = t_value (T h) ->
  forall y, In y l -> exists z, In z (hsel m G h) /\ below ps y z.
Proof.
  apply (tree_ind m W (fun h => forall l, hcover m h l -> hval p l = t_value (T h) ->
    forall y, In y l -> exists z, In z (hsel m G h) /\ below ps y z)). intros h Hh IH l C E y Hy.
  rewrite (hsel_eq m W) by auto. destruct (G h) eqn:EG.
  - exists h. split; [left; auto|]. apply C; auto.
  - destruct (h_split h Hh EG) as (Hl & Hlt & HS).
    destruct (in_dec Z.eq_dec h l) as [Hin|Hn].
    + exfalso. rewrite (hcover_self m W h l Hh C Hin) in E. unfold hval in E. rewrite hval_one in E.
      rewrite E in Hlt. revert Hlt. apply Rlt_irrefl.
    + destruct (hcover_split m W h l Hh C Hn) as [Pm Hc].
      rewrite (hval_perm p _ _ Pm), hval_flat, HS in E.
      assert (K : forall c, In c (kids h) -> hval p (sub_l m l c) = t_value (T c)).
      { apply (Rsum_eq_terms _ _ _ (kids h)); auto. intros c Hk. apply hopt; auto. apply (kids_In m W) in Hk; tauto. }
      apply (Permutation_in y Pm) in Hy. apply in_flat_map in Hy. destruct Hy as [c [Hk Hy]].
      destruct (IH c Hk _ (Hc c Hk) (K c Hk) y Hy) as [z [Hz B]]. exists z. split; auto. apply in_flat_map; eauto.
Qed.

Lemma hsel_cover : forall h, 0 <= h < hsize -> hcover m h (hsel m G h).
Proof.
  intros h Hh. split.
  - apply (hsel_nodes m W); auto.
  - apply Permutation_sym. apply (hsel_leaves m W); auto. apply G_leaf.
Qed.
End One.

(** Two parameters with equal total quality choose the same nodes. *)
Lemma hcanonical : forall p p' T G T' G', plt P p p' ->
  (forall h, 0 <= h < hsize -> (T h, G h) = hdec A m q p T h) ->
  (forall h, 0 <= h < hsize -> (T' h, G' h) = hdec A m q p' T' h) ->
  forall h, 0 <= h < hsize -> hq (hsel m G h) = hq (hsel m G' h) -> hsel m G h = hsel m G' h.
Proof.
  intros p p' T G T' G' Hp H H'.
  assert (Half : forall p p' T G T' G', (forall h, 0 <= h < hsize -> (T h, G h) = hdec A m q p T h) ->
     (forall h, 0 <= h < hsize -> (T' h, G' h) = hdec A m q p' T' h) ->
     forall h, 0 <= h < hsize -> hq (hsel m G h) = hq (hsel m G' h) -> G h = false -> G' h = true -> False).
  { clear - W H2. intros p p' T G T' G' H H' h Hh E EG EG'.
    destruct (h_split p T G H h Hh EG) as (_ & K & _). rewrite (hT p T G H h Hh), E in K.
    rewrite (hsel_eq m W H2 G') in K by auto. rewrite EG', hval_one in K. revert K. apply Rlt_irrefl. }
  apply (tree_ind m W (fun h => hq (hsel m G h) = hq (hsel m G' h) -> hsel m G h = hsel m G' h)). intros h Hh IH E.
  destruct (G h) eqn:EG; destruct (G' h) eqn:EG'.
  - rewrite !(hsel_eq m W) by auto. rewrite EG, EG'. auto.
  - exfalso. eapply (Half p' p T' G' T G); eauto.
  - exfalso. eapply (Half p p' T G T' G'); eauto.
  - assert (EV : forall p1, hval p1 (hsel m G h) = hval p1 (hsel m G' h)) by (intro; unfold hval; rewrite E; auto).
    rewrite !(hsel_eq m W) in E by auto. pose proof (EV p) as EV1. pose proof (EV p') as EV2.
    rewrite !(hsel_eq m W) in EV1, EV2 by auto. rewrite EG, EG' in E, EV1, EV2.
    rewrite !hval_flat in EV1, EV2.
    assert (K1 : forall c, In c (kids h) -> hval p (hsel m G' c) = hval p (hsel m G c)).
    { apply (Rsum_eq_terms _ _ _ (kids h)); auto. intros c Hk. assert (Hc : 0 <= c < hsize) by (apply (kids_In m W) in Hk; tauto).
      unfold hval at 2. rewrite <- (hT p T G H c Hc). apply (hopt p T G H c Hc). apply (hsel_cover p' T' G' H'); auto. }
    assert (K2 : forall c, In c (kids h) -> hval p' (hsel m G c) = hval p' (hsel m G' c)).
    { apply (Rsum_eq_terms _ _ _ (kids h)); auto. intros c Hk. assert (Hc : 0 <= c < hsize) by (apply (kids_In m W) in Hk; tauto).
      unfold hval at 2. rewrite <- (hT p' T' G' H' c Hc). apply (hopt p' T' G' H' c Hc). apply (hsel_cover p T G H); auto. }
    rewrite !(hsel_eq m W) by auto. rewrite EG, EG'. apply flat_map_ext_in. intros c Hk.
    apply IH; auto. apply (sandwich P p p'); auto. symmetry. apply K1; auto. apply K2; auto.
Qed.
End H.
