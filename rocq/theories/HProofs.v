(** * Hierarchical partitions: proofs of the property statements. *)
From Coq Require Import Reals Lra Lia.
From Verif Require Import Base BaseFacts Arith Quality Utm Hierarchy SpecTree SpecParts TreeFacts HierarchyProofs
  Partitions Partitioners TreePath CoverFacts HFacts LexR OReal OProofs HReal.

Lemma list_vrepr : forall X (t : list X) n (x0 : X), vlen t = n ->
  vrepr t n (fun i => match vget t i with Ok x => x | _ => x0 end).
Proof.
  intros X t n x0 E. split; auto. intros i Hi. destruct (vget_ok _ t i ltac:(lia)) as [x ->]. auto.
Qed.

Lemma mmap_vrepr : forall X (t : list X) n f l, vrepr t n f -> (forall h, In h l -> 0 <= h < n) ->
  mmap (vget t) l = Ok (map f l).
Proof.
  intros X t n f l R H. apply mmap_map. intros h Hh. apply (vrepr_get _ _ _ _ h R). auto.
Qed.

Section H.
Context (m : meta).
Hypothesis W : well_built m.
Hypothesis H2 : 2 <= m_hsize m.
Notation ps := (m_parents m).
Notation L := (m_leaves m).

Lemma mkhpart_h : forall A (q : Z -> quality A) l, map hp_h (map (mkhpart A m q) l) = l.
Proof. intros A q l. rewrite map_map. apply map_id. Qed.

Lemma dec_leaf : forall A (q : Z -> quality A) p T G, (forall h, 0 <= h < m_hsize m -> (T h, G h) = hdec A m q p T h) ->
  forall h, 0 <= h < L -> G h = true.
Proof.
  intros A q p T G H h Hh. pose proof (wb_L m W). specialize (H h ltac:(lia)). unfold hdec in H.
  replace (h <? L) with true in H by (symmetry; apply Z.ltb_lt; lia). congruence.
Qed.

Lemma h_cover_prf : forall A (t : list (quality A)) p, vlen t = m_hsize m ->
  exists x, h_best A t m p = Ok x /\ hn_param x = p /\ node_cover L ps (map hp_h (hn_parts x)) /\
    forall y, In y (hn_parts x) -> hp_size y = vlen (leavesof L ps (hp_h y)).
Proof.
  intros A t p Ht. pose proof (list_vrepr _ t _ (q_zero A) Ht) as R.
  destruct (h_best_ok A m W H2 t _ p R) as (x & T & G & E & Ep & Ei & _ & HG).
  exists x. split; auto. split; auto. rewrite Ep. pose proof (root_node m W) as Rr. split.
  - rewrite mkhpart_h. apply (node_cover_iff m W). split.
    + apply (hsel_nodes m W); auto.
    + apply Permutation.Permutation_sym. apply (hsel_leaves m W); auto. eapply dec_leaf; eauto.
  - intros y Hy. apply in_map_iff in Hy. destruct Hy as [h [<- Hh]]. simpl.
    apply (size_leaves m W). apply (hsel_nodes m W H2 G _ Rr); auto.
Qed.

Lemma h_quality_prf : forall A (t : list (quality A)) p x, vlen t = m_hsize m -> h_best A t m p = Ok x ->
  (forall y, In y (hn_parts x) -> vget t (hp_h y) = Ok (hp_quality y)) /\
  gain (hn_quality x) = fold_left (n_add A) (map (fun y => gain (hp_quality y)) (hn_parts x)) (n_zero A) /\
  loss (hn_quality x) = fold_left (n_add A) (map (fun y => loss (hp_quality y)) (hn_parts x)) (n_zero A).
Proof.
  intros A t p x Ht E0. pose proof (list_vrepr _ t _ (q_zero A) Ht) as R.
  destruct (h_best_ok A m W H2 t _ p R) as (y & T & G & E & Ep & Ei & Eq & HG).
  rewrite E in E0. inversion E0; subst y. rewrite Ep, Eq. split.
  - intros y Hy. apply in_map_iff in Hy. destruct Hy as [h [<- Hh]]. simpl.
    apply (vrepr_get _ _ _ _ h R). apply (hsel_nodes m W H2 G _ (root_node m W)); auto.
  - unfold sum_quality.
    match goal with |- gain (fold_left _ ?l ?a) = _ /\ _ => destruct (fold_q_add A l a) as [-> ->] end.
    rewrite !map_map. simpl. auto.
Qed.

Lemma h_optimal_prf : forall P (t : list (quality (RP P))) p x l ql, vlen t = m_hsize m ->
  h_best (RP P) t m p = Ok x -> node_cover L ps l -> mmap (vget t) l = Ok ql ->
  (pp_num P p * Rsum (@gain (RP P)) ql - pp_num P (pp_compl P p) * Rsum (@loss (RP P)) ql <=
   pp_num P p * gain (hn_quality x) - pp_num P (pp_compl P p) * loss (hn_quality x))%R /\
  ((pp_num P p * Rsum (@gain (RP P)) ql - pp_num P (pp_compl P p) * Rsum (@loss (RP P)) ql =
   pp_num P p * gain (hn_quality x) - pp_num P (pp_compl P p) * loss (hn_quality x))%R ->
   forall h, In h l -> exists y, In y (hn_parts x) /\ below ps h (hp_h y)).
Proof.
  intros P t p x l ql Ht E0 C Hq. pose proof (list_vrepr _ t _ (q_zero (RP P)) Ht) as R.
  set (q := fun i => match vget t i with Ok x => x | _ => q_zero (RP P) end) in *.
  destruct (h_best_ok _ m W H2 t q p R) as (y & T & G & E & Ep & Ei & Eq & HG).
  rewrite E in E0. inversion E0; subst y. apply (node_cover_iff m W) in C.
  rewrite (mmap_vrepr _ t _ q l R) in Hq by (intros h Hh; apply C; auto).
  inversion Hq; subst ql. rewrite Eq, sum_quality_qsum.
  destruct (qsum_Rsum P (map q l)) as [<- <-].
  pose proof (root_node m W) as Rr.
  pose proof (hT P m W H2 q p T G HG _ Rr) as ET.
  pose proof (hopt P m W H2 q p T G HG _ Rr l C) as K. rewrite ET in K. unfold hval in K. rewrite !tset_val in K.
  split; [exact K|]. intros EV h Hh. rewrite Ep.
  destruct (hcoarse P m W H2 q p T G HG _ Rr l C) with (y := h) as [z [Hz B]]; auto.
  - rewrite ET. unfold hval. rewrite !tset_val. exact EV.
  - exists (mkhpart (RP P) m q z). split; auto. apply in_map; auto.
Qed.

Lemma h_opt_value : forall P (t : list (quality (RP P))) p x p' x', vlen t = m_hsize m ->
  h_best (RP P) t m p = Ok x -> h_best (RP P) t m p' = Ok x' ->
  (pic (RP P) (hn_quality x') p <= pic (RP P) (hn_quality x) p)%R.
Proof.
  intros P t p x p' x' Ht E E'.
  destruct (h_cover_prf _ t p' Ht) as (y & Ey & _ & C & _). rewrite E' in Ey. inversion Ey; subst y.
  pose proof (list_vrepr _ t _ (q_zero (RP P)) Ht) as R.
  set (q := fun i => match vget t i with Ok x => x | _ => q_zero (RP P) end) in *.
  destruct (h_best_ok _ m W H2 t q p' R) as (y & T & G & E1 & Ep & Ei & Eq & HG).
  rewrite E' in E1. inversion E1; subst y.
  destruct (h_optimal_prf P t p x _ _ Ht E C (mmap_vrepr _ t _ q _ R (fun h Hh => proj1 (proj1 (proj1 (node_cover_iff m W _) C) h Hh)))) as [K _].
  rewrite Ep, mkhpart_h in K. destruct (qsum_Rsum P (map q (hsel m G (m_root m)))) as [E2 E3].
  rewrite <- E2, <- E3, <- sum_quality_qsum, <- Eq in K. exact K.
Qed.

Lemma h_monotone_prf : forall P (t : list (quality (RP P))) p1 p2 x1 x2, vlen t = m_hsize m -> plt P p1 p2 ->
  h_best (RP P) t m p1 = Ok x1 -> h_best (RP P) t m p2 = Ok x2 ->
  (gain (hn_quality x1) <= gain (hn_quality x2) /\ loss (hn_quality x1) <= loss (hn_quality x2))%R.
Proof. intros P t p1 p2 x1 x2 Ht HP E1 E2. apply (exchange P p1 p2); auto; eapply h_opt_value; eauto. Qed.

Lemma h_same_quality : forall P (t : list (quality (RP P))) p p' x x', vlen t = m_hsize m -> plt P p p' ->
  h_best (RP P) t m p = Ok x -> h_best (RP P) t m p' = Ok x' -> hn_quality x = hn_quality x' -> hn_parts x = hn_parts x'.
Proof.
  intros P t p p' x x' Ht HP E E' H.
  pose proof (list_vrepr _ t _ (q_zero (RP P)) Ht) as R.
  set (q := fun i => match vget t i with Ok x => x | _ => q_zero (RP P) end) in *.
  destruct (h_best_ok _ m W H2 t q p R) as (y & T & G & E1 & Ep & Ei & Eq & HG).
  destruct (h_best_ok _ m W H2 t q p' R) as (y' & T' & G' & E1' & Ep' & Ei' & Eq' & HG').
  rewrite E in E1. rewrite E' in E1'. inversion E1; subst y. inversion E1'; subst y'.
  rewrite Ep, Ep'. f_equal. apply (hcanonical P m W H2 q p p' T G T' G' HP HG HG'); [apply (root_node m W)|].
  unfold hq. rewrite <- !sum_quality_qsum. congruence.
Qed.

Lemma hpart_eqb_spec : forall A (x y : hpart A), hpart_eqb A x y = true <-> hp_size x = hp_size y /\ hp_h x = hp_h y.
Proof. intros A x y. unfold hpart_eqb. rewrite andb_true_iff, !Z.eqb_eq. tauto. Qed.

Definition hcoords {A} (x : hpartition A) : list (Z * Z) := map (fun y => (hp_h y, hp_size y)) (hn_parts x).

Lemma hn_eqb_spec : forall A (x y : hpartition A), hn_eqb A x y = true <-> hcoords x = hcoords y.
Proof.
  intros A x y. unfold hn_eqb, hcoords. apply list_eqb_map. intros a b. rewrite hpart_eqb_spec.
  split; [intros [-> ->]; auto|intro E; inversion E; auto].
Qed.

Lemma h_eqb_parts : forall A (t : list (quality A)) p p' x x', vlen t = m_hsize m ->
  h_best A t m p = Ok x -> h_best A t m p' = Ok x' -> hn_eqb A x x' = true -> hn_parts x = hn_parts x' /\ hn_quality x = hn_quality x'.
Proof.
  intros A t p p' x x' Ht E E' H. apply hn_eqb_spec in H. unfold hcoords in H.
  pose proof (list_vrepr _ t _ (q_zero A) Ht) as R.
  set (q := fun i => match vget t i with Ok x => x | _ => q_zero A end) in *.
  destruct (h_best_ok _ m W H2 t q p R) as (y & T & G & E1 & Ep & Ei & Eq & HG).
  destruct (h_best_ok _ m W H2 t q p' R) as (y' & T' & G' & E1' & Ep' & Ei' & Eq' & HG').
  rewrite E in E1. rewrite E' in E1'. inversion E1; subst y. inversion E1'; subst y'.
  assert (K : hsel m G (m_root m) = hsel m G' (m_root m)).
  { apply (f_equal (map fst)) in H. rewrite Ep, Ep', !map_map in H. simpl in H. rewrite !map_id in H. auto. }
  split; congruence.
Qed.

Lemma h_between_prf : forall P (t : list (quality (RP P))) p1 p p2 x1 x x2, vlen t = m_hsize m ->
  plt P p1 p -> plt P p p2 ->
  h_best (RP P) t m p1 = Ok x1 -> h_best (RP P) t m p = Ok x -> h_best (RP P) t m p2 = Ok x2 ->
  hn_eqb (RP P) x1 x2 = true -> hn_parts x = hn_parts x1 /\ hn_parts x = hn_parts x2.
Proof.
  intros P t p1 p p2 x1 x x2 Ht H1 H3 E1 E E2 Heq.
  destruct (h_eqb_parts _ t p1 p2 x1 x2 Ht E1 E2 Heq) as [Hp Hq].
  destruct (h_monotone_prf P t p1 p x1 x Ht H1 E1 E) as [A1 A2].
  destruct (h_monotone_prf P t p p2 x x2 Ht H3 E E2) as [B1 B2]. rewrite <- Hq in *.
  assert (hn_quality x1 = hn_quality x) as K by (apply Q_eq; change (num (RP P)) with R in *; lra).
  assert (hn_parts x1 = hn_parts x) by (apply (h_same_quality P t p1 p); auto). split; congruence.
Qed.
End H.
