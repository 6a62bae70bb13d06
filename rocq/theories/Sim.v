(** * Two runs of the partitioners whose tradeoffs correspond through an order-preserving additive map choose the same
    partition. Used for scaling and for equal tables. *)
From Coq Require Import Lia.
From Verif Require Import Base BaseFacts Arith Quality Utm UtmFacts UtmProofs Hierarchy SpecTree Values Qualities Partitions
  Partitioners TreePath CoverFacts HFacts OFacts OProofs DFacts DSel DProofs HProofs.

Record thom (A A' : arith) (f : tradeoff A -> tradeoff A') : Prop := {
  th_add : forall a b, f (t_add A a b) = t_add A' (f a) (f b);
  th_zero : f (t_zero A) = t_zero A';
  th_gtb : forall a b, t_gtb A' (f a) (f b) = t_gtb A a b;
  th_ltb : forall a b, t_ltb A' (f a) (f b) = t_ltb A a b
}.

Section S.
Context (A A' : arith) (f : tradeoff A -> tradeoff A').
Hypothesis F : thom A A' f.
Variables (p : par A) (p' : par A').

(** ** Ordered *)
Section O.
Variables (n : Z) (q : Z -> Z -> quality A) (q' : Z -> Z -> quality A').
Hypothesis Hq : forall i j, 0 <= i <= j -> j < n -> f (t_set A (q i j) p) = t_set A' (q' i j) p'.

Lemma oline_sim : forall T T' i, 0 <= i < n -> (forall k, i < k < n -> T' k = f (T k)) ->
  oline A' n q' p' T' i = (fst (oline A n q p T i), f (snd (oline A n q p T i))).
Proof.
  intros T T' i Hi HT. unfold oline.
  assert (G : forall l s s', (forall c, In c l -> i <= c < n - 1) -> s' = (fst s, f (snd s)) ->
    fold_left (ostep A' q' p' T' i) l s' = (fst (fold_left (ostep A q p T i) l s), f (snd (fold_left (ostep A q p T i) l s)))).
  { induction l as [|c l IH]; intros s s' Hl E; cbn [fold_left]; auto.
    apply IH; [intros; apply Hl; right; auto|]. specialize (Hl c (or_introl eq_refl)).
    unfold ostep. subst s'. cbn [snd fst].
    assert (Ec : ocand A' q' p' T' i c = f (ocand A q p T i c)).
    { unfold ocand. rewrite (th_add _ _ _ F), Hq, HT by lia. auto. }
    rewrite Ec, (th_gtb _ _ _ F). destruct (t_gtb A (ocand A q p T i c) (snd s)); auto. }
  apply G. { intros c K. apply In_zrange in K. auto. } cbn [fst snd]. rewrite Hq by lia. auto.
Qed.

Lemma otab_sim : forall C T C' T',
  (forall i, 0 <= i < n -> (C i, T i) = oline A n q p T i) ->
  (forall i, 0 <= i < n -> (C' i, T' i) = oline A' n q' p' T' i) ->
  forall i, 0 <= i < n -> C' i = C i /\ T' i = f (T i).
Proof.
  intros C T C' T' H H'. cut (forall k i, n - Z.of_nat k <= i < n -> 0 <= i -> C' i = C i /\ T' i = f (T i)).
  { intros G i Hi. apply (G (Z.to_nat n)); lia. }
  induction k as [|k IH]; intros i Hi H0; [lia|].
  assert (E := oline_sim T T' i ltac:(lia)). rewrite <- H, <- H' in E by lia. cbn [fst snd] in E.
  assert (E2 : (C' i, T' i) = (C i, f (T i))). { apply E. intros k' Hk'. apply IH; lia. }
  inversion E2; auto.
Qed.

Lemma ochain_sim : forall C C', (forall i, 0 <= i < n -> C' i = C i) ->
  forall i l l', 0 <= i <= n -> ochain n C i l -> ochain n C' i l' -> l' = l.
Proof.
  intros C C' E i l l' Hi O. revert l' Hi. induction O as [|i r Hc Hr IH]; intros l' Hi O'; inversion O'; subst; auto; try lia.
  rewrite E in * by lia. f_equal. apply IH; auto; lia.
Qed.

Lemma o_sim : forall t t' x x', urepr t n q -> urepr t' n q' -> o_best A t p = Ok x -> o_best A' t' p' = Ok x' ->
  ocoords x' = ocoords x.
Proof.
  intros t t' x x' R R' E E'.
  destruct (o_best_ok A t n q p R) as (y & C & T & l & Ey & Ep & O & _ & _ & _ & HC).
  destruct (o_best_ok A' t' n q' p' R') as (y' & C' & T' & l' & Ey' & Ep' & O' & _ & _ & _ & HC').
  rewrite E in Ey. rewrite E' in Ey'. inversion Ey; subst y. inversion Ey'; subst y'.
  unfold ocoords. rewrite Ep, Ep', !coords_mkopart. apply (ochain_sim C C' (fun i Hi => proj1 (otab_sim C T C' T' HC HC' i Hi)) 0); auto.
  destruct R as (Hn & _). lia.
Qed.
End O.

(** ** Hierarchical *)
Section H.
Context (m : meta).
Hypothesis W : well_built m.
Hypothesis H2 : 2 <= m_hsize m.
Variables (q : Z -> quality A) (q' : Z -> quality A').
Hypothesis Hq : forall h, 0 <= h < m_hsize m -> f (t_set A (q h) p) = t_set A' (q' h) p'.

Lemma csum_sim : forall (T : Z -> tradeoff A) (T' : Z -> tradeoff A') l, (forall c, In c l -> T' c = f (T c)) -> csum A' T' l = f (csum A T l).
Proof.
  intros T T' l H. unfold csum. rewrite <- (th_zero _ _ _ F). generalize (t_zero A).
  induction l as [|c l IH]; intro a; simpl; auto. rewrite (H c) by (left; auto). rewrite <- (th_add _ _ _ F).
  apply IH. intros; apply H; right; auto.
Qed.

Lemma htab_sim : forall T G T' G',
  (forall h, 0 <= h < m_hsize m -> (T h, G h) = hdec A m q p T h) ->
  (forall h, 0 <= h < m_hsize m -> (T' h, G' h) = hdec A' m q' p' T' h) ->
  forall h, 0 <= h < m_hsize m -> G' h = G h /\ T' h = f (T h).
Proof.
  intros T G T' G' H H'. apply (tree_ind m W (fun h => G' h = G h /\ T' h = f (T h))). intros h Hh IH.
  specialize (H h Hh). specialize (H' h Hh). unfold hdec in *.
  rewrite (csum_sim T T' (kids m h)) in H' by (intros c Hc; apply IH; auto).
  rewrite <- (Hq h Hh) in H'. rewrite (th_ltb _ _ _ F) in H'.
  destruct (h <? m_leaves m). { inversion H; inversion H'. subst. split; congruence. }
  destruct (t_ltb A (t_set A (q h) p) (csum A T (kids m h))); inversion H; inversion H'; split; congruence.
Qed.

Lemma hsel_sim : forall G G', (forall h, 0 <= h < m_hsize m -> G' h = G h) ->
  forall h, 0 <= h < m_hsize m -> hsel m G' h = hsel m G h.
Proof.
  intros G G' E. apply (tree_ind m W). intros h Hh IH. rewrite !(hsel_eq m W) by auto. rewrite E by auto.
  destruct (G h); auto. apply flat_map_ext_in; auto.
Qed.

Lemma h_sim : forall t t' x x', vrepr t (m_hsize m) q -> vrepr t' (m_hsize m) q' -> h_best A t m p = Ok x -> h_best A' t' m p' = Ok x' ->
  hcoords x' = hcoords x.
Proof.
  intros t t' x x' R R' E E'.
  destruct (h_best_ok A m W H2 t q p R) as (y & T & G & Ey & Ep & _ & _ & HC).
  destruct (h_best_ok A' m W H2 t' q' p' R') as (y' & T' & G' & Ey' & Ep' & _ & _ & HC').
  rewrite E in Ey. rewrite E' in Ey'. inversion Ey; subst y. inversion Ey'; subst y'.
  unfold hcoords. rewrite Ep, Ep', !map_map. cbn [mkhpart hp_h hp_size].
  rewrite (hsel_sim G G' (fun h Hh => proj1 (htab_sim T G T' G' HC HC' h Hh)) (m_root m)); auto.
  apply root_node; auto.
Qed.
End H.

(** ** Spatiotemporal *)
Section D.
Context (m : meta).
Hypothesis W : well_built m.
Variables (n : Z) (q : Z -> Z -> Z -> quality A) (q' : Z -> Z -> Z -> quality A').
Hypothesis Hn : 1 <= n <= 65535.
Hypothesis Hq : forall h i j, 0 <= h < m_hsize m -> 0 <= i <= j -> j < n -> f (t_set A (q h i j) p) = t_set A' (q' h i j) p'.

Lemma dline_sim : forall T T' h i, 0 <= h < m_hsize m -> 0 <= i < n ->
  (forall c, In c (kids m h) -> T' c i = f (T c i)) -> (forall k, i < k < n -> T' h k = f (T h k)) ->
  dline A' m n q' p' T' h i = (fst (dline A m n q p T h i), f (snd (dline A m n q p T h i))).
Proof.
  intros T T' h i Hh Hi HC HT. unfold dline.
  rewrite (csum_sim (fun c => T c i) (fun c => T' c i) (kids m h)) by auto.
  set (c := csum A (fun c => T c i) (kids m h)). clearbody c. unfold dcell.
  assert (G : forall l s s', (forall c, In c l -> i <= c < n - 1) -> s' = (fst s, f (snd s)) ->
    fold_left (dstep A' q' p' (T' h) h i) l s' = (fst (fold_left (dstep A q p (T h) h i) l s), f (snd (fold_left (dstep A q p (T h) h i) l s)))).
  { induction l as [|k l IH]; intros s s' Hl E; cbn [fold_left]; auto.
    apply IH; [intros; apply Hl; right; auto|]. specialize (Hl k (or_introl eq_refl)).
    unfold dstep. subst s'. cbn [snd fst].
    assert (Ec : t_add A' (t_add A' (t_zero A') (t_set A' (q' h i k) p')) (T' h (k + 1)) =
                 f (t_add A (t_add A (t_zero A) (t_set A (q h i k) p)) (T h (k + 1)))).
    { rewrite !(th_add _ _ _ F), (th_zero _ _ _ F), Hq, HT by lia. auto. }
    rewrite Ec, (th_gtb _ _ _ F). destruct (t_gtb A _ (snd s)); auto. }
  apply G. { intros k K. apply In_zrange in K. auto. }
  unfold dinit. rewrite <- Hq by lia. rewrite (th_gtb _ _ _ F).
  destruct ((m_leaves m <=? h) && t_gtb A c (t_set A (q h i (n - 1)) p)); auto.
Qed.

Lemma dtab_sim : forall C T C' T',
  (forall h i, 0 <= h < m_hsize m -> 0 <= i < n -> (C h i, T h i) = dline A m n q p T h i) ->
  (forall h i, 0 <= h < m_hsize m -> 0 <= i < n -> (C' h i, T' h i) = dline A' m n q' p' T' h i) ->
  forall h i, 0 <= h < m_hsize m -> 0 <= i < n -> C' h i = C h i /\ T' h i = f (T h i).
Proof.
  intros C T C' T' H H'. apply (dind m W n (proj1 Hn) (fun h i => C' h i = C h i /\ T' h i = f (T h i))).
  intros h i Hh Hi IHc IHk. assert (E := dline_sim T T' h i Hh Hi). rewrite <- H, <- H' in E by auto. cbn [fst snd] in E.
  assert (E2 : (C' h i, T' h i) = (C h i, f (T h i))). { apply E; intros; [apply IHc|apply IHk]; auto. }
  inversion E2; auto.
Qed.

Lemma dsel_sim : forall C C', okcut m n C -> okcut m n C' -> (forall h i, 0 <= h < m_hsize m -> 0 <= i < n -> C' h i = C h i) ->
  forall h i, 0 <= h < m_hsize m -> 0 <= i < n -> dsel m n C' h i = dsel m n C h i.
Proof.
  intros C C' OK OK' E. apply (dind m W n (proj1 Hn) (fun h i => dsel m n C' h i = dsel m n C h i)).
  intros h i Hh Hi IHc IHk. rewrite (dsel_eq m W n (proj1 Hn) C' OK' h i Hh Hi), (dsel_eq m W n (proj1 Hn) C OK h i Hh Hi). rewrite E by auto.
  destruct (Z.eqb_spec (C h i) (-1)). { apply flat_map_ext_in; auto. }
  f_equal. destruct (Z.ltb_spec (C h i) (n - 1)); auto. destruct (OK h i Hh Hi); [lia|]. apply IHk. lia.
Qed.

Lemma d_sim : forall t t' x x', mrepr t (m_hsize m) n q -> mrepr t' (m_hsize m) n q' ->
  d_best A t m p = Ok x -> d_best A' t' m p' = Ok x' -> dcoords x' = dcoords x.
Proof.
  intros t t' x x' R R' E E'.
  destruct (d_best_ok A m W t n q p R Hn) as (y & C & T & Ey & OK & Ep & _ & _ & HC).
  destruct (d_best_ok A' m W t' n q' p' R' Hn) as (y' & C' & T' & Ey' & OK' & Ep' & _ & _ & HC').
  rewrite E in Ey. rewrite E' in Ey'. inversion Ey; subst y. inversion Ey'; subst y'.
  unfold dcoords. rewrite Ep, Ep', !map_map.
  rewrite (dsel_sim C C' OK OK' (fun h i Hh Hi => proj1 (dtab_sim C T C' T' HC HC' h i Hh Hi)) (m_root m) 0); [|apply root_node; auto|lia].
  apply map_ext. intros [[y a] b]; reflexivity.
Qed.
End D.
End S.
