(** * Ordered partitions: proofs of the property statements. *)
From Coq Require Import Reals Lra Lia.
From Verif Require Import Base BaseFacts Arith Quality Utm UtmFacts UtmProofs Partitions Partitioners SpecParts OFacts LexR OReal.

(** What is known about the result of [o_best] on a well-shaped table. *)
Lemma o_best_shape : forall A (t : utm (quality A)) n p, 0 <= n <= 65535 -> utm_shape t n ->
  exists q, urepr t n q /\ exists x C T l, o_best A t p = Ok x /\
  on_parts x = map (mkopart A q) l /\ ochain n C 0 l /\ on_param x = p /\ on_table x = t /\
  on_quality x = sum_quality A (map (fun ab => q (fst ab) (snd ab)) l) /\
  forall i, 0 <= i < n -> (C i, T i) = oline A n q p T i.
Proof.
  intros A t n p Hn S. destruct (shape_repr _ t n Hn S (q_zero A)) as [q R]. exists q. split; auto.
  exact (o_best_ok A t n q p R).
Qed.

Definition ocoords {A} (x : opartition A) : list (Z * Z) := map (fun q => (op_start q, op_end q)) (on_parts x).

Lemma coords_mkopart : forall A (q : Z -> Z -> quality A) l,
  map (fun x => (op_start x, op_end x)) (map (mkopart A q) l) = l.
Proof. intros A q l. rewrite map_map. rewrite <- (map_id l) at 2. apply map_ext. intros [a b]; reflexivity. Qed.

Lemma o_tiles_prf : forall A (t : utm (quality A)) n p, 0 <= n <= 65535 -> utm_shape t n ->
  exists x, o_best A t p = Ok x /\ on_param x = p /\ tiles 0 n (map (fun q => (op_start q, op_end q)) (on_parts x)).
Proof.
  intros A t n p Hn S. destruct (o_best_shape A t n p Hn S) as (q & R & x & C & T & l & E & Ep & O & Ei & _).
  exists x. split; auto. split; auto. rewrite Ep, coords_mkopart. eapply ochain_tiles; eauto.
Qed.

Lemma tiles_In : forall i n l, tiles i n l -> forall a b, In (a, b) l -> i <= a <= b /\ b < n.
Proof.
  intros i n l H; induction H as [n|a e n r Hae Hr IH]; intros a' b' K; [destruct K|].
  destruct K as [K|K]; [inversion K; subst; lia|]. specialize (IH _ _ K). lia.
Qed.

Lemma fold_q_add : forall A l (a : quality A),
  gain (fold_left (q_add A) l a) = fold_left (n_add A) (map gain l) (gain a) /\
  loss (fold_left (q_add A) l a) = fold_left (n_add A) (map loss l) (loss a).
Proof. intros A l. induction l as [|x l IH]; intro a; simpl; auto. destruct (IH (q_add A a x)) as [-> ->]. auto. Qed.

Lemma o_quality_prf : forall A (t : utm (quality A)) n p x, 0 <= n <= 65535 -> utm_shape t n -> o_best A t p = Ok x ->
  (forall q, In q (on_parts x) -> u_get t (op_start q) (op_end q) = Ok (op_quality q)) /\
  gain (on_quality x) = fold_left (n_add A) (map (fun q => gain (op_quality q)) (on_parts x)) (n_zero A) /\
  loss (on_quality x) = fold_left (n_add A) (map (fun q => loss (op_quality q)) (on_parts x)) (n_zero A).
Proof.
  intros A t n p x Hn S E0. destruct (o_best_shape A t n p Hn S) as (q & R & x' & C & T & l & E & Ep & O & Ei & _ & Eq & _).
  rewrite E in E0. inversion E0; subst x'. rewrite Ep, Eq. split.
  - intros y Hy. apply in_map_iff in Hy. destruct Hy as [[a b] [<- Hab]].
    apply (tiles_In _ _ _ (ochain_tiles _ _ _ _ O)) in Hab. simpl. rewrite (urepr_get _ _ _ _ a b R) by lia. auto.
  - unfold sum_quality. destruct (fold_q_add A (map (fun ab => q (fst ab) (snd ab)) l) (q_zero A)) as [-> ->].
    rewrite !map_map. simpl. auto.
Qed.

(** The table entries of an interval list. *)
Lemma mmap_urepr : forall A t n (q : Z -> Z -> quality A) l, urepr t n q -> (forall a b, In (a, b) l -> 0 <= a <= b /\ b < n) ->
  mmap (fun ab => u_get t (fst ab) (snd ab)) l = Ok (map (fun ab => q (fst ab) (snd ab)) l).
Proof.
  intros A t n q l R H. induction l as [|[a b] l IH]; simpl; auto.
  destruct (H a b (or_introl eq_refl)). rewrite (urepr_get _ _ _ _ a b R) by lia. simpl. rewrite IH; auto.
  intros; apply H; right; auto.
Qed.

Lemma qsum_Rsum : forall P (l : list (quality (RP P))), gain (qsum l) = Rsum (@gain (RP P)) l /\ loss (qsum l) = Rsum (@loss (RP P)) l.
Proof. intros P l. unfold Rsum. rewrite qsum_gain, qsum_loss. auto. Qed.

Lemma tle_no_better : forall P p (q q' : quality (RP P)),
  tle (t_set (RP P) q' p) (t_set (RP P) q p) <->
  no_better (pp_num P p) (pp_num P (pp_compl P p)) (gain q) (loss q) (gain q') (loss q').
Proof. intros P p [g l] [g' l']. rewrite tle_iff, !tset_val. unfold no_better. cbn. tauto. Qed.

Lemma o_optimal_prf : forall P (t : utm (quality (RP P))) n p x l ql, 0 <= n <= 65535 -> utm_shape t n ->
  o_best (RP P) t p = Ok x -> tiles 0 n l -> mmap (fun ab => u_get t (fst ab) (snd ab)) l = Ok ql ->
  no_better (pp_num P p) (pp_num P (pp_compl P p))
            (gain (on_quality x)) (loss (on_quality x)) (Rsum (@gain (RP P)) ql) (Rsum (@loss (RP P)) ql).
Proof.
  intros P t n p x l ql Hn S E0 Ht Hq.
  destruct (o_best_shape _ t n p Hn S) as (q & R & x' & C & T & l0 & E & Ep & O & Ei & _ & Eq & HC).
  rewrite E in E0. inversion E0; subst x'. rewrite Eq, sum_quality_qsum.
  rewrite (mmap_urepr _ t n q) in Hq; [|auto|intros a b K; apply (tiles_In _ _ _ Ht) in K; lia].
  inversion Hq; subst ql. destruct (qsum_Rsum P (map (fun ab => q (fst ab) (snd ab)) l)) as [<- <-].
  apply tle_no_better. destruct (Z.eq_dec n 0) as [->|D].
  - inversion Ht; subst; [|lia]. inversion O; subst; [|lia]. apply tle_refl.
  - fold (oq P q l). fold (oq P q l0). rewrite <- (ochain_T P n q p C T HC 0 l0); [|lia|auto].
    apply (otile_le P n q p C T HC); [lia|auto].
Qed.

Lemma o_opt_value : forall P (t : utm (quality (RP P))) n p x p' x', 0 <= n <= 65535 -> utm_shape t n ->
  o_best (RP P) t p = Ok x -> o_best (RP P) t p' = Ok x' ->
  (pic (RP P) (on_quality x') p <= pic (RP P) (on_quality x) p)%R.
Proof.
  intros P t n p x p' x' Hn S E E'.
  destruct (o_best_shape _ t n p' Hn S) as (q & R & y & C & T & l0 & Ey & Ep & O & Ei & _ & Eq & HC).
  rewrite E' in Ey. inversion Ey; subst y.
  assert (H := o_optimal_prf P t n p x l0 _ Hn S E (ochain_tiles _ _ _ _ O)
     (mmap_urepr _ t n q l0 R (fun a b K => let H := tiles_In _ _ _ (ochain_tiles _ _ _ _ O) a b K in H))).
  destruct (qsum_Rsum P (map (fun ab => q (fst ab) (snd ab)) l0)) as [E1 E2]. rewrite <- E1, <- E2 in H.
  rewrite sum_quality_qsum in Eq. rewrite <- Eq in H. unfold no_better in H. unfold pic. cbn. lra.
Qed.

Lemma o_monotone_prf : forall P (t : utm (quality (RP P))) n p1 p2 x1 x2, 0 <= n <= 65535 -> utm_shape t n -> plt P p1 p2 ->
  o_best (RP P) t p1 = Ok x1 -> o_best (RP P) t p2 = Ok x2 ->
  (gain (on_quality x1) <= gain (on_quality x2) /\ loss (on_quality x1) <= loss (on_quality x2))%R.
Proof.
  intros P t n p1 p2 x1 x2 Hn S HP E1 E2. apply (exchange P p1 p2); auto; eapply o_opt_value; eauto.
Qed.

Lemma o_same_quality : forall P (t : utm (quality (RP P))) n p p' x x', 0 <= n <= 65535 -> utm_shape t n ->
  o_best (RP P) t p = Ok x -> o_best (RP P) t p' = Ok x' -> on_quality x = on_quality x' -> on_parts x = on_parts x'.
Proof.
  intros P t n p p' x x' Hn S E E' H.
  destruct (shape_repr _ t n Hn S (q_zero (RP P))) as [q R].
  destruct (o_best_ok (RP P) t n q p R) as (y & C & T & l & Ey & Ep & O & _ & _ & Eq & HC).
  destruct (o_best_ok (RP P) t n q p' R) as (y' & C' & T' & l' & Ey' & Ep' & O' & _ & _ & Eq' & HC').
  rewrite E in Ey. rewrite E' in Ey'. inversion Ey; subst y. inversion Ey'; subst y'.
  rewrite Ep, Ep'. f_equal. apply (ocanonical P n q p p' C T C' T' HC HC' 0); auto; [lia|].
  unfold oq. rewrite <- !sum_quality_qsum. congruence.
Qed.

Lemma opart_eqb_spec : forall A (x y : opart A), opart_eqb A x y = true <-> op_start x = op_start y /\ op_end x = op_end y.
Proof. intros A x y. unfold opart_eqb. rewrite andb_true_iff, !Z.eqb_eq. tauto. Qed.

Lemma list_eqb_map : forall X Y (eqb : X -> X -> bool) (f : X -> Y), (forall x y, eqb x y = true <-> f x = f y) ->
  forall l1 l2, list_eqb eqb l1 l2 = true <-> map f l1 = map f l2.
Proof.
  intros X Y eqb f H. induction l1 as [|x l1 IH]; intros [|y l2]; simpl; split; intro K; auto; try discriminate.
  - destruct (eqb x y) eqn:E; [|discriminate]. apply H in E. apply IH in K. congruence.
  - inversion K. assert (E : eqb x y = true) by (apply H; auto). rewrite E. apply IH; auto.
Qed.

Lemma on_eqb_spec : forall A (x y : opartition A), on_eqb A x y = true <-> ocoords x = ocoords y.
Proof.
  intros A x y. unfold on_eqb, ocoords. apply list_eqb_map. intros a b. rewrite opart_eqb_spec.
  split; [intros [-> ->]; auto|intro E; inversion E; auto].
Qed.

Lemma o_eqb_parts : forall A (t : utm (quality A)) n p p' x x', 0 <= n <= 65535 -> utm_shape t n ->
  o_best A t p = Ok x -> o_best A t p' = Ok x' -> on_eqb A x x' = true -> on_parts x = on_parts x' /\ on_quality x = on_quality x'.
Proof.
  intros A t n p p' x x' Hn S E E' H. apply on_eqb_spec in H. unfold ocoords in H.
  destruct (shape_repr _ t n Hn S (q_zero A)) as [q R].
  destruct (o_best_ok A t n q p R) as (y & C & T & l & Ey & Ep & O & _ & _ & Eq & HC).
  destruct (o_best_ok A t n q p' R) as (y' & C' & T' & l' & Ey' & Ep' & O' & _ & _ & Eq' & HC').
  rewrite E in Ey. rewrite E' in Ey'. inversion Ey; subst y. inversion Ey'; subst y'.
  rewrite Ep, Ep', !coords_mkopart in H. subst l'. split; congruence.
Qed.

Lemma o_between_prf : forall P (t : utm (quality (RP P))) n p1 p p2 x1 x x2, 0 <= n <= 65535 -> utm_shape t n ->
  plt P p1 p -> plt P p p2 ->
  o_best (RP P) t p1 = Ok x1 -> o_best (RP P) t p = Ok x -> o_best (RP P) t p2 = Ok x2 ->
  on_eqb (RP P) x1 x2 = true -> on_parts x = on_parts x1 /\ on_parts x = on_parts x2.
Proof.
  intros P t n p1 p p2 x1 x x2 Hn S H1 H2 E1 E E2 Heq.
  destruct (o_eqb_parts _ t n p1 p2 x1 x2 Hn S E1 E2 Heq) as [Hp Hq].
  destruct (o_monotone_prf P t n p1 p x1 x Hn S H1 E1 E) as [A1 A2].
  destruct (o_monotone_prf P t n p p2 x x2 Hn S H2 E E2) as [B1 B2]. rewrite <- Hq in *.
  assert (on_quality x = on_quality x1) as K by (apply Q_eq; change (num (RP P)) with R in *; lra).
  assert (on_parts x = on_parts x1) by (eapply o_same_quality; eauto). split; congruence.
Qed.
