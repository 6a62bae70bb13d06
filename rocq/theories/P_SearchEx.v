(** * A concrete search: the table [ex_table] (two slices; merged exactly when p >= 1/3), threshold 1/4, range 0..1. It shows
    that the hypotheses of the search theorems (C30 to C33, C37 to C39, C52, C53) are met by a non-trivial case. *)
From Coq Require Import Reals Lra Lia Sorting.Sorted.
From Verif Require Import Base BaseFacts Arith Quality Utm UtmProofs SpecParts Partitions Partitioners OReal OProofs
  Search SpecSearch SearchProofs SearchReal SearchInst SearchGet P_Ordered P_Search P_SearchGet.

Lemma ex_low : forall (p : R) x, (p < 1/3)%R -> o_best RA ex_table p = Ok x ->
  map (fun q => (op_start q, op_end q)) (on_parts x) = [(0, 0); (1, 1)].
Proof.
  intros p x Hp E. destruct (C19_ordered_tiles RA ex_table 2 p ltac:(lia) ex_table_shape) as (y & Ey & _ & H).
  change (par RA) with R in *. rewrite E in Ey. inversion Ey; subst y. clear Ey.
  destruct (tiles2 _ H) as [El|El]; auto. exfalso.
  destruct (C22_ordered RA ex_table 2 p x ltac:(lia) ex_table_shape E) as (K1 & K2 & K3).
  destruct (on_parts x) as [|[s e q] [|]]; try discriminate. cbn in El. inversion El; subst.
  specialize (K1 _ (or_introl eq_refl)). cbn in K1. inversion K1; subst q. cbn in K2, K3.
  assert (T : tiles 0 2 [(0, 0); (1, 1)]) by (repeat (constructor; try lia)).
  pose proof (C23_ordered_optimal_real ex_table 2 p x _ _ ltac:(lia) ex_table_shape E T eq_refl) as K.
  rewrite K2, K3 in K. unfold no_better, Rsum in K. cbn in K. lra.
Qed.

Lemma ex_high : forall (p : R) x, (1/3 <= p)%R -> o_best RA ex_table p = Ok x ->
  map (fun q => (op_start q, op_end q)) (on_parts x) = [(0, 1)].
Proof.
  intros p x Hp E. destruct (C19_ordered_tiles RA ex_table 2 p ltac:(lia) ex_table_shape) as (y & Ey & _ & H).
  change (par RA) with R in *. rewrite E in Ey. inversion Ey; subst y. clear Ey.
  destruct (tiles2 _ H) as [El|El]; auto. exfalso.
  destruct (C22_ordered RA ex_table 2 p x ltac:(lia) ex_table_shape E) as (K1 & K2 & K3).
  destruct (on_parts x) as [|[s e q] [|[s2 e2 q2] [|]]]; try discriminate. cbn in El. inversion El; subst.
  pose proof (K1 _ (or_introl eq_refl)) as K4. pose proof (K1 _ (or_intror (or_introl eq_refl))) as K5.
  cbn in K4, K5. inversion K4; subst q. inversion K5; subst q2. cbn in K2, K3.
  assert (T : tiles 0 2 [(0, 1)]) by (repeat (constructor; try lia)).
  pose proof (C23_ordered_optimal_real ex_table 2 p x _ _ ltac:(lia) ex_table_shape E T eq_refl) as K.
  rewrite K2, K3 in K. unfold no_better, Rsum in K. cbn in K. lra.
Qed.

Lemma ex_ok : forall p : R, exists x, o_best RA ex_table p = Ok x.
Proof. intro p. destruct (C19_ordered_tiles RA ex_table 2 p ltac:(lia) ex_table_shape) as (x & E & _). eauto. Qed.

Lemma ex_eqb_same : forall (p q : R) x y, o_best RA ex_table p = Ok x -> o_best RA ex_table q = Ok y ->
  ((p < 1/3 /\ q < 1/3) \/ (1/3 <= p /\ 1/3 <= q))%R -> on_eqb RA x y = true.
Proof.
  intros p q x y Ex Ey H. apply on_eqb_spec. unfold ocoords. destruct H as [[H1 H2]|[H1 H2]].
  - rewrite (ex_low p x H1 Ex), (ex_low q y H2 Ey). auto.
  - rewrite (ex_high p x H1 Ex), (ex_high q y H2 Ey). auto.
Qed.

Lemma ex_eqb_diff : forall (p q : R) x y, o_best RA ex_table p = Ok x -> o_best RA ex_table q = Ok y ->
  (p < 1/3)%R -> (1/3 <= q)%R -> on_eqb RA x y = false.
Proof.
  intros p q x y Ex Ey H1 H2. destruct (on_eqb RA x y) eqn:E; auto. apply on_eqb_spec in E. unfold ocoords in E.
  rewrite (ex_low p x H1 Ex), (ex_high q y H2 Ey) in E. discriminate.
Qed.

(** The bisection of [0,1] with threshold 1/4 evaluates 1/4 and 1/2 (and nothing else) between the ends. *)
Example ex_bisect : bisect RA (o_best RA ex_table) (on_eqb RA) (1/4)%R 0%R 1%R [(0 + ((0 + (1 - 0) / 2) - 0) / 2)%R; (0 + (1 - 0) / 2)%R].
Proof.
  destruct (ex_ok 0) as [x0 E0]. destruct (ex_ok 1) as [x1 E1]. destruct (ex_ok (0 + (1 - 0) / 2)) as [xh Eh].
  destruct (ex_ok (0 + (0 + (1 - 0) / 2 - 0) / 2)) as [xq Eq].
  apply (bis_split RA (o_best RA ex_table) (on_eqb RA) (1/4)%R 0%R 1%R x0 x1 [(0 + ((0 + (1 - 0) / 2) - 0) / 2)%R] []); auto.
  - apply (ex_eqb_diff 0 1 x0 x1 E0 E1); lra.
  - apply plt_RA. cbn. lra.
  - apply (bis_split RA (o_best RA ex_table) (on_eqb RA) (1/4)%R 0%R (0 + (1 - 0) / 2)%R x0 xh [] []); auto.
    + apply (ex_eqb_diff _ _ _ _ E0 Eh); lra.
    + apply plt_RA. cbn. lra.
    + apply (bis_near RA (o_best RA ex_table) (on_eqb RA) _ _ _ x0 xq); auto. intro H. apply plt_RA in H. cbn in H. lra.
    + apply (bis_near RA (o_best RA ex_table) (on_eqb RA) _ _ _ xq xh); auto. intro H. apply plt_RA in H. cbn in H. lra.
  - apply (bis_same RA (o_best RA ex_table) (on_eqb RA) _ _ _ xh x1); auto. apply (ex_eqb_same _ _ _ _ Eh E1). lra.
Qed.

(** The search ends and lists 0 and 1/2: the partition of 1/4 equals that of 0, the one of 1 equals that of 1/2. *)
Example ex_search : exists st, o_search RA false 3 ex_table (ps_empty RA) (1/4)%R 0%R 1%R = Ok st /\
  ps_list st = [0%R; (0 + (1 - 0) / 2)%R].
Proof.
  destruct (C33_ordered ex_table 2 ltac:(lia) ex_table_shape (1/4)%R 0%R 1%R 2%nat (ps_empty RA) ltac:(lra) ltac:(lra)) as [st E].
  exists st. split; auto.
  destruct (C54_ordered RA ex_table 2 ltac:(lia) ex_table_shape _ _ (real_bisectable (1/4)%R) 3 (ps_empty RA) 0%R 1%R st I I ltac:(apply plt_RA; lra) E) as (l & r & Bi & Ch & El).
  rewrite (bisect_det RA _ _ _ _ _ _ Bi _ ex_bisect) in Ch. etransitivity; [exact El|]. f_equal.
  destruct (ex_ok 0) as [x0 E0]. destruct (ex_ok 1) as [x1 E1]. destruct (ex_ok (0 + (1 - 0) / 2)) as [xh Eh].
  destruct (ex_ok (0 + (0 + (1 - 0) / 2 - 0) / 2)) as [xq Eq].
  refine (changes_det RA (o_best RA ex_table) (on_eqb RA) _ _ _ Ch _ _). cbn [app].
  apply (ch_same RA (o_best RA ex_table) (on_eqb RA) _ _ _ _ x0 xq); auto; [apply (ex_eqb_same _ _ _ _ Eq E0); lra|].
  apply (ch_diff RA (o_best RA ex_table) (on_eqb RA) _ _ _ _ xq xh); auto.
  { destruct (on_eqb RA xh xq) eqn:K; auto. apply on_eqb_sym in K. rewrite (ex_eqb_diff _ _ _ _ Eq Eh) in K; try discriminate; lra. }
  apply (ch_same RA (o_best RA ex_table) (on_eqb RA) _ _ _ _ xh x1); auto; [apply (ex_eqb_same _ _ _ _ E1 Eh); lra|].
  constructor.
Qed.

(** By the C++ rules this run has undefined behaviour (C52). *)
Example ex_strict : exists fuel, forall prev, o_search RA true fuel ex_table prev (1/4)%R 0%R 1%R = UB.
Proof.
  destruct (C52_ordered RA ex_table 2 ltac:(lia) ex_table_shape _ _ (real_bisectable (1/4)%R) 0%R 1%R _ I I ltac:(apply plt_RA; lra) ex_bisect) as [fuel F].
  exists fuel. intro prev. apply (F prev). destruct (ex_ok 0) as [x0 E0]. destruct (ex_ok (0 + (0 + (1 - 0) / 2 - 0) / 2)) as [xq Eq].
  exists 0%R, (0 + (0 + (1 - 0) / 2 - 0) / 2)%R, x0, xq. split; [exists [], [(0 + (1 - 0) / 2)%R; 1%R]; reflexivity|].
  repeat split; auto. apply (ex_eqb_same _ _ _ _ Eq E0). lra.
Qed.

(** With threshold 0 it does not end. *)
Example ex_diverges : forall strict fuel prev, o_search RA strict fuel ex_table prev 0%R 0%R 1%R = OutOfFuel.
Proof.
  destruct (ex_ok 0) as [x0 E0]. destruct (ex_ok 1) as [x1 E1].
  apply (C33_ordered_diverges ex_table 2 ltac:(lia) ex_table_shape 0%R 0%R 1%R x0 x1); auto; try lra. apply (ex_eqb_diff _ _ _ _ E0 E1); lra.
Qed.
