(** * Properties C19, C22, C23, C27, C29 for ordered partitions.

    [o_best A t p] is OPartitioner::computeBestPartition(p) on the quality table [t]. *)
From Coq Require Import Reals Lra Lia.
From Verif Require Import Base BaseFacts Arith Quality Utm UtmProofs Partitions Partitioners SpecParts OReal OProofs.

(** C19: for every arithmetic and every table the parts tile the axis 0..n-1, without undefined behaviour. *)
Theorem C19_ordered_tiles : forall A (t : utm (quality A)) n p, 0 <= n <= 65535 -> utm_shape t n ->
  exists x, o_best A t p = Ok x /\ on_param x = p /\
    tiles 0 n (map (fun q => (op_start q, op_end q)) (on_parts x)).
Proof. exact o_tiles_prf. Qed.
Print Assumptions C19_ordered_tiles.

(** C22: the parts carry the table's qualities and the total is their sum in order. *)
Theorem C22_ordered : forall A (t : utm (quality A)) n p x, 0 <= n <= 65535 -> utm_shape t n -> o_best A t p = Ok x ->
  (forall q, In q (on_parts x) -> u_get t (op_start q) (op_end q) = Ok (op_quality q)) /\
  gain (on_quality x) = fold_left (n_add A) (map (fun q => gain (op_quality q)) (on_parts x)) (n_zero A) /\
  loss (on_quality x) = fold_left (n_add A) (map (fun q => loss (op_quality q)) (on_parts x)) (n_zero A).
Proof. exact o_quality_prf. Qed.
Print Assumptions C22_ordered.

(** C23: no other tiling [l] (with table entries [ql]) is better; any kind of parameters, with weights
    [pp_num p] and [pp_num (1-p)]. *)
Theorem C23_ordered_optimal : forall P (t : utm (quality (RP P))) n p x l ql, 0 <= n <= 65535 -> utm_shape t n ->
  o_best (RP P) t p = Ok x -> tiles 0 n l -> mmap (fun ab => u_get t (fst ab) (snd ab)) l = Ok ql ->
  no_better (pp_num P p) (pp_num P (pp_compl P p))
            (gain (on_quality x)) (loss (on_quality x)) (Rsum (@gain (RP P)) ql) (Rsum (@loss (RP P)) ql).
Proof. exact o_optimal_prf. Qed.
Print Assumptions C23_ordered_optimal.

(** C23 with real parameters: weights p and 1-p. *)
Theorem C23_ordered_optimal_real : forall (t : utm (quality RA)) n (p : R) x l ql, 0 <= n <= 65535 -> utm_shape t n ->
  o_best RA t p = Ok x -> tiles 0 n l -> mmap (fun ab => u_get t (fst ab) (snd ab)) l = Ok ql ->
  no_better p (1 - p) (gain (on_quality x)) (loss (on_quality x)) (Rsum (@gain RA) ql) (Rsum (@loss RA) ql).
Proof. exact (o_optimal_prf Rpar). Qed.
Print Assumptions C23_ordered_optimal_real.

(** C27: gain and loss grow with the parameter. *)
Theorem C27_ordered : forall (t : utm (quality RA)) n (p1 p2 : R) x1 x2, 0 <= n <= 65535 -> utm_shape t n ->
  (0 <= p1)%R -> (p1 < p2)%R -> (p2 <= 1)%R -> o_best RA t p1 = Ok x1 -> o_best RA t p2 = Ok x2 ->
  (gain (on_quality x1) <= gain (on_quality x2) /\ loss (on_quality x1) <= loss (on_quality x2))%R.
Proof.
  intros t n p1 p2 x1 x2 Hn S H0 H1 H2. exact (o_monotone_prf Rpar t n p1 p2 x1 x2 Hn S (Rpar_plt p1 p2 H0 H1 H2)).
Qed.
Print Assumptions C27_ordered.

(** C29: equal partitions at p1 and p2 are the partition of every parameter in between. *)
Theorem C29_ordered : forall (t : utm (quality RA)) n (p1 p p2 : R) x1 x x2, 0 <= n <= 65535 -> utm_shape t n ->
  (0 <= p1)%R -> (p1 < p)%R -> (p < p2)%R -> (p2 <= 1)%R ->
  o_best RA t p1 = Ok x1 -> o_best RA t p = Ok x -> o_best RA t p2 = Ok x2 ->
  on_eqb RA x1 x2 = true -> on_parts x = on_parts x1 /\ on_parts x = on_parts x2.
Proof.
  intros t n p1 p p2 x1 x x2 Hn S H0 H1 H2 H3.
  exact (o_between_prf Rpar t n p1 p p2 x1 x x2 Hn S (Rpar_plt p1 p H0 H1 (Rlt_le _ _ (Rlt_le_trans _ _ _ H2 H3)))
          (Rpar_plt p p2 (Rlt_le _ _ (Rle_lt_trans _ _ _ H0 H1)) H2 H3)).
Qed.
Print Assumptions C29_ordered.

(** A concrete table of two slices: (0,0) and (1,1) have gain and loss 0, (0,1) has gain 2 and loss 1. The partition is
    split for p = 1/4 and a single aggregate for p = 1/2. *)
Definition ex_table : utm (quality RA) := mkU 2 3 [q_zero RA; q_zero RA; @mkQ RA 2%R 1%R].

Example ex_table_shape : utm_shape ex_table 2.
Proof. repeat split. Qed.

Lemma tiles2 : forall l, tiles 0 2 l -> l = [(0, 1)] \/ l = [(0, 0); (1, 1)].
Proof.
  intros l H. inversion H as [|a e m r Hae Hr]; subst. assert (e = 0 \/ e = 1) as [-> | ->] by lia.
  - right. inversion Hr as [|a e m r2 Hae2 Hr2]; subst; try lia. assert (e = 1) by lia. subst e.
    inversion Hr2; subst; try lia. reflexivity.
  - left. inversion Hr; subst; try lia. reflexivity.
Qed.

Example ex_split : exists x, o_best RA ex_table (1/4)%R = Ok x /\
  map (fun q => (op_start q, op_end q)) (on_parts x) = [(0, 0); (1, 1)].
Proof.
  destruct (C19_ordered_tiles RA ex_table 2 (1/4)%R ltac:(lia) ex_table_shape) as (x & E & _ & H). exists x. split; auto.
  destruct (tiles2 _ H) as [El|El]; auto. exfalso.
  destruct (C22_ordered RA ex_table 2 (1/4)%R x ltac:(lia) ex_table_shape E) as (K1 & K2 & K3).
  destruct (on_parts x) as [|[s e q] [|]]; try discriminate. cbn in El. inversion El; subst.
  specialize (K1 _ (or_introl eq_refl)). cbn in K1. inversion K1; subst q. cbn in K2, K3.
  assert (T : tiles 0 2 [(0, 0); (1, 1)]) by (repeat (constructor; try lia)).
  pose proof (C23_ordered_optimal_real ex_table 2 (1/4)%R x _ _ ltac:(lia) ex_table_shape E T eq_refl) as K.
  rewrite K2, K3 in K. unfold no_better, Rsum in K. cbn in K. lra.
Qed.

Example ex_aggregate : exists x, o_best RA ex_table (1/2)%R = Ok x /\
  map (fun q => (op_start q, op_end q)) (on_parts x) = [(0, 1)].
Proof.
  destruct (C19_ordered_tiles RA ex_table 2 (1/2)%R ltac:(lia) ex_table_shape) as (x & E & _ & H). exists x. split; auto.
  destruct (tiles2 _ H) as [El|El]; auto. exfalso.
  destruct (C22_ordered RA ex_table 2 (1/2)%R x ltac:(lia) ex_table_shape E) as (K1 & K2 & K3).
  destruct (on_parts x) as [|[s e q] [|[s2 e2 q2] [|]]]; try discriminate. cbn in El. inversion El; subst.
  pose proof (K1 _ (or_introl eq_refl)) as K4. pose proof (K1 _ (or_intror (or_introl eq_refl))) as K5.
  cbn in K4, K5. inversion K4; subst q. inversion K5; subst q2. cbn in K2, K3.
  assert (T : tiles 0 2 [(0, 1)]) by (repeat (constructor; try lia)).
  pose proof (C23_ordered_optimal_real ex_table 2 (1/2)%R x _ _ ltac:(lia) ex_table_shape E T eq_refl) as K.
  rewrite K2, K3 in K. unfold no_better, Rsum in K. cbn in K. lra.
Qed.
