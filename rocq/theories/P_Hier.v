(** * Properties C20, C22, C24, C27, C29 for hierarchical partitions.

    [h_best A t m p] is HPartitioner::computeBestPartition(p) on the quality vector [t] over the hierarchy [m]. *)
From Coq Require Import Reals Lra Lia.
From Verif Require Import Base Arith Quality Utm Hierarchy SpecTree SpecParts HierarchyFacts HierarchyProofs Partitions
  Partitioners OReal HProofs.

(** C20: for every arithmetic the parts' nodes cover every leaf exactly once, with the right sizes. *)
Theorem C20_hier_cover : forall m, well_built m -> 2 <= m_hsize m ->
  forall A (t : list (quality A)) p, vlen t = m_hsize m ->
  exists x, h_best A t m p = Ok x /\ hn_param x = p /\ node_cover (m_leaves m) (m_parents m) (map hp_h (hn_parts x)) /\
    forall y, In y (hn_parts x) -> hp_size y = vlen (leavesof (m_leaves m) (m_parents m) (hp_h y)).
Proof. exact h_cover_prf. Qed.
Print Assumptions C20_hier_cover.

(** C22: the parts carry the vector's qualities and the total is their sum in order. *)
Theorem C22_hier : forall m, well_built m -> 2 <= m_hsize m ->
  forall A (t : list (quality A)) p x, vlen t = m_hsize m -> h_best A t m p = Ok x ->
  (forall y, In y (hn_parts x) -> vget t (hp_h y) = Ok (hp_quality y)) /\
  gain (hn_quality x) = fold_left (n_add A) (map (fun y => gain (hp_quality y)) (hn_parts x)) (n_zero A) /\
  loss (hn_quality x) = fold_left (n_add A) (map (fun y => loss (hp_quality y)) (hn_parts x)) (n_zero A).
Proof. exact h_quality_prf. Qed.
Print Assumptions C22_hier.

(** C24: no cover [l] of the leaves by nodes has a larger value; and every equally good one refines the returned one
    (ties keep the aggregate). *)
Theorem C24_hier_optimal : forall m, well_built m -> 2 <= m_hsize m ->
  forall P (t : list (quality (RP P))) p x l ql, vlen t = m_hsize m ->
  h_best (RP P) t m p = Ok x -> node_cover (m_leaves m) (m_parents m) l -> mmap (vget t) l = Ok ql ->
  (pp_num P p * Rsum (@gain (RP P)) ql - pp_num P (pp_compl P p) * Rsum (@loss (RP P)) ql <=
   pp_num P p * gain (hn_quality x) - pp_num P (pp_compl P p) * loss (hn_quality x))%R /\
  ((pp_num P p * Rsum (@gain (RP P)) ql - pp_num P (pp_compl P p) * Rsum (@loss (RP P)) ql =
   pp_num P p * gain (hn_quality x) - pp_num P (pp_compl P p) * loss (hn_quality x))%R ->
   forall h, In h l -> exists y, In y (hn_parts x) /\ below (m_parents m) h (hp_h y)).
Proof. exact h_optimal_prf. Qed.
Print Assumptions C24_hier_optimal.

(** C24 with real parameters. *)
Theorem C24_hier_optimal_real : forall m, well_built m -> 2 <= m_hsize m ->
  forall (t : list (quality RA)) (p : R) x l ql, vlen t = m_hsize m ->
  h_best RA t m p = Ok x -> node_cover (m_leaves m) (m_parents m) l -> mmap (vget t) l = Ok ql ->
  (p * Rsum (@gain RA) ql - (1 - p) * Rsum (@loss RA) ql <= p * gain (hn_quality x) - (1 - p) * loss (hn_quality x))%R /\
  ((p * Rsum (@gain RA) ql - (1 - p) * Rsum (@loss RA) ql = p * gain (hn_quality x) - (1 - p) * loss (hn_quality x))%R ->
   forall h, In h l -> exists y, In y (hn_parts x) /\ below (m_parents m) h (hp_h y)).
Proof. exact (fun m W H2 => h_optimal_prf m W H2 Rpar). Qed.
Print Assumptions C24_hier_optimal_real.

(** C27: gain and loss grow with the parameter. *)
Theorem C27_hier : forall m, well_built m -> 2 <= m_hsize m ->
  forall (t : list (quality RA)) (p1 p2 : R) x1 x2, vlen t = m_hsize m ->
  (0 <= p1)%R -> (p1 < p2)%R -> (p2 <= 1)%R -> h_best RA t m p1 = Ok x1 -> h_best RA t m p2 = Ok x2 ->
  (gain (hn_quality x1) <= gain (hn_quality x2) /\ loss (hn_quality x1) <= loss (hn_quality x2))%R.
Proof.
  intros m W H2 t p1 p2 x1 x2 Ht K0 K1 K2. exact (h_monotone_prf m W H2 Rpar t p1 p2 x1 x2 Ht (Rpar_plt p1 p2 K0 K1 K2)).
Qed.
Print Assumptions C27_hier.

(** C29: equal partitions at p1 and p2 are the partition of every parameter in between. *)
Theorem C29_hier : forall m, well_built m -> 2 <= m_hsize m ->
  forall (t : list (quality RA)) (p1 p p2 : R) x1 x x2, vlen t = m_hsize m ->
  (0 <= p1)%R -> (p1 < p)%R -> (p < p2)%R -> (p2 <= 1)%R ->
  h_best RA t m p1 = Ok x1 -> h_best RA t m p = Ok x -> h_best RA t m p2 = Ok x2 ->
  hn_eqb RA x1 x2 = true -> hn_parts x = hn_parts x1 /\ hn_parts x = hn_parts x2.
Proof.
  intros m W H2 t p1 p p2 x1 x x2 Ht H0 H1 H3 H4.
  exact (h_between_prf m W H2 Rpar t p1 p p2 x1 x x2 Ht (Rpar_plt p1 p H0 H1 (Rlt_le _ _ (Rlt_le_trans _ _ _ H3 H4)))
          (Rpar_plt p p2 (Rlt_le _ _ (Rle_lt_trans _ _ _ H0 H1)) H3 H4)).
Qed.
Print Assumptions C29_hier.

(** The hypotheses are met: the four-leaf tree of C03 and a seven-entry quality vector. *)
Example C20_nonvacuous : exists m x, well_built m /\ 2 <= m_hsize m /\
  h_best RA [q_zero RA; q_zero RA; q_zero RA; q_zero RA; @mkQ RA 2%R 1%R; @mkQ RA 3%R 1%R; @mkQ RA 7%R 5%R] m (1/2)%R = Ok x.
Proof.
  destruct tree4_prf as [V U]. destruct (uniform_well_built _ _ _ V U) as (m & E & W & E1 & E2 & E3).
  assert (Hs : m_hsize m = 7) by (rewrite (wb_hsize m W), E2; reflexivity).
  destruct (C20_hier_cover m W ltac:(lia) RA
    [q_zero RA; q_zero RA; q_zero RA; q_zero RA; @mkQ RA 2%R 1%R; @mkQ RA 3%R 1%R; @mkQ RA 7%R 5%R] (1/2)%R) as (x & Ex & _).
  { rewrite Hs. reflexivity. }
  exists m, x. split; auto. split; [lia|auto].
Qed.
