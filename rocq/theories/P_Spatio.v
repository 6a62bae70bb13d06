(** * Properties C21, C22, C26, C27, C29 for spatiotemporal partitions.

    [d_best A t m p] is DPartitioner::computeBestPartition(p) on the vector [t] of quality matrices over the hierarchy [m];
    a part is the rectangle (node, first slice, last slice). *)
From Coq Require Import Reals Lra Lia.
From Verif Require Import Base Arith Quality Utm UtmProofs Hierarchy SpecTree SpecParts HierarchyFacts HierarchyProofs Partitions
  Partitioners OReal DProofs.

(** C21: for every arithmetic the rectangles cover every (leaf, slice) exactly once, with the right sizes. *)
Theorem C21_spatio_cover : forall m, well_built m ->
  forall A (t : list (utm (quality A))) n p, 1 <= n <= 65535 -> vlen t = m_hsize m -> Forall (fun u => utm_shape u n) t ->
  exists x, d_best A t m p = Ok x /\ dn_param x = p /\
    rect_cover (m_leaves m) (m_parents m) n (map (fun y => (dp_h y, dp_start y, dp_end y)) (dn_parts x)) /\
    never_up (m_leaves m) (m_parents m) (map (fun y => (dp_h y, dp_start y, dp_end y)) (dn_parts x)) /\
    forall y, In y (dn_parts x) -> dp_hsize y = vlen (leavesof (m_leaves m) (m_parents m) (dp_h y)) /\
      dp_size y = vlen (leavesof (m_leaves m) (m_parents m) (dp_h y)) * (dp_end y - dp_start y + 1).
Proof. exact d_cover_prf. Qed.
Print Assumptions C21_spatio_cover.

(** C22: the parts carry the table's qualities and the total is their sum in order. *)
Theorem C22_spatio : forall m, well_built m ->
  forall A (t : list (utm (quality A))) n p x, 1 <= n <= 65535 -> vlen t = m_hsize m -> Forall (fun u => utm_shape u n) t ->
  d_best A t m p = Ok x ->
  (forall y, In y (dn_parts x) -> mm_get t (dp_h y) (dp_start y) (dp_end y) = Ok (dp_quality y)) /\
  gain (dn_quality x) = fold_left (n_add A) (map (fun y => gain (dp_quality y)) (dn_parts x)) (n_zero A) /\
  loss (dn_quality x) = fold_left (n_add A) (map (fun y => loss (dp_quality y)) (dn_parts x)) (n_zero A).
Proof. exact d_quality_prf. Qed.
Print Assumptions C22_spatio.

(** C26: no cover by rectangles in which nodes never move up is better (with C21: the result is one of them). *)
Theorem C26_spatio_optimal : forall m, well_built m ->
  forall P (t : list (utm (quality (RP P)))) n p x l ql, 1 <= n <= 65535 -> vlen t = m_hsize m ->
  Forall (fun u => utm_shape u n) t -> d_best (RP P) t m p = Ok x ->
  rect_cover (m_leaves m) (m_parents m) n l -> never_up (m_leaves m) (m_parents m) l ->
  mmap (fun '(h, a, b) => mm_get t h a b) l = Ok ql ->
  no_better (pp_num P p) (pp_num P (pp_compl P p))
            (gain (dn_quality x)) (loss (dn_quality x)) (Rsum (@gain (RP P)) ql) (Rsum (@loss (RP P)) ql).
Proof. exact d_optimal_prf. Qed.
Print Assumptions C26_spatio_optimal.

(** C26 with real parameters: weights p and 1-p. *)
Theorem C26_spatio_optimal_real : forall m, well_built m ->
  forall (t : list (utm (quality RA))) n (p : R) x l ql, 1 <= n <= 65535 -> vlen t = m_hsize m ->
  Forall (fun u => utm_shape u n) t -> d_best RA t m p = Ok x ->
  rect_cover (m_leaves m) (m_parents m) n l -> never_up (m_leaves m) (m_parents m) l ->
  mmap (fun '(h, a, b) => mm_get t h a b) l = Ok ql ->
  no_better p (1 - p) (gain (dn_quality x)) (loss (dn_quality x)) (Rsum (@gain RA) ql) (Rsum (@loss RA) ql).
Proof. exact (fun m W => d_optimal_prf m W Rpar). Qed.
Print Assumptions C26_spatio_optimal_real.

(** C27: gain and loss grow with the parameter. *)
Theorem C27_spatio : forall m, well_built m ->
  forall (t : list (utm (quality RA))) n (p1 p2 : R) x1 x2, 1 <= n <= 65535 -> vlen t = m_hsize m ->
  Forall (fun u => utm_shape u n) t ->
  (0 <= p1)%R -> (p1 < p2)%R -> (p2 <= 1)%R -> d_best RA t m p1 = Ok x1 -> d_best RA t m p2 = Ok x2 ->
  (gain (dn_quality x1) <= gain (dn_quality x2) /\ loss (dn_quality x1) <= loss (dn_quality x2))%R.
Proof.
  intros m W t n p1 p2 x1 x2 Hn Ht F K0 K1 K2.
  exact (d_monotone_prf m W Rpar t n p1 p2 x1 x2 Hn Ht F (Rpar_plt p1 p2 K0 K1 K2)).
Qed.
Print Assumptions C27_spatio.

(** C29: equal partitions at p1 and p2 are the partition of every parameter in between. *)
Theorem C29_spatio : forall m, well_built m ->
  forall (t : list (utm (quality RA))) n (p1 p p2 : R) x1 x x2, 1 <= n <= 65535 -> vlen t = m_hsize m ->
  Forall (fun u => utm_shape u n) t ->
  (0 <= p1)%R -> (p1 < p)%R -> (p < p2)%R -> (p2 <= 1)%R ->
  d_best RA t m p1 = Ok x1 -> d_best RA t m p = Ok x -> d_best RA t m p2 = Ok x2 ->
  dn_eqb RA x1 x2 = true -> dn_parts x = dn_parts x1 /\ dn_parts x = dn_parts x2.
Proof.
  intros m W t n p1 p p2 x1 x x2 Hn Ht F H0 H1 H3 H4.
  exact (d_between_prf m W Rpar t n p1 p p2 x1 x x2 Hn Ht F (Rpar_plt p1 p H0 H1 (Rlt_le _ _ (Rlt_le_trans _ _ _ H3 H4)))
          (Rpar_plt p p2 (Rlt_le _ _ (Rle_lt_trans _ _ _ H0 H1)) H3 H4)).
Qed.
Print Assumptions C29_spatio.

(** The hypotheses are met: the four-leaf tree of C03, two slices, zero tables except one entry. *)
Example C21_nonvacuous : exists m t x, well_built m /\ vlen t = m_hsize m /\ Forall (fun u => utm_shape u 2) t /\
  mm_get t 6 0 1 = Ok (@mkQ RA 7%R 5%R) /\ d_best RA t m (1/2)%R = Ok x.
Proof.
  destruct tree4_prf as [V U]. destruct (uniform_well_built _ _ _ V U) as (m & E & W & E1 & E2 & E3).
  assert (Hs : m_hsize m = 7) by (rewrite (wb_hsize m W), E2; reflexivity).
  set (z := u_new 2 (q_zero RA)). set (r := mkU 2 3 [@mkQ RA 1%R 0%R; @mkQ RA 1%R 1%R; @mkQ RA 7%R 5%R]).
  assert (F : Forall (fun u => utm_shape u 2) [z; z; z; z; z; z; r]) by (repeat constructor).
  destruct (C21_spatio_cover m W RA [z; z; z; z; z; z; r] 2 (1/2)%R ltac:(lia) ltac:(rewrite Hs; reflexivity) F) as (x & Ex & _).
  exists m, [z; z; z; z; z; z; r], x. rewrite Hs. split; [exact W|]. split; [reflexivity|]. split; [exact F|]. split; [reflexivity|exact Ex].
Qed.
