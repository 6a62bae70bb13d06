(** * Spatiotemporal partitions: proofs of the property statements. *)
From Coq Require Import Reals Lra Lia Permutation.
From Verif Require Import Base BaseFacts Arith Quality Utm UtmFacts UtmProofs Hierarchy SpecTree SpecParts TreeFacts HierarchyProofs
  Partitions Partitioners TreePath CoverFacts HFacts LexR OReal OProofs DFacts DSel DReal.

Definition rect {A} (y : dpart A) : Z * Z * Z := (dp_h y, dp_start y, dp_end y).

Lemma shape_mrepr : forall X (t : list (utm X)) H n (x0 : X), 0 <= n <= 65535 -> vlen t = H -> Forall (fun u => utm_shape u n) t ->
  mrepr t H n (fun h i j => match mm_get t h i j with Ok x => x | _ => x0 end).
Proof.
  intros X t H n x0 Hn E F. split; auto. intros h Hh. destruct (vget_ok _ t h ltac:(lia)) as [u Eu]. exists u. split; auto.
  assert (S : utm_shape u n) by (rewrite Forall_forall in F; apply F; eapply vget_In; eauto).
  destruct (shape_repr X u n Hn S x0) as [f R]. eapply urepr_ext; [exact R|]. intros i j Hi Hj. unfold mm_get. rewrite Eu. cbn [bind].
  rewrite (urepr_get _ _ _ _ i j R) by auto. auto.
Qed.

Lemma mmap_mrepr : forall A t H n (q : Z -> Z -> Z -> quality A) l, mrepr t H n q ->
  (forall h a b, In (h, a, b) l -> 0 <= h < H /\ 0 <= a <= b /\ b < n) ->
  mmap (fun '(h, a, b) => mm_get t h a b) l = Ok (map (q3 A q) l).
Proof.
  intros A t H n q l R K. apply mmap_map. intros [[h a] b] Hin. destruct (K h a b Hin) as (K1 & K2 & K3).
  rewrite (mrepr_get _ _ _ _ _ h a b R) by auto. reflexivity.
Qed.

Section D.
Context (m : meta).
Hypothesis W : well_built m.
Notation ps := (m_parents m).
Notation L := (m_leaves m).
Notation root := (m_root m).

Lemma rect_mkdpart : forall A (q : Z -> Z -> Z -> quality A) l, map rect (map (mkdpart A m q) l) = l.
Proof. intros A q l. rewrite map_map. rewrite <- (map_id l) at 2. apply map_ext. intros [[a b] c]; reflexivity. Qed.

Lemma d_best_shape : forall A (t : list (utm (quality A))) n p, 1 <= n <= 65535 -> vlen t = m_hsize m ->
  Forall (fun u => utm_shape u n) t ->
  let q := fun h i j => match mm_get t h i j with Ok x => x | _ => q_zero A end in
  mrepr t (m_hsize m) n q /\
  exists x C T, d_best A t m p = Ok x /\ okcut m n C /\
  dn_parts x = map (mkdpart A m q) (dsel m n C root 0) /\ dn_param x = p /\
  dn_quality x = sum_quality A (map (q3 A q) (dsel m n C root 0)) /\
  forall h i, 0 <= h < m_hsize m -> 0 <= i < n -> (C h i, T h i) = dline A m n q p T h i.
Proof.
  intros A t n p Hn Ht F q. pose proof (shape_mrepr _ t _ n (q_zero A) ltac:(lia) Ht F) as R. split; auto.
  exact (d_best_ok A m W t n q p R Hn).
Qed.

Lemma d_cover_prf : forall A (t : list (utm (quality A))) n p, 1 <= n <= 65535 -> vlen t = m_hsize m ->
  Forall (fun u => utm_shape u n) t ->
  exists x, d_best A t m p = Ok x /\ dn_param x = p /\ rect_cover L ps n (map rect (dn_parts x)) /\
    never_up L ps (map rect (dn_parts x)) /\
    forall y, In y (dn_parts x) -> dp_hsize y = vlen (leavesof L ps (dp_h y)) /\
      dp_size y = vlen (leavesof L ps (dp_h y)) * (dp_end y - dp_start y + 1).
Proof.
  intros A t n p Hn Ht F. destruct (d_best_shape A t n p Hn Ht F) as (R & x & C & T & E & OK & Ep & Ei & _).
  exists x. split; auto. split; auto. rewrite Ep, rect_mkdpart. pose proof (root_node m W) as Rr.
  pose proof (dsel_cover m W n ltac:(lia) C OK root 0 Rr ltac:(lia)) as RC.
  split; [apply (rect_cover_iff m W n); auto|]. split; [apply (dsel_desc m W n ltac:(lia)); auto; lia|].
  intros y Hy. apply in_map_iff in Hy. destruct Hy as [[[h a] b] [<- Hh]].
  apply (rc_in _ _ _ _ _ RC) in Hh. unfold dp_size, dp_osize. simpl. rewrite (size_leaves m W h) by tauto. auto.
Qed.

Lemma d_quality_prf : forall A (t : list (utm (quality A))) n p x, 1 <= n <= 65535 -> vlen t = m_hsize m ->
  Forall (fun u => utm_shape u n) t -> d_best A t m p = Ok x ->
  (forall y, In y (dn_parts x) -> mm_get t (dp_h y) (dp_start y) (dp_end y) = Ok (dp_quality y)) /\
  gain (dn_quality x) = fold_left (n_add A) (map (fun y => gain (dp_quality y)) (dn_parts x)) (n_zero A) /\
  loss (dn_quality x) = fold_left (n_add A) (map (fun y => loss (dp_quality y)) (dn_parts x)) (n_zero A).
Proof.
  intros A t n p x Hn Ht F E0. destruct (d_best_shape A t n p Hn Ht F) as (R & y & C & T & E & OK & Ep & Ei & Eq & HG).
  rewrite E in E0. inversion E0; subst y. rewrite Ep, Eq. split.
  - intros y Hy. apply in_map_iff in Hy. destruct Hy as [[[h a] b] [<- Hh]]. simpl.
    pose proof (dsel_cover m W n ltac:(lia) C OK root 0 (root_node m W) ltac:(lia)) as RC.
    apply (rc_in _ _ _ _ _ RC) in Hh. rewrite (mrepr_get _ _ _ _ _ h a b R) by (intuition lia). auto.
  - unfold sum_quality.
    match goal with |- gain (fold_left _ ?l ?a) = _ /\ _ => destruct (fold_q_add A l a) as [-> ->] end.
    rewrite !map_map.
    split; (apply (f_equal2 (fun l z => fold_left (n_add A) l z)); [apply map_ext; intros [[h a] b]; reflexivity|reflexivity]).
Qed.

Lemma d_optimal_prf : forall P (t : list (utm (quality (RP P)))) n p x l ql, 1 <= n <= 65535 -> vlen t = m_hsize m ->
  Forall (fun u => utm_shape u n) t -> d_best (RP P) t m p = Ok x ->
  rect_cover L ps n l -> never_up L ps l -> mmap (fun '(h, a, b) => mm_get t h a b) l = Ok ql ->
  no_better (pp_num P p) (pp_num P (pp_compl P p))
            (gain (dn_quality x)) (loss (dn_quality x)) (Rsum (@gain (RP P)) ql) (Rsum (@loss (RP P)) ql).
Proof.
  intros P t n p x l ql Hn Ht F E0 C0 D Hq.
  destruct (d_best_shape _ t n p Hn Ht F) as (R & y & C & T & E & OK & Ep & Ei & Eq & HG).
  set (q := fun h i j => match mm_get t h i j with Ok x => x | _ => q_zero (RP P) end) in *.
  rewrite E in E0. inversion E0; subst y. apply (rect_cover_iff m W n) in C0.
  rewrite (mmap_mrepr _ t _ n q l R) in Hq by (intros h a b Hh; apply (rc_in _ _ _ _ _ C0) in Hh; intuition lia).
  inversion Hq; subst ql. rewrite Eq, sum_quality_qsum.
  destruct (qsum_Rsum P (map (q3 (RP P) q) l)) as [<- <-]. apply tle_no_better.
  pose proof (root_node m W) as Rr.
  pose proof (dopt P m W n q ltac:(lia) p C T HG root 0 Rr ltac:(lia) l C0 D) as K.
  rewrite (dT P m W n q ltac:(lia) p C T HG root 0 Rr ltac:(lia)) in K. exact K.
Qed.

Lemma d_opt_value : forall P (t : list (utm (quality (RP P)))) n p x p' x', 1 <= n <= 65535 -> vlen t = m_hsize m ->
  Forall (fun u => utm_shape u n) t -> d_best (RP P) t m p = Ok x -> d_best (RP P) t m p' = Ok x' ->
  (pic (RP P) (dn_quality x') p <= pic (RP P) (dn_quality x) p)%R.
Proof.
  intros P t n p x p' x' Hn Ht F E E'.
  destruct (d_best_shape _ t n p Hn Ht F) as (R & y & C & T & E1 & OK & Ep & Ei & Eq & HG).
  destruct (d_best_shape _ t n p' Hn Ht F) as (_ & y' & C' & T' & E1' & OK' & Ep' & Ei' & Eq' & HG').
  rewrite E in E1. rewrite E' in E1'. inversion E1; subst y. inversion E1'; subst y'.
  set (q := fun h i j => match mm_get t h i j with Ok x => x | _ => q_zero (RP P) end) in *.
  pose proof (root_node m W) as Rr.
  pose proof (dopt P m W n q ltac:(lia) p C T HG root 0 Rr ltac:(lia) _
    (dsel_cover m W n ltac:(lia) C' OK' root 0 Rr ltac:(lia)) (dsel_desc m W n ltac:(lia) C' OK' root 0 Rr ltac:(lia))) as K.
  rewrite (dT P m W n q ltac:(lia) p C T HG root 0 Rr ltac:(lia)) in K. apply tle_iff in K.
  unfold dt, dq in K. rewrite <- !sum_quality_qsum, <- Eq, <- Eq', !tset_quality in K. rewrite !tset_val in K.
  unfold pic. cbn. cbn in K. change (num (RP P)) with Rdefinitions.R in *. lra.
Qed.

Lemma d_monotone_prf : forall P (t : list (utm (quality (RP P)))) n p1 p2 x1 x2, 1 <= n <= 65535 -> vlen t = m_hsize m ->
  Forall (fun u => utm_shape u n) t -> plt P p1 p2 ->
  d_best (RP P) t m p1 = Ok x1 -> d_best (RP P) t m p2 = Ok x2 ->
  (gain (dn_quality x1) <= gain (dn_quality x2) /\ loss (dn_quality x1) <= loss (dn_quality x2))%R.
Proof. intros P t n p1 p2 x1 x2 Hn Ht F HP E1 E2. apply (exchange P p1 p2); auto; eapply d_opt_value; eauto. Qed.

Lemma d_same_quality : forall P (t : list (utm (quality (RP P)))) n p p' x x', 1 <= n <= 65535 -> vlen t = m_hsize m ->
  Forall (fun u => utm_shape u n) t ->
  d_best (RP P) t m p = Ok x -> d_best (RP P) t m p' = Ok x' -> dn_quality x = dn_quality x' -> dn_parts x = dn_parts x'.
Proof.
  intros P t n p p' x x' Hn Ht F E E' H.
  destruct (d_best_shape _ t n p Hn Ht F) as (R & y & C & T & E1 & OK & Ep & Ei & Eq & HG).
  destruct (d_best_shape _ t n p' Hn Ht F) as (_ & y' & C' & T' & E1' & OK' & Ep' & Ei' & Eq' & HG').
  rewrite E in E1. rewrite E' in E1'. inversion E1; subst y. inversion E1'; subst y'.
  set (q := fun h i j => match mm_get t h i j with Ok x => x | _ => q_zero (RP P) end) in *.
  rewrite Ep, Ep'. f_equal.
  apply (dcanonical P m W n q ltac:(lia) p p' C T C' T' HG HG' root 0 (root_node m W) ltac:(lia)).
  unfold dq. rewrite <- !sum_quality_qsum. congruence.
Qed.

Lemma dpart_eqb_spec : forall A (x y : dpart A), dpart_eqb A x y = true <-> rect x = rect y /\ dp_size x = dp_size y.
Proof.
  intros A x y. unfold dpart_eqb, rect. rewrite !andb_true_iff, !Z.eqb_eq. split.
  - intros [[[-> ->] ->] ->]. auto.
  - intros [E ->]. inversion E. auto.
Qed.

(** Equality of spatiotemporal partitions without repeated parts: the same set of parts. *)
Definition dcoords {A} (x : dpartition A) : list (Z * Z * Z * Z) := map (fun y => (rect y, dp_size y)) (dn_parts x).

Lemma dn_eqb_incl : forall A (x y : dpartition A), dn_eqb A x y = true <->
  vlen (dcoords x) = vlen (dcoords y) /\ incl (dcoords x) (dcoords y).
Proof.
  intros A x y. unfold dn_eqb, dcoords, incl. unfold vlen at 3 4. rewrite !map_length. fold (vlen (dn_parts x)) (vlen (dn_parts y)).
  destruct (Z.eqb_spec (vlen (dn_parts x)) (vlen (dn_parts y))) as [E|D].
  - rewrite forallb_forall. split.
    + intro H. split; auto. intros c Hc. apply in_map_iff in Hc. destruct Hc as [a [<- Ha]]. apply H in Ha.
      apply existsb_exists in Ha. destruct Ha as [b [Hb Eb]]. apply dpart_eqb_spec in Eb. destruct Eb as [-> ->].
      apply in_map_iff. eauto.
    + intros [_ H] a Ha. apply existsb_exists.
      assert (K : In (rect a, dp_size a) (map (fun y => (rect y, dp_size y)) (dn_parts x))) by (apply in_map_iff; eauto).
      apply H in K. apply in_map_iff in K. destruct K as [b [Eb Hb]]. exists b. split; auto. apply dpart_eqb_spec.
      inversion Eb. unfold rect. split; congruence.
  - split; [discriminate|]. intros [E _]. contradiction.
Qed.

Lemma dn_eqb_spec : forall A (x y : dpartition A), NoDup (dcoords x) ->
  dn_eqb A x y = true <-> Permutation (dcoords x) (dcoords y).
Proof.
  intros A x y ND. rewrite dn_eqb_incl. split.
  - intros [E I]. apply NoDup_Permutation_bis; auto. unfold vlen in E. lia.
  - intro Pm. split; [unfold vlen; rewrite (Permutation_length Pm); auto|]. intros c Hc. eapply Permutation_in; eauto.
Qed.

Lemma dn_eqb_set : forall A (x y : dpartition A), NoDup (dcoords x) -> NoDup (dcoords y) ->
  dn_eqb A x y = true <-> (forall c, In c (dcoords x) <-> In c (dcoords y)).
Proof.
  intros A x y N1 N2. rewrite dn_eqb_spec by auto. split.
  - intros Pm c. split; intro K; [eapply Permutation_in; eauto|eapply Permutation_in; [apply Permutation_sym|]; eauto].
  - intro H. apply NoDup_Permutation; auto.
Qed.

Lemma d_eqb_quality : forall P (t : list (utm (quality (RP P)))) n p p' x x', 1 <= n <= 65535 -> vlen t = m_hsize m ->
  Forall (fun u => utm_shape u n) t ->
  d_best (RP P) t m p = Ok x -> d_best (RP P) t m p' = Ok x' -> dn_eqb (RP P) x x' = true -> dn_quality x = dn_quality x'.
Proof.
  intros P t n p p' x x' Hn Ht F E E' H.
  destruct (d_best_shape _ t n p Hn Ht F) as (R & y & C & T & E1 & OK & Ep & Ei & Eq & HG).
  destruct (d_best_shape _ t n p' Hn Ht F) as (_ & y' & C' & T' & E1' & OK' & Ep' & Ei' & Eq' & HG').
  rewrite E in E1. rewrite E' in E1'. inversion E1; subst y. inversion E1'; subst y'.
  set (q := fun h i j => match mm_get t h i j with Ok x => x | _ => q_zero (RP P) end) in *.
  pose proof (dsel_cover m W n ltac:(lia) C OK root 0 (root_node m W) ltac:(lia)) as RC.
  assert (ER : forall z : dpartition (RP P), map fst (dcoords z) = map rect (dn_parts z)) by (intro z; unfold dcoords; rewrite map_map; auto).
  assert (ND : NoDup (dcoords x)).
  { apply (NoDup_map_inv fst). rewrite ER, Ep, rect_mkdpart. apply (rc_nd _ _ _ _ _ RC). }
  apply dn_eqb_spec in H; auto. apply (Permutation_map fst) in H. rewrite !ER, Ep, Ep', !rect_mkdpart in H.
  rewrite Eq, Eq', !sum_quality_qsum. apply qsum_perm. apply Permutation_map. auto.
Qed.

Lemma d_between_prf : forall P (t : list (utm (quality (RP P)))) n p1 p p2 x1 x x2, 1 <= n <= 65535 -> vlen t = m_hsize m ->
  Forall (fun u => utm_shape u n) t -> plt P p1 p -> plt P p p2 ->
  d_best (RP P) t m p1 = Ok x1 -> d_best (RP P) t m p = Ok x -> d_best (RP P) t m p2 = Ok x2 ->
  dn_eqb (RP P) x1 x2 = true -> dn_parts x = dn_parts x1 /\ dn_parts x = dn_parts x2.
Proof.
  intros P t n p1 p p2 x1 x x2 Hn Ht F H1 H3 E1 E E2 Heq.
  pose proof (d_eqb_quality P t n p1 p2 x1 x2 Hn Ht F E1 E2 Heq) as Hq.
  destruct (d_monotone_prf P t n p1 p x1 x Hn Ht F H1 E1 E) as [A1 A2].
  destruct (d_monotone_prf P t n p p2 x x2 Hn Ht F H3 E E2) as [B1 B2]. rewrite <- Hq in *.
  assert (dn_quality x1 = dn_quality x) as K by (apply Q_eq; change (num (RP P)) with Rdefinitions.R in *; lra).
  split; eapply (d_same_quality P t n); eauto; congruence.
Qed.
End D.
