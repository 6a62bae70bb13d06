(** * Proofs about hierarchical qualities computed from data: range, normalisation, extremes, scaling, history. *)
From Coq Require Import Reals Lra Lia Permutation.
From Verif Require Import Base BaseFacts Arith Quality Utm UtmFacts UtmProofs Hierarchy SpecTree TreeFacts SpecParts SpecInfo SpecData Values
  Qualities Partitions Partitioners TreePath CoverFacts InfoFacts OInfo DataFacts NormFacts HQual HFacts HProofs OReal OProofs Sim ODataProofs.

Ltac rq := match goal with |- @eq _ ?a ?b => change (@eq Rdefinitions.R a b) end; lra.

(** ** Superadditivity over a split of a node *)
Section W.
Context (m : meta).
Hypothesis W : well_built m.
Notation ps := (m_parents m).
Notation L := (m_leaves m).
Notation lv := (leavesof L ps).

Lemma node_split_perm : forall h l, 0 <= h < m_hsize m -> node_split L ps h l -> Permutation (flat_map lv l) (lv h).
Proof.
  intros h l Hh (N & Hn & Hc). apply NoDup_Permutation; [|apply (lv_NoDup m)|].
  - apply NoDup_flat_map_intro; auto; [intros; apply (lv_NoDup m)|].
    intros a b x Ha Hb Hxa Hxb. apply (lv_In m W) in Hxa, Hxb. destruct Hxa as [Rx Ba], Hxb as [_ Bb].
    assert (B : below ps x h). { eapply below_trans; [exact Ba|]. apply Hn; auto. }
    destruct (Hc x Rx B) as (y & _ & _ & U). rewrite (U a), (U b); auto.
  - intro x. rewrite in_flat_map, (lv_In m W). split.
    + intros [y [Hy Hx]]. apply (lv_In m W) in Hx. destruct Hx as [Rx Bx]. split; auto. eapply below_trans; [exact Bx|]. apply Hn; auto.
    + intros [Rx Bx]. destruct (Hc x Rx Bx) as (y & Hy & B & _). exists y. split; auto. apply (lv_In m W); auto.
Qed.

Lemma node_cover_split : forall l, node_cover L ps l -> node_split L ps (m_root m) l.
Proof.
  intros l (N & Hn & Hc). split; auto. split.
  - intros y Hy. split; auto. apply (vt_reach _ _ _ (wb_tree m W)); auto.
  - intros x Hx _. auto.
Qed.

Lemma node_split_root : forall l, node_split L ps (m_root m) l -> node_cover L ps l.
Proof.
  intros l (N & Hn & Hc). split; auto. split; [intros; apply Hn; auto|]. intros x Hx. apply Hc; auto.
  apply (vt_reach _ _ _ (wb_tree m W)). apply (wb_node_iff m W). pose proof (wb_L m W). unfold leaf in Hx. lia.
Qed.

Lemma hcells_split : forall c h l, Permutation (flat_map lv l) (lv h) ->
  Permutation (hcells m c h) (concat (map (hcells m c) l)).
Proof.
  intros c h l Pm. unfold hcells. rewrite <- flat_map_concat_map. apply Permutation_sym.
  rewrite <- (Permutation_map _ Pm). clear Pm. induction l as [|y l IH]; cbn [flat_map]; auto. rewrite map_app. apply Permutation_app; auto.
Qed.

Lemma nonneg_hcells : forall c h, nonneg c -> vlen c = L -> nonneg (hcells m c h).
Proof.
  intros c h N Hl. apply Forall_forall. intros v Hv. apply in_map_iff in Hv. destruct Hv as (x & <- & Hx).
  apply (lv_In m W) in Hx. assert (Hi : (Z.to_nat x < length c)%nat) by (unfold vlen in Hl; lia).
  exact (proj1 (Forall_forall _ _) N _ (nth_In c 0%R Hi)).
Qed.

Variable (comps : list (list R)).
Hypothesis CL : Forall (fun c => vlen c = L) comps.
Hypothesis NN : Forall nonneg comps.

Lemma comp_ok : forall c h, In c comps -> nonneg (hcells m c h).
Proof.
  intros c h Hc. apply nonneg_hcells; [exact (proj1 (Forall_forall _ _) NN c Hc)|exact (proj1 (Forall_forall _ _) CL c Hc)].
Qed.

Lemma hgain_nonneg : forall h, (0 <= hgain m comps h)%R.
Proof. intros. apply Rsum_nonneg. intros c Hc. apply gain_of_nonneg, comp_ok; auto. Qed.
Lemma hloss_nonneg : forall h, (0 <= hloss m comps h)%R.
Proof. intros. apply Rsum_nonneg. intros c Hc. apply loss_of_nonneg, comp_ok; auto. Qed.

Lemma h_super : forall h l, Permutation (flat_map lv l) (lv h) ->
  (Rsum (hgain m comps) l <= hgain m comps h)%R /\ (Rsum (hloss m comps) l <= hloss m comps h)%R.
Proof.
  intros h l Pm. unfold hgain, hloss.
  rewrite (Rsum_swap _ _ (fun h c => gain_of (hcells m c h))), (Rsum_swap _ _ (fun h c => loss_of (hcells m c h))).
  split; apply InfoFacts.Rsum_le; intros c Hc; pose proof (hcells_split c h l Pm) as Pc; pose proof (comp_ok c h Hc) as NC.
  - rewrite (gain_perm _ _ Pc). rewrite <- (Rsum_map _ _ gain_of (hcells m c)). apply gain_concat.
    eapply Permutation_Forall; [exact Pc|exact NC].
  - rewrite (loss_perm _ _ Pc). rewrite <- (Rsum_map _ _ loss_of (hcells m c)). apply loss_concat.
    eapply Permutation_Forall; [exact Pc|exact NC].
Qed.

Lemma lv_rest : forall h, Permutation (flat_map lv (h :: filter (fun x => negb (belowb ps x h)) (zrange 0 L))) (lv (m_root m)).
Proof.
  intro h. cbn [flat_map]. rewrite (lv_root m W).
  assert (E : flat_map lv (filter (fun x => negb (belowb ps x h)) (zrange 0 L)) = filter (fun x => negb (belowb ps x h)) (zrange 0 L)).
  { assert (G : forall l, (forall x, In x l -> 0 <= x < L) -> flat_map lv l = l).
    { induction l as [|x l IH]; intro Hl; cbn [flat_map]; auto. rewrite (lv_leaf m W) by (apply Hl; left; auto). rewrite IH by (intros; apply Hl; right; auto). auto. }
    apply G. intros x Hx. apply filter_In in Hx. apply In_zrange. tauto. }
  rewrite E. unfold leavesof. clear E. induction (zrange 0 L) as [|x l IH]; cbn [filter app]; auto.
  destruct (belowb ps x h); cbn [negb filter app].
  - constructor; auto.
  - eapply Permutation_trans; [apply Permutation_sym, Permutation_middle|]. constructor; auto.
Qed.

Lemma h_part_whole : forall h, (hgain m comps h <= hgain m comps (m_root m))%R /\ (hloss m comps h <= hloss m comps (m_root m))%R.
Proof.
  intro h. destruct (h_super _ _ (lv_rest h)) as [K1 K2]. rewrite Rsum_cons in K1, K2.
  assert (0 <= Rsum (hgain m comps) (filter (fun x => negb (belowb ps x h)) (zrange 0 L)))%R by (apply Rsum_nonneg; intros; apply hgain_nonneg).
  assert (0 <= Rsum (hloss m comps) (filter (fun x => negb (belowb ps x h)) (zrange 0 L)))%R by (apply Rsum_nonneg; intros; apply hloss_nonneg).
  lra.
Qed.

Lemma hleaf_zero : forall (cs : list (list R)) h, 0 <= h < L -> hgain m cs h = 0%R /\ hloss m cs h = 0%R.
Proof.
  intros cs h Hh. unfold hgain, hloss, hcells. rewrite (lv_leaf m W) by auto. cbn [map].
  split; apply Rsum_zero; intros; [apply gain_of_single|apply loss_of_single].
Qed.

Lemma hloss_zero : forall h, (hloss m comps h = 0)%R <-> (forall c x y, In c comps -> In x (lv h) -> In y (lv h) -> elt 0%R c x = elt 0%R c y).
Proof.
  intro h. unfold hloss. split.
  - intros E c x y Hc Hx Hy. apply (loss_of_zero (hcells m c h)); [apply comp_ok; auto| |apply in_map; auto|apply in_map; auto].
    apply (Rsum_zero_inv _ (fun c => loss_of (hcells m c h)) comps); auto. intros d Hd. apply loss_of_nonneg, comp_ok; auto.
  - intro E. apply Rsum_zero. intros c Hc. destruct (lv h) as [|x0 l0] eqn:El. { unfold hcells. rewrite El. apply loss_of_nil. }
    apply (loss_of_const (elt 0%R c x0)).
    + intros v Hv. unfold hcells in Hv. rewrite El in Hv. apply in_map_iff in Hv. destruct Hv as (y & <- & Hy). apply E; auto. left; auto.
    + pose proof (comp_ok c h Hc) as N. unfold hcells in N. rewrite El in N. inversion N; auto.
Qed.
End W.

(** ** Normalisation (any arithmetic) *)
Section N.
Context (A : arith).

Lemma hq_normalize_ok : forall v t m f, vrepr t (m_hsize m) f -> 0 <= m_root m < m_hsize m ->
  exists t', hq_normalize A (mkHQ A v (Some t) m) = Ok (mkHQ A v (Some t') m) /\
    vrepr t' (m_hsize m) (fun h => q_div A (f h) (ndiv A (f (m_root m)) (h <=? m_root m))).
Proof.
  intros v t m f R Hr. unfold hq_normalize. cbn [hq_table hq_meta hq_values]. rewrite (vrepr_get _ _ _ _ _ R) by lia. cbn [bind].
  destruct (h_normalize_ok A t _ f (m_root m) R Hr) as (t' & E & R'). rewrite E. cbn [bind]. eauto.
Qed.

Lemma h_normalize_prf : forall v (t : list (quality A)) m mx, well_built m -> vlen t = m_hsize m -> vget t (m_root m) = Ok mx ->
  exists t', hq_normalize A (mkHQ A v (Some t) m) = Ok (mkHQ A v (Some t') m) /\ vlen t' = m_hsize m /\
    (forall h q, 0 <= h <= m_root m -> vget t h = Ok q ->
       vget t' h = Ok (mkQ (n_div A (gain q) (gain mx)) (n_div A (loss q) (loss mx)))) /\
    (forall h q, m_root m < h < m_hsize m -> vget t h = Ok q ->
       vget t' h = Ok (mkQ (n_div A (gain q) (n_div A (gain mx) (gain mx))) (n_div A (loss q) (n_div A (loss mx) (loss mx))))).
Proof.
  intros v t m mx W Ht Em. pose proof (root_node m W) as Hr. pose proof (list_vrepr _ t _ (q_zero A) Ht) as R.
  destruct (hq_normalize_ok v t m _ R Hr) as (t' & E & R'). exists t'. split; auto. split; [apply R'|]. rewrite Em in R'. split.
  - intros h q Hh Eq. rewrite (vrepr_get _ _ _ _ h R') by lia. rewrite Eq. replace (h <=? m_root m) with true by (symmetry; apply Z.leb_le; lia). auto.
  - intros h q Hh Eq. rewrite (vrepr_get _ _ _ _ h R') by lia. rewrite Eq. replace (h <=? m_root m) with false by (symmetry; apply Z.leb_gt; lia). auto.
Qed.

Lemma hq_history_prf : forall v cs o,
  mfold (fun c o => match c with Compute => hq_compute A o | Normalize => hq_normalize A o end) cs (hq_ofValues A v) = Ok o ->
  hq_compute A o = hq_compute A (hq_ofValues A v).
Proof.
  intros v cs. assert (G : forall o o',
    mfold (fun c o => match c with Compute => hq_compute A o | Normalize => hq_normalize A o end) cs o = Ok o' ->
    hq_values o' = hq_values o /\ hq_meta o' = hq_meta o).
  { induction cs as [|c cs IH]; intros o o' H; cbn [mfold] in H; [inversion H; auto|].
    match type of H with bind ?e _ = _ => destruct e as [o1| |] eqn:E end; cbn [bind] in H; try discriminate.
    destruct (IH _ _ H) as [-> ->]. destruct c.
    - unfold hq_compute in E. destruct (hq_values o) eqn:Ev; [|inversion E; subst; auto].
      destruct (hq_computeTable A h (hq_meta o)); cbn [bind] in E; inversion E; auto.
    - unfold hq_normalize in E. destruct (hq_table o); [|discriminate].
      destruct (vget l (m_root (hq_meta o))); cbn [bind] in E; try discriminate.
      destruct (h_normalize A l _); cbn [bind] in E; inversion E; auto. }
  intros o H. destruct (G _ _ H) as [E1 E2]. unfold hq_compute. rewrite E1, E2. reflexivity.
Qed.
End N.

(** ** Real arithmetic *)
Section R.
Context (P : params).
Notation A := (RP P).
Context (m : meta).
Hypothesis W : well_built m.
Hypothesis H2 : 2 <= m_hsize m.
Notation ps := (m_parents m).
Notation L := (m_leaves m).

Lemma htable_repr : forall (t : list (quality A)) comps, htable t m comps ->
  vrepr t (m_hsize m) (fun h => @mkQ A (hgain m comps h) (hloss m comps h)).
Proof. intros t comps [S H]. split; auto. Qed.

Lemma h_total : forall (t : list (quality A)) (G Ls : Z -> R) p x, vrepr t (m_hsize m) (fun h => @mkQ A (G h) (Ls h)) -> h_best A t m p = Ok x ->
  node_cover L ps (map hp_h (hn_parts x)) /\ gain (hn_quality x) = Rsum G (map hp_h (hn_parts x)) /\ loss (hn_quality x) = Rsum Ls (map hp_h (hn_parts x)).
Proof.
  intros t G Ls p x R E. destruct (h_cover_prf m W H2 A t p (proj1 R)) as (y & Ey & _ & C & _). rewrite E in Ey. inversion Ey; subst y. split; auto.
  destruct (h_quality_prf m W H2 A t p x (proj1 R) E) as (K1 & K2 & K3). rewrite K2, K3.
  assert (Gn : forall (l : list (hpart A)) , (forall y, In y l -> 0 <= hp_h y < m_hsize m /\ vget t (hp_h y) = Ok (hp_quality y)) ->
     forall a b : num A, fold_left (n_add A) (map (fun y => gain (hp_quality y)) l) a = (a + Rsum G (map hp_h l))%R /\
                 fold_left (n_add A) (map (fun y => loss (hp_quality y)) l) b = (b + Rsum Ls (map hp_h l))%R).
  { induction l as [|y l IH]; intros Hl a b.
    - cbn [map fold_left]. rewrite !Rsum_nil. split; rq.
    - cbn [map fold_left]. rewrite !Rsum_cons. destruct (Hl y (or_introl eq_refl)) as [Hy Ey2]. rewrite (proj2 R _ Hy) in Ey2.
      assert (Eq : hp_quality y = @mkQ A (G (hp_h y)) (Ls (hp_h y))) by congruence. clear Ey2. rewrite Eq. cbn [gain loss].
      destruct (IH (fun z Hz => Hl z (or_intror Hz)) (a + G (hp_h y))%R (b + Ls (hp_h y))%R) as [I1 I2].
      split; [transitivity (a + G (hp_h y) + Rsum G (map hp_h l))%R; [exact I1|rq]|transitivity (b + Ls (hp_h y) + Rsum Ls (map hp_h l))%R; [exact I2|rq]]. }
  destruct (Gn (hn_parts x)) with (a := n_zero A) (b := n_zero A) as [G1 G2].
  { intros y Hy. split; [|apply K1; auto]. apply (wb_node_iff m W). apply C. apply in_map; auto. }
  rewrite G1, G2. change (n_zero A) with 0%R. split; rq.
Qed.

Lemma h_value_le : forall (t : list (quality A)) (G Ls : Z -> R) p x l, vrepr t (m_hsize m) (fun h => @mkQ A (G h) (Ls h)) -> h_best A t m p = Ok x ->
  node_cover L ps l ->
  (pp_num P p * Rsum G l - pp_num P (pp_compl P p) * Rsum Ls l <=
   pp_num P p * gain (hn_quality x) - pp_num P (pp_compl P p) * loss (hn_quality x))%R.
Proof.
  intros t G Ls p x l R E C.
  assert (El : mmap (vget t) l = Ok (map (fun h => @mkQ A (G h) (Ls h)) l)).
  { apply (mmap_vrepr _ t (m_hsize m)); auto. intros h Hh. apply (wb_node_iff m W). apply C; auto. }
  pose proof (proj1 (h_optimal_prf m W H2 P t p x l _ (proj1 R) E C El)) as K. rewrite !Rsum_map in K. exact K.
Qed.

Lemma leaves_cover : node_cover L ps (zrange 0 L).
Proof.
  apply node_split_root; auto. split; [|split].
  - apply NoDup_zrange.
  - intros y Hy. apply In_zrange in Hy. pose proof (wb_L m W). split; [apply (wb_node_iff m W); lia|].
    apply (vt_reach _ _ _ (wb_tree m W)). apply (wb_node_iff m W); lia.
  - intros x Hx _. exists x. split; [apply In_zrange; auto|]. split; [constructor|]. intros y Hy B. apply In_zrange in Hy.
    assert (K : In x (leavesof L ps y)) by (apply (lv_In m W); auto). rewrite (lv_leaf m W) in K by auto. destruct K as [K|[]]; auto.
Qed.

Lemma root_cover : node_cover L ps [m_root m].
Proof.
  apply node_split_root; auto. pose proof (root_node m W) as Hr. split; [|split].
  - constructor; [intros []|constructor].
  - intros y [<-|[]]. split; [apply (wb_node_iff m W); auto|constructor].
  - intros x Hx B. exists (m_root m). split; [left; auto|]. split; auto. intros y [<-|[]] _; auto.
Qed.

Lemma h_extreme0 : forall (t : list (quality A)) (G Ls : Z -> R) p x, vrepr t (m_hsize m) (fun h => @mkQ A (G h) (Ls h)) -> h_best A t m p = Ok x ->
  pp_num P p = 0%R -> pp_num P (pp_compl P p) = 1%R ->
  (forall h, 0 <= h < m_hsize m -> (0 <= Ls h)%R) -> (forall h, 0 <= h < L -> Ls h = 0%R) -> loss (hn_quality x) = 0%R.
Proof.
  intros t G Ls p x R E P0 P1 HL HD. destruct (h_total t G Ls p x R E) as (C & _ & EL).
  assert (L0 : (0 <= loss (hn_quality x))%R).
  { rewrite EL. apply Rsum_nonneg. intros y Hy. apply HL. apply (wb_node_iff m W). apply C; auto. }
  pose proof (h_value_le t G Ls p x _ R E leaves_cover) as K. rewrite P0, P1 in K.
  rewrite (Rsum_zero _ Ls) in K by (intros h Hh; apply In_zrange in Hh; auto).
  change (num (RP P)) with Rdefinitions.R in *. lra.
Qed.

Lemma h_extreme1 : forall (t : list (quality A)) (G Ls : Z -> R) p x, vrepr t (m_hsize m) (fun h => @mkQ A (G h) (Ls h)) -> h_best A t m p = Ok x ->
  pp_num P p = 1%R -> pp_num P (pp_compl P p) = 0%R ->
  (forall l, node_cover L ps l -> (Rsum G l <= G (m_root m))%R) -> gain (hn_quality x) = G (m_root m).
Proof.
  intros t G Ls p x R E P0 P1 HG. destruct (h_total t G Ls p x R E) as (C & EG & _).
  pose proof (HG _ C) as K. rewrite <- EG in K.
  pose proof (h_value_le t G Ls p x _ R E root_cover) as K2. rewrite P0, P1 in K2. unfold Rsum in K2. cbn [map fold_right] in K2.
  change (num (RP P)) with Rdefinitions.R in *. lra.
Qed.

(** Scaling *)
Lemma h_scaled_best : forall (t t' : list (quality A)) (G Ls : Z -> R) c p x x', (0 < c)%R ->
  vrepr t (m_hsize m) (fun h => @mkQ A (G h) (Ls h)) -> vrepr t' (m_hsize m) (fun h => @mkQ A (c * G h)%R (c * Ls h)%R) ->
  h_best A t m p = Ok x -> h_best A t' m p = Ok x' -> hcoords x' = hcoords x.
Proof.
  intros t t' G Ls c p x x' Hc R R' E E'.
  refine (h_sim A A (tscale P c) (tscale_hom P c Hc) p p m W H2 _ _ _ t t' x x' R R' E E').
  intros h Hh. apply tscale_set.
Qed.

Lemma hgain_scaled : forall c comps h, (0 < c)%R -> Forall nonneg comps -> Forall (fun r => vlen r = L) comps ->
  hgain m (scaled c comps) h = (c * hgain m comps h)%R /\ hloss m (scaled c comps) h = (c * hloss m comps h)%R.
Proof.
  intros c comps h Hc NN CL. unfold hgain, hloss, scaled. rewrite !Rsum_map, <- !Rsum_scal.
  assert (E : forall r, hcells m (map (Rmult c) r) h = map (Rmult c) (hcells m r h)).
  { intro r. unfold hcells. rewrite map_map. apply map_ext. intro y. unfold elt. rewrite <- (map_nth (Rmult c)). f_equal. ring. }
  split; apply Rsum_ext; intros r Hr; rewrite E; [apply gain_scal|apply loss_scal]; auto; apply (comp_ok m W comps CL NN); auto.
Qed.
End R.
