(** * A rectangle of the data on its own: the decisions of DPartitioner from a node and a slice on. *)
From Coq Require Import Reals Lia Permutation.
From Verif Require Import Base BaseFacts Arith Quality Utm UtmFacts Hierarchy SpecTree SpecParts SpecInfo SpecData SpecZoom Partitions Partitioners HierarchyFacts HierarchyProofs TreeFacts TreePath CoverFacts InfoFacts OInfo LexR HFacts HReal DFacts DSel ZoomFacts ZoomTree.

Section One.
Context (m : meta).
Hypothesis W : well_built m.
Notation ps := (m_parents m).
Context (n : Z).
Hypothesis Hn : 1 <= n.

Lemma window_below : forall C, okcut m n C -> forall h a e, 0 <= h < m_hsize m -> 0 <= a < n -> forall g i, 0 <= g < m_hsize m -> 0 <= i < n -> In (h, a, e) (dsel m n C g i) ->
  forall y b c, 0 <= y < m_hsize m -> below ps y h -> a <= b -> (In (y, b, c) (dsel m n C g i) <-> In (y, b, c) (dsel m n C h a)).
Proof.
  intros C OK h a e Hh Ha. apply (dind m W n Hn (fun g i => In (h, a, e) (dsel m n C g i) ->
    forall y b c, 0 <= y < m_hsize m -> below ps y h -> a <= b -> (In (y, b, c) (dsel m n C g i) <-> In (y, b, c) (dsel m n C h a)))).
  intros g i Hg Hi IHc IHk Ih y b c Hy By Hb. destruct (wb_rank m W) as [rank Hk].
  pose proof (dsel_cover m W n ltac:(lia) C OK) as Cov. pose proof (rc_in _ _ _ _ _ (Cov g i Hg Hi)) as Rin.
  rewrite (dsel_eq m W n Hn C OK g i Hg Hi) in Ih |- *. destruct (Z.eqb_spec (C g i) (-1)) as [E|E].
  - apply in_flat_map in Ih. destruct Ih as (k & Ik & Ih). assert (Hkk : 0 <= k < m_hsize m) by (apply (kids_In m W) in Ik; tauto).
    rewrite <- (IHc k Ik Ih y b c Hy By Hb). rewrite in_flat_map. split; [|intro I; exists k; auto].
    intros (k' & Ik' & I). assert (k' = k) as ->; [|exact I].
    assert (Hk' : 0 <= k' < m_hsize m) by (apply (kids_In m W) in Ik'; tauto).
    destruct (rc_in _ _ _ _ _ (Cov k i Hkk Hi) _ _ _ Ih) as (_ & Bh & _). destruct (rc_in _ _ _ _ _ (Cov k' i Hk' Hi) _ _ _ I) as (_ & By' & _).
    apply (kids_In m W) in Ik, Ik'. destruct Ik as [_ P1]. destruct Ik' as [_ P2].
    apply (siblings_disjoint ps rank Hk y); [apply (wb_node_iff m W); exact Hy|exact By'|exact (below_trans _ _ _ _ By Bh)|rewrite P2; lia|congruence].
  - destruct (OK g i Hg Hi) as [[Q _]|Q]; [contradiction|]. destruct Ih as [Ih|Ih].
    + injection Ih as -> -> _. rewrite (dsel_eq m W n Hn C OK h a Hh Ha). destruct (Z.eqb_spec (C h a) (-1)); [contradiction|]. tauto.
    + destruct (Z.ltb_spec (C g i) (n - 1)) as [Lt|Lt]; [|destruct Ih].
      assert (Hi' : 0 <= C g i + 1 < n) by lia. destruct (rc_in _ _ _ _ _ (Cov g (C g i + 1) Hg Hi') _ _ _ Ih) as (_ & _ & Ra & _).
      rewrite <- (IHk (C g i + 1) ltac:(lia) Ih y b c Hy By Hb). split; [|intro I; right; exact I]. intros [I|I]; [|exact I]. exfalso. injection I as _ Ei _. lia.
Qed.
End One.

Section Z.
Context (A : arith) (m m' : meta) (f : Z -> Z).
Hypothesis W : well_built m.
Hypothesis W' : well_built m'.
Context (h : Z).
Hypothesis St : subtree (m_leaves m) (m_parents m) h (m_leaves m') (m_parents m') f.
Context (n a : Z).
Hypothesis Ha : 0 <= a < n.
Context (q : Z -> Z -> Z -> quality A) (p : par A) (T T' : Z -> Z -> tradeoff A) (C C' : Z -> Z -> Z).
Let q' := fun y i j => q (f y) (a + i) (a + j).
Hypothesis OK : okcut m n C.
Hypothesis OK' : okcut m' (n - a) C'.
Hypothesis HT : forall x i, 0 <= x < m_hsize m -> 0 <= i < n -> (C x i, T x i) = dline A m n q p T x i.
Hypothesis HT' : forall y i, 0 <= y < m_hsize m' -> 0 <= i < n - a -> (C' y i, T' y i) = dline A m' (n - a) q' p T' y i.
Hypothesis Hcs : forall y i, 0 <= y < m_hsize m' -> 0 <= i < n - a -> (forall c, In c (kids m' y) -> T' c i = T (f c) (a + i)) ->
  csum A (fun c => T' c i) (kids m' y) = csum A (fun c => T c (a + i)) (kids m (f y)).

Definition up (c : Z) : Z := if c =? -1 then -1 else a + c.

Lemma dfold_shift : forall y i l ct, (forall c, In c l -> 0 <= c /\ T' y (c + 1) = T (f y) (a + (c + 1))) ->
  fold_left (dstep A q p (T (f y)) (f y) (a + i)) (map (Z.add a) l) (up (fst ct), snd ct) =
  (up (fst (fold_left (dstep A q' p (T' y) y i) l ct)), snd (fold_left (dstep A q' p (T' y) y i) l ct)).
Proof.
  intros y i l. induction l as [|c l IH]; intros ct H; [reflexivity|]. cbn [map fold_left].
  rewrite <- IH by (intros; apply H; right; assumption). f_equal. destruct (H c (or_introl eq_refl)) as [Hc Ec]. unfold dstep, q'. cbn [snd]. rewrite Ec, <- Z.add_assoc.
  destruct (t_gtb A _ (snd ct)); cbn [fst snd]; [|reflexivity]. unfold up. destruct (Z.eqb_spec c (-1)); [lia|reflexivity].
Qed.

Lemma w_dec : forall y i, 0 <= y < m_hsize m' -> 0 <= i < n - a -> C (f y) (a + i) = up (C' y i) /\ T (f y) (a + i) = T' y i.
Proof.
  apply (dind m' W' (n - a) ltac:(lia)). intros y i Hy Hi IHc IHk. pose proof (z_node m m' f W W' h St y Hy) as Hf. pose proof (proj2 (wb_node_iff m' W' y) Hy) as Ny. pose proof (st_leaf _ _ _ _ _ _ St y Ny) as Lf.
  assert (E : (C (f y) (a + i), T (f y) (a + i)) = (up (C' y i), T' y i)); [|inversion E; auto].
  rewrite (HT (f y) (a + i)) by lia. pose proof (HT' y i Hy Hi) as E'. unfold dline, dcell in *.
  assert (Lb : (m_leaves m' <=? y) = (m_leaves m <=? f y)).
  { unfold leaf in Lf. destruct (Z.leb_spec (m_leaves m') y), (Z.leb_spec (m_leaves m) (f y)); auto; exfalso; [assert (0 <= y < m_leaves m') by (apply Lf; lia)|assert (0 <= f y < m_leaves m) by (apply Lf; lia)]; lia. }
  rewrite Lb in E'. rewrite (Hcs y i Hy Hi) in E' by (intros c Ic; symmetry; apply (IHc c Ic)).
  assert (Ei : dinit A q p (m_leaves m <=? f y) (csum A (fun c => T c (a + i)) (kids m (f y))) (f y) (a + i) (n - 1) =
    (up (fst (dinit A q' p (m_leaves m <=? f y) (csum A (fun c => T c (a + i)) (kids m (f y))) y i (n - a - 1))),
     snd (dinit A q' p (m_leaves m <=? f y) (csum A (fun c => T c (a + i)) (kids m (f y))) y i (n - a - 1)))).
  { unfold dinit, q'. replace (a + (n - a - 1)) with (n - 1) by lia. destruct ((m_leaves m <=? f y) && _); cbn [fst snd]; unfold up; [reflexivity|]. destruct (Z.eqb_spec (n - a - 1) (-1)); [lia|]. f_equal. lia. }
  rewrite Ei. replace (zrange (a + i) (n - 1)) with (map (Z.add a) (zrange i (n - a - 1))).
  - rewrite (dfold_shift y i); [rewrite <- E'; reflexivity|]. intros c Ic. apply In_zrange in Ic. split; [lia|]. symmetry. apply IHk. lia.
  - replace (n - 1) with (a + i + (n - a - 1 - i)) by lia. rewrite zrange_shift by lia. do 2 f_equal. lia.
Qed.

Definition back (r : Z * Z * Z) : Z * Z * Z := let '(y, i, j) := r in (f y, a + i, a + j).
Lemma w_sel : forall y i, 0 <= y < m_hsize m' -> 0 <= i < n - a -> Permutation (map back (dsel m' (n - a) C' y i)) (dsel m n C (f y) (a + i)).
Proof.
  apply (dind m' W' (n - a) ltac:(lia)). intros y i Hy Hi IHc IHk. pose proof (z_node m m' f W W' h St y Hy) as Hf.
  rewrite (dsel_eq m' W' (n - a) ltac:(lia) C' OK' y i Hy Hi). rewrite (dsel_eq m W n ltac:(lia) C OK (f y) (a + i)) by lia. destruct (w_dec y i Hy Hi) as [Ec _]. rewrite Ec. unfold up.
  destruct (Z.eqb_spec (C' y i) (-1)) as [E|E].
  - rewrite Z.eqb_refl. rewrite <- (z_kids m m' f W W' h St y Hy). clear - IHc. induction (kids m' y) as [|c l IHl]; [reflexivity|]. cbn [flat_map map]. rewrite map_app.
    apply Permutation_app; [apply IHc; left; reflexivity|apply IHl; intros; apply IHc; right; assumption].
  - destruct (OK' y i Hy Hi) as [[Q _]|Q]; [contradiction|]. destruct (Z.eqb_spec (a + C' y i) (-1)); [lia|]. cbn [map back]. apply perm_skip.
    destruct (Z.ltb_spec (C' y i) (n - a - 1)), (Z.ltb_spec (a + C' y i) (n - 1)); try lia; [|reflexivity]. replace (a + C' y i + 1) with (a + (C' y i + 1)) by lia. apply IHk. lia.
Qed.

Lemma w_parts : forall e, In (h, a, e) (dsel m n C (m_root m) 0) -> forall y i j, 0 <= y < m_hsize m' -> 0 <= i ->
  (In (y, i, j) (dsel m' (n - a) C' (m_root m') 0) <-> In (f y, a + i, a + j) (dsel m n C (m_root m) 0)).
Proof.
  intros e Ie y i j Hy Hi. pose proof (proj1 (wb_node_iff m W _) (vt_root _ _ _ (wb_tree m W))) as Hr. pose proof (proj1 (wb_node_iff m' W' _) (vt_root _ _ _ (wb_tree m' W'))) as Hr'.
  pose proof (z_h m m' f W W' h St) as Hh. pose proof (proj2 (wb_node_iff m' W' y) Hy) as Ny.
  rewrite (window_below m W n ltac:(lia) C OK h a e Hh Ha _ 0 Hr ltac:(lia) Ie (f y) (a + i) (a + j) (z_node m m' f W W' h St y Hy) (proj2 (st_node _ _ _ _ _ _ St y Ny)) ltac:(lia)).
  pose proof (w_sel (m_root m') 0 Hr' ltac:(lia)) as Pm. rewrite (z_root m m' f W' h St), Z.add_0_r in Pm. split; intro I.
  - apply (Permutation_in _ Pm). change (f y, a + i, a + j) with (back (y, i, j)). apply in_map. exact I.
  - apply (Permutation_in _ (Permutation_sym Pm)) in I. apply in_map_iff in I. destruct I as ([[z i'] j'] & E & Iz). cbn [back] in E. injection E as E1 E2 E3.
    destruct (rc_in _ _ _ _ _ (dsel_cover m' W' (n - a) ltac:(lia) C' OK' _ 0 Hr' ltac:(lia)) _ _ _ Iz) as (Hz & _).
    apply (st_inj _ _ _ _ _ _ St) in E1; [|apply (wb_node_iff m' W'); exact Hz|exact Ny]. assert (i' = i) by lia. assert (j' = j) by lia. subst. exact Iz.
Qed.
End Z.
