(** * Property C101: a finer space resolution that adds no information does not change the result. Exact arithmetic. *)
From Coq Require Import Reals Lra Lia List Permutation.
From Verif Require Import Base BaseFacts Arith Quality Utm UtmFacts UtmProofs Hierarchy HierarchyFacts HierarchyProofs SpecTree SpecParts SpecInfo SpecData SpecShape SpecResample SpecCopies Values Qualities Partitions Partitioners
  TreeFacts TreePath CoverFacts InfoFacts HFacts HQual HReal LexR OInfo DataFacts HDataProofs P_HierData ResampleFacts.

Lemma refine_map : forall (k : nat) (f : Z -> R) l, map (fun x => f x / INR k)%R (flat_map (fun x => repeat x k) l) = refine k (map f l).
Proof.
  intros k f l. induction l as [|x l IH]; [reflexivity|].
  change (refine k (map f (x :: l))) with (repeat (f x / INR k)%R k ++ refine k (map f l)). rewrite <- IH.
  change (flat_map (fun x => repeat x k) (x :: l)) with (repeat x k ++ flat_map (fun x => repeat x k) l). rewrite map_app. f_equal.
  set (N := INR k). generalize k. intro n. induction n as [|n IHn]; [reflexivity|]. cbn [repeat map]. rewrite IHn. reflexivity.
Qed.

Section Cp.
Context (k : nat) (m m' : meta) (s w : Z -> Z).
Hypothesis K0 : (0 < k)%nat.
Hypothesis W : well_built m.
Hypothesis W' : well_built m'.
Hypothesis Lc : leaf_copies k (m_leaves m) (m_parents m) (m_leaves m') (m_parents m') s w.
Notation ps := (m_parents m).
Notation ps' := (m_parents m').
Notation L := (m_leaves m).
Notation L' := (m_leaves m').
Notation lv := (leavesof L ps).
Notation lv' := (leavesof L' ps').

Lemma c_s : forall h, 0 <= h < m_hsize m -> L' <= s h < m_hsize m'.
Proof.
  intros h Hh. destruct (lc_node _ _ _ _ _ _ _ Lc h (proj2 (wb_node_iff m W h) Hh)) as [A B]. apply (wb_node_iff m' W') in A. unfold leaf in B. lia.
Qed.
Lemma c_par : forall y, 0 <= y < L' -> 0 <= w y < L /\ 0 <= w y < m_hsize m /\ parent ps' y = s (w y).
Proof.
  intros y Hy. destruct (lc_copy _ _ _ _ _ _ _ Lc y Hy) as [A B]. unfold leaf in A. pose proof (wb_L m W). split; [lia|]. split; [lia|exact B].
Qed.

Lemma c_below : forall x h, 0 <= x < m_hsize m -> below ps x h -> below ps' (s x) (s h).
Proof.
  intros x h Hx B. induction B as [h|x h Hp B IH]; [constructor|]. pose proof (proj2 (wb_node_iff m W x) Hx) as Nx.
  assert (Hpar : 0 <= parent ps x < m_hsize m).
  { destruct (Z.eq_dec x (m_root m)) as [->|Dr]; [rewrite (vt_rootp _ _ _ (wb_tree m W)) in Hp; congruence|]. destruct (parent_range m W x Hx Dr) as [K _]. pose proof (wb_L m W). lia. }
  pose proof (lc_parent _ _ _ _ _ _ _ Lc x Nx) as E. replace (parent ps x =? -1) with false in E by (symmetry; apply Z.eqb_neq; exact Hp).
  pose proof (c_s _ Hpar). pose proof (wb_L m' W'). apply below_up; rewrite E; [lia|apply IH; exact Hpar].
Qed.
Lemma c_below_inv : forall y z, below ps' y z -> forall x h, y = s x -> z = s h -> 0 <= x < m_hsize m -> 0 <= h < m_hsize m -> below ps x h.
Proof.
  intros y z B. induction B as [z|y z Hp B IH]; intros x h Ey Ez Hx Hh.
  - assert (x = h) as ->; [|constructor]. apply (lc_inj _ _ _ _ _ _ _ Lc); [apply (wb_node_iff m W); exact Hx|apply (wb_node_iff m W); exact Hh|congruence].
  - subst y z. pose proof (proj2 (wb_node_iff m W x) Hx) as Nx. pose proof (lc_parent _ _ _ _ _ _ _ Lc x Nx) as E. destruct (Z.eqb_spec (parent ps x) (-1)) as [D|D]; [congruence|].
    assert (Hpar : 0 <= parent ps x < m_hsize m).
    { destruct (Z.eq_dec x (m_root m)) as [->|Dr]; [rewrite (vt_rootp _ _ _ (wb_tree m W)) in D; congruence|]. destruct (parent_range m W x Hx Dr) as [K _]. pose proof (wb_L m W). lia. }
    apply below_up; [exact D|]. apply (IH _ _ E eq_refl Hpar Hh).
Qed.
Lemma c_below_leaf : forall y h, 0 <= y < L' -> 0 <= h < m_hsize m -> (below ps' y (s h) <-> below ps (w y) h).
Proof.
  intros y h Hy Hh. destruct (c_par y Hy) as (Hw & Hw' & E). pose proof (c_s _ Hw') as S1. pose proof (c_s _ Hh) as S2. split; intro B.
  - inversion B as [z|y0 z Hp B']; subst; [lia|]. rewrite E in B'. exact (c_below_inv _ _ B' _ _ eq_refl eq_refl Hw' Hh).
  - apply below_up; rewrite E; [lia|]. apply c_below; auto.
Qed.

(** The copies below [s h] are the copies of the leaves below [h]. *)
Lemma c_groups : forall X, NoDup X -> forall l : list Z, Permutation (map w (filter (fun y => existsb (Z.eqb (w y)) X) l)) (flat_map (fun x => map w (filter (fun y => w y =? x) l)) X).
Proof.
  induction X as [|x X IH]; intros ND l.
  - cbn. replace (filter (fun _ => false) l) with (@nil Z); [constructor|]. induction l; auto.
  - inversion ND as [|? ? N1 N2]; subst. cbn [flat_map]. rewrite <- IH by exact N2. clear IH. induction l as [|y l IH]; [constructor|]. cbn [filter existsb].
    destruct (Z.eqb_spec (w y) x) as [E|E].
    + replace (existsb (Z.eqb (w y)) X) with false; [cbn [orb map app]; constructor; exact IH|]. symmetry. apply not_true_iff_false. intro Q. apply existsb_exists in Q. destruct Q as (z & Iz & Q). apply Z.eqb_eq in Q. subst z. rewrite E in Iz. contradiction.
    + cbn [orb]. destruct (existsb (Z.eqb (w y)) X); [|exact IH]. cbn [map]. apply Permutation_cons_app. exact IH.
Qed.
Lemma c_const : forall x (l : list Z), map w (filter (fun y => w y =? x) l) = repeat x (length (filter (fun y => w y =? x) l)).
Proof. intros x l. induction l as [|y l IH]; [reflexivity|]. cbn [filter]. destruct (Z.eqb_spec (w y) x) as [E|E]; [cbn [map length repeat]; rewrite E, IH; reflexivity|exact IH]. Qed.

Lemma c_leaves : forall h, 0 <= h < m_hsize m -> Permutation (map w (lv' (s h))) (flat_map (fun x => repeat x k) (lv h)).
Proof.
  intros h Hh. unfold leavesof at 1. rewrite (filter_ext_in _ (fun y => existsb (Z.eqb (w y)) (lv h))).
  - rewrite (c_groups (lv h) (lv_NoDup m h)). apply Permutation_refl'. apply HFacts.flat_map_ext_in. intros x Ix. apply (lv_In m W) in Ix. rewrite c_const. f_equal.
    pose proof (lc_count _ _ _ _ _ _ _ Lc x (proj1 Ix)) as Q. unfold vlen in Q. lia.
  - intros y Iy. apply In_zrange in Iy. destruct (c_par y ltac:(lia)) as (Hw & Hw' & E). destruct (wb_rank m' W') as [rk' Hr']. pose proof (wb_L m' W') as V2.
    assert (Q : belowb ps' y (s h) = true <-> existsb (Z.eqb (w y)) (lv h) = true).
    { rewrite (belowb_true _ rk' Hr') by (apply (wb_node_iff m' W'); lia). rewrite (c_below_leaf y h) by (auto; lia). rewrite existsb_exists. split.
      - intro B. exists (w y). split; [apply (lv_In m W); auto|apply Z.eqb_refl].
      - intros (z & Iz & Ez). apply Z.eqb_eq in Ez. subst z. apply (lv_In m W) in Iz. tauto. }
    destruct (belowb ps' y (s h)), (existsb (Z.eqb (w y)) (lv h)); auto; [symmetry; apply Q; auto|apply Q; auto].
Qed.

Lemma c_cells : forall c c', (forall y, leaf L' y -> elt 0%R c' y = (elt 0%R c (w y) / INR k)%R) -> forall h, 0 <= h < m_hsize m -> Permutation (hcells m' c' (s h)) (refine k (hcells m c h)).
Proof.
  intros c c' Hc h Hh. unfold hcells. rewrite (map_ext_in _ (fun y => (fun x => elt 0%R c x / INR k)%R (w y))).
  2:{ intros y Iy. apply (lv_In m' W') in Iy. apply Hc. exact (proj1 Iy). }
  rewrite <- (map_map w (fun x => (elt 0%R c x / INR k)%R)). rewrite (Permutation_map (fun x => (elt 0%R c x / INR k)%R) (c_leaves h Hh)). apply Permutation_refl'.
  apply refine_map.
Qed.

Definition hall (m : meta) (comps : list (list R)) (h : Z) : R := Rsum (fun c => total (hcells m c h)) comps.
Lemma c_qual : forall comps comps', Forall (fun c => vlen c = L) comps -> Forall nonneg comps -> equal_shares k L' w comps comps' -> forall h, 0 <= h < m_hsize m ->
  hgain m' comps' (s h) = (hgain m comps h + log2 (INR k) * hall m comps h)%R /\ hloss m' comps' (s h) = hloss m comps h.
Proof.
  intros comps comps' CL NN Es h Hh. unfold hgain, hloss, hall. induction Es as [|c c' l l' Hc Es IH]; [rewrite !Rsum_nil; split; lra|].
  inversion CL; inversion NN; subst. rewrite !Rsum_cons. destruct (IH ltac:(assumption) ltac:(assumption)) as [-> ->].
  rewrite (gain_perm _ _ (c_cells c c' Hc h Hh)), (loss_perm _ _ (c_cells c c' Hc h Hh)). pose proof (nonneg_hcells m W c h ltac:(assumption) ltac:(assumption)) as N.
  rewrite refine_gain by auto. rewrite refine_loss by auto. split; lra.
Qed.

Lemma cp_NoDup_map : forall X Y (f : X -> Y) l, (forall x y, In x l -> In y l -> f x = f y -> x = y) -> NoDup l -> NoDup (map f l).
Proof.
  intros X Y f l. induction l as [|x l IH]; intros H ND; cbn; constructor; inversion ND as [|? ? N1 N2]; subst.
  - intros I. apply in_map_iff in I. destruct I as (y & E & I). apply N1. rewrite <- (H y x); cbn; auto.
  - apply IH; [intros; apply H; cbn; auto|assumption].
Qed.
Lemma c_kids : forall h, L <= h < m_hsize m -> Permutation (kids m' (s h)) (map s (kids m h)).
Proof.
  intros h Hh. pose proof (wb_L m W) as V1. pose proof (wb_L m' W') as V2. apply NoDup_Permutation.
  - apply (kids_NoDup m' W').
  - apply cp_NoDup_map; [|apply (kids_NoDup m W)]. intros x y Ix Iy E. apply (kids_In m W) in Ix, Iy. apply (lc_inj _ _ _ _ _ _ _ Lc); auto; apply (wb_node_iff m W); tauto.
  - intro y. rewrite in_map_iff. split.
    + intro Iy. apply (kids_In m' W') in Iy. destruct Iy as [Hy Py]. destruct (Z_lt_le_dec y L') as [C|C].
      * exfalso. destruct (c_par y ltac:(lia)) as (Hw & Hw' & E). rewrite E in Py. assert (w y = h); [|lia].
        apply (lc_inj _ _ _ _ _ _ _ Lc); auto; apply (wb_node_iff m W); lia.
      * destruct (lc_onto _ _ _ _ _ _ _ Lc y) as (z & Nz & <-); [apply (wb_node_iff m' W'); exact Hy|unfold leaf; lia|]. exists z. split; [reflexivity|]. pose proof (proj1 (wb_node_iff m W z) Nz) as Hz.
        apply (kids_In m W). split; [exact Hz|]. rewrite (lc_parent _ _ _ _ _ _ _ Lc z Nz) in Py. pose proof (c_s h ltac:(lia)). destruct (Z.eqb_spec (parent ps z) (-1)) as [D|D]; [lia|].
        assert (Hpar : L <= parent ps z < m_hsize m).
        { destruct (Z.eq_dec z (m_root m)) as [->|Dr]; [rewrite (vt_rootp _ _ _ (wb_tree m W)) in D; congruence|]. destruct (parent_range m W z Hz Dr) as [K _]. exact K. }
        apply (lc_inj _ _ _ _ _ _ _ Lc); auto; apply (wb_node_iff m W); lia.
    + intros (z & <- & Iz). apply (kids_In m W) in Iz. destruct Iz as [Hz Pz]. apply (kids_In m' W'). pose proof (c_s z Hz). split; [lia|].
      rewrite (lc_parent _ _ _ _ _ _ _ Lc z (proj2 (wb_node_iff m W z) Hz)), Pz. replace (h =? -1) with false by (symmetry; apply Z.eqb_neq; lia). reflexivity.
Qed.
Lemma c_kids_leaf : forall h, 0 <= h < L -> forall y, In y (kids m' (s h)) -> 0 <= y < L'.
Proof.
  intros h Hh y Iy. pose proof (wb_L m W) as V1. pose proof (wb_L m' W') as V2. apply (kids_In m' W') in Iy. destruct Iy as [Hy Py]. destruct (Z_lt_le_dec y L') as [C|C]; [lia|exfalso].
  destruct (lc_onto _ _ _ _ _ _ _ Lc y) as (z & Nz & <-); [apply (wb_node_iff m' W'); exact Hy|unfold leaf; lia|]. pose proof (proj1 (wb_node_iff m W z) Nz) as Hz.
  rewrite (lc_parent _ _ _ _ _ _ _ Lc z Nz) in Py. pose proof (c_s h ltac:(lia)). destruct (Z.eqb_spec (parent ps z) (-1)) as [D|D]; [lia|].
  assert (Hpar : L <= parent ps z < m_hsize m).
  { destruct (Z.eq_dec z (m_root m)) as [->|Dr]; [rewrite (vt_rootp _ _ _ (wb_tree m W)) in D; congruence|]. destruct (parent_range m W z Hz Dr) as [K _]. exact K. }
  assert (parent ps z = h); [|lia]. apply (lc_inj _ _ _ _ _ _ _ Lc); auto; apply (wb_node_iff m W); lia.
Qed.
Lemma c_root : s (m_root m) = m_root m'.
Proof.
  pose proof (root_node m W) as Hr. destruct (Z.eq_dec (s (m_root m)) (m_root m')) as [E|D]; [exact E|exfalso]. pose proof (c_s _ Hr) as B. pose proof (wb_L m' W').
  destruct (parent_range m' W' (s (m_root m)) ltac:(lia) D) as [B2 _]. rewrite (lc_parent _ _ _ _ _ _ _ Lc _ (proj2 (wb_node_iff m W _) Hr)), (vt_rootp _ _ _ (wb_tree m W)) in B2. cbn in B2. lia.
Qed.

Lemma hall_kids : forall comps h, L <= h < m_hsize m -> hall m comps h = Rsum (hall m comps) (kids m h).
Proof.
  intros comps h Hh. unfold hall. rewrite (Rsum_swap _ _ (fun x c => total (hcells m c x))). apply Rsum_ext. intros c _.
  rewrite (total_perm _ _ (hcells_split m c h (kids m h) (Permutation_sym (leavesof_kids m W h Hh)))). induction (kids m h) as [|y l IH]; [reflexivity|]. cbn [map concat]. rewrite total_app, Rsum_cons, IH. reflexivity.
Qed.

(** Tables and weights: at [p] and [p'] the weights of gain and of loss are proportional. *)
Section Dec.
Context (P : params) (comps comps' : list (list R)) (a b a' b' lam : R) (p p' : par (RP P)).
Hypothesis CL : Forall (fun c => vlen c = L) comps.
Hypothesis NN : Forall nonneg comps.
Hypothesis Es : equal_shares k L' w comps comps'.
Hypothesis Hl : (0 < lam)%R.
Hypothesis Hp : (0 <= pp_num P p * a)%R.
Hypothesis Ba : (pp_num P p' * a' = lam * (pp_num P p * a))%R.
Hypothesis Bb : (pp_num P (pp_compl P p') * b' = lam * (pp_num P (pp_compl P p) * b))%R.
Notation q := (fun h => @mkQ (RP P) (a * hgain m comps h)%R (b * hloss m comps h)%R).
Notation q' := (fun h => @mkQ (RP P) (a' * hgain m' comps' h)%R (b' * hloss m' comps' h)%R).
Context (T T' : Z -> tradeoff (RP P)) (G G' : Z -> bool).
Hypothesis HT : forall h, 0 <= h < m_hsize m -> (T h, G h) = hdec (RP P) m q p T h.
Hypothesis HT' : forall h, 0 <= h < m_hsize m' -> (T' h, G' h) = hdec (RP P) m' q' p' T' h.
Notation extra h := (pp_num P p * a * (log2 (INR k) * hall m comps h))%R.

Lemma hall_nonneg : forall h, (0 <= hall m comps h)%R.
Proof.
  intro h. unfold hall. apply Rsum_nonneg. intros c Ic. apply total_nonneg. apply (nonneg_hcells m W); [exact (proj1 (Forall_forall _ _) NN c Ic)|exact (proj1 (Forall_forall _ _) CL c Ic)].
Qed.
Lemma log2_k : (0 <= log2 (INR k))%R.
Proof.
  unfold log2, Rdiv. apply Rmult_le_pos; [|left; apply Rinv_0_lt_compat; exact ln2_pos].
  assert (1 <= INR k)%R as Im by (change 1%R with (INR 1); apply le_INR; lia). destruct (Rle_lt_or_eq_dec _ _ Im) as [I|I]; [left; rewrite <- ln_1; apply ln_increasing; lra|rewrite <- I, ln_1; lra].
Qed.
Lemma own : forall h, 0 <= h < m_hsize m -> t_value (t_set (RP P) (q' (s h)) p') = (lam * (t_value (t_set (RP P) (q h) p) + extra h))%R.
Proof.
  intros h Hh. rewrite !tset_val. cbn [gain loss]. destruct (c_qual comps comps' CL NN Es h Hh) as [-> ->]. change (num (RP P)) with R.
  transitivity (pp_num P p' * a' * (hgain m comps h + log2 (INR k) * hall m comps h) - pp_num P (pp_compl P p') * b' * hloss m comps h)%R; [ring|]. rewrite Ba, Bb. ring.
Qed.
Lemma leaf_zero : forall n (cs : list (list R)) h, well_built n -> 0 <= h < m_leaves n -> hgain n cs h = 0%R /\ hloss n cs h = 0%R.
Proof.
  intros n cs h Wn Hh. split; apply Rsum_zero; intros c _; unfold hcells; rewrite (lv_leaf n Wn) by exact Hh; [apply gain_of_single|apply loss_of_single].
Qed.

Lemma dec_same : forall h, 0 <= h < m_hsize m -> G' (s h) = G h /\ t_value (T' (s h)) = (lam * (t_value (T h) + extra h))%R.
Proof.
  pose proof (wb_L m W) as V1. pose proof (wb_L m' W') as V2. pose proof log2_k as LK.
  apply (tree_ind m W (fun h => G' (s h) = G h /\ t_value (T' (s h)) = (lam * (t_value (T h) + extra h))%R)). intros h Hh IH. pose proof (c_s h Hh) as Hs.
  assert (E : (T h, G h) = hdec (RP P) m q p T h) by (apply HT; exact Hh). assert (E' : (T' (s h), G' (s h)) = hdec (RP P) m' q' p' T' (s h)) by (apply HT'; lia).
  unfold hdec in E, E'. replace (s h <? L') with false in E' by (symmetry; apply Z.ltb_ge; lia). pose proof (own h Hh) as O. pose proof (hall_nonneg h) as HN.
  destruct (Z_lt_le_dec h L) as [Cl|Cl].
  - replace (h <? L) with true in E by (symmetry; apply Z.ltb_lt; lia). injection E as E1 E2.
    assert (Z1 : t_value (csum (RP P) T' (kids m' (s h))) = 0%R).
    { rewrite (csum_tsum P T'), tsum_val. apply Rsum_zero. intros y Iy. pose proof (c_kids_leaf h ltac:(lia) y Iy) as Ly. assert (Q : (T' y, G' y) = hdec (RP P) m' q' p' T' y) by (apply HT'; lia).
      unfold hdec in Q. replace (y <? L') with true in Q by (symmetry; apply Z.ltb_lt; lia). injection Q as Q1 Q2. rewrite Q1, tset_val. cbn [gain loss]. destruct (leaf_zero m' comps' y W' Ly) as [-> ->]. rewrite !Rmult_0_r. apply Rminus_0_r. }
    destruct (t_ltb (RP P) (t_set (RP P) (q' (s h)) p') (csum (RP P) T' (kids m' (s h)))) eqn:B.
    + exfalso. apply tltb_spec in B. rewrite Z1 in B. rewrite O in B. rewrite tset_val in B. cbn [gain loss] in B. destruct (leaf_zero m comps h W ltac:(lia)) as [X1 X2]. rewrite X1, X2 in B. change (num (RP P)) with R in B.
      assert (0 <= lam * (pp_num P p * (a * 0) - pp_num P (pp_compl P p) * (b * 0) + extra h))%R; [|lra]. apply Rmult_le_pos; [lra|]. assert (0 <= extra h)%R by (apply Rmult_le_pos; [exact Hp|]; apply Rmult_le_pos; assumption). lra.
    + injection E' as E1' E2'. rewrite E1, E1', E2, E2'. split; [reflexivity|exact O].
  - replace (h <? L) with false in E by (symmetry; apply Z.ltb_ge; lia).
    assert (Ch : t_value (csum (RP P) T' (kids m' (s h))) = (lam * (t_value (csum (RP P) T (kids m h)) + extra h))%R).
    { rewrite (csum_tsum P T'), (csum_tsum P T), !tsum_val. rewrite (Rsum_perm _ _ _ _ (c_kids h ltac:(lia))). rewrite Rsum_map. rewrite (Rsum_ext _ _ (fun c => lam * (t_value (T c) + extra c))%R) by (intros c Ic; apply (IH c Ic)).
      rewrite (hall_kids comps h ltac:(lia)). rewrite Rsum_scal, Rsum_plus. f_equal. f_equal. rewrite Rsum_scal, Rsum_scal. reflexivity. }
    assert (Bq : t_ltb (RP P) (t_set (RP P) (q' (s h)) p') (csum (RP P) T' (kids m' (s h))) = t_ltb (RP P) (t_set (RP P) (q h) p) (csum (RP P) T (kids m h))).
    { apply Bool.eq_iff_eq_true. rewrite !tltb_spec, O, Ch. split; intro X; [apply Rmult_lt_reg_l in X; [lra|exact Hl]|apply Rmult_lt_compat_l; [exact Hl|lra]]. }
    rewrite Bq in E'. destruct (t_ltb (RP P) (t_set (RP P) (q h) p) (csum (RP P) T (kids m h))); injection E as E1 E2; injection E' as E1' E2'; rewrite E1, E1', E2, E2'; (split; [reflexivity|]); [exact Ch|exact O].
Qed.
Hypothesis H2 : 2 <= m_hsize m.
Hypothesis H2' : 2 <= m_hsize m'.
Lemma sel_same : forall h, 0 <= h < m_hsize m -> Permutation (hsel m' G' (s h)) (map s (hsel m G h)).
Proof.
  pose proof (wb_L m W) as V1. pose proof (wb_L m' W') as V2.
  apply (tree_ind m W (fun h => Permutation (hsel m' G' (s h)) (map s (hsel m G h)))). intros h Hh IH. pose proof (c_s h Hh) as Hs.
  rewrite (hsel_eq m' W' H2' G' (s h)) by lia. rewrite (hsel_eq m W H2 G h Hh). rewrite (proj1 (dec_same h Hh)). destruct (G h) eqn:EG; [reflexivity|].
  assert (Cl : L <= h). { destruct (Z_lt_le_dec h L) as [C|C]; [|exact C]. exfalso. assert (E : (T h, G h) = hdec (RP P) m q p T h) by (apply HT; exact Hh). unfold hdec in E. replace (h <? L) with true in E by (symmetry; apply Z.ltb_lt; lia). congruence. }
  rewrite (Permutation_flat_map (hsel m' G') (c_kids h ltac:(lia))). induction (kids m h) as [|c l IHl]; [constructor|]. cbn [map flat_map]. rewrite map_app. apply Permutation_app; [apply IH; left; reflexivity|apply IHl; intros; apply IH; right; assumption].
Qed.
End Dec.

Lemma hall_root : forall comps, Forall (fun c => vlen c = L) comps -> hall m comps (m_root m) = all_data comps.
Proof.
  intros comps CL. unfold hall, all_data. apply Rsum_ext. intros c Ic. unfold hcells. rewrite (lv_root m W). rewrite <- (proj1 (Forall_forall _ _) CL c Ic), <- list_elt. reflexivity.
Qed.
Lemma hall_cover : forall comps h l, Permutation (flat_map lv l) (lv h) -> Rsum (hall m comps) l = hall m comps h.
Proof.
  intros comps h l Pm. unfold hall. rewrite (Rsum_swap _ _ (fun x c => total (hcells m c x))). apply Rsum_ext. intros c _.
  rewrite (total_perm _ _ (hcells_split m c h l Pm)). clear Pm. induction l as [|y l IH]; [reflexivity|]. cbn [map concat]. rewrite total_app, Rsum_cons, IH. reflexivity.
Qed.
Lemma c_parts : forall P comps comps' a b a' b' lam (p p' : par (RP P)) t t' x x', 2 <= m_hsize m -> 2 <= m_hsize m' ->
  Forall (fun c => vlen c = L) comps -> Forall nonneg comps -> equal_shares k L' w comps comps' -> (0 < lam)%R -> (0 <= pp_num P p * a)%R ->
  (pp_num P p' * a' = lam * (pp_num P p * a))%R -> (pp_num P (pp_compl P p') * b' = lam * (pp_num P (pp_compl P p) * b))%R ->
  vrepr t (m_hsize m) (fun h => @mkQ (RP P) (a * hgain m comps h)%R (b * hloss m comps h)%R) ->
  vrepr t' (m_hsize m') (fun h => @mkQ (RP P) (a' * hgain m' comps' h)%R (b' * hloss m' comps' h)%R) ->
  h_best (RP P) t m p = Ok x -> h_best (RP P) t' m' p' = Ok x' ->
  Permutation (map hp_h (hn_parts x')) (map s (map hp_h (hn_parts x))) /\
  gain (hn_quality x) = (a * Rsum (hgain m comps) (map hp_h (hn_parts x)))%R /\ loss (hn_quality x) = (b * Rsum (hloss m comps) (map hp_h (hn_parts x)))%R /\
  gain (hn_quality x') = (a' * (Rsum (hgain m comps) (map hp_h (hn_parts x)) + log2 (INR k) * all_data comps))%R /\
  loss (hn_quality x') = (b' * Rsum (hloss m comps) (map hp_h (hn_parts x)))%R.
Proof.
  intros P comps comps' a b a' b' lam p p' t t' x x' H2 H2' CL NN Es Hl Hp Ba Bb U U' E E'.
  destruct (h_total P m W H2 t _ _ p x U E) as (_ & G1 & L1). destruct (h_total P m' W' H2' t' _ _ p' x' U' E') as (_ & G1' & L1').
  destruct (h_best_ok (RP P) m W H2 t _ p U) as (x1 & T & G & E1 & Ep & _ & _ & HT). destruct (h_best_ok (RP P) m' W' H2' t' _ p' U') as (x1' & T' & G' & E1' & Ep' & _ & _ & HT').
  rewrite E in E1. rewrite E' in E1'. injection E1 as <-. injection E1' as <-. pose proof (root_node m W) as Hr.
  assert (Q : map hp_h (hn_parts x) = hsel m G (m_root m)) by (rewrite Ep, map_map; rewrite <- map_id; apply map_ext; reflexivity).
  assert (Q' : map hp_h (hn_parts x') = hsel m' G' (m_root m')) by (rewrite Ep', map_map; rewrite <- map_id; apply map_ext; reflexivity).
  pose proof (sel_same P comps comps' a b a' b' lam p p' CL NN Es Hl Hp Ba Bb T T' G G' HT HT' H2 H2' (m_root m) Hr) as Sl. rewrite c_root in Sl. rewrite <- Q, <- Q' in Sl.
  pose proof (hsel_cover P m W H2 _ p T G HT (m_root m) Hr) as [Nd Cv]. rewrite <- Q in Cv, Nd. split; [exact Sl|].
  rewrite G1, L1, G1', L1'. rewrite !(Rsum_perm _ _ _ _ Sl). remember (map hp_h (hn_parts x)) as l eqn:El. rewrite !Rsum_map, !Rsum_scal.
  rewrite (Rsum_ext _ (fun h => hgain m' comps' (s h)) (fun h => hgain m comps h + log2 (INR k) * hall m comps h)%R l) by (intros h Ih; apply (c_qual comps comps' CL NN Es h); apply Nd; exact Ih).
  rewrite (Rsum_ext _ (fun h => hloss m' comps' (s h)) (hloss m comps) l) by (intros h Ih; apply (c_qual comps comps' CL NN Es h); apply Nd; exact Ih).
  rewrite Rsum_plus, Rsum_scal, (hall_cover comps (m_root m)) by exact Cv. rewrite hall_root by exact CL. repeat split; reflexivity.
Qed.
End Cp.


Section Thm.
Context (k : nat) (s w : Z -> Z) (m m' : meta).
Hypothesis K0 : (0 < k)%nat.
Hypothesis Lc : leaf_copies k (m_leaves m) (m_parents m) (m_leaves m') (m_parents m') s w.

Theorem C101_table : forall P (v v' : hvalues (RP P)) comps comps' t t', hdata_ok v comps -> hdata_ok v' comps' -> Forall nonneg comps -> equal_shares k (m_leaves m') w comps comps' ->
  h_table (RP P) (Ok v) = Ok (Some t, m) -> h_table (RP P) (Ok v') = Ok (Some t', m') ->
  forall h, node (m_parents m) h -> exists q q', vget t h = Ok q /\ vget t' (s h) = Ok q' /\
    gain q' = (gain q + log2 (INR k) * Rsum (fun c => Rsum (elt 0 c) (leavesof (m_leaves m) (m_parents m) h)) comps)%R /\ loss q' = loss q.
Proof.
  intros P v v' comps comps' t t' D D' NN Es Et Et' h Nh. unfold h_table in Et, Et'. cbn [bind] in Et, Et'.
  destruct (h_compute_prf P v comps D) as (t1 & E & T). destruct (h_compute_prf P v' comps' D') as (t1' & E' & T').
  rewrite E in Et. rewrite E' in Et'. cbn [bind hq_table hq_meta] in Et, Et'. injection Et as -> Em. injection Et' as -> Em'. pose proof (hdata_len P v comps D) as CL.
  destruct D as (_ & W & _). destruct D' as (_ & W' & _). rewrite Em in *. rewrite Em' in *. pose proof (proj1 (wb_node_iff m W h) Nh) as Hh. pose proof (c_s k m m' s w K0 W W' Lc h Hh) as Hs. pose proof (wb_L m' W').
  eexists; eexists. split; [exact (proj2 T h Hh)|]. split; [apply (proj2 T'); lia|]. cbn [gain loss]. destruct (c_qual k m m' s w K0 W W' Lc comps comps' CL NN Es h Hh) as [-> ->].
  split; [|reflexivity]. do 2 f_equal. unfold hall. apply Rsum_ext. intros c _. unfold hcells, total. rewrite Rsum_map. reflexivity.
Qed.

Theorem C101_parts : forall P (v v' : hvalues (RP P)) comps comps' t t' p x x', hdata_ok v comps -> hdata_ok v' comps' -> Forall nonneg comps -> equal_shares k (m_leaves m') w comps comps' ->
  h_table (RP P) (Ok v) = Ok (Some t, m) -> h_table (RP P) (Ok v') = Ok (Some t', m') -> (0 <= pp_num P p)%R ->
  h_best (RP P) t m p = Ok x -> h_best (RP P) t' m' p = Ok x' ->
  Permutation (map hp_h (hn_parts x')) (map s (map hp_h (hn_parts x))) /\
  gain (hn_quality x') = (gain (hn_quality x) + log2 (INR k) * all_data comps)%R /\ loss (hn_quality x') = loss (hn_quality x).
Proof.
  intros P v v' comps comps' t t' p x x' D D' NN Es Et Et' Hp Ex Ex'. unfold h_table in Et, Et'. cbn [bind] in Et, Et'.
  destruct (h_compute_prf P v comps D) as (t1 & E & T). destruct (h_compute_prf P v' comps' D') as (t1' & E' & T').
  rewrite E in Et. rewrite E' in Et'. cbn [bind hq_table hq_meta] in Et, Et'. injection Et as -> Em. injection Et' as -> Em'. pose proof (hdata_len P v comps D) as CL.
  destruct D as (_ & W & H2 & _). destruct D' as (_ & W' & H2' & _). rewrite Em in *. rewrite Em' in *.
  assert (one : forall n (u : list (quality (RP P))) cs, htable u n cs -> vrepr u (m_hsize n) (fun h => @mkQ (RP P) (1 * hgain n cs h)%R (1 * hloss n cs h)%R)).
  { intros n u cs Tb. eapply vrepr_ext; [exact (htable_repr P n u cs Tb)|]. intros h _. cbn beta. f_equal; change (num (RP P)) with R; lra. }
  destruct (c_parts k m m' s w K0 W W' Lc P comps comps' 1 1 1 1 1 p p t t' x x' H2 H2' CL NN Es ltac:(lra) ltac:(lra) ltac:(lra) ltac:(lra) (one _ _ _ T) (one _ _ _ T') Ex Ex') as (K & G1 & L1 & G2 & L2).
  split; [exact K|]. change (num (RP P)) with R in *. rewrite G2, L2, G1, L1. split; lra.
Qed.

(** After normalize() (the root must be the last node, see C16): the parts at [p] are those of the finer hierarchy at p' = p G' / (p G' + (1 - p) G), where G and G'
    are the gains of the whole. *)
Theorem C101_normal : forall (v v' : hvalues RA) comps comps' t t' (p p' : R) x x', hdata_ok (P := Rpar) v comps -> hdata_ok (P := Rpar) v' comps' -> Forall nonneg comps -> equal_shares k (m_leaves m') w comps comps' ->
  h_ntable RA (Ok v) = Ok (Some t, m) -> h_ntable RA (Ok v') = Ok (Some t', m') -> m_root m = m_hsize m - 1 -> m_root m' = m_hsize m' - 1 ->
  let G := hgain m comps (m_root m) in let G' := hgain m' comps' (m_root m') in
  (0 < G)%R -> (0 < hloss m comps (m_root m))%R -> (0 < p < 1)%R -> p' = (p * G' / (p * G' + (1 - p) * G))%R ->
  h_best RA t m p = Ok x -> h_best RA t' m' p' = Ok x' ->
  (p <= p' < 1)%R /\ Permutation (map hp_h (hn_parts x')) (map s (map hp_h (hn_parts x))) /\ loss (hn_quality x') = loss (hn_quality x).
Proof.
  intros v v' comps comps' t t' p p' x x' D D' NN Es Et Et' Er Er' G G' PG PL Hp Ep Ex Ex'.
  assert (nt : forall (u : hvalues RA) cs n tb, hdata_ok (P := Rpar) u cs -> h_ntable RA (Ok u) = Ok (Some tb, n) -> m_root n = m_hsize n - 1 -> hv_meta u = n /\
    vrepr tb (m_hsize n) (fun h => @mkQ RA (/ hgain n cs (m_root n) * hgain n cs h)%R (/ hloss n cs (m_root n) * hloss n cs h)%R)).
  { intros u cs n tb Du E R1. change RA with (RP Rpar) in *. destruct (h_compute_prf Rpar u cs Du) as (t1 & E1 & T). unfold h_ntable in E. cbn [bind] in E. rewrite E1 in E. cbn [bind] in E.
    assert (En : hv_meta u = n).
    { destruct (hq_normalize (RP Rpar) (mkHQ (RP Rpar) (Some u) (Some t1) (hv_meta u))) as [o| |] eqn:En; try discriminate E. cbn [bind] in E. injection E as _ <-.
      unfold hq_normalize in En. cbn [hq_table hq_meta] in En. destruct (vget t1 (m_root (hv_meta u))); cbn [bind] in En; try discriminate En.
      match type of En with (let* _ := ?z in _) = _ => destruct z; cbn [bind] in En; try discriminate En end. injection En as <-. reflexivity. }
    split; [exact En|]. destruct Du as (_ & W & _). rewrite En in *. pose proof (root_node _ W) as Hr.
    destruct (C16_hier_root_last (RP Rpar) (Some u) t1 _ _ W R1 (proj1 T) (proj2 T _ Hr)) as (t2 & E2 & L2 & K). rewrite E2 in E. cbn [bind hq_table hq_meta] in E. injection E as <-.
    split; [exact L2|]. intros h Hh. rewrite (K h _ Hh (proj2 T h Hh)). cbn [gain loss]. f_equal. change (n_div (RP Rpar)) with Rdiv. unfold Rdiv. f_equal; change (num (RP Rpar)) with R; apply Rmult_comm. }
  destruct (nt v comps m t D Et Er) as [Em U]. destruct (nt v' comps' m' t' D' Et' Er') as [Em' U']. clear nt Et Et'. pose proof (hdata_len Rpar v comps D) as CL.
  destruct D as (_ & W & H2 & _). destruct D' as (_ & W' & H2' & _). change RA with (RP Rpar) in *. rewrite Em in W, H2, CL. rewrite Em' in W', H2'. pose proof (root_node m W) as Hr.
  destruct (c_qual k m m' s w K0 W W' Lc comps comps' CL NN Es (m_root m) Hr) as [EG EL]. rewrite (c_root k m m' s w K0 W W' Lc) in EG, EL. rewrite (hall_root m W comps CL) in EG. fold G in EG. fold G' in EG.
  assert (GG : (G <= G')%R).
  { rewrite EG. assert (0 <= log2 (INR k) * all_data comps)%R; [|lra]. apply Rmult_le_pos; [apply (log2_k k K0)|]. unfold all_data. apply Rsum_nonneg. intros r Ir. apply total_nonneg. exact (proj1 (Forall_forall _ _) NN r Ir). }
  assert (P1 : (0 < p * G')%R) by (apply Rmult_lt_0_compat; lra). assert (P2 : (0 < (1 - p) * G)%R) by (apply Rmult_lt_0_compat; lra).
  assert (Ec : (1 - p' = (1 - p) * G / (p * G' + (1 - p) * G))%R) by (rewrite Ep; field; lra).
  assert (Pp : (0 < p')%R) by (rewrite Ep; apply Rdiv_lt_0_compat; lra). assert (Pc : (0 < 1 - p')%R) by (rewrite Ec; apply Rdiv_lt_0_compat; lra).
  split.
  { split; [|lra]. apply (Rmult_le_reg_r (p * G' + (1 - p) * G)); [lra|]. rewrite Ep at 1. unfold Rdiv. rewrite (Rmult_assoc (p * G')), Rinv_l by lra.
    rewrite Rmult_1_r. assert (p * (1 - p) * G <= p * (1 - p) * G')%R by (apply Rmult_le_compat_l; [nra|lra]). nra. }
  fold G in U. fold G' in U'. rewrite EL in U'. set (Lw := hloss m comps (m_root m)) in *.
  destruct (c_parts k m m' s w K0 W W' Lc Rpar comps comps' (/ G) (/ Lw) (/ G') (/ Lw) (G / (p * G' + (1 - p) * G)) p p' t t' x x' H2 H2' CL NN Es) as (K & _ & L1 & _ & L2); try assumption.
  - apply Rdiv_lt_0_compat; lra.
  - cbn. left. apply Rmult_lt_0_compat; [lra|apply Rinv_0_lt_compat; lra].
  - cbn. rewrite Ep. field. repeat split; lra.
  - cbn. rewrite Ec. field. repeat split; lra.
  - split; [exact K|]. etransitivity; [exact L2|]. symmetry. exact L1.
Qed.
End Thm.
Print Assumptions C101_table.
Print Assumptions C101_parts.
Print Assumptions C101_normal.
