(** * Property C101, spatiotemporal aggregation: a finer space resolution that adds no information does not change the result. Exact arithmetic. *)
From Coq Require Import Reals Lra Lia List Permutation.
From Verif Require Import Base BaseFacts Arith Quality Utm UtmFacts UtmProofs Hierarchy HierarchyFacts HierarchyProofs SpecTree SpecParts SpecInfo SpecData SpecShape SpecResample SpecCopies SpecCopiesS Values Qualities Partitions Partitioners
  TreeFacts TreePath CoverFacts InfoFacts HFacts HQual HReal DQual LexR OInfo OReal DFacts DSel DReal DProofs DataFacts HDataProofs DDataProofs P_HierData P_Spatio P_SpatioData P_RNum ResampleFacts P_Copies.

Lemma copies_perm : forall (k : nat) (f : R -> R) l, Permutation (concat (repeat (map f l) k)) (flat_map (fun v => repeat (f v) k) l).
Proof.
  intros k f l. induction l as [|v l IH].
  - cbn. replace (concat (repeat (@nil R) k)) with (@nil R); [constructor|]. induction k; auto.
  - cbn [map flat_map]. rewrite <- IH. clear IH. generalize (map f l). intro r. induction k as [|n IHn]; [constructor|]. cbn [repeat concat app]. constructor. rewrite IHn.
    rewrite !app_assoc. apply Permutation_app_tail. apply Permutation_app_comm.
Qed.
Lemma flat_repeat : forall X Y (g : X -> list Y) k l, flat_map g (flat_map (fun x => repeat x k) l) = flat_map (fun x => concat (repeat (g x) k)) l.
Proof.
  intros X Y g k l. induction l as [|x l IH]; [reflexivity|]. cbn [flat_map]. rewrite flat_map_app, IH. f_equal. clear IH. induction k as [|n IHn]; [reflexivity|]. cbn [repeat flat_map concat]. rewrite IHn. reflexivity.
Qed.
Lemma slice_map : forall X Y (f : X -> Y) r i j, slice (map f r) i j = map f (slice r i j).
Proof. intros. unfold slice. rewrite skipn_map, firstn_map. reflexivity. Qed.
Lemma total_flat : forall X (f : X -> list R) l, total (flat_map f l) = Rsum (fun x => total (f x)) l.
Proof. intros X f l. induction l as [|x l IH]; [reflexivity|]. cbn [flat_map]. rewrite total_app, Rsum_cons, IH. reflexivity. Qed.

Section Cp.
Context (k : nat) (m m' : meta) (s w : Z -> Z) (n : Z).
Hypothesis K0 : (0 < k)%nat.
Hypothesis W : well_built m.
Hypothesis W' : well_built m'.
Hypothesis Hn : 1 <= n.
Hypothesis Lc : leaf_copies k (m_leaves m) (m_parents m) (m_leaves m') (m_parents m') s w.
Notation ps := (m_parents m).
Notation ps' := (m_parents m').
Notation L := (m_leaves m).
Notation L' := (m_leaves m').
Notation lv := (leavesof L ps).
Notation lv' := (leavesof L' ps').
Notation N := (n - 1).
Let cs := c_s k m m' s w K0 W W' Lc.

Lemma s_cells : forall c c', (forall y, leaf L' y -> elt [] c' y = map (fun v => v / INR k)%R (elt [] c (w y))) -> forall h i j, 0 <= h < m_hsize m ->
  Permutation (dcells m' c' (s h) i j) (refine k (dcells m c h i j)).
Proof.
  intros c c' Hc h i j Hh. unfold dcells. rewrite (HFacts.flat_map_ext_in _ _ _ (fun y => (fun x => map (fun v => v / INR k)%R (slice (elt [] c x) i j)) (w y))).
  2:{ intros y Iy. apply (lv_In m' W') in Iy. rewrite Hc by exact (proj1 Iy). apply slice_map. }
  replace (flat_map (fun y => map (fun v => (v / INR k)%R) (slice (elt [] c (w y)) i j)) (lv' (s h))) with (flat_map (fun x => map (fun v => (v / INR k)%R) (slice (elt [] c x) i j)) (map w (lv' (s h)))).
  2:{ rewrite !flat_map_concat_map, map_map. reflexivity. }
  rewrite (Permutation_flat_map _ (c_leaves k m m' s w K0 W W' Lc h Hh)). rewrite flat_repeat. induction (lv h) as [|x l IH]; [constructor|]. cbn [flat_map]. rewrite refine_app by exact K0.
  apply Permutation_app; [|exact IH]. apply (copies_perm k (fun v => v / INR k)%R).
Qed.

Definition dall (m : meta) (comps : list (list (list R))) (h i j : Z) : R := Rsum (fun c => total (dcells m c h i j)) comps.
Lemma s_qual : forall comps comps', Forall (comp_len m n) comps -> Forall (Forall nonneg) comps -> equal_shares_slices k L' w comps comps' -> forall h i j, 0 <= h < m_hsize m -> 0 <= i <= j -> j < n ->
  dgain m' comps' (s h) i j = (dgain m comps h i j + log2 (INR k) * dall m comps h i j)%R /\ dloss m' comps' (s h) i j = dloss m comps h i j.
Proof.
  intros comps comps' CL NN Es h i j Hh Hi Hj. unfold dgain, dloss, dall. induction Es as [|c c' l l' Hc Es IH]; [rewrite !Rsum_nil; split; lra|].
  inversion CL; inversion NN; subst. rewrite !Rsum_cons. destruct (IH ltac:(assumption) ltac:(assumption)) as [-> ->].
  rewrite (gain_perm _ _ (s_cells c c' Hc h i j Hh)), (loss_perm _ _ (s_cells c c' Hc h i j Hh)). pose proof (nonneg_dcells m W n c h i j ltac:(assumption) ltac:(assumption) Hi Hj) as Nn.
  rewrite refine_gain by auto. rewrite refine_loss by auto. split; lra.
Qed.
(** One copy alone: everything divided by [k]. *)
Lemma s_copy : forall comps comps', Forall (comp_len m n) comps -> Forall (Forall nonneg) comps -> equal_shares_slices k L' w comps comps' -> forall y i j, 0 <= y < L' -> 0 <= i <= j -> j < n ->
  dgain m' comps' y i j = (/ INR k * dgain m comps (w y) i j)%R /\ dloss m' comps' y i j = (/ INR k * dloss m comps (w y) i j)%R.
Proof.
  intros comps comps' CL NN Es y i j Hy Hi Hj. destruct (c_par k m m' s w K0 W Lc y Hy) as (Hw & Hw' & _).
  assert (Ik : (0 < / INR k)%R) by (apply Rinv_0_lt_compat, lt_0_INR; exact K0).
  unfold dgain, dloss. induction Es as [|c c' l l' Hc Es IH]; [rewrite !Rsum_nil; split; lra|].
  inversion CL; inversion NN; subst. rewrite !Rsum_cons. destruct (IH ltac:(assumption) ltac:(assumption)) as [-> ->].
  assert (E : dcells m' c' y i j = map (Rmult (/ INR k)) (dcells m c (w y) i j)).
  { unfold dcells. rewrite (lv_leaf m' W') by exact Hy. rewrite (lv_leaf m W) by exact Hw. cbn [flat_map]. rewrite !app_nil_r, Hc by exact Hy. rewrite slice_map. apply map_ext. intro v. unfold Rdiv. apply Rmult_comm. }
  pose proof (nonneg_dcells m W n c (w y) i j ltac:(assumption) ltac:(assumption) Hi Hj) as Nn.
  rewrite E, gain_scal, loss_scal by auto. split; lra.
Qed.

Lemma dall_cut : forall comps, Forall (comp_len m n) comps -> forall h i c j, 0 <= h < m_hsize m -> 0 <= i <= c -> c < j -> j < n -> dall m comps h i j = (dall m comps h i c + dall m comps h (c + 1) j)%R.
Proof.
  intros comps CL h i c j Hh Hi Hc Hj. unfold dall. rewrite <- Rsum_plus. apply Rsum_ext. intros d Id. pose proof (proj1 (Forall_forall _ _) CL d Id) as Cd. unfold dcells. rewrite !total_flat, <- Rsum_plus. apply Rsum_ext.
  intros x Ix. apply (lv_In m W) in Ix. destruct (comp_row m n d x Cd ltac:(tauto)) as [_ E] || destruct (comp_row m W n d x Cd ltac:(tauto)) as [_ E]. rewrite (slice_app _ _ i c j) by lia. apply total_app.
Qed.
Lemma dall_kids : forall comps h i j, L <= h < m_hsize m -> dall m comps h i j = Rsum (fun c => dall m comps c i j) (kids m h).
Proof.
  intros comps h i j Hh. unfold dall. rewrite (Rsum_swap _ _ (fun x c => total (dcells m c x i j))). apply Rsum_ext. intros c _. unfold dcells. rewrite total_flat.
  rewrite (Rsum_perm _ _ _ _ (leavesof_kids m W h Hh)). induction (kids m h) as [|y l IH]; [reflexivity|]. cbn [flat_map]. rewrite Rsum_app, Rsum_cons, IH. f_equal. symmetry. apply total_flat.
Qed.
Lemma dall_nonneg : forall comps, Forall (comp_len m n) comps -> Forall (Forall nonneg) comps -> forall h i j, 0 <= i <= j -> j < n -> (0 <= dall m comps h i j)%R.
Proof.
  intros comps CL NN h i j Hi Hj. unfold dall. apply Rsum_nonneg. intros c Ic. apply total_nonneg. apply (nonneg_dcells m W n); auto; [exact (proj1 (Forall_forall _ _) NN c Ic)|exact (proj1 (Forall_forall _ _) CL c Ic)].
Qed.

Lemma kids_copies : forall x, 0 <= x < L -> Permutation (kids m' (s x)) (filter (fun y => w y =? x) (zrange 0 L')).
Proof.
  intros x Hx. pose proof (wb_L m W) as V1. pose proof (wb_L m' W') as V2. apply NoDup_Permutation; [apply (kids_NoDup m' W')|apply NoDup_filter; apply NoDup_zrange|]. intro y. rewrite filter_In, In_zrange, Z.eqb_eq. split.
  - intro Iy. pose proof (c_kids_leaf k m m' s w K0 W W' Lc x Hx y Iy) as Hy. split; [lia|]. apply (kids_In m' W') in Iy. destruct Iy as [_ Py]. destruct (c_par k m m' s w K0 W Lc y Hy) as (Hw & Hw' & E). rewrite E in Py.
    apply (lc_inj _ _ _ _ _ _ _ Lc); auto; apply (wb_node_iff m W); lia.
  - intros [Hy E]. apply (kids_In m' W'). split; [lia|]. destruct (c_par k m m' s w K0 W Lc y ltac:(lia)) as (_ & _ & Q). rewrite Q, E. reflexivity.
Qed.

Section Dec.
Context (P : params) (comps comps' : list (list (list R))) (p : par (RP P)).
Notation A := (RP P).
Hypothesis K2 : (2 <= k)%nat.
Hypothesis CL : Forall (comp_len m n) comps.
Hypothesis NN : Forall (Forall nonneg) comps.
Hypothesis Es : equal_shares_slices k L' w comps comps'.
Hypothesis Hp : (0 <= pp_num P p)%R.
Notation q := (fun h i j => @mkQ A (dgain m comps h i j) (dloss m comps h i j)).
Notation q' := (fun h i j => @mkQ A (dgain m' comps' h i j) (dloss m' comps' h i j)).
Context (T T' : Z -> Z -> tradeoff A) (C C' : Z -> Z -> Z).
Hypothesis HT : forall h i, 0 <= h < m_hsize m -> 0 <= i < n -> (C h i, T h i) = dline A m n q p T h i.
Hypothesis HT' : forall h i, 0 <= h < m_hsize m' -> 0 <= i < n -> (C' h i, T' h i) = dline A m' n q' p T' h i.
Notation dcf1 := (dcf P m n q p T).
Notation dcf2 := (dcf P m' n q' p T').

Definition sh (h i j : Z) : tradeoff A := t_set A (@mkQ A (log2 (INR k) * dall m comps h i j)%R 0%R) p.
Lemma T_num : forall a b : tradeoff A, (t_value a - t_value b = 0)%R -> (gain (t_quality a) - gain (t_quality b) = 0)%R -> (loss (t_quality a) - loss (t_quality b) = 0)%R -> a = b.
Proof. intros a b H1 H2 H3. apply T_eq; change (num A) with R in *; lra. Qed.
Lemma sh_own : forall h i j, 0 <= h < m_hsize m -> 0 <= i <= j -> j < n -> t_set A (q' (s h) i j) p = t_add A (t_set A (q h i j) p) (sh h i j).
Proof.
  intros h i j Hh Hi Hj. destruct (s_qual comps comps' CL NN Es h i j Hh Hi Hj) as [E1 E2]. cbv beta. rewrite E1, E2. unfold sh.
  apply T_num; rewrite ?tadd_val, ?tadd_gn, ?tadd_ls, ?tset_val, ?tset_quality; cbn [gain loss]; change (num A) with R; ring.
Qed.
Lemma sh_cut : forall h i c j, 0 <= h < m_hsize m -> 0 <= i <= c -> c < j -> j < n -> sh h i j = t_add A (sh h i c) (sh h (c + 1) j).
Proof.
  intros h i c j Hh Hi Hc Hj. unfold sh. rewrite (dall_cut comps CL h i c j) by auto.
  apply T_num; rewrite ?tadd_val, ?tadd_gn, ?tadd_ls, ?tset_val, ?tset_quality; cbn [gain loss]; change (num A) with R; ring.
Qed.
Lemma sh_kids : forall h i j, L <= h < m_hsize m -> tsum (map (fun c => sh c i j) (kids m h)) = sh h i j.
Proof.
  intros h i j Hh. unfold sh. rewrite (dall_kids comps h i j Hh). induction (kids m h) as [|c l IH].
  - cbn [map]. rewrite Rsum_nil. apply T_num; cbn [tsum fold_right]; rewrite ?tzero_val, ?tzero_gn, ?tzero_ls, ?tset_val, ?tset_quality; cbn [gain loss]; change (num A) with R; ring.
  - cbn [map]. change (tsum (?a :: ?r)) with (t_add A a (tsum r)). rewrite IH, Rsum_cons. 
    apply T_num; rewrite ?tadd_val, ?tadd_gn, ?tadd_ls, ?tset_val, ?tset_quality; cbn [gain loss]; change (num A) with R; ring.
Qed.
Lemma tsum_add : forall (f g : Z -> tradeoff A) l, tsum (map (fun c => t_add A (f c) (g c)) l) = t_add A (tsum (map f l)) (tsum (map g l)).
Proof.
  intros f g l. induction l as [|c l IH]; [symmetry; apply tadd_0_l|]. cbn [map]. change (t_add A (t_add A (f c) (g c)) (tsum (map (fun c => t_add A (f c) (g c)) l)) = t_add A (t_add A (f c) (tsum (map f l))) (t_add A (g c) (tsum (map g l)))).
  rewrite IH. apply T_num; rewrite ?tadd_val, ?tadd_gn, ?tadd_ls; change (num A) with R; ring.
Qed.

(** Everything divided by [k]. *)
Definition part (a : tradeoff A) : tradeoff A := @mkT A (@mkQ A (/ INR k * gain (t_quality a))%R (/ INR k * loss (t_quality a))%R) (/ INR k * t_value a)%R.
Lemma Ik : (0 < / INR k)%R. Proof. apply Rinv_0_lt_compat, lt_0_INR. exact K0. Qed.
Lemma part_le : forall a b, tle a b -> tle (part a) (part b).
Proof.
  intros a b. rewrite !tle_iff. unfold part. cbn [t_value t_quality gain loss]. change (num A) with R. pose proof Ik as I.
  assert (M : forall x y, (x < y -> / INR k * x < / INR k * y)%R) by (intros; apply Rmult_lt_compat_l; auto).
  assert (M2 : forall x y, (x <= y -> / INR k * x <= / INR k * y)%R) by (intros; apply Rmult_le_compat_l; lra).
  intros [H|[H1 [H2|[H2 H3]]]]; [left; apply M; exact H|right; rewrite H1; split; [reflexivity|left; apply M; exact H2]|right; rewrite H1, H2; split; [reflexivity|right; split; [reflexivity|apply M2; exact H3]]].
Qed.
Lemma part_add : forall a b, t_add A (part a) (part b) = part (t_add A a b).
Proof. intros a b. apply T_num; unfold part; cbn [t_add t_value t_quality gain loss]; change (num A) with R; cbn; ring. Qed.
Lemma part_sum : forall a (l : list Z), Z.of_nat (length l) = Z.of_nat k -> tsum (map (fun _ => part a) l) = a.
Proof.
  intros a l Hl. assert (G : forall l : list Z, t_value (tsum (map (fun _ => part a) l)) = (INR (length l) * (/ INR k * t_value a))%R /\
    gain (t_quality (tsum (map (fun _ => part a) l))) = (INR (length l) * (/ INR k * gain (t_quality a)))%R /\ loss (t_quality (tsum (map (fun _ => part a) l))) = (INR (length l) * (/ INR k * loss (t_quality a)))%R).
  { clear l Hl. induction l as [|y l (I1 & I2 & I3)]; [cbn; change (num A) with R; repeat split; ring|]. cbn [map]. change (tsum (?x :: ?r)) with (t_add A x (tsum r)). rewrite tadd_val, tadd_gn, tadd_ls, I1, I2, I3.
    change (length (y :: l)) with (S (length l)). rewrite S_INR. unfold part. cbn [t_value t_quality gain loss]. change (num A) with R. repeat split; ring. }
  destruct (G l) as (G1 & G2 & G3). pose proof (lt_0_INR k K0) as Kp. replace (length l) with k in * by lia. change (num A) with R in *. apply T_num; [rewrite G1|rewrite G2|rewrite G3]; change (num A) with R; field; lra.
Qed.

(** Copies: the same decisions, values divided by [k]. *)
Lemma copy_T : forall y, 0 <= y < L' -> forall i, 0 <= i < n -> T' y i = part (T (w y) i).
Proof.
  intros y Hy i Hi. pose proof (wb_L m W) as V1. pose proof (wb_L m' W') as V2. destruct (c_par k m m' s w K0 W Lc y Hy) as (Hw & Hw' & _).
  assert (G : forall d i, 0 <= i < n -> n - i <= Z.of_nat d -> T' y i = part (T (w y) i)); [|apply (G (Z.to_nat n) i Hi); lia].
  clear i Hi. induction d as [|d IH]; intros i Hi Hd; [lia|].
  destruct (dline_first P m n q Hn p C T HT (w y) i ltac:(lia) Hi) as (V & E & K). destruct (dline_first P m' n q' Hn p C' T' HT' y i ltac:(lia) Hi) as (V' & E' & K').
  assert (Eq : forall c, i <= c < n -> dcf2 y i c = part (dcf1 (w y) i c)).
  { intros c Hc. unfold dcf. destruct (Z.eqb_spec c (-1)); [lia|].
    assert (O : forall j, i <= j < n -> t_set A (q' y i j) p = part (t_set A (q (w y) i j) p)).
    { intros j Hj. destruct (s_copy comps comps' CL NN Es y i j Hy ltac:(lia) ltac:(lia)) as [Q1 Q2]. cbv beta. rewrite Q1, Q2. apply T_num; unfold part; rewrite ?tset_quality; cbn [t_value t_quality gain loss]; rewrite ?tset_val, ?tset_quality; cbn [gain loss]; change (num A) with R; ring. }
    destruct (Z.eqb_spec c N) as [D|D]; [apply O; lia|]. rewrite O by lia. rewrite IH by lia. apply part_add. }
  apply tle_antisym.
  - rewrite E'. destruct V' as [V'|V']; [lia|]. rewrite Eq by exact V'. apply part_le. apply K. right. exact V'.
  - rewrite E. destruct V as [V|V]; [lia|]. rewrite <- Eq by exact V. apply K'. right. exact V.
Qed.

Lemma pick_same : forall h i g, 0 <= h < m_hsize m -> 0 <= g < m_hsize m' -> 0 <= i < n -> (forall c, vcut m n h i c -> vcut m' n g i c) -> vcut m n h i (C' g i) ->
  (forall c, vcut m n h i c -> dcf2 g i c = t_add A (dcf1 h i c) (sh h i N)) -> C' g i = C h i /\ T' g i = t_add A (T h i) (sh h i N).
Proof.
  intros h i g Hh Hg Hi Vs Vc Eq. destruct (dline_first P m n q Hn p C T HT h i Hh Hi) as (V & E & K). destruct (dline_first P m' n q' Hn p C' T' HT' g i Hg Hi) as (V' & E' & K').
  assert (X : C' g i = C h i); [|split; [exact X|rewrite E', X, Eq by exact V; rewrite <- E; reflexivity]].
  apply (rank_inj m n Hn h i); [lia|exact Vc|exact V|]. destruct (Z.lt_trichotomy (rank n (C' g i)) (rank n (C h i))) as [Lt|[Lt|Lt]]; [exfalso|exact Lt|exfalso].
  - destruct (K _ Vc) as [_ S]. apply S in Lt. apply (tadd_lt_l P _ _ (sh h i N)) in Lt. destruct (K' _ (Vs _ V)) as [B _]. rewrite E', (Eq _ V), (Eq _ Vc), <- E in B. apply B. exact Lt.
  - destruct (K' _ (Vs _ V)) as [_ S]. apply S in Lt. rewrite E', (Eq _ V), (Eq _ Vc), <- E in Lt. destruct (K _ Vc) as [B _]. apply (tlt_irrefl P (t_add A (T h i) (sh h i N))). eapply tlt_le_trans; [exact Lt|]. apply tadd_le; [exact B|apply tle_refl].
Qed.

(** A leaf without data from [i] on. *)
Lemma no_data_q : forall h i j, 0 <= i <= j -> j < n -> dall m comps h i j = 0%R -> dgain m comps h i j = 0%R /\ dloss m comps h i j = 0%R.
Proof.
  intros h i j Hi Hj Z0. assert (G : forall c, In c comps -> total (dcells m c h i j) = 0%R).
  { intros c Ic. apply (Rsum_zero_inv _ (fun c => total (dcells m c h i j)) comps); [|exact Z0|exact Ic]. intros d Id. apply total_nonneg. apply (nonneg_dcells m W n); auto; [exact (proj1 (Forall_forall _ _) NN d Id)|exact (proj1 (Forall_forall _ _) CL d Id)]. }
  assert (Gg : forall c, In c comps -> gain_of (dcells m c h i j) = 0%R) by (intros c Ic; unfold gain_of; destruct (Rlt_dec 0 (total (dcells m c h i j))) as [Y|Y]; [rewrite (G c Ic) in Y; lra|reflexivity]).
  split; apply Rsum_zero; intros c Ic; [apply Gg; exact Ic|]. unfold loss_of. rewrite (G c Ic), (Gg c Ic). lra.
Qed.
Lemma no_data_T : forall h, 0 <= h < L -> forall i, 0 <= i < n -> dall m comps h i N = 0%R -> T h i = t_zero A.
Proof.
  intros h Hh. pose proof (wb_L m W) as V1. assert (G : forall d i, 0 <= i < n -> n - i <= Z.of_nat d -> dall m comps h i N = 0%R -> T h i = t_zero A); [|intros i Hi; apply (G (Z.to_nat n) i Hi); lia].
  assert (O : forall i j, 0 <= i <= j -> j < n -> dall m comps h i j = 0%R -> t_set A (q h i j) p = t_zero A).
  { intros i j Hi Hj Z0. destruct (no_data_q h i j Hi Hj Z0) as [E1 E2]. cbv beta. rewrite E1, E2. apply T_num; rewrite ?tzero_val, ?tzero_gn, ?tzero_ls, ?tset_val, ?tset_quality; cbn [gain loss]; change (num A) with R; ring. }
  induction d as [|d IH]; intros i Hi Hd Z0; [lia|]. destruct (dline_first P m n q Hn p C T HT h i ltac:(lia) Hi) as (V & E & _). rewrite E. destruct V as [V|V]; [lia|]. unfold dcf. destruct (Z.eqb_spec (C h i) (-1)); [lia|].
  destruct (Z.eqb_spec (C h i) N) as [D|D]; [apply O; [lia|lia|exact Z0]|]. pose proof (dall_cut comps CL h i (C h i) N ltac:(lia) ltac:(lia) ltac:(lia) ltac:(lia)) as Q.
  pose proof (dall_nonneg comps CL NN h i (C h i) ltac:(lia) ltac:(lia)). pose proof (dall_nonneg comps CL NN h (C h i + 1) N ltac:(lia) ltac:(lia)).
  rewrite O by (try lia; lra). rewrite IH by (try lia; lra). apply tadd_0_l.
Qed.

Lemma dec_same_s : forall h i, 0 <= h < m_hsize m -> 0 <= i < n -> C' (s h) i = C h i /\ T' (s h) i = t_add A (T h i) (sh h i N).
Proof.
  pose proof (wb_L m W) as V1. pose proof (wb_L m' W') as V2. apply (dind m W n Hn). intros h i Hh Hi IHk IHt. pose proof (cs h Hh) as Hs.
  assert (Eq : forall c, i <= c < n -> dcf2 (s h) i c = t_add A (dcf1 h i c) (sh h i N)).
  { intros c Hc. unfold dcf. destruct (Z.eqb_spec c (-1)); [lia|]. destruct (Z.eqb_spec c N) as [D|D]; [apply sh_own; lia|]. rewrite sh_own by lia. rewrite (proj2 (IHt (c + 1) ltac:(lia))). rewrite (sh_cut h i c N) by lia.
    apply T_num; rewrite ?tadd_val, ?tadd_gn, ?tadd_ls; change (num A) with R; ring. }
  destruct (Z_lt_le_dec h L) as [Cl|Cl].
  - apply pick_same; try lia.
    + unfold vcut. intros c [Q|Q]; [lia|right; exact Q].
    + destruct (dline_first P m n q Hn p C T HT h i Hh Hi) as (V & E & K). destruct (dline_first P m' n q' Hn p C' T' HT' (s h) i ltac:(lia) Hi) as (V' & E' & K').
      destruct V' as [[V' _]|V']; [exfalso|right; exact V'].
      assert (Ch : dcf2 (s h) i (-1) = T h i).
      { unfold dcf. cbn [Z.eqb]. rewrite (csum_tsum' P). rewrite (map_ext_in _ (fun _ => part (T h i))).
        - apply part_sum. rewrite (Permutation_length (kids_copies h ltac:(lia))). exact (lc_count _ _ _ _ _ _ _ Lc h ltac:(unfold leaf; lia)).
        - intros y Iy. rewrite (copy_T y) by (try exact Hi; apply (c_kids_leaf k m m' s w K0 W W' Lc h ltac:(lia) y Iy)).
          apply (Permutation_in y (kids_copies h ltac:(lia))) in Iy. apply filter_In in Iy. destruct Iy as [_ Iy]. apply Z.eqb_eq in Iy. rewrite Iy. reflexivity. }
      rewrite V', Ch in E'. destruct V as [V|V]; [lia|]. pose proof (dall_nonneg comps CL NN h i N ltac:(lia) ltac:(lia)) as Dn.
      assert (Lk : (0 < log2 (INR k))%R).
      { unfold log2, Rdiv. apply Rmult_lt_0_compat; [|apply Rinv_0_lt_compat; exact ln2_pos]. rewrite <- ln_1. apply ln_increasing; [lra|]. change 1%R with (INR 1). apply lt_INR. lia. }
      destruct (Rle_lt_or_eq_dec _ _ Dn) as [Dp|D0].
      * destruct (K' (C h i) ltac:(right; exact V)) as [B _]. rewrite Eq, <- E, E' in B by exact V. apply B. unfold tlt. rewrite tadd_val, tadd_gn, tadd_ls. unfold sh. rewrite tset_val, tset_quality. cbn [gain loss]. change (num A) with R.
        assert (X : (0 < log2 (INR k) * dall m comps h i N)%R) by (apply Rmult_lt_0_compat; assumption).
        assert (Y : (0 <= pp_num P p * (log2 (INR k) * dall m comps h i N))%R) by (apply Rmult_le_pos; lra). rewrite Rmult_0_r. lra.
      * destruct (K' N ltac:(right; lia)) as [_ B]. rewrite Eq, E' in B by lia. unfold rank in B. rewrite Z.eqb_refl in B. rewrite V' in B. destruct (Z.eqb_spec (-1) N); [lia|]. specialize (B ltac:(lia)).
        assert (Ez : dcf1 h i N = t_zero A /\ sh h i N = t_zero A).
        { unfold dcf. destruct (Z.eqb_spec N (-1)); [lia|]. rewrite Z.eqb_refl. unfold sh. destruct (no_data_q h i N ltac:(lia) ltac:(lia) (eq_sym D0)) as [E1 E2]. rewrite E1, E2, <- D0.
          split; apply T_num; rewrite ?tzero_val, ?tzero_gn, ?tzero_ls, ?tset_val, ?tset_quality; cbn [gain loss]; change (num A) with R; ring. }
        destruct Ez as [Z1 Z2]. rewrite Z1, Z2, (no_data_T h ltac:(lia) i Hi (eq_sym D0)), tadd_0_l in B. exact (tlt_irrefl P _ B).
    + unfold vcut. intros c [Q|Q]; [lia|apply Eq; exact Q].
  - apply pick_same; try lia.
    + unfold vcut. intros c [[Q _]|Q]; [left; split; [exact Q|lia]|right; exact Q].
    + destruct (dline_first P m' n q' Hn p C' T' HT' (s h) i ltac:(lia) Hi) as ([[Q _]|Q] & _); [left; split; [exact Q|lia]|right; exact Q].
    + unfold vcut. intros c [[-> _]|Q]; [|apply Eq; exact Q]. unfold dcf. cbn [Z.eqb]. rewrite !(csum_tsum' P). rewrite (tsum_perm P _ _ (Permutation_map (fun c => T' c i) (c_kids k m m' s w K0 W W' Lc h ltac:(lia)))). rewrite map_map.
      rewrite (map_ext_in _ (fun c => t_add A (T c i) (sh c i N))) by (intros c Ic; apply (IHk c Ic)). rewrite tsum_add. rewrite (sh_kids h i N) by lia. reflexivity.
Qed.

Lemma sel_same_s : forall h i, 0 <= h < m_hsize m -> 0 <= i < n -> Permutation (dsel m' n C' (s h) i) (map (renamed s) (dsel m n C h i)).
Proof.
  pose proof (wb_L m W) as V1. pose proof (wb_L m' W') as V2. apply (dind m W n Hn (fun h i => Permutation (dsel m' n C' (s h) i) (map (renamed s) (dsel m n C h i)))). intros h i Hh Hi IHk IHt. pose proof (cs h Hh) as Hs.
  pose proof (dOK P m n q Hn p C T HT) as OK. pose proof (dOK P m' n q' Hn p C' T' HT') as OK'.
  rewrite (dsel_eq m' W' n Hn C' OK' (s h) i) by lia. rewrite (dsel_eq m W n Hn C OK h i Hh Hi). rewrite (proj1 (dec_same_s h i Hh Hi)). destruct (OK h i Hh Hi) as [[Q Q2]|Q].
  - rewrite Q. change (-1 =? -1) with true. cbv iota. rewrite (Permutation_flat_map _ (c_kids k m m' s w K0 W W' Lc h ltac:(lia))). induction (kids m h) as [|c l IHl]; [constructor|]. cbn [map flat_map]. rewrite map_app. apply Permutation_app; [apply IHk; left; reflexivity|apply IHl; intros; apply IHk; right; assumption].
  - destruct (Z.eqb_spec (C h i) (-1)); [lia|]. cbn [map renamed]. constructor. destruct (Z.ltb_spec (C h i) N); [apply IHt; lia|constructor].
Qed.
End Dec.
Lemma dall_cover : forall comps l, Forall (comp_len m n) comps -> rect_cover L ps n l -> Rsum (un3 (dall m comps)) l = dall m comps (m_root m) 0 N.
Proof.
  clear - W Hn. intros comps l CL C. transitivity (Rsum (fun r : Z * Z * Z => Rsum (fun c => total (let '(h, i, j) := r in dcells m c h i j)) comps) l).
  { apply Rsum_ext. intros [[h i] j] _. reflexivity. }
  rewrite Rsum_swap. unfold dall. apply Rsum_ext. intros c Hc.
  pose proof (dcells_split m W n c (m_root m) 0 N l (proj1 (Forall_forall _ _) CL c Hc) ltac:(lia) ltac:(lia)
    (rect_split_perm m W _ _ _ l (rect_cover_split m W n l C)) ltac:(intros y a b Hy; destruct (proj1 (proj2 C) y a b Hy) as (_ & K1 & K2); lia)) as Pm.
  unfold total. rewrite (Rsum_perm _ _ _ _ Pm), Rsum_concat, Rsum_map. reflexivity.
Qed.
Lemma dall_root : forall comps, Forall (comp_len m n) comps -> dall m comps (m_root m) 0 N = Rsum all_data comps.
Proof.
  clear - W Hn. intros comps CL. unfold dall. apply Rsum_ext. intros c Ic. rewrite (rect_root m n c W Hn (proj1 (Forall_forall _ _) CL c Ic)). unfold all_data, total. apply Rsum_concat.
Qed.
End Cp.

Section Thm.
Context (k : nat) (s w : Z -> Z) (m m' : meta).
Hypothesis Lc : leaf_copies k (m_leaves m) (m_parents m) (m_leaves m') (m_parents m') s w.

Theorem C101_spatio_table : forall P (v v' : dvalues (RP P)) comps comps' t t', (0 < k)%nat -> ddata_ok v comps -> ddata_ok v' comps' -> dv_osize v' = dv_osize v ->
  Forall (Forall nonneg) comps -> equal_shares_slices k (m_leaves m') w comps comps' ->
  d_table (RP P) (Ok v) = Ok (Some t, m) -> d_table (RP P) (Ok v') = Ok (Some t', m') ->
  forall h i j, node (m_parents m) h -> 0 <= i <= j -> j < dv_osize v -> exists q q', mm_get t h i j = Ok q /\ mm_get t' (s h) i j = Ok q' /\
    gain q' = (gain q + log2 (INR k) * Rsum (fun c => Rsum (fun x => total (slice (elt [] c x) i j)) (leavesof (m_leaves m) (m_parents m) h)) comps)%R /\ loss q' = loss q.
Proof.
  intros P v v' comps comps' t t' K0 D D' Eo NN Es Et Et'. unfold d_table in Et, Et'. cbn [bind] in Et, Et'.
  destruct (d_compute_prf P v comps D) as (t1 & E & T). destruct (d_compute_prf P v' comps' D') as (t1' & E' & T').
  rewrite E in Et. rewrite E' in Et'. cbn [bind dq_table dq_meta] in Et, Et'. injection Et as -> Em. injection Et' as -> Em'. pose proof (ddata_comp P v comps D) as CL.
  destruct D as (_ & Hn & W & _). destruct D' as (_ & Hn' & W' & _). rewrite Eo in *. rewrite Em in *. rewrite Em' in *. intros h i j Nh Hi Hj.
  pose proof (proj1 (wb_node_iff m W h) Nh) as Hh. pose proof (c_s k m m' s w K0 W W' Lc h Hh) as Hs. pose proof (wb_L m' W').
  pose proof (dtable_repr P m _ Hn t comps T) as U. pose proof (dtable_repr P m' _ Hn' t' comps' T') as U'.
  eexists; eexists. split; [apply (mrepr_get _ _ _ _ _ h i j U); lia|]. split; [apply (mrepr_get _ _ _ _ _ (s h) i j U'); lia|].
  cbn [gain loss]. destruct (s_qual k m m' s w (dv_osize v) K0 W W' Lc comps comps' CL NN Es h i j Hh Hi Hj) as [-> ->].
  split; [|reflexivity]. do 2 f_equal. unfold dall. apply Rsum_ext. intros c _. unfold dcells. apply total_flat.
Qed.

Theorem C101_spatio_parts : forall P (v v' : dvalues (RP P)) comps comps' t t' p x x', (2 <= k)%nat -> ddata_ok v comps -> ddata_ok v' comps' -> dv_osize v' = dv_osize v ->
  Forall (Forall nonneg) comps -> equal_shares_slices k (m_leaves m') w comps comps' ->
  d_table (RP P) (Ok v) = Ok (Some t, m) -> d_table (RP P) (Ok v') = Ok (Some t', m') -> (0 <= pp_num P p)%R ->
  d_best (RP P) t m p = Ok x -> d_best (RP P) t' m' p = Ok x' ->
  Permutation (map rect (dn_parts x')) (map (renamed s) (map rect (dn_parts x))) /\
  gain (dn_quality x') = (gain (dn_quality x) + log2 (INR k) * Rsum all_data comps)%R /\ loss (dn_quality x') = loss (dn_quality x).
Proof.
  intros P v v' comps comps' t t' p x x' K2 D D' Eo NN Es Et Et' Hp Ex Ex'. assert (K0 : (0 < k)%nat) by lia. unfold d_table in Et, Et'. cbn [bind] in Et, Et'.
  destruct (d_compute_prf P v comps D) as (t1 & E & T). destruct (d_compute_prf P v' comps' D') as (t1' & E' & T').
  rewrite E in Et. rewrite E' in Et'. cbn [bind dq_table dq_meta] in Et, Et'. injection Et as -> Em. injection Et' as -> Em'. pose proof (ddata_comp P v comps D) as CL.
  destruct D as (_ & Hn & W & _). destruct D' as (_ & Hn' & W' & _). rewrite Eo in *. rewrite Em in *. rewrite Em' in *. set (n := dv_osize v) in *.
  pose proof (dtable_repr P m _ Hn t comps T) as U. pose proof (dtable_repr P m' _ Hn t' comps' T') as U'. pose proof (root_node m W) as Hr.
  destruct (d_total P m W n Hn _ _ t p x U Ex) as (Cv & G1 & L1). destruct (d_total P m' W' n Hn _ _ t' p x' U' Ex') as (_ & G2 & L2).
  destruct (d_best_ok (RP P) m W t n _ p U Hn) as (x1 & C & Tr & E1 & OK & Ep & _ & _ & HT).
  destruct (d_best_ok (RP P) m' W' t' n _ p U' Hn) as (x1' & C' & Tr' & E1' & OK' & Ep' & _ & _ & HT').
  rewrite Ex in E1. rewrite Ex' in E1'. injection E1 as <-. injection E1' as <-.
  pose proof (sel_same_s k m m' s w n K0 W W' ltac:(lia) Lc P comps comps' p K2 CL NN Es Hp Tr Tr' C C' HT HT' (m_root m) 0 Hr ltac:(lia)) as Sl. rewrite (c_root k m m' s w K0 W W' Lc) in Sl.
  assert (Q : map rect (dn_parts x) = dsel m n C (m_root m) 0) by (rewrite Ep; apply rect_mkdpart). assert (Q' : map rect (dn_parts x') = dsel m' n C' (m_root m') 0) by (rewrite Ep'; apply rect_mkdpart).
  rewrite <- Q, <- Q' in Sl. split; [exact Sl|]. rewrite G1, L1, G2, L2. rewrite !(Rsum_perm _ _ _ _ Sl). remember (map rect (dn_parts x)) as l eqn:El. rewrite !Rsum_map.
  rewrite (Rsum_ext _ (fun r => un3 (dgain m' comps') (renamed s r)) (fun r => un3 (dgain m comps) r + log2 (INR k) * un3 (dall m comps) r)%R l).
  2:{ intros [[h i] j] I. cbn [un3 renamed]. destruct (proj1 (proj2 Cv) h i j I) as (A1 & A2 & A3). apply (s_qual k m m' s w n K0 W W' Lc comps comps' CL NN Es h i j); [apply (wb_node_iff m W); exact A1|exact A2|exact A3]. }
  rewrite (Rsum_ext _ (fun r => un3 (dloss m' comps') (renamed s r)) (un3 (dloss m comps)) l).
  2:{ intros [[h i] j] I. cbn [un3 renamed]. destruct (proj1 (proj2 Cv) h i j I) as (A1 & A2 & A3). apply (s_qual k m m' s w n K0 W W' Lc comps comps' CL NN Es h i j); [apply (wb_node_iff m W); exact A1|exact A2|exact A3]. }
  rewrite Rsum_plus, Rsum_scal, (dall_cover m n W ltac:(lia) comps l CL Cv), (dall_root m n W ltac:(lia) comps CL). split; reflexivity.
Qed.
End Thm.
Print Assumptions C101_spatio_table.
Print Assumptions C101_spatio_parts.
