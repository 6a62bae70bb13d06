(** * Property C102, the best value: a finer time resolution that adds no information does not allow a better spatiotemporal partition. Exact arithmetic.

    Every partition of the finer axis can be rounded to the coarse one in [k] ways (boundary b becomes (b + o) / k, for o = 0 .. k-1); the mean value of the
    rounded partitions is at least the value of the fine one, because the gain and the opposite of the loss of a part are convex. *)
From Coq Require Import Reals Lra Lia List Permutation.
From Verif Require Import Base BaseFacts Arith Quality Utm UtmFacts UtmProofs Hierarchy HierarchyFacts HierarchyProofs SpecTree SpecParts SpecInfo SpecData SpecShape SpecResample SpecFinerS Values Qualities Partitions Partitioners
  TreeFacts TreePath CoverFacts InfoFacts HFacts DQual LexR OInfo DFacts DSel DReal DProofs DataFacts HDataProofs DDataProofs P_HierData P_Spatio P_SpatioData P_RNum KeepSlices ResampleFacts P_Copies P_CopiesSpatio P_FinerSpatio.

Lemma gain_chain : forall ll, nonneg (concat ll) -> gain_of (concat ll) = (gain_of (map total ll) + Rsum gain_of ll)%R.
Proof.
  intros ll N. pose proof N as N'. rewrite nonneg_concat in N'. assert (Nt : nonneg (map total ll)).
  { apply Forall_map. eapply Forall_impl; [|exact N']. intros l Hl. apply total_nonneg. exact Hl. }
  rewrite (gain_of_xl _ N), (gain_of_xl _ Nt). rewrite (Rsum_ext _ gain_of (fun l => / ln 2 * (xl (total l) + (-1) * Rsum xl l))%R ll).
  2:{ intros l Il. rewrite gain_of_xl by exact (proj1 (Forall_forall _ _) N' l Il). unfold Rdiv. lra. }
  rewrite Rsum_scal, Rsum_plus, Rsum_scal, Rsum_concat, Rsum_map. replace (total (map total ll)) with (total (concat ll)) by (unfold total; rewrite Rsum_concat, !Rsum_map; reflexivity).
  unfold Rdiv. ring.
Qed.
Lemma gain_at_most : forall l, nonneg l -> l <> [] -> (gain_of l <= total l * log2 (IZR (vlen l)))%R.
Proof.
  intros l N Ne. pose proof (loss_of_nonneg l N) as K. unfold loss_of in K. lra.
Qed.

Lemma flat_map_swap : forall X Y Z0 (f : X -> Y -> list Z0) l l', Permutation (flat_map (fun x => flat_map (f x) l') l) (flat_map (fun y => flat_map (fun x => f x y) l) l').
Proof.
  intros X Y Z0 f l l'. induction l as [|x l IH].
  - cbn. induction l'; auto.
  - cbn [flat_map]. rewrite IH. clear IH. induction l' as [|y l' IH]; [constructor|]. cbn [flat_map]. rewrite <- IH. rewrite !app_assoc. apply Permutation_app_tail. rewrite <- !app_assoc. apply Permutation_app_head. apply Permutation_app_comm.
Qed.
Lemma flat_map_one : forall X Y (g g' : X -> list Y) v x0 l, NoDup l -> In x0 l -> g' x0 = g x0 ++ [v] -> (forall x, In x l -> x <> x0 -> g' x = g x) ->
  Permutation (flat_map g' l) (flat_map g l ++ [v]).
Proof.
  intros X Y g g' v x0 l ND I E O. induction l as [|x l IH]; [destruct I|]. inversion ND as [|? ? N1 N2]; subst. cbn [flat_map]. destruct I as [->|I].
  - rewrite E. rewrite (HFacts.flat_map_ext_in _ _ g' g l) by (intros y Iy; apply O; [right; exact Iy|intros ->; contradiction]).
    rewrite <- !app_assoc. apply Permutation_app_head. apply Permutation_app_comm.
  - rewrite (O x (or_introl eq_refl)) by (intros ->; contradiction). rewrite <- app_assoc. apply Permutation_app_head. apply IH; auto. intros y Iy. apply O. right. exact Iy.
Qed.

Section F.
Context (k : nat) (m : meta) (n : Z).
Hypothesis K0 : (0 < k)%nat.
Hypothesis W : well_built m.
Hypothesis Hn : 1 <= n.
Notation L := (m_leaves m).
Notation ps := (m_parents m).
Notation M := (Z.of_nat k).

(** Boundary [b] of the finer axis (the first slice of a part, or the one after its last) rounded to the coarse axis. *)
Definition rd (o b : Z) : Z := (b + o) / M.
Definition rdrect (o : Z) (r : Z * Z * Z) : Z * Z * Z := let '(h, i, j) := r in (h, rd o i, rd o (j + 1) - 1).

Lemma rd_mono : forall o b b', b <= b' -> rd o b <= rd o b'.
Proof. intros o b b' H. apply Z.div_le_mono; lia. Qed.
Lemma rd_range : forall o b, 0 <= o < M -> 0 <= b <= n * M -> 0 <= rd o b <= n.
Proof.
  intros o b Ho Hb. unfold rd. split; [apply Z.div_pos; lia|]. assert ((b + o) / M < n + 1); [|lia]. apply Z.div_lt_upper_bound; nia.
Qed.
(** The slice that decides: coarse slice [s] of rounding [o] is fine slice (s + 1) k - 1 - o. *)
Definition smp (o s : Z) : Z := (s + 1) * M - 1 - o.
Lemma rd_le : forall o b s, 0 <= o < M -> (rd o b <= s <-> b <= smp o s).
Proof.
  intros o b s Ho. unfold rd, smp. split; intro H.
  - pose proof (Z.div_mod (b + o) M ltac:(lia)). pose proof (Z.mod_pos_bound (b + o) M ltac:(lia)). nia.
  - assert ((b + o) / M < s + 1); [|lia]. apply Z.div_lt_upper_bound; lia.
Qed.
Lemma rd_gt : forall o b s, 0 <= o < M -> (s <= rd o (b + 1) - 1 <-> smp o s <= b).
Proof.
  intros o b s Ho. pose proof (rd_le o (b + 1) s Ho). split; intro H1; lia.
Qed.
Lemma smp_range : forall o s, 0 <= o < M -> 0 <= s < n -> 0 <= smp o s < n * M.
Proof. intros o s Ho Hs. unfold smp. nia. Qed.

(** One row: the slices of the rounded intervals are, together, the fine slices of the interval, each with [k] times its value. *)
Lemma rd_step : forall b, 0 <= b -> rd (M - 1 - b mod M) (b + 1) = rd (M - 1 - b mod M) b + 1 /\ rd (M - 1 - b mod M) b = b / M /\
  forall o, 0 <= o < M -> o <> M - 1 - b mod M -> rd o (b + 1) = rd o b.
Proof.
  intros b Hb. pose proof (Z.div_mod b M ltac:(lia)) as D. pose proof (Z.mod_pos_bound b M ltac:(lia)) as R0. set (q := b / M) in *. set (r := b mod M) in *. unfold rd. split; [|split].
  - replace (b + 1 + (M - 1 - r)) with ((q + 1) * M) by lia. replace (b + (M - 1 - r)) with (M - 1 + q * M) by lia. rewrite Z.div_mul by lia. rewrite Z.div_add by lia. rewrite Z.div_small by lia. lia.
  - replace (b + (M - 1 - r)) with (M - 1 + q * M) by lia. rewrite Z.div_add by lia. rewrite Z.div_small by lia. lia.
  - intros o Ho No. destruct (Z_lt_le_dec (r + o) M) as [C|C].
    + replace (b + 1 + o) with (r + o + 1 + q * M) by lia. replace (b + o) with (r + o + q * M) by lia. rewrite !Z.div_add by lia. rewrite !Z.div_small by lia. reflexivity.
    + replace (b + 1 + o) with (r + o + 1 - M + (q + 1) * M) by lia. replace (b + o) with (r + o - M + (q + 1) * M) by lia. rewrite !Z.div_add by lia. rewrite !Z.div_small by lia. reflexivity.
Qed.
Lemma slice_none : forall X (r : list X) i, slice r i (i - 1) = [].
Proof. intros X r i. unfold slice. replace (Z.to_nat (i - 1 - i + 1)) with 0%nat by lia. reflexivity. Qed.
Lemma rd_row : forall r i d, vlen r = n -> 0 <= i -> i + Z.of_nat d <= n * M ->
  Permutation (flat_map (fun o => slice r (rd o i) (rd o (i + Z.of_nat d) - 1)) (zrange 0 M)) (map (Rmult (INR k)) (slice (refine k r) i (i + Z.of_nat d - 1))).
Proof.
  intros r i d Lr Hi. induction d as [|d IH]; intro Hd.
  - rewrite Nat2Z.inj_0, Z.add_0_r, slice_none. cbn [map]. replace (flat_map (fun o => slice r (rd o i) (rd o i - 1)) (zrange 0 M)) with (@nil R); [constructor|].
    induction (zrange 0 M) as [|o l IHl]; [reflexivity|]. cbn [flat_map]. rewrite slice_none, <- IHl. reflexivity.
  - rewrite Nat2Z.inj_succ in *. set (b := i + Z.of_nat d) in *. replace (i + Z.succ (Z.of_nat d)) with (b + 1) by lia. replace (b + 1 - 1) with b by lia. specialize (IH ltac:(lia)).
    assert (Hb : 0 <= b) by lia. destruct (rd_step b Hb) as (S1 & S2 & S3). pose proof (Z.mod_pos_bound b M ltac:(lia)) as Mb. set (o0 := M - 1 - b mod M) in *.
    assert (Bq : 0 <= b / M < n) by (split; [apply Z.div_pos; lia|apply Z.div_lt_upper_bound; lia]).
    rewrite (slice_snoc (refine k r) i b) by (rewrite ?(refine_len k); lia). rewrite map_app. cbn [map].
    rewrite (flat_map_one _ _ (fun o => slice r (rd o i) (rd o b - 1)) _ (elt 0%R r (b / M)) o0).
    + rewrite IH. rewrite (refine_elt k) by lia. replace (INR k * (elt 0%R r (b / M) / INR k))%R with (elt 0%R r (b / M)); [reflexivity|]. pose proof (lt_0_INR k K0). field. lra.
    + apply NoDup_zrange.
    + apply In_zrange. lia.
    + cbv beta. rewrite S1. replace (rd o0 b + 1 - 1) with (rd o0 b) by lia. rewrite S2 at 2. rewrite <- S2. apply slice_snoc; [|lia].
      split; [apply rd_range; lia|apply rd_mono; lia].
    + intros o Io No. apply In_zrange in Io. rewrite S3 by lia. reflexivity.
Qed.

(** One part. *)
Lemma rd_cells : forall c h i j, comp_len m n c -> 0 <= i <= j -> j < n * M ->
  Permutation (concat (map (fun o => dcells m c h (rd o i) (rd o (j + 1) - 1)) (zrange 0 M))) (map (Rmult (INR k)) (dcells m (map (refine k) c) h i j)).
Proof.
  intros c h i j Cl Hi Hj. unfold dcells. rewrite <- flat_map_concat_map. rewrite flat_map_swap.
  assert (G : forall x, In x (leavesof L ps h) -> 0 <= x < L) by (intros x Ix; apply (lv_In m W) in Ix; unfold leaf in Ix; tauto).
  induction (leavesof L ps h) as [|x l IH]; [constructor|]. cbn [flat_map]. rewrite map_app. apply Permutation_app; [|apply IH; intros; apply G; right; assumption].
  destruct (comp_row m n c x Cl (G x (or_introl eq_refl))) as [_ E] || destruct (comp_row m W n c x Cl (G x (or_introl eq_refl))) as [_ E].
  replace (elt [] (map (refine k) c) x) with (refine k (elt [] c x)) by (unfold elt; rewrite <- (map_nth (refine k)); reflexivity).
  pose proof (rd_row (elt [] c x) i (Z.to_nat (j + 1 - i)) E ltac:(lia) ltac:(lia)) as Q. replace (i + Z.of_nat (Z.to_nat (j + 1 - i))) with (j + 1) in Q by lia. replace (j + 1 - 1) with j in Q by lia. exact Q.
Qed.
Lemma dcells_none : forall c h i, dcells m c h i (i - 1) = [].
Proof. intros c h i. unfold dcells. induction (leavesof L ps h) as [|x l IH]; [reflexivity|]. cbn [flat_map]. rewrite slice_none, IH. reflexivity. Qed.
Lemma rd_nonneg : forall c h i j, comp_len m n c -> Forall nonneg c -> 0 <= i <= j -> j < n * M -> forall o, 0 <= o < M -> nonneg (dcells m c h (rd o i) (rd o (j + 1) - 1)).
Proof.
  intros c h i j Cl Nn Hi Hj o Ho. pose proof (rd_mono o i (j + 1) ltac:(lia)). pose proof (rd_range o i Ho ltac:(lia)). pose proof (rd_range o (j + 1) Ho ltac:(lia)).
  destruct (Z.eq_dec (rd o i) (rd o (j + 1))) as [E|D]; [rewrite E, dcells_none; constructor|]. apply (nonneg_dcells m W n); auto; lia.
Qed.
Lemma rd_part : forall c h i j, comp_len m n c -> Forall nonneg c -> 0 <= i <= j -> j < n * M ->
  (INR k * gain_of (dcells m (map (refine k) c) h i j) <= Rsum (fun o => gain_of (dcells m c h (rd o i) (rd o (j + 1) - 1))) (zrange 0 M) + INR k * (log2 (INR k) * total (dcells m (map (refine k) c) h i j)))%R /\
  (Rsum (fun o => loss_of (dcells m c h (rd o i) (rd o (j + 1) - 1))) (zrange 0 M) <= INR k * loss_of (dcells m (map (refine k) c) h i j))%R.
Proof.
  intros c h i j Cl Nn Hi Hj. pose proof (rd_cells c h i j Cl Hi Hj) as Pm. pose proof (lt_0_INR k K0) as Kp. set (F := dcells m (map (refine k) c) h i j) in *.
  set (ll := map (fun o => dcells m c h (rd o i) (rd o (j + 1) - 1)) (zrange 0 M)) in *.
  assert (Nc : nonneg (concat ll)).
  { apply nonneg_concat. apply Forall_map. apply Forall_forall. intros o Io. apply In_zrange in Io. apply rd_nonneg; auto. }
  assert (NF : nonneg F).
  { assert (Q : nonneg (map (Rmult (INR k)) F)) by (eapply Permutation_Forall; [exact Pm|exact Nc]). apply Forall_forall. intros x Ix. pose proof (proj1 (Forall_forall _ _) Q _ (in_map (Rmult (INR k)) F x Ix)) as Hx. cbv beta in Hx. apply (Rmult_le_reg_l (INR k)); lra. }
  assert (Nt : nonneg (map total ll)).
  { apply Forall_map. apply nonneg_concat in Nc. eapply Forall_impl; [|exact Nc]. intros l Hl. apply total_nonneg. exact Hl. }
  split.
  - rewrite <- (gain_scal (INR k) F Kp NF), <- (gain_perm _ _ Pm), (gain_chain ll Nc). replace (Rsum gain_of ll) with (Rsum (fun o => gain_of (dcells m c h (rd o i) (rd o (j + 1) - 1))) (zrange 0 M)) by (unfold ll; rewrite Rsum_map; reflexivity).
    assert (Q : (gain_of (map total ll) <= total (map total ll) * log2 (IZR (vlen (map total ll))))%R).
    { apply gain_at_most; [exact Nt|]. unfold ll. intro E. apply (f_equal (@length R)) in E. rewrite !map_length in E. change (length (zrange 0 M) = 0%nat) in E. unfold zrange in E. rewrite map_length, seq_length in E. lia. }
    replace (IZR (vlen (map total ll))) with (INR k) in Q.
    2:{ unfold vlen, ll. rewrite !map_length. unfold zrange. rewrite map_length, seq_length, INR_IZR_INZ. f_equal. lia. }
    replace (total (map total ll)) with (INR k * total F)%R in Q; [lra|]. rewrite <- total_scal, <- (total_perm _ _ Pm). unfold total. rewrite Rsum_concat, !Rsum_map. reflexivity.
  - rewrite <- (loss_scal (INR k) F Kp NF), <- (loss_perm _ _ Pm). eapply Rle_trans; [|apply (loss_concat ll Nc)]. unfold ll. rewrite Rsum_map. apply Rle_refl.
Qed.

(** The rounded partition. *)
Definition keepb (r : Z * Z * Z) : bool := let '(h, i, j) := r in i <=? j.
Definition rounded (o : Z) (l : list (Z * Z * Z)) : list (Z * Z * Z) := filter keepb (map (rdrect o) l).

Lemma rounded_In : forall o l h i' j', In (h, i', j') (rounded o l) <-> exists i j, In (h, i, j) l /\ i' = rd o i /\ j' = rd o (j + 1) - 1 /\ i' <= j'.
Proof.
  intros o l h i' j'. unfold rounded. rewrite filter_In, in_map_iff. split.
  - intros [([[y i] j] & E & I) Kb]. cbn in E. injection E as <- <- <-. cbn [keepb] in Kb. apply Z.leb_le in Kb. exists i, j. auto.
  - intros (i & j & I & -> & -> & Le). split; [exists (h, i, j); split; [reflexivity|exact I]|]. cbn [keepb]. apply Z.leb_le. exact Le.
Qed.
Lemma has_leaf : forall h, node ps h -> exists x, leaf L x /\ below ps x h.
Proof.
  intros h Nh. destruct (leavesof L ps h) as [|x l] eqn:E.
  - exfalso. apply (wb_node_iff m W) in Nh. exact (lv_nonempty m W h Nh E).
  - exists x. assert (I : In x (leavesof L ps h)) by (rewrite E; left; reflexivity). apply (lv_In m W) in I. exact I.
Qed.
Lemma rd_rect : forall o l, 0 <= o < M -> rect_cover L ps (n * M) l -> never_up L ps l -> rect_cover L ps n (rounded o l) /\ never_up L ps (rounded o l).
Proof.
  intros o l Ho (ND & N & C) NU.
  assert (Uq : forall x h i j h' i' j' s, leaf L x -> In (h, i, j) l -> In (h', i', j') l -> below ps x h -> below ps x h' -> i <= s <= j -> i' <= s <= j' -> (h', i', j') = (h, i, j)).
  { intros x h i j h' i' j' s Hx I I' B B' Hs Hs'. destruct (N _ _ _ I) as (_ & Q1 & Q2). destruct (C x s Hx ltac:(lia)) as (g & a & b & _ & _ & _ & U). rewrite (U _ _ _ I B Hs), (U _ _ _ I' B' Hs'). reflexivity. }
  split; [split; [|split]|].
  - unfold rounded. assert (G : forall l0, incl l0 l -> NoDup l0 -> NoDup (filter keepb (map (rdrect o) l0))).
    { induction l0 as [|r l0 IH]; intros In0 ND0; [constructor|]. inversion ND0 as [|? ? N1 N2]; subst. cbn [map filter]. specialize (IH (fun z Hz => In0 z (or_intror Hz)) N2).
      destruct (keepb (rdrect o r)) eqn:Kb; [|exact IH]. constructor; [|exact IH]. intro I. destruct r as [[h i] j]. cbn [rdrect] in I. cbn [rdrect keepb] in Kb. apply Z.leb_le in Kb.
      change (filter keepb (map (rdrect o) l0)) with (rounded o l0) in I. apply rounded_In in I. destruct I as (i2 & j2 & I & E1 & E2 & _). apply N1.
      pose proof (In0 _ (or_introl eq_refl)) as Ir. destruct (N _ _ _ Ir) as (Nh & _). destruct (has_leaf h Nh) as (x & Hx & B).
      pose proof (proj1 (rd_le o i (rd o i) Ho) ltac:(lia)) as A1. pose proof (proj1 (rd_gt o j (rd o i) Ho) ltac:(lia)) as A2.
      pose proof (proj1 (rd_le o i2 (rd o i) Ho) ltac:(lia)) as A3. pose proof (proj1 (rd_gt o j2 (rd o i) Ho) ltac:(lia)) as A4.
      rewrite <- (Uq x h i j h i2 j2 (smp o (rd o i)) Hx Ir (In0 _ (or_intror I)) B B ltac:(lia) ltac:(lia)). exact I. }
    apply G; [apply incl_refl|exact ND].
  - intros h a b I. apply rounded_In in I. destruct I as (i & j & I & -> & -> & Le). destruct (N _ _ _ I) as (Nh & Q1 & Q2). pose proof (rd_range o i Ho ltac:(lia)). pose proof (rd_range o (j + 1) Ho ltac:(lia)). split; [exact Nh|lia].
  - intros x s Hx Hs. destruct (C x (smp o s) Hx (smp_range o s Ho Hs)) as (h & i & j & I & B & K & _). exists h, (rd o i), (rd o (j + 1) - 1).
    assert (E : rd o i <= s <= rd o (j + 1) - 1) by (split; [apply rd_le; auto; lia|apply rd_gt; auto; lia]).
    split; [apply rounded_In; exists i, j; repeat split; auto; lia|]. split; [exact B|]. split; [exact E|].
    intros h' a' b' I' B' E'. apply rounded_In in I'. destruct I' as (i' & j' & I' & -> & -> & _).
    assert (K' : i' <= smp o s <= j') by (split; [apply rd_le; auto; lia|apply rd_gt; auto; lia]).
    pose proof (Uq x h i j h' i' j' _ Hx I I' B B' K K') as Q. injection Q as -> -> ->. reflexivity.
  - intros x h a b h' a' b' Hx I I' B B' K. apply rounded_In in I, I'. destruct I as (i & j & I & -> & -> & Le). destruct I' as (i' & j' & I' & -> & -> & Le').
    destruct (Z_lt_le_dec j i') as [D|D]; [exact (NU x h i j h' i' j' Hx I I' B B' D)|exfalso].
    set (u := rd o (j + 1) - 1) in *. set (w := rd o i') in *.
    pose proof (proj1 (rd_le o i u Ho) Le) as A1. pose proof (proj1 (rd_gt o j u Ho) ltac:(lia)) as A2.
    pose proof (proj1 (rd_le o i' w Ho) ltac:(lia)) as A3. pose proof (proj1 (rd_gt o j' w Ho) Le') as A4.
    assert (A5 : smp o u < smp o w) by (unfold smp; nia).
    assert (Q : (h', i', j') = (h, i, j)).
    { destruct (Z_le_gt_dec i i') as [D2|D2]; [apply (Uq x h i j h' i' j' i' Hx I I' B B'); lia|apply (Uq x h i j h' i' j' i Hx I I' B B'); lia]. }
    injection Q as -> -> ->. unfold u, w in K. pose proof (rd_mono o i (j + 1)). lia.
Qed.

Lemma Rsum_filter0 : forall (f : Z * Z * Z -> R) l, (forall r, In r l -> keepb r = false -> f r = 0%R) -> Rsum f (filter keepb l) = Rsum f l.
Proof.
  intros f l H. induction l as [|r l IH]; [reflexivity|]. cbn [filter]. rewrite Rsum_cons. destruct (keepb r) eqn:E.
  - rewrite Rsum_cons, IH by (intros; apply H; [right; assumption|assumption]). reflexivity.
  - rewrite IH by (intros; apply H; [right; assumption|assumption]). rewrite (H r) by (auto; left; reflexivity). lra.
Qed.

(** The values: [k] times that of the fine partition is at most the sum of those of the rounded ones. *)
Lemma rd_value : forall comps a b l, (0 <= a)%R -> (0 <= b)%R -> Forall (comp_len m n) comps -> Forall (Forall nonneg) comps -> rect_cover L ps (n * M) l ->
  (INR k * (a * Rsum (un3 (dgain m (finer_data k comps))) l - b * Rsum (un3 (dloss m (finer_data k comps))) l) <=
   Rsum (fun o => a * Rsum (un3 (dgain m comps)) (rounded o l) - b * Rsum (un3 (dloss m comps)) (rounded o l)) (zrange 0 M) + INR k * (a * (log2 (INR k) * Rsum (un3 (dall m (finer_data k comps))) l)))%R.
Proof.
  intros comps a b l Ha Hb CL NN (_ & N & _).
  assert (Rl : forall (f : list R -> R), f [] = 0%R -> forall o, In o (zrange 0 M) -> Rsum (un3 (fun h i j => Rsum (fun c => f (dcells m c h i j)) comps)) (rounded o l) =
     Rsum (fun r => un3 (fun h i j => Rsum (fun c => f (dcells m c h i j)) comps) (rdrect o r)) l).
  { intros f F0 o Io. unfold rounded. rewrite Rsum_filter0; [apply Rsum_map|]. intros r Ir Kb. apply in_map_iff in Ir. destruct Ir as ([[h i] j] & <- & I). cbn [rdrect keepb] in Kb. apply Z.leb_gt in Kb.
    destruct (N _ _ _ I) as (_ & Q & _). pose proof (rd_mono o i (j + 1) ltac:(lia)). cbn [rdrect un3]. replace (rd o (j + 1)) with (rd o i) by lia. apply Rsum_zero. intros c _. rewrite dcells_none. exact F0. }
  rewrite (Rsum_ext _ (fun o => a * Rsum (un3 (dgain m comps)) (rounded o l) - b * Rsum (un3 (dloss m comps)) (rounded o l))%R
     (fun o => a * Rsum (fun r => un3 (dgain m comps) (rdrect o r)) l + (- b) * Rsum (fun r => un3 (dloss m comps) (rdrect o r)) l)%R (zrange 0 M)).
  2:{ intros o Io. unfold dgain, dloss. rewrite (Rl gain_of gain_of_nil o Io), (Rl loss_of loss_of_nil o Io). lra. }
  rewrite Rsum_plus, !Rsum_scal. rewrite (Rsum_swap _ _ (fun o r => un3 (dgain m comps) (rdrect o r))), (Rsum_swap _ _ (fun o r => un3 (dloss m comps) (rdrect o r))). clear Rl.
  assert (G : (INR k * Rsum (un3 (dgain m (finer_data k comps))) l <= Rsum (fun r => Rsum (fun o => un3 (dgain m comps) (rdrect o r)) (zrange 0 M)) l + INR k * (log2 (INR k) * Rsum (un3 (dall m (finer_data k comps))) l))%R).
  { rewrite <- !Rsum_scal, <- Rsum_plus. apply Rsum_le. intros [[h i] j] I. destruct (N _ _ _ I) as (_ & Q1 & Q2). cbn [un3 rdrect]. unfold dgain, dall, finer_data. rewrite !Rsum_map.
    rewrite (Rsum_swap _ _ (fun o c => gain_of (dcells m c h (rd o i) (rd o (j + 1) - 1)))). rewrite <- !Rsum_scal, <- Rsum_plus. apply Rsum_le. intros c Ic.
    exact (proj1 (rd_part c h i j (proj1 (Forall_forall _ _) CL c Ic) (proj1 (Forall_forall _ _) NN c Ic) Q1 Q2)). }
  assert (G2 : (Rsum (fun r => Rsum (fun o => un3 (dloss m comps) (rdrect o r)) (zrange 0 M)) l <= INR k * Rsum (un3 (dloss m (finer_data k comps))) l)%R).
  { rewrite <- !Rsum_scal. apply Rsum_le. intros [[h i] j] I. destruct (N _ _ _ I) as (_ & Q1 & Q2). cbn [un3 rdrect]. unfold dloss, finer_data. rewrite !Rsum_map.
    rewrite (Rsum_swap _ _ (fun o c => loss_of (dcells m c h (rd o i) (rd o (j + 1) - 1)))). rewrite <- !Rsum_scal. apply Rsum_le. intros c Ic.
    exact (proj2 (rd_part c h i j (proj1 (Forall_forall _ _) CL c Ic) (proj1 (Forall_forall _ _) NN c Ic) Q1 Q2)). }
  apply (Rmult_le_compat_l a) in G; [|exact Ha]. apply (Rmult_le_compat_l b) in G2; [|exact Hb]. lra.
Qed.

Lemma fine_total : forall comps, Forall (comp_len m n) comps -> Rsum all_data (finer_data k comps) = Rsum all_data comps.
Proof.
  intros comps _. unfold finer_data. rewrite Rsum_map. apply Rsum_ext. intros c _. unfold all_data. rewrite Rsum_map. apply Rsum_ext. intros r _. apply refine_total. exact K0.
Qed.
End F.

(** The best value at the finer resolution is exactly the old one plus p log2(k) times all the data. *)
Theorem C102_value : forall P k (v v' : dvalues (RP P)) comps t t' m, (0 < k)%nat -> ddata_ok v comps -> Forall (Forall nonneg) comps ->
  ddata_ok v' (finer_data k comps) -> dv_osize v' = dv_osize v * Z.of_nat k -> d_table (RP P) (Ok v) = Ok (Some t, m) -> d_table (RP P) (Ok v') = Ok (Some t', m) ->
  forall p x x', (0 <= pp_num P p)%R -> (0 <= pp_num P (pp_compl P p))%R -> d_best (RP P) t m p = Ok x -> d_best (RP P) t' m p = Ok x' ->
  (pp_num P p * gain (dn_quality x') - pp_num P (pp_compl P p) * loss (dn_quality x') =
   pp_num P p * gain (dn_quality x) - pp_num P (pp_compl P p) * loss (dn_quality x) + pp_num P p * (log2 (INR k) * Rsum all_data comps))%R.
Proof.
  intros P k v v' comps t t' m K0 D NN D' Eo Et Et' p x x' Ha Hb Ex Ex'. apply Rle_antisym; [|exact (proj2 (proj2 (C102_kept P k v v' comps t t' m K0 D NN D' Eo Et Et' p x x' Ex Ex')))].
  unfold d_table in Et, Et'. cbn [bind] in Et, Et'.
  destruct (d_compute_prf P v comps D) as (t1 & E & T). destruct (d_compute_prf P v' _ D') as (t1' & E' & T').
  rewrite E in Et. rewrite E' in Et'. cbn [bind dq_table dq_meta] in Et, Et'. injection Et as -> Em. injection Et' as -> Em'. pose proof (ddata_comp P v comps D) as CL. pose proof (ddata_comp P v' _ D') as CL'.
  destruct D as (_ & Hn & W & _). destruct D' as (_ & Hn' & W' & _). rewrite Eo in *. rewrite Em in *. rewrite Em' in *. set (n := dv_osize v) in *.
  pose proof (dtable_repr P m _ Hn t comps T) as U. pose proof (dtable_repr P m _ Hn' t' _ T') as U'.
  pose proof T' as (S0 & F0 & _). destruct (d_cover_prf m W (RP P) t' _ p Hn' S0 F0) as (x1 & E1 & _ & C & NU & _). rewrite Ex' in E1. inversion E1; subst x1.
  destruct (d_total P m W _ Hn' _ _ t' p x' U' Ex') as (_ & G & Ls). remember (map rect (dn_parts x')) as l eqn:El. rewrite G, Ls.
  pose proof (rd_value k m n K0 W ltac:(lia) comps _ _ l Ha Hb CL NN C) as K.
  rewrite (dall_cover m (n * Z.of_nat k) W ltac:(lia) _ l CL' C), (dall_root m (n * Z.of_nat k) W ltac:(lia) _ CL'), (fine_total k m n K0 comps CL) in K.
  set (best := (pp_num P p * gain (dn_quality x) - pp_num P (pp_compl P p) * loss (dn_quality x))%R).
  assert (Q : (Rsum (fun o => pp_num P p * Rsum (un3 (dgain m comps)) (rounded k o l) - pp_num P (pp_compl P p) * Rsum (un3 (dloss m comps)) (rounded k o l)) (zrange 0 (Z.of_nat k)) <= INR k * best)%R).
  { replace (INR k * best)%R with (Rsum (fun _ : Z => best) (zrange 0 (Z.of_nat k))).
    - apply Rsum_le. intros o Io. apply In_zrange in Io. destruct (rd_rect k m n K0 W ltac:(lia) o l ltac:(lia) C NU) as [C' N']. exact (d_value_le P m W _ Hn _ _ t p x _ U Ex C' N').
    - assert (Gc : forall l0 : list Z, Rsum (fun _ : Z => best) l0 = (INR (length l0) * best)%R).
      { induction l0 as [|z l0 IH]; [rewrite Rsum_nil; cbn [length INR]; lra|]. rewrite Rsum_cons, IH. change (length (z :: l0)) with (S (length l0)). rewrite S_INR. lra. }
      rewrite Gc. f_equal. f_equal. unfold zrange. rewrite map_length, seq_length. lia. }
  pose proof (lt_0_INR k K0) as Kp. change (num (RP P)) with R in *. apply (Rmult_le_reg_l (INR k)); [exact Kp|]. rewrite Rmult_plus_distr_l. lra.
Qed.
Print Assumptions C102_value.
