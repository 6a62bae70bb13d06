(** * Property C89, second part: one leaf. A spatiotemporal data set of one leaf (under a root of its own) and the same data as ordered data: same intervals and quality. *)
From Coq Require Import Reals Lra Lia Permutation.
From Verif Require Import Base BaseFacts Arith Quality Utm UtmFacts UtmProofs Hierarchy HierarchyFacts SpecTree SpecParts SpecInfo SpecData SpecShape SpecOverlap Values Qualities Partitions Partitioners
  TreeFacts TreePath LexR HFacts CoverFacts DFacts DSel OFacts InfoFacts HReal DReal OReal HProofs DProofs DQual DDataProofs ODataProofs DataFacts DataCons HDataProofs HQual TreeDec P_Ordered P_OrderedData P_HierData P_SpatioData P_Shape P_Overlap.

Section L.
Context (P : params).
Notation A := (RP P).
Context (m : meta).
Hypothesis W : well_built m.
Hypothesis L1 : m_leaves m = 1.
Hypothesis H2 : m_hsize m = 2.
Variables (n : Z) (q0 : Z -> Z -> quality A) (p : par A).
Hypothesis Hn : 1 <= n.
Notation q := (fun _ : Z => q0).
Notation N := (n - 1).

Lemma leaf_root : m_root m = 1.
Proof.
  pose proof (root_node m W). destruct (Z.eq_dec (m_root m) 0) as [E|]; [exfalso|lia].
  destruct (parent_range m W 1 ltac:(lia) ltac:(lia)) as (Rp & _ & K). lia.
Qed.
Lemma leaf_kids : kids m 1 = [0].
Proof.
  pose proof leaf_root as R. assert (E : forall c, In c (kids m 1) <-> c = 0).
  { intro c. rewrite (kids_In m W). split; [intros [K1 K2]|intros ->].
    - destruct (Z.eq_dec c 1) as [->|]; [|lia]. exfalso. pose proof (vt_rootp _ _ _ (wb_tree m W)) as V. rewrite R in V. lia.
    - destruct (parent_range m W 0 ltac:(lia) ltac:(lia)) as (Rp & Ep & _). repeat split; lia. }
  pose proof (kids_NoDup m W 1) as D. destruct (kids m 1) as [|a l]; [exfalso; apply (E 0); reflexivity|].
  assert (a = 0) by (apply E; left; reflexivity). subst a. destruct l as [|b l]; [reflexivity|].
  assert (b = 0) by (apply E; right; left; reflexivity). subst b. exfalso. inversion D as [|? ? K _]. apply K. left; reflexivity.
Qed.

Variables (C : Z -> Z -> Z) (T : Z -> Z -> tradeoff A) (Co : Z -> Z) (To : Z -> tradeoff A).
Hypothesis HC : forall h i, 0 <= h < m_hsize m -> 0 <= i < n -> (C h i, T h i) = dline A m n q p T h i.
Hypothesis HO : forall i, 0 <= i < n -> (Co i, To i) = oline A n q0 p To i.


Lemma dline_leaf : forall i, dline A m n q p T 0 i = oline A n q0 p (T 0) i.
Proof.
  intro i. unfold dline, dcell, oline. replace (m_leaves m <=? 0) with false by (symmetry; apply Z.leb_gt; lia). cbn [dinit andb].
  generalize (N, t_set A (q0 i N) p). induction (zrange i N) as [|c l IH]; intro s; [reflexivity|]. cbn [fold_left].
  assert (E : dstep A q p (T 0) 0 i s c = ostep A q0 p (T 0) i s c) by (unfold dstep, ostep, ocand; rewrite tadd_0_l; reflexivity). rewrite E. apply IH.
Qed.

Lemma leaf_same : forall i, 0 <= i < n -> C 0 i = Co i /\ T 0 i = To i.
Proof.
  assert (G : forall k i, n - Z.of_nat k <= i < n -> 0 <= i -> C 0 i = Co i /\ T 0 i = To i).
  { induction k as [|k IH]; intros i Hi H0; [lia|]. pose proof (HC 0 i ltac:(lia) ltac:(lia)) as E. rewrite dline_leaf in E.
    rewrite (oline_ext A n q0 p (T 0) To) in E by (intros j Hj; apply IH; lia). rewrite <- HO in E by lia. injection E as -> ->. auto. }
  intros i Hi. apply (G (Z.to_nat n)); lia.
Qed.

Lemma root_same : forall i, 0 <= i < n -> T 1 i = T 0 i /\ C 1 i = (if Co i =? N then N else -1).
Proof.
  assert (G : forall k i, n - Z.of_nat k <= i < n -> 0 <= i -> T 1 i = T 0 i /\ C 1 i = (if Co i =? N then N else -1)).
  { induction k as [|k IH]; intros i Hi H0; [lia|].
    destruct (dline_first P m n q Hn p C T HC 1 i ltac:(lia) ltac:(lia)) as (V1 & E1 & M1).
    destruct (dline_first P m n q Hn p C T HC 0 i ltac:(lia) ltac:(lia)) as (V0 & E0 & M0).
    assert (Em : dcf P m n q p T 1 i (-1) = T 0 i). { unfold dcf. cbn [Z.eqb]. rewrite leaf_kids. unfold csum. cbn [fold_left]. apply tadd_0_l. }
    assert (Ec : forall c, i <= c < n -> dcf P m n q p T 1 i c = dcf P m n q p T 0 i c).
    { intros c Hc. unfold dcf. destruct (Z.eqb_spec c (-1)); [lia|]. destruct (Z.eqb_spec c N); [reflexivity|]. rewrite (proj1 (IH (c + 1) ltac:(lia) ltac:(lia))). reflexivity. }
    assert (V0' : i <= C 0 i < n) by (destruct V0; lia).
    assert (ET : T 1 i = T 0 i).
    { apply tle_antisym.
      - rewrite E1. destruct V1 as [[K _]|K]; [rewrite K, Em; apply tle_refl|]. rewrite Ec by exact K. apply M0. right; exact K.
      - rewrite <- Em. apply M1. left. lia. }
    split; [exact ET|]. destruct (leaf_same i ltac:(lia)) as [K0 _]. rewrite K0 in *. unfold rank in *.
    destruct (M1 N ltac:(right; lia)) as [_ M1N]. rewrite Z.eqb_refl in M1N. destruct (M0 N ltac:(right; lia)) as [_ M0N]. rewrite Z.eqb_refl in M0N.
    destruct (Z.eqb_spec (Co i) N) as [Eo|Do].
    - destruct (Z.eqb_spec (C 1 i) N) as [|D]; [assumption|exfalso]. specialize (M1N ltac:(destruct V1; lia)).
      rewrite Ec in M1N by lia. rewrite ET, E0, Eo in M1N. exact (tlt_irrefl _ _ M1N).
    - specialize (M0N ltac:(lia)). destruct V1 as [[K _]|K]; [exact K|exfalso]. destruct (Z.eqb_spec (C 1 i) N) as [E|D].
      + rewrite <- ET, E1, E, Ec in M0N by lia. exact (tlt_irrefl _ _ M0N).
      + destruct (M1 (-1) ltac:(left; lia)) as [_ K']. destruct (Z.eqb_spec (-1) N); [lia|]. specialize (K' ltac:(lia)). rewrite Em, ET in K'. exact (tlt_irrefl _ _ K'). }
  intros i Hi. apply (G (Z.to_nat n)); lia.
Qed.

Lemma okC : okcut m n C. Proof. exact (dOK P m n q Hn p C T HC). Qed.

Lemma dsel_leaf : forall i l, ochain n Co i l -> 0 <= i < n -> dsel m n C 0 i = map (fun ab => (0, fst ab, snd ab)) l.
Proof.
  intros i l O. induction O as [|i r Hc O IH]; intro Hi; [lia|]. rewrite (dsel_eq m W n Hn C okC) by lia. destruct (leaf_same i Hi) as [-> _].
  destruct (Z.eqb_spec (Co i) (-1)); [lia|]. cbn [map fst snd]. f_equal. destruct (Z.ltb_spec (Co i) N).
  - apply IH. lia.
  - inversion O; [reflexivity|lia].
Qed.

Lemma dsel_root : forall l, ochain n Co 0 l -> dsel m n C 1 0 = map (fun ab => (if vlen l =? 1 then 1 else 0, fst ab, snd ab)) l.
Proof.
  intros l O. rewrite (dsel_eq m W n Hn C okC) by lia. destruct (root_same 0 ltac:(lia)) as [_ ->]. destruct (Z.eqb_spec (Co 0) N) as [E|D].
  - destruct (Z.eqb_spec N (-1)); [lia|]. destruct (Z.ltb_spec N N); [lia|]. inversion O as [|i r Hc O' E1 E2]; [lia|]. subst. rewrite E in O'. inversion O'; [|lia]. subst. rewrite E. change (vlen [(0, N)] =? 1) with true. cbn [map fst snd]. do 2 f_equal; lia.
  - cbn [Z.eqb]. rewrite leaf_kids. cbn [flat_map]. rewrite app_nil_r, (dsel_leaf 0 l O) by lia. replace (vlen l =? 1) with false; [reflexivity|].
    symmetry. apply Z.eqb_neq. inversion O as [|i r Hc O' E1 E2]; [lia|]. subst. inversion O' as [K|]; [lia|]. subst. unfold vlen. cbn [length]. lia.
Qed.
End L.

Theorem C89_leaf_partition : forall P m (u : utm (quality (RP P))) t n p x, well_built m -> m_leaves m = 1 -> m_hsize m = 2 -> 1 <= n <= 65535 -> utm_shape u n ->
  vlen t = 2 -> Forall (fun v => utm_shape v n) t -> (forall h i j, 0 <= h < 2 -> 0 <= i <= j -> j < n -> mm_get t h i j = u_get u i j) ->
  o_best (RP P) u p = Ok x ->
  exists x', d_best (RP P) t m p = Ok x' /\ dn_quality x' = on_quality x /\
    map (fun y => (dp_h y, dp_start y, dp_end y)) (dn_parts x') = map (fun y => (if vlen (on_parts x) =? 1 then m_root m else 0, op_start y, op_end y)) (on_parts x).
Proof.
  intros P m u t n p x W L1 H2 Hn S Lt St Eq E0. destruct (shape_repr _ u n ltac:(lia) S (q_zero (RP P))) as [q0 R].
  assert (Rt : mrepr t (m_hsize m) n (fun _ => q0)).
  { eapply mrepr_ext; [apply (shape_mrepr _ t _ n (q_zero (RP P))); auto; lia|]. intros h i j Hh Hi Hj. cbn beta. rewrite Eq by lia. rewrite (urepr_get _ _ _ _ i j R) by lia. reflexivity. }
  destruct (o_best_ok (RP P) u n q0 p R) as (y & Co & To & l & E & Ep & O & _ & _ & EQ & HO). rewrite E in E0. injection E0 as ->.
  destruct (d_best_ok (RP P) m W t n _ p Rt Hn) as (x' & C & T & E' & OK & Ep' & _ & EQ' & HC).
  exists x'. split; [exact E'|]. pose proof (leaf_root m W L1 H2) as Er. rewrite Er in *.
  rewrite (dsel_root P m W L1 H2 n q0 p ltac:(lia) C T Co To HC HO l O) in *. split.
  - rewrite EQ', EQ, map_map. reflexivity.
  - rewrite Ep', Ep, !map_map. unfold vlen. rewrite map_length. reflexivity.
Qed.
Print Assumptions C89_leaf_partition.

Lemma columns_single : forall (d : list (list R)), columns [] (vlen d) [d] = map (fun r => [r]) d.
Proof.
  intro d. unfold columns. cbn [map]. unfold vlen. induction d as [|r d IH] using rev_ind; [reflexivity|].
  rewrite app_length, Nat2Z.inj_add. cbn [length]. change (Z.of_nat 1) with 1. rewrite (zrange_snoc 0 (Z.of_nat (length d))) by lia. rewrite !map_app. f_equal.
  - rewrite <- IH. apply map_ext_in. intros k Hk. apply In_zrange in Hk. unfold elt. rewrite app_nth1 by lia. reflexivity.
  - cbn [map]. unfold elt. rewrite Nat2Z.id, app_nth2, Nat.sub_diag by lia. reflexivity.
Qed.

(** One leaf, from the data on. *)
Theorem C89_leaf : forall P (d : list (list R)) p, d <> [] -> rect2 d (size2 d) -> 1 <= size2 d <= 65535 ->
  exists u t m x x', o_table (RP P) (ov2_of (RP P) d) = Ok (Some u) /\ d_table (RP P) (dv3_of (RP P) [d] [1; -1]) = Ok (Some t, m) /\
    (forall h i j, 0 <= h < 2 -> 0 <= i <= j -> j < size2 d -> mm_get t h i j = u_get u i j) /\
    o_best (RP P) u p = Ok x /\ d_best (RP P) t m p = Ok x' /\ dn_quality x' = on_quality x /\
    map (fun y => (dp_h y, dp_start y, dp_end y)) (dn_parts x') = map (fun y => (if vlen (on_parts x) =? 1 then 1 else 0, op_start y, op_end y)) (on_parts x).
Proof.
  intros P d p Nd Rd Hn.
  assert (V : valid_tree (vlen [d]) [1; -1] 1) by (apply valid_treeb_ok; reflexivity).
  assert (U : uniform_depth (vlen [d]) [1; -1] 1) by (apply (uniformb_ok 1); reflexivity).
  destruct (C07_2d P d Rd ltac:(lia)) as (u & Eu & Tu). pose proof Tu as [Su Gu].
  assert (E3 : size3 [d] = size2 d) by (destruct d; [congruence|reflexivity]). assert (E2 : size2 [d] = vlen d) by reflexivity.
  destruct (dv3_data P [1; -1] 1 ltac:(cbv; discriminate) [d] V U) as (v & Ev & (M1 & M2 & M3) & En & D).
  { rewrite E3, E2. repeat constructor. exact Rd. } { rewrite E3. exact Hn. }
  destruct (d_compute_prf P v _ D) as (t & Et & T). rewrite En, E3, E2, columns_single in T. pose proof T as (St & Ft & Gt). pose proof D as (_ & _ & W & _).
  set (m := dv_meta v) in *. assert (Hh : m_hsize m = 2) by (rewrite (wb_hsize m W), M2; reflexivity). rewrite Hh in *. change (vlen [d]) with 1 in M1.
  assert (Eq : forall h i j, 0 <= h < 2 -> 0 <= i <= j -> j < size2 d -> mm_get t h i j = u_get u i j).
  { intros h i j H Hi Hj. rewrite Gt, Gu by assumption. do 2 f_equal; unfold dgain, dloss, ogain, oloss; rewrite Rsum_map; apply Rsum_ext; intros r _; unfold dcells; rewrite M1, M2;
      (assert (Lv : leavesof 1 [1; -1] h = [0]) by (assert (h = 0 \/ h = 1) as [-> | ->] by lia; reflexivity)); rewrite Lv; cbn [flat_map]; rewrite app_nil_r; reflexivity. }
  destruct (C19_ordered_tiles (RP P) u (size2 d) p ltac:(lia) Su) as (x & Ex & _).
  destruct (C89_leaf_partition P m u t (size2 d) p x W M1 Hh Hn Su St Ft Eq Ex) as (x' & Ex' & Q & Pt). rewrite M3 in Pt.
  exists u, t, m, x, x'. split; [unfold o_table; rewrite Eu; reflexivity|]. split; [unfold d_table; rewrite Ev; cbn [bind]; rewrite Et; reflexivity|]. auto 8.
Qed.
Print Assumptions C89_leaf.

(** ** At p = 1 the two can differ: two leaves 5 and 0 under a root, whose gains are 0, 0, 0 and losses 0, 0, 5. *)
Definition ov_t : list (quality RA) := [@mkQ RA 0%R 0%R; @mkQ RA 0%R 0%R; @mkQ RA 0%R 5%R].
Lemma ov_tree : valid_tree 2 [2; 2; -1] 2 /\ uniform_depth 2 [2; 2; -1] 2.
Proof. split; [apply valid_treeb_ok; reflexivity|apply (uniformb_ok 1); reflexivity]. Qed.

Lemma ov_data : exists m, h_table RA (hv2_of RA [[5]; [0]]%R [2; 2; -1]) = Ok (Some ov_t, m) /\ well_built m /\ m_leaves m = 2 /\ m_parents m = [2; 2; -1] /\ m_root m = 2 /\ m_hsize m = 3 /\ superadditive (P := Rpar) ov_t m.
Proof.
  destruct ov_tree as [V U]. change RA with (RP Rpar) in *.
  assert (Hl : 2 <= vlen [2; 2; -1]) by (cbv; discriminate). assert (Rd : rect2 [[5]; [0]]%R (size2 [[5]; [0]]%R)) by repeat constructor.
  destruct (hv2_data Rpar [2; 2; -1] 2 Hl [[5]; [0]]%R V U Rd) as (v & Ev & (M1 & M2 & M3) & D).
  destruct (h_compute_prf Rpar v _ D) as (t & Et & T). set (m := hv_meta v) in *. pose proof D as (_ & W & Hm & _). fold m in W.
  assert (Hh : m_hsize m = 3) by (rewrite (wb_hsize m W), M2; reflexivity).
  assert (Ec : columns 0%R (size2 [[5]; [0]]%R) [[5]; [0]]%R = [[5; 0]]%R) by reflexivity. rewrite Ec in *.
  assert (Tt : t = ov_t).
  { destruct T as [Lt G]. rewrite Hh in *. destruct t as [|a [|b [|c [|]]]]; try (exfalso; unfold vlen in Lt; cbn [length] in Lt; lia).
    pose proof (G 0 ltac:(lia)) as G0. pose proof (G 1 ltac:(lia)) as G1. pose proof (G 2 ltac:(lia)) as G2. cbn in G0, G1, G2. injection G0 as ->. injection G1 as ->. injection G2 as ->.
    unfold hgain, hloss, hcells, ov_t. rewrite M1, M2. change (vlen [[5%R]; [0%R]]) with 2. change (leavesof 2 [2; 2; -1] 0) with [0]. change (leavesof 2 [2; 2; -1] 1) with [1]. change (leavesof 2 [2; 2; -1] 2) with [0; 1].
    unfold Rsum. cbn [map fold_right]. change (elt 0%R [5; 0]%R 0) with 5%R. change (elt 0%R [5; 0]%R 1) with 0%R.
    assert (G5 : gain_of [5]%R = 0%R) by (gain_tac; replace (5 + 0)%R with 5%R by ring; ring).
    assert (G0 : gain_of [0]%R = 0%R) by (gain_tac; ring).
    assert (G50 : gain_of [5; 0]%R = 0%R) by (gain_tac; replace (5 + (0 + 0))%R with 5%R by ring; ring).
    unfold loss_of. rewrite G5, G0, G50. unfold total, Rsum, vlen. cbn [map fold_right length]. change (Z.of_nat 1) with 1. change (Z.of_nat 2) with 2. rewrite log2_1, log2_2. repeat f_equal; ring. }
  subst t. exists m. split; [unfold h_table; rewrite Ev; cbn [bind]; rewrite Et; reflexivity|]. do 5 (split; [assumption|]).
  apply (htable_super Rpar m ov_t [[5; 0]]%R W T); repeat (apply Forall_cons || apply Forall_nil); try lra. rewrite M1. reflexivity.
Qed.

Lemma ov_cover : forall m, well_built m -> m_leaves m = 2 -> m_parents m = [2; 2; -1] -> rect_cover 2 [2; 2; -1] 1 [(0, 0, 0); (1, 0, 0)] /\ never_up 2 [2; 2; -1] [(0, 0, 0); (1, 0, 0)].
Proof.
  intros m W EL EP.
  assert (G : forall x y, leaf 2 x -> leaf 2 y -> below [2; 2; -1] x y -> x = y).
  { intros u w Hu Hw K. assert (I : In u (leavesof (m_leaves m) (m_parents m) w)) by (apply (lv_In _ W); rewrite EL, EP; auto).
    rewrite (lv_leaf _ W) in I by (rewrite EL; auto). cbn in I. intuition. }
  split; [split; [repeat constructor; cbn; intuition discriminate|]; split|].
  - intros y a b K. cbn in K. repeat (destruct K as [K|K]; [inversion K; subst; split; [split; cbv; congruence|lia]|]). destruct K.
  - intros x o Hx Ho. assert (Hx5 : x = 0 \/ x = 1) by (unfold leaf in Hx; lia). replace o with 0 by lia.
    exists x, 0, 0. split; [destruct Hx5 as [->| ->]; cbn; auto|]. split; [constructor|]. split; [lia|].
    intros y' a' b' K; cbn in K; repeat (destruct K as [K|K]; [inversion K; subst; intros Kb Ka; first [lia|apply G in Kb; unfold leaf in *; [subst; reflexivity|lia|lia]]|]); destruct K.
  - intros x h a b h' a' b' Hx K K'. cbn in K, K'. destruct K as [K|[K|[]]]; inversion K; destruct K' as [K'|[K'|[]]]; inversion K'; subst; intros; lia.
Qed.

Example C89_p1_strict : exists m x x', h_table RA (hv2_of RA [[5]; [0]]%R [2; 2; -1]) = Ok (Some ov_t, m) /\ h_best RA ov_t m 1%R = Ok x /\ d_best RA (map one_cell ov_t) m 1%R = Ok x' /\
  map hp_h (hn_parts x) = [2] /\ loss (hn_quality x) = 5%R /\ (loss (dn_quality x') <= 0)%R.
Proof.
  destruct ov_data as (m & Em & W & M1 & M2 & M3 & Hh & Su). change RA with (RP Rpar) in *. assert (Lt : vlen ov_t = m_hsize m) by (rewrite Hh; reflexivity).
  destruct (h_cover_prf m W ltac:(lia) (RP Rpar) ov_t 1%R Lt) as (x & Ex & _ & NC & _).
  destruct (C89_slice_p1 Rpar m ov_t 1%R x W ltac:(lia) Lt Su ltac:(cbn; lra) ltac:(cbn; lra) Ex) as (R1 & x' & Ex' & Gx & _).
  destruct (h_quality_prf m W ltac:(lia) (RP Rpar) ov_t 1%R x Lt Ex) as (K1 & K2 & K3). rewrite M3 in R1.
  destruct (hn_parts x) as [|y [|]] eqn:Ep; try discriminate. injection R1 as Ey. specialize (K1 y (or_introl eq_refl)). rewrite Ey in K1. injection K1 as K1.
  cbn [map fold_left] in K2, K3. rewrite <- K1 in K2, K3. cbn in K2, K3.
  exists m, x, x'. rewrite Ep. do 3 (split; [assumption|]). split; [cbn; rewrite Ey; reflexivity|]. split; [rewrite K3; lra|].
  destruct (ov_cover m W M1 M2) as [C N]. assert (C' : rect_cover (m_leaves m) (m_parents m) 1 [(0, 0, 0); (1, 0, 0)]) by (rewrite M1, M2; exact C). assert (N' : never_up (m_leaves m) (m_parents m) [(0, 0, 0); (1, 0, 0)]) by (rewrite M1, M2; exact N).
  assert (F : Forall (fun u => utm_shape u 1) (map one_cell ov_t)) by (repeat constructor).
  assert (Lm : vlen (map (@one_cell (quality (RP Rpar))) ov_t) = m_hsize m) by (rewrite Hh; reflexivity).
  pose proof (d_optimal_prf m W Rpar (map one_cell ov_t) 1 1%R x' [(0, 0, 0); (1, 0, 0)] _ ltac:(lia) Lm F Ex' C' N' eq_refl) as K.
  rewrite Gx, K2 in K. unfold no_better, Rsum in K. cbn in K. lra.
Qed.

(** Non-vacuity of the other theorems: the same data, one leaf of two slices. *)
Example C89_nonvacuous : exists m, h_table RA (hv2_of RA [[5]; [0]]%R [2; 2; -1]) = Ok (Some ov_t, m) /\ well_built m /\ 2 <= m_hsize m /\ vlen ov_t = m_hsize m /\ superadditive (P := Rpar) ov_t m /\
  pp_num Rpar (pp_compl Rpar (1 / 2)%R) <> 0%R.
Proof. destruct ov_data as (m & Em & W & M1 & M2 & M3 & Hh & Su). exists m. rewrite Hh. do 5 (split; [first [assumption|reflexivity|lia]|]). cbn. lra. Qed.
Example C89_leaf_nonvacuous : exists u t m x x', o_table RA (ov2_of RA [[3; 1]]%R) = Ok (Some u) /\ d_table RA (dv3_of RA [[[3; 1]]]%R [1; -1]) = Ok (Some t, m) /\ o_best RA u (1 / 2)%R = Ok x /\ d_best RA t m (1 / 2)%R = Ok x' /\
  dn_quality x' = on_quality x.
Proof.
  destruct (C89_leaf Rpar [[3; 1]]%R (1 / 2)%R ltac:(discriminate) ltac:(repeat constructor) ltac:(cbv; split; discriminate)) as (u & t & m & x & x' & K1 & K2 & _ & K3 & K4 & K5 & _).
  exists u, t, m, x, x'. auto.
Qed.
