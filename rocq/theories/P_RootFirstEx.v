(** * Concrete arrays for C73: array(c(30000,30000,0,0), dim=c(4,1,1)) and array(c(3,3,1,1), dim=c(4,1,1)) with the hierarchy c(6,6,7,7,0,5,5), whose root is node 5. *)
From Coq Require Import Lia Sorting.Sorted Reals Lra Permutation.
From Verif Require Import Base BaseFacts Arith Quality Utm UtmFacts UtmProofs Hierarchy SpecTree TreeFacts HierarchyFacts HierarchyProofs TreeDec SpecParts SpecInfo Values Qualities Partitions Partitioners   TreePath CoverFacts InfoFacts InfoFacts OInfo DataFacts DataCons OProofs HProofs DProofs ODataProofs HDataProofs DDataProofs HQual DQual SpecData SpecValues ValuesFacts ValuesProofs QualInv DegFacts   Search SpecSearch SearchFacts SearchProofs SearchReal SearchInst SearchGet AucData P_Ordered P_Hier P_Spatio P_OrderedData P_Search P_SearchGet P_Session RApi SpecR RFacts P_RApi RDefFacts.
From Verif Require Import SpecMacro RHelpers MacroFacts HMacroFacts P_RCurve P_RMacro SpecBest P_RBest P_RootFirst.

Definition rf_h : list Z := [6; 6; 7; 7; 0; 5; 5].
Definition rf_array (a b : R) : rarray RA := @mkRArr RA [a; a; b; b] [4; 1; 1].

Lemma rf_cube : forall a b, r_cube (rf_array a b) 4 1 1.
Proof. intros. repeat split; cbn; lia. Qed.
Lemma rf_tree : r_tree rf_h 4 (5 - 1).
Proof. split; [apply valid_treeb_ok; reflexivity|]. split; [apply (uniformb_ok 2); reflexivity|]. cbn; lia. Qed.

Lemma rf_below : forall x h, 0 <= x < 7 -> below (from0 rf_h) x h <-> belowb (from0 rf_h) x h = true.
Proof.
  intros x h Hx. destruct rf_tree as (V & _). destruct (valid_rank _ _ _ V) as [rank Hr]. symmetry. apply (belowb_true _ rank Hr). unfold node. cbn. lia.
Qed.
Lemma rf_cover : node_cover 4 (from0 rf_h) (map (fun x => x - 1) [6; 7]).
Proof.
  cbn [map]. change (6 - 1) with 5. change (7 - 1) with 6. split; [repeat constructor; cbn; lia|]. split; [intros h [<-|[<-|[]]]; unfold node; cbn; lia|].
  intros x Lx. unfold leaf in Lx. assert (K : x = 0 \/ x = 1 \/ x = 2 \/ x = 3) by lia.
  destruct K as [->|[->|[->| ->]]]; [exists 5|exists 5|exists 6|exists 6]; (split; [cbn; auto|split; [apply rf_below; [lia|reflexivity]|]]); intros h' [<-|[<-|[]]] B; auto; apply rf_below in B; try lia; discriminate.
Qed.
Definition rf_c : list (Z * Z * Z) := [(6, 1, 1); (7, 1, 1)].
Lemma rf_rect : rect_cover 4 (from0 rf_h) 1 (map (fun '(x, s, e) => (x - 1, s - 1, e - 1)) rf_c) /\ never_up 4 (from0 rf_h) (map (fun '(x, s, e) => (x - 1, s - 1, e - 1)) rf_c).
Proof.
  change (map (fun '(x, s, e) => (x - 1, s - 1, e - 1)) rf_c) with [(5, 0, 0); (6, 0, 0)]. split; [split; [|split]|].
  - constructor; [intros [K|[]]; discriminate|]. constructor; [intros []|constructor].
  - intros h a b [K|[K|[]]]; injection K as <- <- <-; unfold node; cbn; lia.
  - intros x o Lx Ho. destruct rf_cover as (_ & _ & Cv). destruct (Cv x Lx) as (h & Ih & Bh & Un). exists h, 0, 0.
    split; [destruct Ih as [<-|[<-|[]]]; cbn; auto|]. split; [exact Bh|]. split; [lia|]. intros h' a' b' I' B' _.
    assert (a' = 0 /\ b' = 0 /\ In h' [6 - 1; 7 - 1]) as (-> & -> & I2) by (destruct I' as [K|[K|[]]]; injection K as <- <- <-; cbn; auto). rewrite (Un h' I2 B'). reflexivity.
  - intros x h a b h' a' b' _ I1 I2 _ _ Lt. exfalso. destruct I1 as [K|[K|[]]], I2 as [K'|[K'|[]]]; injection K as <- <- <-; injection K' as <- <- <-; lia.
Qed.

Lemma rf_sub : forall f a b, (forall x, (f [x] + 0)%R = f [x]) -> forall x, x = 5 \/ x = 6 \/ x = 7 ->
  subtree f (rf_array a b) 4 1 1 rf_h x = (f (if (x =? 5)%Z then [a; a; b; b] else if (x =? 6)%Z then [a; a] else [b; b]) + 0)%R /\
  rectangle f (rf_array a b) 4 1 rf_h x 1 1 = (f (if (x =? 5)%Z then [a; a; b; b] else if (x =? 6)%Z then [a; a] else [b; b]) + 0)%R.
Proof. intros f a b _ x [->|[->| ->]]; split; reflexivity. Qed.

Lemma log2_double : forall a, (0 < a)%R -> log2 (2 * a) = (1 + log2 a)%R.
Proof. intros a H. unfold log2. rewrite ln_mult by lra. pose proof ln2_pos. field. lra. Qed.

Lemma pair_gain : forall a, (0 < a)%R -> gain_of [a; a] = (2 * a)%R /\ loss_of [a; a] = 0%R.
Proof.
  intros a H. assert (K : gain_of [a; a] = (2 * a)%R).
  { unfold gain_of, total, Rsum. cbn [map fold_right]. replace (a + (a + 0))%R with (2 * a)%R by ring.
    unfold xlog2. repeat match goal with |- context [Rlt_dec ?x ?y] => destruct (Rlt_dec x y); try lra end. rewrite log2_double by auto. ring. }
  split; [exact K|]. unfold loss_of. rewrite K. change (vlen [a; a]) with 2. rewrite log2_2. unfold total, Rsum. cbn [map fold_right]. ring.
Qed.
Lemma pair_zero : gain_of [0; 0]%R = 0%R /\ loss_of [0; 0]%R = 0%R.
Proof.
  assert (K : gain_of [0; 0]%R = 0%R). { unfold gain_of, total, Rsum. cbn [map fold_right]. destruct (Rlt_dec _ _); lra. }
  split; [exact K|]. unfold loss_of. rewrite K. unfold total, Rsum. cbn [map fold_right]. ring.
Qed.
Lemma half_busy : forall a, (0 < a)%R -> gain_of [a; a; 0; 0]%R = (2 * a)%R /\ loss_of [a; a; 0; 0]%R = (2 * a)%R.
Proof.
  intros a H. assert (K : gain_of [a; a; 0; 0]%R = (2 * a)%R).
  { unfold gain_of, total, Rsum. cbn [map fold_right]. replace (a + (a + (0 + (0 + 0))))%R with (2 * a)%R by ring.
    unfold xlog2. repeat match goal with |- context [Rlt_dec ?x ?y] => destruct (Rlt_dec x y); try lra end. rewrite log2_double by auto. ring. }
  split; [exact K|]. unfold loss_of. rewrite K. change (vlen [a; a; 0; 0]%R) with 4. rewrite (proj2 ex_log3). unfold total, Rsum. cbn [map fold_right]. ring.
Qed.
Lemma log2_8' : log2 8 = 3%R.
Proof. replace 8%R with (2 * (2 * (2 * 1)))%R by ring. rewrite !log2_double by lra. rewrite log2_1. ring. Qed.
Lemma log2_3_low' : (4 / 3 < log2 3)%R.
Proof.
  pose proof ln2_pos as L. assert (L16 : ln 16 = (4 * ln 2)%R) by (replace 16%R with (2 * (2 * (2 * 2)))%R by ring; rewrite !ln_mult by lra; ring).
  assert (L27 : ln 27 = (3 * ln 3)%R) by (replace 27%R with (3 * (3 * 3))%R by ring; rewrite !ln_mult by lra; ring).
  assert (K : (ln 16 < ln 27)%R) by (apply ln_increasing; lra). unfold log2. apply (Rmult_lt_reg_r (ln 2)); auto. unfold Rdiv. rewrite (Rmult_assoc (ln 3)), Rinv_l by lra. lra.
Qed.
Lemma threes : gain_of [3; 3; 1; 1]%R = (24 - 6 * log2 3)%R /\ loss_of [3; 3; 1; 1]%R = (6 * log2 3 - 8)%R.
Proof.
  assert (K : gain_of [3; 3; 1; 1]%R = (24 - 6 * log2 3)%R).
  { unfold gain_of, total, Rsum. cbn [map fold_right]. replace (3 + (3 + (1 + (1 + 0))))%R with 8%R by ring.
    unfold xlog2. repeat match goal with |- context [Rlt_dec ?x ?y] => destruct (Rlt_dec x y); try lra end. rewrite log2_8', log2_1. ring. }
  split; [exact K|]. unfold loss_of. rewrite K. change (vlen [3; 3; 1; 1]%R) with 4. rewrite (proj2 ex_log3). unfold total, Rsum. cbn [map fold_right]. ring.
Qed.

(** The largest array of the first kind: haggregate and daggregate return an uninitialised POpt, whatever the threshold. *)
Example C73_undefined : forall k th, (1 <= th * 2 ^ k)%R ->
  r_haggregate RA id_num false (S k) (rf_array 30000 0) rf_h th = UB /\ r_daggregate RA id_num false (S k) (rf_array 30000 0) rf_h th = UB.
Proof.
  intros k th Hk. destruct (pair_gain 30000 ltac:(lra)) as [P1 P2]. destruct pair_zero as [Z1 Z2]. destruct (half_busy 30000 ltac:(lra)) as [H1 H2].
  assert (NN : nonneg (ra_data (rf_array 30000 0))) by (repeat constructor; lra).
  assert (Sg : forall x, x = 5 \/ x = 6 \/ x = 7 -> _) by exact (rf_sub gain_of 30000%R 0%R (fun x => Rplus_0_r _)). assert (Sl : forall x, x = 5 \/ x = 6 \/ x = 7 -> _) by exact (rf_sub loss_of 30000%R 0%R (fun x => Rplus_0_r _)).
  destruct (Sg 5 ltac:(lia)) as [Sg5 Rg5]. destruct (Sg 6 ltac:(lia)) as [Sg6 Rg6]. destruct (Sg 7 ltac:(lia)) as [Sg7 Rg7].
  destruct (Sl 5 ltac:(lia)) as [Sl5 Rl5]. destruct (Sl 6 ltac:(lia)) as [Sl6 Rl6]. destruct (Sl 7 ltac:(lia)) as [Sl7 Rl7].
  cbn [Z.eqb Pos.eqb] in *. rewrite ?P1, ?P2, ?Z1, ?Z2, ?H1, ?H2 in *.
  split.
  - apply (C73_hier_undefined th (rf_array 30000 0) 4 1 1 rf_h 5 [6; 7] (rf_cube _ _) rf_tree NN); auto.
    + rewrite Sg5. lra.
    + rewrite Sl5. lra.
    + exact rf_cover.
    + intros x [<-|[<-|[]]]; (split; [lia|split; [reflexivity|]]); [rewrite Sl6|rewrite Sl7]; lra.
    + rewrite !Rsum_cons, Rsum_nil, Sg6, Sg7. lra.
  - destruct rf_rect as [Rc Nu]. apply (C73_spatio_undefined th (rf_array 30000 0) 4 1 1 rf_h 5 rf_c (rf_cube _ _) ltac:(lia) rf_tree NN); auto.
    + rewrite Rg5. lra.
    + rewrite Rl5. lra.
    + intros x s e [K|[K|[]]]; injection K as <- <- <-; (split; [lia|]); [rewrite Rl6|rewrite Rl7]; lra.
    + unfold rf_c. rewrite !Rsum_cons, Rsum_nil, Rg6, Rg7. lra.
Qed.
Print Assumptions C73_undefined.

Lemma score_small : forall q : quality RA, (0 <= gain q <= 10)%R -> (0 <= loss q <= 10)%R -> n_leb RA (s_score RA q) (n_ofZ RA RAND_MAX) = true.
Proof.
  intros q Hg Hl. unfold s_score. cbn [n_leb n_sub n_mul n_add n_one n_ofZ RA RP]. unfold RAND_MAX. change (num RA) with R in *.
  set (g := gain q) in *. set (l := loss q) in *. change (num RA) with R in g, l.
  assert (0 <= l * (10 - l))%R by (apply Rmult_le_pos; lra). assert (0 <= (10 - g) * g)%R by (apply Rmult_le_pos; lra).
  unfold Rleb. destruct (Rle_dec _ _) as [K|K]; [reflexivity|exfalso]. apply K. lra.
Qed.

Lemma rf_leaf : forall f a b x, 1 <= x <= 4 -> exists v, subtree f (rf_array a b) 4 1 1 rf_h x = (f [v] + 0)%R /\ rectangle f (rf_array a b) 4 1 rf_h x 1 1 = (f [v] + 0)%R.
Proof. intros f a b x Hx. assert (K : x = 1 \/ x = 2 \/ x = 3 \/ x = 4) by lia. destruct K as [->|[->|[->| ->]]]; [exists a|exists a|exists b|exists b]; split; reflexivity. Qed.

(** The small array: both return, and never the whole - although its gain (24-6*log2(3) > 12 bits) exceeds that of its two halves together (8 bits), so that it is the best choice near 1. *)
Example C73_never : (6 * log2 3 < 12)%R /\
  (exists r, r_haggregate RA id_num false 11 (rf_array 3 1) rf_h (/ 1000)%R = Ok r /\ forall p s g l, ~ In (p, (5, s, g, l)) (rr_parts r)) /\
  (exists r, r_daggregate RA id_num false 11 (rf_array 3 1) rf_h (/ 1000)%R = Ok r /\ forall p s g l, ~ In (p, (5, s, 1, 1, g, l)) (rr_parts r)) /\
  subtree gain_of (rf_array 3 1) 4 1 1 rf_h 5 = (24 - 6 * log2 3)%R /\ Rsum (subtree gain_of (rf_array 3 1) 4 1 1 rf_h) [6; 7] = 8%R.
Proof.
  destruct (pair_gain 3 ltac:(lra)) as [P1 P2]. destruct (pair_gain 1 ltac:(lra)) as [Z1 Z2]. destruct threes as [H1 H2]. destruct ex_log3 as [L3 _]. pose proof log2_3_low' as Ll.
  assert (NN : nonneg (ra_data (rf_array 3 1))) by (repeat constructor; lra).
  assert (Sg : forall x, x = 5 \/ x = 6 \/ x = 7 -> _) by exact (rf_sub gain_of 3%R 1%R (fun x => Rplus_0_r _)). assert (Sl : forall x, x = 5 \/ x = 6 \/ x = 7 -> _) by exact (rf_sub loss_of 3%R 1%R (fun x => Rplus_0_r _)).
  destruct (Sg 5 ltac:(lia)) as [Sg5 Rg5]. destruct (Sg 6 ltac:(lia)) as [Sg6 Rg6]. destruct (Sg 7 ltac:(lia)) as [Sg7 Rg7].
  destruct (Sl 5 ltac:(lia)) as [Sl5 Rl5]. destruct (Sl 6 ltac:(lia)) as [Sl6 Rl6]. destruct (Sl 7 ltac:(lia)) as [Sl7 Rl7]. clear Sg Sl.
  cbn [Z.eqb Pos.eqb] in *. rewrite ?P1, ?P2, ?Z1, ?Z2, ?H1, ?H2 in *.
  assert (NG : subtree gain_of (rf_array 3 1) 4 1 1 rf_h 5 <> 0%R) by (rewrite Sg5; lra). assert (NL : subtree loss_of (rf_array 3 1) 4 1 1 rf_h 5 <> 0%R) by (rewrite Sl5; lra).
  assert (NG' : rectangle gain_of (rf_array 3 1) 4 1 rf_h 5 1 1 <> 0%R) by (rewrite Rg5; lra). assert (NL' : rectangle loss_of (rf_array 3 1) 4 1 rf_h 5 1 1 <> 0%R) by (rewrite Rl5; lra).
  split; [lra|]. split; [|split].
  - destruct (hier_table (rf_array 3 1) 4 1 1 rf_h 5 (rf_cube _ _) rf_tree NG NL) as (m & t & W & El & Ep & Ehs & Lt & Hh & TT & Er).
    set (G := fun x => relative 5 x (subtree gain_of (rf_array 3 1) 4 1 1 rf_h x) (subtree gain_of (rf_array 3 1) 4 1 1 rf_h 5)).
    set (L := fun x => relative 5 x (subtree loss_of (rf_array 3 1) 4 1 1 rf_h x) (subtree loss_of (rf_array 3 1) 4 1 1 rf_h 5)).
    assert (G0 : forall x, (0 <= G x)%R) by (intro x; apply relative_nonneg; auto; apply subtree_nonneg; auto using gain_of_nonneg).
    assert (L0 : forall x, (0 <= L x)%R) by (intro x; apply relative_nonneg; auto; apply subtree_nonneg; auto using loss_of_nonneg).
    assert (Gl : forall x, 1 <= x <= 4 -> G x = 0%R /\ L x = 0%R).
    { intros x Hx. unfold G, L, relative. destruct (Z.leb_spec x 5); [|lia]. destruct (rf_leaf gain_of 3%R 1%R x Hx) as (v & -> & _). destruct (rf_leaf loss_of 3%R 1%R x Hx) as (v' & -> & _). rewrite gain_of_single, loss_of_single. unfold Rdiv. split; ring. }
    assert (SG : (Rsum G [1; 2; 3; 4; 5; 6; 7]%Z <= 10)%R).
    { rewrite !Rsum_cons, Rsum_nil, !(fun x H => proj1 (Gl x H)) by lia. unfold G, relative. cbn [Z.leb Z.compare Pos.compare Pos.compare_cont]. rewrite Sg6, Sg7. unfold Rdiv. rewrite Rinv_r by exact NG. lra. }
    assert (SL : (Rsum L [1; 2; 3; 4; 5; 6; 7]%Z <= 10)%R).
    { rewrite !Rsum_cons, Rsum_nil, !(fun x H => proj2 (Gl x H)) by lia. unfold L, relative. cbn [Z.leb Z.compare Pos.compare Pos.compare_cont]. rewrite Sl6, Sl7. unfold Rdiv. rewrite Rinv_r by exact NL. lra. }
    assert (Hs : 2 <= m_hsize m) by lia. assert (Lt' : vlen t = m_hsize m) by lia.
    assert (Bq : forall p x, h_best RA t m p = Ok x -> n_leb RA (s_score RA (hn_quality x)) (n_ofZ RA RAND_MAX) = true).
    { intros p x Ex. destruct (C22_hier _ W Hs RA t p x Lt' Ex) as (Qx & Gx & Lx). destruct (C20_hier_cover _ W Hs RA t p Lt') as (x' & Ex' & _ & (Nd & Nx & _) & _). rewrite Ex in Ex'. injection Ex' as <-. rewrite Ep in Nx.
      assert (B : forall y, In y (hn_parts x) -> 0 <= hp_h y < 7) by (intros y Iy; exact (Nx (hp_h y) (in_map hp_h _ _ Iy))).
      assert (Qv : forall y, In y (hn_parts x) -> hp_quality y = @mkQ RA (G (hp_h y + 1)) (L (hp_h y + 1))).
      { intros y Iy. pose proof (Qx y Iy) as K. rewrite TT in K by (exact (B y Iy)). injection K as <-. reflexivity. }
      assert (Gs : gain (hn_quality x) = Rsum G (map (fun y => hp_h y + 1) (hn_parts x))). { rewrite Gx, Rsum_map. etransitivity; [apply fold_Rsum|]. apply Rsum_ext. intros y Iy. rewrite (Qv y Iy). reflexivity. }
      assert (Ls : loss (hn_quality x) = Rsum L (map (fun y => hp_h y + 1) (hn_parts x))). { rewrite Lx, Rsum_map. etransitivity; [apply fold_Rsum|]. apply Rsum_ext. intros y Iy. rewrite (Qv y Iy). reflexivity. }
      assert (Ndp : NoDup (map (fun y => hp_h y + 1) (hn_parts x))). { apply (NoDup_map_inv (fun z => z - 1)). rewrite map_map. rewrite (map_ext _ hp_h) by (intro; lia). exact Nd. }
      assert (Ic : forall y, In y (map (fun y => hp_h y + 1) (hn_parts x)) -> In y [1; 2; 3; 4; 5; 6; 7]). { intros y Iy. apply in_map_iff in Iy. destruct Iy as (z & <- & Iz). pose proof (B z Iz). cbn. lia. }
      assert (ND7 : NoDup [1; 2; 3; 4; 5; 6; 7]) by (repeat constructor; cbn; lia).
      apply score_small; [rewrite Gs|rewrite Ls]; (split; [apply Rsum_nonneg; auto|]); eapply Rle_trans; try (apply (Rsum_incl _ Z.eq_dec _ _ _ Ndp ND7 Ic); auto); assumption. }
    destruct (C33_hier _ W Hs t Lt' (/ 1000)%R 0%R 1%R 10 (ps_empty RA) ltac:(lra) ltac:(cbn; lra)) as (st & Es).
    pose proof (C30_hier_real _ W Hs t Lt' (/ 1000)%R 11 _ 0%R 1%R st ltac:(lra) Es) as Ag. rewrite <- one_RA in Es.
    destruct (frames_defined RA (h_best RA t m) hn_quality (h_row RA id_num) id_num (fun _ => True) (/ 1000)%R 0%R 1%R st (real_bisectable _) Ag) as (r & Ef).
    { apply Forall_forall. auto. }
    { destruct Ag as (_ & Hd & _ & _ & Kq & _ & Qs). destruct (ps_qual st) as [|[p q] l]; [exfalso; cbn [map] in Kq; pose proof (eq_trans (f_equal (@hd_error R) Kq) Hd) as K; discriminate K|]. exists p, q. split; [left; reflexivity|]. destruct (Qs p q (or_introl eq_refl)) as (x & Ex & ->). apply (Bq p x Ex). }
    assert (E : r_haggregate RA id_num false 11 (rf_array 3 1) rf_h (/ 1000)%R = Ok r).
    { rewrite Er. match goal with |- bind ?e _ = _ => replace e with (@Ok _ st) by (symmetry; exact Es) end. exact Ef. }
    exists r. split; [exact E|]. apply (C73_root_never (/ 1000)%R (rf_array 3 1) 4 1 1 rf_h 5 11 r [6; 7] (rf_cube _ _) rf_tree E NG NL rf_cover).
    + intros x [<-|[<-|[]]]; lia.
    + rewrite !Rsum_cons, Rsum_nil, Sg6, Sg7. lra.
    + rewrite !Rsum_cons, Rsum_nil, Sl6, Sl7. lra.
  - destruct (spatio_table (rf_array 3 1) 4 1 1 rf_h 5 (rf_cube _ _) ltac:(lia) rf_tree NG' NL') as (m & t & W & El & Ep & Ehs & Lt & Ft & TT & Er).
    set (G := fun x => relative 5 x (rectangle gain_of (rf_array 3 1) 4 1 rf_h x 1 1) (rectangle gain_of (rf_array 3 1) 4 1 rf_h 5 1 1)).
    set (L := fun x => relative 5 x (rectangle loss_of (rf_array 3 1) 4 1 rf_h x 1 1) (rectangle loss_of (rf_array 3 1) 4 1 rf_h 5 1 1)).
    assert (G0 : forall x, (0 <= G x)%R) by (intro x; apply relative_nonneg; auto; apply rectangle_nonneg; auto using gain_of_nonneg).
    assert (L0 : forall x, (0 <= L x)%R) by (intro x; apply relative_nonneg; auto; apply rectangle_nonneg; auto using loss_of_nonneg).
    assert (Gl : forall x, 1 <= x <= 4 -> G x = 0%R /\ L x = 0%R).
    { intros x Hx. unfold G, L, relative. destruct (Z.leb_spec x 5); [|lia]. destruct (rf_leaf gain_of 3%R 1%R x Hx) as (v & _ & ->). destruct (rf_leaf loss_of 3%R 1%R x Hx) as (v' & _ & ->). rewrite gain_of_single, loss_of_single. unfold Rdiv. split; ring. }
    assert (SG : (Rsum G [1; 2; 3; 4; 5; 6; 7]%Z <= 10)%R).
    { rewrite !Rsum_cons, Rsum_nil, !(fun x H => proj1 (Gl x H)) by lia. unfold G, relative. cbn [Z.leb Z.compare Pos.compare Pos.compare_cont]. rewrite Rg6, Rg7. unfold Rdiv. rewrite Rinv_r by exact NG'. lra. }
    assert (SL : (Rsum L [1; 2; 3; 4; 5; 6; 7]%Z <= 10)%R).
    { rewrite !Rsum_cons, Rsum_nil, !(fun x H => proj2 (Gl x H)) by lia. unfold L, relative. cbn [Z.leb Z.compare Pos.compare Pos.compare_cont]. rewrite Rl6, Rl7. unfold Rdiv. rewrite Rinv_r by exact NL'. lra. }
    assert (Lt' : vlen t = m_hsize m) by lia. assert (Hn' : 1 <= 1 <= 65535) by lia.
    assert (Bq : forall p x, d_best RA t m p = Ok x -> n_leb RA (s_score RA (dn_quality x)) (n_ofZ RA RAND_MAX) = true).
    { intros p x Ex. destruct (C22_spatio _ W RA t 1 p x Hn' Lt' Ft Ex) as (Qx & Gx & Lx). destruct (C21_spatio_cover _ W RA t 1 p Hn' Lt' Ft) as (x' & Ex' & _ & (Nd & Nx & _) & _). rewrite Ex in Ex'. injection Ex' as <-. rewrite Ep in Nx.
      assert (B : forall y, In y (dn_parts x) -> 0 <= dp_h y < 7 /\ dp_start y = 0 /\ dp_end y = 0).
      { intros y Iy. destruct (Nx _ _ _ (in_map (fun y => (dp_h y, dp_start y, dp_end y)) _ _ Iy)) as (B1 & B2 & B3). split; [exact B1|]. lia. }
      assert (Qv : forall y, In y (dn_parts x) -> dp_quality y = @mkQ RA (G (dp_h y + 1)) (L (dp_h y + 1))).
      { intros y Iy. destruct (B y Iy) as (B1 & B2 & B3). pose proof (Qx y Iy) as K. rewrite B2, B3 in K. rewrite TT in K by (exact B1 || lia). injection K as <-. reflexivity. }
      assert (Gs : gain (dn_quality x) = Rsum G (map (fun y => dp_h y + 1) (dn_parts x))). { rewrite Gx, Rsum_map. etransitivity; [apply fold_Rsum|]. apply Rsum_ext. intros y Iy. rewrite (Qv y Iy). reflexivity. }
      assert (Ls : loss (dn_quality x) = Rsum L (map (fun y => dp_h y + 1) (dn_parts x))). { rewrite Lx, Rsum_map. etransitivity; [apply fold_Rsum|]. apply Rsum_ext. intros y Iy. rewrite (Qv y Iy). reflexivity. }
      assert (Ndp : NoDup (map (fun y => dp_h y + 1) (dn_parts x))).
      { apply (NoDup_map_inv (fun z => (z - 1, 0, 0))). rewrite map_map. rewrite (map_ext_in _ (fun y => (dp_h y, dp_start y, dp_end y))); [exact Nd|]. intros y Iy. destruct (B y Iy) as (_ & -> & ->). rewrite Z.add_simpl_r. reflexivity. }
      assert (Ic : forall y, In y (map (fun y => dp_h y + 1) (dn_parts x)) -> In y [1; 2; 3; 4; 5; 6; 7]). { intros y Iy. apply in_map_iff in Iy. destruct Iy as (z & <- & Iz). pose proof (B z Iz). cbn. lia. }
      assert (ND7 : NoDup [1; 2; 3; 4; 5; 6; 7]) by (repeat constructor; cbn; lia).
      apply score_small; [rewrite Gs|rewrite Ls]; (split; [apply Rsum_nonneg; auto|]); eapply Rle_trans; try (apply (Rsum_incl _ Z.eq_dec _ _ _ Ndp ND7 Ic); auto); assumption. }
    destruct (C33_spatio _ W t 1 Hn' Lt' Ft (/ 1000)%R 0%R 1%R 10 (ps_empty RA) ltac:(lra) ltac:(cbn; lra)) as (st & Es).
    pose proof (C30_spatio_real _ W t 1 Hn' Lt' Ft (/ 1000)%R 11 _ 0%R 1%R st ltac:(lra) Es) as Ag. rewrite <- one_RA in Es.
    destruct (frames_defined RA (d_best RA t m) dn_quality (d_row RA id_num) id_num (fun _ => True) (/ 1000)%R 0%R 1%R st (real_bisectable _) Ag) as (r & Ef).
    { apply Forall_forall. auto. }
    { destruct Ag as (_ & Hd & _ & _ & Kq & _ & Qs). destruct (ps_qual st) as [|[p q] l]; [exfalso; cbn [map] in Kq; pose proof (eq_trans (f_equal (@hd_error R) Kq) Hd) as K; discriminate K|]. exists p, q. split; [left; reflexivity|]. destruct (Qs p q (or_introl eq_refl)) as (x & Ex & ->). apply (Bq p x Ex). }
    assert (E : r_daggregate RA id_num false 11 (rf_array 3 1) rf_h (/ 1000)%R = Ok r).
    { rewrite Er. match goal with |- bind ?e _ = _ => replace e with (@Ok _ st) by (symmetry; exact Es) end. exact Ef. }
    exists r. split; [exact E|]. destruct rf_rect as [Rc Nu]. apply (C73_spatio_never (/ 1000)%R (rf_array 3 1) 4 1 1 rf_h 5 11 r rf_c (rf_cube _ _) ltac:(lia) rf_tree E NG' NL' Rc Nu).
    + intros x s e [K|[K|[]]]; injection K as <- <- <-; lia.
    + unfold rf_c. rewrite !Rsum_cons, Rsum_nil, Rg6, Rg7. lra.
    + unfold rf_c. rewrite !Rsum_cons, Rsum_nil, Rl6, Rl7. lra.
  - split; [rewrite Sg5; lra|]. rewrite !Rsum_cons, Rsum_nil, Sg6, Sg7. lra.
Qed.
Print Assumptions C73_never.
