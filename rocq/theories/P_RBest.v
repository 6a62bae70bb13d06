(** * Property C72: every listed partition is the best one, in terms of the array alone. *)
From Coq Require Import Lia Sorting.Sorted Reals Lra.
From Verif Require Import Base BaseFacts Arith Quality Utm UtmFacts UtmProofs Hierarchy SpecTree TreeFacts HierarchyFacts HierarchyProofs TreeDec SpecParts SpecInfo Values Qualities Partitions Partitioners   TreePath CoverFacts InfoFacts InfoFacts OInfo DataFacts DataCons OProofs HProofs DProofs ODataProofs HDataProofs DDataProofs HQual DQual SpecData SpecValues ValuesFacts ValuesProofs QualInv DegFacts   Search SpecSearch SearchFacts SearchProofs SearchReal SearchInst SearchGet AucData P_Ordered P_Hier P_Spatio P_OrderedData P_Search P_SearchGet P_Session RApi SpecR RFacts P_RApi. 
From Verif Require Import SpecMacro RHelpers MacroFacts HMacroFacts P_RCurve P_RMacro SpecBest.

Lemma irr_RA : forall x, p_ltb RA x x = false.
Proof. intro x; cbn; unfold Rltb; destruct (Rlt_dec x x); [exfalso; lra|reflexivity]. Qed.
Lemma zero_one_RA : plt RA (p_zero RA) (p_one RA).
Proof. apply plt_RA; rewrite one_RA; cbn; lra. Qed.

Lemma quals_unique : forall X (l : list (R * X)) p q q', StronglySorted (plt RA) (map fst l) -> In (p, q) l -> In (p, q') l -> q = q'.
Proof.
  intros X l p q q' S I1 I2. induction l as [|[a x] l IH]; [destruct I1|]. cbn [map fst] in S. inversion S as [|? ? S' F]; subst. rewrite Forall_forall in F.
  assert (N : forall y, ~ In (a, y) l). { intros y I. specialize (F a (in_map fst _ _ I)). apply plt_RA in F. lra. }
  destruct I1 as [K1|I1], I2 as [K2|I2]; auto.
  - congruence.
  - exfalso. apply (N q'). congruence.
  - exfalso. apply (N q). congruence.
Qed.

Lemma col_sum : forall l : list R, column_sum RA l = Rsum (fun x => x) l.
Proof.
  intro l. unfold column_sum. change (fold_left Rplus l 0%R = Rsum (fun x => x) l).
  assert (G : forall l a, fold_left Rplus l a = (a + Rsum (fun x => x) l)%R). { induction l0 as [|x l0 IH]; intro a; cbn [fold_left]; [rewrite Rsum_nil; lra|]. rewrite IH, Rsum_cons. lra. }
  rewrite G. lra.
Qed.

Lemma totals_sum : forall X (f h : X -> R) parts (g l : R), totals RA id_num (map (fun y => (f y, h y)) parts) (g, l) -> g = Rsum f parts /\ l = Rsum h parts.
Proof.
  intros X f h parts g l (gs & ls & E & Ln & Q). injection Q as -> ->. rewrite !map_id in E.
  assert (K : forall gs ls : list R, length gs = length ls -> map (fun y => (f y, h y)) parts = combine gs ls -> gs = map f parts /\ ls = map h parts).
  { clear. induction parts as [|y parts IH]; intros [|a gs] [|b ls] Ln E; cbn in Ln, E; try discriminate; auto. injection E as <- <- E. destruct (IH gs ls) as (-> & ->); auto. }
  destruct (K gs ls Ln E) as (-> & ->). change (@column_sum RA) with (column_sum RA). rewrite !col_sum, !Rsum_map. auto.
Qed.

Lemma mmap_comp : forall X Y W (f : Y -> res W) (g : X -> Y) l, mmap f (map g l) = mmap (fun x => f (g x)) l.
Proof. intros X Y W f g l. induction l as [|x l IH]; auto. cbn [map mmap]. rewrite IH. reflexivity. Qed.

(** ** Ordered *)
Lemma zrange_shift : forall a b, zrange a b = map (fun k => k + 1) (zrange (a - 1) (b - 1)).
Proof.
  intros a b. unfold zrange. rewrite map_map. replace (b - 1 - (a - 1)) with (b - a) by lia. apply map_ext. intro. lia.
Qed.

Lemma elt_map : forall X Y (f : X -> Y) dx dy l k, 0 <= k < vlen l -> elt dy (map f l) k = f (elt dx l k).
Proof. intros X Y f dx dy l k H. unfold elt. rewrite (nth_indep _ dy (f dx)) by (rewrite map_length; unfold vlen in H; lia). apply map_nth. Qed.

Lemma elt_upto : forall n k, 0 <= k < n -> elt 0 (upto n) k = k + 1.
Proof.
  intros n k H. pose proof (vget_zrange 1 (n + 1) k ltac:(lia)) as G. rewrite (elt_vget _ 0) in G by (unfold vlen; rewrite zrange_length; lia). assert (K : forall a b : Z, Ok a = Ok b -> a = b) by (intros a b X; injection X; auto). apply K in G. unfold upto. lia.
Qed.

Lemma upto_vlen : forall n, 0 <= n -> vlen (upto n) = n.
Proof. intros n H. unfold vlen. apply upto_len. auto. Qed.

Lemma slice_zrange : forall n i j, 0 <= i <= j -> j < n -> slice (upto n) i j = zrange (i + 1) (j + 1 + 1).
Proof.
  intros n i j Hi Hj. rewrite (slice_elt _ 0) by (rewrite ?upto_vlen; lia). rewrite (zrange_shift (i + 1)). replace (i + 1 - 1) with i by lia. replace (j + 1 + 1 - 1) with (j + 1) by lia.
  apply map_ext_in. intros k I. apply In_zrange in I. apply elt_upto. lia.
Qed.

Lemma ordered_block : forall f micro d0 d1 d2 i j, 0 <= i <= j -> j < d2 -> Rsum (fun r => f (slice r i j)) (r_series micro d0 d1 d2) = interval f micro d0 d1 (i + 1) (j + 1).
Proof.
  intros f micro d0 d1 d2 i j Hi Hj. unfold r_series, interval. rewrite Rsum_map. apply Rsum_ext. intros [a b] _. rewrite slice_map, slice_zrange by auto. reflexivity.
Qed.

(** What oaggregate returns: at every listed parameter the values in Partitions are the gain and loss of the slices divided by those of all slices, those in Qualities are their sums,
    and no other way of cutting the slices is better. *)
Theorem C72_ordered : forall (th : R) micro d0 d1 d2 fuel r p g l, r_cube micro d0 d1 d2 -> d2 <= 65535 -> r_oaggregate RA id_num false fuel micro th = Ok r -> In (p, (g, l)) (rr_quals r) ->
  interval gain_of micro d0 d1 1 d2 <> 0%R -> interval loss_of micro d0 d1 1 d2 <> 0%R ->
  let rows := rows_at RA p (rr_parts r) in
  let G := fun '(s, e) => (interval gain_of micro d0 d1 s e / interval gain_of micro d0 d1 1 d2)%R in
  let L := fun '(s, e) => (interval loss_of micro d0 d1 s e / interval loss_of micro d0 d1 1 d2)%R in
  (forall s e g' l', In (s, e, g', l') rows -> g' = G (s, e) /\ l' = L (s, e)) /\
  g = Rsum G (map (fun '(s, e, _, _) => (s, e)) rows) /\ l = Rsum L (map (fun '(s, e, _, _) => (s, e)) rows) /\
  forall c, tiles 1 (d2 + 1) c -> no_better p (1 - p) g l (Rsum G c) (Rsum L c).
Proof.
  intros th micro d0 d1 d2 fuel r p g l C Hn E Iq _ _ rows G L.
  destruct (C59_ordered RA id_num (fun _ => True) th irr_RA (real_bisectable _) I I zero_one_RA micro d0 d1 d2 fuel r C Hn E) as ((So & _) & Tl & m & o & t & Em & Ec & En & St & Bx).
  pose proof (nested_prf micro d0 d1 d2 C) as Em'. change (RP Rpar) with RA in *. rewrite Em in Em'. inversion Em'; subst m. clear Em'. pose proof C as (_ & H0 & H1 & H2 & _).
  set (v := ov3_of RA (r_nested micro d0 d1 d2)) in *.
  assert (R3 : rect3 (r_nested micro d0 d1 d2) d1 d2 /\ vlen (r_nested micro d0 d1 d2) = d0) by (split; [apply nested_rect|apply nested_len]; lia).
  destruct R3 as [R3 L3]. destruct (size3_rect _ _ d0 d1 d2 L3 H0 H1 R3) as (S1 & S2 & S3).
  assert (Ho : @ov_osize RA v = d2) by exact S3.
  assert (D : odata_ok v (r_series micro d0 d1 d2)).
  { split; [change (0 <= size1 (r_nested micro d0 d1 d2) * size2 (r_nested micro d0 d1 d2)); rewrite S1, S2; nia|]. split; [change (0 <= @ov_osize RA v <= 65535); rewrite Ho; lia|]. rewrite <- series_nested. apply (ov3_rows Rpar). rewrite S2, S3. exact R3. }
  destruct (o_compute_data Rpar v _ D) as (t1 & E1 & T1). change (RP Rpar) with RA in *. rewrite Ec in E1. inversion E1; subst o.
  destruct (o_normalized Rpar v _ t1 D ltac:(change (RP Rpar) with RA; lia) T1) as (t2 & E2 & _ & T2). change (RP Rpar) with RA in *. rewrite En in E2. inversion E2; subst t2.
  rewrite Ho in T2.
  assert (TT : forall i j, 0 <= i <= j -> j < d2 -> u_get t i j = Ok (@mkQ RA (G (i + 1, j + 1)) (L (i + 1, j + 1)))).
  { intros i j Hi Hj. rewrite (T2 i j Hi Hj). unfold ogain, oloss, G, L. rewrite !ordered_block by lia. replace (d2 - 1 + 1) with d2 by lia. reflexivity. }
  assert (Ip : In p (map fst (rr_quals r))) by (apply in_map_iff; exists (p, (g, l)); auto).
  destruct (Tl p Ip) as (Tp & q & Iq' & Tq). assert (q = (g, l)) by (apply (quals_unique _ _ _ _ _ So Iq' Iq)). subst q. fold rows in Tp, Tq.
  destruct (Bx p Ip) as (x & Ex & Er). fold rows in Er.
  destruct (C22_ordered RA t d2 p x ltac:(lia) St Ex) as (Qx & _ & _). destruct (C19_ordered_tiles RA t d2 p ltac:(lia) St) as (x' & Ex' & _ & Tx). rewrite Ex in Ex'. injection Ex' as <-.
  assert (Bp : forall y, In y (on_parts x) -> 0 <= op_start y <= op_end y /\ op_end y < d2).
  { intros y Iy. apply (tiles_In _ _ _ Tx). apply in_map_iff. exists y. auto. }
  assert (Qv : forall y, In y (on_parts x) -> op_quality y = @mkQ RA (G (op_start y + 1, op_end y + 1)) (L (op_start y + 1, op_end y + 1))).
  { intros y Iy. destruct (Bp y Iy) as (B1 & B2). pose proof (Qx y Iy) as K. rewrite (TT _ _ B1 B2) in K. injection K as <-. reflexivity. }
  assert (Gl : g = Rsum (fun y : opart RA => gain (op_quality y)) (on_parts x) /\ l = Rsum (fun y : opart RA => loss (op_quality y)) (on_parts x)).
  { apply (totals_sum _ (fun y : opart RA => gain (op_quality y)) (fun y => loss (op_quality y))). rewrite Er, map_map in Tq. exact Tq. }
  split.
  { intros s e g' l' Ir. rewrite Er in Ir. apply in_map_iff in Ir. destruct Ir as (y & K & Iy). rewrite (Qv y Iy) in K. cbn [gain loss] in K. injection K as <- <- <- <-. auto. }
  split; [|split].
  - rewrite (proj1 Gl), Er, map_map, Rsum_map. apply Rsum_ext. intros y Iy. rewrite (Qv y Iy). reflexivity.
  - rewrite (proj2 Gl), Er, map_map, Rsum_map. apply Rsum_ext. intros y Iy. rewrite (Qv y Iy). reflexivity.
  - intros c Tc.
    assert (Tc' : tiles 0 d2 (map (fun k => (fst k + -1, snd k + -1)) c)). { apply (tiles_shift (-1)) in Tc. replace (1 + -1) with 0 in Tc by lia. replace (d2 + 1 + -1) with d2 in Tc by lia. exact Tc. }
    assert (Bc : forall s e, In (s, e) c -> 1 <= s <= e /\ e < d2 + 1) by (intros s e Ic; exact (tiles_In _ _ _ Tc s e Ic)).
    assert (Mc : mmap (fun ab => u_get t (fst ab) (snd ab)) (map (fun k => (fst k + -1, snd k + -1)) c) = Ok (map (fun k => @mkQ RA (G k) (L k)) c)).
    { rewrite mmap_comp. apply mmap_map. intros [s e] Ic. destruct (Bc s e Ic) as (B1 & B2). cbn [fst snd]. rewrite TT by lia. replace (s + -1 + 1) with s by lia. replace (e + -1 + 1) with e by lia. reflexivity. }
    pose proof (C23_ordered_optimal_real t d2 p x _ _ ltac:(lia) St Ex Tc' Mc) as Op. rewrite !Rsum_map in Op. cbn [gain loss] in Op.
    destruct (C22_ordered RA t d2 p x ltac:(lia) St Ex) as (_ & Gx & Lx).
    assert (Fs : forall f : opart RA -> R, fold_left Rplus (map f (on_parts x)) 0%R = Rsum f (on_parts x)).
    { intro f. pose proof (col_sum (map f (on_parts x))) as K. unfold column_sum in K. cbn [n_zero n_add RA] in K. change (fold_left Rplus (map f (on_parts x)) 0%R = Rsum (fun x => x) (map f (on_parts x))) in K. rewrite K, Rsum_map. reflexivity. }
    assert (g = gain (on_quality x)) by (rewrite Gx, (proj1 Gl); symmetry; apply Fs). assert (l = loss (on_quality x)) by (rewrite Lx, (proj2 Gl); symmetry; apply Fs). subst g l. exact Op.
Qed.
Print Assumptions C72_ordered.

Lemma fold_Rsum : forall X (f : X -> R) l, fold_left (n_add RA) (map f l) (n_zero RA) = Rsum f l.
Proof. intros X f l. pose proof (col_sum (map f l)) as K. rewrite Rsum_map in K. exact K. Qed.

Lemma leavesof_bound : forall L ps h x, In x (leavesof L ps h) -> 0 <= x < L.
Proof. intros L ps h x K. apply filter_In in K. destruct K as [K _]. apply In_zrange in K. exact K. Qed.

Lemma one_div : forall a b : R, b <> 0%R -> (a / (b / b))%R = a.
Proof. intros a b H. field. exact H. Qed.

(** ** Hierarchical *)
Lemma hier_block : forall f micro d0 d1 d2 h m y, m_leaves m = d0 -> m_parents m = from0 h ->
  Rsum (fun c => f (hcells m c y)) (r_columns micro d0 d1 d2) = subtree f micro d0 d1 d2 h (y + 1).
Proof.
  intros f micro d0 d1 d2 h m y El Ep. unfold r_columns, subtree. rewrite Rsum_map. apply Rsum_ext. intros [j k] _. f_equal. unfold hcells. rewrite El, Ep. replace (y + 1 - 1) with y by lia.
  apply map_ext_in. intros x K. apply leavesof_bound in K. rewrite (elt_map _ _ _ 0) by (rewrite upto_vlen; lia). rewrite elt_upto by lia. reflexivity.
Qed.

(** What haggregate returns ([root] counted from 1): the values in Partitions are the gain and loss of the nodes, divided by those of the root unless the node comes
    after the root; those in Qualities are their sums; no other set of nodes that covers every element once is better, and those that are as good only cut the nodes returned. *)
Theorem C72_hier : forall (th : R) micro d0 d1 d2 h root fuel r p g l, r_cube micro d0 d1 d2 -> r_tree h d0 (root - 1) -> r_haggregate RA id_num false fuel micro h th = Ok r -> In (p, (g, l)) (rr_quals r) ->
  subtree gain_of micro d0 d1 d2 h root <> 0%R -> subtree loss_of micro d0 d1 d2 h root <> 0%R ->
  let rows := rows_at RA p (rr_parts r) in
  let G := fun x => relative root x (subtree gain_of micro d0 d1 d2 h x) (subtree gain_of micro d0 d1 d2 h root) in
  let L := fun x => relative root x (subtree loss_of micro d0 d1 d2 h x) (subtree loss_of micro d0 d1 d2 h root) in
  (forall x s g' l', In (x, s, g', l') rows -> g' = G x /\ l' = L x) /\
  g = Rsum G (map (fun '(x, _, _, _) => x) rows) /\ l = Rsum L (map (fun '(x, _, _, _) => x) rows) /\
  forall c, node_cover d0 (from0 h) (map (fun x => x - 1) c) ->
    (p * Rsum G c - (1 - p) * Rsum L c <= p * g - (1 - p) * l)%R /\
    ((p * Rsum G c - (1 - p) * Rsum L c = p * g - (1 - p) * l)%R -> forall x, In x c -> exists y s g' l', In (y, s, g', l') rows /\ below (from0 h) (x - 1) (y - 1)).
Proof.
  intros th micro d0 d1 d2 h root fuel r p g l C Tr E Iq NG NL rows G L.
  destruct (C59_hier RA id_num (fun _ => True) th irr_RA (real_bisectable _) I I zero_one_RA micro d0 d1 d2 h _ fuel r C Tr E) as ((So & _) & Tl & m & v & o & t & Em & Ev & Ec & En & St & Bx).
  destruct (h_setup RA micro d0 d1 d2 h _ C Tr) as (m' & v' & t0 & t' & q0 & Em1 & Ev1 & Sh & W & El & Ep & Ero & Ehs & Ec1 & En1 & Lt0 & _ & _).
  rewrite Em in Em1. injection Em1 as <-. rewrite Ev in Ev1. injection Ev1 as <-. rewrite Ec in Ec1. injection Ec1 as ->. clear En1.
  pose proof (nested_prf micro d0 d1 d2 C) as Em'. rewrite Em in Em'. injection Em' as ->. pose proof C as (_ & H0 & H1 & H2 & _). destruct Tr as (V & U0 & Hh).
  pose proof (nested_rect micro d0 d1 d2 ltac:(lia) ltac:(lia)) as R3. pose proof (nested_len micro d0 d1 d2 ltac:(lia)) as L3.
  destruct (size3_rect _ _ d0 d1 d2 L3 H0 H1 R3) as (S1 & S2 & S3).
  assert (D : hdata_ok v (r_columns micro d0 d1 d2)).
  { destruct (hv3_data Rpar (map (fun x => x - 1) h) (root - 1) ltac:(unfold vlen; rewrite map_length; exact Hh) (r_nested micro d0 d1 d2)) as (v' & Ev' & _ & D).
    - rewrite L3. exact V.
    - rewrite L3. exact U0.
    - rewrite S2, S3. exact R3.
    - change (RP Rpar) with RA in *. rewrite Ev in Ev'. injection Ev' as <-. rewrite S2, S3, columns_nested in D by lia. exact D. }
  destruct (h_compute_prf Rpar v _ D) as (t1 & E1 & T0). change (RP Rpar) with RA in *. rewrite Ec in E1. injection E1 as <-. destruct T0 as [_ T0]. change (RP Rpar) with RA in T0.
  pose proof (root_node _ W) as Hr. rewrite Ero in Hr.
  assert (TV : forall y, 0 <= y < vlen h -> vget t0 y = Ok (@mkQ RA (subtree gain_of micro d0 d1 d2 h (y + 1)) (subtree loss_of micro d0 d1 d2 h (y + 1)))).
  { intros y Hy. rewrite (T0 y) by lia. unfold hgain, hloss. rewrite !(hier_block _ micro d0 d1 d2 h) by auto. reflexivity. }
  assert (Er : vget t0 (m_root (hv_meta v)) = Ok (@mkQ RA (subtree gain_of micro d0 d1 d2 h root) (subtree loss_of micro d0 d1 d2 h root))).
  { rewrite Ero, TV by lia. replace (root - 1 + 1) with root by lia. reflexivity. }
  destruct (h_normalize_prf RA (Some v) t0 _ _ W ltac:(lia) Er) as (t2 & E2 & _ & N1 & N2). rewrite En in E2. injection E2 as <-. rewrite Ero in N1, N2.
  assert (TT : forall y, 0 <= y < vlen h -> vget t y = Ok (@mkQ RA (G (y + 1)) (L (y + 1)))).
  { intros y Hy. unfold G, L, relative. destruct (Z.leb_spec (y + 1) root) as [Le|Gt].
    - rewrite (N1 y _ ltac:(lia) (TV y Hy)). reflexivity.
    - rewrite (N2 y _ ltac:(lia) (TV y Hy)). cbn [gain loss]. change (n_div RA) with Rdiv. rewrite !one_div by assumption. reflexivity. }
  assert (Ip : In p (map fst (rr_quals r))) by (apply in_map_iff; exists (p, (g, l)); auto).
  destruct (Tl p Ip) as (Tp & _ & q & Iq' & Tq). assert (q = (g, l)) by (apply (quals_unique _ _ _ _ _ So Iq' Iq)). subst q. fold rows in Tp, Tq.
  destruct (Bx p Ip) as (x & Ex & Err). fold rows in Err. assert (Hs : 2 <= m_hsize (hv_meta v)) by lia. assert (Lt' : vlen t = m_hsize (hv_meta v)) by lia.
  destruct (C22_hier _ W Hs RA t p x Lt' Ex) as (Qx & Gx & Lx). destruct (C20_hier_cover _ W Hs RA t p Lt') as (x' & Ex' & _ & (_ & Nx & _) & _). rewrite Ex in Ex'. injection Ex' as <-.
  assert (Qv : forall y, In y (hn_parts x) -> hp_quality y = @mkQ RA (G (hp_h y + 1)) (L (hp_h y + 1))).
  { intros y Iy. pose proof (Nx (hp_h y) (in_map hp_h _ _ Iy)) as B. unfold node in B. rewrite Ep in B. unfold vlen in B. rewrite map_length in B. pose proof (Qx y Iy) as K. rewrite TT in K by (unfold vlen; lia). injection K as <-. reflexivity. }
  assert (Gl : g = Rsum (fun y : hpart RA => gain (hp_quality y)) (hn_parts x) /\ l = Rsum (fun y : hpart RA => loss (hp_quality y)) (hn_parts x)).
  { apply (totals_sum _ (fun y : hpart RA => gain (hp_quality y)) (fun y => loss (hp_quality y))). rewrite Err, map_map in Tq. exact Tq. }
  split.
  { intros s e g' l' Ir. rewrite Err in Ir. apply in_map_iff in Ir. destruct Ir as (y & K & Iy). rewrite (Qv y Iy) in K. cbn [gain loss] in K. injection K as <- <- <- <-. auto. }
  split; [|split].
  - rewrite (proj1 Gl), Err, map_map, Rsum_map. apply Rsum_ext. intros y Iy. rewrite (Qv y Iy). reflexivity.
  - rewrite (proj2 Gl), Err, map_map, Rsum_map. apply Rsum_ext. intros y Iy. rewrite (Qv y Iy). reflexivity.
  - intros c Tc.
    assert (Mc : mmap (vget t) (map (fun k => k - 1) c) = Ok (map (fun k => @mkQ RA (G k) (L k)) c)).
    { rewrite mmap_comp. apply mmap_map. intros y Ic. destruct Tc as (_ & Nc & _). pose proof (Nc _ (in_map (fun k => k - 1) _ _ Ic)) as B. unfold node, from0, vlen in B. rewrite map_length in B. rewrite TT by (unfold vlen; lia). replace (y - 1 + 1) with y by lia. reflexivity. }
    assert (Tc' : node_cover (m_leaves (hv_meta v)) (m_parents (hv_meta v)) (map (fun k => k - 1) c)) by (rewrite El, Ep; exact Tc).
    pose proof (C24_hier_optimal_real _ W Hs t p x _ _ Lt' Ex Tc' Mc) as [Op Oe]. rewrite !Rsum_map in Op, Oe. cbn [gain loss] in Op, Oe.
    assert (Eg : g = gain (hn_quality x)) by (rewrite Gx, (proj1 Gl); symmetry; apply fold_Rsum). assert (Elo : l = loss (hn_quality x)) by (rewrite Lx, (proj2 Gl); symmetry; apply fold_Rsum). rewrite Eg, Elo. split; [exact Op|].
    intros Eq y Iy. destruct (Oe Eq (y - 1) (in_map (fun k => k - 1) _ _ Iy)) as (z & Iz & Bz). rewrite Ep in Bz.
    exists (hp_h z + 1), (hp_size z), (gain (hp_quality z)), (loss (hp_quality z)). split; [|replace (hp_h z + 1 - 1) with (hp_h z) by lia; exact Bz].
    rewrite Err. apply in_map_iff. exists z. auto.
Qed.
Print Assumptions C72_hier.

(** ** Spatiotemporal *)
Lemma spatio_block : forall f micro d0 d1 d2 h m y i j, m_leaves m = d0 -> m_parents m = from0 h -> 0 <= i <= j -> j < d2 ->
  Rsum (fun c => f (dcells m c y i j)) (map (fun jj => map (fun x => map (fun kk => r_val micro x jj kk) (upto d2)) (upto d0)) (upto d1)) = rectangle f micro d0 d1 h (y + 1) (i + 1) (j + 1).
Proof.
  intros f micro d0 d1 d2 h m y i j El Ep Hi Hj. unfold rectangle. rewrite Rsum_map. apply Rsum_ext. intros ty _. f_equal. unfold dcells. rewrite El, Ep. replace (y + 1 - 1) with y by lia.
  rewrite !flat_map_concat_map. f_equal. apply map_ext_in. intros x K. apply leavesof_bound in K. rewrite (elt_map _ _ _ 0) by (rewrite upto_vlen; lia). rewrite elt_upto by lia.
  rewrite slice_map, slice_zrange by lia. reflexivity.
Qed.

(** What daggregate returns: as for haggregate, with the rectangles (node, first slice, last slice); no other cover in which time never moves up the tree is better. *)
Theorem C72_spatio : forall (th : R) micro d0 d1 d2 h root fuel r p g l, r_cube micro d0 d1 d2 -> d2 <= 65535 -> r_tree h d0 (root - 1) -> r_daggregate RA id_num false fuel micro h th = Ok r -> In (p, (g, l)) (rr_quals r) ->
  rectangle gain_of micro d0 d1 h root 1 d2 <> 0%R -> rectangle loss_of micro d0 d1 h root 1 d2 <> 0%R ->
  let rows := rows_at RA p (rr_parts r) in
  let G := fun '(x, s, e) => relative root x (rectangle gain_of micro d0 d1 h x s e) (rectangle gain_of micro d0 d1 h root 1 d2) in
  let L := fun '(x, s, e) => relative root x (rectangle loss_of micro d0 d1 h x s e) (rectangle loss_of micro d0 d1 h root 1 d2) in
  (forall x z s e g' l', In (x, z, s, e, g', l') rows -> g' = G (x, s, e) /\ l' = L (x, s, e)) /\
  never_up d0 (from0 h) (map (fun '(x, _, s, e, _, _) => (x - 1, s - 1, e - 1)) rows) /\
  g = Rsum G (map (fun '(x, _, s, e, _, _) => (x, s, e)) rows) /\ l = Rsum L (map (fun '(x, _, s, e, _, _) => (x, s, e)) rows) /\
  forall c, let c0 := map (fun '(x, s, e) => (x - 1, s - 1, e - 1)) c in rect_cover d0 (from0 h) d2 c0 -> never_up d0 (from0 h) c0 -> no_better p (1 - p) g l (Rsum G c) (Rsum L c).
Proof.
  intros th micro d0 d1 d2 h root fuel r p g l C Hn Tr E Iq NG NL rows G L.
  destruct (C59_spatio RA id_num (fun _ => True) th irr_RA (real_bisectable _) I I zero_one_RA micro d0 d1 d2 h _ fuel r C Hn Tr E) as ((So & _) & Tl & m & v & o & t & Em & Ev & Ec & En & St & Ft & Bx).
  destruct (d_setup RA micro d0 d1 d2 h _ C Hn Tr) as (m' & v' & t0 & t' & q0 & Em1 & Ev1 & Sh & Eo & W & El & Ep & Ero & Ehs & Ec1 & En1 & (Lt0 & Ft0) & _ & _).
  rewrite Em in Em1. injection Em1 as <-. rewrite Ev in Ev1. injection Ev1 as <-. rewrite Ec in Ec1. injection Ec1 as ->. clear En1.
  pose proof (nested_prf micro d0 d1 d2 C) as Em'. rewrite Em in Em'. injection Em' as ->. pose proof C as (_ & H0 & H1 & H2 & _). destruct Tr as (V & U0 & Hh).
  pose proof (nested_rect micro d0 d1 d2 ltac:(lia) ltac:(lia)) as R3. pose proof (nested_len micro d0 d1 d2 ltac:(lia)) as L3.
  destruct (size3_rect _ _ d0 d1 d2 L3 H0 H1 R3) as (S1 & S2 & S3). set (comps := columns [] d1 (r_nested micro d0 d1 d2)).
  assert (D : ddata_ok v comps).
  { destruct (dv3_data Rpar (map (fun x => x - 1) h) (root - 1) ltac:(unfold vlen; rewrite map_length; exact Hh) (r_nested micro d0 d1 d2)) as (v' & Ev' & _ & _ & D).
    - rewrite L3. exact V.
    - rewrite L3. exact U0.
    - rewrite S2, S3. exact R3.
    - rewrite S3. lia.
    - change (RP Rpar) with RA in *. rewrite Ev in Ev'. injection Ev' as <-. rewrite S2 in D. exact D. }
  assert (Cd : comps = map (fun j => map (fun i => map (fun kk => r_val micro i j kk) (upto d2)) (upto d0)) (upto d1)).
  { apply (columns_swap _ _ _ [] (fun i j => map (fun kk => r_val micro i j kk) (upto d2))). apply upto_len. lia. }
  destruct (d_compute_prf Rpar v _ D) as (t1 & E1 & T0). change (RP Rpar) with RA in *. rewrite Ec in E1. injection E1 as <-. destruct T0 as (_ & _ & T0). change (RP Rpar) with RA in T0.
  pose proof (root_node _ W) as Hr. rewrite Ero in Hr.
  assert (TV : forall y i j, 0 <= y < vlen h -> 0 <= i <= j -> j < d2 -> mm_get t0 y i j = Ok (@mkQ RA (rectangle gain_of micro d0 d1 h (y + 1) (i + 1) (j + 1)) (rectangle loss_of micro d0 d1 h (y + 1) (i + 1) (j + 1)))).
  { intros y i j Hy Hi Hj. rewrite (T0 y i j) by lia. unfold dgain, dloss. rewrite Cd, !(spatio_block _ micro d0 d1 d2 h) by auto. reflexivity. }
  assert (Er : mm_get t0 (m_root (dv_meta v)) 0 (dv_osize v - 1) = Ok (@mkQ RA (rectangle gain_of micro d0 d1 h root 1 d2) (rectangle loss_of micro d0 d1 h root 1 d2))).
  { rewrite Ero, Eo, TV by lia. replace (root - 1 + 1) with root by lia. replace (d2 - 1 + 1) with d2 by lia. reflexivity. }
  destruct (d_normalize_prf RA v t0 _ _ W ltac:(lia) ltac:(lia) ltac:(rewrite Eo; exact Ft0) Er) as (t2 & E2 & _ & _ & N1 & N2). rewrite En in E2. injection E2 as <-. rewrite Ero, ?Eo in N1, N2.
  assert (TT : forall y i j, 0 <= y < vlen h -> 0 <= i <= j -> j < d2 -> mm_get t y i j = Ok (@mkQ RA (G (y + 1, i + 1, j + 1)) (L (y + 1, i + 1, j + 1)))).
  { intros y i j Hy Hi Hj. unfold G, L, relative. destruct (Z.leb_spec (y + 1) root) as [Le|Gt].
    - rewrite (N1 y i j _ ltac:(lia) ltac:(lia) ltac:(lia) (TV y i j Hy Hi Hj)). reflexivity.
    - rewrite (N2 y i j _ ltac:(lia) ltac:(lia) ltac:(lia) (TV y i j Hy Hi Hj)). cbn [gain loss]. change (n_div RA) with Rdiv. rewrite !one_div by assumption. reflexivity. }
  assert (Ip : In p (map fst (rr_quals r))) by (apply in_map_iff; exists (p, (g, l)); auto).
  destruct (Tl p Ip) as (Tp & _ & q & Iq' & Tq). assert (q = (g, l)) by (apply (quals_unique _ _ _ _ _ So Iq' Iq)). subst q. fold rows in Tp, Tq.
  destruct (Bx p Ip) as (x & Ex & Err). fold rows in Err. assert (Lt' : vlen t = m_hsize (dv_meta v)) by lia. assert (Hn' : 1 <= d2 <= 65535) by lia.
  destruct (C22_spatio _ W RA t d2 p x Hn' Lt' Ft Ex) as (Qx & Gx & Lx). destruct (C21_spatio_cover _ W RA t d2 p Hn' Lt' Ft) as (x' & Ex' & _ & (_ & Rx & _) & Nu & _). rewrite Ex in Ex'. injection Ex' as <-.
  assert (Qv : forall y, In y (dn_parts x) -> dp_quality y = @mkQ RA (G (dp_h y + 1, dp_start y + 1, dp_end y + 1)) (L (dp_h y + 1, dp_start y + 1, dp_end y + 1))).
  { intros y Iy. destruct (Rx _ _ _ (in_map (fun y => (dp_h y, dp_start y, dp_end y)) _ _ Iy)) as (B1 & B2 & B3). unfold node in B1. rewrite Ep in B1. unfold vlen in B1. rewrite map_length in B1. pose proof (Qx y Iy) as K. rewrite TT in K by (unfold vlen; lia). injection K as <-. reflexivity. }
  assert (Gl : g = Rsum (fun y : dpart RA => gain (dp_quality y)) (dn_parts x) /\ l = Rsum (fun y : dpart RA => loss (dp_quality y)) (dn_parts x)).
  { apply (totals_sum _ (fun y : dpart RA => gain (dp_quality y)) (fun y => loss (dp_quality y))). rewrite Err, map_map in Tq. exact Tq. }
  split.
  { intros x0 z s e g' l' Ir. rewrite Err in Ir. apply in_map_iff in Ir. destruct Ir as (y & K & Iy). rewrite (Qv y Iy) in K. cbn [gain loss] in K. injection K as <- <- <- <- <- <-. auto. }
  split; [|split; [|split]].
  - rewrite Err, map_map. rewrite El, Ep in Nu. rewrite (map_ext _ (fun y => (dp_h y, dp_start y, dp_end y))); [exact Nu|]. intro y. cbn. rewrite !Z.add_simpl_r. reflexivity.
  - rewrite (proj1 Gl), Err, map_map, Rsum_map. apply Rsum_ext. intros y Iy. rewrite (Qv y Iy). reflexivity.
  - rewrite (proj2 Gl), Err, map_map, Rsum_map. apply Rsum_ext. intros y Iy. rewrite (Qv y Iy). reflexivity.
  - intros c c0 Tc Nc.
    assert (Mc : mmap (fun '(h, a, b) => mm_get t h a b) c0 = Ok (map (fun k => @mkQ RA (G k) (L k)) c)).
    { unfold c0. rewrite mmap_comp. apply mmap_map. intros [[y s] e] Ic. destruct Tc as (_ & Nr & _). destruct (Nr _ _ _ (in_map (fun '(x, s, e) => (x - 1, s - 1, e - 1)) _ _ Ic)) as (B & B2 & B3). unfold node, from0, vlen in B. rewrite map_length in B. rewrite TT by (unfold vlen; lia). replace (y - 1 + 1) with y by lia. replace (s - 1 + 1) with s by lia. replace (e - 1 + 1) with e by lia. reflexivity. }
    assert (Tc' : rect_cover (m_leaves (dv_meta v)) (m_parents (dv_meta v)) d2 c0) by (rewrite El, Ep; exact Tc).
    assert (Nc' : never_up (m_leaves (dv_meta v)) (m_parents (dv_meta v)) c0) by (rewrite El, Ep; exact Nc).
    pose proof (C26_spatio_optimal_real _ W t d2 p x _ _ Hn' Lt' Ft Ex Tc' Nc' Mc) as Op. rewrite !Rsum_map in Op. cbn [gain loss] in Op.
    assert (Eg : g = gain (dn_quality x)) by (rewrite Gx, (proj1 Gl); symmetry; apply fold_Rsum). assert (Elo : l = loss (dn_quality x)) by (rewrite Lx, (proj2 Gl); symmetry; apply fold_Rsum). rewrite Eg, Elo. exact Op.
Qed.
Print Assumptions C72_spatio.

(** ** The array of C60_nonvacuous meets the hypotheses of all three: the totals are not zero, so the call succeeds and row 0 of Qualities is there. *)
Example C72_nonvacuous : r_cube ex_micro 2 1 2 /\ r_tree [3; 3; 0] 2 (3 - 1) /\
  interval gain_of ex_micro 2 1 1 2 <> 0%R /\ interval loss_of ex_micro 2 1 1 2 <> 0%R /\
  subtree gain_of ex_micro 2 1 2 [3; 3; 0] 3 <> 0%R /\ subtree loss_of ex_micro 2 1 2 [3; 3; 0] 3 <> 0%R /\
  rectangle gain_of ex_micro 2 1 [3; 3; 0] 3 1 2 <> 0%R /\ rectangle loss_of ex_micro 2 1 [3; 3; 0] 3 1 2 <> 0%R /\
  (exists r q, r_oaggregate RA id_num false 11 ex_micro (/ 1000)%R = Ok r /\ In (0%R, q) (rr_quals r)) /\
  (exists r q, r_haggregate RA id_num false 11 ex_micro [3; 3; 0] (/ 1000)%R = Ok r /\ In (0%R, q) (rr_quals r)) /\
  (exists r q, r_daggregate RA id_num false 11 ex_micro [3; 3; 0] (/ 1000)%R = Ok r /\ In (0%R, q) (rr_quals r)).
Proof.
  destruct ex_log3 as [L3 L4].
  assert (G : Rsum gain_of [[1; 1]; [1; 0]]%R = 2%R) by (unfold Rsum; cbn [map fold_right]; rewrite ex_g11, ex_g10; ring).
  assert (Ls : Rsum loss_of [[1; 1]; [1; 0]]%R = 1%R).
  { unfold Rsum; cbn [map fold_right]. unfold loss_of. rewrite ex_g11, ex_g10. change (vlen [1; 1]%R) with 2. change (vlen [1; 0]%R) with 2. rewrite log2_2. unfold total, Rsum. cbn [map fold_right]. ring. }
  assert (G3 : Rsum gain_of [[1; 1; 1; 0]]%R = (3 * log2 3)%R) by (unfold Rsum; cbn [map fold_right]; rewrite ex_g1110; ring).
  assert (Ls3 : Rsum loss_of [[1; 1; 1; 0]]%R = (6 - 3 * log2 3)%R).
  { unfold Rsum; cbn [map fold_right]. unfold loss_of. rewrite ex_g1110. change (vlen [1; 1; 1; 0]%R) with 4. rewrite L4. unfold total, Rsum. cbn [map fold_right]. ring. }
  assert (Q0 : forall Row (r : rresult RA Row), frames_ok RA (p_one RA) r -> exists q, In (0%R, q) (rr_quals r)).
  { intros Row r (_ & Hd & _). destruct (rr_quals r) as [|[a q] l]; [discriminate|]. cbn [map fst hd_error] in Hd. injection Hd as ->. exists q. left. reflexivity. }
  split; [exact ex_cube|]. split; [exact ex_r_tree|].
  split; [change (Rsum gain_of [[1; 1]; [1; 0]]%R <> 0%R); lra|]. split; [change (Rsum loss_of [[1; 1]; [1; 0]]%R <> 0%R); lra|].
  split; [change (Rsum gain_of [[1; 1]; [1; 0]]%R <> 0%R); lra|]. split; [change (Rsum loss_of [[1; 1]; [1; 0]]%R <> 0%R); lra|].
  split; [change (Rsum gain_of [[1; 1; 1; 0]]%R <> 0%R)|split; [change (Rsum loss_of [[1; 1; 1; 0]]%R <> 0%R)|]]; try lra.
  destruct C60_nonvacuous as (_ & _ & _ & (r1 & E1 & _) & (r2 & E2 & _) & (r3 & E3 & _)).
  split; [|split].
  - destruct (C59_ordered RA id_num (fun _ => True) _ irr_RA (real_bisectable _) I I zero_one_RA _ _ _ _ _ r1 ex_cube ltac:(lia) E1) as (F & _). destruct (Q0 _ _ F) as (q & Iq). exists r1, q. auto.
  - destruct (C59_hier RA id_num (fun _ => True) _ irr_RA (real_bisectable _) I I zero_one_RA _ _ _ _ _ _ _ r2 ex_cube ex_r_tree E2) as (F & _). destruct (Q0 _ _ F) as (q & Iq). exists r2, q. auto.
  - destruct (C59_spatio RA id_num (fun _ => True) _ irr_RA (real_bisectable _) I I zero_one_RA _ _ _ _ _ _ _ r3 ex_cube ltac:(lia) ex_r_tree E3) as (F & _). destruct (Q0 _ _ F) as (q & Iq). exists r3, q. auto.
Qed.
Print Assumptions C72_nonvacuous.
