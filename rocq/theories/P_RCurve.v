(** * Property C60: the trade-off curve, POpt and AUC returned by the three R functions, in exact arithmetic.

    [r_oaggregate RA id false fuel micro th]: qualities and parameters are real numbers and nothing is rounded. [closest],
    [unit_curve], [r_series], [r_columns], [r_slabs] are in SpecR.v; [trapezoids] in SpecSearch.v; [gain_of], [loss_of] in SpecInfo.v. *)
From Coq Require Import Lia Sorting.Sorted Reals Lra.
From Verif Require Import Base BaseFacts Arith Quality Utm UtmFacts UtmProofs Hierarchy SpecTree TreeFacts HierarchyFacts HierarchyProofs TreeDec SpecParts SpecInfo Values Qualities Partitions Partitioners
  TreePath CoverFacts InfoFacts InfoFacts OInfo DataFacts DataCons OProofs HProofs DProofs ODataProofs HDataProofs DDataProofs SpecData SpecValues ValuesFacts ValuesProofs QualInv DegFacts
  Search SpecSearch SearchFacts SearchProofs SearchReal SearchInst SearchGet AucData P_Ordered P_Hier P_Spatio P_OrderedData P_Search P_SearchGet P_Session RApi SpecR RFacts P_RApi.

Notation id_num := (fun x : num RA => x).

(** ** The data *)
Lemma upto_shift : forall d, 0 <= d -> upto d = map (fun x => x + 1) (zrange 0 d).
Proof.
  intros d Hd. apply vget_ext. { unfold upto, vlen. rewrite map_length, !zrange_length. lia. }
  intros i Hi. unfold upto in *. rewrite vlen_zrange in Hi by lia. rewrite vget_zrange by lia. rewrite (vget_map _ _ _ _ i i); [f_equal; lia|]. rewrite vget_zrange by lia. f_equal; lia.
Qed.

Definition r_nested (micro : rarray RA) (d0 d1 d2 : Z) : list (list (list R)) :=
  map (fun i => map (fun j => map (fun k => r_val micro i j k) (upto d2)) (upto d1)) (upto d0).

Lemma nested_prf : forall micro d0 d1 d2, r_cube micro d0 d1 d2 -> convertToMicroModel RA micro = Ok (r_nested micro d0 d1 d2).
Proof.
  intros micro d0 d1 d2 C. destruct (micro_prf RA micro d0 d1 d2 C) as (m & E & L & R3 & G). rewrite E. f_equal. destruct C as (_ & H0 & H1 & H2 & _). change (num RA) with R in *.
  unfold r_nested. rewrite (upto_shift d0), (upto_shift d1), (upto_shift d2), map_map by lia.
  rewrite (list_elt _ [] m), L. apply map_ext_in. intros i Hi. apply In_zrange in Hi.
  pose proof (elt_vget _ [] m i ltac:(lia)) as Ei.
  assert (Ri : vlen (elt [] m i) = d1 /\ rect2 (elt [] m i) d2). { apply (proj1 (Forall_forall _ _) R3). unfold elt. apply nth_In. unfold vlen in L. lia. }
  rewrite map_map. rewrite (list_elt _ [] (elt [] m i)), (proj1 Ri). apply map_ext_in. intros j Hj. apply In_zrange in Hj.
  pose proof (elt_vget _ [] (elt [] m i) j ltac:(lia)) as Ej. set (row := elt [] m i) in *.
  assert (Rj : vlen (elt [] row j) = d2). { destruct Ri as [R1 R2]. apply (proj1 (Forall_forall _ _) R2). unfold elt. apply nth_In. unfold vlen in R1. lia. }
  rewrite map_map. rewrite (list_elt _ 0%R (elt [] row j)), Rj. apply map_ext_in. intros k Hk. apply In_zrange in Hk.
  destruct (G i j k Hi Hj Hk) as (x & Ex & Er). unfold r_val. rewrite Er. unfold vget3, vget2 in Ex. rewrite Ei in Ex. cbn [bind] in Ex. rewrite Ej in Ex. cbn [bind] in Ex.
  rewrite (elt_vget _ 0%R) in Ex by (rewrite Rj; auto). inversion Ex. auto.
Qed.

Lemma concat_prod : forall (X Y W : Type) (f : X -> Y -> W) js ks, concat (map (fun j => map (f j) ks) js) = map (fun '(j, k) => f j k) (list_prod js ks).
Proof.
  intros X Y W f js ks. induction js as [|j js IH]; [reflexivity|]. cbn [map concat list_prod]. rewrite map_app, map_map, IH. reflexivity.
Qed.

Lemma columns_swap : forall (X Y W : Type) (d : W) (g : X -> Y -> W) (is : list X) (ps : list Y) w, vlen ps = w ->
  columns d w (map (fun i => map (g i) ps) is) = map (fun p => map (fun i => g i p) is) ps.
Proof.
  intros X Y W d g is ps w Hw. unfold columns. apply vget_ext. { unfold vlen. rewrite !map_length, zrange_length. unfold vlen in Hw. lia. }
  intros k Hk. assert (Hk' : 0 <= k < w). { unfold vlen in Hk. rewrite map_length, zrange_length in Hk. unfold vlen in Hw. lia. }
  rewrite (vget_map _ _ _ _ k k) by (rewrite vget_zrange by lia; f_equal; lia).
  destruct (vget_ok _ ps k) as (p & Ep); [lia|]. rewrite (vget_map _ _ _ _ k p Ep). f_equal. rewrite map_map. apply map_ext. intro i.
  pose proof (vget_map _ _ (g i) ps k p Ep) as K. rewrite (elt_vget _ d) in K by (unfold vlen in *; rewrite map_length; lia). inversion K. auto.
Qed.

Lemma upto_len : forall d, 0 <= d -> vlen (upto d) = d.
Proof. intros d Hd. unfold upto. rewrite vlen_zrange by lia. lia. Qed.
Lemma prod_len : forall X Y (a : list X) (b : list Y), vlen (list_prod a b) = vlen a * vlen b.
Proof. intros. unfold vlen. rewrite prod_length. lia. Qed.

Lemma series_nested : forall micro d0 d1 d2, concat (r_nested micro d0 d1 d2) = r_series micro d0 d1 d2.
Proof. intros. apply (concat_prod _ _ _ (fun i j => map (fun k => r_val micro i j k) (upto d2))). Qed.

Lemma columns_nested : forall micro d0 d1 d2, 0 <= d1 -> 0 <= d2 -> columns 0%R (d1 * d2) (map (@concat R) (r_nested micro d0 d1 d2)) = r_columns micro d0 d1 d2.
Proof.
  intros micro d0 d1 d2 H1 H2. unfold r_nested, r_columns. rewrite map_map.
  rewrite (map_ext _ (fun i => map (fun jk => r_val micro i (fst jk) (snd jk)) (list_prod (upto d1) (upto d2)))).
  - rewrite (columns_swap _ _ _ 0%R (fun i jk => r_val micro i (fst jk) (snd jk))) by (rewrite prod_len, !upto_len; lia).
    apply map_ext. intros [j k]. reflexivity.
  - intro i. rewrite (concat_prod _ _ _ (fun j k => r_val micro i j k)). apply map_ext. intros [j k]. reflexivity.
Qed.

Lemma slabs_nested : forall micro d0 d1 d2, 0 <= d1 -> map (@concat R) (columns [] d1 (r_nested micro d0 d1 d2)) = r_slabs micro d0 d1 d2.
Proof.
  intros micro d0 d1 d2 H1. unfold r_nested, r_slabs.
  rewrite (columns_swap _ _ _ [] (fun i j => map (fun k => r_val micro i j k) (upto d2))) by (apply upto_len; lia). rewrite map_map.
  apply map_ext. intro j. apply (concat_prod _ _ _ (fun i k => r_val micro i j k)).
Qed.

Lemma val_nonneg : forall (micro : rarray RA) i j k, nonneg (ra_data micro) -> (0 <= r_val micro i j k)%R.
Proof.
  intros micro i j k H. unfold r_val, r_at. destruct (ra_dim micro) as [|a [|b [|c [|? ?]]]]; try lra. destruct (vget _ _) as [x| |] eqn:E; try lra.
  apply (proj1 (Forall_forall _ _) H). apply vget_In in E. exact E.
Qed.

Lemma slice_whole : forall X (r : list X), slice r 0 (vlen r - 1) = r.
Proof. intros X r. unfold slice. cbn [Z.to_nat skipn]. apply firstn_all2. unfold vlen. lia. Qed.

Lemma nested_len : forall micro d0 d1 d2, 0 <= d0 -> vlen (r_nested micro d0 d1 d2) = d0.
Proof. intros micro d0 d1 d2 H. unfold r_nested, vlen. rewrite map_length. apply upto_len. auto. Qed.
Lemma nested_rect : forall micro d0 d1 d2, 0 <= d1 -> 0 <= d2 -> rect3 (r_nested micro d0 d1 d2) d1 d2.
Proof.
  intros micro d0 d1 d2 H1 H2. apply Forall_map, Forall_forall. intros i _. split; [unfold vlen; rewrite map_length; apply upto_len; auto|].
  apply Forall_map, Forall_forall. intros j _. unfold vlen. rewrite map_length. apply upto_len. auto.
Qed.

Lemma leaves_root : forall m, well_built m -> leavesof (m_leaves m) (m_parents m) (m_root m) = zrange 0 (m_leaves m).
Proof.
  intros m W. unfold leavesof. pose proof (wb_tree m W) as V. assert (K : forall l, (forall x, In x l -> belowb (m_parents m) x (m_root m) = true) -> filter (fun x => belowb (m_parents m) x (m_root m)) l = l).
  { induction l as [|a l IH]; intro H; [reflexivity|]. cbn [filter]. rewrite H by (left; auto). f_equal. apply IH. intros; apply H; right; auto. }
  apply K. intros x Hx. apply In_zrange in Hx. pose proof (vt_L _ _ _ V). destruct (wb_rank m W) as [rank Hr]. apply (belowb_true _ rank Hr); [unfold node; lia|]. apply (vt_reach _ _ _ V). unfold node. lia.
Qed.

(** ** Frames over a search *)
Section G.
Context {Pn Tu Row : Type} (best : R -> res Pn) (qual : Pn -> quality RA) (tuples : Pn -> list Tu) (row : Tu -> Row).

Lemma curve_prf : forall (st : @pstate RA Pn Tu) r, results_agree RA best qual 0%R 1%R (ps_list st) (ps_parts st) (ps_qual st) ->
  r_frames RA id_num row st = Ok r -> closest (rr_quals r) (rr_popt r) /\ (rr_auc r = 1 - trapezoids (map snd (rr_quals r)))%R.
Proof.
  intros st r Ag Ef. unfold r_frames in Ef. apply bind_ok in Ef. destruct Ef as (po & Eo & Ef). apply bind_ok in Ef. destruct Ef as (au & Ea & Ef).
  inversion Ef; subst r. cbn [rr_quals rr_popt rr_auc]. clear Ef. destruct (agree_keyed best qual _ _ st Ag) as [K N]. split.
  - destruct (getP_agree best qual _ _ st Ag) as (_ & _ & H1 & H2 & _).
    assert (D : (exists pq, In pq (ps_qual st) /\ (score (snd pq) <= IZR RAND_MAX)%R) \/ (forall p q, In (p, q) (ps_qual st) -> (IZR RAND_MAX < score q)%R)).
    { clear. induction (ps_qual st) as [|[p q] l [(pq & I1 & I2)|IH]]; [right; intros p q []|left; exists pq; split; [right|]; auto|].
      destruct (Rle_dec (score q) (IZR RAND_MAX)) as [L|L]; [left; exists (p, q); split; [left|]; auto|right; intros p' q' [E|E]; [inversion E; subst; lra|eauto]]. }
    destruct D as [([p q] & I1 & I2)|D]; [|rewrite (H2 D) in Eo; discriminate].
    destruct (H1 p q I1 I2) as (r & qr & Er & Ir & Mn). change (par RA) with R in *. rewrite Eo in Er. inversion Er; subst r.
    exists (gain qr), (loss qr). split. { apply in_map_iff. exists (po, qr). auto. }
    intros p' g' l' Hi. apply in_map_iff in Hi. destruct Hi as ([p2 q2] & Eq & Hi). inversion Eq; subst. exact (Mn _ _ Hi).
  - pose proof (auc_spec st K N) as Au. rewrite Ea in Au. inversion Au. unfold pts. rewrite map_map. reflexivity.
Qed.

Lemma unit_prf : forall (st : @pstate RA Pn Tu), results_agree RA best qual 0%R 1%R (ps_list st) (ps_parts st) (ps_qual st) ->
  (forall p x, best p = Ok x -> (0 <= gain (qual x) <= 1)%R /\ (0 <= loss (qual x) <= 1)%R) ->
  (forall p1 p2 x1 x2, (0 <= p1)%R -> (p1 < p2)%R -> (p2 <= 1)%R -> best p1 = Ok x1 -> best p2 = Ok x2 -> (gain (qual x1) <= gain (qual x2) /\ loss (qual x1) <= loss (qual x2))%R) ->
  exists r, r_frames RA id_num row st = Ok r /\ unit_curve (rr_quals r) /\ (0 <= rr_auc r <= 1)%R.
Proof.
  intros st Ag U M. destruct (auc_agree best qual 0%R 1%R st ltac:(lra) ltac:(lra) Ag ltac:(lra) U) as [(a & Ea & Ha) (po & q & Eo & _)].
  { intros p1 p2 x1 x2 K1 K2 K3 E1 E2. exact (proj1 (M p1 p2 x1 x2 K1 K2 K3 E1 E2)). }
  unfold r_frames. change (par RA) with R in *. rewrite Eo. cbn [bind]. change (num RA) with R in *. rewrite Ea. cbn [bind]. eexists. split; [reflexivity|]. cbn [rr_quals rr_auc]. split; auto.
  destruct Ag as (_ & _ & Rg & _ & Kq & _ & Bq).
  assert (Z01 : forall p q, In (p, q) (ps_qual st) -> (0 <= p <= 1)%R).
  { intros p q' Hi. assert (Hp : In p (ps_list st)) by (rewrite <- Kq; apply (in_map fst _ _ Hi)). destruct (Rg p Hp) as [->|[->|[K1 K2]]]; try lra. apply plt_RA in K1. apply plt_RA in K2. lra. }
  split.
  - intros p g l Hi. apply in_map_iff in Hi. destruct Hi as ([p2 q2] & Eq & Hi). inversion Eq; subst. destruct (Bq _ _ Hi) as (x & Ex & ->). exact (U _ _ Ex).
  - intros p g l p' g' l' Hi Hi' Hle. apply in_map_iff in Hi. destruct Hi as ([p2 q2] & Eq & Hi). inversion Eq; subst. apply in_map_iff in Hi'. destruct Hi' as ([p3 q3] & Eq' & Hi'). inversion Eq'; subst.
    pose proof (Z01 _ _ Hi). pose proof (Z01 _ _ Hi'). destruct (Bq _ _ Hi) as (x & Ex & ->). destruct (Bq _ _ Hi') as (x' & Ex' & ->). cbn [fst] in *.
    destruct Hle as [Hlt|Heq]; [apply (M p p'); auto; lra|]. subst p'. rewrite Ex in Ex'. inversion Ex'; subst. cbn [snd]. split; apply Rle_refl.
Qed.
End G.

Lemma one_RA : p_one RA = 1%R.
Proof. unfold p_one. cbn. lra. Qed.

(** ** Ordered *)
Theorem C60_ordered : forall (th : R) micro d0 d1 d2 fuel r, r_cube micro d0 d1 d2 -> d2 <= 65535 -> r_oaggregate RA id_num false fuel micro th = Ok r ->
  closest (rr_quals r) (rr_popt r) /\ (rr_auc r = 1 - trapezoids (map snd (rr_quals r)))%R.
Proof.
  intros th micro d0 d1 d2 fuel r C Hn E. destruct (o_setup RA micro d0 d1 d2 C Hn) as (m & t0 & t & q0 & Em & Sh & Ho & Ec & En & St0 & St & Gq & Er0).
  destruct C as (_ & H0 & H1 & H2 & _). rewrite Er0, one_RA in E. apply bind_ok in E. destruct E as (st & Es & Ef).
  apply (curve_prf (o_best RA t) on_quality (o_row RA id_num) st r); [|exact Ef]. exact (C30_ordered_real t d2 ltac:(lia) St th fuel _ 0%R 1%R st ltac:(lra) Es).
Qed.
Print Assumptions C60_ordered.

Theorem C60_ordered_total : forall (th : R) (micro : rarray RA) d0 d1 d2 k, r_cube micro d0 d1 d2 -> d2 <= 65535 -> nonneg (ra_data micro) ->
  Rsum gain_of (r_series micro d0 d1 d2) <> 0%R -> Rsum loss_of (r_series micro d0 d1 d2) <> 0%R -> (1 <= th * 2 ^ k)%R ->
  exists r, r_oaggregate RA id_num false (S k) micro th = Ok r /\ unit_curve (rr_quals r) /\ (0 <= rr_auc r <= 1)%R.
Proof.
  intros th micro d0 d1 d2 k C Hn NN G0 L0 Hth. destruct (o_setup RA micro d0 d1 d2 C Hn) as (m & t0 & t & q0 & Em & Sh & Ho & Ec & En & St0 & St & Gq & Er0).
  pose proof (nested_prf micro d0 d1 d2 C) as Em'. rewrite Em in Em'. inversion Em'; subst m. clear Em'. pose proof C as (_ & H0 & H1 & H2 & _).
  rewrite Er0, one_RA.
  destruct (C33_ordered t d2 ltac:(lia) St th 0%R 1%R k (ps_empty RA) ltac:(lra) ltac:(lra)) as (st & Es).
  match goal with |- context [bind ?e _] => replace e with (@Ok _ st) by (symmetry; exact Es) end. cbn [bind].
  set (v := ov3_of RA (r_nested micro d0 d1 d2)) in *.
  assert (R3 : rect3 (r_nested micro d0 d1 d2) d1 d2 /\ vlen (r_nested micro d0 d1 d2) = d0) by (split; [apply nested_rect|apply nested_len]; lia).
  destruct R3 as [R3 L3]. destruct (size3_rect _ _ d0 d1 d2 L3 H0 H1 R3) as (S1 & S2 & S3).
  assert (D : odata_ok v (r_series micro d0 d1 d2)).
  { split; [change (0 <= @ov_vsize RA v); destruct Sh as (_ & _ & _ & _ & -> & _); nia|]. split; [change (0 <= @ov_osize RA v <= 65535); rewrite Ho; lia|]. rewrite <- series_nested. apply (ov3_rows Rpar). rewrite S2, S3. exact R3. }
  assert (LS : Forall (fun r : list R => vlen r = d2) (r_series micro d0 d1 d2)). { destruct D as (_ & _ & _ & D). eapply Forall_impl; [|exact D]. cbn beta. intros x ->. exact Ho. }
  assert (NS : Forall nonneg (r_series micro d0 d1 d2)).
  { apply Forall_map, Forall_forall. intros [i j] _. apply Forall_map, Forall_forall. intros x _. apply val_nonneg; auto. }
  assert (Wh : forall f, Rsum (fun r => f (slice r 0 (ov_osize v - 1))) (r_series micro d0 d1 d2) = Rsum f (r_series micro d0 d1 d2)).
  { intro f. apply Rsum_ext. intros x Hx. rewrite Ho. rewrite <- (proj1 (Forall_forall _ _) LS x Hx), slice_whole. auto. }
  assert (G0' : ogain (r_series micro d0 d1 d2) 0 (ov_osize v - 1) <> 0%R) by (unfold ogain; rewrite Wh; auto).
  assert (L0' : oloss (r_series micro d0 d1 d2) 0 (ov_osize v - 1) <> 0%R) by (unfold oloss; rewrite Wh; auto).
  pose proof (o_best_unit v _ _ _ t D NS ltac:(rewrite Ho; lia) G0' L0' Ec En eq_refl) as [_ U].
  apply (unit_prf (o_best RA t) on_quality (o_row RA id_num) st); [|exact U|].
  - exact (C30_ordered_real t d2 ltac:(lia) St th (S k) _ 0%R 1%R st ltac:(lra) Es).
  - intros p1 p2 x1 x2 K1 K2 K3. exact (C27_ordered t d2 p1 p2 x1 x2 ltac:(lia) St K1 K2 K3).
Qed.
Print Assumptions C60_ordered_total.

(** ** Hierarchical *)
Theorem C60_hier : forall (th : R) micro d0 d1 d2 h root fuel r, r_cube micro d0 d1 d2 -> r_tree h d0 root -> r_haggregate RA id_num false fuel micro h th = Ok r ->
  closest (rr_quals r) (rr_popt r) /\ (rr_auc r = 1 - trapezoids (map snd (rr_quals r)))%R.
Proof.
  intros th micro d0 d1 d2 h root fuel r C Tr E.
  destruct (h_setup RA micro d0 d1 d2 h root C Tr) as (m & v & t0 & t & q0 & Em & Ev & Sh & W & El & Ep & Ero & Ehs & Ec & En & Lt0 & Lt & Gq & Er0).
  destruct Tr as (_ & _ & H2). rewrite Er0, one_RA in E. apply bind_ok in E. destruct E as (st & Es & Ef).
  apply (curve_prf (h_best RA t (hv_meta v)) hn_quality (h_row RA id_num) st r); [|exact Ef].
  exact (C30_hier_real _ W ltac:(lia) t ltac:(lia) th fuel _ 0%R 1%R st ltac:(lra) Es).
Qed.
Print Assumptions C60_hier.

(** With the root in the last place (see C16_hier_refuted for the others). *)
Theorem C60_hier_total : forall (th : R) (micro : rarray RA) d0 d1 d2 h k, r_cube micro d0 d1 d2 -> r_tree h d0 (vlen h - 1) -> nonneg (ra_data micro) ->
  Rsum gain_of (r_columns micro d0 d1 d2) <> 0%R -> Rsum loss_of (r_columns micro d0 d1 d2) <> 0%R -> (1 <= th * 2 ^ k)%R ->
  exists r, r_haggregate RA id_num false (S k) micro h th = Ok r /\ unit_curve (rr_quals r) /\ (0 <= rr_auc r <= 1)%R.
Proof.
  intros th micro d0 d1 d2 h k C Tr NN G0 L0 Hth.
  destruct (h_setup RA micro d0 d1 d2 h _ C Tr) as (m & v & t0 & t & q0 & Em & Ev & Sh & W & El & Ep & Ero & Ehs & Ec & En & Lt0 & Lt & Gq & Er0).
  pose proof (nested_prf micro d0 d1 d2 C) as Em'. rewrite Em in Em'. inversion Em'; subst m. clear Em'. destruct C as (_ & H0 & H1 & H2 & _). destruct Tr as (V & U0 & Hh).
  rewrite Er0, one_RA. assert (Hs : 2 <= m_hsize (hv_meta v)) by lia. assert (Lt' : vlen t = m_hsize (hv_meta v)) by lia.
  destruct (C33_hier _ W Hs t Lt' th 0%R 1%R k (ps_empty RA) ltac:(lra) ltac:(lra)) as (st & Es).
  match goal with |- context [bind ?e _] => replace e with (@Ok _ st) by (symmetry; exact Es) end. cbn [bind].
  pose proof (nested_rect micro d0 d1 d2 ltac:(lia) ltac:(lia)) as R3. pose proof (nested_len micro d0 d1 d2 ltac:(lia)) as L3.
  destruct (size3_rect _ _ d0 d1 d2 L3 H0 H1 R3) as (S1 & S2 & S3).
  assert (D : hdata_ok v (r_columns micro d0 d1 d2)).
  { destruct (hv3_data Rpar (map (fun x => x - 1) h) (vlen h - 1) ltac:(unfold vlen; rewrite map_length; exact Hh) (r_nested micro d0 d1 d2)) as (v' & Ev' & _ & D).
    - rewrite L3. exact V.
    - rewrite L3. exact U0.
    - rewrite S2, S3. exact R3.
    - change (RP Rpar) with RA in *. rewrite Ev in Ev'. inversion Ev'; subst v'. rewrite S2, S3, columns_nested in D by lia. exact D. }
  assert (NS : Forall nonneg (r_columns micro d0 d1 d2)).
  { apply Forall_map, Forall_forall. intros [i j] _. apply Forall_map, Forall_forall. intros x _. apply val_nonneg; auto. }
  assert (Wh : forall f, Rsum (fun c => f (hcells (hv_meta v) c (m_root (hv_meta v)))) (r_columns micro d0 d1 d2) = Rsum f (r_columns micro d0 d1 d2)).
  { intro f. apply Rsum_ext. intros c Hc. f_equal. unfold hcells. rewrite leaves_root, El by auto.
    assert (Lc : vlen c = d0). { apply in_map_iff in Hc. destruct Hc as ([j kk] & <- & _). unfold vlen. rewrite map_length. apply upto_len. lia. }
    rewrite <- Lc. symmetry. apply (list_elt _ 0%R). }
  assert (Er : m_root (hv_meta v) = m_hsize (hv_meta v) - 1) by lia.
  pose proof (h_best_unit v _ _ _ t D NS Er ltac:(unfold hgain; rewrite Wh; auto) ltac:(unfold hloss; rewrite Wh; auto) Ec En eq_refl) as [_ U].
  apply (unit_prf (h_best RA t (hv_meta v)) hn_quality (h_row RA id_num) st); [|exact U|].
  - exact (C30_hier_real _ W Hs t Lt' th (S k) _ 0%R 1%R st ltac:(lra) Es).
  - intros p1 p2 x1 x2 K1 K2 K3. exact (C27_hier _ W Hs t p1 p2 x1 x2 Lt' K1 K2 K3).
Qed.
Print Assumptions C60_hier_total.

(** ** Spatiotemporal *)
Theorem C60_spatio : forall (th : R) micro d0 d1 d2 h root fuel r, r_cube micro d0 d1 d2 -> d2 <= 65535 -> r_tree h d0 root -> r_daggregate RA id_num false fuel micro h th = Ok r ->
  closest (rr_quals r) (rr_popt r) /\ (rr_auc r = 1 - trapezoids (map snd (rr_quals r)))%R.
Proof.
  intros th micro d0 d1 d2 h root fuel r C Hn Tr E.
  destruct (d_setup RA micro d0 d1 d2 h root C Hn Tr) as (m & v & t0 & t & q0 & Em & Ev & Sh & Eo & W & El & Ep & Ero & Ehs & Ec & En & (Lt0 & F0) & (Lt & Ft) & Gq & Er0).
  destruct C as (_ & _ & _ & H2 & _). rewrite Er0, one_RA in E. apply bind_ok in E. destruct E as (st & Es & Ef).
  apply (curve_prf (d_best RA t (dv_meta v)) dn_quality (d_row RA id_num) st r); [|exact Ef].
  exact (C30_spatio_real _ W t d2 ltac:(lia) ltac:(lia) Ft th fuel _ 0%R 1%R st ltac:(lra) Es).
Qed.
Print Assumptions C60_spatio.

Theorem C60_spatio_total : forall (th : R) (micro : rarray RA) d0 d1 d2 h k, r_cube micro d0 d1 d2 -> d2 <= 65535 -> r_tree h d0 (vlen h - 1) -> nonneg (ra_data micro) ->
  Rsum gain_of (r_slabs micro d0 d1 d2) <> 0%R -> Rsum loss_of (r_slabs micro d0 d1 d2) <> 0%R -> (1 <= th * 2 ^ k)%R ->
  exists r, r_daggregate RA id_num false (S k) micro h th = Ok r /\ unit_curve (rr_quals r) /\ (0 <= rr_auc r <= 1)%R.
Proof.
  intros th micro d0 d1 d2 h k C Hn Tr NN G0 L0 Hth.
  destruct (d_setup RA micro d0 d1 d2 h _ C Hn Tr) as (m & v & t0 & t & q0 & Em & Ev & Sh & Eo & W & El & Ep & Ero & Ehs & Ec & En & (Lt0 & F0) & (Lt & Ft) & Gq & Er0).
  pose proof (nested_prf micro d0 d1 d2 C) as Em'. rewrite Em in Em'. inversion Em'; subst m. clear Em'. destruct C as (_ & H0 & H1 & H2 & _). destruct Tr as (V & U0 & Hh).
  rewrite Er0, one_RA. assert (Hs : 2 <= m_hsize (dv_meta v)) by lia. assert (Lt' : vlen t = m_hsize (dv_meta v)) by lia. assert (Hn' : 1 <= d2 <= 65535) by lia.
  destruct (C33_spatio _ W t d2 Hn' Lt' Ft th 0%R 1%R k (ps_empty RA) ltac:(lra) ltac:(lra)) as (st & Es).
  match goal with |- context [bind ?e _] => replace e with (@Ok _ st) by (symmetry; exact Es) end. cbn [bind].
  pose proof (nested_rect micro d0 d1 d2 ltac:(lia) ltac:(lia)) as R3. pose proof (nested_len micro d0 d1 d2 ltac:(lia)) as L3.
  destruct (size3_rect _ _ d0 d1 d2 L3 H0 H1 R3) as (S1 & S2 & S3). set (comps := columns [] d1 (r_nested micro d0 d1 d2)).
  assert (D : ddata_ok v comps).
  { destruct (dv3_data Rpar (map (fun x => x - 1) h) (vlen h - 1) ltac:(unfold vlen; rewrite map_length; exact Hh) (r_nested micro d0 d1 d2)) as (v' & Ev' & _ & _ & D).
    - rewrite L3. exact V.
    - rewrite L3. exact U0.
    - rewrite S2, S3. exact R3.
    - rewrite S3. exact Hn'.
    - change (RP Rpar) with RA in *. rewrite Ev in Ev'. inversion Ev'; subst v'. rewrite S2 in D. exact D. }
  assert (Cd : comps = map (fun j => map (fun i => map (fun kk => r_val micro i j kk) (upto d2)) (upto d0)) (upto d1)).
  { apply (columns_swap _ _ _ [] (fun i j => map (fun kk => r_val micro i j kk) (upto d2))). apply upto_len. lia. }
  assert (NS : Forall (Forall nonneg) comps).
  { rewrite Cd. apply Forall_map, Forall_forall. intros j _. apply Forall_map, Forall_forall. intros i _. apply Forall_map, Forall_forall. intros x _. apply val_nonneg; auto. }
  assert (Wh : forall f, Rsum (fun c => f (dcells (dv_meta v) c (m_root (dv_meta v)) 0 (dv_osize v - 1))) comps = Rsum f (r_slabs micro d0 d1 d2)).
  { intro f. rewrite <- slabs_nested by lia. fold comps. unfold Rsum. rewrite map_map. f_equal. apply map_ext_in. intros c Hc. f_equal. unfold dcells. rewrite leaves_root, El, Eo by auto.
    rewrite Cd in Hc. apply in_map_iff in Hc. destruct Hc as (j & <- & _). set (c := map _ (upto d0)).
    assert (Lc : vlen c = d0). { unfold c, vlen. rewrite map_length. apply upto_len. lia. }
    rewrite flat_map_concat_map. f_equal. etransitivity; [|symmetry; apply (list_elt _ [] c)]. rewrite Lc. apply map_ext_in. intros x Hx. apply In_zrange in Hx.
    assert (Li : vlen (elt [] c x) = d2). { assert (Hi : In (elt [] c x) c) by (unfold elt; apply nth_In; unfold vlen in Lc; lia). unfold c in Hi at 2. apply in_map_iff in Hi. destruct Hi as (i & <- & _).
      unfold vlen. rewrite map_length. apply upto_len. lia. }
    rewrite <- Li at 1. apply slice_whole. }
  assert (Er : m_root (dv_meta v) = m_hsize (dv_meta v) - 1) by lia.
  pose proof (d_best_unit v _ _ _ t D NS Er ltac:(unfold dgain; rewrite Wh; auto) ltac:(unfold dloss; rewrite Wh; auto) Ec En eq_refl) as (_ & _ & U).
  apply (unit_prf (d_best RA t (dv_meta v)) dn_quality (d_row RA id_num) st); [|exact U|].
  - exact (C30_spatio_real _ W t d2 Hn' Lt' Ft th (S k) _ 0%R 1%R st ltac:(lra) Es).
  - intros p1 p2 x1 x2 K1 K2 K3. exact (C27_spatio _ W t d2 p1 p2 x1 x2 Hn' Lt' Ft K1 K2 K3).
Qed.
Print Assumptions C60_spatio_total.

(** ** A concrete array: [array(c(1,1,1,0), dim=c(2,1,2))], hierarchy [c(3,3,0)], threshold 0.001 as in R/example_simple.R. *)
Definition ex_micro : rarray RA := @mkRArr RA [1; 1; 1; 0]%R [2; 1; 2].

Lemma ex_cube : r_cube ex_micro 2 1 2.
Proof. repeat split; cbn; lia. Qed.
Lemma ex_r_tree : r_tree [3; 3; 0] 2 2.
Proof. split; [apply valid_treeb_ok; reflexivity|]. split; [apply (uniformb_ok 1); reflexivity|]. cbn; lia. Qed.

Lemma ex_g11 : gain_of [1; 1]%R = 2%R.
Proof.
  unfold gain_of, total, Rsum. cbn [map fold_right]. replace (1 + (1 + 0))%R with 2%R by ring.
  unfold xlog2. repeat match goal with |- context [Rlt_dec ?a ?b] => destruct (Rlt_dec a b); try lra end. rewrite log2_1, log2_2. ring.
Qed.
Lemma ex_g10 : gain_of [1; 0]%R = 0%R.
Proof.
  unfold gain_of, total, Rsum. cbn [map fold_right]. replace (1 + (0 + 0))%R with 1%R by ring.
  unfold xlog2. repeat match goal with |- context [Rlt_dec ?a ?b] => destruct (Rlt_dec a b); try lra end.
Qed.
Lemma ex_g1110 : gain_of [1; 1; 1; 0]%R = (3 * log2 3)%R.
Proof.
  unfold gain_of, total, Rsum. cbn [map fold_right]. replace (1 + (1 + (1 + (0 + 0))))%R with 3%R by ring.
  unfold xlog2. repeat match goal with |- context [Rlt_dec ?a ?b] => destruct (Rlt_dec a b); try lra end. rewrite log2_1. ring.
Qed.
Lemma ex_log3 : (0 < log2 3 < 2)%R /\ log2 4 = 2%R.
Proof.
  pose proof ln2_pos as L. assert (L4 : ln 4 = (2 * ln 2)%R) by (replace 4%R with (2 * 2)%R by ring; rewrite ln_mult by lra; ring).
  assert (L3 : (0 < ln 3)%R) by (rewrite <- ln_1; apply ln_increasing; lra). assert (L34 : (ln 3 < ln 4)%R) by (apply ln_increasing; lra).
  unfold log2. assert (I : (0 < / ln 2)%R) by (apply Rinv_0_lt_compat; auto). split; [split|].
  - unfold Rdiv. apply Rmult_lt_0_compat; auto.
  - apply (Rmult_lt_reg_r (ln 2)); auto. unfold Rdiv. rewrite Rmult_assoc, Rinv_l by lra. lra.
  - rewrite L4. field. lra.
Qed.

Example C60_nonvacuous : r_cube ex_micro 2 1 2 /\ r_tree [3; 3; 0] 2 2 /\ nonneg (ra_data ex_micro) /\
  (exists r, r_oaggregate RA id_num false 11 ex_micro (/ 1000)%R = Ok r /\ unit_curve (rr_quals r)) /\
  (exists r, r_haggregate RA id_num false 11 ex_micro [3; 3; 0] (/ 1000)%R = Ok r /\ unit_curve (rr_quals r)) /\
  (exists r, r_daggregate RA id_num false 11 ex_micro [3; 3; 0] (/ 1000)%R = Ok r /\ unit_curve (rr_quals r)).
Proof.
  assert (NN : nonneg (ra_data ex_micro)) by (repeat constructor; lra).
  split; [exact ex_cube|]. split; [exact ex_r_tree|]. split; [exact NN|].
  assert (Hth : (1 <= / 1000 * 2 ^ 10)%R) by (cbn; lra). destruct ex_log3 as [L3 L4].
  assert (S1 : r_series ex_micro 2 1 2 = [[1; 1]; [1; 0]]%R) by reflexivity.
  assert (S2 : r_columns ex_micro 2 1 2 = [[1; 1]; [1; 0]]%R) by reflexivity.
  assert (S3 : r_slabs ex_micro 2 1 2 = [[1; 1; 1; 0]]%R) by reflexivity.
  assert (G : Rsum gain_of [[1; 1]; [1; 0]]%R = 2%R) by (unfold Rsum; cbn [map fold_right]; rewrite ex_g11, ex_g10; ring).
  assert (Ls : Rsum loss_of [[1; 1]; [1; 0]]%R = 1%R).
  { unfold Rsum; cbn [map fold_right]. unfold loss_of. rewrite ex_g11, ex_g10. change (vlen [1; 1]%R) with 2. change (vlen [1; 0]%R) with 2. rewrite log2_2. unfold total, Rsum. cbn [map fold_right]. ring. }
  assert (G3 : Rsum gain_of [[1; 1; 1; 0]]%R = (3 * log2 3)%R) by (unfold Rsum; cbn [map fold_right]; rewrite ex_g1110; ring).
  assert (Ls3 : Rsum loss_of [[1; 1; 1; 0]]%R = (6 - 3 * log2 3)%R).
  { unfold Rsum; cbn [map fold_right]. unfold loss_of. rewrite ex_g1110. change (vlen [1; 1; 1; 0]%R) with 4. rewrite L4. unfold total, Rsum. cbn [map fold_right]. ring. }
  split; [|split].
  - destruct (C60_ordered_total (/ 1000)%R ex_micro 2 1 2 10 ex_cube ltac:(lia) NN) as (r & E & U & _); try (rewrite S1, ?G, ?Ls; lra); auto. exists r. auto.
  - destruct (C60_hier_total (/ 1000)%R ex_micro 2 1 2 [3; 3; 0] 10 ex_cube ex_r_tree NN) as (r & E & U & _); try (rewrite S2, ?G, ?Ls; lra); auto. exists r. auto.
  - destruct (C60_spatio_total (/ 1000)%R ex_micro 2 1 2 [3; 3; 0] 10 ex_cube ltac:(lia) ex_r_tree NN) as (r & E & U & _); try (rewrite S3, ?G3, ?Ls3; lra); auto. exists r. auto.
Qed.
Print Assumptions C60_nonvacuous.
