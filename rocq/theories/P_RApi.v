(** * Property C59: the data frames returned by oaggregate, haggregate and daggregate (R/lpaggreg.R).

    [r_oaggregate A rd strict fuel micro th] is the C++ function that R calls (RApi.v); [rd] is the conversion of a quality to
    an R double, [A] the arithmetic. [rows_at], [frames_ok], [totals], [r_cube], [r_at] are in SpecR.v. *)
From Coq Require Import Lia Sorting.Sorted Reals Lra.
From Verif Require Import Base BaseFacts Arith Quality Utm UtmFacts UtmProofs Hierarchy SpecTree HierarchyFacts HierarchyProofs TreeDec SpecParts Values Qualities Partitions Partitioners
  TreePath CoverFacts OProofs HProofs DProofs ODataProofs HDataProofs DDataProofs SpecData SpecValues ValuesFacts ValuesProofs QualInv DegFacts
  Search SpecSearch SearchFacts SearchProofs SearchInst P_Search P_Session RApi SpecR RFacts.

(** ** The array *)
Theorem C59_array : forall A (micro : rarray A) d0 d1 d2, r_cube micro d0 d1 d2 ->
  exists m, convertToMicroModel A micro = Ok m /\ vlen m = d0 /\ rect3 m d1 d2 /\
    forall i j k, 1 <= i <= d0 -> 1 <= j <= d1 -> 1 <= k <= d2 -> exists x, vget3 m (i - 1) (j - 1) (k - 1) = Ok x /\ r_at micro i j k = Ok x.
Proof.
  intros A micro d0 d1 d2 C. destruct (micro_prf A micro d0 d1 d2 C) as (m & E & L & R3 & G). exists m. repeat (split; auto).
  intros i j k Hi Hj Hk. destruct (G (i - 1) (j - 1) (k - 1) ltac:(lia) ltac:(lia) ltac:(lia)) as (x & E1 & E2). exists x. split; auto.
  rewrite !Z.sub_add in E2. auto.
Qed.
Print Assumptions C59_array.

Lemma size3_rect : forall X (m : list (list (list X))) d0 d1 d2, vlen m = d0 -> 1 <= d0 -> 1 <= d1 -> rect3 m d1 d2 ->
  size1 m = d0 /\ size2 m = d1 /\ size3 m = d2.
Proof.
  intros X m d0 d1 d2 L H0 H1 R3. split; [exact L|]. destruct m as [|r m]; [cbn in L; lia|]. inversion R3 as [|? ? [Lr R2] _]; subst.
  split; [cbn; auto|]. cbn. destruct r as [|r0 r]; [cbn in H1; lia|]. inversion R2; subst. auto.
Qed.

Lemma tiles_shift : forall c a n l, tiles a n l -> tiles (a + c) (n + c) (map (fun k => (fst k + c, snd k + c)) l).
Proof. intros c a n l T. induction T; cbn [map fst snd]; constructor; [lia|]. replace (e + c + 1) with (e + 1 + c) by lia. auto. Qed.

Lemma totals_fold : forall A Y (rd : num A -> num A) (g l : Y -> num A) ys,
  totals A rd (map (fun y => (rd (g y), rd (l y))) ys) (rd (fold_left (n_add A) (map g ys) (n_zero A)), rd (fold_left (n_add A) (map l ys) (n_zero A))).
Proof.
  intros A Y rd g l ys. exists (map g ys), (map l ys). split; [|split; [rewrite !map_length; auto|reflexivity]].
  induction ys; cbn [map combine]; [reflexivity|]. f_equal. auto.
Qed.

(** ** What the three functions compute before the search *)
Lemma o_setup : forall A (micro : rarray A) d0 d1 d2, r_cube micro d0 d1 d2 -> d2 <= 65535 ->
  exists m t0 t q, convertToMicroModel A micro = Ok m /\ ov_shaped (ov3_of A m) d0 d1 1 /\ ov_osize (ov3_of A m) = d2 /\
    oq_compute A (oq_ofValues A (ov3_of A m)) = Ok (mkOQ A (Some (ov3_of A m)) (Some t0)) /\
    oq_normalize A (mkOQ A (Some (ov3_of A m)) (Some t0)) = Ok (mkOQ A (Some (ov3_of A m)) (Some t)) /\ utm_shape t0 d2 /\ utm_shape t d2 /\
    u_get t0 0 (d2 - 1) = Ok q /\
    forall rd strict fuel th, r_oaggregate A rd strict fuel micro th =
      (let* st := o_search A strict fuel t (ps_empty A) th (p_zero A) (p_one A) in r_frames A rd (o_row A rd) st).
Proof.
  intros A micro d0 d1 d2 C Hn.
  destruct (micro_prf A micro d0 d1 d2 C) as (m & Em & Lm & R3 & _). destruct C as (_ & H0 & H1 & H2 & _).
  destruct (size3_rect _ m d0 d1 d2 Lm H0 H1 R3) as (S1 & S2 & S3).
  assert (Sh : ov_shaped (ov3_of A m) d0 d1 1).
  { pose proof (ov_of_prf A [] [] m []) as (_ & _ & K & _). rewrite S1, S2, S3 in K. auto. }
  assert (Ho : ov_osize (ov3_of A m) = d2) by exact S3.
  destruct (o_session_table A (ov3_of A m) d0 d1 1 Sh) as (t0 & Ec & St0). { rewrite Ho; lia. } rewrite Ho in St0.
  destruct (shape_repr _ t0 d2 ltac:(lia) St0 (q_zero A)) as [f Rf].
  pose proof (urepr_get _ _ _ _ 0 (d2 - 1) Rf ltac:(lia) ltac:(lia)) as Gq.
  destruct (o_normalize_prf A (ov3_of A m) t0 d2 _ ltac:(lia) St0 Ho Gq) as (t & En & St & _).
  exists m, t0, t, (f 0 (d2 - 1)). repeat (split; [assumption|]).
  intros rd strict fuel th. unfold r_oaggregate. rewrite Em. cbn [bind]. rewrite Ec. cbn [bind]. rewrite En. reflexivity.
Qed.

(** The 1-based vector of parents of an R user describes a tree whose leaves are the rows 1..d0 of the array, all at the same depth. *)
Definition r_tree (h : list Z) (d0 root : Z) : Prop :=
  valid_tree d0 (map (fun x => x - 1) h) root /\ uniform_depth d0 (map (fun x => x - 1) h) root /\ 2 <= vlen h.

Lemma h_setup : forall A (micro : rarray A) d0 d1 d2 h root, r_cube micro d0 d1 d2 -> r_tree h d0 root ->
  exists m v t0 t q, convertToMicroModel A micro = Ok m /\ hv3_of A m (map (fun x => x - 1) h) = Ok v /\ hv_shaped v d1 d2 1 /\
    well_built (hv_meta v) /\ m_leaves (hv_meta v) = d0 /\ m_parents (hv_meta v) = map (fun x => x - 1) h /\ m_root (hv_meta v) = root /\ m_hsize (hv_meta v) = vlen h /\
    hq_compute A (hq_ofValues A v) = Ok (mkHQ A (Some v) (Some t0) (hv_meta v)) /\
    hq_normalize A (mkHQ A (Some v) (Some t0) (hv_meta v)) = Ok (mkHQ A (Some v) (Some t) (hv_meta v)) /\
    vlen t0 = vlen h /\ vlen t = vlen h /\ vget t0 root = Ok q /\
    forall rd strict fuel th, r_haggregate A rd strict fuel micro h th =
      (let* st := h_search A strict fuel t (hv_meta v) (ps_empty A) th (p_zero A) (p_one A) in r_frames A rd (h_row A rd) st).
Proof.
  intros A micro d0 d1 d2 h root C (V & U & Hh).
  destruct (micro_prf A micro d0 d1 d2 C) as (m & Em & Lm & R3 & _). destruct C as (_ & H0 & H1 & H2 & _).
  destruct (size3_rect _ m d0 d1 d2 Lm H0 H1 R3) as (S1 & S2 & S3).
  destruct (uniform_well_built _ _ _ V U) as (me & E & W & E1 & E2 & E3).
  assert (Hs : m_hsize me = vlen h) by (rewrite (wb_hsize me W), E2; unfold vlen; rewrite map_length; auto).
  set (v := mkHV A (d1 * d2) me (HN3 A d1 d2 m)).
  assert (Ev : hv3_of A m (map (fun x => x - 1) h) = Ok v).
  { unfold hv3_of. rewrite S1, S2, S3, E. reflexivity. }
  assert (Sh : hv_shaped v d1 d2 1).
  { unfold hv_shaped, v. cbn [hv_meta hv_vsize hv_data]. rewrite E1. repeat (split; [lia|]). exact R3. }
  destruct (h_session_table A v d1 d2 1 Sh W) as (t0 & Ec & L0). { cbn [v hv_meta]. lia. }
  change (hv_meta v) with me in *.
  pose proof (root_node me W) as Hr. rewrite E3, Hs in Hr. destruct (vget_ok _ t0 root) as (q & Eq); [lia|].
  assert (Eq' : vget t0 (m_root me) = Ok q) by (rewrite E3; auto).
  destruct (h_normalize_prf A (Some v) t0 me q W L0 Eq') as (t & En & Lt & _).
  exists m, v, t0, t, q. change (hv_meta v) with me. rewrite <- Hs. repeat (split; [reflexivity || assumption|]).
  intros rd strict fuel th. unfold r_haggregate, convertToHierarchy. rewrite Em. cbn [bind]. rewrite Ev. cbn [bind]. rewrite Ec. cbn [bind]. change (hv_meta v) with me. rewrite En. reflexivity.
Qed.

Lemma d_setup : forall A (micro : rarray A) d0 d1 d2 h root, r_cube micro d0 d1 d2 -> d2 <= 65535 -> r_tree h d0 root ->
  exists m v t0 t q, convertToMicroModel A micro = Ok m /\ dv3_of A m (map (fun x => x - 1) h) = Ok v /\ dv_shaped v d1 1 /\ dv_osize v = d2 /\
    well_built (dv_meta v) /\ m_leaves (dv_meta v) = d0 /\ m_parents (dv_meta v) = map (fun x => x - 1) h /\ m_root (dv_meta v) = root /\ m_hsize (dv_meta v) = vlen h /\
    dq_compute A (dq_ofValues A v) = Ok (mkDQ A (Some v) (Some t0) (dv_meta v)) /\
    dq_normalize A (mkDQ A (Some v) (Some t0) (dv_meta v)) = Ok (mkDQ A (Some v) (Some t) (dv_meta v)) /\
    (vlen t0 = vlen h /\ Forall (fun u => utm_shape u d2) t0) /\ (vlen t = vlen h /\ Forall (fun u => utm_shape u d2) t) /\ mm_get t0 root 0 (d2 - 1) = Ok q /\
    forall rd strict fuel th, r_daggregate A rd strict fuel micro h th =
      (let* st := d_search A strict fuel t (dv_meta v) (ps_empty A) th (p_zero A) (p_one A) in r_frames A rd (d_row A rd) st).
Proof.
  intros A micro d0 d1 d2 h root C Hn (V & U & Hh).
  destruct (micro_prf A micro d0 d1 d2 C) as (m & Em & Lm & R3 & _). destruct C as (_ & H0 & H1 & H2 & _).
  destruct (size3_rect _ m d0 d1 d2 Lm H0 H1 R3) as (S1 & S2 & S3).
  destruct (uniform_well_built _ _ _ V U) as (me & E & W & E1 & E2 & E3).
  assert (Hs : m_hsize me = vlen h) by (rewrite (wb_hsize me W), E2; unfold vlen; rewrite map_length; auto).
  set (v := mkDV A d1 d2 me (DN3 A m)).
  assert (Ev : dv3_of A m (map (fun x => x - 1) h) = Ok v).
  { unfold dv3_of. rewrite S1, S2, S3, E. reflexivity. }
  assert (Sh : dv_shaped v d1 1).
  { unfold dv_shaped, v. cbn [dv_meta dv_vsize dv_data dv_osize]. rewrite E1. repeat (split; [lia|]). exact R3. }
  destruct (d_session_table A v d1 1 Sh W) as (t0 & Ec & L0 & F0). { cbn [v dv_meta]. lia. } { cbn [v dv_osize]. lia. }
  change (dv_meta v) with me in *. change (dv_osize v) with d2 in *.
  pose proof (root_node me W) as Hr.
  pose proof (shape_mrepr _ t0 _ d2 (q_zero A) ltac:(lia) L0 F0) as R.
  pose proof (mrepr_get _ _ _ _ _ (m_root me) 0 (d2 - 1) R Hr ltac:(lia) ltac:(lia)) as Eq.
  match type of Eq with _ = Ok ?q0 => remember q0 as q eqn:Hq end.
  destruct (d_normalize_prf A v t0 me q W ltac:(cbn [v dv_osize]; lia) L0 F0 Eq) as (t & En & Lt & Ft & _).
  exists m, v, t0, t, q. change (dv_meta v) with me. change (dv_osize v) with d2. rewrite <- Hs, <- E3. repeat (split; [reflexivity || assumption|]). split; [split; assumption|]. split; [split; assumption|]. split; [exact Eq|].
  intros rd strict fuel th. unfold r_daggregate, convertToHierarchy. rewrite Em. cbn [bind]. rewrite Ev. cbn [bind]. rewrite Ec. cbn [bind]. change (dv_meta v) with me. rewrite En. reflexivity.
Qed.

(** ** Ordered *)
Theorem C59_ordered : forall A (rd : num A -> num A) D th, (forall p, p_ltb A p p = false) -> bisectable A D th -> D (p_zero A) -> D (p_one A) -> plt A (p_zero A) (p_one A) ->
  forall micro d0 d1 d2 fuel r, r_cube micro d0 d1 d2 -> d2 <= 65535 -> r_oaggregate A rd false fuel micro th = Ok r ->
  frames_ok A (p_one A) r /\
  (forall p, In p (map fst (rr_quals r)) ->
     tiles 1 (d2 + 1) (map (fun '(s, e, _, _) => (s, e)) (rows_at A p (rr_parts r))) /\
     exists q, In (p, q) (rr_quals r) /\ totals A rd (map (fun '(_, _, g, l) => (g, l)) (rows_at A p (rr_parts r))) q) /\
  exists m o t, convertToMicroModel A micro = Ok m /\ oq_compute A (oq_ofValues A (ov3_of A m)) = Ok o /\
    oq_normalize A o = Ok (mkOQ A (Some (ov3_of A m)) (Some t)) /\ utm_shape t d2 /\
    forall p, In p (map fst (rr_quals r)) -> exists x, o_best A t p = Ok x /\
      rows_at A p (rr_parts r) = map (fun y => (op_start y + 1, op_end y + 1, rd (gain (op_quality y)), rd (loss (op_quality y)))) (on_parts x).
Proof.
  intros A rd D th Irr B D0 D1 L01 micro d0 d1 d2 fuel r C Hn E.
  destruct (o_setup A micro d0 d1 d2 C Hn) as (m & t0 & t & q0 & Em & Sh & Ho & Ec & En & St0 & St & Gq & Er0).
  destruct C as (_ & H0 & H1 & H2 & _). rewrite Er0 in E.
  apply bind_ok in E. destruct E as (st & Es & Ef).
  pose proof (C30_ordered A t d2 ltac:(lia) St D th B fuel _ _ _ st D0 D1 L01 Es) as Ag.
  pose proof (search_tuples A D th B (o_best A t) on_param (on_eqb A) on_quality (o_tuples A) (fun p _ => o_ok A t d2 ltac:(lia) St p) fuel _ _ _ st D0 D1 L01 Es) as Tu.
  destruct (frames_prf A (o_best A t) on_quality (o_tuples A) (o_row A rd) rd Irr _ _ st r eq_refl Ag Tu Ef) as (F & _ & _ & _ & _ & Rw).
  assert (Rx : forall x, map (o_row A rd) (o_tuples A x) = map (fun y => (op_start y + 1, op_end y + 1, rd (gain (op_quality y)), rd (loss (op_quality y)))) (on_parts x)).
  { intro x. unfold o_tuples. rewrite map_map. apply map_ext. reflexivity. }
  split; [exact F|]. split.
  - intros p Hp. destruct (Rw p Hp) as (x & Ex & Er & Iq). rewrite Er, Rx, !map_map.
    destruct (o_tiles_prf A t d2 p ltac:(lia) St) as (x' & Ex' & _ & Tx). rewrite Ex in Ex'. inversion Ex'; subst x'.
    split; [|exists (rd (gain (on_quality x)), rd (loss (on_quality x))); split; [exact Iq|]].
    + apply (tiles_shift 1) in Tx. rewrite map_map in Tx. exact Tx.
    + destruct (o_quality_prf A t d2 p x ltac:(lia) St Ex) as (_ & -> & ->).
      exact (totals_fold A _ rd (fun y => gain (op_quality y)) (fun y => loss (op_quality y)) (on_parts x)).
  - exists m, (mkOQ A (Some (ov3_of A m)) (Some t0)), t. split; [exact Em|]. split; [exact Ec|]. split; [exact En|]. split; [exact St|].
    intros p Hp. destruct (Rw p Hp) as (x & Ex & Er & _). exists x. rewrite Er, Rx. auto.
Qed.
Print Assumptions C59_ordered.

(** ** Hierarchical: the column Node holds 1-based node numbers that cover every leaf exactly once; Size is the number of leaves below. *)
Theorem C59_hier : forall A (rd : num A -> num A) D th, (forall p, p_ltb A p p = false) -> bisectable A D th -> D (p_zero A) -> D (p_one A) -> plt A (p_zero A) (p_one A) ->
  forall micro d0 d1 d2 h root fuel r, r_cube micro d0 d1 d2 -> r_tree h d0 root -> r_haggregate A rd false fuel micro h th = Ok r ->
  frames_ok A (p_one A) r /\
  (forall p, In p (map fst (rr_quals r)) ->
     node_cover d0 (map (fun x => x - 1) h) (map (fun '(n, _, _, _) => n - 1) (rows_at A p (rr_parts r))) /\
     (forall n s g l, In (n, s, g, l) (rows_at A p (rr_parts r)) -> s = vlen (leavesof d0 (map (fun x => x - 1) h) (n - 1))) /\
     exists q, In (p, q) (rr_quals r) /\ totals A rd (map (fun '(_, _, g, l) => (g, l)) (rows_at A p (rr_parts r))) q) /\
  exists m v o t, convertToMicroModel A micro = Ok m /\ hv3_of A m (map (fun x => x - 1) h) = Ok v /\ hq_compute A (hq_ofValues A v) = Ok o /\
    hq_normalize A o = Ok (mkHQ A (Some v) (Some t) (hv_meta v)) /\ vlen t = vlen h /\
    forall p, In p (map fst (rr_quals r)) -> exists x, h_best A t (hv_meta v) p = Ok x /\
      rows_at A p (rr_parts r) = map (fun y => (hp_h y + 1, hp_size y, rd (gain (hp_quality y)), rd (loss (hp_quality y)))) (hn_parts x).
Proof.
  intros A rd D th Irr B D0 D1 L01 micro d0 d1 d2 h root fuel r C Tr E.
  destruct (h_setup A micro d0 d1 d2 h root C Tr) as (m & v & t0 & t & q0 & Em & Ev & Sh & W & El & Ep & Ero & Ehs & Ec & En & Lt0 & Lt & Gq & Er0).
  destruct Tr as (_ & _ & H2). rewrite Er0 in E. assert (Hs : 2 <= m_hsize (hv_meta v)) by lia. assert (Lt' : vlen t = m_hsize (hv_meta v)) by lia.
  apply bind_ok in E. destruct E as (st & Es & Ef).
  pose proof (C30_hier _ W Hs A t Lt' D th B fuel _ _ _ st D0 D1 L01 Es) as Ag.
  pose proof (search_tuples A D th B (h_best A t (hv_meta v)) hn_param (hn_eqb A) hn_quality (h_tuples A) (fun p _ => h_ok _ W Hs A t Lt' p) fuel _ _ _ st D0 D1 L01 Es) as Tu.
  destruct (frames_prf A (h_best A t (hv_meta v)) hn_quality (h_tuples A) (h_row A rd) rd Irr _ _ st r eq_refl Ag Tu Ef) as (F & _ & _ & _ & _ & Rw).
  assert (Rx : forall x, map (h_row A rd) (h_tuples A x) = map (fun y => (hp_h y + 1, hp_size y, rd (gain (hp_quality y)), rd (loss (hp_quality y)))) (hn_parts x)).
  { intro x. unfold h_tuples. rewrite map_map. apply map_ext. reflexivity. }
  split; [exact F|]. split.
  - intros p Hp. destruct (Rw p Hp) as (x & Ex & Er & Iq). rewrite Er, Rx, !map_map.
    destruct (h_cover_prf _ W Hs A t p Lt') as (x' & Ex' & _ & Cx & Sx). rewrite Ex in Ex'. inversion Ex'; subst x'. rewrite El, Ep in Cx, Sx.
    split; [|split; [|exists (rd (gain (hn_quality x)), rd (loss (hn_quality x))); split; [exact Iq|]]].
    + rewrite (map_ext _ hp_h) by (intro y; cbn; lia). exact Cx.
    + intros n s g l Hin. apply in_map_iff in Hin. destruct Hin as (y & Ey & Hy). inversion Ey; subst. rewrite (Sx y Hy). do 2 f_equal. lia.
    + destruct (h_quality_prf _ W Hs A t p x Lt' Ex) as (_ & -> & ->).
      exact (totals_fold A _ rd (fun y => gain (hp_quality y)) (fun y => loss (hp_quality y)) (hn_parts x)).
  - exists m, v, (mkHQ A (Some v) (Some t0) (hv_meta v)), t. split; [exact Em|]. split; [exact Ev|]. split; [exact Ec|]. split; [exact En|]. split; [exact Lt|].
    intros p Hp. destruct (Rw p Hp) as (x & Ex & Er & _). exists x. rewrite Er, Rx. auto.
Qed.
Print Assumptions C59_hier.

(** ** Spatiotemporal: the columns Node, Start and End are 1-based and the rectangles cover every (leaf, slice) exactly once; Size counts the cells. *)
Theorem C59_spatio : forall A (rd : num A -> num A) D th, (forall p, p_ltb A p p = false) -> bisectable A D th -> D (p_zero A) -> D (p_one A) -> plt A (p_zero A) (p_one A) ->
  forall micro d0 d1 d2 h root fuel r, r_cube micro d0 d1 d2 -> d2 <= 65535 -> r_tree h d0 root -> r_daggregate A rd false fuel micro h th = Ok r ->
  frames_ok A (p_one A) r /\
  (forall p, In p (map fst (rr_quals r)) ->
     rect_cover d0 (map (fun x => x - 1) h) d2 (map (fun '(n, _, s, e, _, _) => (n - 1, s - 1, e - 1)) (rows_at A p (rr_parts r))) /\
     (forall n c s e g l, In (n, c, s, e, g, l) (rows_at A p (rr_parts r)) -> c = vlen (leavesof d0 (map (fun x => x - 1) h) (n - 1)) * (e - s + 1)) /\
     exists q, In (p, q) (rr_quals r) /\ totals A rd (map (fun '(_, _, _, _, g, l) => (g, l)) (rows_at A p (rr_parts r))) q) /\
  exists m v o t, convertToMicroModel A micro = Ok m /\ dv3_of A m (map (fun x => x - 1) h) = Ok v /\ dq_compute A (dq_ofValues A v) = Ok o /\
    dq_normalize A o = Ok (mkDQ A (Some v) (Some t) (dv_meta v)) /\ vlen t = vlen h /\ Forall (fun u => utm_shape u d2) t /\
    forall p, In p (map fst (rr_quals r)) -> exists x, d_best A t (dv_meta v) p = Ok x /\
      rows_at A p (rr_parts r) = map (fun y => (dp_h y + 1, dp_size y, dp_start y + 1, dp_end y + 1, rd (gain (dp_quality y)), rd (loss (dp_quality y)))) (dn_parts x).
Proof.
  intros A rd D th Irr B D0 D1 L01 micro d0 d1 d2 h root fuel r C Hn Tr E.
  destruct (d_setup A micro d0 d1 d2 h root C Hn Tr) as (m & v & t0 & t & q0 & Em & Ev & Sh & Eo & W & El & Ep & Ero & Ehs & Ec & En & (Lt0 & F0) & (Lt & Ft) & Gq & Er0).
  destruct C as (_ & _ & _ & H2 & _). rewrite Er0 in E. assert (Lt' : vlen t = m_hsize (dv_meta v)) by lia. assert (Hn' : 1 <= d2 <= 65535) by lia.
  apply bind_ok in E. destruct E as (st & Es & Ef).
  pose proof (C30_spatio _ W A t d2 Hn' Lt' Ft D th B fuel _ _ _ st D0 D1 L01 Es) as Ag.
  pose proof (search_tuples A D th B (d_best A t (dv_meta v)) dn_param (dn_eqb A) dn_quality (d_tuples A) (fun p _ => d_ok _ W A t d2 Hn' Lt' Ft p) fuel _ _ _ st D0 D1 L01 Es) as Tu.
  destruct (frames_prf A (d_best A t (dv_meta v)) dn_quality (d_tuples A) (d_row A rd) rd Irr _ _ st r eq_refl Ag Tu Ef) as (F & _ & _ & _ & _ & Rw).
  assert (Rx : forall x, map (d_row A rd) (d_tuples A x) = map (fun y => (dp_h y + 1, dp_size y, dp_start y + 1, dp_end y + 1, rd (gain (dp_quality y)), rd (loss (dp_quality y)))) (dn_parts x)).
  { intro x. unfold d_tuples. rewrite map_map. apply map_ext. reflexivity. }
  split; [exact F|]. split.
  - intros p Hp. destruct (Rw p Hp) as (x & Ex & Er & Iq). rewrite Er, Rx, !map_map.
    destruct (d_cover_prf _ W A t d2 p Hn' Lt' Ft) as (x' & Ex' & _ & Cx & _ & Sx). rewrite Ex in Ex'. inversion Ex'; subst x'. rewrite El, Ep in Cx, Sx.
    split; [|split; [|exists (rd (gain (dn_quality x)), rd (loss (dn_quality x))); split; [exact Iq|]]].
    + rewrite (map_ext _ rect) by (intro y; unfold rect; cbn; rewrite !Z.add_simpl_r; auto). exact Cx.
    + intros n c s e g l Hin. apply in_map_iff in Hin. destruct Hin as (y & Ey & Hy). inversion Ey; subst. rewrite (proj2 (Sx y Hy)). f_equal; [do 2 f_equal|]; lia.
    + destruct (d_quality_prf _ W A t d2 p x Hn' Lt' Ft Ex) as (_ & -> & ->).
      exact (totals_fold A _ rd (fun y => gain (dp_quality y)) (fun y => loss (dp_quality y)) (dn_parts x)).
  - exists m, v, (mkDQ A (Some v) (Some t0) (dv_meta v)), t. split; [exact Em|]. split; [exact Ev|]. split; [exact Ec|]. split; [exact En|]. split; [exact Lt|]. split; [exact Ft|].
    intros p Hp. destruct (Rw p Hp) as (x & Ex & Er & _). exists x. rewrite Er, Rx. auto.
Qed.
Print Assumptions C59_spatio.
