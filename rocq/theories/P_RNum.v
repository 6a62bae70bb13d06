(** * Property C82: what oaggregate, haggregate and daggregate return, in the code's own arithmetic.

    [r_oaggregate (IA lg) as_double false fuel micro th] is the function R calls, with long double qualities, float parameters, a
    logarithm [lg] of accuracy [d] and the conversion to double at the end. [interval], [subtree], [rectangle] are the exact gain, loss
    or total of a part of the array (SpecBest.v), [norm_err], [ntot_err], [nopt_err], [well_above] the error bounds of C79 and C80
    (SpecNorm.v). *)
From Coq Require Import Lia Sorting.Sorted Reals Lra.
From Flocq Require Import Core BinarySingleNaN.
From Verif Require Import Base BaseFacts Arith Quality Utm UtmFacts UtmProofs Hierarchy SpecTree TreeFacts HierarchyFacts HierarchyProofs TreeDec SpecParts SpecInfo Values Qualities Partitions Partitioners
  TreePath CoverFacts InfoFacts OInfo DataFacts DataCons OProofs HProofs DProofs ODataProofs HDataProofs DDataProofs SpecData SpecValues ValuesFacts ValuesProofs
  Search SpecSearch SearchFacts SearchProofs SearchInst P_Search RApi SpecR RFacts P_RApi P_RCurve P_RBest SpecBest SpecMacro Ieee SpecIeee IeeeFacts SpecNear SpecNum P_RDefined SpecNorm NormNum NormAll SpecRNum RNumFacts.

Lemma slice_whole : forall (X : Type) (r : list X) n, vlen r = n -> 1 <= n -> slice r 0 (n - 1) = r.
Proof. intros X r n L Hn. unfold slice. change (Z.to_nat 0) with O. cbn [skipn]. apply firstn_all2. unfold vlen in L. lia. Qed.

(** ** Ordered: with data of total at most 2^(E-1) and a whole that is well above the rounding errors, oaggregate returns, and for
    every row (p, gain, loss) of Qualities the rows of Partitions with parameter p tile the slices, show the exact normalised gain and loss of
    their slices up to norm_err (plus the rounding to double), gain and loss are their totals up to ntot_err, and no other tiling is better by more than nopt_err. *)
Theorem C82_ordered : forall lg E d (th : f32) (micro : rarray (IA lg)) d0 d1 d2, 32 <= E <= 8000 -> (0 <= d <= / 1024)%R -> log_accurate E d lg -> thr32 th ->
  r_cube micro d0 d1 d2 -> d2 <= 65535 -> d0 * d1 <= 2147483647 -> Forall (datum E) (ra_data micro) ->
  let ex := exact_array micro in let t0 := interval total ex d0 d1 1 d2 in let g0 := interval gain_of ex d0 d1 1 d2 in let l0 := interval loss_of ex d0 d1 1 d2 in
  (t0 <= bpow radix2 (E - 1))%R -> well_above E (d2 + d0 * d1) d t0 g0 -> well_above E (d2 + d0 * d1) d t0 l0 ->
  (exists fuel r, r_oaggregate (IA lg) as_double false fuel micro th = Ok r) /\
  forall fuel r p g l, r_oaggregate (IA lg) as_double false fuel micro th = Ok r -> In (p, (g, l)) (rr_quals r) ->
    let rows := rows_at (IA lg) p (rr_parts r) in let parts := map (fun '(s, e, _, _) => (s, e)) rows in
    let G := fun '(s, e) => (interval gain_of ex d0 d1 s e / g0)%R in let L := fun '(s, e) => (interval loss_of ex d0 d1 s e / l0)%R in
    unit32 p /\ tiles 1 (d2 + 1) parts /\
    (forall s e g' l', In (s, e, g', l') rows -> within (norm_err E (d2 + d0 * d1) d t0 g0 + rd_err) g' (G (s, e)) /\ within (norm_err E (d2 + d0 * d1) d t0 l0 + rd_err) l' (L (s, e))) /\
    within (ntot_err E d2 (d0 * d1) d t0 g0 + rd_err) g (Rsum G parts) /\ within (ntot_err E d2 (d0 * d1) d t0 l0 + rd_err) l (Rsum L parts) /\
    (0 <= Rsum G parts <= 1)%R /\ (0 <= Rsum L parts <= 1)%R /\
    forall c, tiles 1 (d2 + 1) c ->
      (wgain p * Rsum G c - wloss p * Rsum L c <= wgain p * Rsum G parts - wloss p * Rsum L parts + nopt_err E d2 (d0 * d1) d t0 g0 l0)%R.
Proof.
  intros lg E d th micro d0 d1 d2 HE Hd HL Ht C Hn Hs Hdat ex t0 g0 l0 Htot HG HO. pose proof C as (_ & H0 & H1 & H2 & _).
  destruct (C61_ieee_parameters lg th Ht) as (Irr & B & D0 & D1 & L01).
  destruct (o_setup (IA lg) micro d0 d1 d2 C Hn) as (m & ta & t & q0 & Em & Sh & Ho & Ec & En & St0 & St & Gq & Er0).
  destruct (micro_prf (IA lg) micro d0 d1 d2 C) as (m' & Em' & Lm & R3 & _). rewrite Em in Em'. injection Em' as <-.
  pose proof (micro_exact lg micro d0 d1 d2 m C Em) as Xm. pose proof (micro_all (IA lg) (datum E) micro d0 d1 d2 m C Em Hdat) as Dm.
  destruct (o_fdata lg m d0 d1 d2 Lm H0 H1 ltac:(lia) R3 Hs) as (Hv & Ev & Eo).
  assert (XR : map reals (concat m) = r_series ex d0 d1 d2).
  { unfold ex. rewrite <- series_nested, <- Xm. apply concat_map. }
  assert (Ls : forall r, In r (r_series ex d0 d1 d2) -> vlen r = d2).
  { intros r I. unfold r_series in I. apply in_map_iff in I. destruct I as ([i j] & <- & _). unfold vlen. rewrite map_length. apply upto_len. lia. }
  assert (Blk : forall f i j, 0 <= i <= j -> j < d2 -> Rsum (fun r => f (slice r i j)) (map reals (concat m)) = interval f ex d0 d1 (i + 1) (j + 1)).
  { intros f i j Hi Hj. rewrite XR. apply ordered_block; auto. }
  assert (T0 : forall f, Rsum (fun r => f (slice r 0 (d2 - 1))) (map reals (concat m)) = interval f ex d0 d1 1 d2).
  { intro f. rewrite Blk by lia. replace (d2 - 1 + 1) with d2 by lia. reflexivity. }
  assert (Dat' : Forall (Forall (datum E)) (concat m)) by (clear -Dm; induction Dm; [constructor|cbn [concat]; apply Forall_app; auto]).
  assert (Htot' : (Rsum (fun r => total (reals r)) (concat m) <= bpow radix2 (E - 1))%R).
  { rewrite <- (Rsum_map _ _ total reals), XR. replace (Rsum total (r_series ex d0 d1 d2)) with t0; [exact Htot|]. unfold t0. rewrite <- (T0 total), XR.
    apply Rsum_ext. intros r I. rewrite slice_whole; auto. }
  assert (EN : ogain (map reals (concat m)) 0 (d2 - 1) = g0 /\ oloss (map reals (concat m)) 0 (d2 - 1) = l0 /\ ototal (map reals (concat m)) 0 (d2 - 1) = t0).
  { unfold ogain, oloss, ototal. rewrite !T0. auto. }
  destruct EN as (EG & EL & ET).
  pose proof (o_norm_all lg E d (ov3_of (IA lg) m) (concat m) HE Hd HL Hv) as NA. rewrite Ev, Eo, EG, EL, ET in NA.
  destruct (NA ltac:(lia) Dat' Htot' HG HO) as (t' & Et & _ & Kt & Kp). rewrite Ec in Et. cbn [bind] in Et. rewrite En in Et. injection Et as <-.
  clear NA.
  assert (Dom : 0 <= d2 <= 2147483647) by lia.
  split.
  - destruct (Kp _ D0) as (x & Ex & _ & (W1 & W2) & (U1 & U2) & _).
    apply (C61_ordered_defined lg as_double micro th d0 d1 d2 m _ t x C Hn Ht Em Ec En Ex).
    apply small_score; [apply W1|apply W2|apply (total_small _ _ _ _ _ _ _ _ HG Dom W1 U1)|apply (total_small _ _ _ _ _ _ _ _ HO Dom W2 U2)].
  - intros fuel r p g l Er Iq rows parts G L. rewrite Er0 in Er. apply bind_ok in Er. destruct Er as (st & Es & Ef).
    pose proof (C30_ordered (IA lg) t d2 ltac:(lia) St unit32 th B fuel _ _ _ st D0 D1 L01 Es) as Ag.
    pose proof (search_tuples (IA lg) unit32 th B (o_best (IA lg) t) on_param (on_eqb (IA lg)) on_quality (o_tuples (IA lg)) (fun p _ => o_ok (IA lg) t d2 ltac:(lia) St p) fuel _ _ _ st D0 D1 L01 Es) as Tu.
    destruct (frames_prf (IA lg) (o_best (IA lg) t) on_quality (o_tuples (IA lg)) (o_row (IA lg) as_double) as_double Irr _ _ st r eq_refl Ag Tu Ef) as ((So & _) & Kl & _ & _ & _ & Rw).
    assert (Ip : In p (map fst (rr_quals r))) by (apply in_map_iff; exists (p, (g, l)); auto).
    assert (Up : unit32 p). { apply (proj1 (Forall_forall _ _) (listed_unit lg _ _ _ _ _ _ _ Ag)). rewrite <- Kl. exact Ip. }
    destruct (Rw p Ip) as (x & Ex & Erow & Iq'). pose proof (quals_one (IA lg) _ _ _ _ _ Irr So Iq Iq') as Eq. injection Eq as -> ->.
    destruct (Kp p Up) as (x' & Ex' & Tx & (W1 & W2) & (U1 & U2) & Op). change (par (IA lg)) with f32 in *. rewrite Ex in Ex'. injection Ex' as <-.
    assert (Erow' : rows = map (fun y : opart (IA lg) => (op_start y + 1, op_end y + 1, as_double (gain (op_quality y)), as_double (loss (op_quality y)))) (on_parts x)).
    { unfold rows. rewrite Erow. unfold o_tuples. rewrite map_map. reflexivity. }
    assert (Epar : parts = map (fun k => (fst k + 1, snd k + 1)) (map (fun y => (op_start y, op_end y)) (on_parts x))).
    { unfold parts. rewrite Erow', !map_map. reflexivity. }
    destruct (o_quality_prf (IA lg) t d2 p x ltac:(lia) St Ex) as (Qx & _).
    assert (Bp : forall y, In y (on_parts x) -> 0 <= op_start y <= op_end y /\ op_end y < d2).
    { intros y Iy. apply (tiles_In _ _ _ Tx). apply in_map_iff. exists y. auto. }
    assert (EGi : forall i j, 0 <= i <= j -> j < d2 -> ogain (map reals (concat m)) i j = interval gain_of ex d0 d1 (i + 1) (j + 1) /\ oloss (map reals (concat m)) i j = interval loss_of ex d0 d1 (i + 1) (j + 1)).
    { intros i j Hi Hj. unfold ogain, oloss. rewrite !Blk by auto. auto. }
    assert (ES : Rsum G parts = Rsum (fun y => ogain (map reals (concat m)) (op_start y) (op_end y) / g0)%R (on_parts x) /\ Rsum L parts = Rsum (fun y => oloss (map reals (concat m)) (op_start y) (op_end y) / l0)%R (on_parts x)).
    { rewrite Epar, !Rsum_map. split; apply Rsum_ext; intros y Iy; destruct (Bp y Iy) as (B1 & B2); destruct (EGi _ _ B1 B2) as (Q1 & Q2); rewrite ?Q1, ?Q2; reflexivity. }
    destruct ES as (ESG & ESL).
    set (up := fun k : Z * Z => (fst k + 1, snd k + 1)) in *.
    assert (VL : forall c, (forall i j, In (i, j) c -> 0 <= i <= j /\ j < d2) -> onvalue (wgain p) (wloss p) (map reals (concat m)) d2 c = (wgain p * Rsum G (map up c) - wloss p * Rsum L (map up c))%R).
    { intros c Hc. unfold onvalue. rewrite EG, EL, !Rsum_map. induction c as [|[i j] c IH]; [rewrite !Rsum_nil; ring|]. rewrite !Rsum_cons, IH by (intros; apply Hc; right; auto).
      destruct (Hc i j (or_introl eq_refl)) as (B1 & B2). cbn [fst snd]. destruct (EGi i j B1 B2) as (-> & ->). cbn [up G L fst snd]. ring. }
    split; [exact Up|]. split.
    { rewrite Epar. apply (tiles_shift 1) in Tx. exact Tx. }
    split; [|split; [|split; [|split; [rewrite ESG; exact U1|split; [rewrite ESL; exact U2|]]]]].
    + intros s e g' l' I. rewrite Erow' in I. apply in_map_iff in I. destruct I as (y & K & Iy). injection K as <- <- <- <-. destruct (Bp y Iy) as (B1 & B2).
      destruct (Kt _ _ B1 B2) as (q & Eq & V1 & V2). pose proof (Qx y Iy) as K. rewrite Eq in K. injection K as ->. destruct (EGi _ _ B1 B2) as (E1 & E2). rewrite E1 in V1. rewrite E2 in V2.
      assert (Ra : (0 <= ogain (map reals (concat m)) (op_start y) (op_end y) / g0 <= 1)%R /\ (0 <= oloss (map reals (concat m)) (op_start y) (op_end y) / l0 <= 1)%R).
      { rewrite <- Eo in B2. pose proof (o_pw lg E (ov3_of (IA lg) m) (concat m) Hv ltac:(lia) Dat' _ _ B1 B2) as (P1 & P2). rewrite Eo, EG in P1. rewrite Eo, EL in P2.
        split; apply ratio01; try apply HG; try apply HO; split; auto; [eapply ogain_nonneg|eapply oloss_nonneg]; try (apply (o_len lg _ _ Hv)); apply (o_nn E _ Dat'). }
      rewrite E1, E2 in Ra. split; (apply shown; [assumption|]); eapply entry_small; try eassumption; try (apply norm_err_3; assumption); apply Ra.
    + rewrite ESG. apply shown; [exact W1|apply (total_small _ _ _ _ _ _ _ _ HG Dom W1 U1)].
    + rewrite ESL. apply shown; [exact W2|apply (total_small _ _ _ _ _ _ _ _ HO Dom W2 U2)].
    + intros c Tc. pose proof (tiles_shift (-1) _ _ _ Tc) as Tc'. replace (1 + -1) with 0 in Tc' by lia. replace (d2 + 1 + -1) with d2 in Tc' by lia.
      specialize (Op _ Tc'). rewrite !VL in Op.
      * rewrite <- Epar in Op. rewrite map_map in Op.
        rewrite (map_ext _ (fun k => k)), map_id in Op; [exact Op|]. intros [a b]. unfold up. cbn [fst snd]. f_equal; lia.
      * intros i j I. apply in_map_iff in I. destruct I as (y & K & Iy). injection K as <- <-. apply Bp. exact Iy.
      * intros i j I. apply (tiles_In _ _ _ Tc' i j I).
Qed.
Print Assumptions C82_ordered.

Lemma cells_root : forall m c, well_built m -> vlen c = m_leaves m -> hcells m c (m_root m) = c.
Proof. intros m c W L. unfold hcells. rewrite (lv_root m W), <- L. symmetry. apply list_elt. Qed.

(** ** Hierarchical (root numbered last). *)
Theorem C82_hier : forall lg E d (th : f32) (micro : rarray (IA lg)) h d0 d1 d2, 32 <= E <= 8000 -> (0 <= d <= / 1024)%R -> log_accurate E d lg -> thr32 th ->
  r_cube micro d0 d1 d2 -> r_tree h d0 (vlen h - 1) -> d0 <= 2147483647 -> d1 * d2 <= 2147483647 -> Forall (datum E) (ra_data micro) ->
  let ex := exact_array micro in let root := vlen h in
  let t0 := subtree total ex d0 d1 d2 h root in let g0 := subtree gain_of ex d0 d1 d2 h root in let l0 := subtree loss_of ex d0 d1 d2 h root in
  (t0 <= bpow radix2 (E - 1))%R -> well_above E (d0 + d1 * d2) d t0 g0 -> well_above E (d0 + d1 * d2) d t0 l0 ->
  (exists fuel r, r_haggregate (IA lg) as_double false fuel micro h th = Ok r) /\
  forall fuel r p g l, r_haggregate (IA lg) as_double false fuel micro h th = Ok r -> In (p, (g, l)) (rr_quals r) ->
    let rows := rows_at (IA lg) p (rr_parts r) in let parts := map (fun '(x, _, _, _) => x) rows in
    let G := fun x => (subtree gain_of ex d0 d1 d2 h x / g0)%R in let L := fun x => (subtree loss_of ex d0 d1 d2 h x / l0)%R in
    unit32 p /\ node_cover d0 (from0 h) (map (fun x => x - 1) parts) /\
    (forall x s g' l', In (x, s, g', l') rows -> within (norm_err E (d0 + d1 * d2) d t0 g0 + rd_err) g' (G x) /\ within (norm_err E (d0 + d1 * d2) d t0 l0 + rd_err) l' (L x)) /\
    within (ntot_err E d0 (d1 * d2) d t0 g0 + rd_err) g (Rsum G parts) /\ within (ntot_err E d0 (d1 * d2) d t0 l0 + rd_err) l (Rsum L parts) /\
    (0 <= Rsum G parts <= 1)%R /\ (0 <= Rsum L parts <= 1)%R /\
    forall c, node_cover d0 (from0 h) (map (fun x => x - 1) c) ->
      (wgain p * Rsum G c - wloss p * Rsum L c <= wgain p * Rsum G parts - wloss p * Rsum L parts + nopt_err E d0 (d1 * d2) d t0 g0 l0)%R.
Proof.
  intros lg E d th micro h d0 d1 d2 HE Hd HL Ht C Tr Hs0 Hs Hdat ex root t0 g0 l0 Htot HG HO. pose proof C as (_ & H0 & H1 & H2 & _).
  destruct (C61_ieee_parameters lg th Ht) as (Irr & B & D0 & D1 & L01).
  destruct (h_setup (IA lg) micro d0 d1 d2 h _ C Tr) as (m & v & ta & t & q0 & Em & Ev & Sh & W & El & Ep & Ero & Ehs & Ec & En & Lt0 & Lt & Gq & Er0).
  destruct (micro_prf (IA lg) micro d0 d1 d2 C) as (m' & Em' & Lm & R3 & _). rewrite Em in Em'. injection Em' as <-.
  pose proof (micro_exact lg micro d0 d1 d2 m C Em) as Xm. pose proof (micro_all (IA lg) (datum E) micro d0 d1 d2 m C Em Hdat) as Dm.
  pose proof Tr as (_ & _ & Hh). assert (Hz : 2 <= m_hsize (hv_meta v)) by lia. assert (Lt' : vlen t = m_hsize (hv_meta v)) by lia.
  destruct (h_fdata lg m d0 d1 d2 _ v Lm H0 H1 H2 R3 Hs Hs0 Ev W Hz El) as (Hv & Evs).
  set (comps := columns f0 (d1 * d2) (map (@concat f80) m)) in *. set (me := hv_meta v) in *.
  assert (XR : map reals comps = r_columns ex d0 d1 d2).
  { unfold comps, reals. rewrite columns_img, concat_img. change (B2R f0) with 0%R. unfold ex. rewrite <- columns_nested by lia. rewrite <- Xm. reflexivity. }
  assert (Ls : forall r, In r (r_columns ex d0 d1 d2) -> vlen r = d0).
  { intros r I. unfold r_columns in I. apply in_map_iff in I. destruct I as ([i j] & <- & _). unfold vlen. rewrite map_length. apply upto_len. lia. }
  assert (Blk : forall f y, Rsum (fun c => f (hcells me c y)) (map reals comps) = subtree f ex d0 d1 d2 h (y + 1)).
  { intros f y. rewrite XR. apply hier_block; auto. }
  assert (Eroot : m_root me + 1 = root) by (rewrite Ero; unfold root; lia).
  assert (Dat' : Forall (Forall (datum E)) comps).
  { apply columns_Forall; [split; [reflexivity|left; reflexivity]|]. apply Forall_map. eapply Forall_impl; [|exact Dm]. intros s Fs. clear -Fs. induction Fs; [constructor|cbn [concat]; apply Forall_app; auto]. }
  assert (Htot' : (Rsum (fun c => total (reals c)) comps <= bpow radix2 (E - 1))%R).
  { rewrite <- (Rsum_map _ _ total reals). replace (Rsum total (map reals comps)) with t0; [exact Htot|]. unfold t0. rewrite <- Eroot, <- (Blk total), XR.
    apply Rsum_ext. intros r I. rewrite cells_root; auto. rewrite (Ls r I). symmetry. exact El. }
  assert (EN : hgain me (map reals comps) (m_root me) = g0 /\ hloss me (map reals comps) (m_root me) = l0 /\ htotal me (map reals comps) (m_root me) = t0).
  { unfold hgain, hloss, htotal. rewrite !Blk, Eroot. auto. }
  destruct EN as (EG & EL & ET).
  pose proof (h_norm_all lg E d v comps HE Hd HL Hv Dat' Htot' ltac:(fold me; rewrite Ero, Ehs; reflexivity)) as NA. fold me in NA. rewrite Evs, El, EG, EL, ET in NA.
  destruct (NA HG HO) as (t' & Et & _ & Kt & Kp). rewrite Ec in Et. cbn [bind] in Et. rewrite En in Et. injection Et as <-.
  clear NA.
  assert (Dom : 0 <= d0 <= 2147483647) by lia.
  split.
  - destruct (Kp _ D0) as (x & Ex & _ & (W1 & W2) & (U1 & U2) & _).
    apply (C61_hier_defined lg as_double micro h th d0 d1 d2 _ m v _ t x C Tr Ht Em Ev Ec En Ex).
    apply small_score; [apply W1|apply W2|apply (total_small _ _ _ _ _ _ _ _ HG Dom W1 U1)|apply (total_small _ _ _ _ _ _ _ _ HO Dom W2 U2)].
  - intros fuel r p g l Er Iq rows parts G L. rewrite Er0 in Er. apply bind_ok in Er. destruct Er as (st & Es & Ef).
    pose proof (C30_hier _ W Hz (IA lg) t Lt' unit32 th B fuel _ _ _ st D0 D1 L01 Es) as Ag.
    pose proof (search_tuples (IA lg) unit32 th B (h_best (IA lg) t me) hn_param (hn_eqb (IA lg)) hn_quality (h_tuples (IA lg)) (fun p _ => h_ok _ W Hz (IA lg) t Lt' p) fuel _ _ _ st D0 D1 L01 Es) as Tu.
    destruct (frames_prf (IA lg) (h_best (IA lg) t me) hn_quality (h_tuples (IA lg)) (h_row (IA lg) as_double) as_double Irr _ _ st r eq_refl Ag Tu Ef) as ((So & _) & Kl & _ & _ & _ & Rw).
    assert (Ip : In p (map fst (rr_quals r))) by (apply in_map_iff; exists (p, (g, l)); auto).
    assert (Up : unit32 p). { apply (proj1 (Forall_forall _ _) (listed_unit lg _ _ _ _ _ _ _ Ag)). rewrite <- Kl. exact Ip. }
    destruct (Rw p Ip) as (x & Ex & Erow & Iq'). pose proof (quals_one (IA lg) _ _ _ _ _ Irr So Iq Iq') as Eq. injection Eq as -> ->.
    destruct (Kp p Up) as (x' & Ex' & Cx & (W1 & W2) & (U1 & U2) & Op). change (par (IA lg)) with f32 in *. rewrite Ex in Ex'. injection Ex' as <-. rewrite Ep in Cx, Op.
    assert (Erow' : rows = map (fun y : hpart (IA lg) => (hp_h y + 1, hp_size y, as_double (gain (hp_quality y)), as_double (loss (hp_quality y)))) (hn_parts x)).
    { unfold rows. rewrite Erow. unfold h_tuples. rewrite map_map. reflexivity. }
    set (up := fun k : Z => k + 1).
    assert (Epar : parts = map up (map hp_h (hn_parts x))).
    { unfold parts. rewrite Erow', !map_map. reflexivity. }
    destruct (h_quality_prf _ W Hz (IA lg) t p x Lt' Ex) as (Qx & _).
    assert (NB : forall c, node_cover d0 (from0 h) c -> forall y, In y c -> 0 <= y < m_hsize me).
    { intros c (_ & Nc & _) y Iy. pose proof (Nc y Iy) as Bn. unfold node, from0, vlen in Bn. rewrite map_length in Bn. rewrite Ehs. unfold vlen. lia. }
    assert (Bp : forall y, In y (hn_parts x) -> 0 <= hp_h y < m_hsize me).
    { intros y Iy. apply (NB _ Cx). apply in_map_iff. exists y. auto. }
    assert (EGi : forall y, hgain me (map reals comps) y = subtree gain_of ex d0 d1 d2 h (y + 1) /\ hloss me (map reals comps) y = subtree loss_of ex d0 d1 d2 h (y + 1)).
    { intros y. unfold hgain, hloss. rewrite !Blk by auto. auto. }
    assert (ES : Rsum G parts = Rsum (fun y => hgain me (map reals comps) (hp_h y) / g0)%R (hn_parts x) /\ Rsum L parts = Rsum (fun y => hloss me (map reals comps) (hp_h y) / l0)%R (hn_parts x)).
    { rewrite Epar, !Rsum_map. split; apply Rsum_ext; intros y Iy; destruct (EGi (hp_h y)) as (Q1 & Q2); rewrite ?Q1, ?Q2; reflexivity. }
    destruct ES as (ESG & ESL).
    assert (VL : forall c, hnvalue (wgain p) (wloss p) me (map reals comps) c = (wgain p * Rsum G (map up c) - wloss p * Rsum L (map up c))%R).
    { intros c. unfold hnvalue. rewrite EG, EL, !Rsum_map. induction c as [|y c IH]; [rewrite !Rsum_nil; ring|]. rewrite !Rsum_cons, IH.
      destruct (EGi y) as (-> & ->). unfold up, G, L. ring. }
    assert (Dn : forall c, map (fun k => k - 1) (map up c) = c).
    { intro c. rewrite map_map. rewrite (map_ext _ (fun k => k)), map_id; [reflexivity|]. intro a. unfold up. lia. }
    split; [exact Up|]. split.
    { rewrite Epar, Dn. exact Cx. }
    split; [|split; [|split; [|split; [rewrite ESG; exact U1|split; [rewrite ESL; exact U2|]]]]].
    + intros s e g' l' I. rewrite Erow' in I. apply in_map_iff in I. destruct I as (y & K & Iy). injection K as <- <- <- <-. pose proof (Bp y Iy) as B1.
      destruct (Kt _ B1) as (q & Eq & V1 & V2). pose proof (Qx y Iy) as K. rewrite Eq in K. injection K as ->. destruct (EGi (hp_h y)) as (E1 & E2). rewrite E1 in V1. rewrite E2 in V2.
      assert (Ra : (0 <= hgain me (map reals comps) (hp_h y) / g0 <= 1)%R /\ (0 <= hloss me (map reals comps) (hp_h y) / l0 <= 1)%R).
      { pose proof (h_part_whole me W (map reals comps) (h_len lg v comps Hv) (h_nn E comps Dat') (hp_h y)) as (P1 & P2). rewrite EG in P1. rewrite EL in P2.
        split; apply ratio01; try apply HG; try apply HO; split; auto; [apply (hgain_nonneg me W _ (h_len lg v comps Hv) (h_nn E comps Dat'))|apply (hloss_nonneg me W _ (h_len lg v comps Hv) (h_nn E comps Dat'))]. }
      rewrite E1, E2 in Ra. split; (apply shown; [assumption|]); eapply entry_small; try eassumption; try (apply norm_err_3; assumption); apply Ra.
    + rewrite ESG. apply shown; [exact W1|apply (total_small _ _ _ _ _ _ _ _ HG Dom W1 U1)].
    + rewrite ESL. apply shown; [exact W2|apply (total_small _ _ _ _ _ _ _ _ HO Dom W2 U2)].
    + intros c Tc. specialize (Op _ Tc). rewrite !VL, <- Epar in Op.
      replace (map up (map (fun k => k - 1) c)) with c in Op; [exact Op|]. rewrite map_map. rewrite (map_ext _ (fun k => k)), map_id; [reflexivity|]. intro a. unfold up. lia.
Qed.
Print Assumptions C82_hier.

Lemma rect_root : forall m n c, well_built m -> 1 <= n -> comp_len m n c -> dcells m c (m_root m) 0 (n - 1) = concat c.
Proof.
  intros m n c W Hn (L & F). unfold dcells. rewrite (lv_root m W), <- L, flat_map_concat_map. f_equal.
  transitivity (map (elt [] c) (zrange 0 (vlen c))); [|symmetry; apply list_elt]. apply map_ext_in. intros x Ix. apply In_zrange in Ix.
  apply slice_whole; auto. rewrite Forall_forall in F. apply F. unfold elt. apply nth_In. unfold vlen in Ix. lia.
Qed.
Lemma total_concat : forall c, total (concat c) = Rsum total c.
Proof. induction c as [|r c IH]; [reflexivity|]. cbn [concat]. rewrite total_app, IH, Rsum_cons. reflexivity. Qed.

(** ** Spatio-temporal (root numbered last); the competitors are the covers in which time never moves up the tree. *)
Theorem C82_spatio : forall lg E d (th : f32) (micro : rarray (IA lg)) h d0 d1 d2, 32 <= E <= 8000 -> (0 <= d <= / 1024)%R -> log_accurate E d lg -> thr32 th ->
  r_cube micro d0 d1 d2 -> d2 <= 65535 -> r_tree h d0 (vlen h - 1) -> d0 * d2 <= 2147483647 -> d1 <= 2147483647 -> Forall (datum E) (ra_data micro) ->
  let ex := exact_array micro in let root := vlen h in
  let t0 := rectangle total ex d0 d1 h root 1 d2 in let g0 := rectangle gain_of ex d0 d1 h root 1 d2 in let l0 := rectangle loss_of ex d0 d1 h root 1 d2 in
  (t0 <= bpow radix2 (E - 1))%R -> well_above E (d0 * d2 + d1) d t0 g0 -> well_above E (d0 * d2 + d1) d t0 l0 ->
  (exists fuel r, r_daggregate (IA lg) as_double false fuel micro h th = Ok r) /\
  forall fuel r p g l, r_daggregate (IA lg) as_double false fuel micro h th = Ok r -> In (p, (g, l)) (rr_quals r) ->
    let rows := rows_at (IA lg) p (rr_parts r) in let parts := map (fun '(x, _, s, e, _, _) => (x, s, e)) rows in
    let at0 := map (fun '(x, s, e) => (x - 1, s - 1, e - 1)) in
    let G := fun '(x, s, e) => (rectangle gain_of ex d0 d1 h x s e / g0)%R in let L := fun '(x, s, e) => (rectangle loss_of ex d0 d1 h x s e / l0)%R in
    unit32 p /\ rect_cover d0 (from0 h) d2 (at0 parts) /\
    (forall x z s e g' l', In (x, z, s, e, g', l') rows -> within (norm_err E (d0 * d2 + d1) d t0 g0 + rd_err) g' (G (x, s, e)) /\ within (norm_err E (d0 * d2 + d1) d t0 l0 + rd_err) l' (L (x, s, e))) /\
    within (ntot_err E (d0 * d2) d1 d t0 g0 + rd_err) g (Rsum G parts) /\ within (ntot_err E (d0 * d2) d1 d t0 l0 + rd_err) l (Rsum L parts) /\
    (0 <= Rsum G parts <= 1)%R /\ (0 <= Rsum L parts <= 1)%R /\
    forall c, rect_cover d0 (from0 h) d2 (at0 c) -> never_up d0 (from0 h) (at0 c) ->
      (wgain p * Rsum G c - wloss p * Rsum L c <= wgain p * Rsum G parts - wloss p * Rsum L parts + nopt_err E (d0 * d2) d1 d t0 g0 l0)%R.
Proof.
  intros lg E d th micro h d0 d1 d2 HE Hd HL Ht C Hn Tr Hs0 Hs Hdat ex root t0 g0 l0 Htot HG HO. pose proof C as (_ & H0 & H1 & H2 & _).
  destruct (C61_ieee_parameters lg th Ht) as (Irr & B & D0 & D1 & L01).
  destruct (d_setup (IA lg) micro d0 d1 d2 h _ C Hn Tr) as (m & v & ta & t & q0 & Em & Ev & Sh & Eos & W & El & Ep & Ero & Ehs & Ec & En & (Lt0 & Ft0) & (Lt & Ft) & Gq & Er0).
  destruct (micro_prf (IA lg) micro d0 d1 d2 C) as (m' & Em' & Lm & R3 & _). rewrite Em in Em'. injection Em' as <-.
  pose proof (micro_exact lg micro d0 d1 d2 m C Em) as Xm. pose proof (micro_all (IA lg) (datum E) micro d0 d1 d2 m C Em Hdat) as Dm.
  pose proof Tr as (_ & _ & Hh). assert (Hz : 2 <= m_hsize (dv_meta v)) by lia. assert (Lt' : vlen t = m_hsize (dv_meta v)) by lia. assert (Hn' : 1 <= d2 <= 65535) by lia.
  destruct (d_fdata lg m d0 d1 d2 _ v Lm H0 H1 Hn' R3 Hs Hs0 Ev W Hz El) as (Hv & Evs & _).
  set (comps := columns [] d1 m) in *. set (me := dv_meta v) in *.
  assert (XR : map (map reals) comps = map (fun jj => map (fun x => map (fun kk => r_val ex x jj kk) (upto d2)) (upto d0)) (upto d1)).
  { unfold comps. rewrite columns_img. change (reals []) with (@nil R). change (num (IA lg)) with f80 in *. rewrite Xm. fold ex.
    apply (columns_swap _ _ _ [] (fun i j => map (fun kk => r_val ex i j kk) (upto d2))). apply upto_len. lia. }
  assert (Blk : forall f y i j, 0 <= i <= j -> j < d2 -> Rsum (fun c => f (dcells me c y i j)) (map (map reals) comps) = rectangle f ex d0 d1 h (y + 1) (i + 1) (j + 1)).
  { intros f y i j Hi Hj. rewrite XR. apply spatio_block; auto. }
  assert (Eroot : m_root me + 1 = root) by (rewrite Ero; unfold root; lia).
  assert (T0 : forall f, Rsum (fun c => f (dcells me c (m_root me) 0 (d2 - 1))) (map (map reals) comps) = rectangle f ex d0 d1 h root 1 d2).
  { intro f. rewrite Blk by lia. rewrite Eroot. replace (d2 - 1 + 1) with d2 by lia. reflexivity. }
  assert (Dat' : Forall (Forall (Forall (datum E))) comps).
  { apply columns_Forall; [constructor|exact Dm]. }
  pose proof (d_len lg v comps Hv) as Ln. rewrite Eos in Ln. pose proof (d_nn E comps Dat') as Nn. fold me in Ln.
  assert (Htot' : (Rsum (fun c => Rsum (fun r => total (reals r)) c) comps <= bpow radix2 (E - 1))%R).
  { replace (Rsum (fun c => Rsum (fun r => total (reals r)) c) comps) with t0; [exact Htot|]. unfold t0. rewrite <- (T0 total), Rsum_map. apply Rsum_ext. intros r I.
    rewrite rect_root; [|exact W|lia|]. 2:{ rewrite Forall_forall in Ln. apply Ln. apply in_map. exact I. }
    rewrite total_concat, Rsum_map. reflexivity. }
  assert (EN : dgain me (map (map reals) comps) (m_root me) 0 (d2 - 1) = g0 /\ dloss me (map (map reals) comps) (m_root me) 0 (d2 - 1) = l0 /\ dtotal me (map (map reals) comps) (m_root me) 0 (d2 - 1) = t0).
  { unfold dgain, dloss, dtotal. rewrite !T0. auto. }
  destruct EN as (EG & EL & ET).
  pose proof (d_norm_all lg E d v comps HE Hd HL Hv Dat' Htot' ltac:(fold me; rewrite Ero, Ehs; reflexivity)) as NA. fold me in NA. rewrite Evs, El, Eos, EG, EL, ET in NA.
  destruct (NA HG HO) as (t' & Et & _ & _ & Kt & Kp). rewrite Ec in Et. cbn [bind] in Et. rewrite En in Et. injection Et as <-.
  clear NA.
  assert (Dom : 0 <= d0 * d2 <= 2147483647) by lia.
  split.
  - destruct (Kp _ D0) as (x & Ex & _ & (W1 & W2) & (U1 & U2) & _).
    apply (C61_spatio_defined lg as_double micro h th d0 d1 d2 _ m v _ t x C Hn Tr Ht Em Ev Ec En Ex).
    apply small_score; [apply W1|apply W2|apply (total_small _ _ _ _ _ _ _ _ HG Dom W1 U1)|apply (total_small _ _ _ _ _ _ _ _ HO Dom W2 U2)].
  - intros fuel r p g l Er Iq rows parts at0 G L. rewrite Er0 in Er. apply bind_ok in Er. destruct Er as (st & Es & Ef).
    pose proof (C30_spatio _ W (IA lg) t d2 Hn' Lt' Ft unit32 th B fuel _ _ _ st D0 D1 L01 Es) as Ag.
    pose proof (search_tuples (IA lg) unit32 th B (d_best (IA lg) t me) dn_param (dn_eqb (IA lg)) dn_quality (d_tuples (IA lg)) (fun p _ => d_ok _ W (IA lg) t d2 Hn' Lt' Ft p) fuel _ _ _ st D0 D1 L01 Es) as Tu.
    destruct (frames_prf (IA lg) (d_best (IA lg) t me) dn_quality (d_tuples (IA lg)) (d_row (IA lg) as_double) as_double Irr _ _ st r eq_refl Ag Tu Ef) as ((So & _) & Kl & _ & _ & _ & Rw).
    assert (Ip : In p (map fst (rr_quals r))) by (apply in_map_iff; exists (p, (g, l)); auto).
    assert (Up : unit32 p). { apply (proj1 (Forall_forall _ _) (listed_unit lg _ _ _ _ _ _ _ Ag)). rewrite <- Kl. exact Ip. }
    destruct (Rw p Ip) as (x & Ex & Erow & Iq'). pose proof (quals_one (IA lg) _ _ _ _ _ Irr So Iq Iq') as Eq. injection Eq as -> ->.
    destruct (Kp p Up) as (x' & Ex' & Cx & (W1 & W2) & (U1 & U2) & Op). change (par (IA lg)) with f32 in *. rewrite Ex in Ex'. injection Ex' as <-. rewrite Ep in Cx, Op.
    assert (Erow' : rows = map (fun y : dpart (IA lg) => (dp_h y + 1, dp_size y, dp_start y + 1, dp_end y + 1, as_double (gain (dp_quality y)), as_double (loss (dp_quality y)))) (dn_parts x)).
    { unfold rows. rewrite Erow. unfold d_tuples. rewrite map_map. reflexivity. }
    set (up := map (fun '(x, s, e) => (x + 1, s + 1, e + 1) : Z * Z * Z)).
    assert (Epar : parts = up (map (fun y => (dp_h y, dp_start y, dp_end y)) (dn_parts x))).
    { unfold parts, up. rewrite Erow', !map_map. reflexivity. }
    destruct (d_quality_prf _ W (IA lg) t d2 p x Hn' Lt' Ft Ex) as (Qx & _).
    assert (NB : forall c, rect_cover d0 (from0 h) d2 c -> forall y a b, In (y, a, b) c -> 0 <= y < m_hsize me /\ 0 <= a <= b /\ b < d2).
    { intros c (_ & Nc & _) y a b Iy. destruct (Nc y a b Iy) as (Bn & B2 & B3). unfold node, from0, vlen in Bn. rewrite map_length in Bn. rewrite Ehs. unfold vlen. lia. }
    assert (Bp : forall y, In y (dn_parts x) -> 0 <= dp_h y < m_hsize me /\ 0 <= dp_start y <= dp_end y /\ dp_end y < d2).
    { intros y Iy. apply (NB _ Cx). apply in_map_iff. exists y. auto. }
    assert (EGi : forall y a b, 0 <= a <= b -> b < d2 -> dgain me (map (map reals) comps) y a b = rectangle gain_of ex d0 d1 h (y + 1) (a + 1) (b + 1) /\ dloss me (map (map reals) comps) y a b = rectangle loss_of ex d0 d1 h (y + 1) (a + 1) (b + 1)).
    { intros y a b Ha Hb. unfold dgain, dloss. rewrite !Blk by auto. auto. }
    assert (ES : Rsum G parts = Rsum (fun y => dgain me (map (map reals) comps) (dp_h y) (dp_start y) (dp_end y) / g0)%R (dn_parts x) /\ Rsum L parts = Rsum (fun y => dloss me (map (map reals) comps) (dp_h y) (dp_start y) (dp_end y) / l0)%R (dn_parts x)).
    { rewrite Epar. unfold up. rewrite !Rsum_map. split; apply Rsum_ext; intros y Iy; destruct (Bp y Iy) as (_ & B2 & B3); destruct (EGi (dp_h y) _ _ B2 B3) as (Q1 & Q2); rewrite ?Q1, ?Q2; reflexivity. }
    destruct ES as (ESG & ESL).
    assert (VL : forall c, (forall y a b, In (y, a, b) c -> 0 <= a <= b /\ b < d2) -> dnvalue (wgain p) (wloss p) me (map (map reals) comps) d2 c = (wgain p * Rsum G (up c) - wloss p * Rsum L (up c))%R).
    { intros c Hc. unfold dnvalue, up. rewrite EG, EL, !Rsum_map. induction c as [|[[y a] b] c IH]; [rewrite !Rsum_nil; ring|]. rewrite !Rsum_cons, IH by (intros; eapply Hc; right; eauto).
      destruct (Hc y a b (or_introl eq_refl)) as (B2 & B3). destruct (EGi y a b B2 B3) as (-> & ->). unfold G, L. ring. }
    assert (Dn : forall c, at0 (up c) = c).
    { intro c. unfold at0, up. rewrite map_map. rewrite (map_ext _ (fun k => k)), map_id; [reflexivity|]. intros [[a b] c']. repeat f_equal; lia. }
    assert (Up' : forall c, up (at0 c) = c).
    { intro c. unfold at0, up. rewrite map_map. rewrite (map_ext _ (fun k => k)), map_id; [reflexivity|]. intros [[a b] c']. repeat f_equal; lia. }
    split; [exact Up|]. split.
    { rewrite Epar, Dn. exact Cx. }
    split; [|split; [|split; [|split; [rewrite ESG; exact U1|split; [rewrite ESL; exact U2|]]]]].
    + intros x0 z s e g' l' I. rewrite Erow' in I. apply in_map_iff in I. destruct I as (y & K & Iy). injection K as <- <- <- <- <- <-. destruct (Bp y Iy) as (B1 & B2 & B3).
      destruct (Kt _ _ _ B1 B2 B3) as (q & Eq & V1 & V2). pose proof (Qx y Iy) as K. rewrite Eq in K. injection K as ->. destruct (EGi (dp_h y) _ _ B2 B3) as (E1 & E2). rewrite E1 in V1. rewrite E2 in V2.
      assert (Ra : (0 <= dgain me (map (map reals) comps) (dp_h y) (dp_start y) (dp_end y) / g0 <= 1)%R /\ (0 <= dloss me (map (map reals) comps) (dp_h y) (dp_start y) (dp_end y) / l0 <= 1)%R).
      { pose proof (d_part_whole me W d2 (map (map reals) comps) Ln Nn (dp_h y) _ _ B2 B3) as (P1 & P2). rewrite EG in P1. rewrite EL in P2.
        split; apply ratio01; try apply HG; try apply HO; split; auto; [apply (dgain_nonneg me W d2 _ Ln Nn)|apply (dloss_nonneg me W d2 _ Ln Nn)]; auto. }
      rewrite E1, E2 in Ra. split; (apply shown; [assumption|]); eapply entry_small; try eassumption; try (apply norm_err_3; assumption); apply Ra.
    + rewrite ESG. apply shown; [exact W1|apply (total_small _ _ _ _ _ _ _ _ HG Dom W1 U1)].
    + rewrite ESL. apply shown; [exact W2|apply (total_small _ _ _ _ _ _ _ _ HO Dom W2 U2)].
    + intros c Tc Nc. specialize (Op _ Tc Nc). rewrite !VL in Op.
      * rewrite <- Epar, Up' in Op. exact Op.
      * intros y a b I. apply (NB _ Cx _ _ _ I).
      * intros y a b I. apply (NB _ Tc _ _ _ I).
Qed.
Print Assumptions C82_spatio.
