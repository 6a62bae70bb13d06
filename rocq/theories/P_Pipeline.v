(** * Property C55: the whole pipeline (computeQualities, normalize, computeBestPartition) never fails and always yields a partition,
    for every arithmetic, hence for every data (negative, infinite, NaN, zero) and every parameter. *)
From Coq Require Import Lia.
From Flocq Require Import BinarySingleNaN.
From Verif Require Import Base BaseFacts Arith Quality Utm UtmFacts UtmProofs Hierarchy SpecTree HierarchyFacts HierarchyProofs TreeDec SpecParts Values Qualities Partitions Partitioners
  TreePath CoverFacts OProofs HProofs DProofs ODataProofs HDataProofs DDataProofs SpecData SpecValues ValuesFacts ValuesProofs QualInv DegFacts Ieee.

Theorem C55_ordered : forall A (v : ovalues A) I J K, ov_shaped v I J K -> 1 <= ov_osize v <= 65535 ->
  exists t t', oq_compute A (oq_ofValues A v) = Ok (mkOQ A (Some v) (Some t)) /\
    oq_normalize A (mkOQ A (Some v) (Some t)) = Ok (mkOQ A (Some v) (Some t')) /\
    forall p, exists x x', o_best A t p = Ok x /\ o_best A t' p = Ok x' /\
      tiles 0 (ov_osize v) (map (fun q => (op_start q, op_end q)) (on_parts x)) /\
      tiles 0 (ov_osize v) (map (fun q => (op_start q, op_end q)) (on_parts x')).
Proof.
  intros A v I J K Sh Hn.
  assert (Hv : 0 <= ov_vsize v) by (destruct Sh as (HI & HJ & HK & _ & -> & _); nia).
  assert (H : forall k, 0 <= k < ov_vsize v -> exists r, ov_row v k = Ok r /\ vlen r = ov_osize v).
  { intros k Hk. destruct (ov_index_prf A v I J K Sh) as [P1 P2]. destruct (P2 k Hk) as (a & b & c & Ha & Hb & Hc & -> & _).
    destruct (P1 a b c Ha Hb Hc) as (_ & r & Er & El & _). eauto. }
  destruct (o_compute_all A (ov_osize v) _ _ _ _ (closed_True A _) v Hv ltac:(lia) ltac:(lia)) as (t & E & S & _).
  { intros k Hk. destruct (H k Hk) as (r & Er & El). exists r. split; [exact Er|]. split; [exact El|]. intros i Hi.
    destruct (vget_ok _ r i ltac:(lia)) as [y Ey]. exists y. split; [exact Ey|exact Logic.I]. }
  destruct (shape_repr _ t (ov_osize v) ltac:(lia) S (q_zero A)) as [f R].
  pose proof (urepr_get _ _ _ _ 0 (ov_osize v - 1) R ltac:(lia) ltac:(lia)) as G.
  destruct (o_normalize_prf A v t _ _ Hn S eq_refl G) as (t' & E' & S' & _).
  exists t, t'. split; [exact E|]. split; [exact E'|]. intro p.
  destruct (o_tiles_prf A t (ov_osize v) p ltac:(lia) S) as (x & Ex & _ & Tx). destruct (o_tiles_prf A t' (ov_osize v) p ltac:(lia) S') as (x' & Ex' & _ & Tx').
  exists x, x'. auto.
Qed.
Print Assumptions C55_ordered.

Theorem C55_hier : forall A (v : hvalues A) I J K, hv_shaped v I J K -> well_built (hv_meta v) -> 2 <= m_hsize (hv_meta v) ->
  exists t t', hq_compute A (hq_ofValues A v) = Ok (mkHQ A (Some v) (Some t) (hv_meta v)) /\
    hq_normalize A (mkHQ A (Some v) (Some t) (hv_meta v)) = Ok (mkHQ A (Some v) (Some t') (hv_meta v)) /\
    forall p, exists x x', h_best A t (hv_meta v) p = Ok x /\ h_best A t' (hv_meta v) p = Ok x' /\
      node_cover (m_leaves (hv_meta v)) (m_parents (hv_meta v)) (map hp_h (hn_parts x)) /\
      node_cover (m_leaves (hv_meta v)) (m_parents (hv_meta v)) (map hp_h (hn_parts x')).
Proof.
  intros A v I J K Sh W H2.
  assert (H : forall k h, 0 <= k < hv_vsize v -> 0 <= h < m_leaves (hv_meta v) -> exists x, hv_value v h k = Ok x).
  { intros k h Hk Hh. destruct (hv_index_prf A v I J K Sh) as [P1 P2]. destruct (P2 k Hk) as (a & b & c & Ha & Hb & Hc & -> & _).
    destruct (P1 h a b c Ha Hb Hc) as (_ & ->). exact (hv_get_ok A v I J K h a b c Sh Hh Ha Hb Hc). }
  destruct (h_compute_all A (m_leaves (hv_meta v)) _ _ _ _ (closed_True A _) v W H2 ltac:(lia)) as (t & E & f & R & _).
  { intros k h Hk Hh. destruct (H k h Hk Hh) as (x & Ex). exists x. split; [exact Ex|exact Logic.I]. }
  assert (Ht : vlen t = m_hsize (hv_meta v)) by apply R.
  destruct (h_normalize_prf A (Some v) t _ _ W Ht (vrepr_get _ _ _ _ _ R (root_node _ W))) as (t' & E' & Ht' & _).
  exists t, t'. split; [exact E|]. split; [exact E'|]. intro p.
  destruct (h_cover_prf _ W H2 A t p Ht) as (x & Ex & _ & Cx & _). destruct (h_cover_prf _ W H2 A t' p Ht') as (x' & Ex' & _ & Cx' & _).
  exists x, x'. auto.
Qed.
Print Assumptions C55_hier.

Theorem C55_spatio : forall A (v : dvalues A) I J, dv_shaped v I J -> well_built (dv_meta v) -> 2 <= m_hsize (dv_meta v) -> 1 <= dv_osize v <= 65535 ->
  exists t t', dq_compute A (dq_ofValues A v) = Ok (mkDQ A (Some v) (Some t) (dv_meta v)) /\
    dq_normalize A (mkDQ A (Some v) (Some t) (dv_meta v)) = Ok (mkDQ A (Some v) (Some t') (dv_meta v)) /\
    forall p, exists x x', d_best A t (dv_meta v) p = Ok x /\ d_best A t' (dv_meta v) p = Ok x' /\
      rect_cover (m_leaves (dv_meta v)) (m_parents (dv_meta v)) (dv_osize v) (map (fun y => (dp_h y, dp_start y, dp_end y)) (dn_parts x)) /\
      rect_cover (m_leaves (dv_meta v)) (m_parents (dv_meta v)) (dv_osize v) (map (fun y => (dp_h y, dp_start y, dp_end y)) (dn_parts x')).
Proof.
  intros A v I J Sh W H2 Hn.
  assert (H : forall k h, 0 <= k < dv_vsize v -> 0 <= h < m_leaves (dv_meta v) -> exists r, dv_row v h k = Ok r /\ vlen r = dv_osize v).
  { intros k h Hk Hh. destruct (dv_index_prf A v I J Sh) as [P1 P2]. destruct (P2 k Hk) as (a & b & Ha & Hb & -> & _).
    destruct (P1 h a b Hh Ha Hb) as (_ & r & Er & El & _). eauto. }
  destruct (d_compute_all A (dv_osize v * m_leaves (dv_meta v)) _ _ _ _ (closed_True A _) v W H2 ltac:(lia) ltac:(lia)) as (t & E & f & R & _).
  { intros k h Hk Hh. destruct (H k h Hk Hh) as (r & Er & El). exists r. split; [exact Er|]. intros i Hi.
    destruct (vget_ok _ r i ltac:(lia)) as [y Ey]. exists y. split; [exact Ey|exact Logic.I]. }
  assert (Ht : vlen t = m_hsize (dv_meta v)) by apply R. pose proof (mrepr_Forall _ _ _ _ _ R) as F. pose proof (root_node _ W) as Hr.
  destruct (d_normalize_prf A v t _ _ W Hn Ht F (mrepr_get _ _ _ _ _ (m_root (dv_meta v)) 0 (dv_osize v - 1) R Hr ltac:(lia) ltac:(lia))) as (t' & E' & Ht' & F' & _).
  exists t, t'. split; [exact E|]. split; [exact E'|]. intro p.
  destruct (d_cover_prf _ W A t (dv_osize v) p Hn Ht F) as (x & Ex & _ & Cx & _). destruct (d_cover_prf _ W A t' (dv_osize v) p Hn Ht' F') as (x' & Ex' & _ & Cx' & _).
  exists x, x'. auto.
Qed.
Print Assumptions C55_spatio.

(** The hypotheses are met by IEEE data with a NaN, an infinity and a negative value. *)
Example C55_nonvacuous : forall lg, let d := [B754_nan; B754_infinity false; int80 (-3)] in
  (ov_shaped (ov1_of (IA lg) d) 1 1 1 /\ 1 <= ov_osize (ov1_of (IA lg) d) <= 65535) /\
  (exists v, hv1_of (IA lg) d [3; 3; 3; -1] = Ok v /\ hv_shaped v 1 1 1 /\ well_built (hv_meta v) /\ 2 <= m_hsize (hv_meta v)) /\
  (exists v, dv2_of (IA lg) [d; d; d] [3; 3; 3; -1] = Ok v /\ dv_shaped v 1 1 /\ well_built (dv_meta v) /\ 2 <= m_hsize (dv_meta v) /\ 1 <= dv_osize v <= 65535).
Proof.
  intros lg d. split.
  { split; [apply (ov_of_prf (IA lg) d [] [] [])|cbn; lia]. }
  assert (V : valid_tree 3 [3; 3; 3; -1] 3) by (apply valid_treeb_ok; reflexivity).
  assert (U : uniform_depth 3 [3; 3; 3; -1] 3) by (apply (uniformb_ok 1); reflexivity).
  destruct (uniform_well_built _ _ _ V U) as (m & E & W & E1 & E2 & E3).
  assert (Hs : 2 <= m_hsize m) by (rewrite (wb_hsize m W), E2; cbn; lia). split.
  - exists (mkHV (IA lg) 1 m (HN1 (IA lg) d)). split; [unfold hv1_of; change (size1 d) with 3; rewrite E; reflexivity|]. split; [|auto].
    unfold hv_shaped. cbn [hv_meta hv_vsize hv_data]. rewrite E1. repeat (split; [lia|]). reflexivity.
  - exists (mkDV (IA lg) 1 3 m (DN2 (IA lg) [d; d; d])). split; [unfold dv2_of; change (size1 [d; d; d]) with 3; rewrite E; reflexivity|]. split; [|cbn [dv_meta dv_osize]; auto with zarith].
    unfold dv_shaped. cbn [dv_meta dv_vsize dv_data dv_osize]. rewrite E1. repeat (split; [lia|]). split; [reflexivity|]. repeat constructor.
Qed.
