(** * Properties C79, C80: normalised tables and the partitions computed from them, in the code's arithmetic.

    [norm_err E k d t0 g0] is 6 E (75 d + k/2^56) t0/g0 for data of total [t0] whose whole has measure [g0]; [well_above] says
    that [g0] is at least twice the rounding error bound of C77, so that the division is meaningful (SpecNorm.v). *)
From Coq Require Import ZArith Reals Lra Lia.
From Flocq Require Import Core BinarySingleNaN.
From Verif Require Import Base Arith Quality Utm UtmProofs Hierarchy SpecTree Values Qualities Partitions Partitioners
  Ieee SpecIeee SpecParts SpecInfo SpecData SpecNear SpecNum SpecNorm NormAll.

(** ** C79, ordered: every entry of the normalised table is the exact ratio to the whole, up to norm_err. *)
Theorem C79_ordered : forall lg E d (v : ovalues (IA lg)) rows, 32 <= E <= 8000 -> (0 <= d <= / 1024)%R -> log_accurate E d lg ->
  odata_f v rows -> 1 <= ov_osize v -> Forall (Forall (datum E)) rows -> (Rsum (fun r => total (reals r)) rows <= bpow radix2 (E - 1))%R ->
  let n := ov_osize v in let RW := map reals rows in let t0 := ototal RW 0 (n - 1) in let g0 := ogain RW 0 (n - 1) in let l0 := oloss RW 0 (n - 1) in
  well_above E (n + ov_vsize v) d t0 g0 -> well_above E (n + ov_vsize v) d t0 l0 ->
  exists o t, oq_compute (IA lg) (oq_ofValues (IA lg) v) = Ok o /\ oq_normalize (IA lg) o = Ok (mkOQ (IA lg) (Some v) (Some t)) /\
  forall i j, 0 <= i <= j -> j < n -> exists q, u_get t i j = Ok q /\
    within (norm_err E (n + ov_vsize v) d t0 g0) (gain q) (ogain RW i j / g0) /\
    within (norm_err E (n + ov_vsize v) d t0 l0) (loss q) (oloss RW i j / l0).
Proof.
  intros lg E d v rows HE Hd HL Hv Hn Hdat Htot n RW t0 g0 l0 HG HO.
  destruct (o_norm_all lg E d v rows HE Hd HL Hv Hn Hdat Htot HG HO) as (t & Et & _ & K & _).
  destruct (oq_compute (IA lg) (oq_ofValues (IA lg) v)) as [o| |] eqn:Eo; try discriminate Et. exists o, t. split; auto.
Qed.
Print Assumptions C79_ordered.

(** ** C79, hierarchical (root numbered last). *)
Theorem C79_hier : forall lg E d (v : hvalues (IA lg)) comps, 32 <= E <= 8000 -> (0 <= d <= / 1024)%R -> log_accurate E d lg ->
  hdata_f v comps -> Forall (Forall (datum E)) comps -> (Rsum (fun c => total (reals c)) comps <= bpow radix2 (E - 1))%R ->
  let m := hv_meta v in let RC := map reals comps in let k := m_leaves m + hv_vsize v in
  let t0 := htotal m RC (m_root m) in let g0 := hgain m RC (m_root m) in let l0 := hloss m RC (m_root m) in
  m_root m = m_hsize m - 1 -> well_above E k d t0 g0 -> well_above E k d t0 l0 ->
  exists o t, hq_compute (IA lg) (hq_ofValues (IA lg) v) = Ok o /\ hq_normalize (IA lg) o = Ok (mkHQ (IA lg) (Some v) (Some t) m) /\
  forall h, 0 <= h < m_hsize m -> exists q, vget t h = Ok q /\
    within (norm_err E k d t0 g0) (gain q) (hgain m RC h / g0) /\ within (norm_err E k d t0 l0) (loss q) (hloss m RC h / l0).
Proof.
  intros lg E d v comps HE Hd HL Hv Hdat Htot m RC k t0 g0 l0 Hr HG HO.
  destruct (h_norm_all lg E d v comps HE Hd HL Hv Hdat Htot Hr HG HO) as (t & Et & _ & K & _).
  destruct (hq_compute (IA lg) (hq_ofValues (IA lg) v)) as [o| |] eqn:Eo; try discriminate Et. exists o, t. split; auto.
Qed.
Print Assumptions C79_hier.

(** ** C79, spatiotemporal (root numbered last). *)
Theorem C79_spatio : forall lg E d (v : dvalues (IA lg)) comps, 32 <= E <= 8000 -> (0 <= d <= / 1024)%R -> log_accurate E d lg ->
  ddata_f v comps -> Forall (Forall (Forall (datum E))) comps ->
  (Rsum (fun c => Rsum (fun r => total (reals r)) c) comps <= bpow radix2 (E - 1))%R ->
  let m := dv_meta v in let n := dv_osize v in let RC := map (map reals) comps in let k := m_leaves m * n + dv_vsize v in
  let t0 := dtotal m RC (m_root m) 0 (n - 1) in let g0 := dgain m RC (m_root m) 0 (n - 1) in let l0 := dloss m RC (m_root m) 0 (n - 1) in
  m_root m = m_hsize m - 1 -> well_above E k d t0 g0 -> well_above E k d t0 l0 ->
  exists o t, dq_compute (IA lg) (dq_ofValues (IA lg) v) = Ok o /\ dq_normalize (IA lg) o = Ok (mkDQ (IA lg) (Some v) (Some t) m) /\
  forall h i j, 0 <= h < m_hsize m -> 0 <= i <= j -> j < n -> exists q, mm_get t h i j = Ok q /\
    within (norm_err E k d t0 g0) (gain q) (dgain m RC h i j / g0) /\ within (norm_err E k d t0 l0) (loss q) (dloss m RC h i j / l0).
Proof.
  intros lg E d v comps HE Hd HL Hv Hdat Htot m n RC k t0 g0 l0 Hr HG HO.
  destruct (d_norm_all lg E d v comps HE Hd HL Hv Hdat Htot Hr HG HO) as (t & Et & _ & _ & K & _).
  destruct (dq_compute (IA lg) (dq_ofValues (IA lg) v)) as [o| |] eqn:Eo; try discriminate Et. exists o, t. split; auto.
Qed.
Print Assumptions C79_spatio.

(** ** C80, ordered: the partition computed from the normalised table is within nopt_err of the best one for the exact normalised
    measures. *)
Theorem C80_ordered : forall lg E d (v : ovalues (IA lg)) rows (p : f32), 32 <= E <= 8000 -> (0 <= d <= / 1024)%R -> log_accurate E d lg ->
  odata_f v rows -> 1 <= ov_osize v -> Forall (Forall (datum E)) rows -> (Rsum (fun r => total (reals r)) rows <= bpow radix2 (E - 1))%R ->
  let n := ov_osize v in let RW := map reals rows in let t0 := ototal RW 0 (n - 1) in let g0 := ogain RW 0 (n - 1) in let l0 := oloss RW 0 (n - 1) in
  well_above E (n + ov_vsize v) d t0 g0 -> well_above E (n + ov_vsize v) d t0 l0 -> unit32 p ->
  exists o t x, oq_compute (IA lg) (oq_ofValues (IA lg) v) = Ok o /\ oq_normalize (IA lg) o = Ok (mkOQ (IA lg) (Some v) (Some t)) /\ o_best (IA lg) t p = Ok x /\
  tiles 0 n (map (fun y => (op_start y, op_end y)) (on_parts x)) /\
  (within (ntot_err E n (ov_vsize v) d t0 g0) (gain (on_quality x)) (Rsum (fun y => ogain RW (op_start y) (op_end y) / g0)%R (on_parts x)) /\
   within (ntot_err E n (ov_vsize v) d t0 l0) (loss (on_quality x)) (Rsum (fun y => oloss RW (op_start y) (op_end y) / l0)%R (on_parts x))) /\
  forall l, tiles 0 n l ->
    (onvalue (wgain p) (wloss p) RW n l <= onvalue (wgain p) (wloss p) RW n (map (fun y => (op_start y, op_end y)) (on_parts x)) +
     nopt_err E n (ov_vsize v) d t0 g0 l0)%R.
Proof.
  intros lg E d v rows p HE Hd HL Hv Hn Hdat Htot n RW t0 g0 l0 HG HO Hp.
  destruct (o_norm_all lg E d v rows HE Hd HL Hv Hn Hdat Htot HG HO) as (t & Et & _ & _ & K). destruct (K p Hp) as (x & Ex & Tx & To & _ & Op).
  destruct (oq_compute (IA lg) (oq_ofValues (IA lg) v)) as [o| |] eqn:Eo; try discriminate Et. exists o, t, x. split; [auto|]. split; [exact Et|]. split; [exact Ex|]. split; [exact Tx|]. split; [exact To|]. exact Op.
Qed.
Print Assumptions C80_ordered.

(** ** C80, hierarchical (root numbered last). *)
Theorem C80_hier : forall lg E d (v : hvalues (IA lg)) comps (p : f32), 32 <= E <= 8000 -> (0 <= d <= / 1024)%R -> log_accurate E d lg ->
  hdata_f v comps -> Forall (Forall (datum E)) comps -> (Rsum (fun c => total (reals c)) comps <= bpow radix2 (E - 1))%R ->
  let m := hv_meta v in let RC := map reals comps in let k := m_leaves m + hv_vsize v in
  let t0 := htotal m RC (m_root m) in let g0 := hgain m RC (m_root m) in let l0 := hloss m RC (m_root m) in
  m_root m = m_hsize m - 1 -> well_above E k d t0 g0 -> well_above E k d t0 l0 -> unit32 p ->
  exists o t x, hq_compute (IA lg) (hq_ofValues (IA lg) v) = Ok o /\ hq_normalize (IA lg) o = Ok (mkHQ (IA lg) (Some v) (Some t) m) /\ h_best (IA lg) t m p = Ok x /\
  node_cover (m_leaves m) (m_parents m) (map hp_h (hn_parts x)) /\
  (within (ntot_err E (m_leaves m) (hv_vsize v) d t0 g0) (gain (hn_quality x)) (Rsum (fun y => hgain m RC (hp_h y) / g0)%R (hn_parts x)) /\
   within (ntot_err E (m_leaves m) (hv_vsize v) d t0 l0) (loss (hn_quality x)) (Rsum (fun y => hloss m RC (hp_h y) / l0)%R (hn_parts x))) /\
  forall l, node_cover (m_leaves m) (m_parents m) l ->
    (hnvalue (wgain p) (wloss p) m RC l <= hnvalue (wgain p) (wloss p) m RC (map hp_h (hn_parts x)) + nopt_err E (m_leaves m) (hv_vsize v) d t0 g0 l0)%R.
Proof.
  intros lg E d v comps p HE Hd HL Hv Hdat Htot m RC k t0 g0 l0 Hr HG HO Hp.
  destruct (h_norm_all lg E d v comps HE Hd HL Hv Hdat Htot Hr HG HO) as (t & Et & _ & _ & K). destruct (K p Hp) as (x & Ex & Tx & To & _ & Op).
  destruct (hq_compute (IA lg) (hq_ofValues (IA lg) v)) as [o| |] eqn:Eo; try discriminate Et. exists o, t, x. split; [auto|]. split; [exact Et|]. split; [exact Ex|]. split; [exact Tx|]. split; [exact To|]. exact Op.
Qed.
Print Assumptions C80_hier.

(** ** C80, spatiotemporal (root numbered last): among the covers by rectangles in which nodes never move up. *)
Theorem C80_spatio : forall lg E d (v : dvalues (IA lg)) comps (p : f32), 32 <= E <= 8000 -> (0 <= d <= / 1024)%R -> log_accurate E d lg ->
  ddata_f v comps -> Forall (Forall (Forall (datum E))) comps ->
  (Rsum (fun c => Rsum (fun r => total (reals r)) c) comps <= bpow radix2 (E - 1))%R ->
  let m := dv_meta v in let n := dv_osize v in let RC := map (map reals) comps in let k := m_leaves m * n + dv_vsize v in
  let t0 := dtotal m RC (m_root m) 0 (n - 1) in let g0 := dgain m RC (m_root m) 0 (n - 1) in let l0 := dloss m RC (m_root m) 0 (n - 1) in
  m_root m = m_hsize m - 1 -> well_above E k d t0 g0 -> well_above E k d t0 l0 -> unit32 p ->
  exists o t x, dq_compute (IA lg) (dq_ofValues (IA lg) v) = Ok o /\ dq_normalize (IA lg) o = Ok (mkDQ (IA lg) (Some v) (Some t) m) /\ d_best (IA lg) t m p = Ok x /\
  rect_cover (m_leaves m) (m_parents m) n (map (fun y => (dp_h y, dp_start y, dp_end y)) (dn_parts x)) /\
  (within (ntot_err E (m_leaves m * n) (dv_vsize v) d t0 g0) (gain (dn_quality x)) (Rsum (fun y => dgain m RC (dp_h y) (dp_start y) (dp_end y) / g0)%R (dn_parts x)) /\
   within (ntot_err E (m_leaves m * n) (dv_vsize v) d t0 l0) (loss (dn_quality x)) (Rsum (fun y => dloss m RC (dp_h y) (dp_start y) (dp_end y) / l0)%R (dn_parts x))) /\
  forall l, rect_cover (m_leaves m) (m_parents m) n l -> never_up (m_leaves m) (m_parents m) l ->
    (dnvalue (wgain p) (wloss p) m RC n l <= dnvalue (wgain p) (wloss p) m RC n (map (fun y => (dp_h y, dp_start y, dp_end y)) (dn_parts x)) +
     nopt_err E (m_leaves m * n) (dv_vsize v) d t0 g0 l0)%R.
Proof.
  intros lg E d v comps p HE Hd HL Hv Hdat Htot m n RC k t0 g0 l0 Hr HG HO Hp.
  destruct (d_norm_all lg E d v comps HE Hd HL Hv Hdat Htot Hr HG HO) as (t & Et & _ & _ & _ & K). destruct (K p Hp) as (x & Ex & Tx & To & _ & Op).
  destruct (dq_compute (IA lg) (dq_ofValues (IA lg) v)) as [o| |] eqn:Eo; try discriminate Et. exists o, t, x. split; [auto|]. split; [exact Et|]. split; [exact Ex|]. split; [exact Tx|]. split; [exact To|]. exact Op.
Qed.
Print Assumptions C80_spatio.
