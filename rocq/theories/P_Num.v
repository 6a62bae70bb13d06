(** * Properties C77, C78: how far the rounding of the quality tables is from the exact information measures.

    [IA lg] is the code's arithmetic; [log_accurate E d lg] says that the C library's log is off by at most d(1+|ln x|) between
    2^-E and 2^E. [num_err E k d] is E (75 d + k/2^56), [opt_err E n K d] is E (300 d + (n+K)/2^54 + n^2/2^57) (SpecNum.v). *)
From Coq Require Import ZArith Reals Lra Lia.
From Flocq Require Import Core BinarySingleNaN.
From Verif Require Import Base BaseFacts Arith Quality Utm UtmFacts UtmProofs Hierarchy SpecTree HierarchyFacts TreePath CoverFacts Values Qualities Partitions Partitioners
  OProofs Ieee SpecIeee IeeeFacts SpecParts SpecInfo SpecData InfoFacts OInfo SpecNear NearFacts HFacts HProofs DFacts DSel DProofs HDataProofs DDataProofs P_Near SpecNum NumFacts ONum
  HQual HNum DNum TreeOpt.

(** ** C77, ordered: every entry of the computed table is the exact gain and loss of its interval, up to a multiple of the
    interval's total. *)
Theorem C77_ordered : forall lg E d (v : ovalues (IA lg)) rows, 32 <= E <= 8000 -> (0 <= d <= / 1024)%R -> log_accurate E d lg ->
  odata_f v rows -> Forall (Forall (datum E)) rows -> (Rsum (fun r => total (reals r)) rows <= bpow radix2 (E - 1))%R ->
  exists t, oq_compute (IA lg) (oq_ofValues (IA lg) v) = Ok (mkOQ (IA lg) (Some v) (Some t)) /\ utm_shape t (ov_osize v) /\
  forall i j, 0 <= i <= j -> j < ov_osize v -> exists q, u_get t i j = Ok q /\
    within (num_err E (ov_osize v + ov_vsize v) d * ototal (map reals rows) i j) (gain q) (ogain (map reals rows) i j) /\
    within (num_err E (ov_osize v + ov_vsize v) d * ototal (map reals rows) i j) (loss q) (oloss (map reals rows) i j).
Proof.
  intros lg E d v rows HE Hd HL Hv Hdat Htot. destruct (o_num_prf lg E d HE Hd HL v rows Hv Hdat Htot) as (t & E1 & S & K).
  exists t. split; auto. split; auto. intros i j Hi Hj. destruct (K i j Hi Hj) as (q & Eq & W1 & W2 & _). exists q. auto.
Qed.
Print Assumptions C77_ordered.

(** ** C77, hierarchical: the entry of every node. *)
Theorem C77_hier : forall lg E d (v : hvalues (IA lg)) comps, 32 <= E <= 8000 -> (0 <= d <= / 1024)%R -> log_accurate E d lg ->
  hdata_f v comps -> Forall (Forall (datum E)) comps -> (Rsum (fun c => total (reals c)) comps <= bpow radix2 (E - 1))%R ->
  exists t, hq_compute (IA lg) (hq_ofValues (IA lg) v) = Ok (mkHQ (IA lg) (Some v) (Some t) (hv_meta v)) /\ vlen t = m_hsize (hv_meta v) /\
  forall h, 0 <= h < m_hsize (hv_meta v) -> exists q, vget t h = Ok q /\
    within (num_err E (m_leaves (hv_meta v) + hv_vsize v) d * htotal (hv_meta v) (map reals comps) h) (gain q) (hgain (hv_meta v) (map reals comps) h) /\
    within (num_err E (m_leaves (hv_meta v) + hv_vsize v) d * htotal (hv_meta v) (map reals comps) h) (loss q) (hloss (hv_meta v) (map reals comps) h).
Proof.
  intros lg E d v comps HE Hd HL Hv Hdat Htot. destruct (h_num_prf lg E d HE Hd HL v comps Hv Hdat Htot) as (t & E1 & S & K).
  exists t. split; auto. split; auto. intros h Hh. destruct (K h Hh) as (q & Eq & W1 & W2 & _). exists q. auto.
Qed.
Print Assumptions C77_hier.

(** ** C77, spatiotemporal: the entry of every node and interval. *)
Theorem C77_spatio : forall lg E d (v : dvalues (IA lg)) comps, 32 <= E <= 8000 -> (0 <= d <= / 1024)%R -> log_accurate E d lg ->
  ddata_f v comps -> Forall (Forall (Forall (datum E))) comps ->
  (Rsum (fun c => Rsum (fun r => total (reals r)) c) comps <= bpow radix2 (E - 1))%R ->
  exists t, dq_compute (IA lg) (dq_ofValues (IA lg) v) = Ok (mkDQ (IA lg) (Some v) (Some t) (dv_meta v)) /\ vlen t = m_hsize (dv_meta v) /\
  Forall (fun u => utm_shape u (dv_osize v)) t /\
  forall h i j, 0 <= h < m_hsize (dv_meta v) -> 0 <= i <= j -> j < dv_osize v -> exists q, mm_get t h i j = Ok q /\
    within (num_err E (m_leaves (dv_meta v) * dv_osize v + dv_vsize v) d * dtotal (dv_meta v) (map (map reals) comps) h i j)
      (gain q) (dgain (dv_meta v) (map (map reals) comps) h i j) /\
    within (num_err E (m_leaves (dv_meta v) * dv_osize v + dv_vsize v) d * dtotal (dv_meta v) (map (map reals) comps) h i j)
      (loss q) (dloss (dv_meta v) (map (map reals) comps) h i j).
Proof.
  intros lg E d v comps HE Hd HL Hv Hdat Htot. destruct (d_num_prf lg E d HE Hd HL v comps Hv Hdat Htot) as (t & E1 & S & F & K).
  exists t. split; auto. split; auto. split; auto. intros h i j Hh Hi Hj. destruct (K h i j Hh Hi Hj) as (q & Eq & W1 & W2 & _). exists q. auto.
Qed.
Print Assumptions C77_spatio.

(** ** C78, ordered: the partition computed from the data is within opt_err, relative to the total of the data, of the best one
    for the exact measures. *)
Theorem C78_ordered : forall lg E d (v : ovalues (IA lg)) rows (p : f32), 32 <= E <= 8000 -> (0 <= d <= / 1024)%R -> log_accurate E d lg ->
  odata_f v rows -> 1 <= ov_osize v -> Forall (Forall (datum E)) rows ->
  (Rsum (fun r => total (reals r)) rows <= bpow radix2 (E - 1))%R -> unit32 p ->
  exists t x, oq_compute (IA lg) (oq_ofValues (IA lg) v) = Ok (mkOQ (IA lg) (Some v) (Some t)) /\ o_best (IA lg) t p = Ok x /\
  tiles 0 (ov_osize v) (map (fun y => (op_start y, op_end y)) (on_parts x)) /\
  forall l, tiles 0 (ov_osize v) l ->
    (ovalue (wgain p) (wloss p) (map reals rows) l <=
     ovalue (wgain p) (wloss p) (map reals rows) (map (fun y => (op_start y, op_end y)) (on_parts x)) +
     opt_err E (ov_osize v) (ov_vsize v) d * ototal (map reals rows) 0 (ov_osize v - 1))%R.
Proof.
  intros lg E d v rows p HE Hd HL Hv Hn1 Hdat Htot Hp. pose proof Hv as (V1 & V2 & V3 & V4).
  destruct (o_num_prf lg E d HE Hd HL v rows Hv Hdat Htot) as (t & E1 & S & K). set (n := ov_osize v) in *. set (RW := map reals rows) in *.
  destruct (o_tiles_prf _ t n p ltac:(lia) S) as (x & Ex & _ & Tl). exists t, x. split; auto. split; auto. split; auto.
  intros l Hl. set (lx := map (fun y => (op_start y, op_end y)) (on_parts x)) in *.
  assert (TP : forall i j, (0 <= ototal RW i j)%R) by (apply (ototal_nonneg E); auto).
  assert (TM : forall i j, 0 <= i <= j -> j < n -> (ototal RW i j <= ototal RW 0 (n - 1))%R) by (intros; eapply ototal_part; eauto).
  assert (TS : forall l, tiles 0 n l -> Rsum (fun ij => ototal RW (fst ij) (snd ij)) l = ototal RW 0 (n - 1)) by (intros; eapply ototal_tiles; eauto).
  set (T := ototal RW 0 (n - 1)) in *.
  destruct (Rle_lt_or_eq_dec 0 T (TP _ _)) as [Tpos|T0].
  - (* the bound on the entries *)
    assert (ET : T = total (map (fun r => total (reals r)) rows)).
    { unfold T, ototal, RW, total. rewrite !Rsum_map. apply Rsum_ext. intros r Hr. rewrite Forall_forall in V4. specialize (V4 r Hr). fold n in V4.
      assert (Ef : slice (reals r) 0 (n - 1) = reals r).
      { unfold slice. change (Z.to_nat 0) with O. rewrite skipn_O. apply firstn_all2. unfold reals, vlen in *. rewrite map_length. lia. }
      rewrite Ef. reflexivity. }
    assert (TD : (bpow radix2 (1 - E) <= T <= bpow radix2 (E - 1))%R).
    { split; [|rewrite ET; unfold total at 1; rewrite Rsum_map; exact Htot].
      destruct (total_datum E (map (fun r => total (reals r)) rows)) as [_ [D|D]].
      - apply Forall_map, Forall_forall. intros r Hr. apply total_datum. unfold reals. apply Forall_map.
        rewrite Forall_forall in Hdat. specialize (Hdat r Hr). revert Hdat. apply Forall_impl. intros a [_ Ha]. exact Ha.
      - rewrite ET in Tpos. lra.
      - rewrite ET. exact D. }
    set (B := (4 * (IZR E * T))%R). assert (HB : sane_bound B) by (apply sane_T; auto).
    set (q := fun ij : Z * Z => match u_get t (fst ij) (snd ij) with Ok q => q | _ => q_zero (IA lg) end).
    assert (Hq : forall i j, 0 <= i <= j -> j < n -> u_get t i j = Ok (q (i, j)) /\
       within (num_err E (n + ov_vsize v) d * ototal RW i j) (gain (q (i, j))) (ogain RW i j) /\
       within (num_err E (n + ov_vsize v) d * ototal RW i j) (loss (q (i, j))) (oloss RW i j) /\ qual_le B (q (i, j))).
    { intros i j Hi Hj. destruct (K i j Hi Hj) as (y & Ey & W1 & W2 & A1 & A2). unfold q. cbn [fst snd]. rewrite Ey. split; auto. split; auto. split; auto.
      split; (eapply entry_le; [exact HE|exact Hd| |split; [apply TP|apply TM; auto]| |]); try eassumption; lia. }
    assert (Hm : forall l, tiles 0 n l -> mmap (fun ab => u_get t (fst ab) (snd ab)) l = Ok (map q l)).
    { intros l1 H1. assert (H1' : forall a b, In (a, b) l1 -> 0 <= a <= b /\ b < n) by (intros a b Hab; apply (tiles_In _ _ _ H1) in Hab; lia).
      clear H1. induction l1 as [|[a b] l1 IH]; auto. cbn [mmap fst snd map]. destruct (H1' a b ltac:(left; auto)). destruct (Hq a b) as [-> _]; auto. cbn [bind].
      rewrite IH by (intros; apply H1'; right; auto). reflexivity. }
    assert (Hc : forall l, tiles 0 n l -> (Rabs (exact_value (wgain p) (wloss p) (map q l) - ovalue (wgain p) (wloss p) RW l) <= 2 * num_err E (n + ov_vsize v) d * T)%R).
    { intros l1 H1. unfold ovalue. destruct (C75_weights p Hp) as (_ & Rw & _).
      rewrite <- (TS l1 H1).
      apply (value_close lg (Z * Z) q (fun ij => ogain RW (fst ij) (snd ij)) (fun ij => oloss RW (fst ij) (snd ij)) (fun ij => ototal RW (fst ij) (snd ij))).
      - destruct Hp as [_ Hp]. exact Hp.
      - exact Rw.
      - intros [a b] Hab. cbn [fst snd]. apply (tiles_In _ _ _ H1) in Hab. destruct (Hq a b) as (_ & W1 & W2 & _); auto; lia. }
    assert (Ep : map op_quality (on_parts x) = map q lx).
    { unfold lx. rewrite map_map. apply map_ext_in. intros y Hy. destruct (o_quality_prf _ t n p x ltac:(lia) S Ex) as (K1 & _).
      specialize (K1 y Hy). unfold q. cbn [fst snd]. rewrite K1. reflexivity. }
    assert (Opt := C75_ordered lg t n p B x l (map q l) ltac:(lia) S HB).
    rewrite Ep in Opt. specialize (Opt ltac:(intros a b y Ha Hb Ey; destruct (Hq a b Ha Hb) as (Ey' & _ & _ & Qb); rewrite Ey in Ey'; inversion Ey'; exact Qb) Hp Ex Hl (Hm l Hl)).
    exact (opt_collect E n (ov_vsize v) d T _ _ _ _ HE (proj1 Hd) (Rlt_le _ _ Tpos) (Hc l Hl) (Hc lx Tl) Opt).
  - assert (Z0 : forall l, tiles 0 n l -> ovalue (wgain p) (wloss p) RW l = 0%R).
    { intros l1 H1. unfold ovalue. apply Rsum_zero. intros [a b] Hab. cbn [fst snd]. apply (tiles_In _ _ _ H1) in Hab.
      destruct (K a b) as (y & _ & _ & _ & A1 & A2); try lia. pose proof (TM a b ltac:(lia) ltac:(lia)) as M. pose proof (TP a b).
      replace (ototal RW a b) with 0%R in A1, A2 by lra. rewrite Rmult_0_l, Rmult_0_r in A1, A2.
      assert (ogain RW a b = 0)%R by (apply Rabs_le_inv in A1, A2; lra).
      assert (oloss RW a b = 0)%R by (apply Rabs_le_inv in A1, A2; lra).
      rewrite H0, H2. ring. }
    rewrite (Z0 l Hl), (Z0 lx Tl), <- T0. lra.
Qed.
Print Assumptions C78_ordered.

(** ** C78, hierarchical. *)
Theorem C78_hier : forall lg E d (v : hvalues (IA lg)) comps (p : f32), 32 <= E <= 8000 -> (0 <= d <= / 1024)%R -> log_accurate E d lg ->
  hdata_f v comps -> Forall (Forall (datum E)) comps -> (Rsum (fun c => total (reals c)) comps <= bpow radix2 (E - 1))%R -> unit32 p ->
  exists t x, hq_compute (IA lg) (hq_ofValues (IA lg) v) = Ok (mkHQ (IA lg) (Some v) (Some t) (hv_meta v)) /\ h_best (IA lg) t (hv_meta v) p = Ok x /\
  node_cover (m_leaves (hv_meta v)) (m_parents (hv_meta v)) (map hp_h (hn_parts x)) /\
  forall l, node_cover (m_leaves (hv_meta v)) (m_parents (hv_meta v)) l ->
    (hvalue (wgain p) (wloss p) (hv_meta v) (map reals comps) l <=
     hvalue (wgain p) (wloss p) (hv_meta v) (map reals comps) (map hp_h (hn_parts x)) +
     opt_err E (m_leaves (hv_meta v)) (hv_vsize v) d * htotal (hv_meta v) (map reals comps) (m_root (hv_meta v)))%R.
Proof.
  intros lg E d v comps p HE Hd HL Hv Hdat Htot Hp. pose proof Hv as (V1 & W & H2 & V3 & V4).
  destruct (h_num_prf lg E d HE Hd HL v comps Hv Hdat Htot) as (t & E1 & S & K). set (m := hv_meta v) in *. set (RC := map reals comps) in *.
  pose proof (wb_L m W) as WL.
  destruct (h_cover_prf m W H2 _ t p S) as (x & Ex & _ & Cx & _). exists t, x. split; auto. split; auto. split; auto.
  destruct (h_quality_prf m W H2 _ t p x S Ex) as (K1 & _).
  intros l Hl. set (lx := map hp_h (hn_parts x)) in *.
  assert (Hlen : Forall (fun c : list f80 => vlen c = m_leaves m) comps).
  { apply Forall_forall. intros c Hc. destruct (mmap_zrange (list f80) _ _ comps [] (proj1 V1) V4) as (Lc & Kc & Em).
    rewrite Em in Hc. apply in_map_iff in Hc. destruct Hc as [k [<- Hk]]. apply In_zrange in Hk. specialize (Kc k Hk). cbn beta in Kc.
    destruct (mmap_zrange f80 (fun h => hv_value v h k) (m_leaves m) _ (B754_zero false) ltac:(lia) Kc) as (Ll & _). exact Ll. }
  set (T := htotal m RC (m_root m)) in *.
  assert (TD : (T = 0 \/ bpow radix2 (1 - E) <= T <= bpow radix2 (E - 1))%R).
  { destruct (htotal_root_datum E m comps Hdat) as [Q|Q]; [left; exact Q|right]. split; [exact Q|]. apply (htotal_all E m comps W Hlen Htot). }
  set (q := fun h : Z => match vget t h with Ok q => q | _ => q_zero (IA lg) end).
  assert (Hq : forall h, 0 <= h < m_hsize m -> vget t h = Ok (q h) /\ (0 <= htotal m RC h <= T)%R /\
     within (num_err E (m_leaves m + hv_vsize v) d * htotal m RC h) (gain (q h)) (hgain m RC h) /\
     within (num_err E (m_leaves m + hv_vsize v) d * htotal m RC h) (loss (q h)) (hloss m RC h) /\
     (Rabs (hgain m RC h) <= 3 * (htotal m RC h * IZR E))%R /\ (Rabs (hloss m RC h) <= 3 * (htotal m RC h * IZR E))%R).
  { intros h Hh. destruct (K h Hh) as (y & Ey & Q). unfold q. rewrite Ey. split; auto. split; auto.
    split; [apply (htotal_nonneg E); auto|apply (htotal_part E m comps W Hdat)]. }
  assert (IC : forall l', node_cover (m_leaves m) (m_parents m) l' -> forall h, In h l' -> 0 <= h < m_hsize m).
  { intros l' C h Hh. apply (node_cover_iff m W) in C. apply C; auto. }
  assert (Hm : forall l', (forall h, In h l' -> 0 <= h < m_hsize m) -> mmap (vget t) l' = Ok (map q l')).
  { induction l' as [|h l' IH]; intro Hin; auto. cbn [mmap map]. destruct (Hq h ltac:(apply Hin; left; auto)) as [-> _]. cbn [bind].
    rewrite IH by (intros; apply Hin; right; auto). reflexivity. }
  assert (Ep : map hp_quality (hn_parts x) = map q lx).
  { unfold lx. rewrite map_map. apply map_ext_in. intros y Hy. unfold q. rewrite (K1 y Hy). reflexivity. }
  apply (opt_generic lg E d (m_leaves m) (hv_vsize v) T p Z q (hgain m RC) (hloss m RC) (htotal m RC) l lx HE Hd Hp TD).
  - intros h [Hh|Hh]; apply Hq; eauto.
  - apply htotal_cover; auto.
  - apply htotal_cover; auto.
  - intro HB. rewrite <- Ep. apply (C75_hier m W H2 ltac:(lia) lg t p _ x l (map q l) S HB); auto.
    + apply Forall_forall. intros y Hy. apply In_nth_error in Hy. destruct Hy as [k Hk].
      assert (Rk : 0 <= Z.of_nat k < m_hsize m).
      { assert (k < length t)%nat by (apply nth_error_Some; rewrite Hk; discriminate). unfold vlen in S. lia. }
      destruct (Hq _ Rk) as (Ey & Tb & W1 & W2 & A1 & A2).
      assert (Eq : q (Z.of_nat k) = y).
      { unfold vget in Ey. destruct (Z.ltb_spec (Z.of_nat k) 0); [lia|]. rewrite Nat2Z.id, Hk in Ey. inversion Ey; auto. }
      rewrite Eq in *. split; (eapply entry_le; [exact HE|exact Hd| |exact Tb| |]); try eassumption; lia.
    + apply Hm. eauto.
Qed.
Print Assumptions C78_hier.

(** ** C78, spatiotemporal: among the covers by rectangles in which nodes never move up. *)
Theorem C78_spatio : forall lg E d (v : dvalues (IA lg)) comps (p : f32), 32 <= E <= 8000 -> (0 <= d <= / 1024)%R -> log_accurate E d lg ->
  ddata_f v comps -> Forall (Forall (Forall (datum E))) comps ->
  (Rsum (fun c => Rsum (fun r => total (reals r)) c) comps <= bpow radix2 (E - 1))%R -> unit32 p ->
  exists t x, dq_compute (IA lg) (dq_ofValues (IA lg) v) = Ok (mkDQ (IA lg) (Some v) (Some t) (dv_meta v)) /\ d_best (IA lg) t (dv_meta v) p = Ok x /\
  rect_cover (m_leaves (dv_meta v)) (m_parents (dv_meta v)) (dv_osize v) (map (fun y => (dp_h y, dp_start y, dp_end y)) (dn_parts x)) /\
  forall l, rect_cover (m_leaves (dv_meta v)) (m_parents (dv_meta v)) (dv_osize v) l -> never_up (m_leaves (dv_meta v)) (m_parents (dv_meta v)) l ->
    (dvalue (wgain p) (wloss p) (dv_meta v) (map (map reals) comps) l <=
     dvalue (wgain p) (wloss p) (dv_meta v) (map (map reals) comps) (map (fun y => (dp_h y, dp_start y, dp_end y)) (dn_parts x)) +
     opt_err E (m_leaves (dv_meta v) * dv_osize v) (dv_vsize v) d *
       dtotal (dv_meta v) (map (map reals) comps) (m_root (dv_meta v)) 0 (dv_osize v - 1))%R.
Proof.
  intros lg E d v comps p HE Hd HL Hv Hdat Htot Hp. pose proof Hv as (V1 & V2 & W & H2 & V3 & V4 & V5).
  destruct (d_num_prf lg E d HE Hd HL v comps Hv Hdat Htot) as (t & E1 & S & F & K).
  assert (TD : (dtotal (dv_meta v) (map (map reals) comps) (m_root (dv_meta v)) 0 (dv_osize v - 1) = 0 \/
    bpow radix2 (1 - E) <= dtotal (dv_meta v) (map (map reals) comps) (m_root (dv_meta v)) 0 (dv_osize v - 1) <= bpow radix2 (E - 1))%R).
  { destruct (dtotal_root_datum lg E d v comps HE Hd Hv Hdat) as [Q|Q]; [left; exact Q|right]. split; [exact Q|]. eapply dtotal_all; eauto. }
  assert (TN : forall h i j, 0 <= i <= j -> j < dv_osize v -> (0 <= dtotal (dv_meta v) (map (map reals) comps) h i j <=
    dtotal (dv_meta v) (map (map reals) comps) (m_root (dv_meta v)) 0 (dv_osize v - 1))%R).
  { intros h i j Hi Hj. split; [eapply dtotal_nonneg; eauto|eapply dtotal_part; eauto]. }
  assert (TC := fun l => dtotal_cover lg v comps Hv l).
  set (m := dv_meta v) in *. set (n := dv_osize v) in *. set (RC := map (map reals) comps) in *. pose proof (wb_L m W) as WL.
  destruct (d_cover_prf m W _ t n p ltac:(lia) S F) as (x & Ex & _ & Cx & Nx & _). exists t, x. split; auto. split; auto. split; auto.
  destruct (d_quality_prf m W _ t n p x ltac:(lia) S F Ex) as (K1 & _).
  intros l Hl Nl. set (lx := map (fun y => (dp_h y, dp_start y, dp_end y)) (dn_parts x)) in *.
  set (T := dtotal m RC (m_root m) 0 (n - 1)) in *.
  set (q := fun r : Z * Z * Z => let '(h, i, j) := r in match mm_get t h i j with Ok q => q | _ => q_zero (IA lg) end).
  assert (Hq : forall h i j, 0 <= h < m_hsize m -> 0 <= i <= j -> j < n -> mm_get t h i j = Ok (q (h, i, j)) /\
     (0 <= dtotal m RC h i j <= T)%R /\
     within (num_err E (m_leaves m * n + dv_vsize v) d * dtotal m RC h i j) (gain (q (h, i, j))) (dgain m RC h i j) /\
     within (num_err E (m_leaves m * n + dv_vsize v) d * dtotal m RC h i j) (loss (q (h, i, j))) (dloss m RC h i j) /\
     (Rabs (dgain m RC h i j) <= 3 * (dtotal m RC h i j * IZR E))%R /\ (Rabs (dloss m RC h i j) <= 3 * (dtotal m RC h i j * IZR E))%R).
  { intros h i j Hh Hi Hj. destruct (K h i j Hh Hi Hj) as (y & Ey & Q). unfold q. rewrite Ey. split; auto. }
  assert (IC : forall l', rect_cover (m_leaves m) (m_parents m) n l' -> forall h i j, In (h, i, j) l' -> 0 <= h < m_hsize m /\ 0 <= i <= j /\ j < n).
  { intros l' C h i j Hh. apply (rect_cover_iff m W n) in C. apply (rc_in _ _ _ _ _ C) in Hh. intuition lia. }
  assert (Hm : forall l', (forall h i j, In (h, i, j) l' -> 0 <= h < m_hsize m /\ 0 <= i <= j /\ j < n) -> mmap (fun '(h, a, b) => mm_get t h a b) l' = Ok (map q l')).
  { induction l' as [|[[h i] j] l' IH]; intro Hin; auto. cbn [mmap map]. destruct (Hin h i j ltac:(left; auto)) as (I1 & I2 & I3).
    destruct (Hq h i j I1 I2 I3) as [-> _]. cbn [bind]. rewrite IH by (intros; apply Hin; right; auto). reflexivity. }
  assert (Ep : map dp_quality (dn_parts x) = map q lx).
  { unfold lx. rewrite map_map. apply map_ext_in. intros y Hy. unfold q. rewrite (K1 y Hy). reflexivity. }
  set (G := fun r : Z * Z * Z => let '(h, i, j) := r in dgain m RC h i j). set (Lo := fun r : Z * Z * Z => let '(h, i, j) := r in dloss m RC h i j).
  set (TT := fun r : Z * Z * Z => let '(h, i, j) := r in dtotal m RC h i j).
  assert (Ev : forall l', dvalue (wgain p) (wloss p) m RC l' = Rsum (fun y => wgain p * G y - wloss p * Lo y)%R l').
  { intro l'. apply Rsum_ext. intros [[h i] j] _. reflexivity. }
  rewrite !Ev.
  apply (opt_generic lg E d (m_leaves m * n) (dv_vsize v) T p (Z * Z * Z) q G Lo TT l lx HE Hd Hp TD).
  - intros [[h i] j] [Hh|Hh]; [destruct (IC l Hl h i j Hh) as (I1 & I2 & I3)|destruct (IC lx Cx h i j Hh) as (I1 & I2 & I3)]; apply (Hq h i j I1 I2 I3).
  - apply TC; auto.
  - apply TC; auto.
  - intro HB. rewrite <- Ep. apply (C75_spatio m W lg t n p _ x l (map q l) ltac:(lia) ltac:(lia) S F HB); auto.
    + intros h a b y Hh Ha Hb Ey. destruct (Hq h a b Hh Ha Hb) as (Ey' & Tb & W1 & W2 & A1 & A2). rewrite Ey in Ey'. assert (Eq : y = q (h, a, b)) by congruence.
      rewrite <- Eq in *. split; (eapply entry_le; [exact HE|exact Hd| |exact Tb| |]); try eassumption; (assert (0 <= m_leaves m * n) by (apply Z.mul_nonneg_nonneg; lia); lia).
    + apply Hm. eauto.
Qed.
Print Assumptions C78_spatio.
