(** * Proofs of C79 and C80: normalised tables, and the partitions computed from them. *)
From Coq Require Import ZArith Reals Lra Lia Permutation.
From Flocq Require Import Core BinarySingleNaN.
From Verif Require Import Base BaseFacts Arith Quality Utm UtmFacts UtmProofs Hierarchy SpecTree HierarchyFacts TreePath CoverFacts Values Qualities Partitions Partitioners
  OProofs Ieee SpecIeee IeeeFacts SpecParts SpecInfo SpecData InfoFacts OInfo ODataProofs SpecNear NearFacts ONear HFacts HNear DNear HProofs DFacts DSel DProofs HDataProofs DDataProofs
  P_Near SpecNum NumFacts ONum HQual HNum DNum TreeOpt SpecNorm NormNum P_OrderedData P_HierData P_SpatioData DataFacts.

Lemma sane4 : sane_bound 4.
Proof.
  change 4%R with (bpow radix2 2). split; apply bpow_le; lia.
Qed.

Lemma nonneg_reals : forall E r, Forall (datum E) r -> nonneg (reals r).
Proof.
  intros E r H. unfold nonneg, reals. apply Forall_map. revert H. apply Forall_impl. intros a. apply datum_nonneg.
Qed.

Lemma vget_all : forall (X : Type) (t : list X) P, (forall h, 0 <= h < vlen t -> exists y, vget t h = Ok y /\ P y) -> Forall P t.
Proof.
  intros X t P H. apply Forall_forall. intros y Hy. apply In_nth_error in Hy. destruct Hy as [k Hk].
  assert (Rk : (k < length t)%nat) by (apply nth_error_Some; rewrite Hk; discriminate).
  destruct (H (Z.of_nat k) ltac:(unfold vlen; lia)) as (z & Ez & Pz). unfold vget in Ez. destruct (Z.ltb_spec (Z.of_nat k) 0); [lia|].
  rewrite Nat2Z.id, Hk in Ez. inversion Ez; subst; auto.
Qed.

(** Ordered. *)
Section O.
Variables (lg : f80 -> f80) (E : Z) (d : R) (v : ovalues (IA lg)) (rows : list (list f80)).
Hypothesis HE : 32 <= E <= 8000.
Hypothesis Hd : (0 <= d <= / 1024)%R.
Hypothesis HL : log_accurate E d lg.
Hypothesis Hv : odata_f v rows.
Hypothesis Hn1 : 1 <= ov_osize v.
Hypothesis Hdat : Forall (Forall (datum E)) rows.
Hypothesis Htot : (Rsum (fun r => total (reals r)) rows <= bpow radix2 (E - 1))%R.
Notation n := (ov_osize v).
Notation K := (ov_vsize v).
Notation RW := (map reals rows).
Hypothesis HG : well_above E (n + K) d (ototal RW 0 (n - 1)) (ogain RW 0 (n - 1)).
Hypothesis HO : well_above E (n + K) d (ototal RW 0 (n - 1)) (oloss RW 0 (n - 1)).

Lemma o_len : Forall (fun r : list R => vlen r = n) RW.
Proof.
  destruct Hv as (_ & _ & _ & V4). apply Forall_map. revert V4. apply Forall_impl. intros r Hr. unfold vlen, reals in *. rewrite map_length. exact Hr.
Qed.
Lemma o_nn : Forall nonneg RW.
Proof. apply Forall_map. revert Hdat. apply Forall_impl. intros r. apply nonneg_reals. Qed.

Lemma o_pw : forall i j, 0 <= i <= j -> j < n -> (ogain RW i j <= ogain RW 0 (n - 1))%R /\ (oloss RW i j <= oloss RW 0 (n - 1))%R.
Proof.
  intros i j Hi Hj. destruct Hv as (V1 & V2 & V3 & V4).
  set (v' := mkOV (RP Rpar) K n (ON2 (RP Rpar) RW)).
  apply (o_part_whole Rpar v' RW); auto; [|apply o_nn].
  split; [cbn; lia|]. split; [cbn; lia|]. split.
  - cbn [ov_vsize v']. unfold ov_row. cbn [ov_data v'].
    destruct (mmap_zrange (list f80) _ _ rows [] (proj1 V1) V3) as (Lr & _).
    replace K with (vlen RW) by (unfold vlen in *; rewrite map_length; exact Lr). apply (mmap_vget _ RW).
  - cbn [ov_osize v']. apply o_len.
Qed.

Lemma o_norm_all : exists t, bind (oq_compute (IA lg) (oq_ofValues (IA lg) v)) (oq_normalize (IA lg)) = Ok (mkOQ (IA lg) (Some v) (Some t)) /\ utm_shape t n /\
  (forall i j, 0 <= i <= j -> j < n -> exists q, u_get t i j = Ok q /\
    within (norm_err E (n + K) d (ototal RW 0 (n - 1)) (ogain RW 0 (n - 1))) (gain q) (ogain RW i j / ogain RW 0 (n - 1)) /\
    within (norm_err E (n + K) d (ototal RW 0 (n - 1)) (oloss RW 0 (n - 1))) (loss q) (oloss RW i j / oloss RW 0 (n - 1))) /\
  forall p : f32, unit32 p -> exists x, o_best (IA lg) t p = Ok x /\ tiles 0 n (map (fun y => (op_start y, op_end y)) (on_parts x)) /\
  (within (ntot_err E n K d (ototal RW 0 (n - 1)) (ogain RW 0 (n - 1))) (gain (on_quality x)) (Rsum (fun y => ogain RW (op_start y) (op_end y) / ogain RW 0 (n - 1))%R (on_parts x)) /\
   within (ntot_err E n K d (ototal RW 0 (n - 1)) (oloss RW 0 (n - 1))) (loss (on_quality x)) (Rsum (fun y => oloss RW (op_start y) (op_end y) / oloss RW 0 (n - 1))%R (on_parts x))) /\
  ((0 <= Rsum (fun y => ogain RW (op_start y) (op_end y) / ogain RW 0 (n - 1)) (on_parts x) <= 1)%R /\
   (0 <= Rsum (fun y => oloss RW (op_start y) (op_end y) / oloss RW 0 (n - 1)) (on_parts x) <= 1)%R) /\
  forall l, tiles 0 n l ->
    (onvalue (wgain p) (wloss p) RW n l <= onvalue (wgain p) (wloss p) RW n (map (fun y => (op_start y, op_end y)) (on_parts x)) +
     nopt_err E n K d (ototal RW 0 (n - 1)) (ogain RW 0 (n - 1)) (oloss RW 0 (n - 1)))%R.
Proof.
  pose proof Hv as (V1 & V2 & V3 & V4).
  destruct (o_num_prf lg E d HE Hd HL v rows Hv Hdat Htot) as (t0 & E1 & S0 & K0).
  set (q0 := fun ij : Z * Z => match u_get t0 (fst ij) (snd ij) with Ok q => q | _ => q_zero (IA lg) end).
  set (D := fun ij : Z * Z => 0 <= fst ij <= snd ij /\ snd ij < n).
  set (G := fun ij : Z * Z => ogain RW (fst ij) (snd ij)). set (Lo := fun ij : Z * Z => oloss RW (fst ij) (snd ij)). set (T := fun ij : Z * Z => ototal RW (fst ij) (snd ij)).
  set (r := (0, n - 1)). assert (Dr : D r) by (unfold D, r; cbn [fst snd]; lia).
  assert (G0 : forall y, D y -> u_get t0 (fst y) (snd y) = Ok (q0 y)).
  { intros y [Y1 Y2]. unfold q0. destruct (K0 _ _ Y1 Y2) as (q & -> & _). reflexivity. }
  assert (Hq : forall y, D y -> within (num_err E (n + K) d * T y) (gain (q0 y)) (G y) /\ within (num_err E (n + K) d * T y) (loss (q0 y)) (Lo y) /\
    (0 <= T y <= T r)%R /\ (0 <= G y <= G r)%R /\ (0 <= Lo y <= Lo r)%R /\ (Rabs (G y) <= 3 * (T y * IZR E))%R /\ (Rabs (Lo y) <= 3 * (T y * IZR E))%R).
  { intros y [Y1 Y2]. destruct (K0 _ _ Y1 Y2) as (q & Eq & W1 & W2 & A1 & A2). unfold q0. rewrite Eq. destruct (o_pw _ _ Y1 Y2) as [P1 P2].
    split; [exact W1|]. split; [exact W2|].
    split; [split; [apply (ototal_nonneg E); auto|eapply ototal_part; eauto]|].
    split; [split; [apply (ogain_nonneg RW n o_len o_nn)|exact P1]|].
    split; [split; [apply (oloss_nonneg RW n o_len o_nn)|exact P2]|]. split; [exact A1|exact A2]. }
  destruct (C15_ordered_divides (IA lg) v t0 n (q0 r) ltac:(lia) S0 eq_refl (G0 r Dr)) as (t & E2 & S & K2).
  exists t. rewrite E1. cbn [bind]. split; [exact E2|]. split; [exact S|].
  assert (Hg : forall y, D y -> u_get t (fst y) (snd y) = Ok (nq lg (Z * Z) q0 r y)).
  { intros y Hy. exact (K2 (fst y) (snd y) (q0 y) (proj1 Hy) (proj2 Hy) (G0 y Hy)). }
  split.
  - intros i j Hi Hj. exists (nq lg (Z * Z) q0 r (i, j)). split; [apply (Hg (i, j)); split; auto|].
    apply (nq_entry lg E n K d HE Hd ltac:(lia) ltac:(lia) (Z * Z) D q0 G Lo T r Dr Hq HG HO (i, j)). split; auto.
  - intros p Hp. destruct (o_tiles_prf _ t n p ltac:(lia) S) as (x & Ex & _ & Tl). exists x. split; auto. split; auto.
    set (lx := map (fun y => (op_start y, op_end y)) (on_parts x)) in *.
    assert (TI : forall l', tiles 0 n l' -> forall y, In y l' -> D y).
    { intros l' H' [a b] Hab. apply (tiles_In _ _ _ H') in Hab. unfold D. cbn [fst snd]. lia. }
    assert (Hm : forall l', tiles 0 n l' -> mmap (fun ab => u_get t (fst ab) (snd ab)) l' = Ok (map (nq lg (Z * Z) q0 r) l')).
    { intros l' H'. pose proof (TI l' H') as HD. clear H'. induction l' as [|y l' IH]; auto. cbn [mmap map]. rewrite (Hg y (HD y ltac:(left; auto))). cbn [bind].
      rewrite IH by (intros; apply HD; right; auto). reflexivity. }
    assert (Ep : map op_quality (on_parts x) = map (nq lg (Z * Z) q0 r) lx).
    { unfold lx. rewrite map_map. apply map_ext_in. intros y Hy. destruct (o_quality_prf _ t n p x ltac:(lia) S Ex) as (K1 & _). specialize (K1 y Hy).
      assert (Dy : D (op_start y, op_end y)) by (apply (TI lx Tl); unfold lx; apply in_map_iff; exists y; auto).
      pose proof (Hg _ Dy) as Q. cbn [fst snd] in Q. rewrite K1 in Q. congruence. }
    assert (Ln : forall l', tiles 0 n l' -> (Z.of_nat (length l') <= n)) by (intros l' H'; pose proof (tiles_len _ _ _ H'); lia).
    assert (OG : forall l', tiles 0 n l' -> (Rsum G l' <= G r)%R /\ (Rsum Lo l' <= Lo r)%R).
    { intros l' H'. apply (otiles_gain RW n o_len o_nn 0 (n - 1) l'); try lia. replace (n - 1 + 1) with n by lia. exact H'. }
    assert (OT : forall l', tiles 0 n l' -> (Rsum T l' <= T r)%R).
    { intros l' H'. right. unfold T, r. cbn [fst snd]. eapply ototal_tiles; eauto. }
    assert (Qb : forall a b q, 0 <= a <= b -> b < n -> u_get t a b = Ok q -> qual_le 4 q).
    { intros a b q Ha Hb Eq. pose proof (Hg (a, b) (conj Ha Hb)) as Q. cbn [fst snd] in Q. assert (Eq' : q = nq lg (Z * Z) q0 r (a, b)) by congruence. rewrite Eq'.
      apply (nq_le lg E n K d HE Hd ltac:(lia) ltac:(lia) (Z * Z) D q0 G Lo T r Dr Hq HG HO (a, b)). split; auto. }
    split.
    { pose proof (C75_ordered_total lg t n p 4 x ltac:(lia) S sane4 Qb Ex) as To. rewrite Ep in To.
      pose proof (norm_total lg E n K d HE Hd ltac:(lia) ltac:(lia) (Z * Z) D q0 G Lo T r Dr Hq HG HO lx _ _ (TI lx Tl) (Ln lx Tl) (OT lx Tl) (proj1 (OG lx Tl)) (proj2 (OG lx Tl)) To) as Nt.
      unfold lx in Nt. rewrite !Rsum_map in Nt. exact Nt. }
    split.
    { pose proof (norm_unit (Z * Z) r G lx (proj1 HG) ltac:(intros y Iy; apply (Hq y (TI lx Tl y Iy))) (proj1 (OG lx Tl))) as U1.
      pose proof (norm_unit (Z * Z) r Lo lx (proj1 HO) ltac:(intros y Iy; apply (Hq y (TI lx Tl y Iy))) (proj2 (OG lx Tl))) as U2.
      unfold lx in U1, U2. rewrite !Rsum_map in U1, U2. split; [exact U1|exact U2]. }
    intros l Hl.
    apply (norm_opt lg E n K d HE Hd ltac:(lia) ltac:(lia) (Z * Z) D q0 G Lo T r Dr Hq HG HO p l lx Hp); auto; try (apply OG; auto).
    + intros y [Hy|Hy]; [apply (TI l Hl)|apply (TI lx Tl)]; auto.
    + rewrite <- Ep. apply (C75_ordered lg t n p 4 x l); auto; try lia. apply sane4.
Qed.
End O.

(** Hierarchical. *)
Section H.
Variables (lg : f80 -> f80) (E : Z) (d : R) (v : hvalues (IA lg)) (comps : list (list f80)).
Hypothesis HE : 32 <= E <= 8000.
Hypothesis Hd : (0 <= d <= / 1024)%R.
Hypothesis HL : log_accurate E d lg.
Hypothesis Hv : hdata_f v comps.
Hypothesis Hdat : Forall (Forall (datum E)) comps.
Hypothesis Htot : (Rsum (fun c => total (reals c)) comps <= bpow radix2 (E - 1))%R.
Notation m := (hv_meta v).
Notation L := (m_leaves m).
Notation K := (hv_vsize v).
Notation RC := (map reals comps).
Notation rt := (m_root m).
Hypothesis Hr : rt = m_hsize m - 1.
Hypothesis HG : well_above E (L + K) d (htotal m RC rt) (hgain m RC rt).
Hypothesis HO : well_above E (L + K) d (htotal m RC rt) (hloss m RC rt).

Lemma h_nn : Forall nonneg RC.
Proof. apply Forall_map. revert Hdat. apply Forall_impl. intros r. apply nonneg_reals. Qed.
Lemma h_len : Forall (fun c : list R => vlen c = L) RC.
Proof.
  pose proof Hv as (V1 & W & H2 & V3 & V4). pose proof (wb_L m W) as WL.
  apply Forall_map, Forall_forall. intros c Hc. destruct (mmap_zrange (list f80) _ _ comps [] (proj1 V1) V4) as (Lc & Kc & Em).
  rewrite Em in Hc. apply in_map_iff in Hc. destruct Hc as [k [<- Hk]]. apply In_zrange in Hk. specialize (Kc k Hk). cbn beta in Kc.
  destruct (mmap_zrange f80 (fun h => hv_value v h k) L _ (B754_zero false) ltac:(lia) Kc) as (Ll & _).
  unfold vlen, reals in *. rewrite map_length. exact Ll.
Qed.

Lemma h_norm_all : exists t, bind (hq_compute (IA lg) (hq_ofValues (IA lg) v)) (hq_normalize (IA lg)) = Ok (mkHQ (IA lg) (Some v) (Some t) m) /\ vlen t = m_hsize m /\
  (forall h, 0 <= h < m_hsize m -> exists q, vget t h = Ok q /\
    within (norm_err E (L + K) d (htotal m RC rt) (hgain m RC rt)) (gain q) (hgain m RC h / hgain m RC rt) /\
    within (norm_err E (L + K) d (htotal m RC rt) (hloss m RC rt)) (loss q) (hloss m RC h / hloss m RC rt)) /\
  forall p : f32, unit32 p -> exists x, h_best (IA lg) t m p = Ok x /\ node_cover L (m_parents m) (map hp_h (hn_parts x)) /\
  (within (ntot_err E L K d (htotal m RC rt) (hgain m RC rt)) (gain (hn_quality x)) (Rsum (fun y => hgain m RC (hp_h y) / hgain m RC rt)%R (hn_parts x)) /\
   within (ntot_err E L K d (htotal m RC rt) (hloss m RC rt)) (loss (hn_quality x)) (Rsum (fun y => hloss m RC (hp_h y) / hloss m RC rt)%R (hn_parts x))) /\
  ((0 <= Rsum (fun y => hgain m RC (hp_h y) / hgain m RC rt) (hn_parts x) <= 1)%R /\
   (0 <= Rsum (fun y => hloss m RC (hp_h y) / hloss m RC rt) (hn_parts x) <= 1)%R) /\
  forall l, node_cover L (m_parents m) l ->
    (hnvalue (wgain p) (wloss p) m RC l <= hnvalue (wgain p) (wloss p) m RC (map hp_h (hn_parts x)) +
     nopt_err E L K d (htotal m RC rt) (hgain m RC rt) (hloss m RC rt))%R.
Proof.
  pose proof Hv as (V1 & W & H2 & V3 & V4). pose proof (wb_L m W) as WL. pose proof (root_node m W) as Rr.
  destruct (h_num_prf lg E d HE Hd HL v comps Hv Hdat Htot) as (t0 & E1 & S0 & K0).
  set (q0 := fun h : Z => match vget t0 h with Ok q => q | _ => q_zero (IA lg) end).
  set (D := fun h : Z => 0 <= h < m_hsize m).
  assert (G0 : forall y, D y -> vget t0 y = Ok (q0 y)).
  { intros y Hy. unfold q0. destruct (K0 y Hy) as (q & -> & _). reflexivity. }
  assert (Hq : forall y, D y -> within (num_err E (L + K) d * htotal m RC y) (gain (q0 y)) (hgain m RC y) /\ within (num_err E (L + K) d * htotal m RC y) (loss (q0 y)) (hloss m RC y) /\
    (0 <= htotal m RC y <= htotal m RC rt)%R /\ (0 <= hgain m RC y <= hgain m RC rt)%R /\ (0 <= hloss m RC y <= hloss m RC rt)%R /\
    (Rabs (hgain m RC y) <= 3 * (htotal m RC y * IZR E))%R /\ (Rabs (hloss m RC y) <= 3 * (htotal m RC y * IZR E))%R).
  { intros y Hy. destruct (K0 y Hy) as (q & Eq & W1 & W2 & A1 & A2). unfold q0. rewrite Eq. destruct (h_part_whole m W RC h_len h_nn y) as [P1 P2].
    split; [exact W1|]. split; [exact W2|].
    split; [split; [apply (htotal_nonneg E); auto|apply (htotal_part E m comps W Hdat)]|].
    split; [split; [apply (hgain_nonneg m W RC h_len h_nn)|exact P1]|].
    split; [split; [apply (hloss_nonneg m W RC h_len h_nn)|exact P2]|]. split; [exact A1|exact A2]. }
  destruct (C16_hier_root_last (IA lg) (Some v) t0 m (q0 rt) W Hr S0 (G0 rt Rr)) as (t & E2 & S & K2).
  exists t. rewrite E1. cbn [bind]. split; [exact E2|]. split; [exact S|].
  assert (Hg : forall y, D y -> vget t y = Ok (nq lg Z q0 rt y)).
  { intros y Hy. exact (K2 y (q0 y) Hy (G0 y Hy)). }
  split.
  - intros h Hh. exists (nq lg Z q0 rt h). split; [apply (Hg h Hh)|].
    exact (nq_entry lg E L K d HE Hd ltac:(lia) ltac:(lia) Z D q0 (hgain m RC) (hloss m RC) (htotal m RC) rt Rr Hq HG HO h Hh).
  - intros p Hp. destruct (h_cover_prf m W H2 _ t p S) as (x & Ex & _ & Cx & _). exists x. split; auto. split; auto.
    destruct (h_quality_prf m W H2 _ t p x S Ex) as (K1 & _).
    set (lx := map hp_h (hn_parts x)) in *.
    assert (IC : forall l', node_cover L (m_parents m) l' -> forall h, In h l' -> D h).
    { intros l' C h Hh. apply (node_cover_iff m W) in C. apply C; auto. }
    assert (Hm : forall l', node_cover L (m_parents m) l' -> mmap (vget t) l' = Ok (map (nq lg Z q0 rt) l')).
    { intros l' H'. pose proof (IC l' H') as HD. clear H'. induction l' as [|y l' IH]; auto. cbn [mmap map]. rewrite (Hg y (HD y ltac:(left; auto))). cbn [bind].
      rewrite IH by (intros; apply HD; right; auto). reflexivity. }
    assert (Ep : map hp_quality (hn_parts x) = map (nq lg Z q0 rt) lx).
    { unfold lx. rewrite map_map. apply map_ext_in. intros y Hy. specialize (K1 y Hy).
      assert (Dy : D (hp_h y)) by (apply (IC lx Cx); unfold lx; apply in_map_iff; exists y; auto).
      pose proof (Hg _ Dy) as Q. rewrite K1 in Q. congruence. }
    assert (Ln : forall l', node_cover L (m_parents m) l' -> (Z.of_nat (length l') <= L)).
    { intros l' H'. apply (node_cover_iff m W) in H'. apply (hcover_len m W _ l' Rr H'). }
    assert (OG : forall l', node_cover L (m_parents m) l' -> (Rsum (hgain m RC) l' <= hgain m RC rt)%R /\ (Rsum (hloss m RC) l' <= hloss m RC rt)%R).
    { intros l' H'. apply (h_super m W RC h_len h_nn rt l'). apply node_split_perm; auto. apply node_cover_split; auto. }
    assert (OT : forall l', node_cover L (m_parents m) l' -> (Rsum (htotal m RC) l' <= htotal m RC rt)%R).
    { intros l' H'. right. apply htotal_cover; auto. }
    assert (Qb : Forall (qual_le 4) t).
    { apply vget_all. intros h Hh. rewrite S in Hh. exists (nq lg Z q0 rt h). split; [apply Hg; auto|].
      exact (nq_le lg E L K d HE Hd ltac:(lia) ltac:(lia) Z D q0 (hgain m RC) (hloss m RC) (htotal m RC) rt Rr Hq HG HO h Hh). }
    split.
    { pose proof (C75_hier_total m W H2 ltac:(lia) lg t p 4 x S sane4 Qb Ex) as To. rewrite Ep in To.
      pose proof (norm_total lg E L K d HE Hd ltac:(lia) ltac:(lia) Z D q0 (hgain m RC) (hloss m RC) (htotal m RC) rt Rr Hq HG HO lx _ _ (IC lx Cx) (Ln lx Cx) (OT lx Cx) (proj1 (OG lx Cx)) (proj2 (OG lx Cx)) To) as Nt.
      unfold lx in Nt. rewrite !Rsum_map in Nt. exact Nt. }
    split.
    { pose proof (norm_unit Z rt (hgain m RC) lx (proj1 HG) ltac:(intros y Iy; apply (Hq y (IC lx Cx y Iy))) (proj1 (OG lx Cx))) as U1.
      pose proof (norm_unit Z rt (hloss m RC) lx (proj1 HO) ltac:(intros y Iy; apply (Hq y (IC lx Cx y Iy))) (proj2 (OG lx Cx))) as U2.
      unfold lx in U1, U2. rewrite !Rsum_map in U1, U2. split; [exact U1|exact U2]. }
    intros l Hl.
    apply (norm_opt lg E L K d HE Hd ltac:(lia) ltac:(lia) Z D q0 (hgain m RC) (hloss m RC) (htotal m RC) rt Rr Hq HG HO p l lx Hp); auto; try (apply OG; auto).
    + intros y [Hy|Hy]; [apply (IC l Hl)|apply (IC lx Cx)]; auto.
    + rewrite <- Ep. apply (C75_hier m W H2 ltac:(lia) lg t p 4 x l); auto. apply sane4.
Qed.
End H.

(** Spatiotemporal. *)
Section DD.
Variables (lg : f80 -> f80) (E : Z) (d : R) (v : dvalues (IA lg)) (comps : list (list (list f80))).
Hypothesis HE : 32 <= E <= 8000.
Hypothesis Hd : (0 <= d <= / 1024)%R.
Hypothesis HL : log_accurate E d lg.
Hypothesis Hv : ddata_f v comps.
Hypothesis Hdat : Forall (Forall (Forall (datum E))) comps.
Hypothesis Htot : (Rsum (fun c => Rsum (fun r => total (reals r)) c) comps <= bpow radix2 (E - 1))%R.
Notation m := (dv_meta v).
Notation L := (m_leaves m).
Notation n := (dv_osize v).
Notation K := (dv_vsize v).
Notation RC := (map (map reals) comps).
Notation rt := (m_root m).
Hypothesis Hr : rt = m_hsize m - 1.
Hypothesis HG : well_above E (L * n + K) d (dtotal m RC rt 0 (n - 1)) (dgain m RC rt 0 (n - 1)).
Hypothesis HO : well_above E (L * n + K) d (dtotal m RC rt 0 (n - 1)) (dloss m RC rt 0 (n - 1)).

Lemma d_nn : Forall dnonneg RC.
Proof. apply Forall_map. revert Hdat. apply Forall_impl. intros c Hc. apply Forall_map. revert Hc. apply Forall_impl. intros r. apply nonneg_reals. Qed.
Lemma d_len : Forall (comp_len m n) RC.
Proof. apply Forall_forall. exact (dcomp_len_f lg v comps Hv). Qed.

Lemma d_norm_all : exists t, bind (dq_compute (IA lg) (dq_ofValues (IA lg) v)) (dq_normalize (IA lg)) = Ok (mkDQ (IA lg) (Some v) (Some t) m) /\ vlen t = m_hsize m /\
  Forall (fun u => utm_shape u n) t /\
  (forall h i j, 0 <= h < m_hsize m -> 0 <= i <= j -> j < n -> exists q, mm_get t h i j = Ok q /\
    within (norm_err E (L * n + K) d (dtotal m RC rt 0 (n - 1)) (dgain m RC rt 0 (n - 1))) (gain q) (dgain m RC h i j / dgain m RC rt 0 (n - 1)) /\
    within (norm_err E (L * n + K) d (dtotal m RC rt 0 (n - 1)) (dloss m RC rt 0 (n - 1))) (loss q) (dloss m RC h i j / dloss m RC rt 0 (n - 1))) /\
  forall p : f32, unit32 p -> exists x, d_best (IA lg) t m p = Ok x /\ rect_cover L (m_parents m) n (map (fun y => (dp_h y, dp_start y, dp_end y)) (dn_parts x)) /\
  (within (ntot_err E (L * n) K d (dtotal m RC rt 0 (n - 1)) (dgain m RC rt 0 (n - 1))) (gain (dn_quality x))
     (Rsum (fun y => dgain m RC (dp_h y) (dp_start y) (dp_end y) / dgain m RC rt 0 (n - 1))%R (dn_parts x)) /\
   within (ntot_err E (L * n) K d (dtotal m RC rt 0 (n - 1)) (dloss m RC rt 0 (n - 1))) (loss (dn_quality x))
     (Rsum (fun y => dloss m RC (dp_h y) (dp_start y) (dp_end y) / dloss m RC rt 0 (n - 1))%R (dn_parts x))) /\
  ((0 <= Rsum (fun y => dgain m RC (dp_h y) (dp_start y) (dp_end y) / dgain m RC rt 0 (n - 1)) (dn_parts x) <= 1)%R /\
   (0 <= Rsum (fun y => dloss m RC (dp_h y) (dp_start y) (dp_end y) / dloss m RC rt 0 (n - 1)) (dn_parts x) <= 1)%R) /\
  forall l, rect_cover L (m_parents m) n l -> never_up L (m_parents m) l ->
    (dnvalue (wgain p) (wloss p) m RC n l <= dnvalue (wgain p) (wloss p) m RC n (map (fun y => (dp_h y, dp_start y, dp_end y)) (dn_parts x)) +
     nopt_err E (L * n) K d (dtotal m RC rt 0 (n - 1)) (dgain m RC rt 0 (n - 1)) (dloss m RC rt 0 (n - 1)))%R.
Proof.
  pose proof Hv as (V1 & V2 & W & H2 & V3 & V4 & V5). pose proof (wb_L m W) as WL. pose proof (root_node m W) as Rr.
  assert (LN : 1 <= L * n <= 4294967296) by nia.
  destruct (d_num_prf lg E d HE Hd HL v comps Hv Hdat Htot) as (t0 & E1 & S0 & F0 & K0).
  set (q0 := fun r : Z * Z * Z => let '(h, i, j) := r in match mm_get t0 h i j with Ok q => q | _ => q_zero (IA lg) end).
  set (D := fun r : Z * Z * Z => let '(h, i, j) := r in 0 <= h < m_hsize m /\ 0 <= i <= j /\ j < n).
  set (G := fun r : Z * Z * Z => let '(h, i, j) := r in dgain m RC h i j). set (Lo := fun r : Z * Z * Z => let '(h, i, j) := r in dloss m RC h i j).
  set (T := fun r : Z * Z * Z => let '(h, i, j) := r in dtotal m RC h i j).
  set (r := (rt, 0, n - 1)). assert (Dr : D r) by (unfold D, r; lia).
  assert (G0 : forall h i j, D (h, i, j) -> mm_get t0 h i j = Ok (q0 (h, i, j))).
  { intros h i j (Y1 & Y2 & Y3). unfold q0. destruct (K0 h i j Y1 Y2 Y3) as (q & -> & _). reflexivity. }
  assert (Hq : forall y, D y -> within (num_err E (L * n + K) d * T y) (gain (q0 y)) (G y) /\ within (num_err E (L * n + K) d * T y) (loss (q0 y)) (Lo y) /\
    (0 <= T y <= T r)%R /\ (0 <= G y <= G r)%R /\ (0 <= Lo y <= Lo r)%R /\ (Rabs (G y) <= 3 * (T y * IZR E))%R /\ (Rabs (Lo y) <= 3 * (T y * IZR E))%R).
  { intros [[h i] j] (Y1 & Y2 & Y3). destruct (K0 h i j Y1 Y2 Y3) as (q & Eq & W1 & W2 & A1 & A2). unfold q0. rewrite Eq.
    destruct (d_part_whole m W n RC d_len d_nn h i j Y2 Y3) as [P1 P2].
    split; [exact W1|]. split; [exact W2|].
    split; [split; [eapply dtotal_nonneg; eauto|eapply dtotal_part; eauto]|].
    split; [split; [apply (dgain_nonneg m W n RC d_len d_nn); auto|exact P1]|].
    split; [split; [apply (dloss_nonneg m W n RC d_len d_nn); auto|exact P2]|]. split; [exact A1|exact A2]. }
  destruct (C17_spatio_root_last (IA lg) v t0 m (q0 r) W Hr ltac:(lia) S0 F0 (G0 _ _ _ Dr)) as (t & E2 & S & F & K2).
  exists t. rewrite E1. cbn [bind]. split; [exact E2|]. split; [exact S|]. split; [exact F|].
  assert (Hg : forall h i j, D (h, i, j) -> mm_get t h i j = Ok (nq lg (Z * Z * Z) q0 r (h, i, j))).
  { intros h i j Hy. pose proof Hy as (Y1 & Y2 & Y3). exact (K2 h i j (q0 (h, i, j)) Y1 Y2 Y3 (G0 h i j Hy)). }
  split.
  - intros h i j Hh Hi Hj. exists (nq lg (Z * Z * Z) q0 r (h, i, j)). assert (Dy : D (h, i, j)) by (split; auto). split; [apply Hg; auto|].
    exact (nq_entry lg E (L * n) K d HE Hd LN ltac:(lia) (Z * Z * Z) D q0 G Lo T r Dr Hq HG HO (h, i, j) Dy).
  - intros p Hp. destruct (d_cover_prf m W _ t n p ltac:(lia) S F) as (x & Ex & _ & Cx & Nx & _). exists x. split; auto. split; auto.
    destruct (d_quality_prf m W _ t n p x ltac:(lia) S F Ex) as (K1 & _).
    set (lx := map (fun y => (dp_h y, dp_start y, dp_end y)) (dn_parts x)) in *.
    assert (IC : forall l', rect_cover L (m_parents m) n l' -> forall y, In y l' -> D y).
    { intros l' C [[h i] j] Hh. apply (rect_cover_iff m W n) in C. apply (rc_in _ _ _ _ _ C) in Hh. unfold D. intuition lia. }
    assert (Hm : forall l', rect_cover L (m_parents m) n l' -> mmap (fun '(h, a, b) => mm_get t h a b) l' = Ok (map (nq lg (Z * Z * Z) q0 r) l')).
    { intros l' H'. pose proof (IC l' H') as HD. clear H'. induction l' as [|[[h i] j] l' IH]; auto. cbn [mmap map]. rewrite (Hg h i j (HD (h, i, j) ltac:(left; auto))). cbn [bind].
      rewrite IH by (intros; apply HD; right; auto). reflexivity. }
    assert (Ep : map dp_quality (dn_parts x) = map (nq lg (Z * Z * Z) q0 r) lx).
    { unfold lx. rewrite map_map. apply map_ext_in. intros y Hy. specialize (K1 y Hy).
      assert (Dy : D (dp_h y, dp_start y, dp_end y)) by (apply (IC lx Cx); unfold lx; apply in_map_iff; exists y; auto).
      pose proof (Hg _ _ _ Dy) as Q. rewrite K1 in Q. congruence. }
    assert (Ln : forall l', rect_cover L (m_parents m) n l' -> (Z.of_nat (length l') <= L * n)).
    { intros l' H'. apply (rect_cover_iff m W n) in H'. apply (rcover_len' m W n ltac:(lia) (proj2 LN) _ 0 l' Rr ltac:(lia) H'). }
    assert (OG : forall l', rect_cover L (m_parents m) n l' -> (Rsum G l' <= G r)%R /\ (Rsum Lo l' <= Lo r)%R).
    { intros l' H'. apply (d_super m W n RC d_len d_nn rt 0 (n - 1) l'); try lia.
      - apply (rect_split_perm m W). apply (rect_cover_split m W n l' H').
      - intros y a b Hy. destruct (IC l' H' _ Hy) as (_ & B1 & B2). auto. }
    assert (OT : forall l', rect_cover L (m_parents m) n l' -> (Rsum T l' <= T r)%R).
    { intros l' H'. right. exact (dtotal_cover lg v comps Hv l' H'). }
    assert (Qb : forall h a b q, 0 <= h < m_hsize m -> 0 <= a <= b -> b < n -> mm_get t h a b = Ok q -> qual_le 4 q).
    { intros h a b q Hh Ha Hb Eq. assert (Dy : D (h, a, b)) by (split; auto). pose proof (Hg h a b Dy) as Q. assert (Eq' : q = nq lg (Z * Z * Z) q0 r (h, a, b)) by congruence. rewrite Eq'.
      exact (nq_le lg E (L * n) K d HE Hd LN ltac:(lia) (Z * Z * Z) D q0 G Lo T r Dr Hq HG HO (h, a, b) Dy). }
    split.
    { pose proof (C75_spatio_total m W lg t n p 4 x ltac:(lia) ltac:(lia) S F sane4 Qb Ex) as To. rewrite Ep in To.
      pose proof (norm_total lg E (L * n) K d HE Hd LN ltac:(lia) (Z * Z * Z) D q0 G Lo T r Dr Hq HG HO lx _ _ (IC lx Cx) (Ln lx Cx) (OT lx Cx) (proj1 (OG lx Cx)) (proj2 (OG lx Cx)) To) as Nt.
      unfold lx in Nt. rewrite !Rsum_map in Nt. exact Nt. }
    split.
    { pose proof (norm_unit (Z * Z * Z) r G lx (proj1 HG) ltac:(intros y Iy; apply (Hq y (IC lx Cx y Iy))) (proj1 (OG lx Cx))) as U1.
      pose proof (norm_unit (Z * Z * Z) r Lo lx (proj1 HO) ltac:(intros y Iy; apply (Hq y (IC lx Cx y Iy))) (proj2 (OG lx Cx))) as U2.
      unfold lx in U1, U2. rewrite !Rsum_map in U1, U2. split; [exact U1|exact U2]. }
    intros l Hl Nl.
    assert (Ev : forall l', dnvalue (wgain p) (wloss p) m RC n l' = Rsum (fun y => wgain p * (G y / G r) - wloss p * (Lo y / Lo r))%R l').
    { intro l'. apply Rsum_ext. intros [[h i] j] _. reflexivity. }
    rewrite !Ev.
    apply (norm_opt lg E (L * n) K d HE Hd LN ltac:(lia) (Z * Z * Z) D q0 G Lo T r Dr Hq HG HO p l lx Hp); auto; try (apply OG; auto).
    + intros y [Hy|Hy]; [apply (IC l Hl)|apply (IC lx Cx)]; auto.
    + rewrite <- Ep. apply (C75_spatio m W lg t n p 4 x l); auto; try lia. apply sane4.
Qed.
End DD.
