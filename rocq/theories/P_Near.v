(** * Properties C75, C76: how far rounding can move the chosen partition from the optimum.

    [IA lg] is the code's arithmetic (long double qualities, float parameters, [lg] any implementation of log). [exact_value],
    [exact_gain] and [exact_loss] add the stored long doubles without rounding; [slack n B] is n^2 B / 2^59 (SpecNear.v). *)
From Coq Require Import Reals Lra Lia Permutation.
From Flocq Require Import Core BinarySingleNaN.
From Verif Require Import Base BaseFacts Arith Quality Utm UtmFacts UtmProofs Hierarchy SpecTree SpecParts HierarchyFacts HierarchyProofs TreePath CoverFacts
  Partitions Partitioners OFacts OProofs HFacts HProofs DFacts DSel DProofs Ieee SpecIeee IeeeFacts SpecNear NearFacts InfoFacts ONear HNear DNear.

Lemma slack_E : forall n B, slack n B = (4 * IZR n * eunit n (2 * B))%R.
Proof.
  intros n B. unfold slack, eunit. rewrite mult_IZR. change (bpow radix2 (-59)) with (bpow radix2 (3 + -62)). rewrite bpow_plus.
  change (bpow radix2 3) with 8%R. ring.
Qed.

(** From the two one-sided bounds to the slack. *)
Lemma slack_close : forall n B k1 k2 (v : f80) x y, 1 <= n <= 4294967296 -> sane_bound B -> 1 <= k1 <= n -> 1 <= k2 <= n ->
  near n (2 * B) k1 v x -> (y <= B2R v + IZR (2 * k2 - 1) * eunit n (2 * B))%R -> (y <= x + slack n B)%R.
Proof.
  intros n B k1 k2 v x y Hn HB H1 H2 (_ & Er & _) Hy. pose proof (E_pos n (2 * B) Hn (HM B HB)) as EP.
  rewrite slack_E. apply Rabs_le_inv in Er. replace (Z.max 0 (2 * k1 - 1)) with (2 * k1 - 1) in Er by lia.
  assert (I1 : (IZR (2 * k1 - 1) <= 2 * IZR n)%R) by (rewrite <- (mult_IZR 2); apply IZR_le; lia).
  assert (I2 : (IZR (2 * k2 - 1) <= 2 * IZR n)%R) by (rewrite <- (mult_IZR 2); apply IZR_le; lia).
  pose proof (Rmult_le_compat_r _ _ _ EP I1). pose proof (Rmult_le_compat_r _ _ _ EP I2). lra.
Qed.

(** ** C75: the weights are p and the float nearest to 1-p. *)
Theorem C75_weights : forall p, unit32 p ->
  wgain p = B2R p /\ (0 <= wloss p <= 1)%R /\ (Rabs (wloss p - (1 - B2R p)) <= bpow radix2 (-25))%R.
Proof.
  intros p Up. split; [reflexivity|]. destruct (wloss_ok p Up) as [Ew [_ Rw]]. split; [exact Rw|]. rewrite Ew. destruct Up as [_ Rp].
  unfold wgain. destruct (Rle_lt_or_eq_dec 0 (B2R p) ltac:(lra)) as [Lt|Eq].
  - eapply Rle_trans; [apply error_le_half_ulp; auto with typeclass_instances|].
    assert (U : (ulp32 (1 - B2R p) <= b2 (0 - 24))%R) by (apply ulp_below; [lia|]; rewrite bp0, Rabs_pos_eq; lra).
    change (b2 (-25)) with (b2 (0 - 24 - 1)). rewrite <- half_bpow. lra.
  - rewrite <- Eq, Rminus_0_r, (rnd_F 1%R F_1), Rminus_diag_eq, Rabs_R0 by auto. apply bpow_ge_0.
Qed.
Print Assumptions C75_weights.

(** ** C75: no partition beats the returned one by more than the slack. *)

(** Ordered: [l] is any other tiling of the slices, [ql] its table entries. *)
Theorem C75_ordered : forall lg (t : utm (quality (IA lg))) n (p : f32) B x l ql, 1 <= n <= 65535 -> utm_shape t n ->
  sane_bound B -> (forall a b q, 0 <= a <= b -> b < n -> u_get t a b = Ok q -> qual_le B q) -> unit32 p ->
  o_best (IA lg) t p = Ok x -> tiles 0 n l -> mmap (fun ab => u_get t (fst ab) (snd ab)) l = Ok ql ->
  (exact_value (wgain p) (wloss p) ql <= exact_value (wgain p) (wloss p) (map op_quality (on_parts x)) + slack n B)%R.
Proof.
  intros lg t n p B x l ql Hn S HB Hb Hp E0 Ht Hq.
  destruct (o_best_shape _ t n p ltac:(lia) S) as (q & R & x' & C & T & l0 & E & Ep & O & Ei & _ & Eq & HC).
  rewrite E in E0. inversion E0; subst x'.
  rewrite (mmap_urepr _ t n q) in Hq; [|auto|intros a b K; apply (tiles_In _ _ _ Ht) in K; lia].
  inversion Hq; subst ql. rewrite Ep, map_map. unfold exact_value. rewrite !Rsum_map. cbn [mkopart op_quality].
  assert (Hq' : forall a b, 0 <= a <= b -> b < n -> qual_le B (q a b)).
  { intros a b H1 H2. apply (Hb a b); auto. apply (urepr_get _ _ _ _ a b R); lia. }
  destruct (o_near lg n q p B Hn HB Hp Hq' C T HC (Z.to_nat n) 0 ltac:(lia) ltac:(lia)) as (l1 & O1 & N1 & Up).
  rewrite (ochain_fun n C 0 l0 O ltac:(lia) l1 O1) in N1. specialize (Up l Ht).
  pose proof (tiles_len _ _ _ Ht) as L1. pose proof (tiles_len _ _ _ (ochain_tiles _ _ _ _ O)) as L2.
  assert (0 < length l)%nat by (destruct l; [inversion Ht; lia|simpl; lia]).
  assert (0 < length l0)%nat by (destruct l0; [inversion O; lia|simpl; lia]).
  exact (slack_close n B (Z.of_nat (length l0)) (Z.of_nat (length l)) _ _ _ ltac:(lia) HB ltac:(lia) ltac:(lia) N1 Up).
Qed.
Print Assumptions C75_ordered.

(** Hierarchical: [l] is any other cover of the leaves by nodes. *)
Theorem C75_hier : forall m, well_built m -> 2 <= m_hsize m -> m_leaves m <= 4294967296 ->
  forall lg (t : list (quality (IA lg))) (p : f32) B x l ql, vlen t = m_hsize m ->
  sane_bound B -> Forall (qual_le B) t -> unit32 p ->
  h_best (IA lg) t m p = Ok x -> node_cover (m_leaves m) (m_parents m) l -> mmap (vget t) l = Ok ql ->
  (exact_value (wgain p) (wloss p) ql <= exact_value (wgain p) (wloss p) (map hp_quality (hn_parts x)) + slack (m_leaves m) B)%R.
Proof.
  intros m W H2 HL lg t p B x l ql Ht HB Hb Hp E0 C Hq. pose proof (list_vrepr _ t _ (q_zero (IA lg)) Ht) as R.
  set (q := fun i => match vget t i with Ok x => x | _ => q_zero (IA lg) end) in *.
  destruct (h_best_ok _ m W H2 t q p R) as (y & T & G & E & Ep & Ei & Eq & HG).
  rewrite E in E0. inversion E0; subst y. apply (node_cover_iff m W) in C.
  rewrite (mmap_vrepr _ t _ q l R) in Hq by (intros h Hh; apply C; auto).
  inversion Hq; subst ql. rewrite Ep, map_map. unfold exact_value. rewrite !Rsum_map. cbn [mkhpart hp_quality].
  assert (Hq' : forall h, 0 <= h < m_hsize m -> qual_le B (q h)).
  { intros h Hh. rewrite Forall_forall in Hb. apply Hb. eapply vget_In. apply (vrepr_get _ _ _ _ h R Hh). }
  pose proof (root_node m W) as Rr. pose proof (hsel_cov lg m W H2 q p T G HG _ Rr) as CS.
  destruct (h_near lg m W H2 q p B HL HB Hp Hq' T G HG _ Rr) as [N1 Up]. specialize (Up l C).
  pose proof (hcover_len m W _ l Rr C) as L1. pose proof (hcover_len m W _ _ Rr CS) as L2. pose proof (wb_L m W).
  exact (slack_close (m_leaves m) B _ (Z.of_nat (length l)) _ _ _ ltac:(lia) HB L2 L1 N1 Up).
Qed.
Print Assumptions C75_hier.

(** Spatiotemporal: [l] is any other cover by rectangles in which nodes never move up. *)
Theorem C75_spatio : forall m, well_built m ->
  forall lg (t : list (utm (quality (IA lg)))) n (p : f32) B x l ql, 1 <= n <= 65535 -> m_leaves m * n <= 4294967296 ->
  vlen t = m_hsize m -> Forall (fun u => utm_shape u n) t -> sane_bound B ->
  (forall h a b q, 0 <= h < m_hsize m -> 0 <= a <= b -> b < n -> mm_get t h a b = Ok q -> qual_le B q) -> unit32 p ->
  d_best (IA lg) t m p = Ok x -> rect_cover (m_leaves m) (m_parents m) n l -> never_up (m_leaves m) (m_parents m) l ->
  mmap (fun '(h, a, b) => mm_get t h a b) l = Ok ql ->
  (exact_value (wgain p) (wloss p) ql <= exact_value (wgain p) (wloss p) (map dp_quality (dn_parts x)) + slack (m_leaves m * n) B)%R.
Proof.
  intros m W lg t n p B x l ql Hn HL Ht F HB Hb Hp E0 C0 D Hq.
  destruct (d_best_shape m W _ t n p Hn Ht F) as (R & y & C & T & E & OK & Ep & Ei & Eq & HG).
  set (q := fun h i j => match mm_get t h i j with Ok x => x | _ => q_zero (IA lg) end) in *.
  rewrite E in E0. inversion E0; subst y. apply (rect_cover_iff m W n) in C0.
  rewrite (mmap_mrepr _ t _ n q l R) in Hq by (intros h a b Hh; apply (rc_in _ _ _ _ _ C0) in Hh; intuition lia).
  inversion Hq; subst ql. rewrite Ep, map_map.
  assert (ED : map (fun r => dp_quality (mkdpart (IA lg) m q r)) (dsel m n C (m_root m) 0) = map (q3 (IA lg) q) (dsel m n C (m_root m) 0)).
  { apply map_ext. intros [[h a] b]. reflexivity. }
  rewrite ED. unfold exact_value. rewrite !Rsum_map.
  assert (Hq' : forall h a b, 0 <= h < m_hsize m -> 0 <= a <= b -> b < n -> qual_le B (q h a b)).
  { intros h a b Hh H1 H2. apply (Hb h a b); auto. apply (mrepr_get _ _ _ _ _ h a b R); lia. }
  pose proof (root_node m W) as Rr.
  destruct (d_near lg m W n q p B ltac:(lia) HL HB Hp Hq' C T HG OK _ 0 Rr ltac:(lia)) as [N1 Up]. specialize (Up l C0 D).
  pose proof (rcover_len' m W n ltac:(lia) HL _ 0 l Rr ltac:(lia) C0) as L1.
  pose proof (rcover_len' m W n ltac:(lia) HL _ 0 _ Rr ltac:(lia) (dsel_cover m W n ltac:(lia) C OK _ 0 Rr ltac:(lia))) as L2.
  exact (slack_close (m_leaves m * n) B _ (Z.of_nat (length l)) _ _ _ ltac:(lia) HB L2 L1 N1 Up).
Qed.
Print Assumptions C75_spatio.

(** ** C75: the reported totals are the exact sums up to a quarter of the slack. *)
Lemma fold_near : forall N B (l : list f80), 1 <= N <= 4294967296 -> sane_bound B -> (forall v, In v l -> fin_le B v) ->
  Z.of_nat (length l) <= N -> near N B (Z.of_nat (length l)) (fold_left (Bplus mode_NE) l (B754_zero false)) (Rsum (fun v : f80 => B2R v) l).
Proof.
  intros N B l HN HB. assert (HM' : (0 <= B <= b2 16001)%R).
  { destruct HB as [B1 B2]. pose proof (bpow_gt_0 radix2 (-16000)). split; [lra|]. eapply Rle_trans; [exact B2|]. apply bpow_le. lia. }
  induction l as [|v l IH] using rev_ind; intros H HL; [apply near_zero; auto|].
  rewrite fold_left_app, Rsum_app, app_length in *. cbn [fold_left length] in *. rewrite Nat2Z.inj_add in *.
  apply (near_add N B HN HM'); try lia.
  - apply IH; [|lia]. intros; apply H; apply in_or_app; auto.
  - apply (near_ext _ _ _ _ (B2R v)); [unfold Rsum; simpl; ring|]. destruct (H v) as [F A]; [apply in_or_app; right; left; auto|].
    apply near_one; auto.
Qed.

Lemma total_close : forall N B (l : list f80), 1 <= N <= 4294967296 -> sane_bound B -> (forall v, In v l -> fin_le B v) ->
  Z.of_nat (length l) <= N ->
  is_finite (fold_left (Bplus mode_NE) l (B754_zero false)) = true /\
  (Rabs (B2R (fold_left (Bplus mode_NE) l (B754_zero false)) - Rsum (fun v : f80 => B2R v) l) <= slack N B / 4)%R.
Proof.
  intros N B l HN HB H HL. destruct (fold_near N B l HN HB H HL) as (F & Er & _). split; auto.
  eapply Rle_trans; [exact Er|]. unfold eunit, slack. change (bpow radix2 (-59)) with (bpow radix2 (3 + -62)). rewrite bpow_plus.
  change (bpow radix2 3) with 8%R. rewrite mult_IZR.
  assert (I1 : (IZR (Z.max 0 (2 * Z.of_nat (length l) - 1)) <= 2 * IZR N)%R) by (rewrite <- (mult_IZR 2); apply IZR_le; lia).
  assert (P : (0 <= IZR N * B * b2 (-62))%R).
  { destruct HB as [B1 _]. pose proof (bpow_gt_0 radix2 (-16000)). pose proof (bpow_ge_0 radix2 (-62)).
    assert (0 <= IZR N)%R by (apply IZR_le; lia). apply Rmult_le_pos; auto. apply Rmult_le_pos; lra. }
  eapply Rle_trans; [apply (Rmult_le_compat_r _ _ _ P I1)|]. right. field.
Qed.

Lemma parts_total : forall lg N B X (f : X -> quality (IA lg)) (l : list X) (tot : quality (IA lg)), 1 <= N <= 4294967296 -> sane_bound B ->
  (forall y, In y l -> qual_le B (f y)) -> Z.of_nat (length l) <= N ->
  gain tot = fold_left (n_add (IA lg)) (map (fun y => gain (f y)) l) (n_zero (IA lg)) ->
  loss tot = fold_left (n_add (IA lg)) (map (fun y => loss (f y)) l) (n_zero (IA lg)) ->
  is_finite (gain tot : f80) = true /\ is_finite (loss tot : f80) = true /\
  (Rabs (B2R (gain tot : f80) - exact_gain (map f l)) <= slack N B / 4)%R /\
  (Rabs (B2R (loss tot : f80) - exact_loss (map f l)) <= slack N B / 4)%R.
Proof.
  intros lg N B X f l tot HN HB H HL Eg El. rewrite Eg, El. unfold exact_gain, exact_loss. rewrite !Rsum_map.
  destruct (total_close N B (map (fun y => gain (f y) : f80) l) HN HB) as [F1 R1].
  { intros v Hv. apply in_map_iff in Hv. destruct Hv as [y [<- Hy]]. apply (H y Hy). }
  { rewrite map_length; auto. }
  destruct (total_close N B (map (fun y => loss (f y) : f80) l) HN HB) as [F2 R2].
  { intros v Hv. apply in_map_iff in Hv. destruct Hv as [y [<- Hy]]. apply (H y Hy). }
  { rewrite map_length; auto. }
  rewrite Rsum_map in R1, R2. auto.
Qed.

Theorem C75_ordered_total : forall lg (t : utm (quality (IA lg))) n (p : f32) B x, 1 <= n <= 65535 -> utm_shape t n ->
  sane_bound B -> (forall a b q, 0 <= a <= b -> b < n -> u_get t a b = Ok q -> qual_le B q) ->
  o_best (IA lg) t p = Ok x ->
  is_finite (gain (on_quality x) : f80) = true /\ is_finite (loss (on_quality x) : f80) = true /\
  (Rabs (B2R (gain (on_quality x) : f80) - exact_gain (map op_quality (on_parts x))) <= slack n B / 4)%R /\
  (Rabs (B2R (loss (on_quality x) : f80) - exact_loss (map op_quality (on_parts x))) <= slack n B / 4)%R.
Proof.
  intros lg t n p B x Hn S HB Hb E.
  destruct (o_tiles_prf _ t n p ltac:(lia) S) as (x' & E' & _ & Tl). rewrite E in E'. inversion E'; subst x'.
  destruct (o_quality_prf _ t n p x ltac:(lia) S E) as (K1 & K2 & K3).
  apply (parts_total lg n B _ _ _ _ ltac:(lia) HB); [| |exact K2|exact K3].
  - intros y Hy. pose proof (tiles_In _ _ _ Tl _ _ (in_map (fun q => (op_start q, op_end q)) _ _ Hy)) as K.
    apply (Hb (op_start y) (op_end y)); [lia|lia|apply (K1 y Hy)].
  - pose proof (tiles_len _ _ _ Tl) as K. rewrite map_length in K. lia.
Qed.
Print Assumptions C75_ordered_total.

Theorem C75_hier_total : forall m, well_built m -> 2 <= m_hsize m -> m_leaves m <= 4294967296 ->
  forall lg (t : list (quality (IA lg))) (p : f32) B x, vlen t = m_hsize m -> sane_bound B -> Forall (qual_le B) t ->
  h_best (IA lg) t m p = Ok x ->
  is_finite (gain (hn_quality x) : f80) = true /\ is_finite (loss (hn_quality x) : f80) = true /\
  (Rabs (B2R (gain (hn_quality x) : f80) - exact_gain (map hp_quality (hn_parts x))) <= slack (m_leaves m) B / 4)%R /\
  (Rabs (B2R (loss (hn_quality x) : f80) - exact_loss (map hp_quality (hn_parts x))) <= slack (m_leaves m) B / 4)%R.
Proof.
  intros m W H2 HL lg t p B x Ht HB Hb E.
  destruct (h_cover_prf m W H2 _ t p Ht) as (x' & E' & _ & C & _). rewrite E in E'. inversion E'; subst x'.
  destruct (h_quality_prf m W H2 _ t p x Ht E) as (K1 & K2 & K3). pose proof (wb_L m W).
  apply (parts_total lg (m_leaves m) B _ _ _ _ ltac:(lia) HB); [| |exact K2|exact K3].
  - intros y Hy. rewrite Forall_forall in Hb. apply Hb. eapply vget_In. apply (K1 y Hy).
  - apply (node_cover_iff m W) in C. pose proof (hcover_len m W _ _ (root_node m W) C) as K. rewrite map_length in K. lia.
Qed.
Print Assumptions C75_hier_total.

Theorem C75_spatio_total : forall m, well_built m ->
  forall lg (t : list (utm (quality (IA lg)))) n (p : f32) B x, 1 <= n <= 65535 -> m_leaves m * n <= 4294967296 ->
  vlen t = m_hsize m -> Forall (fun u => utm_shape u n) t -> sane_bound B ->
  (forall h a b q, 0 <= h < m_hsize m -> 0 <= a <= b -> b < n -> mm_get t h a b = Ok q -> qual_le B q) ->
  d_best (IA lg) t m p = Ok x ->
  is_finite (gain (dn_quality x) : f80) = true /\ is_finite (loss (dn_quality x) : f80) = true /\
  (Rabs (B2R (gain (dn_quality x) : f80) - exact_gain (map dp_quality (dn_parts x))) <= slack (m_leaves m * n) B / 4)%R /\
  (Rabs (B2R (loss (dn_quality x) : f80) - exact_loss (map dp_quality (dn_parts x))) <= slack (m_leaves m * n) B / 4)%R.
Proof.
  intros m W lg t n p B x Hn HL Ht F HB Hb E.
  destruct (d_cover_prf m W _ t n p Hn Ht F) as (x' & E' & _ & C & _). rewrite E in E'. inversion E'; subst x'.
  destruct (d_quality_prf m W _ t n p x Hn Ht F E) as (K1 & K2 & K3). pose proof (wb_L m W).
  apply (rect_cover_iff m W n) in C.
  apply (parts_total lg (m_leaves m * n) B _ _ _ _ ltac:(nia) HB); [| |exact K2|exact K3].
  - intros y Hy. apply (in_map (fun y => (dp_h y, dp_start y, dp_end y))) in Hy as Hy'. apply (rc_in _ _ _ _ _ C) in Hy'.
    apply (Hb (dp_h y) (dp_start y) (dp_end y)); auto; lia.
  - pose proof (rcover_len' m W n ltac:(lia) HL _ 0 _ (root_node m W) ltac:(lia) C) as K. rewrite map_length in K. lia.
Qed.
Print Assumptions C75_spatio_total.

(** ** C76: with parameters at least 2^-23 apart, gain and loss grow with the parameter, up to the rounding slack. *)
Lemma exact_split : forall lg a b (l : list (quality (IA lg))), exact_value a b l = (a * exact_gain l - b * exact_loss l)%R.
Proof.
  intros lg a b l. unfold exact_value, exact_gain, exact_loss, Rsum. induction l as [|x l IH]; cbn [map fold_right]; [ring|]. rewrite IH. ring.
Qed.

Lemma exchange_near : forall (p1 p2 : f32) g1 l1 g2 l2 s, unit32 p1 -> unit32 p2 -> (B2R p1 + bpow radix2 (-23) <= B2R p2)%R -> (0 <= s)%R ->
  (wgain p1 * g2 - wloss p1 * l2 <= wgain p1 * g1 - wloss p1 * l1 + s)%R ->
  (wgain p2 * g1 - wloss p2 * l1 <= wgain p2 * g2 - wloss p2 * l2 + s)%R ->
  ((g1 - g2) * (B2R p2 - B2R p1) <= 4 * s /\ (l1 - l2) * (B2R p2 - B2R p1) <= 4 * s)%R.
Proof.
  intros p1 p2 g1 l1 g2 l2 s U1 U2 Hp Hs V1 V2.
  destruct (C75_weights p1 U1) as (_ & R1 & E1). destruct (C75_weights p2 U2) as (_ & R2 & E2). destruct U1 as [_ P1], U2 as [_ P2].
  unfold wgain in *. set (a1 := B2R p1) in *. set (a2 := B2R p2) in *. set (b1 := wloss p1) in *. set (b2 := wloss p2) in *.
  set (u := bpow radix2 (-25)) in *. assert (Hu : bpow radix2 (-23) = (4 * u)%R).
  { unfold u. change (-23)%Z with (2 + -25)%Z. rewrite bpow_plus. reflexivity. }
  rewrite Hu in Hp. apply Rabs_le_inv in E1, E2. assert (Up : (0 <= u)%R) by apply bpow_ge_0.
  set (e1 := (b1 - (1 - a1))%R) in *. set (e2 := (b2 - (1 - a2))%R) in *.
  assert (D : ((a2 - a1) / 2 <= a2 * b1 - a1 * b2)%R).
  { replace (a2 * b1 - a1 * b2)%R with ((a2 - a1) + (a2 * e1 - a1 * e2))%R by (unfold e1, e2; ring).
    assert (- u <= a2 * e1)%R by nra. assert (a1 * e2 <= u)%R by nra. lra. }
  assert (G : ((g1 - g2) * (a2 * b1 - a1 * b2) <= (b1 + b2) * s)%R).
  { apply (Rmult_le_compat_l b2) in V1; [|lra]. apply (Rmult_le_compat_l b1) in V2; [|lra]. lra. }
  assert (K : ((l1 - l2) * (a2 * b1 - a1 * b2) <= (a1 + a2) * s)%R).
  { apply (Rmult_le_compat_l a2) in V1; [|lra]. apply (Rmult_le_compat_l a1) in V2; [|lra]. lra. }
  assert (G2 : ((b1 + b2) * s <= 2 * s)%R) by (apply Rmult_le_compat_r; lra).
  assert (K2 : ((a1 + a2) * s <= 2 * s)%R) by (apply Rmult_le_compat_r; lra).
  assert (Fin : forall z, (z * (a2 * b1 - a1 * b2) <= 2 * s)%R -> (z * (a2 - a1) <= 4 * s)%R).
  { intros z Hz. destruct (Rle_dec z 0) as [Ng|Ps].
    - assert (z * (a2 - a1) <= 0)%R; [|lra]. nra.
    - apply Rnot_le_lt in Ps. pose proof (Rmult_le_compat_l z _ _ (Rlt_le _ _ Ps) D). lra. }
  split; apply Fin; lra.
Qed.

Lemma slack_pos : forall n B, sane_bound B -> (0 <= slack n B)%R.
Proof.
  intros n B [H _]. unfold slack. pose proof (bpow_gt_0 radix2 (-16000)).
  apply Rmult_le_pos; [apply Rmult_le_pos; [apply IZR_le; nia|lra]|apply bpow_ge_0].
Qed.

Theorem C76_ordered : forall lg (t : utm (quality (IA lg))) n (p1 p2 : f32) B x1 x2, 1 <= n <= 65535 -> utm_shape t n ->
  sane_bound B -> (forall a b q, 0 <= a <= b -> b < n -> u_get t a b = Ok q -> qual_le B q) ->
  unit32 p1 -> unit32 p2 -> (B2R p1 + bpow radix2 (-23) <= B2R p2)%R ->
  o_best (IA lg) t p1 = Ok x1 -> o_best (IA lg) t p2 = Ok x2 ->
  ((exact_gain (map op_quality (on_parts x1)) - exact_gain (map op_quality (on_parts x2))) * (B2R p2 - B2R p1) <= 4 * slack n B /\
   (exact_loss (map op_quality (on_parts x1)) - exact_loss (map op_quality (on_parts x2))) * (B2R p2 - B2R p1) <= 4 * slack n B)%R.
Proof.
  intros lg t n p1 p2 B x1 x2 Hn S HB Hb U1 U2 Hp E1 E2.
  assert (Tab : forall p x, o_best (IA lg) t p = Ok x -> exists l, tiles 0 n l /\
    mmap (fun ab => u_get t (fst ab) (snd ab)) l = Ok (map op_quality (on_parts x))).
  { intros p x E. destruct (o_best_shape _ t n p ltac:(lia) S) as (q & R & x' & C & T & l0 & E' & Ep & O & _).
    rewrite E in E'. inversion E'; subst x'. exists l0. pose proof (ochain_tiles _ _ _ _ O) as Tl. split; auto.
    rewrite (mmap_urepr _ t n q) by (auto; intros a b K; apply (tiles_In _ _ _ Tl) in K; lia). rewrite Ep, map_map. reflexivity. }
  destruct (Tab p1 x1 E1) as (l1 & T1 & M1). destruct (Tab p2 x2 E2) as (l2 & T2 & M2).
  pose proof (C75_ordered lg t n p1 B x1 l2 _ Hn S HB Hb U1 E1 T2 M2) as V1.
  pose proof (C75_ordered lg t n p2 B x2 l1 _ Hn S HB Hb U2 E2 T1 M1) as V2.
  rewrite !exact_split in V1, V2. exact (exchange_near p1 p2 _ _ _ _ _ U1 U2 Hp (slack_pos n B HB) V1 V2).
Qed.
Print Assumptions C76_ordered.

Theorem C76_hier : forall m, well_built m -> 2 <= m_hsize m -> m_leaves m <= 4294967296 ->
  forall lg (t : list (quality (IA lg))) (p1 p2 : f32) B x1 x2, vlen t = m_hsize m -> sane_bound B -> Forall (qual_le B) t ->
  unit32 p1 -> unit32 p2 -> (B2R p1 + bpow radix2 (-23) <= B2R p2)%R ->
  h_best (IA lg) t m p1 = Ok x1 -> h_best (IA lg) t m p2 = Ok x2 ->
  ((exact_gain (map hp_quality (hn_parts x1)) - exact_gain (map hp_quality (hn_parts x2))) * (B2R p2 - B2R p1) <= 4 * slack (m_leaves m) B /\
   (exact_loss (map hp_quality (hn_parts x1)) - exact_loss (map hp_quality (hn_parts x2))) * (B2R p2 - B2R p1) <= 4 * slack (m_leaves m) B)%R.
Proof.
  intros m W H2 HL lg t p1 p2 B x1 x2 Ht HB Hb U1 U2 Hp E1 E2.
  assert (Tab : forall p x, h_best (IA lg) t m p = Ok x -> exists l, node_cover (m_leaves m) (m_parents m) l /\
    mmap (vget t) l = Ok (map hp_quality (hn_parts x))).
  { intros p x E. destruct (h_cover_prf m W H2 _ t p Ht) as (x' & E' & _ & C & _). rewrite E in E'. inversion E'; subst x'.
    exists (map hp_h (hn_parts x)). split; auto. destruct (h_quality_prf m W H2 _ t p x Ht E) as (K1 & _). clear - K1.
    induction (hn_parts x) as [|y r IH]; auto. cbn [map mmap]. rewrite (K1 y) by (left; auto). cbn [bind].
    rewrite IH by (intros; apply K1; right; auto). reflexivity. }
  destruct (Tab p1 x1 E1) as (l1 & T1 & M1). destruct (Tab p2 x2 E2) as (l2 & T2 & M2).
  pose proof (C75_hier m W H2 HL lg t p1 B x1 l2 _ Ht HB Hb U1 E1 T2 M2) as V1.
  pose proof (C75_hier m W H2 HL lg t p2 B x2 l1 _ Ht HB Hb U2 E2 T1 M1) as V2.
  rewrite !exact_split in V1, V2. exact (exchange_near p1 p2 _ _ _ _ _ U1 U2 Hp (slack_pos _ B HB) V1 V2).
Qed.
Print Assumptions C76_hier.

Theorem C76_spatio : forall m, well_built m ->
  forall lg (t : list (utm (quality (IA lg)))) n (p1 p2 : f32) B x1 x2, 1 <= n <= 65535 -> m_leaves m * n <= 4294967296 ->
  vlen t = m_hsize m -> Forall (fun u => utm_shape u n) t -> sane_bound B ->
  (forall h a b q, 0 <= h < m_hsize m -> 0 <= a <= b -> b < n -> mm_get t h a b = Ok q -> qual_le B q) ->
  unit32 p1 -> unit32 p2 -> (B2R p1 + bpow radix2 (-23) <= B2R p2)%R ->
  d_best (IA lg) t m p1 = Ok x1 -> d_best (IA lg) t m p2 = Ok x2 ->
  ((exact_gain (map dp_quality (dn_parts x1)) - exact_gain (map dp_quality (dn_parts x2))) * (B2R p2 - B2R p1) <= 4 * slack (m_leaves m * n) B /\
   (exact_loss (map dp_quality (dn_parts x1)) - exact_loss (map dp_quality (dn_parts x2))) * (B2R p2 - B2R p1) <= 4 * slack (m_leaves m * n) B)%R.
Proof.
  intros m W lg t n p1 p2 B x1 x2 Hn HL Ht F HB Hb U1 U2 Hp E1 E2.
  assert (Tab : forall p x, d_best (IA lg) t m p = Ok x -> exists l, rect_cover (m_leaves m) (m_parents m) n l /\
    never_up (m_leaves m) (m_parents m) l /\ mmap (fun '(h, a, b) => mm_get t h a b) l = Ok (map dp_quality (dn_parts x))).
  { intros p x E. destruct (d_cover_prf m W _ t n p Hn Ht F) as (x' & E' & _ & C & NU & _). rewrite E in E'. inversion E'; subst x'.
    exists (map (fun y => (dp_h y, dp_start y, dp_end y)) (dn_parts x)). split; auto. split; auto.
    destruct (d_quality_prf m W _ t n p x Hn Ht F E) as (K1 & _). clear - K1.
    induction (dn_parts x) as [|y r IH]; auto. cbn [map mmap]. rewrite (K1 y) by (left; auto). cbn [bind].
    rewrite IH by (intros; apply K1; right; auto). reflexivity. }
  destruct (Tab p1 x1 E1) as (l1 & T1 & N1 & M1). destruct (Tab p2 x2 E2) as (l2 & T2 & N2 & M2).
  pose proof (C75_spatio m W lg t n p1 B x1 l2 _ Hn HL Ht F HB Hb U1 E1 T2 N2 M2) as V1.
  pose proof (C75_spatio m W lg t n p2 B x2 l1 _ Hn HL Ht F HB Hb U2 E2 T1 N1 M1) as V2.
  rewrite !exact_split in V1, V2. exact (exchange_near p1 p2 _ _ _ _ _ U1 U2 Hp (slack_pos _ B HB) V1 V2).
Qed.
Print Assumptions C76_spatio.
