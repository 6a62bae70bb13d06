(** * Property C50: degenerate data.

    [IA lg] is the code's arithmetic (Ieee.v). A zero reference quality makes normalize() divide 0 by 0. *)
From Coq Require Import Reals Lra Lia Permutation.
From Flocq Require Import Core BinarySingleNaN.
From Verif Require Import Base BaseFacts Arith Quality Utm UtmFacts UtmProofs Hierarchy SpecTree TreeFacts HierarchyFacts HierarchyProofs TreeDec TreePath CoverFacts SpecParts
  Values Qualities Partitions Partitioners DProofs ODataProofs HDataProofs DDataProofs OQual QualInv ValuesFacts DegFacts Ieee SpecIeee IeeeFacts IeeeConv.

Lemma ieee_nan : forall lg, nan_class (IA lg) (fun x => x = B754_nan).
Proof.
  intro lg. constructor; cbn [n_ltb n_eqb n_mul n_sub IA num]; intros x y ->.
  - destruct y; reflexivity.
  - destruct x; reflexivity.
  - destruct y; reflexivity.
  - destruct x; reflexivity.
  - destruct x; reflexivity.
  - destruct y; reflexivity.
  - destruct x; reflexivity.
Qed.

(** ** What the partitioners do with NaN qualities, for every p *)
(** Ordered: if the whole interval's gain or loss is NaN, the result is the single full aggregate. *)
Theorem C50_ordered_nan : forall lg (t : utm (quality (IA lg))) n q, 1 <= n <= 65535 -> utm_shape t n -> u_get t 0 (n - 1) = Ok q ->
  (gain q = B754_nan \/ loss q = B754_nan) ->
  forall p, exists x, o_best (IA lg) t p = Ok x /\ map (fun y => (op_start y, op_end y)) (on_parts x) = [(0, n - 1)].
Proof. intros lg t n q Hn S E H p. exact (o_nan_prf (IA lg) _ (ieee_nan lg) t n q p Hn S E H). Qed.
Print Assumptions C50_ordered_nan.

(** Hierarchical: a NaN root is never selected; if all internal nodes are NaN the result is the set of all leaves. *)
Theorem C50_hier_nan_root : forall lg m, well_built m -> 2 <= m_hsize m -> forall (t : list (quality (IA lg))) q, vlen t = m_hsize m ->
  vget t (m_root m) = Ok q -> (gain q = B754_nan \/ loss q = B754_nan) ->
  forall p, exists x, h_best (IA lg) t m p = Ok x /\ ~ In (m_root m) (map hp_h (hn_parts x)).
Proof. intros lg m W H2 t q Ht E H p. exact (h_nan_root_prf (IA lg) _ (ieee_nan lg) m W H2 t Ht p q E H). Qed.
Print Assumptions C50_hier_nan_root.

Theorem C50_hier_nan : forall lg m, well_built m -> 2 <= m_hsize m -> forall (t : list (quality (IA lg))), vlen t = m_hsize m ->
  (forall h q, m_leaves m <= h < m_hsize m -> vget t h = Ok q -> gain q = B754_nan \/ loss q = B754_nan) ->
  forall p, exists x, h_best (IA lg) t m p = Ok x /\ Permutation (map hp_h (hn_parts x)) (zrange 0 (m_leaves m)).
Proof. intros lg m W H2 t Ht H p. exact (h_nan_prf (IA lg) _ (ieee_nan lg) m W H2 t Ht p H). Qed.
Print Assumptions C50_hier_nan.

(** Spatiotemporal: if (root, all slices) is NaN, the result is that single aggregate. *)
Theorem C50_spatio_nan : forall lg m, well_built m -> forall (t : list (utm (quality (IA lg)))) n q, 1 <= n <= 65535 -> vlen t = m_hsize m ->
  Forall (fun u => utm_shape u n) t -> mm_get t (m_root m) 0 (n - 1) = Ok q -> (gain q = B754_nan \/ loss q = B754_nan) ->
  forall p, exists x, d_best (IA lg) t m p = Ok x /\ map (fun y => (dp_h y, dp_start y, dp_end y)) (dn_parts x) = [(m_root m, 0, n - 1)].
Proof. intros lg m W t n q Hn Ht F E H p. exact (d_nan_prf (IA lg) _ (ieee_nan lg) m W t n q p Hn Ht F E H). Qed.
Print Assumptions C50_spatio_nan.

(** ** Normalising by a zero reference *)
Definition zn (x : f80) : Prop := is_zero x = true \/ x = B754_nan.
Lemma zn_div : forall lg x y, zn x -> zn y -> n_div (IA lg) x y = B754_nan.
Proof. intros lg x y Hx Hy. cbn [n_div IA num]. destruct x, y, Hx as [Hx|Hx], Hy as [Hy|Hy]; try discriminate; reflexivity. Qed.
Lemma nan_div : forall lg x, n_div (IA lg) x B754_nan = B754_nan.
Proof. intros lg x. destruct x; reflexivity. Qed.

(** After normalize() on a table whose whole interval has gain 0 (or loss 0, or a NaN): the single full aggregate for every p. *)
Theorem C50_ordered_normalized : forall lg (v : ovalues (IA lg)) (t : utm (quality (IA lg))) n q, 1 <= n <= 65535 -> utm_shape t n -> ov_osize v = n ->
  u_get t 0 (n - 1) = Ok q -> (is_zero (gain q : f80) = true \/ gain q = B754_nan \/ is_zero (loss q : f80) = true \/ loss q = B754_nan) ->
  exists t', oq_normalize (IA lg) (mkOQ (IA lg) (Some v) (Some t)) = Ok (mkOQ (IA lg) (Some v) (Some t')) /\
  forall p, exists x, o_best (IA lg) t' p = Ok x /\ map (fun y => (op_start y, op_end y)) (on_parts x) = [(0, n - 1)].
Proof.
  intros lg v t n q Hn S Ho E H. destruct (o_normalize_prf (IA lg) v t n q Hn S Ho E) as (t' & E' & S' & H'). exists t'. split; [exact E'|].
  apply (C50_ordered_nan lg t' n _ Hn S' (H' 0 (n - 1) q ltac:(lia) ltac:(lia) E)). cbn [gain loss].
  destruct H as [H|[H|[H|H]]]; [left|left|right|right]; apply zn_div; unfold zn; auto.
Qed.
Print Assumptions C50_ordered_normalized.

Theorem C50_hier_normalized : forall lg v m, well_built m -> 2 <= m_hsize m -> forall (t : list (quality (IA lg))), vlen t = m_hsize m ->
  (forall h q, m_leaves m <= h < m_hsize m -> vget t h = Ok q -> is_zero (gain q : f80) = true \/ gain q = B754_nan) ->
  exists t', hq_normalize (IA lg) (mkHQ (IA lg) v (Some t) m) = Ok (mkHQ (IA lg) v (Some t') m) /\
  forall p, exists x, h_best (IA lg) t' m p = Ok x /\ Permutation (map hp_h (hn_parts x)) (zrange 0 (m_leaves m)).
Proof.
  intros lg v m W H2 t Ht H. pose proof (wb_root_inner m W H2) as HI. pose proof (root_node m W) as Hr. pose proof (wb_L m W) as HL.
  assert (G : forall h, 0 <= h < m_hsize m -> exists q, vget t h = Ok q) by (intros h Hh; apply vget_ok; lia).
  destruct (G (m_root m) Hr) as (mx & Em).
  destruct (h_normalize_prf (IA lg) v t m mx W Ht Em) as (t' & E' & L' & HA & HB). exists t'. split; [exact E'|].
  apply (C50_hier_nan lg m W H2 t' L'). intros h q' Hh Eq'. left. destruct (G h ltac:(lia)) as (q & Eq).
  pose proof (H (m_root m) mx ltac:(lia) Em) as Z1. pose proof (H h q Hh Eq) as Z2.
  destruct (Z_le_gt_dec h (m_root m)) as [C|C].
  - rewrite (HA h q ltac:(lia) Eq) in Eq'. injection Eq' as <-. apply zn_div; auto.
  - rewrite (HB h q ltac:(lia) Eq) in Eq'. injection Eq' as <-. cbn [gain]. pose proof (zn_div lg (gain mx) (gain mx) Z1 Z1) as N. cbn [n_div IA] in N. rewrite N. apply (nan_div lg).
Qed.
Print Assumptions C50_hier_normalized.

Theorem C50_spatio_normalized : forall lg (v : dvalues (IA lg)) (t : list (utm (quality (IA lg)))) m q, well_built m -> 1 <= dv_osize v <= 65535 ->
  vlen t = m_hsize m -> Forall (fun u => utm_shape u (dv_osize v)) t -> mm_get t (m_root m) 0 (dv_osize v - 1) = Ok q ->
  (is_zero (gain q : f80) = true \/ gain q = B754_nan \/ is_zero (loss q : f80) = true \/ loss q = B754_nan) ->
  exists t', dq_normalize (IA lg) (mkDQ (IA lg) (Some v) (Some t) m) = Ok (mkDQ (IA lg) (Some v) (Some t') m) /\
  forall p, exists x, d_best (IA lg) t' m p = Ok x /\ map (fun y => (dp_h y, dp_start y, dp_end y)) (dn_parts x) = [(m_root m, 0, dv_osize v - 1)].
Proof.
  intros lg v t m q W Hn Ht F E H. destruct (d_normalize_prf (IA lg) v t m q W Hn Ht F E) as (t' & E' & L' & F' & HA & _). exists t'. split; [exact E'|].
  apply (C50_spatio_nan lg m W t' _ _ Hn L' F' (HA (m_root m) 0 (dv_osize v - 1) q ltac:(pose proof (root_node m W); lia) ltac:(lia) ltac:(lia) E)). cbn [gain loss].
  destruct H as [H|[H|[H|H]]]; [left|left|right|right]; apply zn_div; unfold zn; auto.
Qed.
Print Assumptions C50_spatio_normalized.

(** ** All-zero data, end to end *)
Definition z80 (x : f80) : Prop := is_zero x = true.
Lemma z_add : forall x y, z80 x -> z80 y -> z80 (Bplus mode_NE x y).
Proof. intros x y Hx Hy. destruct x, y; try discriminate. destruct s, s0; reflexivity. Qed.
Lemma z_sub : forall x y, z80 x -> z80 y -> z80 (Bminus mode_NE x y).
Proof. intros x y Hx Hy. destruct x, y; try discriminate. destruct s, s0; reflexivity. Qed.
Lemma z_mul_l : forall x y, z80 x -> is_finite y = true -> z80 (Bmult mode_NE x y).
Proof. intros x y Hx Hy. destruct x, y; try discriminate; reflexivity. Qed.
Lemma z_mul_r : forall x y, z80 y -> is_finite x = true -> z80 (Bmult mode_NE x y).
Proof. intros x y Hx Hy. destruct x, y; try discriminate; reflexivity. Qed.
Lemma z_div : forall x y, z80 x -> is_finite y = true -> is_zero y = false -> z80 (Bdiv mode_NE x y).
Proof. intros x y Hx Hy Hz. destruct x, y; try discriminate; reflexivity. Qed.
Lemma z_lt : forall x y : f80, z80 x -> z80 y -> Bltb x y = false.
Proof. intros x y Hx Hy. destruct x, y; try discriminate. reflexivity. Qed.
Lemma z_eq : forall x y : f80, z80 x -> z80 y -> Beqb x y = true.
Proof. intros x y Hx Hy. destruct x, y; try discriminate. reflexivity. Qed.

Lemma z_er : forall lg x f, z80 x -> z80 (entropyReduction (IA lg) x f).
Proof. intros lg x f Hx. unfold entropyReduction. cbn [n_ltb n_zero IA]. rewrite z_lt; auto; reflexivity. Qed.

Definition zq lg (q : quality (IA lg)) : Prop := z80 (gain q) /\ z80 (loss q).
Lemma zero_closed : forall lg, log_ok lg -> closed (IA lg) 2147483647 z80 z80 z80 (zq lg).
Proof.
  intros lg [L1 L2]. constructor; try reflexivity.
  - split; reflexivity.
  - auto.
  - exact z_add.
  - intros; apply z_er; auto.
  - exact z_add.
  - intros c s f k Hk [Q1 Q2] Hs Hf. split; cbn [q_bump q_addGain q_addLoss gain loss].
    + apply z_add; auto. apply z_er; auto.
    + apply z_add; auto. unfold divergence, c_ln2. cbn [n_sub n_div n_mul n_log n_ofZ IA]. apply z_sub; [|apply z_er; auto].
      apply z_div; auto; [|apply L1; lia]. apply z_mul_l; auto.
Qed.

(** Tradeoffs of zero qualities: zero quality, value 0 or (for infinite or NaN p) NaN. *)
Definition zt lg (a : tradeoff (IA lg)) : Prop := zq lg (t_quality a) /\ zn (t_value a).
Definition zt0 lg (a : tradeoff (IA lg)) : Prop := zq lg (t_quality a) /\ z80 (t_value a).
Lemma zq_add : forall lg a b, zq lg a -> zq lg b -> zq lg (q_add (IA lg) a b).
Proof. intros lg a b [A1 A2] [B1 B2]. split; cbn [q_add gain loss]; apply z_add; auto. Qed.
Lemma zt_flat : forall lg, flat_class (IA lg) (zt lg).
Proof.
  intro lg. constructor.
  - split; [split; reflexivity|left; reflexivity].
  - intros a b [A1 A2] [B1 B2]. split; cbn [t_add t_quality t_value]; [apply zq_add; auto|]. cbn [n_add IA].
    destruct A2 as [A2|A2], B2 as [B2|B2]; [left; apply z_add; auto|right|right|right]; rewrite ?A2, ?B2; destruct (t_value a), (t_value b); try discriminate; reflexivity.
  - intros a b [[A1 A2] A3] [[B1 B2] B3]. unfold t_gtb. cbn [n_ltb n_eqb IA].
    rewrite (z_lt (gain (t_quality b))), (z_lt (loss (t_quality a))) by auto. cbn [orb]. rewrite andb_false_r, andb_false_r, orb_false_r.
    destruct A3 as [A3|A3], B3 as [B3|B3]; [apply z_lt; auto| | |]; rewrite ?A3, ?B3; destruct (t_value a), (t_value b); try discriminate; reflexivity.
Qed.
Lemma zt0_flat : forall lg, flat_class (IA lg) (zt0 lg).
Proof.
  intro lg. constructor.
  - split; [split; reflexivity|reflexivity].
  - intros a b [A1 A2] [B1 B2]. split; cbn [t_add t_quality t_value]; [apply zq_add; auto|]. cbn [n_add IA]. apply z_add; auto.
  - intros a b [A1 A3] [B1 B3]. apply (fc_gtb _ _ (zt_flat lg)); split; auto; left; auto.
Qed.
Lemma zt0_ltb : forall lg a b, zt0 lg a -> zt0 lg b -> t_ltb (IA lg) a b = false.
Proof. intros lg a b [_ A] [_ B]. unfold t_ltb, t_eqb. cbn [n_eqb IA]. rewrite (z_eq _ _ A B), orb_true_r. reflexivity. Qed.

Lemma set_zt0 : forall lg q p, zq lg q -> unit32 p -> zt0 lg (t_set (IA lg) q p).
Proof.
  intros lg q p [Q1 Q2] U. split; cbn [t_set t_quality t_value gain loss]; [split; auto|]. unfold pic. cbn [n_sub n_mul p_num p_compl IA].
  destruct one32_R as [E1 F1]. assert (U1 : unit32 (int32 1)) by (split; [exact F1|rewrite E1; lra]).
  apply z_sub; apply z_mul_r; auto; apply to80_exact; [apply U|apply (minus32 p (int32 1) U U1)].
Qed.
Lemma set_zt : forall lg q p, zq lg q -> zt lg (t_set (IA lg) q p).
Proof.
  intros lg q p [Q1 Q2]. split; cbn [t_set t_quality t_value gain loss]; [split; auto|]. unfold pic. cbn [n_sub n_mul p_num p_compl IA].
  assert (M : forall x y, z80 y -> zn (Bmult mode_NE x y)) by (intros x y Hy; destruct y; try discriminate; destruct x; (left; reflexivity) || (right; reflexivity)).
  pose proof (M (to80 p) _ Q1) as M1. pose proof (M (to80 (Bminus mode_NE (int32 1) p)) _ Q2) as M2. revert M1 M2.
  generalize (Bmult mode_NE (to80 p) (gain q)) (Bmult mode_NE (to80 (Bminus mode_NE (int32 1) p)) (loss q)). intros a b [Ha| ->] [Hb| ->].
  - left. apply z_sub; auto.
  - right. destruct a; reflexivity.
  - right. destruct b; reflexivity.
  - right. reflexivity.
Qed.

(** Ordered: the whole interval for every p, before and after normalisation. *)
Theorem C50_ordered_zero : forall lg (v : ovalues (IA lg)), log_ok lg -> 0 <= ov_vsize v -> 1 <= ov_osize v <= 65535 ->
  (forall k, 0 <= k < ov_vsize v -> exists r, ov_row v k = Ok r /\ vlen r = ov_osize v /\ Forall (fun x : f80 => is_zero x = true) r) ->
  exists t, oq_compute (IA lg) (oq_ofValues (IA lg) v) = Ok (mkOQ (IA lg) (Some v) (Some t)) /\
  (forall p, exists x, o_best (IA lg) t p = Ok x /\ map (fun y => (op_start y, op_end y)) (on_parts x) = [(0, ov_osize v - 1)]) /\
  exists t', oq_normalize (IA lg) (mkOQ (IA lg) (Some v) (Some t)) = Ok (mkOQ (IA lg) (Some v) (Some t')) /\
  (forall p, exists x, o_best (IA lg) t' p = Ok x /\ map (fun y => (op_start y, op_end y)) (on_parts x) = [(0, ov_osize v - 1)]).
Proof.
  intros lg v HL Hv Hn H.
  destruct (o_compute_all (IA lg) _ _ _ _ _ (zero_closed lg HL) v Hv ltac:(lia) ltac:(lia)) as (t & E & S & HQ).
  { intros k Hk. destruct (H k Hk) as (r & Er & El & Fr). exists r. split; [exact Er|]. split; [exact El|]. intros i Hi.
    destruct (vget_ok _ r i ltac:(lia)) as [y Ey]. exists y. split; [exact Ey|]. exact (Forall_vget _ _ _ _ _ Fr Ey). }
  exists t. split; [exact E|]. split.
  - intro p. apply (o_flat_prf (IA lg) (zt lg) (zt_flat lg) p t _ Hn S). intros i j q Hi Hj Eq. apply set_zt. apply (HQ i j q); auto.
  - destruct (shape_repr _ t (ov_osize v) ltac:(lia) S (q_zero (IA lg))) as [f R]. pose proof (urepr_get _ _ _ _ 0 (ov_osize v - 1) R ltac:(lia) ltac:(lia)) as G.
    apply (C50_ordered_normalized lg v t _ _ Hn S eq_refl G). left. apply (HQ 0 (ov_osize v - 1) _ ltac:(lia) ltac:(lia) G).
Qed.
Print Assumptions C50_ordered_zero.

(** Hierarchical: the root for every p in [0,1] before normalisation, all leaves for every p after it. *)
Theorem C50_hier_zero : forall lg (v : hvalues (IA lg)), log_ok lg -> 0 <= hv_vsize v -> well_built (hv_meta v) -> 2 <= m_hsize (hv_meta v) ->
  m_leaves (hv_meta v) <= 2147483647 ->
  (forall k h, 0 <= k < hv_vsize v -> 0 <= h < m_leaves (hv_meta v) -> exists x : f80, hv_value v h k = Ok x /\ is_zero x = true) ->
  exists t, hq_compute (IA lg) (hq_ofValues (IA lg) v) = Ok (mkHQ (IA lg) (Some v) (Some t) (hv_meta v)) /\
  (forall p, unit32 p -> exists x, h_best (IA lg) t (hv_meta v) p = Ok x /\ map hp_h (hn_parts x) = [m_root (hv_meta v)]) /\
  exists t', hq_normalize (IA lg) (mkHQ (IA lg) (Some v) (Some t) (hv_meta v)) = Ok (mkHQ (IA lg) (Some v) (Some t') (hv_meta v)) /\
  (forall p, exists x, h_best (IA lg) t' (hv_meta v) p = Ok x /\ Permutation (map hp_h (hn_parts x)) (zrange 0 (m_leaves (hv_meta v)))).
Proof.
  intros lg v HL Hv W H2 HM H.
  destruct (h_compute_all (IA lg) _ _ _ _ _ (zero_closed lg HL) v W H2 HM H) as (t & E & f & R & HQ).
  assert (Ht : vlen t = m_hsize (hv_meta v)) by apply R.
  assert (HQ' : forall h q, 0 <= h < m_hsize (hv_meta v) -> vget t h = Ok q -> zq lg q).
  { intros h q Hh Eq. rewrite (vrepr_get _ _ _ _ h R Hh) in Eq. injection Eq as <-. auto. }
  exists t. split; [exact E|]. split.
  - intros p U. apply (h_flat_prf (IA lg) (zt0 lg) (zt0_flat lg) p _ W H2 t Ht (zt0_ltb lg)). intros h q Hh Eq. apply set_zt0; [apply (HQ' h q Hh Eq)|exact U].
  - pose proof (wb_L _ W) as HLv. apply (C50_hier_normalized lg (Some v) _ W H2 t Ht). intros h q Hh Eq. left. apply (HQ' h q ltac:(lia) Eq).
Qed.
Print Assumptions C50_hier_zero.

(** Spatiotemporal: the whole for every p, before and after normalisation. *)
Theorem C50_spatio_zero : forall lg (v : dvalues (IA lg)), log_ok lg -> 0 <= dv_vsize v -> well_built (dv_meta v) -> 2 <= m_hsize (dv_meta v) ->
  1 <= dv_osize v <= 65535 -> dv_osize v * m_leaves (dv_meta v) <= 2147483647 ->
  (forall k h, 0 <= k < dv_vsize v -> 0 <= h < m_leaves (dv_meta v) ->
     exists r, dv_row v h k = Ok r /\ vlen r = dv_osize v /\ Forall (fun x : f80 => is_zero x = true) r) ->
  exists t, dq_compute (IA lg) (dq_ofValues (IA lg) v) = Ok (mkDQ (IA lg) (Some v) (Some t) (dv_meta v)) /\
  (forall p, exists x, d_best (IA lg) t (dv_meta v) p = Ok x /\
     map (fun y => (dp_h y, dp_start y, dp_end y)) (dn_parts x) = [(m_root (dv_meta v), 0, dv_osize v - 1)]) /\
  exists t', dq_normalize (IA lg) (mkDQ (IA lg) (Some v) (Some t) (dv_meta v)) = Ok (mkDQ (IA lg) (Some v) (Some t') (dv_meta v)) /\
  (forall p, exists x, d_best (IA lg) t' (dv_meta v) p = Ok x /\
     map (fun y => (dp_h y, dp_start y, dp_end y)) (dn_parts x) = [(m_root (dv_meta v), 0, dv_osize v - 1)]).
Proof.
  intros lg v HL Hv W H2 Hn HM H.
  destruct (d_compute_all (IA lg) _ _ _ _ _ (zero_closed lg HL) v W H2 ltac:(lia) HM) as (t & E & f & R & HQ).
  { intros k h Hk Hh. destruct (H k h Hk Hh) as (r & Er & El & Fr). exists r. split; [exact Er|]. intros i Hi.
    destruct (vget_ok _ r i ltac:(lia)) as [y Ey]. exists y. split; [exact Ey|]. exact (Forall_vget _ _ _ _ _ Fr Ey). }
  assert (Ht : vlen t = m_hsize (dv_meta v)) by apply R.
  assert (F : Forall (fun u => utm_shape u (dv_osize v)) t) by exact (mrepr_Forall _ _ _ _ _ R).
  assert (HQ' : forall h i j q, 0 <= h < m_hsize (dv_meta v) -> 0 <= i <= j -> j < dv_osize v -> mm_get t h i j = Ok q -> zq lg q).
  { intros h i j q Hh Hi Hj Eq. rewrite (mrepr_get _ _ _ _ _ h i j R Hh Hi Hj) in Eq. injection Eq as <-. auto. }
  exists t. split; [exact E|]. split.
  - intro p. apply (d_flat_prf (IA lg) (zt lg) (zt_flat lg) p _ W t _ Hn Ht F). intros h i j q Hh Hi Hj Eq. apply set_zt. apply (HQ' h i j q); auto.
  - pose proof (root_node _ W) as Hr. pose proof (mrepr_get _ _ _ _ _ (m_root (dv_meta v)) 0 (dv_osize v - 1) R Hr ltac:(lia) ltac:(lia)) as G.
    apply (C50_spatio_normalized lg v t _ _ W Hn Ht F G). left. apply (HQ' _ 0 (dv_osize v - 1) _ Hr ltac:(lia) ltac:(lia) G).
Qed.
Print Assumptions C50_spatio_zero.

(** ** One busy slice *)
(** Ordered data in which every component is non-zero in at most one slice: the gain of the whole is exactly 0 (or NaN), so after
    normalisation the result is the single full aggregate for every p. No assumption on [log]. *)
Lemma add_zero_l : forall x y : f80, is_zero x = true -> is_zero y = false -> Bplus mode_NE x y = y.
Proof. intros x y Hx Hy. destruct x, y; try discriminate; reflexivity. Qed.
Lemma add_zero_r : forall x y : f80, is_zero y = true -> is_zero x = false -> Bplus mode_NE x y = x.
Proof. intros x y Hx Hy. destruct x, y; try discriminate; reflexivity. Qed.

(** The running sum: all zero so far, or exactly the busy slice's value. *)
Lemma rs_busy : forall lg (x : Z -> f80) i j, i <= j -> (forall a b, i <= a < b -> b <= j -> is_zero (x a) = true \/ is_zero (x b) = true) ->
  (is_zero (rs (IA lg) x i j) = true /\ forall a, i <= a <= j -> is_zero (x a) = true) \/
  exists a, i <= a <= j /\ is_zero (x a) = false /\ rs (IA lg) x i j = x a.
Proof.
  intros lg x i j Hij. remember (Z.to_nat (j - i)) as d eqn:Ed. revert i Hij Ed. induction d as [|d IH]; intros i Hij Ed H.
  - assert (i = j) by lia. subst i. rewrite rs_diag. destruct (is_zero (x j)) eqn:Z1; [left|right; exists j; auto with zarith].
    split; auto. intros a Ha. assert (a = j) by lia. congruence.
  - rewrite rs_step by lia. cbn [n_add IA]. destruct (IH (i + 1) ltac:(lia) ltac:(lia)) as [[Z1 Z2]|(a & Ha & Z1 & Z2)].
    { intros a b Ha Hb. apply H; lia. }
    + destruct (is_zero (x i)) eqn:Zi.
      * left. split; [apply z_add; auto|]. intros a Ha. destruct (Z.eq_dec a i) as [->|]; auto. apply Z2; lia.
      * right. exists i. split; [lia|]. split; auto. apply add_zero_l; auto.
    + right. exists a. split; [lia|]. split; auto. rewrite Z2. apply add_zero_r; auto.
      destruct (H i a ltac:(lia) ltac:(lia)) as [K|K]; auto. congruence.
Qed.

Lemma fin0 : forall x : f80, is_finite x = true -> B2R x = 0%R -> is_zero x = true.
Proof.
  intros x F E. destruct x as [s| | |s m e B]; try discriminate; [reflexivity|]. exfalso. apply eq_0_F2R in E. destruct s; discriminate.
Qed.
Lemma sub_self : forall x : f80, zn (Bminus mode_NE x x).
Proof.
  intro x. destruct (is_finite x) eqn:F.
  - left. pose proof (Bminus_correct 64 16384 prec80 emax80 mode_NE x x F F) as K. rewrite Rminus_diag_eq, round_0, Rabs_R0, Rlt_bool_true in K; auto with typeclass_instances; [|apply bpow_gt_0].
    destruct K as (K1 & K2 & _). apply fin0; auto.
  - right. destruct x as [s|s| |s m e B]; try discriminate; [destruct s; reflexivity|reflexivity].
Qed.
Lemma sub_zero : forall x z : f80, is_zero z = true -> is_zero x = false -> Bminus mode_NE x z = x.
Proof. intros x z Hz Hx. destruct x, z; try discriminate; reflexivity. Qed.
Lemma zn_add : forall x y, zn x -> zn y -> zn (Bplus mode_NE x y).
Proof.
  intros x y [Hx| ->] [Hy| ->]; [left; apply z_add; auto|right; destruct x; reflexivity|right; destruct y; reflexivity|right; reflexivity].
Qed.

Lemma busy_gain : forall lg (x : Z -> f80) i j, i <= j -> (forall a b, i <= a < b -> b <= j -> is_zero (x a) = true \/ is_zero (x b) = true) ->
  zn (entropyReduction (IA lg) (rs (IA lg) x i j) (rs (IA lg) (fun c => entropyReduction (IA lg) (x c) (n_zero (IA lg))) i j)).
Proof.
  intros lg x i j Hij H. set (en := fun c => entropyReduction (IA lg) (x c) (n_zero (IA lg))).
  destruct (rs_busy lg x i j Hij H) as [[Z1 _]|(a & Ha & Z1 & Z2)]; [left; apply z_er; exact Z1|].
  assert (ZE : forall c, i <= c <= j -> c <> a -> is_zero (en c : f80) = true).
  { intros c Hc D. apply z_er. destruct (Z_lt_le_dec a c).
    - destruct (H a c ltac:(lia) ltac:(lia)) as [K|K]; auto. congruence.
    - destruct (H c a ltac:(lia) ltac:(lia)) as [K|K]; auto. congruence. }
  assert (RE : is_zero (rs (IA lg) en i j : f80) = true /\ is_zero (en a : f80) = true \/ rs (IA lg) en i j = en a /\ is_zero (en a : f80) = false).
  { destruct (rs_busy lg en i j Hij) as [[E1 E2]|(b & Hb & E1 & E2)].
    - intros c d Hc Hd. destruct (Z.eq_dec c a) as [->|]; [right; apply ZE; lia|left; apply ZE; lia].
    - left. split; auto.
    - right. destruct (Z.eq_dec b a) as [->|D]; [auto|]. rewrite (ZE b Hb D) in E1. discriminate. }
  rewrite Z2. unfold entropyReduction at 1. cbn [n_ltb n_zero IA]. destruct (Bltb (B754_zero false) (x a)) eqn:P; [|left; reflexivity].
  assert (Ea : en a = Bminus mode_NE (entropy (IA lg) (x a) : f80) (B754_zero false)).
  { unfold en, entropyReduction. cbn [n_ltb n_zero n_sub IA]. rewrite P. reflexivity. }
  cbn [n_sub IA]. set (E := entropy (IA lg) (x a) : f80) in *. destruct (is_zero E) eqn:ZEa.
  - assert (is_zero (en a : f80) = true) by (rewrite Ea; apply z_sub; auto; reflexivity).
    destruct RE as [[R1 _]|[_ R2]]; [|congruence]. left. apply z_sub; auto.
  - rewrite sub_zero in Ea by (auto; reflexivity). destruct RE as [[_ R1]|[R1 _]]; [congruence|]. change (num (IA lg)) with f80 in *. rewrite R1, Ea. apply sub_self.
Qed.

(** The table of such data: the whole interval has gain 0 (or NaN). *)
Lemma o_busy_whole : forall lg (v : ovalues (IA lg)), 0 <= ov_vsize v -> 1 <= ov_osize v <= 65535 ->
  (forall k, 0 <= k < ov_vsize v -> exists r, ov_row v k = Ok r /\ vlen r = ov_osize v /\
     forall a b (x y : f80), 0 <= a < b -> vget r a = Ok x -> vget r b = Ok y -> is_zero x = true \/ is_zero y = true) ->
  exists t q, oq_compute (IA lg) (oq_ofValues (IA lg) v) = Ok (mkOQ (IA lg) (Some v) (Some t)) /\ utm_shape t (ov_osize v) /\
    u_get t 0 (ov_osize v - 1) = Ok q /\ zn (gain q).
Proof.
  intros lg v Hv Hn H.
  set (x := fun k i => match ov_row v k with Ok r => match vget r i with Ok y => y | _ => n_zero (IA lg) end | _ => n_zero (IA lg) end).
  assert (HR : forall k, 0 <= k < ov_vsize v -> exists r, ov_row v k = Ok r /\ vrepr r (ov_osize v) (x k)).
  { intros k Hk. destruct (H k Hk) as (r & Er & El & _). exists r. split; auto. split; auto. intros i Hi. unfold x. rewrite Er.
    destruct (vget_ok _ r i ltac:(lia)) as [y Ey]. rewrite Ey. reflexivity. }
  destruct (oq_table_ok (IA lg) v (ov_osize v) x ltac:(lia) eq_refl HR Hv) as (t & Et & Rt). 
  pose proof (urepr_get _ _ _ _ 0 (ov_osize v - 1) Rt ltac:(lia) ltac:(lia)) as G.
  assert (Z : zn (gain (oqcell (IA lg) v x 0 (ov_osize v - 1)))).
  { unfold oqcell. assert (K : forall l (s : quality (IA lg)), (forall k, In k l -> 0 <= k < ov_vsize v) -> zn (gain s) -> zn (gain (fold_left (fun c k => ocomp (IA lg) x k 0 (ov_osize v - 1) c) l s))).
    { induction l as [|k l IH]; intros s Hl Hs; cbn [fold_left]; auto. apply IH; [intros; apply Hl; right; auto|]. specialize (Hl k (or_introl eq_refl)).
      unfold ocomp. destruct (Z.ltb_spec 0 (ov_osize v - 1)); auto. cbn [q_bump q_addGain q_addLoss gain]. apply zn_add; auto. apply busy_gain; [lia|].
      intros a b Ha Hb. destruct (H k Hl) as (r & Er & El & Hr). unfold x. rewrite Er.
      destruct (vget_ok _ r a ltac:(lia)) as [y Ey]. destruct (vget_ok _ r b ltac:(lia)) as [z Ez]. rewrite Ey, Ez. apply (Hr a b y z ltac:(lia) Ey Ez). }
    apply K; [intros k Hk; apply In_zrange in Hk; auto|left; reflexivity]. }
  exists t, (oqcell (IA lg) v x 0 (ov_osize v - 1)). unfold oq_compute, oq_ofValues. cbn [oq_values]. rewrite Et. cbn [bind]. split; [reflexivity|].
  split; [exact (repr_shape _ _ _ _ Rt)|]. split; [exact G|exact Z].
Qed.

Theorem C50_ordered_busy : forall lg (v : ovalues (IA lg)), 0 <= ov_vsize v -> 1 <= ov_osize v <= 65535 ->
  (forall k, 0 <= k < ov_vsize v -> exists r, ov_row v k = Ok r /\ vlen r = ov_osize v /\
     forall a b (x y : f80), 0 <= a < b -> vget r a = Ok x -> vget r b = Ok y -> is_zero x = true \/ is_zero y = true) ->
  exists t t', oq_compute (IA lg) (oq_ofValues (IA lg) v) = Ok (mkOQ (IA lg) (Some v) (Some t)) /\
  oq_normalize (IA lg) (mkOQ (IA lg) (Some v) (Some t)) = Ok (mkOQ (IA lg) (Some v) (Some t')) /\
  forall p, exists x, o_best (IA lg) t' p = Ok x /\ map (fun y => (op_start y, op_end y)) (on_parts x) = [(0, ov_osize v - 1)].
Proof.
  intros lg v Hv Hn H. destruct (o_busy_whole lg v Hv Hn H) as (t & q & Ec & St & G & Z).
  destruct (C50_ordered_normalized lg v t (ov_osize v) _ Hn St eq_refl G) as (t' & E' & HB).
  { destruct Z; auto. }
  exists t, t'. auto.
Qed.
Print Assumptions C50_ordered_busy.

(** ** The hypotheses are met *)
(** A log with the assumed properties exists (the constant 1 will do; cmath's is another), and there are such data. *)
Example C50_nonvacuous : log_ok (fun _ => int80 1) /\
  (exists m, meta_build 2 [2; 2; -1] = Ok m /\ well_built m /\ 2 <= m_hsize m /\ m_leaves m <= 2147483647).
Proof.
  split; [split; [intros; reflexivity|reflexivity]|].
  assert (V : valid_tree 2 [2; 2; -1] 2) by (apply valid_treeb_ok; reflexivity).
  assert (U : uniform_depth 2 [2; 2; -1] 2) by (apply (uniformb_ok 1); reflexivity).
  destruct (uniform_well_built _ _ _ V U) as (m & E & W & E1 & E2 & E3). exists m. split; [exact E|]. split; [exact W|].
  rewrite (wb_hsize m W), E2, E1. cbn. lia.
Qed.
(** One component, three slices, the middle one busy. *)
Example C50_busy_nonvacuous : forall lg, let v := ov1_of (IA lg) [B754_zero false; int80 5; B754_zero false] in
  0 <= ov_vsize v /\ 1 <= ov_osize v <= 65535 /\
  (forall k, 0 <= k < ov_vsize v -> exists r, ov_row v k = Ok r /\ vlen r = ov_osize v /\
     forall a b (x y : f80), 0 <= a < b -> vget r a = Ok x -> vget r b = Ok y -> is_zero x = true \/ is_zero y = true).
Proof.
  intros lg v. split; [cbn; lia|]. split; [cbn; lia|]. intros k Hk. eexists. split; [reflexivity|]. split; [reflexivity|].
  intros a b x y Hab Ea Eb. pose proof (vget_inv _ _ _ _ Ea) as Ia. pose proof (vget_inv _ _ _ _ Eb) as Ib. cbn in Ia, Ib.
  assert (Ca : a = 0 \/ a = 1) by lia. assert (Cb : b = 1 \/ b = 2) by lia.
  destruct Ca as [-> | ->]; [injection Ea as <-; left; reflexivity|]. destruct Cb as [-> | ->]; [lia|]. injection Eb as <-. right. reflexivity.
Qed.
