(** * Degenerate tables: partitions chosen when qualities are NaN-like or all zero (any arithmetic). *)
From Coq Require Import Lia Permutation.
From Verif Require Import Base BaseFacts Arith Quality Utm UtmFacts UtmProofs Hierarchy SpecTree TreeFacts SpecParts Values Qualities Partitions Partitioners
  TreePath CoverFacts OFacts HFacts DFacts DSel HProofs DProofs OQual QualInv.

(** A class of NaN-like numbers: comparisons are false and the operations that compute a tradeoff are absorbing. *)
Record nan_class (A : arith) (N : num A -> Prop) : Prop := {
  nc_lt_l : forall x y, N x -> n_ltb A x y = false;
  nc_lt_r : forall x y, N y -> n_ltb A x y = false;
  nc_eq_l : forall x y, N x -> n_eqb A x y = false;
  nc_eq_r : forall x y, N y -> n_eqb A x y = false;
  nc_mul : forall x y, N y -> N (n_mul A x y);
  nc_sub_l : forall x y, N x -> N (n_sub A x y);
  nc_sub_r : forall x y, N y -> N (n_sub A x y)
}.

Definition q_nan {A} (N : num A -> Prop) (q : quality A) : Prop := N (gain q) \/ N (loss q).

Section N.
Context (A : arith) (N : num A -> Prop) (NC : nan_class A N).

Lemma set_nan : forall q p, q_nan N q -> N (t_value (t_set A q p)).
Proof.
  intros q p [H|H]; cbn [t_set t_value]; unfold pic.
  - apply (nc_sub_l _ _ NC). apply (nc_mul _ _ NC). auto.
  - apply (nc_sub_r _ _ NC). apply (nc_mul _ _ NC). auto.
Qed.
Lemma gtb_nan_r : forall a b, N (t_value b) -> t_gtb A a b = false.
Proof. intros a b H. unfold t_gtb. rewrite (nc_lt_l _ _ NC _ _ H), (nc_eq_r _ _ NC _ _ H). reflexivity. Qed.
Lemma ltb_nan_l : forall a b, N (t_value a) -> t_ltb A a b = true.
Proof. intros a b H. unfold t_ltb, t_gtb, t_eqb. rewrite (nc_lt_r _ _ NC _ _ H), (nc_eq_l _ _ NC _ _ H). reflexivity. Qed.
End N.

(** A tradeoff that no candidate beats stays. *)
Lemma fold_keep : forall X Y (f : X -> Y -> X) l (s : X), (forall y, In y l -> f s y = s) -> fold_left f l s = s.
Proof. intros X Y f l s. induction l as [|y l IH]; intros H; cbn [fold_left]; auto. rewrite H by (left; auto). apply IH. intros; apply H; right; auto. Qed.

(** ** Ordered *)
Lemma o_single : forall A (t : utm (quality A)) n q p, urepr t n q -> 1 <= n ->
  (forall T i c, (forall k, 0 <= k < n -> T k = snd (oline A n q p T k)) -> i = 0 -> 0 <= c < n - 1 -> t_gtb A (ocand A q p T i c) (t_set A (q i (n - 1)) p) = false) ->
  exists x, o_best A t p = Ok x /\ map (fun y => (op_start y, op_end y)) (on_parts x) = [(0, n - 1)].
Proof.
  intros A t n q p R Hn H. destruct (o_best_ok A t n q p R) as (x & C & T & l & E & Ep & O & _ & _ & _ & HC). exists x. split; auto.
  assert (HT : forall k, 0 <= k < n -> T k = snd (oline A n q p T k)) by (intros k Hk; rewrite <- HC by auto; reflexivity).
  assert (C0 : C 0 = n - 1).
  { assert (K : oline A n q p T 0 = (n - 1, t_set A (q 0 (n - 1)) p)).
    { unfold oline. apply fold_keep. intros c Hc. apply In_zrange in Hc. unfold ostep. cbn [snd]. rewrite H; auto; lia. }
    pose proof (HC 0 ltac:(lia)) as K2. rewrite K in K2. congruence. }
  rewrite Ep, map_map. cbn [mkopart op_start op_end]. inversion O as [K|i r Hi O2 K1 K2]; [lia|]. rewrite C0 in *.
  replace (n - 1 + 1) with n in O2 by lia. inversion O2 as [K|i2 r2 Hi2 O3 K3 K4]; [reflexivity|]. lia.
Qed.

Lemma o_nan_prf : forall A N, nan_class A N -> forall (t : utm (quality A)) n qq p, 1 <= n <= 65535 -> utm_shape t n -> u_get t 0 (n - 1) = Ok qq -> q_nan N qq ->
  exists x, o_best A t p = Ok x /\ map (fun y => (op_start y, op_end y)) (on_parts x) = [(0, n - 1)].
Proof.
  intros A N NC t n qq p Hn S E HN. destruct (shape_repr _ t n ltac:(lia) S qq) as [q R].
  rewrite (urepr_get _ _ _ _ 0 (n - 1) R) in E by lia. injection E as E. rewrite <- E in HN.
  apply (o_single A t n q p R); [lia|]. intros T i c _ -> Hc. apply (gtb_nan_r A N NC). apply (set_nan A N NC); auto.
Qed.

(** ** Hierarchical *)
Lemma hsel_allleaves : forall m (W : well_built m) (H2 : 2 <= m_hsize m) G, (forall h, 0 <= h < m_leaves m -> G h = true) -> (forall h, m_leaves m <= h < m_hsize m -> G h = false) ->
  Permutation (hsel m G (m_root m)) (zrange 0 (m_leaves m)).
Proof.
  intros m W H2 G GL GI. pose proof (root_node m W) as Hr. pose proof (wb_L m W) as HL.
  assert (HS : forall y, In y (hsel m G (m_root m)) -> 0 <= y < m_leaves m).
  { apply (tree_ind m W (fun h => forall y, In y (hsel m G h) -> 0 <= y < m_leaves m)); auto. intros h Hh IH y Hy.
    rewrite (hsel_eq m W H2 G h Hh) in Hy. destruct (Z_lt_le_dec h (m_leaves m)).
    - rewrite GL in Hy by lia. destruct Hy as [<-|[]]. lia.
    - rewrite GI in Hy by lia. apply in_flat_map in Hy. destruct Hy as (c & Hc & Hy). apply (IH c Hc y Hy). }
  assert (P := hsel_leaves m W H2 G GL (m_root m) Hr).
  assert (E : flat_map (leavesof (m_leaves m) (m_parents m)) (hsel m G (m_root m)) = hsel m G (m_root m)).
  { clear P. revert HS. generalize (hsel m G (m_root m)). induction l as [|y l IH]; intro HS; cbn [flat_map]; auto.
    rewrite IH by (intros; apply HS; right; auto). rewrite (lv_leaf m W y) by (apply HS; left; auto). reflexivity. }
  rewrite E in P. rewrite <- P. clear E P. apply NoDup_Permutation.
  - apply (lv_NoDup m).
  - apply NoDup_zrange.
  - intro x. rewrite (lv_In m W), In_zrange. split; [tauto|]. intro Hx. split; auto. apply (vt_reach _ _ _ (wb_tree m W)). apply (wb_node_iff m W). lia.
Qed.

Section HN.
Context (A : arith) (N : num A -> Prop) (NC : nan_class A N).
Context (m : meta) (W : well_built m) (H2 : 2 <= m_hsize m) (t : list (quality A)) (Ht : vlen t = m_hsize m) (p : par A).

Lemma h_nan_prf : (forall h qq, m_leaves m <= h < m_hsize m -> vget t h = Ok qq -> q_nan N qq) ->
  exists x, h_best A t m p = Ok x /\ Permutation (map hp_h (hn_parts x)) (zrange 0 (m_leaves m)).
Proof.
  intro HN. pose proof (wb_L m W) as HL.
  pose proof (list_vrepr _ t _ (q_zero A) Ht) as R. set (q := fun i => match vget t i with Ok x => x | _ => q_zero A end) in *.
  destruct (h_best_ok A m W H2 t q p R) as (x & T & G & E & Ep & _ & _ & HG). exists x. split; auto.
  rewrite Ep, map_map. cbn [mkhpart hp_h]. rewrite map_id. apply (hsel_allleaves m W H2).
  - intros h Hh. pose proof (HG h ltac:(lia)) as K. unfold hdec in K. destruct (Z.ltb_spec h (m_leaves m)); [|lia]. congruence.
  - intros h Hh. pose proof (HG h ltac:(lia)) as K. unfold hdec in K. destruct (Z.ltb_spec h (m_leaves m)); [lia|].
    rewrite (ltb_nan_l A N NC) in K; [congruence|]. apply (set_nan A N NC). apply (HN h (q h) Hh). apply (vrepr_get _ _ _ _ h R). lia.
Qed.

(** A NaN root alone: the root is never chosen. *)
Lemma h_nan_root_prf : forall qq, vget t (m_root m) = Ok qq -> q_nan N qq ->
  exists x, h_best A t m p = Ok x /\ ~ In (m_root m) (map hp_h (hn_parts x)).
Proof.
  intros qq Eq HN. pose proof (wb_L m W) as HL. pose proof (root_node m W) as Hr. pose proof (wb_root_inner m W H2) as HI.
  pose proof (list_vrepr _ t _ (q_zero A) Ht) as R. set (q := fun i => match vget t i with Ok x => x | _ => q_zero A end) in *. rewrite (vrepr_get _ _ _ _ _ R Hr) in Eq. injection Eq as Eq. rewrite <- Eq in HN.
  destruct (h_best_ok A m W H2 t q p R) as (x & T & G & E & Ep & _ & _ & HG). exists x. split; auto.
  rewrite Ep, map_map. cbn [mkhpart hp_h]. rewrite map_id. intro K.
  pose proof (HG (m_root m) Hr) as K2. unfold hdec in K2. destruct (Z.ltb_spec (m_root m) (m_leaves m)); [lia|].
  rewrite (ltb_nan_l A N NC) in K2 by (apply (set_nan A N NC); auto). assert (Gr : G (m_root m) = false) by congruence.
  rewrite (hsel_eq m W H2 G _ Hr), Gr in K. apply in_flat_map in K. destruct K as (c & Hc & K).
  destruct (kid_below m W _ c Hr Hc) as (_ & B1 & Rc). destruct (hsel_nodes m W H2 G c Rc _ K) as [_ B2].
  pose proof (below_anti m W c (m_root m) Rc B1 B2) as Ec. subst c. apply (kids_In m W) in Hc. destruct Hc as [_ Hc].
  rewrite (vt_rootp _ _ _ (wb_tree m W)) in Hc. lia.
Qed.
End HN.

(** ** Spatiotemporal *)
Lemma d_single : forall A m, well_built m -> forall (t : list (utm (quality A))) n p, 1 <= n <= 65535 -> forall q, mrepr t (m_hsize m) n q ->
  (forall T c, (forall h i, 0 <= h < m_hsize m -> 0 <= i < n -> T h i = snd (dline A m n q p T h i)) ->
     t_gtb A (csum A (fun c => T c 0) (kids m (m_root m))) (t_set A (q (m_root m) 0 (n - 1)) p) = false /\
     (0 <= c < n - 1 -> t_gtb A (t_add A (t_add A (t_zero A) (t_set A (q (m_root m) 0 c) p)) (T (m_root m) (c + 1))) (t_set A (q (m_root m) 0 (n - 1)) p) = false)) ->
  exists x, d_best A t m p = Ok x /\ map rect (dn_parts x) = [(m_root m, 0, n - 1)].
Proof.
  intros A m W t n p Hn q R H. pose proof (root_node m W) as Hr.
  destruct (d_best_ok A m W t n q p R Hn) as (x & C & T & E & OK & Ep & _ & _ & HC). exists x. split; auto.
  assert (HT : forall h i, 0 <= h < m_hsize m -> 0 <= i < n -> T h i = snd (dline A m n q p T h i)) by (intros h i Hh Hi; rewrite <- HC by auto; reflexivity).
  assert (K : dline A m n q p T (m_root m) 0 = (n - 1, t_set A (q (m_root m) 0 (n - 1)) p)).
  { unfold dline, dcell, dinit. rewrite (proj1 (H T 0 HT)). rewrite andb_false_r. apply fold_keep. intros c Hc. apply In_zrange in Hc. unfold dstep. cbn [snd].
    rewrite (proj2 (H T c HT) Hc). reflexivity. }
  pose proof (HC (m_root m) 0 Hr ltac:(lia)) as K2. rewrite K in K2. assert (C0 : C (m_root m) 0 = n - 1) by congruence.
  rewrite Ep, map_map. rewrite (dsel_eq m W n (proj1 Hn) C OK) by (auto; lia). rewrite C0.
  destruct (Z.eqb_spec (n - 1) (-1)); [lia|]. rewrite Z.ltb_irrefl. reflexivity.
Qed.

Lemma d_nan_prf : forall A N, nan_class A N -> forall m, well_built m -> forall (t : list (utm (quality A))) n qq p, 1 <= n <= 65535 -> vlen t = m_hsize m ->
  Forall (fun u => utm_shape u n) t -> mm_get t (m_root m) 0 (n - 1) = Ok qq -> q_nan N qq ->
  exists x, d_best A t m p = Ok x /\ map rect (dn_parts x) = [(m_root m, 0, n - 1)].
Proof.
  intros A N NC m W t n qq p Hn Ht F E HN. pose proof (shape_mrepr _ t _ n (q_zero A) ltac:(lia) Ht F) as R. pose proof (root_node m W) as Hr.
  set (q := fun h i j => match mm_get t h i j with Ok x => x | _ => q_zero A end) in *.
  rewrite (mrepr_get _ _ _ _ _ (m_root m) 0 (n - 1) R) in E by lia. injection E as E. rewrite <- E in HN.
  apply (d_single A m W t n p Hn q R). intros T c _. split; [|intros _]; apply (gtb_nan_r A N NC); apply (set_nan A N NC); auto.
Qed.

(** ** Flat tables: tradeoffs among which none is greater. *)
Record flat_class (A : arith) (K : tradeoff A -> Prop) : Prop := {
  fc_zero : K (t_zero A);
  fc_add : forall a b, K a -> K b -> K (t_add A a b);
  fc_gtb : forall a b, K a -> K b -> t_gtb A a b = false
}.

Section FL.
Context (A : arith) (K : tradeoff A -> Prop) (FC : flat_class A K) (p : par A).

Lemma csum_flat : forall T l, (forall c, In c l -> K (T c)) -> K (csum A T l).
Proof.
  intros T l H. unfold csum. assert (G : forall s, K s -> K (fold_left (t_add A) (map T l) s)); [|apply G; apply FC].
  induction l as [|c l IH]; intros s Hs; cbn [map fold_left]; auto. apply IH; [intros; apply H; right; auto|]. apply FC; auto. apply H; left; auto.
Qed.

Lemma o_flat_prf : forall (t : utm (quality A)) n, 1 <= n <= 65535 -> utm_shape t n ->
  (forall i j q, 0 <= i <= j -> j < n -> u_get t i j = Ok q -> K (t_set A q p)) ->
  exists x, o_best A t p = Ok x /\ map (fun y => (op_start y, op_end y)) (on_parts x) = [(0, n - 1)].
Proof.
  intros t n Hn S H. destruct (shape_repr _ t n ltac:(lia) S (q_zero A)) as [q R].
  assert (Hq : forall i j, 0 <= i <= j -> j < n -> K (t_set A (q i j) p)) by (intros i j Hi Hj; apply (H i j); auto; apply (urepr_get _ _ _ _ i j R); auto).
  apply (o_single A t n q p R); [lia|]. intros T i c HT -> Hc. apply FC; [|apply Hq; lia].
  assert (G : forall k, 0 <= k < n -> K (T k)).
  { assert (G : forall d k, n - Z.of_nat d <= k < n -> 0 <= k -> K (T k)).
    { induction d as [|d IH]; intros k Hk H0; [lia|]. rewrite HT by lia. unfold oline.
      assert (G : forall l s, (forall c, In c l -> k <= c < n - 1) -> K (snd s) -> K (snd (fold_left (ostep A q p T k) l s))).
      { induction l as [|c' l IHl]; intros s Hl Hs; cbn [fold_left]; auto. apply IHl; [intros; apply Hl; right; auto|].
        specialize (Hl c' (or_introl eq_refl)). unfold ostep. destruct (t_gtb A (ocand A q p T k c') (snd s)); auto. cbn [snd]. unfold ocand.
        apply FC; [apply Hq; lia|apply IH; lia]. }
      apply G; [intros c' Hc'; apply In_zrange in Hc'; auto|]. apply Hq; lia. }
    intros k Hk. apply (G (Z.to_nat n)); lia. }
  unfold ocand. apply FC; [apply Hq; lia|apply G; lia].
Qed.

Lemma h_flat_prf : forall m, well_built m -> 2 <= m_hsize m -> forall t, vlen t = m_hsize m -> (forall a b, K a -> K b -> t_ltb A a b = false) ->
  (forall h q, 0 <= h < m_hsize m -> vget t h = Ok q -> K (t_set A q p)) ->
  exists x, h_best A t m p = Ok x /\ map hp_h (hn_parts x) = [m_root m].
Proof.
  intros m W H2 t Ht HL H. pose proof (wb_L m W) as HLv. pose proof (root_node m W) as Hr.
  pose proof (list_vrepr _ t _ (q_zero A) Ht) as R. set (q := fun i => match vget t i with Ok x => x | _ => q_zero A end) in *.
  assert (Hq : forall h, 0 <= h < m_hsize m -> K (t_set A (q h) p)) by (intros h Hh; apply (H h); auto; apply (vrepr_get _ _ _ _ h R); auto).
  destruct (h_best_ok A m W H2 t q p R) as (x & T & G & E & Ep & _ & _ & HG). exists x. split; auto.
  assert (GT : forall h, 0 <= h < m_hsize m -> K (T h) /\ G h = true).
  { apply (tree_ind m W). intros h Hh IH. pose proof (HG h Hh) as E1. unfold hdec in E1. destruct (h <? m_leaves m).
    - injection E1 as E1 E2. rewrite E1. split; auto.
    - rewrite HL in E1; [injection E1 as E1 E2; rewrite E1; split; auto|auto|]. apply csum_flat. intros c Hc. apply IH; auto. }
  rewrite Ep, map_map. cbn [mkhpart hp_h]. rewrite map_id. rewrite (hsel_eq m W H2 G _ Hr). rewrite (proj2 (GT _ Hr)). reflexivity.
Qed.

Lemma d_flat_prf : forall m, well_built m -> forall (t : list (utm (quality A))) n, 1 <= n <= 65535 -> vlen t = m_hsize m -> Forall (fun u => utm_shape u n) t ->
  (forall h i j q, 0 <= h < m_hsize m -> 0 <= i <= j -> j < n -> mm_get t h i j = Ok q -> K (t_set A q p)) ->
  exists x, d_best A t m p = Ok x /\ map rect (dn_parts x) = [(m_root m, 0, n - 1)].
Proof.
  intros m W t n Hn Ht F H. pose proof (shape_mrepr _ t _ n (q_zero A) ltac:(lia) Ht F) as R. pose proof (root_node m W) as Hr.
  set (q := fun h i j => match mm_get t h i j with Ok x => x | _ => q_zero A end) in *.
  assert (Hq : forall h i j, 0 <= h < m_hsize m -> 0 <= i <= j -> j < n -> K (t_set A (q h i j) p)).
  { intros h i j Hh Hi Hj. apply (H h i j); auto. apply (mrepr_get _ _ _ _ _ h i j R); auto. }
  apply (d_single A m W t n p Hn q R). intros T c HT.
  assert (G : forall h i, 0 <= h < m_hsize m -> 0 <= i < n -> K (T h i)).
  { apply (dind m W n (proj1 Hn) (fun h i => K (T h i))). intros h i Hh Hi IHk IHt. rewrite HT by auto. unfold dline, dcell.
    assert (G : forall l s, (forall c, In c l -> i <= c < n - 1) -> K (snd s) -> K (snd (fold_left (dstep A q p (T h) h i) l s))).
    { induction l as [|c' l IHl]; intros s Hl Hs; cbn [fold_left]; auto. apply IHl; [intros; apply Hl; right; auto|].
      specialize (Hl c' (or_introl eq_refl)). unfold dstep. cbv zeta.
      match goal with |- context [if ?b then _ else _] => destruct b end; auto. cbn [snd].
      apply FC; [apply FC; [apply FC|apply Hq; lia]|apply IHt; lia]. }
    apply G; [intros c' Hc'; apply In_zrange in Hc'; auto|]. unfold dinit.
    match goal with |- context [if ?b then _ else _] => destruct b end; cbn [snd]; [|apply Hq; lia]. apply csum_flat. intros c' Hc'. apply IHk; auto. }
  split.
  - apply FC; [|apply Hq; lia]. apply csum_flat. intros c' Hc'. apply G; [|lia]. apply (kids_In m W) in Hc'; auto. tauto.
  - intro Hc. apply FC; [|apply Hq; lia]. apply FC; [apply FC; [apply FC|apply Hq; lia]|apply G; lia].
Qed.
End FL.

(** ** Ordered qualities stay in closed classes. *)
Lemma rs_closed : forall A (S : num A -> Prop) x i j, (forall a b, S a -> S b -> S (n_add A a b)) -> (forall c, i <= c <= j -> S (x c)) -> i <= j -> S (rs A x i j).
Proof.
  intros A S x i j HS Hx Hij. unfold rs. assert (G : forall l s, (forall c, In c l -> i <= c <= j) -> S s -> S (fold_left (fun a c => n_add A a (x c)) l s)).
  { induction l as [|c l IH]; intros s Hl Hs; cbn [fold_left]; auto. apply IH; [intros; apply Hl; right; auto|]. apply HS; auto. apply Hx, Hl; left; auto. }
  apply G; [|apply Hx; lia]. intros c Hc. apply in_rev, In_zrange in Hc. lia.
Qed.

Lemma o_compute_all : forall A M V S F Q, closed A M V S F Q -> forall v : ovalues A, 0 <= ov_vsize v -> 0 <= ov_osize v <= 65535 -> ov_osize v <= M ->
  (forall k, 0 <= k < ov_vsize v -> exists r, ov_row v k = Ok r /\ vlen r = ov_osize v /\ forall i, 0 <= i < ov_osize v -> exists y, vget r i = Ok y /\ V y) ->
  exists t, oq_compute A (oq_ofValues A v) = Ok (mkOQ A (Some v) (Some t)) /\ utm_shape t (ov_osize v) /\
    forall i j q, 0 <= i <= j -> j < ov_osize v -> u_get t i j = Ok q -> Q q.
Proof.
  intros A M V S F Q CL v Hv Hn HM H.
  set (x := fun k i => match ov_row v k with Ok r => match vget r i with Ok y => y | _ => n_zero A end | _ => n_zero A end).
  assert (HR : forall k, 0 <= k < ov_vsize v -> exists r, ov_row v k = Ok r /\ vrepr r (ov_osize v) (x k)).
  { intros k Hk. destruct (H k Hk) as (r & Er & El & Hr). exists r. split; auto. split; auto. intros i Hi. unfold x. rewrite Er.
    destruct (Hr i Hi) as (y & Ey & _). rewrite Ey. reflexivity. }
  assert (Hx : forall k i, 0 <= k < ov_vsize v -> 0 <= i < ov_osize v -> V (x k i)).
  { intros k i Hk Hi. destruct (H k Hk) as (r & Er & El & Hr). destruct (Hr i Hi) as (y & Ey & Vy). unfold x. rewrite Er, Ey. auto. }
  destruct (oq_table_ok A v (ov_osize v) x Hn eq_refl HR Hv) as (t & Et & Rt). exists t. unfold oq_compute, oq_ofValues. cbn [oq_values]. rewrite Et. cbn [bind].
  split; [reflexivity|]. split; [apply (repr_shape _ _ _ _ Rt)|]. intros i j q Hi Hj Eq. rewrite (urepr_get _ _ _ _ i j Rt) in Eq by auto. injection Eq as <-.
  unfold oqcell. assert (G : forall l s, (forall k, In k l -> 0 <= k < ov_vsize v) -> Q s -> Q (fold_left (fun c k => ocomp A x k i j c) l s)).
  { induction l as [|k l IH]; intros s Hl Hs; cbn [fold_left]; auto. apply IH; [intros; apply Hl; right; auto|]. specialize (Hl k (or_introl eq_refl)).
    unfold ocomp. destruct (Z.ltb_spec i j); auto. apply (cl_Q _ _ _ _ _ _ CL); auto; [lia| |].
    - apply rs_closed; [apply CL| |lia]. intros c Hc. apply (cl_V _ _ _ _ _ _ CL). apply Hx; lia.
    - apply rs_closed; [apply CL| |lia]. intros c Hc. apply (cl_er _ _ _ _ _ _ CL). apply (cl_V _ _ _ _ _ _ CL). apply Hx; lia. }
  apply G; [intros k Hk; apply In_zrange in Hk; auto|apply CL].
Qed.

Lemma mrepr_Forall : forall X (t : list (utm X)) H n f, mrepr t H n f -> Forall (fun u => utm_shape u n) t.
Proof.
  intros X t H n f R. apply Forall_forall. intros u Hu. apply In_vget in Hu. destruct Hu as (h & Eh & Hh). rewrite (proj1 R) in Hh.
  destruct (proj2 R h Hh) as (u' & Eu & Ru). rewrite Eh in Eu. inversion Eu; subst u'. exact (repr_shape _ _ _ _ Ru).
Qed.
