(** * Property C25: the spatiotemporal partition is not optimal among all partitions into rectangles.

    Two leaves 0, 1 below a root 2, two slices, leaf 0 = (3,1), leaf 1 = (0,1), p = 1/8. The leaves are equal in the second
    slice only, so the best cover is {0 x [0..0], 1 x [0..0], root x [1..1]}, with gain 2 and loss 0. The returned partition
    never moves back up the hierarchy (C21) and every such partition has value <= 0. *)
From Coq Require Import Reals Lra Lia Permutation.
From Verif Require Import Base BaseFacts Arith Quality Utm UtmFacts UtmProofs Hierarchy SpecTree SpecParts SpecInfo SpecData HierarchyFacts HierarchyProofs
  Values Qualities Partitions Partitioners TreePath HFacts CoverFacts InfoFacts OInfo DataFacts NormFacts DQual DSel DProofs DDataProofs DataCons ODataProofs Sim TreeDec
  P_OrderedData P_HierData P_SpatioData.

Definition exn_ps : list Z := [2; 2; -1].
Definition exn_d : list (list R) := [[3; 1]; [0; 1]]%R.
Definition exn_l : list (Z * Z * Z) := [(0, 0, 0); (1, 0, 0); (2, 1, 1)].

Lemma exn_tree : valid_tree 2 exn_ps 2 /\ uniform_depth 2 exn_ps 2.
Proof. split; [apply valid_treeb_ok; reflexivity|apply (uniformb_ok 1); reflexivity]. Qed.

Example exn_data : exists v, dv2_of RA exn_d exn_ps = Ok v /\ m_root (dv_meta v) = 2 /\ m_hsize (dv_meta v) = 3 /\
  m_leaves (dv_meta v) = 2 /\ m_parents (dv_meta v) = exn_ps /\ dv_osize v = 2 /\ ddata_ok v [exn_d].
Proof.
  destruct exn_tree as [V U]. destruct (dv2_data Rpar exn_ps 2 ltac:(cbv; discriminate) exn_d V U ltac:(repeat constructor) ltac:(cbv; split; discriminate)) as (v & E & (M1 & M2 & M3) & M4 & D).
  exists v. split; auto. split; auto. assert (W : well_built (dv_meta v)) by apply D. split; [pose proof (wb_hsize _ W) as Eh; rewrite M2 in Eh; exact Eh|]. auto 10.
Qed.

Lemma pow_log : forall a n m, (0 < a)%R -> (a ^ n < 2 ^ m)%R -> (INR n * log2 a < INR m)%R.
Proof.
  intros a n m Ha H. unfold log2. pose proof ln2_pos. assert (0 < a ^ n)%R by (apply pow_lt; auto).
  assert (K : (ln (a ^ n) < ln (2 ^ m))%R) by (apply ln_increasing; auto). rewrite !ln_pow in K by lra.
  apply (Rmult_lt_reg_r (ln 2)); auto. replace (INR n * (ln a / ln 2) * ln 2)%R with (INR n * ln a)%R by (field; lra). auto.
Qed.
Lemma pow_log' : forall a n m, (0 < a)%R -> (2 ^ m < a ^ n)%R -> (INR m < INR n * log2 a)%R.
Proof.
  intros a n m Ha H. unfold log2. pose proof ln2_pos. assert (0 < 2 ^ m)%R by (apply pow_lt; lra).
  assert (K : (ln (2 ^ m) < ln (a ^ n))%R) by (apply ln_increasing; auto). rewrite !ln_pow in K by lra.
  apply (Rmult_lt_reg_r (ln 2)); auto. replace (INR n * (ln a / ln 2) * ln 2)%R with (INR n * ln a)%R by (field; lra). auto.
Qed.

Lemma log2_3_low : (3 / 2 < log2 3)%R.
Proof. pose proof (pow_log' 3 2 3 ltac:(lra) ltac:(lra)) as K. cbn in K. lra. Qed.
Lemma log2_5_high : (log2 5 < 12 / 5)%R.
Proof. pose proof (pow_log 5 5 12 ltac:(lra) ltac:(lra)) as K. cbn in K. lra. Qed.

(** Value p*gain-(1-p)*loss of a rectangle at p = 1/8. *)
Definition rval (m : meta) (h i j : Z) : R := (1 / 8 * dgain m [exn_d] h i j - (1 - 1 / 8) * dloss m [exn_d] h i j)%R.

Ltac cells_tac EL EP := unfold rval, dgain, dloss, dcells, loss_of; rewrite EL, EP;
  change (leavesof 2 exn_ps 2) with [0; 1]; change (leavesof 2 exn_ps 0) with [0]; change (leavesof 2 exn_ps 1) with [1];
  unfold Rsum, exn_d; cbn [map fold_right flat_map]; unfold elt, slice;
  change (Z.to_nat 0) with 0%nat; change (Z.to_nat 1) with 1%nat;
  change (Z.to_nat (1 - 0 + 1)) with 2%nat; change (Z.to_nat (0 - 0 + 1)) with 1%nat; change (Z.to_nat (1 - 1 + 1)) with 1%nat;
  cbn [nth firstn skipn app]; unfold vlen; cbn [length];
  change (Z.of_nat 4) with 4; change (Z.of_nat 2) with 2; change (Z.of_nat 1) with 1; rewrite ?log2_4, ?log2_2, ?log2_1.

Lemma exn_gains : (gain_of [3; 0] = 0 /\ gain_of [1; 1] = 2 /\ gain_of [0; 1] = 0 /\ gain_of [3; 1] = 8 - 3 * log2 3 /\ gain_of [3; 1; 0; 1] = 5 * log2 5 - 3 * log2 3)%R.
Proof.
  repeat split; gain_tac; rewrite ?log2_1.
  - replace (3 + (0 + 0))%R with 3%R by ring. ring.
  - replace (1 + (1 + 0))%R with 2%R by ring. rewrite log2_2. ring.
  - replace (0 + (1 + 0))%R with 1%R by ring. rewrite log2_1. ring.
  - replace (3 + (1 + 0))%R with 4%R by ring. rewrite log2_4. ring.
  - replace (3 + (1 + (0 + (1 + 0))))%R with 5%R by ring. ring.
Qed.

Lemma exn_rval : forall m, m_leaves m = 2 -> m_parents m = exn_ps ->
  (rval m 2 0 1 <= 0 /\ rval m 2 0 0 = - 21 / 8 /\ rval m 2 1 1 = 1 / 4 /\ rval m 0 0 1 <= 0 /\ rval m 1 0 1 <= 0 /\
   rval m 0 0 0 = 0 /\ rval m 0 1 1 = 0 /\ rval m 1 0 0 = 0 /\ rval m 1 1 1 = 0)%R.
Proof.
  intros m EL EP. destruct exn_gains as (G1 & G2 & G3 & G4 & G5). pose proof log2_3_low. pose proof log2_5_high.
  assert (T2 : forall a b, total [a; b] = (a + b)%R) by (intros; unfold total, Rsum; cbn; ring).
  assert (T4 : forall a b c d, total [a; b; c; d] = (a + b + c + d)%R) by (intros; unfold total, Rsum; cbn; ring).
  repeat split; cells_tac EL EP; rewrite ?G1, ?G2, ?G3, ?G4, ?G5, ?gain_of_single, ?T2, ?T4; lra.
Qed.

Lemma Rsum_nonpos : forall X (f : X -> R) l, (forall x, In x l -> (f x <= 0)%R) -> (Rsum f l <= 0)%R.
Proof. intros X f l H. rewrite <- (Rsum_zero _ (fun _ => 0%R) l) by auto. apply InfoFacts.Rsum_le; auto. Qed.

Section N.
Context (m : meta).
Hypothesis W : well_built m.
Hypothesis EL : m_leaves m = 2.
Hypothesis EP : m_parents m = exn_ps.

Lemma exn_below : forall x, leaf 2 x -> below exn_ps x 2.
Proof. intros x Hx. assert (x = 0 \/ x = 1) as [->| ->] by (unfold leaf in Hx; lia); apply (climb_sound 3); reflexivity. Qed.

Lemma exn_rect : forall l, rect_cover 2 exn_ps 2 l -> forall r, In r l -> r <> (2, 1, 1) -> (un3 (rval m) r <= 0)%R.
Proof.
  intros l (_ & K & _) [[h a] b] Hr D. destruct (K _ _ _ Hr) as (Hh & Ha & Hb). cbn [un3].
  destruct (exn_rval m EL EP) as (V1 & V2 & V3 & V4 & V5 & V6 & V7 & V8 & V9).
  change (0 <= h < 3) in Hh. assert (Hh' : h = 0 \/ h = 1 \/ h = 2) by lia.
  assert (Hab : (a = 0 /\ b = 0) \/ (a = 0 /\ b = 1) \/ (a = 1 /\ b = 1)) by lia.
  destruct Hh' as [->|[->| ->]], Hab as [[-> ->]|[[-> ->]|[-> ->]]]; try congruence; lra.
Qed.

(** Every cover that never moves up has value <= 0. *)
Lemma exn_never_up : forall l, rect_cover 2 exn_ps 2 l -> never_up 2 exn_ps l -> (Rsum (un3 (rval m)) l <= 0)%R.
Proof.
  intros l C NU. pose proof (exn_rect l C) as Hr. destruct C as (ND & Kl & C).
  destruct (exn_rval m EL EP) as (V1 & V2 & V3 & V4 & V5 & V6 & V7 & V8 & V9).
  assert (Dec : forall x y : Z * Z * Z, {x = y} + {x <> y}) by (repeat decide equality).
  destruct (in_dec Dec (2, 1, 1) l) as [I|N]; [|apply Rsum_nonpos; intros r Hi; apply Hr; auto; intros ->; auto].
  assert (L0 : leaf 2 0) by (unfold leaf; lia). pose proof (exn_below 0 L0) as B0.
  assert (I2 : In (2, 0, 0) l).
  { destruct (C 0 0 L0 ltac:(lia)) as (h & a & b & Ih & Bh & Oh & _). destruct (Kl _ _ _ Ih) as (Hh & Ha & Hb).
    assert (b = 0).
    { destruct (Z.eq_dec b 0); auto. exfalso. destruct (C 0 1 L0 ltac:(lia)) as (h1 & a1 & b1 & _ & _ & _ & U1).
      pose proof (U1 h a b Ih Bh ltac:(lia)) as E1. pose proof (U1 2 1 1 I B0 ltac:(lia)) as E2.
      rewrite <- E2 in E1. inversion E1. lia. }
    subst b. pose proof (NU 0 h a 0 2 1 1 L0 Ih I Bh B0 ltac:(lia)) as B2.
    assert (h = 2). { inversion B2; subst; auto. exfalso. apply H. reflexivity. }
    subst h. replace a with 0 in Ih by lia. auto. }
  destruct (in_split _ _ I) as (l1 & l2 & El). subst l.
  assert (Pm : Permutation (l1 ++ (2, 1, 1) :: l2) ((2, 1, 1) :: l1 ++ l2)) by (apply Permutation_sym, Permutation_middle).
  rewrite (Rsum_perm _ _ _ _ Pm). rewrite Rsum_cons. cbn [un3]. rewrite V3.
  assert (ND' : NoDup ((2, 1, 1) :: l1 ++ l2)) by (eapply Permutation_NoDup; eauto). inversion ND' as [|? ? N1 N2]; subst.
  assert (I3 : In (2, 0, 0) (l1 ++ l2)). { apply (Permutation_in _ Pm) in I2. destruct I2 as [E|I2]; [discriminate|auto]. }
  destruct (in_split _ _ I3) as (k1 & k2 & Ek). rewrite Ek.
  rewrite (Rsum_perm _ _ _ _ (Permutation_sym (Permutation_middle k1 k2 (2, 0, 0)))). rewrite Rsum_cons. cbn [un3]. rewrite V2.
  assert (K : (Rsum (un3 (rval m)) (k1 ++ k2) <= 0)%R).
  { apply Rsum_nonpos. intros r Hi. assert (Ir : In r (l1 ++ l2)) by (rewrite Ek; apply in_or_app; apply in_app_or in Hi; destruct Hi; [left|right; right]; auto).
    apply Hr; [|intros ->; auto]. apply in_or_app. apply in_app_or in Ir. destruct Ir; [left|right; right]; auto. }
  lra.
Qed.

Lemma exn_cover : rect_cover 2 exn_ps 2 exn_l.
Proof.
  assert (G : forall x y, leaf 2 x -> leaf 2 y -> below exn_ps x y -> x = y).
  { intros u w Hu Hw K. assert (I : In u (leavesof 2 exn_ps w)). { rewrite <- EL, <- EP. apply (lv_In _ W). rewrite EL, EP. auto. }
    rewrite <- EL, <- EP in I. rewrite (lv_leaf _ W) in I by (rewrite EL; auto). cbn in I. intuition. }
  split; [repeat constructor; cbn; intuition discriminate|]. split.
  - intros y a b K. cbn in K. repeat (destruct K as [K|K]; [inversion K; subst; split; [split; cbv; congruence|lia]|]). destruct K.
  - intros x o Hx Ho. pose proof (exn_below x Hx) as B2. assert (Hx5 : x = 0 \/ x = 1) by (unfold leaf in Hx; lia).
    assert (Ho2 : o = 0 \/ o = 1) by lia. destruct Ho2 as [->| ->].
    + exists x, 0, 0. split; [destruct Hx5 as [->| ->]; cbn; auto|]. split; [constructor|]. split; [lia|].
      intros y' a' b' K; cbn in K; repeat (destruct K as [K|K]; [inversion K; subst; intros Kb Ka; first [lia|apply G in Kb; unfold leaf in *; [subst; reflexivity|lia|lia]]|]); destruct K.
    + exists 2, 1, 1. split; [cbn; auto|]. split; auto. split; [lia|].
      intros y' a' b' K; cbn in K; repeat (destruct K as [K|K]; [inversion K; subst; intros Kb Ka; first [lia|reflexivity]|]); destruct K.
Qed.
End N.

(** C25: with data, hierarchy and parameter built by the user, the returned partition has a strictly smaller value
    p*gain-(1-p)*loss than another cover by rectangles. *)
Theorem C25_spatio_refuted : exists (d : list (list R)) ps r v o t p x l ql, valid_tree (vlen d) ps r /\ uniform_depth (vlen d) ps r /\
  (0 < p < 1)%R /\ Forall nonneg d /\
  dv2_of RA d ps = Ok v /\ dq_compute RA (dq_ofValues RA v) = Ok o /\ dq_table o = Some t /\
  d_best RA t (dv_meta v) p = Ok x /\
  rect_cover (vlen d) ps (dv_osize v) l /\ mmap (fun '(h, a, b) => mm_get t h a b) l = Ok ql /\
  (p * gain (dn_quality x) - (1 - p) * loss (dn_quality x) <
   p * Rsum (@gain RA) ql - (1 - p) * Rsum (@loss RA) ql)%R.
Proof.
  destruct exn_tree as [V U]. destruct exn_data as (v & E & Er & Eh & EL & EP & En & D). change RA with (RP Rpar) in *. pose proof D as (_ & Hn & W & _).
  destruct (d_compute_prf Rpar v _ D) as (t & E0 & T). pose proof T as (S0 & F0 & T0).
  pose proof (dtable_repr Rpar _ _ Hn t _ T) as R.
  destruct (d_cover_prf (dv_meta v) W (RP Rpar) t (dv_osize v) (1 / 8)%R Hn S0 F0) as (x & Ex & _ & C & NU & _).
  destruct (d_total Rpar _ W _ Hn _ _ t _ x R Ex) as (_ & Gx & Lx).
  pose proof (exn_cover _ W EL EP) as C2.
  assert (Hl : forall y a b, In (y, a, b) exn_l -> 0 <= y < m_hsize (dv_meta v) /\ 0 <= a <= b /\ b < dv_osize v).
  { intros y a b Hy. destruct C2 as (_ & C2 & _). rewrite Eh, En. destruct (C2 _ _ _ Hy) as (K1 & K2). split; auto. }
  pose proof (mmap_mrepr (RP Rpar) t (m_hsize (dv_meta v)) (dv_osize v) _ exn_l R Hl) as El.
  exists exn_d, exn_ps, 2, v, (mkDQ RA (Some v) (Some t) (dv_meta v)), t, (1 / 8)%R, x, exn_l. eexists. split; [exact V|]. split; [exact U|]. split; [split; lra|].
  split; [repeat constructor; lra|]. split; [exact E|]. split; [exact E0|]. split; [reflexivity|]. split; [exact Ex|].
  split; [rewrite En; exact C2|]. split; [exact El|].
  rewrite Gx, Lx. rewrite !Rsum_map.
  pose proof (exn_never_up _ EL EP (map rect (dn_parts x))) as K. rewrite EL, EP, En in C. rewrite EL, EP in NU. specialize (K C NU).
  assert (Ev : forall l, Rsum (un3 (rval (dv_meta v))) l = (1 / 8 * Rsum (un3 (dgain (dv_meta v) [exn_d])) l - (1 - 1 / 8) * Rsum (un3 (dloss (dv_meta v) [exn_d])) l)%R).
  { induction l as [|[[h a] b] l IH]; rewrite ?Rsum_nil, ?Rsum_cons; [lra|]. rewrite IH. cbn [un3]. unfold rval. ring. }
  rewrite Ev in K.
  match goal with |- context [Rsum (fun y => gain (q3 ?A ?q y)) exn_l] =>
    rewrite (Rsum_ext _ (fun y => gain (q3 A q y)) (un3 (dgain (dv_meta v) [exn_d])) exn_l) by (intros [[a b] c] _; reflexivity);
    rewrite (Rsum_ext _ (fun y => loss (q3 A q y)) (un3 (dloss (dv_meta v) [exn_d])) exn_l) by (intros [[a b] c] _; reflexivity) end.
  pose proof (Ev exn_l) as K2.
  destruct (exn_rval _ EL EP) as (V1 & V2 & V3 & V4 & V5 & V6 & V7 & V8 & V9).
  assert (K3 : Rsum (un3 (rval (dv_meta v))) exn_l = (1 / 4)%R) by (unfold Rsum, exn_l; cbn [map fold_right un3]; rewrite V3, V6, V8; ring).
  rewrite K3 in K2. change (num (RP Rpar)) with Rdefinitions.R in *. rewrite !Rsum_map in K. lra.
Qed.
Print Assumptions C25_spatio_refuted.
