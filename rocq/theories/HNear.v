(** * HPartitioner in floating point: the chosen partition is optimal up to rounding. *)
From Coq Require Import Reals Lra Lia Permutation.
From Flocq Require Import Core BinarySingleNaN.
From Verif Require Import Base BaseFacts Arith Quality Utm Hierarchy SpecTree SpecParts TreeFacts HierarchyProofs
  Partitions Partitioners TreePath CoverFacts HFacts LexR OReal HReal Ieee SpecIeee IeeeFacts SpecNear NearFacts InfoFacts.

Definition zsum {X : Type} (f : X -> Z) (l : list X) : Z := fold_right Z.add 0 (map f l).
Lemma zsum_app : forall X (f : X -> Z) l l', zsum f (l ++ l') = zsum f l + zsum f l'.
Proof. intros. unfold zsum. induction l as [|a l IH]; simpl; lia. Qed.
Lemma zsum_nonneg : forall X (f : X -> Z) l, (forall x, In x l -> 0 <= f x) -> 0 <= zsum f l.
Proof.
  intros X f l H. unfold zsum. induction l as [|a l IH]; simpl; [lia|]. pose proof (H a (or_introl eq_refl)).
  assert (forall x, In x l -> 0 <= f x) by (intros; apply H; right; auto). specialize (IH H1). lia.
Qed.
Lemma zsum_len : forall X Y (f : X -> list Y) l, zsum (fun x => Z.of_nat (length (f x))) l = Z.of_nat (length (flat_map f l)).
Proof. intros. unfold zsum. induction l as [|a l IH]; simpl; auto. rewrite app_length. lia. Qed.

(** ** Sums over children. *)
Section S.
Context (lg : f80 -> f80).
Notation A := (IA lg).
Variables (N : Z) (M : R).
Hypothesis HN : 1 <= N <= 4294967296.
Hypothesis HM : (0 <= M <= b2 16001)%R.
Notation E := (eunit N M).

Lemma csum_near : forall (T : Z -> tradeoff A) (k : Z -> Z) (x : Z -> R) l,
  (forall c, In c l -> 1 <= k c /\ near N M (k c) (t_value (T c)) (x c)) -> zsum k l <= N ->
  near N M (zsum k l) (t_value (csum A T l)) (Rsum x l) /\
  (Rabs (rval lg (csum A T l) - Rsum (fun c => rval lg (T c)) l) <= IZR (Z.max 0 (Z.of_nat (length l) - 1)) * E)%R.
Proof.
  intros T k x l. pose proof (E_pos N M HN HM) as EP. induction l as [|c l IH] using rev_ind; intros H HS.
  - split; [apply near_zero; auto|]. unfold csum, rval. cbn [map fold_left t_zero t_value]. cbn [IA n_zero].
    change (B2R (B754_zero false)) with 0%R. unfold Rsum. cbn [map fold_right]. rewrite Rminus_0_r, Rabs_R0. cbn [length].
    change (Z.max 0 (Z.of_nat 0 - 1)) with 0. lra.
  - assert (Hl : forall c, In c l -> 1 <= k c /\ near N M (k c) (t_value (T c)) (x c)) by (intros; apply H; apply in_or_app; auto).
    destruct (H c) as [Kc Nc]; [apply in_or_app; right; left; auto|].
    assert (P0 : 0 <= zsum k l) by (apply zsum_nonneg; intros y Hy; destruct (Hl y Hy); lia).
    rewrite zsum_app in HS. assert (Z1 : zsum k [c] = k c) by (unfold zsum; simpl; lia). rewrite Z1 in HS.
    destruct (IH Hl ltac:(lia)) as [I1 I2].
    assert (EC : csum A T (l ++ [c]) = t_add A (csum A T l) (T c)) by (unfold csum; rewrite map_app, fold_left_app; reflexivity).
    rewrite EC, zsum_app, Z1, !Rsum_app. split.
    + replace (Rsum x [c]) with (x c) by (unfold Rsum; simpl; ring).
      apply (near_add N M HN HM); auto; lia.
    + replace (Rsum (fun c => rval lg (T c)) [c]) with (rval lg (T c)) by (unfold Rsum; simpl; ring).
      destruct l as [|d l].
      * unfold csum, Rsum. cbn [map fold_left fold_right app length]. unfold rval. cbn [t_add t_value t_zero IA n_add n_zero].
        rewrite (near_zero_l N M HN HM (k c) _ (x c) ltac:(lia) Nc). rewrite Rplus_0_l, Rminus_diag_eq, Rabs_R0 by auto.
        change (Z.max 0 (Z.of_nat 1 - 1)) with 0. lra.
      * destruct (near_plus N M HN HM (zsum k (d :: l)) (k c) _ _ _ _ ltac:(lia) ltac:(lia) ltac:(lia) I1 Nc) as (_ & _ & Er).
        change (Bplus mode_NE (t_value (csum A T (d :: l))) (t_value (T c))) with (t_value (t_add A (csum A T (d :: l)) (T c))) in Er.
        fold (rval lg (t_add A (csum A T (d :: l)) (T c))) in Er. fold (rval lg (csum A T (d :: l))) in Er. fold (rval lg (T c)) in Er.
        rewrite app_length. cbn [length]. cbn [length] in I2.
        replace (Z.max 0 (Z.of_nat (S (length l) + 1) - 1)) with (Z.max 0 (Z.of_nat (S (length l)) - 1) + 1) by lia. rewrite plus_IZR.
        apply Rabs_le. apply Rabs_le_inv in Er, I2. lra.
Qed.
End S.

Section H.
Context (lg : f80 -> f80).
Notation A := (IA lg).
Notation quality := (quality A).
Notation tradeoff := (tradeoff A).
Context (m : meta).
Hypothesis W : well_built m.
Hypothesis H2 : 2 <= m_hsize m.
Notation ps := (m_parents m).
Notation L := (m_leaves m).
Notation hsize := (m_hsize m).
Notation root := (m_root m).
Notation kids := (kids m).
Notation lv := (leavesof L ps).
Variables (q : Z -> quality) (p : f32) (B : R).
Hypothesis HL : L <= 4294967296.
Hypothesis HB : sane_bound B.
Hypothesis Hp : unit32 p.
Hypothesis Hq : forall h, 0 <= h < hsize -> qual_le B (q h).
Notation M := (2 * B)%R.
Notation E := (eunit L M).

Definition pvalh (qq : quality) : R := (wgain p * B2R (gain qq : f80) - wloss p * B2R (loss qq : f80))%R.
Definition hvl (l : list Z) : R := Rsum (fun h => pvalh (q h)) l.

Lemma HMh : (0 <= M <= b2 16001)%R.
Proof.
  destruct HB as [B1 B2]. pose proof (bpow_gt_0 radix2 (-16000)). split; [lra|].
  change (b2 16001) with (b2 (1 + 16000)). rewrite bpow_plus. change (b2 1) with 2%R. lra.
Qed.
Lemma HNh : 1 <= L <= 4294967296. Proof. pose proof (wb_L m W). lia. Qed.

Lemma near_qh : forall h, 0 <= h < hsize -> near L M 1 (t_value (t_set A (q h) p)) (pvalh (q h)).
Proof. intros h Hh. apply (near_pic lg L B (q h) p HNh HB (Hq h Hh) Hp). Qed.

(** A cover has at most as many nodes as there are leaves. *)
Lemma len_flat : forall X (f : X -> list Z) l, (forall x, In x l -> f x <> []) -> (length l <= length (flat_map f l))%nat.
Proof.
  intros X f l H. induction l as [|a l IH]; simpl; auto. rewrite app_length.
  assert (f a <> []) by (apply H; left; auto). destruct (f a); [contradiction|]. simpl.
  assert (forall x, In x l -> f x <> []) by (intros; apply H; right; auto). specialize (IH H1). lia.
Qed.
Lemma lv_len : forall h, Z.of_nat (length (lv h)) <= L.
Proof.
  intro h. pose proof (wb_L m W). apply Z.le_trans with (Z.of_nat (length (zrange 0 L))).
  - apply inj_le. unfold leavesof. induction (zrange 0 L) as [|a r IHr]; cbn [filter length]; [lia|].
    destruct (belowb ps a h); cbn [length]; lia.
  - pose proof (zrange_length 0 L). lia.
Qed.
Lemma hcover_len : forall h l, 0 <= h < hsize -> hcover m h l -> 1 <= Z.of_nat (length l) <= L.
Proof.
  intros h l Hh C. destruct C as [C1 C2]. pose proof (len_flat _ lv l (fun x Hx => lv_nonempty m W x (proj1 (C1 x Hx)))) as K.
  rewrite (Permutation_length C2) in K. pose proof (lv_len h). split; [|lia].
  destruct l; [|cbn [length]; lia]. exfalso. apply (lv_nonempty m W h Hh). apply Permutation_nil. exact C2.
Qed.

Section One.
Variables (T : Z -> tradeoff) (G : Z -> bool).
Hypothesis HTG : forall h, 0 <= h < hsize -> (T h, G h) = hdec A m q p T h.

Lemma Gleaf : forall h, 0 <= h < L -> G h = true.
Proof.
  intros h Hh. pose proof (wb_L m W). pose proof (HTG h ltac:(lia)) as K. unfold hdec in K.
  replace (h <? L) with true in K by (symmetry; apply Z.ltb_lt; lia). congruence.
Qed.
Lemma hsel_cov : forall h, 0 <= h < hsize -> hcover m h (hsel m G h).
Proof.
  intros h Hh. split; [apply (hsel_nodes m W H2); auto|]. apply Permutation_sym, (hsel_leaves m W H2); auto. exact Gleaf.
Qed.

Lemma hvl_flat : forall (f : Z -> list Z) l, hvl (flat_map f l) = Rsum (fun c => hvl (f c)) l.
Proof. intros f l. unfold hvl. induction l as [|c l IH]; auto. cbn [flat_map]. rewrite Rsum_app, Rsum_cons, IH. auto. Qed.
Lemma hvl_perm : forall l l', Permutation l l' -> hvl l = hvl l'.
Proof.
  intros l l' H. unfold hvl, Rsum. induction H; simpl; auto; [rewrite IHPermutation; auto|lra|congruence].
Qed.

Lemma Rsum_under : forall (f g : Z -> R) (k : Z -> Z) (e : R) l, (forall c, In c l -> (f c <= g c + IZR (2 * k c - 1) * e)%R) ->
  (Rsum f l <= Rsum g l + IZR (2 * zsum k l - Z.of_nat (length l)) * e)%R.
Proof.
  intros f g k e l H. unfold Rsum, zsum. induction l as [|c l IH]; cbn [map fold_right length].
  - change (2 * 0 - Z.of_nat 0) with 0. lra.
  - pose proof (H c (or_introl eq_refl)). assert (H' : forall c, In c l -> (f c <= g c + IZR (2 * k c - 1) * e)%R) by (intros; apply H; right; auto).
    specialize (IH H').
    replace (2 * (k c + fold_right Z.add 0 (map k l)) - Z.of_nat (S (length l))) with
      ((2 * k c - 1) + (2 * fold_right Z.add 0 (map k l) - Z.of_nat (length l))) by lia.
    rewrite plus_IZR. lra.
Qed.

Lemma h_near : forall h, 0 <= h < hsize ->
  near L M (Z.of_nat (length (hsel m G h))) (t_value (T h)) (hvl (hsel m G h)) /\
  forall l, hcover m h l -> (hvl l <= rval lg (T h) + IZR (2 * Z.of_nat (length l) - 1) * E)%R.
Proof.
  pose proof HMh as hm. pose proof HNh as hn. pose proof (E_pos L M hn hm) as EP.
  apply (tree_ind m W (fun h => near L M (Z.of_nat (length (hsel m G h))) (t_value (T h)) (hvl (hsel m G h)) /\
    forall l, hcover m h l -> (hvl l <= rval lg (T h) + IZR (2 * Z.of_nat (length l) - 1) * E)%R)).
  intros h Hh IH. pose proof (near_qh h Hh) as Nq. pose proof (HTG h Hh) as K. unfold hdec in K.
  assert (One : hvl [h] = pvalh (q h)) by (unfold hvl, Rsum; simpl; ring).
  assert (Eq : (pvalh (q h) <= rval lg (t_set A (q h) p) + E)%R).
  { destruct Nq as (_ & Er & _). change (Z.max 0 (2 * 1 - 1)) with 1 in Er. apply Rabs_le_inv in Er. unfold rval. lra. }
  destruct (Z.ltb_spec h L) as [Hl|Hl].
  - inversion K as [[K1 K2]]. split.
    + rewrite (hsel_eq m W) by auto. rewrite K2, One, K1. exact Nq.
    + intros l C. rewrite (hcover_leaf m W h l) by (auto; lia). rewrite One, K1. cbn [length]. change (2 * Z.of_nat 1 - 1) with 1. lra.
  - assert (HK : forall c, In c (kids h) -> 0 <= c < hsize) by (intros c Hc; apply (kid_below m W h c Hh Hc)).
    assert (NK : forall c, In c (kids h) -> 1 <= Z.of_nat (length (hsel m G c)) /\
       near L M (Z.of_nat (length (hsel m G c))) (t_value (T c)) (hvl (hsel m G c))).
    { intros c Hc. split; [apply (hcover_len c _ (HK c Hc) (hsel_cov c (HK c Hc)))|apply IH; auto]. }
    assert (LK : zsum (fun c => Z.of_nat (length (hsel m G c))) (kids h) <= L).
    { rewrite zsum_len.
      assert (Hf : forall c, In c (kids h) -> hcover m c (hsel m G c)) by (intros c Hc; apply hsel_cov; auto).
      apply Z.le_trans with (Z.of_nat (length (flat_map lv (flat_map (hsel m G) (kids h))))).
      - apply inj_le, len_flat. intros y Hy. apply in_flat_map in Hy. destruct Hy as [c [Hc Hy]]. apply (lv_nonempty m W).
        apply (Hf c Hc). auto.
      - assert (Pm : Permutation (flat_map lv (flat_map (hsel m G) (kids h))) (lv h)).
        { rewrite (leavesof_kids m W h ltac:(lia)). clear - Hf. induction (kids h) as [|c l IHl]; simpl; auto.
          rewrite flat_map_app. apply Permutation_app; [apply Hf; left; auto|apply IHl; intros; apply Hf; right; auto]. }
        rewrite (Permutation_length Pm). apply lv_len. }
    destruct (csum_near lg L M hn hm T _ _ (kids h) NK LK) as [NS ES].
    assert (KN : (1 <= length (kids h))%nat).
    { destruct (kids h) as [|c r] eqn:Ek; [|simpl; lia]. exfalso. pose proof (leavesof_kids m W h ltac:(lia)) as Pm. rewrite Ek in Pm.
      apply (lv_nonempty m W h Hh). apply Permutation_nil. symmetry. exact Pm. }
    assert (FT : fval lg (t_set A (q h) p)) by apply Nq. assert (FC : fval lg (csum A T (kids h))) by apply NS.
    assert (Up : (rval lg (t_set A (q h) p) <= rval lg (T h))%R -> (rval lg (csum A T (kids h)) <= rval lg (T h))%R ->
      forall l, hcover m h l -> (hvl l <= rval lg (T h) + IZR (2 * Z.of_nat (length l) - 1) * E)%R).
    { intros B1 B2 l C. destruct (in_dec Z.eq_dec h l) as [Hin|Hn].
      - rewrite (hcover_self m W h l Hh C Hin), One. cbn [length]. change (2 * Z.of_nat 1 - 1) with 1. lra.
      - destruct (hcover_split m W h l Hh C Hn) as [Pm Hc]. rewrite (hvl_perm _ _ Pm), hvl_flat, (Permutation_length Pm), <- zsum_len.
        assert (Us : (Rsum (fun c => hvl (sub_l m l c)) (kids h) <= Rsum (fun c => rval lg (T c)) (kids h) +
          IZR (2 * zsum (fun c => Z.of_nat (length (sub_l m l c))) (kids h) - Z.of_nat (length (kids h))) * E)%R).
        { apply Rsum_under. intros c Hk. apply IH; auto. }
        apply Rabs_le_inv in ES.
        replace (Z.max 0 (Z.of_nat (length (kids h)) - 1)) with (Z.of_nat (length (kids h)) - 1) in ES by lia.
        set (zz := zsum (fun c => Z.of_nat (length (sub_l m l c))) (kids h)) in *.
        replace (2 * zz - 1) with ((2 * zz - Z.of_nat (length (kids h))) + (Z.of_nat (length (kids h)) - 1)) by lia.
        rewrite plus_IZR. lra. }
    destruct (t_ltb A (t_set A (q h) p) (csum A T (kids h))) eqn:EV; inversion K as [[K1 K2]].
    + apply ltb_true in EV; auto. split; [|apply Up; rewrite K1; lra].
      rewrite (hsel_eq m W) by auto. rewrite K2, hvl_flat, K1, <- zsum_len. exact NS.
    + apply ltb_false in EV; auto. split; [|apply Up; rewrite K1; lra].
      rewrite (hsel_eq m W) by auto. rewrite K2, One, K1. exact Nq.
Qed.
End One.
End H.
