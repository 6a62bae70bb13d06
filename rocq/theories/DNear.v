(** * DPartitioner in floating point: the chosen partition is optimal, up to rounding, among the never-up covers. *)
From Coq Require Import Reals Lra Lia Permutation.
From Flocq Require Import Core BinarySingleNaN.
From Verif Require Import Base BaseFacts Arith Quality Utm UtmFacts Hierarchy SpecTree SpecParts TreeFacts HierarchyProofs
  Partitions Partitioners TreePath CoverFacts HFacts LexR OReal HReal DFacts DSel Ieee SpecIeee IeeeFacts SpecNear NearFacts InfoFacts HNear.

Section D.
Context (lg : f80 -> f80).
Notation A := (IA lg).
Notation quality := (quality A).
Notation tradeoff := (tradeoff A).
Context (m : meta).
Hypothesis W : well_built m.
Notation ps := (m_parents m).
Notation L := (m_leaves m).
Notation hsize := (m_hsize m).
Notation root := (m_root m).
Notation kids := (kids m).
Notation lv := (leavesof L ps).
Variables (n : Z) (q : Z -> Z -> Z -> quality) (p : f32) (B : R).
Hypothesis Hn : 1 <= n.
Hypothesis HL : L * n <= 4294967296.
Hypothesis HB : sane_bound B.
Hypothesis Hp : unit32 p.
Hypothesis Hq : forall h a b, 0 <= h < hsize -> 0 <= a <= b -> b < n -> qual_le B (q h a b).
Notation M := (2 * B)%R.
Notation K0 := (L * n).
Notation E := (eunit K0 M).
Notation N := (n - 1).

Definition pvald (qq : quality) : R := (wgain p * B2R (gain qq : f80) - wloss p * B2R (loss qq : f80))%R.
Definition dvl (l : list (Z * Z * Z)) : R := Rsum (fun r => pvald (q3 A q r)) l.

Lemma HMd : (0 <= M <= b2 16001)%R.
Proof.
  destruct HB as [B1 B2]. pose proof (bpow_gt_0 radix2 (-16000)). split; [lra|].
  change (b2 16001) with (b2 (1 + 16000)). rewrite bpow_plus. change (b2 1) with 2%R. lra.
Qed.
Lemma HNd : 1 <= K0 <= 4294967296. Proof. pose proof (wb_L m W). nia. Qed.

Lemma near_qd : forall h a b, 0 <= h < hsize -> 0 <= a <= b -> b < n -> near K0 M 1 (t_value (t_set A (q h a b) p)) (pvald (q h a b)).
Proof. intros h a b Hh Ha Hb. apply (near_pic lg K0 B (q h a b) p HNd HB (Hq h a b Hh Ha Hb) Hp). Qed.

(** A cover has at most as many rectangles as cells. *)
Lemma rcover_len : forall h i l, 0 <= h < hsize -> 0 <= i < n -> rcover m n h i l ->
  1 <= Z.of_nat (length l) <= Z.of_nat (length (lv h)) * (n - i).
Proof.
  intros h i l Hh Hi RC. destruct RC as [ND Hr Hc Hu]. split.
  - destruct l as [|r l]; [|cbn [length]; lia]. exfalso. destruct (lv h) as [|x r] eqn:Ex; [apply (lv_nonempty m W h Hh Ex)|].
    destruct (Hc x i) as (r0 & [] & _); [left; auto|lia].
  - set (f := fun r : Z * Z * Z => let '(y, a, _) := r in (hd 0 (lv y), a)).
    assert (Hd : forall y, 0 <= y < hsize -> In (hd 0 (lv y)) (lv y)).
    { intros y Hy. pose proof (lv_nonempty m W y Hy). destruct (lv y); [contradiction|left; auto]. }
    assert (NM : NoDup (map f l)).
    { clear Hc. induction l as [|r l IH]; [constructor|]. inversion ND as [|? ? Nr Nl]; subst. cbn [map]. constructor.
      - intro K. apply in_map_iff in K. destruct K as [r' [Ef Hr']]. apply Nr.
        assert (r = r') as ->; auto. destruct r as [[y a] b], r' as [[y' a'] b']. cbn [f] in Ef. inversion Ef as [[E1 E2]]. subst a'.
        destruct (Hr y a b (or_introl eq_refl)) as (R1 & _ & R2 & _). destruct (Hr y' a b' (or_intror Hr')) as (R1' & _ & R2' & _).
        pose proof (Hd y R1) as D1. pose proof (Hd y' R1') as D2. rewrite E1 in D2. apply (lv_In m W) in D1, D2.
        apply (Hu (hd 0 (lv y)) a); [tauto|left; auto|right; auto|split; [tauto|lia]|split; [tauto|lia]].
      - apply IH; auto; [intros; apply Hr; right; auto|]. intros x o r1 r2 Hx H1 H2. apply Hu; auto; right; auto. }
    assert (IN : incl (map f l) (list_prod (lv h) (zrange i n))).
    { intros [x o] K. apply in_map_iff in K. destruct K as [[[y a] b] [Ef Hy]]. cbn [f] in Ef. inversion Ef; subst x o.
      destruct (Hr y a b Hy) as (R1 & R2 & R3 & R4). apply in_prod; [|apply In_zrange; lia].
      apply (below_lv m W y h R2). auto. }
    pose proof (NoDup_incl_length NM IN) as K. rewrite map_length, prod_length, zrange_length in K. nia.
Qed.
Lemma rcover_len' : forall h i l, 0 <= h < hsize -> 0 <= i < n -> rcover m n h i l -> 1 <= Z.of_nat (length l) <= K0.
Proof.
  intros h i l Hh Hi RC. pose proof (rcover_len h i l Hh Hi RC). pose proof (lv_len m W h). pose proof (wb_L m W). nia.
Qed.

Section One.
Variables (C : Z -> Z -> Z) (T : Z -> Z -> tradeoff).
Hypothesis HCT : forall h i, 0 <= h < hsize -> 0 <= i < n -> (C h i, T h i) = dline A m n q p T h i.

Definition vcut (h i c : Z) : Prop := (c = -1 /\ L <= h) \/ i <= c < n.
Definition dcf (h i c : Z) : tradeoff :=
  if c =? -1 then csum A (fun k => T k i) (kids h)
  else if c =? N then t_set A (q h i N) p
  else t_add A (t_add A (t_zero A) (t_set A (q h i c) p)) (T h (c + 1)).

Lemma dline_best : forall h i, 0 <= h < hsize -> 0 <= i < n -> (forall c, vcut h i c -> fval lg (dcf h i c)) ->
  vcut h i (C h i) /\ T h i = dcf h i (C h i) /\ forall c, vcut h i c -> (rval lg (dcf h i c) <= rval lg (T h i))%R.
Proof.
  intros h i Hh Hi HF.
  assert (EN : dcf h i N = t_set A (q h i N) p).
  { unfold dcf. destruct (Z.eqb_spec N (-1)); [lia|]. rewrite Z.eqb_refl. auto. }
  assert (EM : dcf h i (-1) = csum A (fun k => T k i) (kids h)) by reflexivity.
  assert (FN : fval lg (dcf h i N)) by (apply HF; right; lia).
  assert (G : forall b, i <= b <= N ->
    let r := fold_left (dstep A q p (T h) h i) (zrange i b) (dinit A q p (L <=? h) (csum A (fun c => T c i) (kids h)) h i N) in
    ((fst r = -1 /\ L <= h) \/ fst r = N \/ i <= fst r < b) /\ snd r = dcf h i (fst r) /\
    forall c, ((c = -1 /\ L <= h) \/ c = N \/ i <= c < b) -> (rval lg (dcf h i c) <= rval lg (snd r))%R).
  { intros b Hb. assert (exists k, b = i + Z.of_nat k) as [k Hk] by (exists (Z.to_nat (b - i)); lia).
    revert b Hb Hk. induction k as [|k IH]; intros b Hb Hk.
    - replace b with i by lia. rewrite zrange_empty by lia. cbn [fold_left].
      unfold dinit. destruct (Z.leb_spec L h) as [Hl|Hl]; cbn [andb].
      + assert (FM : fval lg (dcf h i (-1))) by (apply HF; left; auto).
        rewrite <- EM, <- EN. destruct (t_gtb A (dcf h i (-1)) (dcf h i N)) eqn:Eg; cbn [fst snd].
        * apply gtb_true in Eg; auto. split; [left; auto|]. split; auto. intros c [[-> _]|[->|]]; [apply Rle_refl|auto|lia].
        * apply gtb_false in Eg; auto. split; [right; left; auto|]. split; auto. intros c [[-> _]|[->|]]; [auto|apply Rle_refl|lia].
      + cbn [fst snd]. split; [right; left; auto|]. split; auto. intros c [|[->|]]; [lia| |lia]. rewrite EN. apply Rle_refl.
    - replace b with (b - 1 + 1) in * by lia. set (b0 := b - 1) in *.
      destruct (IH b0 ltac:(lia) ltac:(lia)) as (I1 & I2 & I3).
      rewrite zrange_snoc by lia. rewrite fold_left_app. cbn [fold_left].
      destruct (fold_left (dstep A q p (T h) h i) (zrange i b0) _) as [c0 t0].
      cbn [fst snd] in *. unfold dstep. cbn [snd].
      assert (Eb : dcf h i b0 = t_add A (t_add A (t_zero A) (t_set A (q h i b0) p)) (T h (b0 + 1))).
      { unfold dcf. destruct (Z.eqb_spec b0 (-1)); [lia|]. destruct (Z.eqb_spec b0 N); [lia|auto]. }
      assert (F0 : fval lg t0) by (rewrite I2; apply HF; unfold vcut; lia).
      assert (Fb : fval lg (dcf h i b0)) by (apply HF; right; lia).
      rewrite <- Eb. destruct (t_gtb A (dcf h i b0) t0) eqn:Eg.
      + apply gtb_true in Eg; auto. cbn [fst snd]. split; [right; right; lia|]. split; [auto|].
        intros c Hc. destruct (Z.eq_dec c b0) as [->|Hc0]; [apply Rle_refl|]. eapply Rle_trans; [apply I3; lia|exact Eg].
      + apply gtb_false in Eg; auto. cbn [fst snd]. split; [lia|]. split; [auto|].
        intros c Hc. destruct (Z.eq_dec c b0) as [->|Hc0]; auto. apply I3. lia. }
  destruct (G N ltac:(lia)) as (G1 & G2 & G3). cbv zeta in *.
  change (fold_left (dstep A q p (T h) h i) (zrange i N) (dinit A q p (L <=? h) (csum A (fun c => T c i) (kids h)) h i N))
    with (dline A m n q p T h i) in *.
  rewrite <- HCT in * by auto. cbn [fst snd] in *. unfold vcut. split; [lia|]. split; [auto|]. intros c Hc. apply G3. lia.
Qed.

Hypothesis OK : okcut m n C.

Lemma dvl_flat : forall (f : Z -> list (Z * Z * Z)) l, dvl (flat_map f l) = Rsum (fun c => dvl (f c)) l.
Proof. intros f l. unfold dvl. induction l as [|c l IH]; auto. cbn [flat_map]. rewrite Rsum_app, Rsum_cons, IH. auto. Qed.
Lemma dvl_perm : forall l l', Permutation l l' -> dvl l = dvl l'.
Proof. intros l l' H. unfold dvl, Rsum. induction H; simpl; auto; [rewrite IHPermutation; auto|lra|congruence]. Qed.
Lemma dvl_cons : forall h a b l, dvl ((h, a, b) :: l) = (pvald (q h a b) + dvl l)%R.
Proof. reflexivity. Qed.

Lemma flat_len : forall h i, L <= h < hsize -> 0 <= i < n ->
  zsum (fun c => Z.of_nat (length (dsel m n C c i))) (kids h) <= K0.
Proof.
  intros h i Hh Hi. assert (Hh' : 0 <= h < hsize) by (pose proof (wb_L m W); lia).
  assert (G : forall l, (forall c, In c l -> 0 <= c < hsize) ->
     zsum (fun c => Z.of_nat (length (dsel m n C c i))) l <= Z.of_nat (length (flat_map lv l)) * (n - i)).
  { induction l as [|c l IH]; intro Hl; unfold zsum in *; cbn [map fold_right flat_map]; [cbn; lia|]. rewrite app_length.
    assert (Rc : 0 <= c < hsize) by (apply Hl; left; auto).
    pose proof (rcover_len c i _ Rc Hi (dsel_cover m W n Hn C OK c i Rc Hi)).
    specialize (IH (fun c Hc => Hl c (or_intror Hc))). rewrite Nat2Z.inj_add, Z.mul_add_distr_r. lia. }
  specialize (G (kids h) (fun c Hc => proj2 (proj2 (kid_below m W h c Hh' Hc)))).
  rewrite <- (Permutation_length (leavesof_kids m W h Hh)) in G. pose proof (lv_len m W h).
  eapply Z.le_trans; [exact G|]. apply Z.mul_le_mono_nonneg; lia.
Qed.

Lemma d_near : forall h i, 0 <= h < hsize -> 0 <= i < n ->
  near K0 M (Z.of_nat (length (dsel m n C h i))) (t_value (T h i)) (dvl (dsel m n C h i)) /\
  forall l, rcover m n h i l -> desc m l -> (dvl l <= rval lg (T h i) + IZR (2 * Z.of_nat (length l) - 1) * E)%R.
Proof.
  pose proof HMd as hm. pose proof HNd as hn. pose proof (E_pos K0 M hn hm) as EP.
  apply (dind m W n Hn (fun h i => near K0 M (Z.of_nat (length (dsel m n C h i))) (t_value (T h i)) (dvl (dsel m n C h i)) /\
    forall l, rcover m n h i l -> desc m l -> (dvl l <= rval lg (T h i) + IZR (2 * Z.of_nat (length l) - 1) * E)%R)).
  intros h i Hh Hi IHk IHt.
  assert (Cov : forall h i, 0 <= h < hsize -> 0 <= i < n -> rcover m n h i (dsel m n C h i)) by (intros; apply (dsel_cover m W n Hn); auto).
  (* the candidate that cuts after c *)
  assert (Near : forall c, i <= c < N ->
     near K0 M (1 + Z.of_nat (length (dsel m n C h (c + 1)))) (t_value (dcf h i c)) (pvald (q h i c) + dvl (dsel m n C h (c + 1))) /\
     (Rabs (rval lg (dcf h i c) - (rval lg (t_set A (q h i c) p) + rval lg (T h (c + 1)))) <= E)%R).
  { intros c Hc. destruct (IHt (c + 1) ltac:(lia)) as [Nt _].
    assert (Ln : 1 + Z.of_nat (length (dsel m n C h (c + 1))) <= K0).
    { pose proof (rcover_len h (c + 1) _ Hh ltac:(lia) (Cov h (c + 1) Hh ltac:(lia))). pose proof (lv_len m W h). pose proof (wb_L m W). nia. }
    pose proof (near_qd h i c Hh ltac:(lia) ltac:(lia)) as Nq.
    assert (Nz : near K0 M 1 (Bplus mode_NE (B754_zero false) (t_value (t_set A (q h i c) p))) (pvald (q h i c))).
    { apply (near_ext _ _ _ _ (0 + pvald (q h i c))); [ring|]. apply (near_add K0 M hn hm 0 1); auto; try lia. apply near_zero. }
    assert (Ed : dcf h i c = t_add A (t_add A (t_zero A) (t_set A (q h i c) p)) (T h (c + 1))).
    { unfold dcf. destruct (Z.eqb_spec c (-1)); [lia|]. destruct (Z.eqb_spec c N); [lia|auto]. }
    rewrite Ed. split.
    - apply (near_add K0 M hn hm 1 (Z.of_nat (length (dsel m n C h (c + 1))))); auto; lia.
    - destruct (near_plus K0 M hn hm 1 (Z.of_nat (length (dsel m n C h (c + 1)))) _ _ _ _ ltac:(lia) ltac:(lia) ltac:(lia) Nz Nt) as (_ & _ & Er).
      rewrite (near_zero_l K0 M hn hm 1 _ _ ltac:(lia) Nq) in Er. exact Er. }
  (* the candidate that splits into the children *)
  assert (NearK : L <= h ->
     near K0 M (zsum (fun c => Z.of_nat (length (dsel m n C c i))) (kids h)) (t_value (dcf h i (-1))) (dvl (flat_map (fun c => dsel m n C c i) (kids h))) /\
     (Rabs (rval lg (dcf h i (-1)) - Rsum (fun c => rval lg (T c i)) (kids h)) <= IZR (Z.of_nat (length (kids h)) - 1) * E)%R).
  { intro Hl. destruct (csum_near lg K0 M hn hm (fun c => T c i) (fun c => Z.of_nat (length (dsel m n C c i))) (fun c => dvl (dsel m n C c i)) (kids h)) as [NS ES].
    - intros c Hc. pose proof (kid_below m W h c Hh Hc) as (_ & _ & Rc). split; [apply (rcover_len c i _ Rc Hi (Cov c i Rc Hi))|apply IHk; auto].
    - apply flat_len; auto. lia.
    - rewrite dvl_flat. split; [exact NS|].
      assert (KN : (1 <= length (kids h))%nat).
      { destruct (kids h) as [|c r] eqn:Ek; [|simpl; lia]. exfalso. pose proof (leavesof_kids m W h ltac:(lia)) as Pm. rewrite Ek in Pm.
        apply (lv_nonempty m W h Hh). apply Permutation_nil. symmetry. exact Pm. }
      replace (Z.max 0 (Z.of_nat (length (kids h)) - 1)) with (Z.of_nat (length (kids h)) - 1) in ES by lia. exact ES. }
  assert (EN : dcf h i N = t_set A (q h i N) p).
  { unfold dcf. destruct (Z.eqb_spec N (-1)); [lia|]. rewrite Z.eqb_refl. auto. }
  assert (HF : forall c, vcut h i c -> fval lg (dcf h i c)).
  { intros c [[-> Hl]|Hc]; [apply (NearK Hl)|]. destruct (Z.eq_dec c N) as [->|D]; [rewrite EN; apply (near_qd h i N); lia|].
    apply (Near c). lia. }
  destruct (dline_best h i Hh Hi HF) as (V & ET & Best). split.
  - rewrite (dsel_eq m W n Hn C OK) by auto. rewrite ET. destruct (Z.eqb_spec (C h i) (-1)) as [Ec|Dc].
    + rewrite Ec. rewrite <- zsum_len. apply NearK. destruct V as [[_ V]|V]; lia.
    + destruct V as [V|V]; [lia|]. destruct (Z.ltb_spec (C h i) N) as [Lt|Ge].
      * cbn [length]. replace (Z.of_nat (S (length (dsel m n C h (C h i + 1))))) with (1 + Z.of_nat (length (dsel m n C h (C h i + 1)))) by lia.
        rewrite dvl_cons. apply Near. lia.
      * replace (C h i) with N by lia. rewrite EN. cbn [length]. rewrite dvl_cons. unfold dvl, Rsum. cbn [map fold_right]. rewrite Rplus_0_r.
        apply near_qd; lia.
  - intros l RC D. destruct (use_h h l) eqn:U.
    + destruct (desc_first m W n h i l Hh Hi RC D U) as [c Hc].
      destruct (rcover_tail m W n h i c l Hh Hi RC Hc) as (Rc & Pm & Ee & Et).
      rewrite (dvl_perm _ _ Pm), dvl_cons, (Permutation_length Pm). cbn [length].
      destruct (near_qd h i c Hh ltac:(lia) ltac:(lia)) as (_ & Eq & _).
      change (Z.max 0 (2 * 1 - 1)) with 1 in Eq. apply Rabs_le_inv in Eq. pose proof (Best c ltac:(right; auto)) as Bs.
      destruct (Z.eq_dec c N) as [->|Dc].
      * rewrite Ee by auto. rewrite EN in Bs. unfold dvl, Rsum. cbn [map fold_right length]. change (2 * Z.of_nat 1 - 1) with 1. unfold rval in *. lra.
      * destruct (Near c ltac:(lia)) as [_ Er]. apply Rabs_le_inv in Er. destruct (IHt (c + 1) ltac:(lia)) as [_ Ht].
        assert (DR : desc m (rest_l h i c l)) by (apply (desc_sub m l); auto; intros r Hr; apply rest_l_In in Hr; tauto).
        specialize (Ht _ (Et ltac:(lia)) DR).
        replace (2 * Z.of_nat (S (length (rest_l h i c l))) - 1) with (2 + (2 * Z.of_nat (length (rest_l h i c l)) - 1)) by lia.
        rewrite plus_IZR. unfold rval in *. lra.
    + assert (Hl : L <= h).
      { destruct (Z_lt_le_dec h L); auto. rewrite (rcover_leaf m W n h i l) in U by (auto; lia). discriminate. }
      destruct (rcover_split m W n h i l Hh RC U) as [Pm Hc]. destruct (NearK Hl) as [_ Er]. apply Rabs_le_inv in Er.
      pose proof (Best (-1) ltac:(left; auto)) as Bs.
      rewrite (dvl_perm _ _ Pm), dvl_flat, (Permutation_length Pm), <- zsum_len.
      match goal with |- (Rsum (fun c => dvl (?F c)) _ <= _)%R => set (F1 := F) in * end.
      assert (Us : (Rsum (fun c => dvl (F1 c)) (kids h) <= Rsum (fun c => rval lg (T c i)) (kids h) +
          IZR (2 * zsum (fun c => Z.of_nat (length (F1 c))) (kids h) - Z.of_nat (length (kids h))) * E)%R).
      { apply Rsum_under. intros c Hk. destruct (IHk c Hk) as [_ Hk2]. apply Hk2; [apply Hc; auto|].
        apply (desc_sub m l); auto. intros r Hr. unfold F1 in Hr. apply filter_In in Hr; tauto. }
      set (zz := zsum (fun c => Z.of_nat (length (F1 c))) (kids h)) in *.
      replace (2 * zz - 1) with ((2 * zz - Z.of_nat (length (kids h))) + (Z.of_nat (length (kids h)) - 1)) by lia.
      rewrite plus_IZR. lra.
Qed.
End One.
End D.
