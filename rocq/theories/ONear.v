(** * OPartitioner in floating point: the chosen partition is optimal up to rounding. *)
From Coq Require Import Reals Lra Lia.
From Flocq Require Import Core BinarySingleNaN.
From Verif Require Import Base BaseFacts Arith Quality Utm UtmFacts Partitions Partitioners SpecParts OFacts Ieee SpecIeee IeeeFacts SpecNear NearFacts
  InfoFacts.

Lemma tiles_len : forall a e l, tiles a e l -> a + Z.of_nat (length l) <= e.
Proof. intros a e l H. induction H; cbn [length]; lia. Qed.

Lemma ochain_fun : forall n C i l, ochain n C i l -> 0 <= i -> forall l', ochain n C i l' -> l' = l.
Proof.
  intros n C i l H. induction H as [|i r Hc Hr IH]; intros Hi l' H'.
  - inversion H'; subst; auto. lia.
  - inversion H' as [|i' r' Hc' Hr']; subst; [lia|]. f_equal. apply IH; auto. lia.
Qed.

Section O.
Context (lg : f80 -> f80).
Notation A := (IA lg).
Notation quality := (quality A).
Notation tradeoff := (tradeoff A).
Variables (n : Z) (q : Z -> Z -> quality) (p : f32) (B : R).
Hypothesis Hn : 1 <= n <= 65535.
Hypothesis HB : sane_bound B.
Hypothesis Hp : unit32 p.
Hypothesis Hq : forall a b, 0 <= a <= b -> b < n -> qual_le B (q a b).
Notation M := (2 * B)%R.
Notation E := (eunit n M).

Definition pval (qq : quality) : R := (wgain p * B2R (gain qq : f80) - wloss p * B2R (loss qq : f80))%R.
Definition oval (l : list (Z * Z)) : R := Rsum (fun ab => pval (q (fst ab) (snd ab))) l.

Lemma HM : (0 <= M <= b2 16001)%R.
Proof.
  destruct HB as [B1 B2]. pose proof (bpow_gt_0 radix2 (-16000)). split; [lra|].
  change (b2 16001) with (b2 (1 + 16000)). rewrite bpow_plus. change (b2 1) with 2%R. lra.
Qed.
Lemma HN : 1 <= n <= 4294967296. Proof. lia. Qed.

Lemma near_q : forall a b, 0 <= a <= b -> b < n -> near n M 1 (t_value (t_set A (q a b) p)) (pval (q a b)).
Proof. intros a b H1 H2. apply (near_pic lg n B (q a b) p HN HB (Hq a b H1 H2) Hp). Qed.

Section One.
Variables (C : Z -> Z) (T : Z -> tradeoff).
Hypothesis HCT : forall i, 0 <= i < n -> (C i, T i) = oline A n q p T i.

Definition ocf (i c : Z) : tradeoff := if c =? n - 1 then t_set A (q i (n - 1)) p else ocand A q p T i c.

Lemma oline_best : forall i, 0 <= i < n -> (forall c, i <= c < n -> fval lg (ocf i c)) ->
  T i = ocf i (C i) /\ forall c, i <= c < n -> (rval lg (ocf i c) <= rval lg (T i))%R.
Proof.
  intros i Hi HF.
  assert (G : forall b, i <= b <= n - 1 ->
    let r := fold_left (ostep A q p T i) (zrange i b) (n - 1, t_set A (q i (n - 1)) p) in
    (fst r = n - 1 \/ i <= fst r < b) /\ snd r = ocf i (fst r) /\
    forall c, (c = n - 1 \/ i <= c < b) -> (rval lg (ocf i c) <= rval lg (snd r))%R).
  { intros b Hb. assert (exists k, b = i + Z.of_nat k) as [k Hk] by (exists (Z.to_nat (b - i)); lia).
    revert b Hb Hk. induction k as [|k IH]; intros b Hb Hk.
    - replace b with i by lia. rewrite zrange_empty by lia. cbn [fold_left fst snd]. split; [left; auto|].
      assert (E : ocf i (n - 1) = t_set A (q i (n - 1)) p) by (unfold ocf; rewrite Z.eqb_refl; auto).
      split; [auto|]. intros c [->|]; [|lia]. rewrite E. apply Rle_refl.
    - replace b with (b - 1 + 1) in * by lia. set (b0 := b - 1) in *.
      destruct (IH b0 ltac:(lia) ltac:(lia)) as (I1 & I2 & I3).
      rewrite zrange_snoc by lia. rewrite fold_left_app. cbn [fold_left].
      destruct (fold_left (ostep A q p T i) (zrange i b0) (n - 1, t_set A (q i (n - 1)) p)) as [c0 t0].
      cbn [fst snd] in *. unfold ostep. cbn [snd].
      assert (Eb : ocf i b0 = ocand A q p T i b0).
      { unfold ocf. destruct (Z.eqb_spec b0 (n - 1)); [lia|auto]. }
      assert (F0 : fval lg t0) by (rewrite I2; apply HF; lia).
      assert (Fb : fval lg (ocf i b0)) by (apply HF; lia).
      rewrite <- Eb. destruct (t_gtb A (ocf i b0) t0) eqn:E.
      + apply gtb_true in E; auto. cbn [fst snd]. split; [right; lia|]. split; [auto|].
        intros c Hc. destruct (Z.eq_dec c b0) as [->|Hx]; [apply Rle_refl|].
        eapply Rle_trans; [apply I3; lia|exact E].
      + apply gtb_false in E; auto. cbn [fst snd]. split; [destruct I1; [left; auto|right; lia]|]. split; [auto|].
        intros c Hc. destruct (Z.eq_dec c b0) as [->|Hx]; auto. apply I3. lia. }
  destruct (G (n - 1) ltac:(lia)) as (G1 & G2 & G3). cbv zeta in *.
  change (fold_left (ostep A q p T i) (zrange i (n - 1)) (n - 1, t_set A (q i (n - 1)) p)) with (oline A n q p T i) in *.
  rewrite <- HCT in * by auto. cbn [fst snd] in *. split; [auto|]. intros c Hc. apply G3. lia.
Qed.

Lemma C_range : forall i, 0 <= i < n -> i <= C i < n.
Proof. intros i Hi. pose proof (oline_range A n q p T i Hi) as K. rewrite <- HCT in K by auto. exact K. Qed.

Lemma o_near : forall k i, 0 <= i < n -> n - i <= Z.of_nat k ->
  exists l, ochain n C i l /\ near n M (Z.of_nat (length l)) (t_value (T i)) (oval l) /\
    forall l', tiles i n l' -> (oval l' <= rval lg (T i) + IZR (2 * Z.of_nat (length l') - 1) * E)%R.
Proof.
  pose proof HM as hm. pose proof HN as hn. pose proof (E_pos n M hn hm) as EP.
  induction k as [|k IH]; intros i Hi Hk; [lia|].
  assert (Near : forall c, i <= c < n - 1 -> exists l, ochain n C (c + 1) l /\
     near n M (Z.of_nat (length l)) (t_value (T (c + 1))) (oval l) /\
     near n M (1 + Z.of_nat (length l)) (t_value (ocand A q p T i c)) (pval (q i c) + oval l) /\
     (Rabs (rval lg (ocand A q p T i c) - (rval lg (t_set A (q i c) p) + rval lg (T (c + 1)))) <= E)%R).
  { intros c Hc. destruct (IH (c + 1) ltac:(lia) ltac:(lia)) as (l & O & Nl & _). exists l. split; auto. split; auto.
    pose proof (tiles_len _ _ _ (ochain_tiles n C _ _ O)) as Ln.
    pose proof (near_q i c ltac:(lia) ltac:(lia)) as Nq. split.
    - apply (near_add n M hn hm 1 (Z.of_nat (length l))); auto; lia.
    - destruct (near_plus n M hn hm 1 (Z.of_nat (length l)) _ _ _ _ ltac:(lia) ltac:(lia) ltac:(lia) Nq Nl) as (_ & _ & Er). exact Er. }
  assert (HF : forall c, i <= c < n -> fval lg (ocf i c)).
  { intros c Hc. unfold ocf. destruct (Z.eqb_spec c (n - 1)) as [->|D].
    - apply (near_q i (n - 1)); lia.
    - destruct (Near c ltac:(lia)) as (l & _ & _ & N1 & _). apply N1. }
  destruct (oline_best i Hi HF) as [ET Best]. pose proof (C_range i Hi) as RC.
  assert (Up : forall l', tiles i n l' -> (oval l' <= rval lg (T i) + IZR (2 * Z.of_nat (length l') - 1) * E)%R).
  { intros l' Hl. inversion Hl as [|a e m r Hae Hr]; subst; [lia|].
    destruct (near_q i e ltac:(lia) ltac:(lia)) as (_ & Eq & _).
    change (Z.max 0 (2 * 1 - 1)) with 1 in Eq. apply Rabs_le_inv in Eq. pose proof (Best e Hae) as Bs. unfold ocf in Bs.
    destruct (Z.eqb_spec e (n - 1)) as [->|De].
    - replace (n - 1 + 1) with n in Hr by lia. inversion Hr; subst; [|lia]. unfold oval, Rsum. cbn [map fold_right fst snd length].
      change (2 * Z.of_nat 1 - 1) with 1. unfold rval in *. lra.
    - destruct (Near e ltac:(lia)) as (l & _ & _ & _ & Er). destruct (IH (e + 1) ltac:(lia) ltac:(lia)) as (_ & _ & _ & Hr').
      specialize (Hr' r Hr). apply Rabs_le_inv in Er.
      change (oval ((i, e) :: r)) with (pval (q i e) + oval r)%R. cbn [length].
      replace (2 * Z.of_nat (S (length r)) - 1) with (2 + (2 * Z.of_nat (length r) - 1)) by lia. rewrite plus_IZR. unfold rval in *. lra. }
  destruct (Z.eq_dec (C i) (n - 1)) as [EC|DC].
  - exists [(i, C i)]. split; [constructor; auto; rewrite EC; replace (n - 1 + 1) with n by lia; constructor|]. split; auto.
    cbn [length]. rewrite ET. unfold ocf. rewrite EC, Z.eqb_refl. unfold oval, Rsum. cbn [map fold_right fst snd].
    rewrite Rplus_0_r. apply near_q; lia.
  - destruct (Near (C i) ltac:(lia)) as (l & O & Nl & N1 & _). exists ((i, C i) :: l). split; [constructor; auto|]. split; auto.
    cbn [length]. rewrite ET. unfold ocf. destruct (Z.eqb_spec (C i) (n - 1)); [lia|].
    replace (Z.of_nat (S (length l))) with (1 + Z.of_nat (length l)) by lia. exact N1.
Qed.
End One.
End O.
