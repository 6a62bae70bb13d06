(** * OPartitioner over exact reals: optimality and canonical choice. *)
From Coq Require Import Reals Lra Lia Permutation.
From Verif Require Import Base BaseFacts Arith Quality Utm UtmFacts Partitions Partitioners SpecParts OFacts LexR.

(** ** Comparing two parameters (any kind of parameters with a real value). *)
Definition plt (P : params) (p1 p2 : pp P) : Prop :=
  (0 <= pp_num P p1 < pp_num P p2)%R /\
  (0 <= pp_num P (pp_compl P p2) <= pp_num P (pp_compl P p1))%R /\ (0 < pp_num P (pp_compl P p1))%R.

Section E.
Context (P : params).
Notation A := (RP P).

Lemma exchange : forall p1 p2 (q1 q2 : quality A), plt P p1 p2 ->
  (pic A q2 p1 <= pic A q1 p1)%R -> (pic A q1 p2 <= pic A q2 p2)%R ->
  (gain q1 <= gain q2 /\ loss q1 <= loss q2)%R.
Proof.
  intros p1 p2 [g1 l1] [g2 l2] [[Ha Hlt] [[Hb0 Hb] Hpos]]. unfold pic. cbn. intros H1 H2.
  change (num (RP P)) with R in *.
  set (a1 := pp_num P p1) in *. set (a2 := pp_num P p2) in *.
  set (b1 := pp_num P (pp_compl P p1)) in *. set (b2 := pp_num P (pp_compl P p2)) in *.
  assert (D : (a1 * b2 < a2 * b1)%R) by nra.
  assert (K : (0 <= (a2 * b1 - a1 * b2) * (g2 - g1))%R) by nra.
  assert (G : (g1 <= g2)%R) by nra. split; auto. nra.
Qed.

Lemma sandwich : forall p1 p2 (q1 q2 : quality A), plt P p1 p2 ->
  pic A q1 p1 = pic A q2 p1 -> pic A q1 p2 = pic A q2 p2 -> q1 = q2.
Proof.
  intros p1 p2 q1 q2 H H1 H2.
  destruct (exchange p1 p2 q1 q2 H) as [A1 A2]; [right; auto|right; auto|].
  destruct (exchange p1 p2 q2 q1 H) as [B1 B2]; [right; auto|right; auto|].
  apply Q_eq; lra.
Qed.
End E.

Lemma Rpar_plt : forall p1 p2 : R, (0 <= p1)%R -> (p1 < p2)%R -> (p2 <= 1)%R -> plt Rpar p1 p2.
Proof. intros p1 p2 H1 H2 H3. unfold plt; cbn. lra. Qed.

Section O.
Context (P : params).
Notation A := (RP P).
Notation quality := (quality A).
Notation tradeoff := (tradeoff A).
Variables (n : Z) (q : Z -> Z -> quality).

Definition oq (l : list (Z * Z)) : quality := qsum (map (fun ab => q (fst ab) (snd ab)) l).

Section One.
Variable (p : par A).
Variables (C : Z -> Z) (T : Z -> tradeoff).
Hypothesis HCT : forall i, 0 <= i < n -> (C i, T i) = oline A n q p T i.

Definition ordc (c : Z) : Z := if c =? n - 1 then -1 else c.
Definition ocf (i c : Z) : tradeoff := if c =? n - 1 then t_set A (q i (n - 1)) p else ocand A q p T i c.

Lemma oline_first : forall i, 0 <= i < n ->
  i <= C i < n /\ T i = ocf i (C i) /\
  forall c, i <= c < n -> tle (ocf i c) (T i) /\ (ordc c < ordc (C i) -> tlt (ocf i c) (T i)).
Proof.
  intros i Hi.
  assert (G : forall b, i <= b <= n - 1 ->
    let r := fold_left (ostep A q p T i) (zrange i b) (n - 1, t_set A (q i (n - 1)) p) in
    (fst r = n - 1 \/ i <= fst r < b) /\ snd r = ocf i (fst r) /\
    forall c, (c = n - 1 \/ i <= c < b) -> tle (ocf i c) (snd r) /\ (ordc c < ordc (fst r) -> tlt (ocf i c) (snd r))).
  { intros b Hb. assert (exists k, b = i + Z.of_nat k) as [k Hk] by (exists (Z.to_nat (b - i)); lia).
    revert b Hb Hk. induction k as [|k IH]; intros b Hb Hk.
    - replace b with i by lia. rewrite zrange_empty by lia. cbn [fold_left fst snd]. split; [left; auto|].
      assert (E : ocf i (n - 1) = t_set A (q i (n - 1)) p) by (unfold ocf; rewrite Z.eqb_refl; auto).
      split; [auto|]. intros c [->|]; [|lia]. rewrite E. split; [apply tle_refl|]. intro; lia.
    - replace b with (b - 1 + 1) in * by lia. set (b0 := b - 1) in *.
      destruct (IH b0 ltac:(lia) ltac:(lia)) as (I1 & I2 & I3).
      rewrite zrange_snoc by lia. rewrite fold_left_app. cbn [fold_left].
      destruct (fold_left (ostep A q p T i) (zrange i b0) (n - 1, t_set A (q i (n - 1)) p)) as [c0 t0].
      cbn [fst snd] in *. unfold ostep. cbn [snd].
      assert (Eb : ocf i b0 = ocand A q p T i b0).
      { unfold ocf. destruct (Z.eqb_spec b0 (n - 1)); [lia|auto]. }
      rewrite <- Eb. destruct (t_gtb A (ocf i b0) t0) eqn:E.
      + apply tgtb_spec in E. cbn [fst snd]. split; [right; lia|]. split; [auto|].
        intros c Hc. destruct (Z.eq_dec c b0) as [->|Hn]; [split; [apply tle_refl|intro; lia]|].
        destruct (I3 c ltac:(lia)) as [K _].
        assert (tlt (ocf i c) (ocf i b0)) by (eapply tle_lt_trans; eauto). split; [apply tlt_le; auto|auto].
      + apply tgtb_false in E. cbn [fst snd]. split; [destruct I1; [left; auto|right; lia]|]. split; [auto|].
        intros c Hc. destruct (Z.eq_dec c b0) as [->|Hn].
        * split; [auto|]. intro K. exfalso. unfold ordc in K.
          destruct (Z.eqb_spec b0 (n - 1)); [lia|]. destruct (Z.eqb_spec c0 (n - 1)); [lia|]. destruct I1; lia.
        * apply I3. lia. }
  destruct (G (n - 1) ltac:(lia)) as (G1 & G2 & G3). cbv zeta in *.
  change (fold_left (ostep A q p T i) (zrange i (n - 1)) (n - 1, t_set A (q i (n - 1)) p)) with (oline A n q p T i) in *.
  rewrite <- HCT in * by auto. cbn [fst snd] in *. split; [destruct G1; lia|]. split; [auto|]. intros c Hc. apply G3. lia.
Qed.

(** Any tiling is at most T. *)
Lemma otile_le : forall i l, 0 <= i < n -> tiles i n l -> tle (t_set A (oq l) p) (T i).
Proof.
  intros i l Hi H. remember n as n' eqn:En in H. revert Hi. induction H as [m|a e m r Hae Hr IH]; intro Hi; subst.
  - lia.
  - destruct (oline_first a Hi) as (_ & _ & K). destruct (K e Hae) as [K1 _].
    eapply tle_trans; [|exact K1]. unfold oq. cbn [map fst snd]. rewrite tset_cons. unfold ocf.
    destruct (Z.eqb_spec e (n - 1)) as [->|D].
    + replace (n - 1 + 1) with n in Hr by lia. inversion Hr; subst; [|lia].
      cbn [map]. rewrite tset_nil, tadd_0_r. apply tle_refl.
    + unfold ocand. apply tadd_le; [apply tle_refl|]. apply IH; auto; lia.
Qed.

Lemma ochain_T : forall i l, 0 <= i < n -> ochain n C i l -> T i = t_set A (oq l) p.
Proof.
  intros i l Hi H. revert Hi. induction H as [|i r Hc Hr IH]; intro Hi; [lia|].
  destruct (oline_first i Hi) as (_ & K & _). rewrite K at 1. unfold ocf.
  unfold oq. cbn [map fst snd]. rewrite tset_cons.
  destruct (Z.eqb_spec (C i) (n - 1)) as [E|D].
  - rewrite E in *. replace (n - 1 + 1) with n in Hr by lia. inversion Hr; subst; [|lia]. cbn [map]. rewrite tset_nil, tadd_0_r. auto.
  - unfold ocand. rewrite IH by lia. auto.
Qed.
End One.

(** Two parameters, equal total quality: same partition. *)
Lemma ocanonical : forall p p' C T C' T',
  (forall i, 0 <= i < n -> (C i, T i) = oline A n q p T i) ->
  (forall i, 0 <= i < n -> (C' i, T' i) = oline A n q p' T' i) ->
  forall i l l', 0 <= i <= n -> ochain n C i l -> ochain n C' i l' -> oq l = oq l' -> l = l'.
Proof.
  intros p p' C T C' T' H H' i l l' Hi O. revert l' Hi.
  induction O as [|i r Hc Hr IH]; intros l' Hi O' E.
  - inversion O'; subst; auto; lia.
  - assert (Ol : ochain n C i ((i, C i) :: r)) by (constructor; auto).
    inversion O' as [|i' r' Hc' Hr']; subst; [lia|].
    assert (Half : forall p C T C' r r', (forall i, 0 <= i < n -> (C i, T i) = oline A n q p T i) ->
       i <= C i < n -> i <= C' i < n -> ochain n C (C i + 1) r -> ochain n C' (C' i + 1) r' ->
       oq ((i, C i) :: r) = oq ((i, C' i) :: r') -> ~ ordc (C' i) < ordc (C i)).
    { clear - Hi. intros p C T C' r r' H Hc Hc' Hr Hr' E L.
      destruct (oline_first p C T H i ltac:(lia)) as (_ & _ & K). destruct (K (C' i) Hc') as [_ K2]. specialize (K2 L).
      assert (T1 : T i = t_set A (oq ((i, C' i) :: r')) p).
      { rewrite <- E. apply (ochain_T p C T H); [lia|]. constructor; auto. }
      assert (K3 : tle (T i) (ocf p T i (C' i))).
      { rewrite T1. unfold oq. cbn [map fst snd]. rewrite tset_cons.
        unfold ocf. destruct (Z.eqb_spec (C' i) (n - 1)) as [E1|D].
        - rewrite E1 in *. replace (n - 1 + 1) with n in Hr' by lia. inversion Hr'; subst; [|lia].
          cbn [map]. rewrite tset_nil, tadd_0_r. apply tle_refl.
        - unfold ocand. apply tadd_le; [apply tle_refl|]. apply (otile_le p C T H); [lia|]. eapply ochain_tiles; eauto. }
      eapply tlt_irrefl. eapply tlt_le_trans; eauto. }
    assert (EC : C i = C' i).
    { pose proof (Half p C T C' r r' H Hc Hc' Hr Hr' E). pose proof (Half p' C' T' C r' r H' Hc' Hc Hr' Hr (eq_sym E)).
      unfold ordc in *. destruct (Z.eqb_spec (C i) (n - 1)); destruct (Z.eqb_spec (C' i) (n - 1)); lia. }
    rewrite <- EC in *. f_equal. apply IH; [lia|auto|].
    unfold oq in E. cbn [map fst snd] in E.
    assert (E1 := f_equal gain E). assert (E2 := f_equal loss E). cbn in E1, E2. apply Q_eq; unfold oq, qsum.
    + change (num (RP P)) with R in *. lra.
    + change (num (RP P)) with R in *. lra.
Qed.

End O.
