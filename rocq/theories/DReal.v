(** * DPartitioner over exact reals: optimality among non-reaggregating covers, canonical choice. *)
From Coq Require Import Reals Lra Lia Permutation.
From Verif Require Import Base BaseFacts Arith Quality Utm UtmFacts Hierarchy SpecTree SpecParts TreeFacts HierarchyProofs
  Partitions Partitioners TreePath CoverFacts HFacts LexR OReal HReal DFacts DSel.

Section D.
Context (P : params).
Notation A := (RP P).
Notation quality := (quality A).
Notation tradeoff := (tradeoff A).
Context (m : meta).
Hypothesis W : well_built m.
Notation ps := (m_parents m).
Notation L := (m_leaves m).
Notation hsize := (m_hsize m).
Notation root := (m_root m).
Notation kids := (kids m).
Variables (n : Z) (q : Z -> Z -> Z -> quality).
Hypothesis Hn : 1 <= n.
Notation N := (n - 1).

Definition dq (l : list (Z * Z * Z)) : quality := qsum (map (q3 A q) l).
Definition dt (p : par A) (l : list (Z * Z * Z)) : tradeoff := t_set A (dq l) p.

Lemma dt_nil : forall p, dt p [] = t_zero A.
Proof. intro p. apply tset_nil. Qed.
Lemma dt_cons : forall p h a b l, dt p ((h, a, b) :: l) = t_add A (t_set A (q h a b) p) (dt p l).
Proof. intros. unfold dt, dq. cbn [map]. rewrite tset_cons. reflexivity. Qed.
Lemma dt_perm : forall p l l', Permutation l l' -> dt p l = dt p l'.
Proof. intros p l l' H. unfold dt, dq. rewrite (qsum_perm P _ (map (q3 A q) l')); auto. apply Permutation_map; auto. Qed.
Lemma dt_flat : forall p (f : Z -> list (Z * Z * Z)) l, dt p (flat_map f l) = tsum (map (fun c => dt p (f c)) l).
Proof.
  intros p f l. unfold dt, dq. induction l as [|c l IH]; cbn [flat_map map].
  - apply tset_nil.
  - rewrite map_app, tset_app, IH. reflexivity.
Qed.

Lemma tsum_eq_terms : forall X (f g : X -> tradeoff) l, (forall x, In x l -> tle (f x) (g x)) ->
  tsum (map f l) = tsum (map g l) -> forall x, In x l -> f x = g x.
Proof.
  induction l as [|a l IH]; intros H E x Hx; [destruct Hx|].
  change (t_add A (f a) (tsum (map f l)) = t_add A (g a) (tsum (map g l))) in E.
  assert (Ka : tle (f a) (g a)) by (apply H; left; auto).
  assert (Kl : tle (tsum (map f l)) (tsum (map g l))) by (apply tsum_le; intros; apply H; right; auto).
  assert (Ea : f a = g a).
  { apply tle_antisym; auto. destruct (t_gtb A (g a) (f a)) eqn:Eg.
    - exfalso. apply tgtb_spec in Eg. eapply tlt_irrefl. eapply tlt_le_trans; [apply (tadd_lt_l P _ _ (tsum (map f l)) Eg)|].
      rewrite E. apply tadd_le; [apply tle_refl|auto].
    - apply tgtb_false in Eg. auto. }
  destruct Hx as [<-|Hx]; auto. apply IH; auto; [intros; apply H; right; auto|].
  rewrite Ea in E. apply tadd_cancel_l in E. auto.
Qed.

Definition vcut (h i c : Z) : Prop := (c = -1 /\ L <= h) \/ i <= c < n.
Definition rank (c : Z) : Z := if c =? N then -2 else c.
Lemma rank_inj : forall h i c c', 0 <= i -> vcut h i c -> vcut h i c' -> rank c = rank c' -> c = c'.
Proof. intros h i c c' Hi. unfold vcut, rank. destruct (Z.eqb_spec c N), (Z.eqb_spec c' N); lia. Qed.

Section One.
Variables (p : par A) (C : Z -> Z -> Z) (T : Z -> Z -> tradeoff).
Hypothesis HCT : forall h i, 0 <= h < hsize -> 0 <= i < n -> (C h i, T h i) = dline A m n q p T h i.

Definition dcf (h i c : Z) : tradeoff :=
  if c =? -1 then csum A (fun k => T k i) (kids h)
  else if c =? N then t_set A (q h i N) p
  else t_add A (t_set A (q h i c) p) (T h (c + 1)).

Lemma dline_first : forall h i, 0 <= h < hsize -> 0 <= i < n ->
  vcut h i (C h i) /\ T h i = dcf h i (C h i) /\
  forall c, vcut h i c -> tle (dcf h i c) (T h i) /\ (rank c < rank (C h i) -> tlt (dcf h i c) (T h i)).
Proof.
  intros h i Hh Hi.
  assert (EN : dcf h i N = t_set A (q h i N) p).
  { unfold dcf. destruct (Z.eqb_spec N (-1)); [lia|]. rewrite Z.eqb_refl. auto. }
  assert (EM : dcf h i (-1) = csum A (fun k => T k i) (kids h)) by reflexivity.
  assert (G : forall b, i <= b <= N ->
    let r := fold_left (dstep A q p (T h) h i) (zrange i b) (dinit A q p (L <=? h) (csum A (fun c => T c i) (kids h)) h i N) in
    ((fst r = -1 /\ L <= h) \/ fst r = N \/ i <= fst r < b) /\ snd r = dcf h i (fst r) /\
    forall c, ((c = -1 /\ L <= h) \/ c = N \/ i <= c < b) ->
      tle (dcf h i c) (snd r) /\ (rank c < rank (fst r) -> tlt (dcf h i c) (snd r))).
  { intros b Hb. assert (exists k, b = i + Z.of_nat k) as [k Hk] by (exists (Z.to_nat (b - i)); lia).
    revert b Hb Hk. induction k as [|k IH]; intros b Hb Hk.
    - replace b with i by lia. rewrite zrange_empty by lia. cbn [fold_left].
      unfold dinit. destruct (Z.leb_spec L h) as [Hl|Hl]; cbn [andb].
      + rewrite <- EM, <- EN. destruct (t_gtb A (dcf h i (-1)) (dcf h i N)) eqn:E; cbn [fst snd].
        * apply tgtb_spec in E. split; [left; auto|]. split; auto. intros c [[-> _]|[->|]]; [| |lia].
          -- split; [apply tle_refl|lia].
          -- split; auto. apply tlt_le; auto.
        * apply tgtb_false in E. split; [right; left; auto|]. split; auto. intros c [[-> _]|[->|]]; [| |lia].
          -- split; auto. intro K. exfalso. unfold rank in K. destruct (Z.eqb_spec (-1) N); [lia|]. rewrite Z.eqb_refl in K. lia.
          -- split; [apply tle_refl|lia].
      + cbn [fst snd]. split; [right; left; auto|]. split; auto. intros c [|[->|]]; [lia| |lia]. rewrite EN.
        split; [apply tle_refl|lia].
    - replace b with (b - 1 + 1) in * by lia. set (b0 := b - 1) in *.
      destruct (IH b0 ltac:(lia) ltac:(lia)) as (I1 & I2 & I3).
      rewrite zrange_snoc by lia. rewrite fold_left_app. cbn [fold_left].
      destruct (fold_left (dstep A q p (T h) h i) (zrange i b0) _) as [c0 t0].
      cbn [fst snd] in *. unfold dstep. cbn [snd]. rewrite tadd_0_l.
      assert (Eb : dcf h i b0 = t_add A (t_set A (q h i b0) p) (T h (b0 + 1))).
      { unfold dcf. destruct (Z.eqb_spec b0 (-1)); [lia|]. destruct (Z.eqb_spec b0 N); [lia|auto]. }
      rewrite <- Eb. destruct (t_gtb A (dcf h i b0) t0) eqn:E.
      + apply tgtb_spec in E. cbn [fst snd]. split; [right; right; lia|]. split; [auto|].
        intros c Hc. destruct (Z.eq_dec c b0) as [->|Hc0]; [split; [apply tle_refl|intro; lia]|].
        destruct (I3 c ltac:(lia)) as [K _].
        assert (tlt (dcf h i c) (dcf h i b0)) by (eapply tle_lt_trans; eauto). split; [apply tlt_le; auto|auto].
      + apply tgtb_false in E. cbn [fst snd]. split; [lia|]. split; [auto|].
        intros c Hc. destruct (Z.eq_dec c b0) as [->|Hc0].
        * split; [auto|]. intro K. exfalso. unfold rank in K.
          destruct (Z.eqb_spec b0 N); [lia|]. destruct (Z.eqb_spec c0 N); lia.
        * apply I3. lia. }
  destruct (G N ltac:(lia)) as (G1 & G2 & G3). cbv zeta in *.
  change (fold_left (dstep A q p (T h) h i) (zrange i N) (dinit A q p (L <=? h) (csum A (fun c => T c i) (kids h)) h i N))
    with (dline A m n q p T h i) in *.
  rewrite <- HCT in * by auto. cbn [fst snd] in *. unfold vcut. split; [lia|]. split; [auto|]. intros c Hc. apply G3. lia.
Qed.

Lemma dOK : okcut m n C.
Proof. intros h i Hh Hi. apply dline_first; auto. Qed.

Lemma csum_tsum' : forall (f : Z -> tradeoff) l, csum A f l = tsum (map f l).
Proof. intros f l. unfold csum. rewrite tsum_fold, tadd_0_l. auto. Qed.

Lemma dT : forall h i, 0 <= h < hsize -> 0 <= i < n -> T h i = dt p (dsel m n C h i).
Proof.
  apply (dind m W n Hn). intros h i Hh Hi IHk IHt. rewrite (dsel_eq m W n Hn C dOK) by auto.
  destruct (dline_first h i Hh Hi) as (V & E & _). rewrite E at 1. unfold dcf.
  destruct (Z.eqb_spec (C h i) (-1)) as [Ec|Dc].
  - rewrite dt_flat, csum_tsum'. f_equal. apply map_ext_in. auto.
  - rewrite dt_cons. destruct V as [|V]; [lia|]. destruct (Z.eqb_spec (C h i) N) as [E1|D1].
    + destruct (Z.ltb_spec (C h i) N); [lia|]. rewrite dt_nil, tadd_0_r, E1. auto.
    + destruct (Z.ltb_spec (C h i) N); [|lia]. rewrite IHt by lia. auto.
Qed.

Lemma dopt : forall h i, 0 <= h < hsize -> 0 <= i < n -> forall l, rcover m n h i l -> desc m l -> tle (dt p l) (T h i).
Proof.
  apply (dind m W n Hn (fun h i => forall l, rcover m n h i l -> desc m l -> tle (dt p l) (T h i))).
  intros h i Hh Hi IHk IHt l RC D. destruct (dline_first h i Hh Hi) as (_ & _ & K).
  destruct (use_h h l) eqn:U.
  - destruct (desc_first m W n h i l Hh Hi RC D U) as [c Hc].
    destruct (rcover_tail m W n h i c l Hh Hi RC Hc) as (Rc & Pm & Ee & Et).
    rewrite (dt_perm p _ _ Pm), dt_cons. destruct (K c ltac:(right; auto)) as [K1 _]. eapply tle_trans; [|exact K1].
    unfold dcf. destruct (Z.eqb_spec c (-1)); [lia|]. destruct (Z.eqb_spec c N) as [->|Dc].
    + rewrite Ee by auto. rewrite dt_nil, tadd_0_r. apply tle_refl.
    + apply tadd_le; [apply tle_refl|]. apply IHt; [lia|apply Et; lia|].
      apply (desc_sub m l); auto. intros r Hr. apply rest_l_In in Hr; tauto.
  - assert (Hl : L <= h).
    { destruct (Z_lt_le_dec h L); auto. rewrite (rcover_leaf m W n h i l) in U by (auto; lia). discriminate. }
    destruct (rcover_split m W n h i l Hh RC U) as [Pm Hc].
    rewrite (dt_perm p _ _ Pm), dt_flat. destruct (K (-1) ltac:(left; auto)) as [K1 _]. eapply tle_trans; [|exact K1].
    unfold dcf. cbn [Z.eqb]. rewrite csum_tsum'. apply tsum_le. intros c Hk. apply IHk; auto.
    apply (desc_sub m l); auto. intros r Hr. apply filter_In in Hr; tauto.
Qed.
End One.

(** Equal total quality at two parameters: same parts. *)
Lemma dcanonical : forall p p' C T C' T',
  (forall h i, 0 <= h < hsize -> 0 <= i < n -> (C h i, T h i) = dline A m n q p T h i) ->
  (forall h i, 0 <= h < hsize -> 0 <= i < n -> (C' h i, T' h i) = dline A m n q p' T' h i) ->
  forall h i, 0 <= h < hsize -> 0 <= i < n -> dq (dsel m n C h i) = dq (dsel m n C' h i) -> dsel m n C h i = dsel m n C' h i.
Proof.
  intros p p' C T C' T' H H'.
  assert (Half : forall p p' C T C' T',
    (forall h i, 0 <= h < hsize -> 0 <= i < n -> (C h i, T h i) = dline A m n q p T h i) ->
    (forall h i, 0 <= h < hsize -> 0 <= i < n -> (C' h i, T' h i) = dline A m n q p' T' h i) ->
    forall h i, 0 <= h < hsize -> 0 <= i < n -> dq (dsel m n C h i) = dq (dsel m n C' h i) ->
    tle (T h i) (dcf p T h i (C' h i)) /\ ~ rank (C' h i) < rank (C h i)).
  { clear - W Hn. intros p p' C T C' T' H H' h i Hh Hi E.
    destruct (dline_first p C T H h i Hh Hi) as (V & _ & K).
    destruct (dline_first p' C' T' H' h i Hh Hi) as (V' & _ & _).
    pose proof (dOK p' C' T' H') as OK'.
    assert (K3 : tle (T h i) (dcf p T h i (C' h i))).
    { rewrite (dT p C T H h i Hh Hi). unfold dt at 1. rewrite E. fold (dt p (dsel m n C' h i)).
      rewrite (dsel_eq m W n Hn C' OK') by auto. unfold dcf. destruct (Z.eqb_spec (C' h i) (-1)) as [Ec|Dc].
      - rewrite dt_flat, csum_tsum'. apply tsum_le. intros c Hk. destruct (kid_below m W h c Hh Hk) as (_ & _ & Rc).
        apply (dopt p C T H c i Rc Hi); [apply (dsel_cover m W n Hn); auto|apply (dsel_desc m W n Hn); auto].
      - rewrite dt_cons. destruct V' as [|V']; [lia|]. destruct (Z.eqb_spec (C' h i) N) as [E1|D1].
        + destruct (Z.ltb_spec (C' h i) N); [lia|]. rewrite dt_nil, tadd_0_r, E1. apply tle_refl.
        + destruct (Z.ltb_spec (C' h i) N); [|lia]. apply tadd_le; [apply tle_refl|].
          apply (dopt p C T H h (C' h i + 1) Hh ltac:(lia)); [apply (dsel_cover m W n Hn); auto; lia|apply (dsel_desc m W n Hn); auto; lia]. }
    split; auto. intro Lt. destruct (K (C' h i) V') as [_ K2]. specialize (K2 Lt).
    eapply tlt_irrefl. eapply tlt_le_trans; eauto. }
  pose proof (dOK p C T H) as OK. pose proof (dOK p' C' T' H') as OK'.
  apply (dind m W n Hn (fun h i => dq (dsel m n C h i) = dq (dsel m n C' h i) -> dsel m n C h i = dsel m n C' h i)).
  intros h i Hh Hi IHk IHt E.
  destruct (dline_first p C T H h i Hh Hi) as (V & _ & _).
  destruct (dline_first p' C' T' H' h i Hh Hi) as (V' & _ & _).
  assert (EC : C h i = C' h i).
  { apply (rank_inj h i); auto; [lia|]. destruct (Half p p' C T C' T' H H' h i Hh Hi E) as [_ N1].
    destruct (Half p' p C' T' C T H' H h i Hh Hi (eq_sym E)) as [_ N2]. lia. }
  rewrite (dsel_eq m W n Hn C OK), (dsel_eq m W n Hn C' OK') in E by auto.
  rewrite (dsel_eq m W n Hn C OK), (dsel_eq m W n Hn C' OK') by auto. rewrite <- EC in *.
  destruct (Z.eqb_spec (C h i) (-1)) as [Ec|Dc].
  - assert (EV : dt p (flat_map (fun c => dsel m n C c i) (kids h)) = dt p (flat_map (fun c => dsel m n C' c i) (kids h)))
      by (unfold dt; rewrite E; auto).
    rewrite !dt_flat in EV. apply flat_map_ext_in. intros c Hk. apply IHk; auto. apply (tset_inj P p). symmetry.
    apply (tsum_eq_terms _ (fun c => dt p (dsel m n C' c i)) (fun c => dt p (dsel m n C c i)) (kids h)); auto.
    intros d Hd. destruct (kid_below m W h d Hh Hd) as (_ & _ & Rd). rewrite <- (dT p C T H d i Rd Hi).
    apply (dopt p C T H d i Rd Hi); [apply (dsel_cover m W n Hn); auto|apply (dsel_desc m W n Hn); auto].
  - f_equal. destruct (Z.ltb_spec (C h i) N); auto. destruct V as [|V]; [lia|]. apply IHt; [lia|].
    apply (tset_inj P p). apply (tadd_cancel_l P _ _ (t_set A (q h i (C h i)) p)).
    change (t_set A (dq (dsel m n C h (C h i + 1))) p) with (dt p (dsel m n C h (C h i + 1))).
    change (t_set A (dq (dsel m n C' h (C h i + 1))) p) with (dt p (dsel m n C' h (C h i + 1))).
    rewrite <- !dt_cons. unfold dt. rewrite E. auto.
Qed.
End D.
