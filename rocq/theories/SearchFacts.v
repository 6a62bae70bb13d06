(** * The parameter search: lemmas about the association lists, the bisection and the removal of duplicates. *)
From Coq Require Import Lia Sorting.Sorted.
From Verif Require Import Base BaseFacts Arith Quality Partitioners Search SpecSearch.

Lemma SSorted_app : forall X (lt : X -> X -> Prop) l1 l2, StronglySorted lt (l1 ++ l2) <->
  StronglySorted lt l1 /\ StronglySorted lt l2 /\ (forall x y, In x l1 -> In y l2 -> lt x y).
Proof.
  intros X lt l1 l2. induction l1 as [|a l1 IH]; simpl.
  - split; [intro H; repeat split; auto; [constructor|intros ? ? []] | tauto].
  - split.
    + intro H. inversion H as [|? ? H1 H2]; subst. apply IH in H1. destruct H1 as (H3 & H4 & H5).
      rewrite Forall_forall in H2. repeat split; auto.
      * constructor; auto. apply Forall_forall. intros; apply H2; apply in_or_app; auto.
      * intros x y [->|Hx] Hy; auto. apply H2; apply in_or_app; auto.
    + intros (H1 & H2 & H3). inversion H1 as [|? ? H4 H5]; subst. constructor.
      * apply IH. repeat split; auto.
      * apply Forall_forall. intros x Hx. apply in_app_or in Hx. destruct Hx as [Hx|Hx]; auto.
        rewrite Forall_forall in H5; auto.
Qed.

Section M.
Context (A : arith).
Notation par := (par A).
Notation plt := (plt A).
Context (D : par -> Prop) (th : par) (B : bisectable A D th).

Lemma plt_asym : forall a b, D a -> D b -> plt a b -> ~ plt b a.
Proof. intros a b Ha Hb H1 H2. apply (bis_irr _ _ _ B a Ha). apply (bis_trans _ _ _ B a b a); auto. Qed.

Lemma ltb_false : forall a b, D a -> D b -> plt a b -> p_ltb A b a = false.
Proof.
  intros a b Ha Hb H. destruct (p_ltb A b a) eqn:E; auto. exfalso. exact (plt_asym a b Ha Hb H E).
Qed.

Lemma irr_false : forall a, D a -> p_ltb A a a = false.
Proof. intros a Ha. destruct (p_ltb A a a) eqn:E; auto. exfalso. exact (bis_irr _ _ _ B a Ha E). Qed.

(** ** Association lists *)
Section Maps.
Context {X : Type}.
Implicit Types m : list (par * X).
Notation keys m := (map fst m).

Lemma fmap_set_last : forall m k x, D k -> Forall D (keys m) -> (forall k', In k' (keys m) -> plt k' k) ->
  fmap_set A m k x = m ++ [(k, x)].
Proof.
  intros m k x Hk Hd H. induction m as [|[k' x'] m IH]; simpl; auto. simpl in *.
  inversion Hd as [|? ? Hd1 Hd2]; subst.
  rewrite (ltb_false k' k) by auto. rewrite (H k') by auto. rewrite IH; auto.
Qed.

Lemma fmap_get_mid : forall m1 k x m2, Forall D (keys (m1 ++ (k, x) :: m2)) ->
  StronglySorted plt (keys (m1 ++ (k, x) :: m2)) -> fmap_get A (m1 ++ (k, x) :: m2) k = Some x.
Proof.
  intros m1 k x m2 Hd S. rewrite map_app in *. apply SSorted_app in S. destruct S as (S1 & S2 & S3).
  apply Forall_app in Hd. destruct Hd as [Hd1 Hd2]. simpl in *. inversion Hd2; subst.
  induction m1 as [|[k' x'] m1 IH]; simpl.
  - rewrite irr_false by auto. auto.
  - simpl in *. inversion Hd1; subst. rewrite (ltb_false k' k) by auto. rewrite S3 by auto. inversion S1; subst. apply IH; auto.
Qed.

Lemma fmap_erase_mid : forall m1 k x m2, Forall D (keys (m1 ++ (k, x) :: m2)) ->
  StronglySorted plt (keys (m1 ++ (k, x) :: m2)) -> fmap_erase A (m1 ++ (k, x) :: m2) k = m1 ++ m2.
Proof.
  intros m1 k x m2 Hd S. rewrite map_app in *. apply SSorted_app in S. destruct S as (S1 & S2 & S3).
  apply Forall_app in Hd. destruct Hd as [Hd1 Hd2]. simpl in *. inversion Hd2; subst.
  induction m1 as [|[k' x'] m1 IH]; simpl.
  - rewrite irr_false by auto. auto.
  - simpl in *. inversion Hd1; subst. rewrite (ltb_false k' k) by auto. rewrite S3 by auto. inversion S1; subst.
    rewrite IH; auto.
Qed.

Lemma fmap_get_In : forall m k x, Forall D (keys m) -> StronglySorted plt (keys m) -> In (k, x) m -> fmap_get A m k = Some x.
Proof. intros m k x Hd S H. apply in_split in H. destruct H as (m1 & m2 & ->). apply fmap_get_mid; auto. Qed.

End Maps.

Lemma erase_at_mid : forall X (l1 : list X) x l2, erase_at (length l1) (l1 ++ x :: l2) = l1 ++ l2.
Proof. intros X l1 x l2. induction l1; simpl; auto. rewrite IHl1; auto. Qed.

Lemma vget_mid : forall X (l1 : list X) x l2, vget (l1 ++ x :: l2) (vlen l1) = Ok x.
Proof.
  intros. rewrite vget_app_r by lia. replace (vlen l1 - vlen l1) with 0 by lia. reflexivity.
Qed.

(** ** The search *)
Section G.
Context {Pn Tu : Type}.
Context (best : par -> res Pn) (pn_param : Pn -> par) (eqb : Pn -> Pn -> bool)
        (pn_quality : Pn -> quality A) (pn_tuples : Pn -> list Tu).
Hypothesis best_ok : forall p, D p -> exists x, best p = Ok x /\ pn_param x = p.

Notation add := (s_add A best pn_param eqb).
Notation full := (list (par * Pn)).

Definition good (kx : par * Pn) : Prop := D (fst kx) /\ best (fst kx) = Ok (snd kx).

Lemma good_param : forall p x, good (p, x) -> pn_param x = p.
Proof. intros p x [H1 H2]. simpl in *. destruct (best_ok p H1) as (y & E & <-). congruence. Qed.

Definition stop (u v : par * Pn) : Prop := eqb (snd u) (snd v) = true \/ s_wide A th (fst u) (fst v) = false.
Definition link (u v : par * Pn) : Prop := plt (fst u) (fst v) /\ stop u v.

(** Consecutive elements of [x :: l ++ [y]] are linked. *)
Fixpoint chain {X} (R : X -> X -> Prop) (x : X) (l : list X) (y : X) : Prop :=
  match l with
  | [] => R x y
  | z :: l' => R x z /\ chain R z l' y
  end.

Lemma chain_app : forall X (R : X -> X -> Prop) l1 x m l2 y,
  chain R x l1 m -> chain R m l2 y -> chain R x (l1 ++ m :: l2) y.
Proof. intros X R l1. induction l1 as [|z l1 IH]; intros x m l2 y H1 H2; simpl in *; auto. destruct H1. split; auto. Qed.

Lemma chain_sorted : forall l x y, Forall good (x :: l ++ [y]) -> chain link x l y ->
  StronglySorted plt (map fst (x :: l ++ [y])).
Proof.
  induction l as [|z l IH]; intros x y G H; simpl in *.
  - inversion G; subst. inversion H3; subst. destruct H. repeat constructor. auto.
  - destruct H as [[H1 _] H2]. inversion G as [|? ? Gx G']; subst. specialize (IH z y G' H2). simpl in IH.
    constructor; auto. constructor; auto. inversion IH as [|? ? _ F]; subst.
    inversion G' as [|? ? Gz G'']; subst.
    apply Forall_forall. intros k Hk. rewrite Forall_forall in F. specialize (F k Hk).
    assert (D k). { apply in_map_iff in Hk. destruct Hk as (kx & <- & Hk). rewrite Forall_forall in G''. apply G''; auto. }
    apply (bis_trans _ _ _ B _ (fst z) _); auto; [apply Gx|apply Gz].
Qed.

Lemma s_add_ok : forall fuel a b pa pb l ps r, good (pa, a) -> good (pb, b) -> plt pa pb ->
  Forall D (map fst ps) -> (forall k, In k (map fst ps) -> plt k pa \/ k = pa) ->
  add fuel th a b (l, ps) = Ok r ->
  exists pts, r = (l ++ map fst pts, ps ++ pts) /\ Forall good pts /\ chain link (pa, a) pts (pb, b) /\
    bisect A best eqb th pa pb (map fst pts).
Proof.
  induction fuel as [|fuel IH]; intros a b pa pb l ps r Ga Gb Hlt Hd Hk E; simpl in E; [discriminate|].
  rewrite (good_param _ _ Ga), (good_param _ _ Gb) in E.
  destruct (eqb a b) eqn:Eab; simpl in E.
  { inversion E; subst. exists []. simpl. rewrite !app_nil_r. repeat split; auto.
    - left; auto. - eapply bis_same; [apply Ga|apply Gb|]; auto. }
  destruct (s_wide A th pa pb) eqn:Ew.
  2:{ inversion E; subst. exists []. simpl. rewrite !app_nil_r. repeat split; auto.
      - right; auto. - eapply bis_near; [apply Ga|apply Gb|]. intro C. unfold s_wide in Ew. unfold plt in C. congruence. }
  unfold s_mid in *. destruct (bis_mid _ _ _ B pa pb (proj1 Ga) (proj1 Gb) Hlt Ew) as (Dm & L1 & L2).
  set (m := p_add A pa (p_half A (p_sub A pb pa))) in *.
  destruct (best_ok m Dm) as (c & Ec & Pc). rewrite Ec in E. simpl in E.
  assert (Gc : good (m, c)) by (split; auto).
  destruct (add fuel th a c (l, ps)) as [st| |] eqn:E1; simpl in E; try discriminate.
  destruct (IH _ _ _ _ _ _ _ Ga Gc L1 Hd Hk E1) as (p1 & -> & G1 & C1 & B1).
  assert (S1 := chain_sorted p1 (pa, a) (m, c)).
  assert (F1 : Forall good ((pa, a) :: p1 ++ [(m, c)])).
  { constructor; auto. apply Forall_app; split; auto. }
  specialize (S1 F1 C1).
  assert (D1 : Forall D (map fst (ps ++ p1))).
  { rewrite map_app. apply Forall_app. split; auto. apply Forall_map. eapply Forall_impl; [|exact G1]. intros kx [? _]; auto. }
  assert (K1 : forall k, In k (map fst (ps ++ p1)) -> plt k m).
  { intros k H. rewrite map_app in H. apply in_app_or in H. destruct H as [H|H].
    - assert (D k) by (rewrite Forall_forall in Hd; auto). destruct (Hk k H) as [Hz| ->]; auto.
      apply (bis_trans _ _ _ B k pa m); auto. apply Ga.
    - rewrite map_cons, map_app in S1. change (fst (pa, a) :: map fst p1 ++ map fst [(m, c)]) with ((pa :: map fst p1) ++ [m]) in S1.
      apply SSorted_app in S1. destruct S1 as (_ & _ & S1). apply S1; simpl; auto. }
  rewrite fmap_set_last in E by auto.
  assert (Q1 : Forall D (map fst ((ps ++ p1) ++ [(m, c)]))).
  { rewrite map_app. apply Forall_app. split; auto. constructor; auto. }
  assert (Q2 : forall k, In k (map fst ((ps ++ p1) ++ [(m, c)])) -> plt k m \/ k = m).
  { intros k H. rewrite map_app in H. apply in_app_or in H. destruct H as [H|[<-|[]]]; auto. }
  destruct (IH _ _ _ _ _ _ _ Gc Gb L2 Q1 Q2 E) as (p2 & -> & G2 & C2 & B2).
  - exists (p1 ++ (m, c) :: p2). rewrite map_app. simpl map. repeat split.
    + rewrite <- !app_assoc. simpl. auto.
    + apply Forall_app; split; auto.
    + apply chain_app; auto.
    + eapply bis_split; [apply Ga|apply Gb| | | |]; auto.
Qed.

(** More fuel does not change a result. *)
Lemma s_add_mono : forall fuel fuel' a b st r, (fuel <= fuel')%nat -> add fuel th a b st = Ok r -> add fuel' th a b st = Ok r.
Proof.
  induction fuel as [|fuel IH]; intros fuel' a b st r Hf E; simpl in E; [discriminate|].
  destruct fuel' as [|fuel']; [lia|]. simpl.
  destruct (negb (eqb a b) && s_wide A th (pn_param a) (pn_param b)); auto.
  destruct (best (s_mid A (pn_param a) (pn_param b))) as [c| |]; simpl in *; try discriminate.
  destruct (add fuel th a c st) as [[l ps]| |] eqn:E1; simpl in E; try discriminate.
  rewrite (IH fuel' _ _ _ _ ltac:(lia) E1). simpl. apply IH; auto. lia.
Qed.

(** A finite bisection is found with enough fuel. *)
Lemma bisect_add : forall pa pb pl, bisect A best eqb th pa pb pl -> D pa -> D pb -> plt pa pb ->
  exists fuel, forall a b st, good (pa, a) -> good (pb, b) -> exists r, add fuel th a b st = Ok r.
Proof.
  intros pa pb pl H. induction H as [pa pb a b Ea Eb E|pa pb a b Ea Eb E|pa pb a b l1 l2 Ea Eb E Ew H1 IH1 H2 IH2]; intros Da Db Hlt.
  - exists 1%nat. intros a' b' st Ga Gb. assert (a' = a) by (destruct Ga; simpl in *; congruence).
    assert (b' = b) by (destruct Gb; simpl in *; congruence). subst. simpl. rewrite E. simpl. eauto.
  - exists 1%nat. intros a' b' st Ga Gb. simpl. rewrite (good_param _ _ Ga), (good_param _ _ Gb).
    destruct (s_wide A th pa pb) eqn:Ew; [exfalso; apply E; exact Ew|]. rewrite andb_false_r. eauto.
  - destruct (bis_mid _ _ _ B pa pb Da Db Hlt Ew) as (Dm & L1 & L2).
    destruct (IH1 Da Dm L1) as [f1 F1]. destruct (IH2 Dm Db L2) as [f2 F2].
    exists (S (max f1 f2)). intros a' b' st Ga Gb. simpl. rewrite (good_param _ _ Ga), (good_param _ _ Gb).
    destruct (negb (eqb a' b') && s_wide A th pa pb); eauto. unfold s_mid.
    destruct (best_ok _ Dm) as (c & Ec & _). rewrite Ec. simpl.
    assert (Gc : good (p_add A pa (p_half A (p_sub A pb pa)), c)) by (split; auto).
    destruct (F1 a' c st Ga Gc) as [[l ps] R1]. rewrite (s_add_mono f1 _ _ _ _ _ (Nat.le_max_l _ _) R1). simpl.
    destruct (F2 c b' (l ++ [p_add A pa (p_half A (p_sub A pb pa))], fmap_set A ps (p_add A pa (p_half A (p_sub A pb pa))) c) Gc Gb) as [r R2].
    exists r. apply (s_add_mono f2 _ _ _ _ _ (Nat.le_max_r _ _) R2).
Qed.

(** ** Removing duplicates *)
Fixpoint keep (prev : par * Pn) (l : full) : full :=
  match l with
  | [] => []
  | x :: r => if eqb (snd x) (snd prev) then keep x r else x :: keep x r
  end.
Definition dd (l : full) : full := match l with [] => [] | x :: r => x :: keep x r end.

Lemma keep_incl : forall l prev x, In x (keep prev l) -> In x l.
Proof.
  induction l as [|y l IH]; intros prev x H; simpl in *; auto.
  destruct (eqb (snd y) (snd prev)); [right; eapply IH; eauto|]. destruct H as [->|H]; auto. right; eapply IH; eauto.
Qed.

Lemma keep_sorted : forall l prev, StronglySorted plt (map fst l) -> StronglySorted plt (map fst (keep prev l)).
Proof.
  induction l as [|y l IH]; intros prev H; simpl in *; auto. inversion H as [|? ? H1 H2]; subst.
  destruct (eqb (snd y) (snd prev)); auto. simpl. constructor; auto.
  apply Forall_forall. intros k Hk. apply in_map_iff in Hk. destruct Hk as (kx & <- & Hk).
  rewrite Forall_forall in H2. apply H2. apply in_map. eapply keep_incl; eauto.
Qed.

Definition dup (l : full) : Prop := exists u v, neighbours l u v /\ eqb (snd v) (snd u) = true.

Lemma keep_all : forall l prev, ~ dup (prev :: l) -> keep prev l = l.
Proof.
  induction l as [|y l IH]; intros prev H; simpl; auto. destruct (eqb (snd y) (snd prev)) eqn:E.
  - exfalso. apply H. exists prev, y. split; auto. exists [], l; auto.
  - rewrite IH; auto. intros (u & v & (l1 & l2 & N) & E'). apply H. exists u, v. split; auto. exists (prev :: l1), l2. rewrite N; auto.
Qed.

Lemma dd_loop : forall strict pre x rest, Forall good (pre ++ x :: rest) ->
  StronglySorted plt (map fst (pre ++ x :: rest)) ->
  (strict = true -> ~ dup (pre ++ x :: rest)) ->
  for_down (vlen pre + 1) 1 (s_dedup1 A eqb strict) (map fst (pre ++ x :: keep x rest), pre ++ x :: keep x rest)
  = Ok (map fst (dd (pre ++ x :: rest)), dd (pre ++ x :: rest)).
Proof.
  intros strict pre. induction pre as [|y pre IH] using rev_ind; intros x rest G S N.
  - rewrite for_down_empty by (unfold vlen; simpl; lia). reflexivity.
  - rewrite vlen_app. replace (vlen [y]) with 1 by reflexivity. pose proof (vlen_nonneg _ pre).
    rewrite for_down_step by lia. replace (vlen pre + 1 + 1 - 1) with (vlen pre + 1) by lia.
    rewrite <- !app_assoc in *. change ([y] ++ x :: rest) with (y :: x :: rest) in *.
    change ([y] ++ x :: keep x rest) with (y :: x :: keep x rest).
    set (L := pre ++ y :: x :: keep x rest).
    assert (SL : StronglySorted plt (map fst L)).
    { unfold L. replace (pre ++ y :: x :: rest) with ((pre ++ [y; x]) ++ rest) in S by (rewrite <- app_assoc; auto).
      replace (pre ++ y :: x :: keep x rest) with ((pre ++ [y; x]) ++ keep x rest) by (rewrite <- app_assoc; auto).
      rewrite map_app in *. apply SSorted_app in S. destruct S as (S1 & S2 & S3). apply SSorted_app.
      split; auto. split; [apply keep_sorted; auto|]. intros a b Ha Hb. apply S3; auto.
      apply in_map_iff in Hb. destruct Hb as (kx & <- & Hb). apply in_map. eapply keep_incl; eauto. }
    assert (DL : Forall D (map fst L)).
    { apply Forall_map. apply Forall_forall. intros kx Hk. rewrite Forall_forall in G. apply G.
      unfold L in Hk. apply in_app_or in Hk. apply in_or_app. destruct Hk as [Hk|[Hk|[Hk|Hk]]]; auto; right; [left|right;left|right;right]; auto.
      eapply keep_incl; eauto. }
    assert (E1 : vget (map fst L) (vlen pre + 1) = Ok (fst x)).
    { unfold L. replace (pre ++ y :: x :: keep x rest) with ((pre ++ [y]) ++ x :: keep x rest) by (rewrite <- app_assoc; auto).
      rewrite map_app. simpl. replace (vlen pre + 1) with (vlen (map fst (pre ++ [y]))); [apply vget_mid|].
      unfold vlen. rewrite map_length, app_length. simpl. lia. }
    assert (E2 : vget (map fst L) (vlen pre) = Ok (fst y)).
    { unfold L. rewrite map_app. simpl. replace (vlen pre) with (vlen (map fst pre)); [apply vget_mid|].
      unfold vlen. rewrite map_length. auto. }
    assert (E3 : fmap_at A L (fst x) = Ok (snd x)).
    { unfold fmap_at. rewrite (fmap_get_In L (fst x) (snd x)); auto. destruct x; unfold L; apply in_or_app; right; simpl; auto. }
    assert (E4 : fmap_at A L (fst y) = Ok (snd y)).
    { unfold fmap_at. rewrite (fmap_get_In L (fst y) (snd y)); auto. destruct y; unfold L; apply in_or_app; right; simpl; auto. }
    unfold s_dedup1 at 1. rewrite E1. cbn [bind]. replace (vlen pre + 1 - 1) with (vlen pre) by lia.
    rewrite E2. cbn [bind]. rewrite E3. cbn [bind]. rewrite E4. cbn [bind].
    specialize (IH y (x :: rest) G S N). simpl keep in IH.
    destruct (eqb (snd x) (snd y)) eqn:Exy.
    + destruct strict.
      { exfalso. apply N; auto. exists y, x. split; auto. exists pre, rest; auto. }
      cbn [bind]. rewrite <- IH. f_equal. f_equal.
      * unfold L. replace (pre ++ y :: x :: keep x rest) with ((pre ++ [y]) ++ x :: keep x rest) by (rewrite <- app_assoc; auto).
        rewrite !map_app. simpl. replace (Z.to_nat (vlen pre + 1)) with (length (map fst pre ++ [fst y])).
        { rewrite erase_at_mid. rewrite <- app_assoc. auto. }
        rewrite app_length, map_length. unfold vlen. simpl. lia.
      * unfold L in *. replace (pre ++ y :: x :: keep x rest) with ((pre ++ [y]) ++ (fst x, snd x) :: keep x rest) in *
          by (rewrite <- app_assoc; destruct x; auto).
        rewrite fmap_erase_mid by auto. rewrite <- app_assoc. auto.
    + cbn [bind]. rewrite <- IH. auto.
Qed.

Lemma strict_loop : forall pre x rest, Forall good (pre ++ x :: rest) ->
  StronglySorted plt (map fst (pre ++ x :: rest)) -> ~ dup (x :: rest) -> dup (pre ++ [x]) ->
  for_down (vlen pre + 1) 1 (s_dedup1 A eqb true) (map fst (pre ++ x :: rest), pre ++ x :: rest) = UB.
Proof.
  intros pre. induction pre as [|y pre IH] using rev_ind; intros x rest G S N Du.
  - exfalso. destruct Du as (u & v & (l1 & l2 & E) & _). apply (f_equal (@length _)) in E. simpl in E; rewrite app_length in E; simpl in E. lia.
  - rewrite vlen_app. replace (vlen [y]) with 1 by reflexivity. pose proof (vlen_nonneg _ pre).
    rewrite for_down_step by lia. replace (vlen pre + 1 + 1 - 1) with (vlen pre + 1) by lia.
    rewrite <- app_assoc in *. change ([y] ++ x :: rest) with (y :: x :: rest) in *. change ([y] ++ [x]) with [y; x] in Du.
    set (L := pre ++ y :: x :: rest) in *.
    assert (DL : Forall D (map fst L)).
    { apply Forall_map. eapply Forall_impl; [|exact G]. intros kx [H1 _]; auto. }
    assert (E1 : vget (map fst L) (vlen pre + 1) = Ok (fst x)).
    { unfold L. replace (pre ++ y :: x :: rest) with ((pre ++ [y]) ++ x :: rest) by (rewrite <- app_assoc; auto).
      rewrite map_app. simpl. replace (vlen pre + 1) with (vlen (map fst (pre ++ [y]))); [apply vget_mid|].
      unfold vlen. rewrite map_length, app_length. simpl. lia. }
    assert (E2 : vget (map fst L) (vlen pre) = Ok (fst y)).
    { unfold L. rewrite map_app. simpl. replace (vlen pre) with (vlen (map fst pre)); [apply vget_mid|].
      unfold vlen. rewrite map_length. auto. }
    assert (E3 : fmap_at A L (fst x) = Ok (snd x)).
    { unfold fmap_at. rewrite (fmap_get_In L (fst x) (snd x)); auto. destruct x; unfold L; apply in_or_app; right; simpl; auto. }
    assert (E4 : fmap_at A L (fst y) = Ok (snd y)).
    { unfold fmap_at. rewrite (fmap_get_In L (fst y) (snd y)); auto. destruct y; unfold L; apply in_or_app; right; simpl; auto. }
    unfold s_dedup1 at 1. rewrite E1. cbn [bind]. replace (vlen pre + 1 - 1) with (vlen pre) by lia.
    rewrite E2. cbn [bind]. rewrite E3. cbn [bind]. rewrite E4. cbn [bind].
    destruct (eqb (snd x) (snd y)) eqn:Exy; [reflexivity|]. cbn [bind]. apply (IH y (x :: rest)); auto.
    + intros (u & v & (l1 & l2 & E) & E'). destruct l1 as [|w l1].
      * simpl in E. injection E as Eu Ev Er. subst u v. congruence.
      * simpl in E. injection E as Eu Ev. apply N. exists u, v. split; auto. exists l1, l2. auto.
    + destruct Du as (u & v & (l1 & l2 & E) & E'). destruct l2 as [|w l2 _] using rev_ind.
      * replace (l1 ++ [u; v]) with ((l1 ++ [u]) ++ [v]) in E by (rewrite <- app_assoc; auto).
        replace (pre ++ [y; x]) with ((pre ++ [y]) ++ [x]) in E by (rewrite <- app_assoc; auto).
        apply app_inj_tail in E. destruct E as [E ->]. apply app_inj_tail in E. destruct E as [_ ->]. congruence.
      * replace (l1 ++ u :: v :: l2 ++ [w]) with ((l1 ++ u :: v :: l2) ++ [w]) in E by (rewrite <- app_assoc; auto).
        replace (pre ++ [y; x]) with ((pre ++ [y]) ++ [x]) in E by (rewrite <- app_assoc; auto).
        apply app_inj_tail in E. destruct E as [E ->]. exists u, v. split; auto. exists l1, l2. auto.
Qed.

End G.
End M.
