(** * When the metadata of an arbitrary valid tree is right: the size of the reported root decides. *)
From Coq Require Import Lia Permutation.
From Verif Require Import Base BaseFacts Hierarchy SpecTree TreeFacts HierarchyFacts HierarchyStop HierarchyProofs.

Definition zsum (f : Z -> Z) (l : list Z) : Z := fold_right (fun x a => f x + a) 0 l.

Lemma zsum_app : forall f l l', zsum f (l ++ l') = zsum f l + zsum f l'.
Proof. induction l as [|a l IH]; intros; simpl; [reflexivity|rewrite IH; lia]. Qed.

Lemma zsum_perm : forall f l l', Permutation l l' -> zsum f l = zsum f l'.
Proof. intros f l l' P; induction P; simpl; lia. Qed.

Lemma zsum_le : forall f g l, (forall x, In x l -> f x <= g x) -> zsum f l <= zsum g l.
Proof. induction l as [|a l IH]; intros H; simpl; [lia|]. pose proof (H a (or_introl eq_refl)). specialize (IH (fun x K => H x (or_intror K))). lia. Qed.

Lemma zsum_eq : forall f g l, (forall x, In x l -> f x <= g x) -> zsum f l = zsum g l -> forall x, In x l -> f x = g x.
Proof.
  induction l as [|a l IH]; intros H E x K; [destruct K|]. simpl in E.
  pose proof (H a (or_introl eq_refl)). pose proof (zsum_le f g l (fun x K => H x (or_intror K))).
  destruct K as [<-|K]; [lia|]. apply IH; auto; [intros; apply H; right; auto|lia].
Qed.

Lemma zsum_ext : forall f g l, (forall x, In x l -> f x = g x) -> zsum f l = zsum g l.
Proof. induction l as [|a l IH]; intros H; simpl; auto. rewrite (H a (or_introl eq_refl)), IH; auto. intros; apply H; right; auto. Qed.

Lemma zsum_nonneg : forall f l, (forall x, In x l -> 0 <= f x) -> 0 <= zsum f l.
Proof. induction l as [|a l IH]; intros H; simpl; [lia|]. pose proof (H a (or_introl eq_refl)). specialize (IH (fun x K => H x (or_intror K))). lia. Qed.

(** A part of a list of positive summands whose sum is that of the whole list is the whole list. *)
Lemma zsum_sub : forall (g : Z -> Z) l' l, NoDup l' -> NoDup l -> incl l' l -> (forall x, In x l -> 1 <= g x) ->
  zsum g l' <= zsum g l /\ (zsum g l' = zsum g l -> incl l l').
Proof.
  intros g. induction l' as [|a l' IH]; intros l N' N I P.
  - simpl. split; [apply zsum_nonneg; intros x K; specialize (P x K); lia|].
    intros E x K. destruct l as [|b l]; [destruct K|]. simpl in E.
    pose proof (P b (or_introl eq_refl)). pose proof (zsum_nonneg g l (fun x K => ltac:(specialize (P x (or_intror K)); lia))). lia.
  - assert (Ka : In a l) by (apply I; left; auto).
    apply in_split in Ka. destruct Ka as [l1 [l2 ->]].
    assert (PM : Permutation (l1 ++ a :: l2) (a :: l1 ++ l2)) by (symmetry; apply Permutation_middle).
    rewrite (zsum_perm g _ _ PM). simpl. inversion N' as [|? ? Na N'']; subst.
    assert (N2 : NoDup (l1 ++ l2)) by (apply NoDup_remove_1 in N; auto).
    assert (I2 : incl l' (l1 ++ l2)).
    { intros x K. assert (K2 : In x (l1 ++ a :: l2)) by (apply I; right; auto).
      apply (Permutation_in _ PM) in K2. destruct K2 as [->|K2]; [contradiction|auto]. }
    destruct (IH (l1 ++ l2) N'' N2 I2) as [H1 H2].
    { intros x K. apply P. apply (Permutation_in _ (Permutation_sym PM)). right; auto. }
    split; [lia|]. intros E x K. apply (Permutation_in _ PM) in K. destruct K as [->|K]; [left; auto|].
    right. apply H2; auto. lia.
Qed.

Lemma vlen_flat : forall (f : Z -> list Z) l, vlen (flat_map f l) = zsum (fun x => vlen (f x)) l.
Proof. induction l as [|a l IH]; simpl; auto. rewrite vlen_app, IH. reflexivity. Qed.

Lemma NoDup_pre : forall (l : list Z) i, NoDup l -> NoDup (pre i l).
Proof.
  intros l i N. unfold pre. rewrite <- (firstn_skipn (Z.to_nat i) l) in N.
  induction (firstn (Z.to_nat i) l) as [|a u IH]; [constructor|]. simpl in N. inversion N; subst.
  constructor; [intro K; apply H1, in_or_app; auto|auto].
Qed.

Section Check.
Variables (L : Z) (ps : list Z) (r : Z).
Hypothesis V : valid_tree L ps r.

Let lv (h : Z) : Z := vlen (leavesof L ps h).
Let childof (h : Z) (l : list Z) : list Z := filter (fun c => parent ps c =? h) l.
Let one (h : Z) : Z := if h <? L then 1 else 0.
Let allch (h : Z) : list Z := childof h (zrange 0 (vlen ps)).

Lemma In_childof : forall h l c, In c (childof h l) <-> In c l /\ parent ps c = h.
Proof. intros. unfold childof. rewrite filter_In, Z.eqb_eq. tauto. Qed.

Lemma allch_In : forall h c, In c (allch h) <-> node ps c /\ parent ps c = h.
Proof. intros. unfold allch. rewrite In_childof, In_zrange. reflexivity. Qed.

Lemma leaf_no_child : forall x c, leaf L x -> node ps c -> parent ps c <> x.
Proof.
  intros x c Hx Nc E. destruct (Z.eq_dec c r) as [->|D].
  - rewrite (vt_rootp _ _ _ V) in E. unfold leaf in Hx; lia.
  - pose proof (vt_parent _ _ _ V c Nc D). unfold leaf in Hx; lia.
Qed.

Lemma lv_eq : forall h, node ps h -> lv h = one h + zsum lv (allch h).
Proof.
  intros h Nh. destruct (valid_rank _ _ _ V) as [rank Hr]. pose proof (vt_L _ _ _ V) as VL. unfold one.
  destruct (Z.ltb_spec h L) as [Lt|Ge].
  - assert (Hl : leaf L h) by (unfold leaf, node in *; lia).
    replace (allch h) with (@nil Z).
    + unfold lv. rewrite (leavesof_leaf ps rank Hr L ltac:(lia) h Hl); [reflexivity|].
      intros c Nc Hp. destruct (Z.eq_dec c r) as [->|D]; [exfalso; apply Hp, (vt_rootp _ _ _ V)|].
      pose proof (vt_parent _ _ _ V c Nc D); lia.
    + destruct (allch h) as [|c l] eqn:E; auto. exfalso. assert (K : In c (allch h)) by (rewrite E; left; auto).
      apply allch_In in K. destruct K as [K1 K2]. apply (leaf_no_child h c Hl K1 K2).
  - simpl. unfold lv at 1.
    change (vlen (leavesof L ps h) = zsum (fun x => vlen (leavesof L ps x)) (allch h)).
    rewrite <- (vlen_flat (leavesof L ps) (allch h)). unfold vlen. f_equal. apply Permutation_length.
    apply (leavesof_children ps rank Hr L ltac:(lia)); auto.
    + apply NoDup_filter, NoDup_zrange.
    + intro c. apply allch_In.
Qed.

Lemma lv_pos : forall h, node ps h -> 1 <= lv h.
Proof.
  destruct (valid_depth _ _ _ V) as [depth [D0 [D1 [D2 D3]]]]. pose proof (vt_L _ _ _ V) as VL.
  assert (B : exists M, forall h, node ps h -> depth h <= M).
  { assert (K : forall l, exists M, forall h, In h l -> depth h <= M).
    { induction l as [|a l [M IH]]; [exists 0; intros h []|]. exists (Z.max M (depth a)).
      intros h [<-|K]; [lia|]. specialize (IH h K). lia. }
    destruct (K (zrange 0 (vlen ps))) as [M HM]. exists M. intros h Nh. apply HM, In_zrange. exact Nh. }
  destruct B as [M HM].
  assert (K : forall k h, node ps h -> (Z.to_nat (M - depth h) < k)%nat -> 1 <= lv h).
  { induction k as [|k IH]; intros h Nh Hk; [lia|]. rewrite (lv_eq h Nh). unfold one.
    destruct (Z.ltb_spec h L) as [Lt|Ge].
    - pose proof (zsum_nonneg lv (allch h)). assert (0 <= zsum lv (allch h)); [|lia]. apply H.
      intros x _. unfold lv. apply vlen_nonneg.
    - destruct (vt_child _ _ _ V h ltac:(unfold node in Nh; lia)) as [c [Nc Pc]].
      assert (Kc : In c (allch h)) by (apply allch_In; auto).
      assert (1 <= lv c).
      { apply IH; auto. assert (Dr : c <> r) by (intro; subst c; rewrite (vt_rootp _ _ _ V) in Pc; unfold node in Nh; lia).
        pose proof (D1 c Nc Dr). rewrite Pc in H. pose proof (HM c Nc). lia. }
      apply in_split in Kc. destruct Kc as [l1 [l2 E]]. rewrite E, zsum_app. simpl.
      pose proof (zsum_nonneg lv l1 (fun x _ => vlen_nonneg _ (leavesof L ps x))).
      pose proof (zsum_nonneg lv l2 (fun x _ => vlen_nonneg _ (leavesof L ps x))). lia. }
  intros h Nh. apply (K (S (Z.to_nat (M - depth h)))); auto.
Qed.

Definition before (path : list Z) (d h : Z) : Prop := exists a b, vget path a = Ok d /\ vget path b = Ok h /\ a < b.

(** Everything below [c] was visited, with its final size, children before parents. *)
Definition good (v : Z -> Z) (i : Z) (path : list Z) (c : Z) : Prop :=
  forall d, node ps d -> below ps d c -> In d (pre i path) /\ v d = lv d /\ (d <> c -> before path d (parent ps d)).

Record cinv (v : Z -> Z) (i : Z) (path : list Z) (ch : list (list Z)) (sz : list (Z * Z)) : Prop := {
  ci_i : 0 <= i < vlen path;
  ci_nd : NoDup path;
  ci_node : forall h, In h path -> node ps h;
  ci_leaves : forall k, leaf L k -> vget path k = Ok k;
  ci_noroot : ~ In r (pre i path);
  ci_in : forall h, In h path <-> leaf L h \/ (node ps h /\ exists c, In c (pre i path) /\ parent ps c = h);
  ci_ch : vrepr ch (vlen ps) (fun h => childof h (pre i path));
  ci_v : forall c, In c (pre i path) -> 1 <= v c <= lv c /\ (v c = lv c -> good v i path c);
  ci_sz : forall h, In h path -> imap_get sz h = Some (one h + zsum v (childof h (pre i path)));
  ci_nosz : forall h, ~ In h path -> imap_get sz h = None
}.

Lemma childof_incl : forall i path h, (forall x, In x path -> node ps x) -> incl (childof h (pre i path)) (allch h).
Proof. intros i path h N c K. apply In_childof in K. destruct K as [K1 K2]. apply allch_In. split; auto. apply N. eapply pre_incl; eauto. Qed.

(** The size a node has when some of its children were visited is at most the number of its leaves; if it is that number,
    all its children were visited with their final sizes. *)
Lemma size_bound : forall v i path ch sz h, cinv v i path ch sz -> In h path ->
  1 <= one h + zsum v (childof h (pre i path)) <= lv h /\
  (one h + zsum v (childof h (pre i path)) = lv h ->
     forall c, node ps c -> parent ps c = h -> In c (pre i path) /\ v c = lv c /\ good v i path c).
Proof.
  intros v i path ch sz h B K. pose proof (ci_node _ _ _ _ _ B h K) as Nh.
  set (l := childof h (pre i path)).
  assert (LE : forall c, In c l -> v c <= lv c).
  { intros c Kc. apply In_childof in Kc. destruct (ci_v _ _ _ _ _ B c (proj1 Kc)); lia. }
  assert (POS : forall c, In c (allch h) -> 1 <= lv c) by (intros c Kc; apply allch_In in Kc; apply lv_pos, Kc).
  assert (NDl : NoDup l) by (apply NoDup_filter, NoDup_pre, (ci_nd _ _ _ _ _ B)).
  destruct (zsum_sub lv l (allch h) NDl) as [H1 H2]; auto.
  { apply NoDup_filter, NoDup_zrange. }
  { apply childof_incl, (ci_node _ _ _ _ _ B). }
  pose proof (zsum_le v lv l LE) as H3. pose proof (lv_eq h Nh) as H4.
  split.
  - split; [|lia].
    assert (H5 : 0 <= zsum v l). { apply zsum_nonneg. intros c Kc. apply In_childof in Kc. destruct (ci_v _ _ _ _ _ B c (proj1 Kc)); lia. }
    unfold one in *. destruct (Z.ltb_spec h L) as [Lt|Ge]; [lia|].
    apply (ci_in _ _ _ _ _ B) in K. destruct K as [K|[_ [c [Kc Pc]]]]; [unfold leaf in K; lia|].
    assert (Kl : In c l) by (apply In_childof; auto).
    apply in_split in Kl. destruct Kl as [l1 [l2 E]]. rewrite E in *. rewrite zsum_app. simpl.
    destruct (ci_v _ _ _ _ _ B c Kc) as [Kv _].
    assert (0 <= zsum v l1).
    { apply zsum_nonneg. intros x Kx. assert (In x l) by (rewrite E; apply in_or_app; auto). rewrite E in H. 
      assert (In x (childof h (pre i path))) by (fold l; rewrite E; exact H). apply In_childof in H0. destruct (ci_v _ _ _ _ _ B x (proj1 H0)); lia. }
    assert (0 <= zsum v l2).
    { apply zsum_nonneg. intros x Kx. assert (In x (childof h (pre i path))) by (fold l; rewrite E; apply in_or_app; right; right; auto).
      apply In_childof in H0. destruct (ci_v _ _ _ _ _ B x (proj1 H0)); lia. }
    lia.
  - intros E c Nc Pc. assert (E2 : zsum v l = zsum lv l) by lia. assert (E3 : zsum lv l = zsum lv (allch h)) by lia.
    assert (Kc : In c l) by (apply H2; auto; apply allch_In; auto).
    assert (Ev : v c = lv c) by (apply (zsum_eq v lv l LE E2 c Kc)).
    apply In_childof in Kc. split; [apply Kc|]. split; auto. apply (ci_v _ _ _ _ _ B c (proj1 Kc)); auto.
Qed.

Lemma below_child : forall d h, node ps d -> below ps d h -> d <> h -> exists c, node ps c /\ parent ps c = h /\ below ps d c.
Proof.
  intros d h Nd B. induction B as [h|d h Hp B IH]; intro D; [congruence|].
  assert (Dr : d <> r) by (intro; subst d; apply Hp, (vt_rootp _ _ _ V)).
  pose proof (vt_parent _ _ _ V d Nd Dr) as Pb. pose proof (vt_L _ _ _ V) as VL.
  destruct (Z.eq_dec (parent ps d) h) as [E|E].
  - exists d. split; auto. split; auto. constructor.
  - destruct IH as [c [Nc [Pc Bc]]]; auto; [unfold node; lia|]. exists c. split; auto. split; auto. apply below_up; auto.
Qed.

Lemma before_ext : forall path u d h, before path d h -> before (path ++ u) d h.
Proof.
  intros path u d h (a & b & E1 & E2 & Lt). exists a, b.
  pose proof (vget_inv _ _ _ _ E1). pose proof (vget_inv _ _ _ _ E2). rewrite !vget_app_l by lia. auto.
Qed.

Lemma pre_node_pos : forall path i c h, In c (pre i path) -> vget path i = Ok h -> before path c h.
Proof. intros path i c h K E. apply In_pre in K. destruct K as [k [Hk Ek]]. exists k, i. split; auto. split; auto. lia. Qed.

Lemma cinv_step : forall v i path ch sz h, cinv v i path ch sz -> vget path i = Ok h -> h <> r ->
  exists v' path' ch' sz',
    (let '(path', size') :=
          match imap_get sz (parent ps h) with
          | Some s => (path, imap_set sz (parent ps h) (s + imap_at sz h))
          | None => (path ++ [parent ps h], imap_set sz (parent ps h) (imap_at sz h))
          end in
        let* ch0 := vget ch (parent ps h) in
        let* children' := vset ch (parent ps h) (ch0 ++ [h]) in
        Ok (path', children', size')) = Ok (path', ch', sz') /\
    cinv v' (i + 1) path' ch' sz'.
Proof.
  intros v i path ch sz h B E Dr.
  pose proof (vt_L _ _ _ V) as VL.
  pose proof (ci_node _ _ _ _ _ B h (vget_In _ _ _ _ E)) as Nh.
  pose proof (vget_In _ _ _ _ E) as Kh.
  pose proof (ci_sz _ _ _ _ _ B h Kh) as Hsz.
  destruct (size_bound _ _ _ _ _ h B Kh) as [SB1 SB2].
  pose proof (vt_parent _ _ _ V h Nh Dr) as Pb.
  set (p := parent ps h) in *.
  assert (Np : node ps p) by (unfold node; lia).
  set (s0 := one h + zsum v (childof h (pre i path))) in *.
  assert (Hat : imap_at sz h = s0) by (unfold imap_at; rewrite Hsz; reflexivity).
  rewrite (vrepr_get _ _ _ _ p (ci_ch _ _ _ _ _ B) Np).
  destruct (vrepr_set _ _ _ _ p (childof p (pre i path) ++ [h]) (ci_ch _ _ _ _ _ B) Np) as [ch' [Ech Rch]].
  pose (path' := if existsb (fun x => x =? p) path then path else path ++ [p]).
  assert (Inp : existsb (fun x => x =? p) path = true <-> In p path).
  { rewrite existsb_exists. split; [intros [x [K1 K2]]; apply Z.eqb_eq in K2; subst; auto|].
    intro K; exists p; split; auto. apply Z.eqb_refl. }
  assert (Pext : exists u, path' = path ++ u).
  { unfold path'. destruct (existsb _ path); [exists []; rewrite app_nil_r; auto|eauto]. }
  assert (Pin' : forall x, In x path' <-> In x path \/ x = p).
  { intro x. unfold path'. destruct (existsb _ path) eqn:K.
    - split; [auto|]. intros [K3|K3]; [auto|]. subst x. apply Inp; auto.
    - rewrite in_app_iff. simpl. intuition. }
  pose proof (ci_i _ _ _ _ _ B) as Hi.
  assert (ND' : NoDup path').
  { unfold path'. destruct (existsb _ path) eqn:K; [apply (ci_nd _ _ _ _ _ B)|].
    assert (~ In p path) by (intro X; apply Inp in X; congruence).
    apply Permutation_NoDup with (p :: path); [apply Permutation_cons_append|constructor; auto; apply (ci_nd _ _ _ _ _ B)]. }
  assert (Pget2 : forall k x, vget path k = Ok x -> vget path' k = Ok x).
  { intros k x K. unfold path'. destruct (existsb _ path); auto. rewrite vget_app_l; auto.
    pose proof (vget_inv _ _ _ _ K); lia. }
  assert (Ppre : pre i path' = pre i path).
  { unfold path'. destruct (existsb _ path); auto. apply pre_app. lia. }
  assert (Ppre1 : pre (i + 1) path' = pre i path ++ [h]).
  { rewrite (pre_succ _ path' i h); [rewrite Ppre; auto|apply Pget2; auto]. }
  assert (Hnew : ~ In h (pre i path)).
  { intro K. apply In_pre in K. destruct K as [k [Hk Ek]].
    pose proof (NoDup_vget _ _ _ _ _ (ci_nd _ _ _ _ _ B) Ek E). lia. }
  pose (v' := fun x => if x =? h then s0 else v x).
  assert (V'h : v' h = s0) by (unfold v'; rewrite Z.eqb_refl; reflexivity).
  assert (V'o : forall x, In x (pre i path) -> v' x = v x).
  { intros x K. unfold v'. destruct (Z.eqb_spec x h) as [->|]; [contradiction|auto]. }
  assert (GOOD : forall c, In c (pre i path) -> good v i path c -> good v' (i + 1) path' c).
  { intros c Kc G d Nd Bd. destruct (G d Nd Bd) as (G1 & G2 & G3). split; [rewrite Ppre1; apply in_or_app; auto|].
    split; [rewrite (V'o d G1); auto|]. intro D. destruct Pext as [u ->]. apply before_ext; auto. }
  assert (CHI : forall q, childof q (pre (i + 1) path') = childof q (pre i path) ++ (if p =? q then [h] else [])).
  { intro q. rewrite Ppre1. unfold childof. rewrite filter_app. simpl. fold p. destruct (p =? q); reflexivity. }
  assert (ZS : forall q, zsum v' (childof q (pre (i + 1) path')) = zsum v (childof q (pre i path)) + (if p =? q then s0 else 0)).
  { intro q. rewrite CHI, zsum_app. f_equal.
    - apply zsum_ext. intros x K. apply V'o. apply In_childof in K; tauto.
    - destruct (p =? q); simpl; [rewrite V'h; lia|reflexivity]. }
  assert (In' : forall k, In k path' <-> leaf L k \/ (node ps k /\ exists c, In c (pre (i + 1) path') /\ parent ps c = k)).
  { intro k. rewrite Pin', Ppre1, (ci_in _ _ _ _ _ B k). split.
    - intros [[K|[Nk [c [K1 K2]]]]| ->]; auto.
      + right. split; auto. exists c; split; auto. apply in_or_app; auto.
      + right. split; auto. exists h; split; auto. apply in_or_app; right; left; auto.
    - intros [K|[Nk [c [K1 K2]]]]; auto. apply in_app_or in K1. destruct K1 as [K1|[<-|[]]]; [|right; subst; reflexivity].
      left. right. split; auto. exists c; auto. }
  assert (NR' : ~ In r (pre (i + 1) path')).
  { rewrite Ppre1, in_app_iff. intros [K|[K|[]]]; [apply (ci_noroot _ _ _ _ _ B); auto|congruence]. }
  exists v', path', ch', (match imap_get sz p with
                      | Some s => imap_set sz p (s + imap_at sz h)
                      | None => imap_set sz p (imap_at sz h) end).
  split.
  - destruct (imap_get sz p) as [s|] eqn:Ep.
    + assert (In p path).
      { destruct (in_dec Z.eq_dec p path); auto. rewrite (ci_nosz _ _ _ _ _ B p n) in Ep. discriminate. }
      simpl. rewrite Ech. simpl. unfold path'. rewrite (proj2 Inp H). reflexivity.
    + assert (~ In p path).
      { intro K. rewrite (ci_sz _ _ _ _ _ B p K) in Ep. discriminate. }
      simpl. rewrite Ech. simpl. unfold path'. destruct (existsb _ path); auto. exfalso; apply H, Inp; auto.
  - constructor.
    + split; [lia|]. destruct (Z_lt_ge_dec (i + 1) (vlen path')) as [|Ge]; auto. exfalso.
      assert (ALL : forall x, In x path' -> In x (pre (i + 1) path')).
      { intros x K. destruct (In_vget _ _ _ K) as [k [Ek Hk]]. apply In_pre. exists k; split; [lia|auto]. }
      assert (CL : forall x k, below ps x k -> In x path' -> In k path').
      { intros x k Bk. induction Bk as [x|x k Hp Bk IH]; auto. intro K. apply IH. apply In'. right.
        assert (Nx : node ps x). { apply Pin' in K. destruct K as [K| ->]; auto. apply (ci_node _ _ _ _ _ B); auto. }
        assert (Dx : x <> r) by (intro; subst x; apply Hp, (vt_rootp _ _ _ V)).
        pose proof (vt_parent _ _ _ V x Nx Dx). split; [unfold node; lia|]. exists x. split; auto. }
      apply NR', ALL. apply (CL 0); [apply (vt_reach _ _ _ V); unfold node; lia|].
      apply Pin'. left. eapply vget_In. apply (ci_leaves _ _ _ _ _ B). unfold leaf; lia.
    + exact ND'.
    + intros k K. apply Pin' in K. destruct K as [K| ->]; auto. apply (ci_node _ _ _ _ _ B); auto.
    + intros k K. apply Pget2. apply (ci_leaves _ _ _ _ _ B); auto.
    + exact NR'.
    + exact In'.
    + eapply vrepr_ext; [exact Rch|]. intros q Hq. rewrite CHI. unfold fupd.
      rewrite (Z.eqb_sym p q). destruct (Z.eqb_spec q p) as [->|]; auto. rewrite app_nil_r; auto.
    + intros c Kc. rewrite Ppre1 in Kc. apply in_app_or in Kc. destruct Kc as [Kc|[<-|[]]].
      * rewrite (V'o c Kc). destruct (ci_v _ _ _ _ _ B c Kc) as [K1 K2]. split; auto.
      * rewrite V'h. split; [exact SB1|]. intros Ev d Nd Bd.
        destruct (Z.eq_dec d h) as [->|D].
        -- split; [rewrite Ppre1; apply in_or_app; right; left; auto|]. split; [rewrite V'h; auto|congruence].
        -- destruct (below_child d h Nd Bd D) as [c [Nc [Pc Bc]]].
           destruct (SB2 Ev c Nc Pc) as (K1 & K2 & K3).
           destruct (GOOD c K1 K3 d Nd Bc) as (G1 & G2 & G3). split; auto. split; auto. intros _.
           destruct (Z.eq_dec d c) as [->|Dc]; [|auto]. rewrite Pc. destruct Pext as [u Eu]. rewrite Eu. apply before_ext.
           eapply pre_node_pos; eauto.
    + intros q K2. rewrite ZS. apply Pin' in K2. destruct (Z.eqb_spec p q) as [->|Npq].
      * destruct (imap_get sz q) as [s|] eqn:Eq; rewrite imap_get_set, Z.eqb_refl; f_equal; rewrite Hat.
        -- assert (In q path).
           { destruct (in_dec Z.eq_dec q path); auto. rewrite (ci_nosz _ _ _ _ _ B q n) in Eq. discriminate. }
           rewrite (ci_sz _ _ _ _ _ B q H) in Eq. inversion Eq. lia.
        -- assert (Nq : ~ In q path).
           { intro K. rewrite (ci_sz _ _ _ _ _ B q K) in Eq. discriminate. }
           assert (C0 : childof q (pre i path) = []).
           { destruct (childof q (pre i path)) as [|c l] eqn:F; auto. exfalso. apply Nq. apply (ci_in _ _ _ _ _ B).
             right. split; auto. exists c. apply In_childof. rewrite F. left; auto. }
           rewrite C0. simpl. unfold one. destruct (Z.ltb_spec q L); [lia|]. reflexivity.
      * destruct K2 as [K2|]; [|congruence]. rewrite Z.add_0_r.
        destruct (imap_get sz p); rewrite imap_get_set; destruct (Z.eqb_spec q p); try congruence; apply (ci_sz _ _ _ _ _ B); auto.
    + intros q K. assert (~ In q path /\ q <> p).
      { split; [intro X; apply K, Pin'; auto|intro X; apply K, Pin'; auto]. }
      destruct (imap_get sz p); rewrite imap_get_set; destruct (Z.eqb_spec q p); try tauto; apply (ci_nosz _ _ _ _ _ B); tauto.
Qed.

Lemma cinv_init : cinv (fun _ => 0) 0 (zrange 0 L) (vrep L [] ++ vrep (vlen ps - L) []) (map (fun h => (h, 1)) (zrange 0 L)).
Proof.
  pose proof (vt_L _ _ _ V) as VL. constructor.
  - rewrite vlen_zrange; lia.
  - apply NoDup_zrange.
  - intros h K. apply In_zrange in K. unfold node; lia.
  - intros k K. unfold leaf in K. rewrite vget_zrange by lia. f_equal.
  - intros [].
  - intro h. rewrite In_zrange. unfold pre; simpl. split; [intro; left; exact H|].
    intros [K|[_ [c [[] _]]]]; exact K.
  - split. { rewrite vlen_app, !vlen_vrep by lia. lia. }
    intros h Hh. unfold pre, childof; simpl. destruct (Z_lt_ge_dec h L).
    + rewrite vget_app_l by (rewrite vlen_vrep by lia; lia). apply vget_vrep; lia.
    + rewrite vget_app_r by (rewrite vlen_vrep by lia; lia). rewrite vlen_vrep by lia. apply vget_vrep; lia.
  - intros c [].
  - intros h K. apply In_zrange in K. rewrite imap_get_init. unfold one, pre; simpl.
    destruct (Z.leb_spec 0 h), (Z.ltb_spec h L); simpl; auto; lia.
  - intros h K. rewrite imap_get_init. destruct (Z.leb_spec 0 h), (Z.ltb_spec h L); simpl; auto.
    exfalso; apply K, In_zrange; lia.
Qed.

Lemma cinv_loop : forall fuel v i path ch sz, cinv v i path ch sz -> vlen ps - i < Z.of_nat fuel ->
  exists v' path' ch' sz' j, sp_loop fuel ps i (path, ch, sz) = Ok (path', ch', sz') /\ cinv v' j path' ch' sz' /\ vget path' j = Ok r.
Proof.
  induction fuel as [|fuel IH]; intros v i path ch sz B F.
  { pose proof (NoDup_nodes_len ps path (ci_nd _ _ _ _ _ B) (ci_node _ _ _ _ _ B)). pose proof (ci_i _ _ _ _ _ B). lia. }
  destruct (vget_ok _ path i (ci_i _ _ _ _ _ B)) as [h E].
  pose proof (ci_node _ _ _ _ _ B h (vget_In _ _ _ _ E)) as Nh.
  cbn [sp_loop]. rewrite E. cbn [bind]. rewrite (parent_vget ps h Nh). cbn [bind].
  destruct (Z.eqb_spec (parent ps h) (-1)) as [Er|Er].
  - apply (valid_root_iff L ps r h V Nh) in Er. subst h. exists v, path, ch, sz, i. auto.
  - assert (Dr : h <> r) by (intro K; apply Er; apply (valid_root_iff L ps r h V Nh); auto).
    destruct (cinv_step v i path ch sz h B E Dr) as [v' [path' [ch' [sz' [Eq B']]]]].
    destruct (match imap_get sz (parent ps h) with
          | Some s => (path, imap_set sz (parent ps h) (s + imap_at sz h))
          | None => (path ++ [parent ps h], imap_set sz (parent ps h) (imap_at sz h))
          end) as [path1 sz1] eqn:E1.
    apply bind_ok in Eq. destruct Eq as [c0 [Ec0 Eq]]. rewrite Ec0. cbn [bind].
    apply bind_ok in Eq. destruct Eq as [c1 [Ec1 Eq]]. rewrite Ec1. cbn [bind].
    inversion Eq; subst. eapply IH; eauto. lia.
Qed.

Lemma lv_root : lv r = L.
Proof.
  pose proof (vt_L _ _ _ V) as VL. destruct (valid_rank _ _ _ V) as [rank Hr].
  unfold lv. assert (P : Permutation (leavesof L ps r) (zrange 0 L)).
  { apply NoDup_Permutation; [apply NoDup_leavesof|apply NoDup_zrange|].
    intro x. rewrite (In_leavesof ps rank Hr L) by lia. rewrite In_zrange. unfold leaf. split; [tauto|].
    intro K. split; auto. apply (vt_reach _ _ _ V). unfold node; lia. }
  unfold vlen. rewrite (Permutation_length P), zrange_length. lia.
Qed.

Lemma lv_le : forall h, node ps h -> lv h <= L.
Proof.
  intros h Nh. pose proof (vt_L _ _ _ V) as VL.
  assert (I : incl (leavesof L ps h) (zrange 0 L)).
  { intros x K. unfold leavesof in K. apply filter_In in K. tauto. }
  pose proof (NoDup_incl_length (NoDup_leavesof ps L h) I). rewrite zrange_length in H. unfold lv, vlen. lia.
Qed.

(** A node with all the leaves below it, other than the root, is visited before the root is. *)
Lemma full_visited : forall v i path ch sz x, cinv v i path ch sz -> vget path i = Ok r -> node ps x -> lv x = L -> x <> r ->
  In x (pre i path).
Proof.
  intros v i path ch sz x B Er Nx Ex Dx. pose proof (vt_L _ _ _ V) as VL.
  destruct (valid_rank _ _ _ V) as [rank Hr].
  assert (ALLX : forall y, leaf L y -> below ps y x).
  { assert (I : incl (zrange 0 L) (leavesof L ps x)).
    { apply NoDup_length_incl; [apply NoDup_leavesof|rewrite zrange_length; unfold lv, vlen in Ex; lia|].
      intros y K. unfold leavesof in K. apply filter_In in K. tauto. }
    intros y Hy. assert (K : In y (leavesof L ps x)) by (apply I, In_zrange; exact Hy).
    apply (In_leavesof ps rank Hr L) in K; [tauto|lia]. }
  assert (BND : exists M, forall h, node ps h -> - M <= rank h).
  { assert (K : forall l, exists M, forall h, In h l -> - M <= rank h).
    { induction l as [|a l [M IH]]; [exists 0; intros h []|]. exists (Z.max M (- rank a)).
      intros h [<-|K]; [lia|]. specialize (IH h K). lia. }
    destruct (K (zrange 0 (vlen ps))) as [M HM]. exists M. intros h Nh. apply HM, In_zrange. exact Nh. }
  destruct BND as [M HM].
  assert (G : forall k y, In y path -> below ps x y -> x <> y -> (Z.to_nat (rank y + M) < k)%nat -> In x (pre i path)).
  { induction k as [|k IH]; intros y Ky Bxy Dxy Hk; [lia|].
    pose proof (ci_node _ _ _ _ _ B y Ky) as Ny.
    apply (ci_in _ _ _ _ _ B) in Ky. destruct Ky as [Ky|[_ [d [Kd Pd]]]].
    - exfalso. (* a leaf has nothing below it *)
      destruct (below_child x y Nx Bxy Dxy) as [c [Nc [Pc _]]]. apply (leaf_no_child y c Ky Nc Pc).
    - assert (Kdp : In d path) by (eapply pre_incl; eauto). pose proof (ci_node _ _ _ _ _ B d Kdp) as Nd.
      destruct (Z.eq_dec d x) as [->|Ddx]; [exact Kd|].
      (* a leaf below d *)
      assert (LF : exists z, leaf L z /\ below ps z d).
      { pose proof (lv_pos d Nd). unfold lv in H. destruct (leavesof L ps d) as [|z l] eqn:F; [unfold vlen in H; simpl in H; lia|].
        exists z. apply (In_leavesof ps rank Hr L); [lia|]. rewrite F; left; auto. }
      destruct LF as [z [Hz Bz]]. pose proof (ALLX z Hz) as Bzx.
      assert (Hpd : parent ps d <> -1) by (rewrite Pd; unfold node in Ny; lia).
      destruct (below_linear ps z d x Bz Bzx) as [Bdx|Bxd].
      + exfalso. inversion Bdx; subst; [congruence|]. 
        assert (parent ps d = x) by (apply (below_antisym ps rank Hr); auto).
        congruence.
      + apply (IH d); auto. destruct (Hr d Nd Hpd) as [_ R]. rewrite Pd in R.
        pose proof (HM d Nd). lia. }
  apply (G (S (Z.to_nat (rank r + M))) r); auto.
  - eapply vget_In; eauto.
  - apply (vt_reach _ _ _ V); auto.
Qed.

Lemma meta_build_cinv : exists v path ch sz j x,
  meta_build L ps = Ok (mkMeta (vlen ps) L ps ch sz path x) /\
  cinv v j path ch sz /\ vget path j = Ok r /\ vget path (vlen path - 1) = Ok x.
Proof.
  pose proof (vt_L _ _ _ V) as VL.
  destruct (cinv_loop (sp_fuel L (vlen ps)) _ 0 _ _ _ cinv_init) as [v [path [ch [sz [i [E [B Er]]]]]]].
  { unfold sp_fuel. lia. }
  pose proof (ci_i _ _ _ _ _ B) as Hi.
  destruct (vget_ok _ path (vlen path - 1) ltac:(lia)) as [x Ex].
  exists v, path, ch, sz, i, x. split; [|auto].
  unfold meta_build, meta_build_fuel. unfold sp_init. rewrite E. cbn [bind]. rewrite Ex. reflexivity.
Qed.

Theorem check_prf : forall m, meta_build L ps = Ok m -> (well_built m <-> m_sizeof m (m_root m) = L).
Proof.
  intros m Em. pose proof (vt_L _ _ _ V) as VL.
  destruct meta_build_cinv as (v & path & ch & sz & i & x & E & B & Er & Ex).
  rewrite E in Em. injection Em as <-. pose proof (ci_i _ _ _ _ _ B) as Hi. pose proof (ci_nd _ _ _ _ _ B) as ND.
  assert (Kx : In x path) by (eapply vget_In; eauto).
  pose proof (ci_node _ _ _ _ _ B x Kx) as Nx.
  split.
  - intro W. pose proof (wb_tree _ W) as V'. cbn in V'.
    assert (x = r) by (apply (valid_root_iff L ps r x V Nx); apply (vt_rootp _ _ _ V')). subst x.
    pose proof (wb_size _ W r (vt_root _ _ _ V)) as S. cbn in S. unfold m_sizeof, imap_at. cbn. rewrite S. exact lv_root.
  - intro S. unfold m_sizeof, imap_at in S. cbn in S. rewrite (ci_sz _ _ _ _ _ B x Kx) in S.
    destruct (size_bound _ _ _ _ _ x B Kx) as [SB1 SB2].
    pose proof (lv_le x Nx) as LX.
    assert (EX : lv x = L) by lia.
    assert (XR : x = r).
    { destruct (Z.eq_dec x r) as [|D]; auto. exfalso.
      pose proof (full_visited _ _ _ _ _ x B Er Nx EX D) as K. apply In_pre in K. destruct K as [k [Hk Ek]].
      pose proof (NoDup_vget _ _ _ _ _ ND Ek Ex). lia. }
    subst x. assert (LAST : i = vlen path - 1) by (eapply NoDup_vget; eauto).
    specialize (SB2 ltac:(lia)).
    assert (GR : forall d, node ps d -> d <> r -> In d (pre i path) /\ v d = lv d /\ before path d (parent ps d)).
    { intros d Nd D. destruct (below_child d r Nd (vt_reach _ _ _ V d Nd) D) as [c [Nc [Pc Bc]]].
      destruct (SB2 c Nc Pc) as (K1 & K2 & K3). destruct (K3 d Nd Bc) as (G1 & G2 & G3).
      split; auto. split; auto. destruct (Z.eq_dec d c) as [->|Dc]; [|auto]. rewrite Pc. eapply pre_node_pos; eauto. }
    assert (ALL : forall h, In h path <-> node ps h).
    { intro h; split; [apply (ci_node _ _ _ _ _ B)|]. intro Nh. destruct (Z.eq_dec h r) as [->|D]; auto.
      eapply pre_incl. apply GR; auto. }
    assert (LEN : vlen path = vlen ps).
    { assert (P : Permutation path (zrange 0 (vlen ps))).
      { apply NoDup_Permutation; auto; [apply NoDup_zrange|]. intro y. rewrite ALL, In_zrange. reflexivity. }
      apply Permutation_length in P. rewrite zrange_length in P. unfold vlen in *; lia. }
    assert (SPLIT : path = pre i path ++ [r]).
    { rewrite <- (pre_succ _ path i r Er). unfold pre. rewrite firstn_all2; auto. unfold vlen in *; lia. }
    assert (CHF : forall h, node ps h -> childof h (pre i path) = childof h path).
    { intros h Nh. rewrite SPLIT at 2. unfold childof. rewrite filter_app. simpl. rewrite (vt_rootp _ _ _ V).
      destruct (Z.eqb_spec (-1) h); [unfold node in Nh; lia|]. rewrite app_nil_r; auto. }
    constructor; cbn.
    + exact V.
    + reflexivity.
    + exact LEN.
    + exact ND.
    + exact ALL.
    + apply (ci_leaves _ _ _ _ _ B).
    + rewrite <- LEN. exact Ex.
    + intros a b c h Ea Eb P.
      assert (Nc : node ps c) by (apply ALL; eapply vget_In; eauto).
      assert (Nh : node ps h) by (apply ALL; eapply vget_In; eauto).
      assert (Dc : c <> r) by (intro; subst c; rewrite (vt_rootp _ _ _ V) in P; unfold node in Nh; lia).
      destruct (GR c Nc Dc) as (_ & _ & a' & b' & E1 & E2 & Lt). rewrite P in E2.
      rewrite (NoDup_vget _ _ _ _ _ ND Ea E1), (NoDup_vget _ _ _ _ _ ND Eb E2). exact Lt.
    + exact (proj1 (ci_ch _ _ _ _ _ B)).
    + intros h Nh. rewrite (vrepr_get _ _ _ _ h (ci_ch _ _ _ _ _ B) Nh). f_equal. apply CHF; auto.
    + intros h Nh. rewrite (ci_sz _ _ _ _ _ B h (proj2 (ALL h) Nh)). f_equal.
      change (vlen (leavesof L ps h)) with (lv h). rewrite (lv_eq h Nh). f_equal.
      transitivity (zsum lv (childof h (pre i path))).
      * apply zsum_ext. intros c K. apply In_childof in K. destruct K as [K1 K2].
        assert (Nc : node ps c) by (apply ALL; eapply pre_incl; eauto).
        apply GR; auto. intro; subst c. apply (ci_noroot _ _ _ _ _ B); auto.
      * apply zsum_perm. apply NoDup_Permutation; [apply NoDup_filter, NoDup_pre; auto|apply NoDup_filter, NoDup_zrange|].
        intro c. rewrite allch_In. split.
        -- intro K. apply In_childof in K. destruct K as [K1 K2]. split; auto. apply ALL. eapply pre_incl; eauto.
        -- intros [Nc Pc]. apply In_childof. split; auto. apply GR; auto.
           intro; subst c. rewrite (vt_rootp _ _ _ V) in Pc. unfold node in Nh. lia.
Qed.

(** The reported root has at most as many leaves as there are. *)
Theorem check_le_prf : forall m, meta_build L ps = Ok m -> m_sizeof m (m_root m) <= L.
Proof.
  intros m Em. destruct meta_build_cinv as (v & path & ch & sz & i & x & E & B & Er & Ex).
  rewrite E in Em. injection Em as <-. assert (Kx : In x path) by (eapply vget_In; eauto).
  destruct (size_bound _ _ _ _ _ x B Kx) as [SB1 _]. pose proof (lv_le x (ci_node _ _ _ _ _ B x Kx)).
  unfold m_sizeof, imap_at. cbn. rewrite (ci_sz _ _ _ _ _ B x Kx). lia.
Qed.

(** The sizes reported for the nodes of the path are never too large. *)
Theorem sizes_le_prf : forall m h, meta_build L ps = Ok m -> In h (m_path m) -> 1 <= m_sizeof m h <= vlen (leavesof L ps h).
Proof.
  intros m h Em. destruct meta_build_cinv as (v & path & ch & sz & i & x & E & B & Er & Ex).
  rewrite E in Em. injection Em as <-. cbn. intro Kh.
  destruct (size_bound _ _ _ _ _ h B Kh) as [SB1 _].
  unfold m_sizeof, imap_at. cbn. rewrite (ci_sz _ _ _ _ _ B h Kh). exact SB1.
Qed.
End Check.
