(** * Facts about trees given by parent vectors. *)
From Coq Require Import Lia Permutation.
From Verif Require Import Base BaseFacts Hierarchy SpecTree.

Lemma parent_out : forall ps h, ~ node ps h -> parent ps h = -1.
Proof. intros ps h H. unfold parent. rewrite vget_out by exact H. reflexivity. Qed.

Lemma parent_vget : forall ps h, node ps h -> vget ps h = Ok (parent ps h).
Proof. intros ps h H. destruct (vget_ok _ ps h H) as [p E]. unfold parent; rewrite E; reflexivity. Qed.

Lemma below_trans : forall ps x y z, below ps x y -> below ps y z -> below ps x z.
Proof. intros ps x y z H; induction H; intros; auto. apply below_up; auto. Qed.

Lemma below_linear : forall ps x a b, below ps x a -> below ps x b -> below ps a b \/ below ps b a.
Proof.
  intros ps x a b H; revert b; induction H as [x|x a Hp Ha IH]; intros b Hb.
  - left; auto.
  - inversion Hb; subst.
    + right. apply below_up; auto.
    + apply IH; auto.
Qed.

Lemma iter_succ_r : forall X (f : X -> X) n x, Nat.iter (S n) f x = Nat.iter n f (f x).
Proof. intros X f n x; induction n as [|n IH]; simpl in *; congruence. Qed.

Section Ranked.
Variable ps : list Z.
Variable rank : Z -> Z.
Hypothesis Hrank : forall h, node ps h -> parent ps h <> -1 -> node ps (parent ps h) /\ rank h < rank (parent ps h).

Lemma below_rank : forall x h, below ps x h -> node ps x -> node ps h /\ (x = h \/ rank x < rank h).
Proof.
  intros x h H; induction H as [h|x h Hp Hb IH]; intros N; [tauto|].
  destruct (Hrank x N Hp) as [N' R]. destruct (IH N') as [Nh [E|E]]; split; auto; right; subst; lia.
Qed.

Lemma below_antisym : forall x h, node ps x -> below ps x h -> below ps h x -> x = h.
Proof.
  intros x h N H1 H2. destruct (below_rank _ _ H1 N) as [Nh [E|E]]; auto.
  destruct (below_rank _ _ H2 Nh) as [_ [E2|E2]]; auto; lia.
Qed.

(** The strict ancestors of a node are the ancestors of its parent. *)
Lemma below_strict : forall x h, below ps x h -> x <> h -> parent ps x <> -1 /\ below ps (parent ps x) h.
Proof. intros x h H N; inversion H; subst; [congruence|auto]. Qed.

(** Two distinct siblings have no common descendant. *)
Lemma siblings_disjoint : forall x c1 c2, node ps x -> below ps x c1 -> below ps x c2 ->
  parent ps c1 <> -1 -> parent ps c1 = parent ps c2 -> c1 = c2.
Proof.
  intros x c1 c2 N H1 H2 Hp E.
  destruct (below_rank _ _ H1 N) as [N1 _]. destruct (below_rank _ _ H2 N) as [N2 _].
  assert (G : forall a b, node ps a -> node ps b -> parent ps a <> -1 -> parent ps a = parent ps b -> below ps a b -> a = b).
  { intros a b Na Nb Hpa Eab Hab. destruct (Z.eq_dec a b) as [|D]; auto.
    destruct (below_strict _ _ Hab D) as [_ B]. rewrite Eab in B.
    destruct (Hrank a Na Hpa) as [Npa _]. rewrite Eab in Npa, Hpa.
    destruct (Hrank b Nb Hpa) as [_ R].
    destruct (below_rank _ _ B Npa) as [_ [K|K]]; [rewrite K in R|]; lia. }
  destruct (below_linear _ _ _ _ H1 H2) as [B|B]; [apply G; auto|].
  symmetry. apply G; auto; congruence.
Qed.

(** Climbing: the fuel [length ps] suffices. *)
Lemma climb_below : forall n x h, climb n ps x h = true -> below ps x h.
Proof.
  induction n as [|n IH]; intros x h H; simpl in H.
  - destruct (Z.eqb_spec x h); [subst; constructor|discriminate].
  - destruct (Z.eqb_spec x h); [subst; constructor|]. simpl in H.
    destruct (Z.eqb_spec (parent ps x) (-1)); [discriminate|]. apply below_up; auto.
Qed.

(** The chain of ancestors visits pairwise distinct nodes. *)
Lemma chain_bounded : forall n x h, below ps x h -> node ps x -> climb n ps x h = false ->
  exists l, length l = S n /\ NoDup l /\ forall y, In y l -> node ps y /\ rank x <= rank y.
Proof.
  induction n as [|n IH]; intros x h B N C.
  - exists [x]. simpl. split; [auto|]. split; [constructor; [intros []|constructor]|].
    intros y [<-|[]]. split; [auto|lia].
  - simpl in C. destruct (Z.eqb_spec x h) as [E|E]; [discriminate|]. simpl in C.
    destruct (below_strict _ _ B E) as [Hp Bp]. destruct (Z.eqb_spec (parent ps x) (-1)); [congruence|].
    destruct (Hrank x N Hp) as [Np R]. destruct (IH _ _ Bp Np C) as [l [Hl [Hd Hy]]].
    exists (x :: l). simpl. split; [lia|]. split.
    + constructor; auto. intro K. apply Hy in K. lia.
    + intros y [<-|K]; [split; [auto|lia]|]. apply Hy in K. split; [tauto|lia].
Qed.

Lemma belowb_true : forall x h, node ps x -> belowb ps x h = true <-> below ps x h.
Proof.
  intros x h N; split; [apply climb_below|]. intro B. unfold belowb.
  destruct (climb (length ps) ps x h) eqn:C; auto. exfalso.
  destruct (chain_bounded _ _ _ B N C) as [l [Hl [Hd Hy]]].
  assert (incl l (zrange 0 (vlen ps))).
  { intros y K; apply Hy in K. apply In_zrange. unfold node in K; tauto. }
  pose proof (NoDup_incl_length Hd H). rewrite zrange_length in H0. unfold vlen in H0. lia.
Qed.

Variable L : Z.
Hypothesis HL : 0 <= L <= vlen ps.

Lemma In_leavesof : forall h x, In x (leavesof L ps h) <-> leaf L x /\ below ps x h.
Proof.
  intros h x. unfold leavesof. rewrite filter_In, In_zrange. unfold leaf.
  split; intros [H1 H2]; split; auto; apply belowb_true in H2 || apply belowb_true; auto; unfold node; lia.
Qed.

Lemma NoDup_leavesof : forall h, NoDup (leavesof L ps h).
Proof. intro h. apply NoDup_filter. apply NoDup_zrange. Qed.

(** The leaves below an internal node are the disjoint union of those below its children. *)
Lemma leavesof_children : forall h ch, node ps h -> L <= h -> NoDup ch ->
  (forall c, In c ch <-> node ps c /\ parent ps c = h) ->
  Permutation (leavesof L ps h) (flat_map (leavesof L ps) ch).
Proof.
  intros h ch Nh Lh Nd Hch. apply NoDup_Permutation.
  - apply NoDup_leavesof.
  - assert (G : forall l, NoDup l -> (forall c, In c l -> node ps c /\ parent ps c = h) -> NoDup (flat_map (leavesof L ps) l)).
    { induction l as [|c l IH]; intros Ndl Hl; simpl; [constructor|]. inversion Ndl; subst.
      assert (App : forall A (u v : list A), NoDup u -> NoDup v -> (forall x, In x u -> In x v -> False) -> NoDup (u ++ v)).
      { clear. induction u as [|a u IH]; intros v Hu Hv D; simpl; auto. inversion Hu; subst. constructor.
        - rewrite in_app_iff. intros [K|K]; [auto|]. apply (D a); simpl; auto.
        - apply IH; auto. intros x K1 K2; apply (D x); simpl; auto. }
      apply App; [apply NoDup_leavesof|apply IH; auto; intros; apply Hl; right; auto|].
      intros x K1 K2. apply In_leavesof in K1. apply in_flat_map in K2. destruct K2 as [c2 [K2 K3]].
      apply In_leavesof in K3.
      destruct (Hl c (or_introl eq_refl)) as [Nc Pc]. destruct (Hl c2 (or_intror K2)) as [Nc2 Pc2].
      assert (c = c2).
      { apply (siblings_disjoint x c c2); try tauto. { unfold node; unfold leaf in K1; lia. }
        { rewrite Pc. unfold node in Nh; lia. } congruence. }
      subst c2; auto. }
    apply G; auto. intros c K; apply Hch; auto.
  - intro x. rewrite in_flat_map, In_leavesof. split.
    + intros [Hx B]. induction B as [h|x h Hp B IH].
      { unfold leaf in Hx; lia. }
      clear IH.
      assert (K : forall y, below ps y h -> node ps y -> y <> h -> exists c, In c ch /\ below ps y c).
      { clear - Hch Hrank. intros y B. induction B as [h|y h Hp B IH]; intros N D; [congruence|].
        destruct (Z.eq_dec (parent ps y) h) as [E|E].
        - exists y. split; [apply Hch; auto|constructor].
        - destruct (Hrank y N Hp) as [Np _]. destruct (IH Hch Np E) as [c [Kc Bc]]. exists c; split; auto.
          apply below_up; auto. }
      destruct (K x) as [c [Kc Bc]].
      { apply below_up; auto. } { unfold node; unfold leaf in Hx; lia. } { unfold leaf in Hx; lia. }
      exists c; split; auto. apply In_leavesof; auto.
    + intros [c [Kc Kx]]. apply In_leavesof in Kx. split; [tauto|].
      apply Hch in Kc. destruct Kc as [Nc Pc]. apply below_trans with c; [tauto|].
      apply below_up; rewrite Pc; [unfold node in Nh; lia|constructor].
Qed.

Lemma leavesof_leaf : forall x, leaf L x -> (forall c, node ps c -> parent ps c <> -1 -> L <= parent ps c) ->
  leavesof L ps x = [x].
Proof.
  intros x Hx Hpar.
  assert (P : Permutation (leavesof L ps x) [x]).
  { apply NoDup_Permutation; [apply NoDup_leavesof|constructor; [intros []|constructor]|].
    intro y. rewrite In_leavesof. simpl. split.
    - intros [Hy B]. left.
      assert (K : forall y, below ps y x -> node ps y -> y = x).
      { clear - Hx Hpar HL Hrank. intros y B. remember x as z. induction B as [h|y h Hp B IH]; intros N; auto.
        exfalso. destruct (Hrank y N Hp) as [Np _]. pose proof (Hpar y N Hp).
        rewrite (IH Heqz Hx Np) in H. subst; unfold leaf in Hx; lia. }
      symmetry; apply K; auto. unfold node, leaf in *; lia.
    - intros [<-|[]]; split; auto. constructor. }
  apply Permutation_sym in P. apply Permutation_length_1_inv in P. auto.
Qed.

End Ranked.

(** Depth of the nodes of a valid tree. *)
Lemma iter_root : forall L ps r, valid_tree L ps r -> forall n k h,
  Nat.iter n (parent ps) h = r -> Nat.iter k (parent ps) h = r -> n = k.
Proof.
  intros L ps r V.
  assert (OUT : forall n, Nat.iter n (parent ps) (-1) = -1).
  { induction n as [|n IH]; auto. rewrite iter_succ_r. rewrite parent_out; auto. unfold node; lia. }
  intros n. induction n as [|n IH]; intros [|k] h E1 E2; auto.
  - exfalso. simpl in E1. subst h. rewrite iter_succ_r, (vt_rootp _ _ _ V), OUT in E2.
    pose proof (vt_root _ _ _ V). unfold node in *; lia.
  - exfalso. simpl in E2. subst h. rewrite iter_succ_r, (vt_rootp _ _ _ V), OUT in E1.
    pose proof (vt_root _ _ _ V). unfold node in *; lia.
  - f_equal. apply (IH k (parent ps h)); rewrite <- iter_succ_r; auto.
Qed.

Lemma below_iter : forall ps h r, below ps h r -> exists n, Nat.iter n (parent ps) h = r.
Proof.
  intros ps h r B. induction B as [h|h r Hp B IH]; [exists O; auto|].
  destruct IH as [n E]. exists (S n). rewrite iter_succ_r. auto.
Qed.

Lemma valid_depth : forall L ps r, valid_tree L ps r ->
  exists depth : Z -> Z, depth r = 0 /\
    (forall h, node ps h -> h <> r -> depth h = depth (parent ps h) + 1) /\
    (forall h, node ps h -> 0 <= depth h) /\
    (forall h n, node ps h -> Nat.iter n (parent ps) h = r -> depth h = Z.of_nat n).
Proof.
  intros L ps r V. pose proof (iter_root _ _ _ V) as U.
  pose (depth := fix d (n : nat) (h : Z) : Z :=
     match n with O => 0 | S n' => if h =? r then 0 else 1 + d n' (parent ps h) end).
  assert (DD : forall n m h, Nat.iter n (parent ps) h = r -> (n <= m)%nat -> depth m h = Z.of_nat n).
  { induction n as [|n IH]; intros m h E Hm.
    - simpl in E; subst h. destruct m; simpl; auto. rewrite Z.eqb_refl; auto.
    - destruct m as [|m]; [lia|].
      change (depth (S m) h) with (if h =? r then 0 else 1 + depth m (parent ps h)). destruct (Z.eqb_spec h r) as [->|Nr].
      + exfalso. assert (S n = O)%nat by (apply (U _ _ r); auto). lia.
      + rewrite (IH m); [lia| |lia]. rewrite <- iter_succ_r; auto. }
  assert (BND : exists N, forall h, node ps h -> exists n, (n <= N)%nat /\ Nat.iter n (parent ps) h = r).
  { assert (G : forall l, (forall h, In h l -> node ps h) -> exists N, forall h, In h l -> exists n, (n <= N)%nat /\ Nat.iter n (parent ps) h = r).
    { induction l as [|a l IH]; intros Hl; [exists O; intros h []|].
      destruct IH as [N HN]; [intros; apply Hl; right; auto|].
      destruct (below_iter ps a r) as [n En]; [apply (vt_reach _ _ _ V), Hl; left; auto|].
      exists (Nat.max n N). intros h [<-|K].
      - exists n; split; [lia|auto].
      - destruct (HN h K) as [k [Hk Ek]]; exists k; split; [lia|auto]. }
    destruct (G (zrange 0 (vlen ps))) as [N HN]; [intros h K; apply In_zrange in K; exact K|].
    exists N. intros h K. apply HN. apply In_zrange; exact K. }
  destruct BND as [N HN].
  exists (depth N). split; [|split; [|split]].
  - apply (DD O N r); [reflexivity|lia].
  - intros h Nh Nr. pose proof (vt_parent _ _ _ V h Nh Nr) as Pb. pose proof (vt_L _ _ _ V) as VL.
    assert (Np : node ps (parent ps h)) by (unfold node; lia).
    destruct (HN h Nh) as [n [Hn En]]. destruct (HN _ Np) as [k [Hk Ek]].
    rewrite (DD n N h En Hn), (DD k N _ Ek Hk).
    rewrite <- iter_succ_r in Ek. assert (n = S k) by (apply (U _ _ h); auto). lia.
  - intros h Nh. destruct (HN h Nh) as [n [Hn En]]. rewrite (DD n N h En Hn). lia.
  - intros h n Nh En. destruct (HN h Nh) as [k [Hk Ek]]. rewrite (DD k N h Ek Hk).
    assert (n = k) by (apply (U _ _ h); auto). lia.
Qed.

(** A valid tree is ranked by the distance to the root. *)
Lemma valid_rank : forall L ps r, valid_tree L ps r ->
  exists rank, forall h, node ps h -> parent ps h <> -1 -> node ps (parent ps h) /\ rank h < rank (parent ps h).
Proof.
  intros L ps r V. destruct (valid_depth _ _ _ V) as [depth [D0 [D1 _]]].
  exists (fun h => - depth h). intros h Nh Hp.
  assert (Nr : h <> r) by (intro; subst; apply Hp; apply (vt_rootp _ _ _ V)).
  pose proof (vt_parent _ _ _ V h Nh Nr) as Pb. pose proof (vt_L _ _ _ V) as VL.
  split; [unfold node; lia|]. rewrite (D1 h Nh Nr). lia.
Qed.

(** In a valid tree only the root has parent -1. *)
Lemma valid_root_iff : forall L ps r h, valid_tree L ps r -> node ps h -> (parent ps h = -1 <-> h = r).
Proof.
  intros L ps r h V N. split; [|intros ->; apply (vt_rootp _ _ _ V)].
  intro E. destruct (Z.eq_dec h r) as [|D]; auto.
  pose proof (vt_parent _ _ _ V h N D). pose proof (vt_L _ _ _ V). lia.
Qed.
