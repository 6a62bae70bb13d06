(** * The parts produced from the spatiotemporal tables, and rectangle covers. *)
From Coq Require Import Lia Permutation.
From Verif Require Import Base BaseFacts Arith Quality Utm UtmFacts Hierarchy SpecTree SpecParts TreeFacts HierarchyFacts HierarchyProofs
  Values Qualities Partitions Partitioners TreePath CoverFacts HFacts DFacts.

Section W.
Context (m : meta).
Hypothesis W : well_built m.
Notation ps := (m_parents m).
Notation L := (m_leaves m).
Notation hsize := (m_hsize m).
Notation root := (m_root m).
Notation kids := (kids m).
Notation lv := (leavesof L ps).
Variable (n : Z).
Hypothesis Hn : 1 <= n.
Notation N := (n - 1).

(** Induction on (node, start). *)
Lemma dind : forall Q : Z -> Z -> Prop,
  (forall h i, 0 <= h < hsize -> 0 <= i < n -> (forall c, In c (kids h) -> Q c i) -> (forall k, i < k < n -> Q h k) -> Q h i) ->
  forall h i, 0 <= h < hsize -> 0 <= i < n -> Q h i.
Proof.
  intros Q H. cut (forall h, 0 <= h < hsize -> forall i, 0 <= i < n -> Q h i); [auto|].
  apply (tree_ind m W (fun h => forall i, 0 <= i < n -> Q h i)). intros h Hh IH.
  assert (G : forall k i, n - Z.of_nat k <= i < n -> 0 <= i -> Q h i).
  { induction k as [|k IHk]; intros i Hi H0; [lia|]. apply H; auto; [lia| |].
    - intros c Hc. apply IH; auto; lia.
    - intros j Hj. apply IHk; lia. }
  intros i Hi. apply (G (Z.to_nat n)); lia.
Qed.

(** A cut table's last column: -1 (internal nodes only) or an index of the interval. *)
Definition okcut (C : Z -> Z -> Z) : Prop := forall h i, 0 <= h < hsize -> 0 <= i < n ->
  (C h i = -1 /\ L <= h) \/ i <= C h i < n.

Fixpoint dselF (fuel : nat) (C : Z -> Z -> Z) (h i : Z) : list (Z * Z * Z) :=
  match fuel with
  | O => []
  | S f => if C h i =? -1 then flat_map (fun c => dselF f C c i) (kids h)
           else (h, i, C h i) :: (if C h i <? N then dselF f C h (C h i + 1) else [])
  end.
Definition dsel (C : Z -> Z -> Z) (h i : Z) : list (Z * Z * Z) := dselF (S (Z.to_nat (hsize + n))) C h i.

Lemma dselF_fuel : forall C, okcut C -> forall f f' h i k, vget (m_path m) k = Ok h -> 0 <= i < n ->
  k + (n - i) < Z.of_nat f -> k + (n - i) < Z.of_nat f' -> dselF f C h i = dselF f' C h i.
Proof.
  intros C OK. induction f as [|f IH]; intros [|f'] h i k E Hi F F'; pose proof (vget_inv _ _ _ _ E); try lia.
  assert (Hh : 0 <= h < hsize) by (apply (In_path m W); eapply vget_In; eauto).
  cbn [dselF]. destruct (Z.eqb_spec (C h i) (-1)).
  - apply flat_map_ext_in. intros c Hc. destruct (kids_index m W h k c E Hc) as [j [Ej Hj]]. apply (IH f' c i j Ej); lia.
  - f_equal. destruct (Z.ltb_spec (C h i) N); auto. destruct (OK h i Hh Hi); [lia|]. apply (IH f' h (C h i + 1) k E); lia.
Qed.

Lemma dsel_eq : forall C, okcut C -> forall h i, 0 <= h < hsize -> 0 <= i < n ->
  dsel C h i = if C h i =? -1 then flat_map (fun c => dsel C c i) (kids h)
               else (h, i, C h i) :: (if C h i <? N then dsel C h (C h i + 1) else []).
Proof.
  intros C OK h i Hh Hi. destruct (node_index m W h Hh) as [k [Ek Hk]].
  unfold dsel at 1. cbn [dselF]. destruct (Z.eqb_spec (C h i) (-1)).
  - apply flat_map_ext_in. intros c Hc. destruct (kids_index m W h k c Ek Hc) as [j [Ej Hj]].
    apply (dselF_fuel C OK _ _ c i j Ej); lia.
  - f_equal. destruct (Z.ltb_spec (C h i) N); auto. destruct (OK h i Hh Hi); [lia|].
    apply (dselF_fuel C OK _ _ h (C h i + 1) k Ek); lia.
Qed.

(** Rectangle lists that cover (leaves below h) x (i..n-1) exactly once. *)
Definition rin (x o : Z) (r : Z * Z * Z) : Prop := let '(y, a, b) := r in below ps x y /\ a <= o <= b.
Record rcover (h i : Z) (l : list (Z * Z * Z)) : Prop := {
  rc_nd : NoDup l;
  rc_in : forall y a b, In (y, a, b) l -> 0 <= y < hsize /\ below ps y h /\ i <= a <= b /\ b < n;
  rc_cov : forall x o, In x (lv h) -> i <= o < n -> exists r, In r l /\ rin x o r;
  rc_uni : forall x o r r', 0 <= x < L -> In r l -> In r' l -> rin x o r -> rin x o r' -> r = r'
}.

Lemma rect_cover_iff : forall l, rect_cover L ps n l <-> rcover root 0 l.
Proof.
  intro l. pose proof (wb_tree m W) as V. split.
  - intros (ND & Hr & Hc). constructor; auto.
    + intros y a b Hy. destruct (Hr y a b Hy) as [Ny Hab]. split; [apply (wb_node_iff m W); auto|].
      split; [apply (vt_reach _ _ _ V); auto|lia].
    + intros x o Hx Ho. rewrite (lv_root m W) in Hx. apply In_zrange in Hx.
      destruct (Hc x o Hx ltac:(lia)) as (h & a & b & Hin & B & R & _). exists (h, a, b). split; auto. split; auto.
    + intros x o [[y a] b] [[y' a'] b'] Hx H1 H2 [B1 R1] [B2 R2].
      destruct (Hr _ _ _ H1) as [_ K]. destruct (Hc x o Hx ltac:(lia)) as (h & a0 & b0 & _ & _ & _ & U).
      rewrite (U y a b), (U y' a' b'); auto.
  - intros [ND Hr Hc Hu]. split; auto. split.
    + intros h a b Hin. destruct (Hr _ _ _ Hin) as (K1 & _ & K3 & K4). split; [apply (wb_node_iff m W); auto|lia].
    + intros x o Hx Ho. destruct (Hc x o) as ([[h a] b] & Hin & [B R]); [|lia|].
      { rewrite (lv_root m W). apply In_zrange; auto. }
      exists h, a, b. split; auto. split; auto. split; auto. intros h' a' b' Hin' B' R'.
      apply (Hu x o); auto; split; auto.
Qed.

Lemma leaf_kid : forall h x, L <= h < hsize -> 0 <= x < L -> below ps x h -> exists c, In c (kids h) /\ below ps x c.
Proof. intros h x Hh Hx B. pose proof (wb_L m W). apply (below_kid m W); auto; lia. Qed.

Lemma below_leaf : forall y x, 0 <= y < hsize -> 0 <= x < L -> below ps y x -> y = x.
Proof.
  intros y x Hy Hx B. destruct (Z.eq_dec y x) as [|D]; auto. destruct (below_kid m W y x Hy B D) as [c [Hc _]].
  rewrite (kids_leaf m W) in Hc by auto. destruct Hc.
Qed.

Lemma dsel_cover : forall C, okcut C -> forall h i, 0 <= h < hsize -> 0 <= i < n -> rcover h i (dsel C h i).
Proof.
  intros C OK. apply dind. intros h i Hh Hi IHk IHt. pose proof (wb_L m W) as HL. rewrite (dsel_eq C OK) by auto.
  destruct (OK h i Hh Hi) as [[Ec Hl]|Hc].
  - rewrite Ec. cbn [Z.eqb]. change (-1 =? -1) with true. cbn iota.
    assert (IN : forall y a b, In (y, a, b) (flat_map (fun c => dsel C c i) (kids h)) ->
       exists c, In c (kids h) /\ In (y, a, b) (dsel C c i) /\ 0 <= y < hsize /\ below ps y c /\ i <= a <= b /\ b < n).
    { intros y a b Hy. apply in_flat_map in Hy. destruct Hy as [c [Hk Hy]]. exists c. split; auto. split; auto.
      apply (rc_in _ _ _ (IHk c Hk) y a b Hy). }
    constructor.
    + apply NoDup_flat_map_intro; [apply (kids_NoDup m W)|intros c Hk; apply (rc_nd _ _ _ (IHk c Hk))|].
      intros c1 c2 [[y a] b] H1 H2 Y1 Y2. destruct (rc_in _ _ _ (IHk c1 H1) y a b Y1) as (K0 & K1 & _).
      destruct (rc_in _ _ _ (IHk c2 H2) y a b Y2) as (_ & K2 & _). apply (kids_disjoint m W h y); auto.
    + intros y a b Hy. destruct (IN _ _ _ Hy) as (c & Hk & _ & K1 & K2 & K3). split; auto. split; auto.
      eapply below_trans; [exact K2|]. apply (kid_below m W); auto.
    + intros x o Hx Ho. apply (lv_In m W) in Hx. destruct Hx as [Rx Bx].
      destruct (leaf_kid h x ltac:(lia) Rx Bx) as [c [Hk Bc]].
      destruct (rc_cov _ _ _ (IHk c Hk) x o) as [r [Hr Ri]]; auto; [apply (lv_In m W); auto|].
      exists r. split; auto. apply in_flat_map. eauto.
    + intros x o [[y a] b] [[y' a'] b'] Hx H1 H2 R1 R2.
      destruct (IN _ _ _ H1) as (c & Hk & Y1 & _ & B1 & _). destruct (IN _ _ _ H2) as (c' & Hk' & Y2 & _ & B2 & _).
      assert (c = c').
      { apply (kids_disjoint m W h x); auto; [lia| |]; eapply below_trans; eauto; [apply R1|apply R2]. }
      subst c'. apply (rc_uni _ _ _ (IHk c Hk) x o); auto.
  - destruct (Z.eqb_spec (C h i) (-1)); [lia|]. destruct (Z.ltb_spec (C h i) N) as [Lt|Ge].
    + specialize (IHt (C h i + 1) ltac:(lia)). destruct IHt as [ND Hr Hcov Hu]. constructor.
      * constructor; auto. intro K. apply Hr in K. lia.
      * intros y a b [E|Hy]; [inversion E; subst; split; auto; split; [constructor|lia]|]. apply Hr in Hy.
        intuition lia.
      * intros x o Hx Ho. destruct (Z_le_gt_dec o (C h i)).
        -- exists (h, i, C h i). split; [left; auto|]. split; [apply (lv_In m W) in Hx; tauto|lia].
        -- destruct (Hcov x o Hx ltac:(lia)) as [r [Hr' Ri]]. exists r. split; auto. right; auto.
      * intros x o r r' Hx [<-|H1] [<-|H2] R1 R2; auto.
        -- destruct r' as [[y a] b]. apply Hr in H2. destruct R1, R2. lia.
        -- destruct r as [[y a] b]. apply Hr in H1. destruct R1, R2. lia.
        -- apply (Hu x o); auto.
    + constructor.
      * constructor; [intros []|constructor].
      * intros y a b [E|[]]. inversion E; subst. split; auto. split; [constructor|lia].
      * intros x o Hx Ho. exists (h, i, C h i). split; [left; auto|]. split; [apply (lv_In m W) in Hx; tauto|lia].
      * intros x o r r' Hx [<-|[]] [<-|[]] _ _. auto.
Qed.

(** As time advances the node covering a leaf only moves down. *)
Definition desc (l : list (Z * Z * Z)) : Prop := forall x h a b h' a' b', 0 <= x < L ->
  In (h, a, b) l -> In (h', a', b') l -> below ps x h -> below ps x h' -> b < a' -> below ps h' h.

Lemma dsel_desc : forall C, okcut C -> forall h i, 0 <= h < hsize -> 0 <= i < n -> desc (dsel C h i).
Proof.
  intros C OK. apply dind. intros h i Hh Hi IHk IHt. pose proof (wb_L m W) as HL.
  pose proof (dsel_cover C OK) as DC. rewrite (dsel_eq C OK) by auto.
  destruct (OK h i Hh Hi) as [[Ec Hl]|Hc].
  - rewrite Ec. change (-1 =? -1) with true. cbn iota. intros x y a b y' a' b' Hx H1 H2 B1 B2 Hlt.
    apply in_flat_map in H1, H2. destruct H1 as [c [Hk Y1]], H2 as [c' [Hk' Y2]].
    pose proof (kid_below m W h c Hh Hk) as (_ & _ & Rc). pose proof (kid_below m W h c' Hh Hk') as (_ & _ & Rc').
    assert (c = c').
    { apply (kids_disjoint m W h x); auto; [lia| |].
      - apply (below_trans _ _ _ _ B1). apply (rc_in _ _ _ (DC c i Rc Hi) y a b Y1).
      - apply (below_trans _ _ _ _ B2). apply (rc_in _ _ _ (DC c' i Rc' Hi) y' a' b' Y2). }
    subst c'. eapply (IHk c Hk x y a b y' a' b'); eauto.
  - destruct (Z.eqb_spec (C h i) (-1)); [lia|]. intros x y a b y' a' b' Hx H1 H2 B1 B2 Hlt.
    destruct (Z.ltb_spec (C h i) N) as [Lt|Ge].
    + pose proof (DC h (C h i + 1) Hh ltac:(lia)) as D.
      destruct H1 as [E1|H1]; destruct H2 as [E2|H2].
      * inversion E1; inversion E2; subst. constructor.
      * inversion E1; subst. apply (rc_in _ _ _ D _ _ _ H2).
      * inversion E2; subst. apply (rc_in _ _ _ D) in H1. lia.
      * eapply (IHt (C h i + 1) ltac:(lia) x y a b y' a' b'); eauto.
    + destruct H1 as [E1|[]]; destruct H2 as [E2|[]]. inversion E1; inversion E2; subst. constructor.
Qed.

(** How a descending cover starts: with a part at the node itself, or not using the node at all. *)
Lemma Z3_eq_dec : forall a b : Z * Z * Z, {a = b} + {a <> b}.
Proof. repeat decide equality. Qed.

Definition use_h (h : Z) (l : list (Z * Z * Z)) : bool := existsb (fun r => fst (fst r) =? h) l.
Lemma use_h_true : forall h l, use_h h l = true -> exists a b, In (h, a, b) l.
Proof.
  intros h l H. apply existsb_exists in H. destruct H as [[[y a] b] [Hi E]]. apply Z.eqb_eq in E. simpl in E. subst; eauto.
Qed.
Lemma use_h_false : forall h l, use_h h l = false -> forall y a b, In (y, a, b) l -> y <> h.
Proof.
  intros h l H y a b Hi ->. assert (use_h h l = true); [|congruence]. apply existsb_exists. exists (h, a, b). split; auto.
  apply Z.eqb_refl.
Qed.

Lemma desc_first : forall h i l, 0 <= h < hsize -> 0 <= i < n -> rcover h i l -> desc l -> use_h h l = true ->
  exists c, In (h, i, c) l.
Proof.
  intros h i l Hh Hi RC D U. apply use_h_true in U. destruct U as (a & b & Hin).
  destruct (lv h) as [|x xs] eqn:El; [exfalso; apply (lv_nonempty m W h Hh El)|].
  assert (Hx : In x (lv h)) by (rewrite El; left; auto). pose proof Hx as Hx'. apply (lv_In m W) in Hx'. destruct Hx' as [Rx Bx].
  destruct (rc_in _ _ _ RC _ _ _ Hin) as (_ & _ & Hab & Hb).
  destruct (rc_cov _ _ _ RC x i Hx ltac:(lia)) as ([[y a'] b'] & Hy & [By Ry]).
  destruct (rc_in _ _ _ RC _ _ _ Hy) as (Ny & Byh & Hab' & Hb').
  assert (Ea : a' = i) by lia. subst a'.
  destruct (Z.eq_dec a i) as [->|Da]; [eauto|].
  destruct (Z_lt_le_dec b' a) as [Hlt|Hge].
  - pose proof (D x y i b' h a b Rx Hy Hin By Bx Hlt) as K.
    assert (y = h) by (apply (below_anti m W); auto). subst; eauto.
  - assert (E : (y, i, b') = (h, a, b)).
    { apply (rc_uni _ _ _ RC x a); auto; split; auto; lia. }
    inversion E; subst; eauto.
Qed.

Definition rest_l (h i c : Z) (l : list (Z * Z * Z)) : list (Z * Z * Z) :=
  filter (fun r => if Z3_eq_dec r (h, i, c) then false else true) l.

Lemma rest_l_In : forall h i c l r, In r (rest_l h i c l) <-> In r l /\ r <> (h, i, c).
Proof.
  intros. unfold rest_l. rewrite filter_In. destruct (Z3_eq_dec r (h, i, c)); intuition congruence.
Qed.

Lemma desc_sub : forall l l', (forall r, In r l' -> In r l) -> desc l -> desc l'.
Proof. intros l l' H D x h a b h' a' b' Hx H1 H2. apply (D x h a b h' a' b'); auto. Qed.

(** A cover that starts with the part (h,i,c): the rest covers the later slices. *)
Lemma rcover_tail : forall h i c l, 0 <= h < hsize -> 0 <= i < n -> rcover h i l -> In (h, i, c) l ->
  i <= c < n /\ Permutation l ((h, i, c) :: rest_l h i c l) /\
  (c = N -> rest_l h i c l = []) /\ (c < N -> rcover h (c + 1) (rest_l h i c l)).
Proof.
  intros h i c l Hh Hi RC Hin. destruct (rc_in _ _ _ RC _ _ _ Hin) as (_ & _ & Hic & Hc). split; [lia|].
  assert (LATE : forall y a b, In (y, a, b) (rest_l h i c l) -> c < a).
  { intros y a b Hy. apply rest_l_In in Hy. destruct Hy as [Hy Dy]. destruct (rc_in _ _ _ RC _ _ _ Hy) as (Ny & By & Hab & Hb).
    destruct (Z_lt_le_dec c a); auto. exfalso. apply Dy.
    destruct (lv y) as [|x xs] eqn:El; [exfalso; apply (lv_nonempty m W y Ny El)|].
    assert (Hx : In x (lv y)) by (rewrite El; left; auto). apply (lv_In m W) in Hx. destruct Hx as [Rx Bx].
    apply (rc_uni _ _ _ RC x a); auto; split; try lia; auto. eapply below_trans; eauto. }
  split; [|split].
  - apply NoDup_Permutation; [apply (rc_nd _ _ _ RC)| |].
    + constructor; [rewrite rest_l_In; tauto|]. apply NoDup_filter. apply (rc_nd _ _ _ RC).
    + intro r. simpl. rewrite rest_l_In. destruct (Z3_eq_dec r (h, i, c)) as [->|D]; intuition congruence.
  - intros ->. destruct (rest_l h i N l) as [|[[y a] b] r] eqn:E; auto. exfalso.
    assert (K : In (y, a, b) (rest_l h i N l)) by (rewrite E; left; auto). rewrite <- E in LATE. pose proof (LATE _ _ _ K).
    apply rest_l_In in K. destruct K as [K _]. apply (rc_in _ _ _ RC) in K. lia.
  - intro Lt. constructor.
    + apply NoDup_filter. apply (rc_nd _ _ _ RC).
    + intros y a b Hy. pose proof (LATE _ _ _ Hy). apply rest_l_In in Hy. destruct Hy as [Hy _]. apply (rc_in _ _ _ RC) in Hy.
      intuition lia.
    + intros x o Hx Ho. destruct (rc_cov _ _ _ RC x o Hx ltac:(lia)) as [r [Hr Ri]]. exists r. split; auto.
      apply rest_l_In. split; auto. intros ->. destruct Ri. lia.
    + intros x o r r' Hx H1 H2. apply rest_l_In in H1, H2. apply (rc_uni _ _ _ RC x o); tauto.
Qed.

Definition sub3 (l : list (Z * Z * Z)) (c : Z) : list (Z * Z * Z) := filter (fun r => belowb ps (fst (fst r)) c) l.

Lemma sub3_In : forall l c y a b, (forall y a b, In (y, a, b) l -> 0 <= y < hsize) ->
  In (y, a, b) (sub3 l c) <-> In (y, a, b) l /\ below ps y c.
Proof.
  intros l c y a b Hl. unfold sub3. rewrite filter_In. cbn [fst]. destruct (wb_rank m W) as [rank Hr].
  split; intros [H1 H2]; split; auto.
  - apply (belowb_true ps rank Hr) in H2; auto. apply (wb_node_iff m W); eauto.
  - apply (belowb_true ps rank Hr); auto. apply (wb_node_iff m W); eauto.
Qed.

(** A cover that does not use the node: it splits over the children. *)
Lemma rcover_split : forall h i l, 0 <= h < hsize -> rcover h i l -> use_h h l = false ->
  Permutation l (flat_map (sub3 l) (kids h)) /\ forall c, In c (kids h) -> rcover c i (sub3 l c).
Proof.
  intros h i l Hh RC U. pose proof (use_h_false h l U) as NU.
  assert (Hl : forall y a b, In (y, a, b) l -> 0 <= y < hsize) by (intros y a b Hy; apply (rc_in _ _ _ RC) in Hy; tauto).
  assert (Hk : forall y a b, In (y, a, b) l -> exists c, In c (kids h) /\ below ps y c).
  { intros y a b Hy. pose proof (NU _ _ _ Hy). apply (rc_in _ _ _ RC) in Hy. destruct Hy as (Ny & By & _). apply (below_kid m W); auto. }
  split.
  - apply NoDup_Permutation; [apply (rc_nd _ _ _ RC)| |].
    + apply NoDup_flat_map_intro; [apply (kids_NoDup m W)|intros; apply NoDup_filter; apply (rc_nd _ _ _ RC)|].
      intros c c' [[y a] b] H1 H2 Y1 Y2. apply sub3_In in Y1, Y2; auto. destruct Y1, Y2.
      apply (kids_disjoint m W h y); eauto.
    + intros [[y a] b]. rewrite in_flat_map. split.
      * intro Hy. destruct (Hk _ _ _ Hy) as [c [Hc Bc]]. exists c. split; auto. apply sub3_In; auto.
      * intros [c [_ Hy]]. apply sub3_In in Hy; tauto.
  - intros c Hc. destruct (kid_below m W h c Hh Hc) as (Pc & Bc & Rc). constructor.
    + apply NoDup_filter; apply (rc_nd _ _ _ RC).
    + intros y a b Hy. apply sub3_In in Hy; auto. destruct Hy as [Hy By]. apply (rc_in _ _ _ RC) in Hy. tauto.
    + intros x o Hx Ho. destruct (rc_cov _ _ _ RC x o) as [[[y a] b] [Hy Ri]]; auto; [eapply (below_lv m W); eauto|].
      exists (y, a, b). split; auto. apply sub3_In; auto. split; auto.
      destruct (Hk _ _ _ Hy) as [c' [Hc' B']]. apply (lv_In m W) in Hx. destruct Hx as [Rx Bx]. destruct Ri as [Bxy _].
      pose proof (wb_L m W).
      assert (c = c') by (apply (kids_disjoint m W h x); auto; [lia|eapply below_trans; eauto]). subst c'; auto.
    + intros x o [[y a] b] [[y' a'] b'] Hx H1 H2 R1 R2. apply sub3_In in H1, H2; auto. apply (rc_uni _ _ _ RC x o); tauto.
Qed.

(** A leaf cannot be split. *)
Lemma rcover_leaf : forall h i l, 0 <= h < L -> 0 <= i < n -> rcover h i l -> use_h h l = true.
Proof.
  intros h i l Hh Hi RC. pose proof (wb_L m W).
  destruct (rc_cov _ _ _ RC h i) as [[[y a] b] [Hy Ri]]; [rewrite (lv_leaf m W) by auto; left; auto|lia|].
  destruct (rc_in _ _ _ RC _ _ _ Hy) as (Ny & By & _).
  assert (y = h) by (apply below_leaf; auto). subst y. apply existsb_exists. exists (h, a, b). split; auto. apply Z.eqb_refl.
Qed.

End W.

(** ** The produced partition (any arithmetic). *)
Section A.
Context (A : arith).
Notation quality := (quality A).
Notation tradeoff := (tradeoff A).
Context (m : meta).
Hypothesis W : well_built m.
Notation L := (m_leaves m).
Notation hsize := (m_hsize m).
Notation root := (m_root m).
Variables (t : list (utm quality)) (n : Z) (q : Z -> Z -> Z -> quality) (p : par A).
Hypothesis Ht : mrepr t hsize n q.
Hypothesis Hn : 1 <= n <= 65535.
Notation N := (n - 1).

Lemma dcell_range : forall inner c TR h i, 0 <= i < n ->
  let r := dcell A q p inner c TR h i N in (fst r = -1 /\ inner = true) \/ i <= fst r < n.
Proof.
  intros inner c TR h i Hi. unfold dcell.
  assert (G : forall l s, (forall k, In k l -> i <= k < N) -> (fst s = -1 /\ inner = true) \/ i <= fst s < n ->
     let r := fold_left (dstep A q p TR h i) l s in (fst r = -1 /\ inner = true) \/ i <= fst r < n).
  { induction l as [|k l IH]; intros s Hl Hs; simpl; auto. apply IH; [intros; apply Hl; right; auto|].
    unfold dstep. destruct (t_gtb _ _ _); auto. right. cbn [fst]. specialize (Hl k (or_introl eq_refl)). lia. }
  apply G; [intros k Hk; apply In_zrange in Hk; lia|].
  unfold dinit. destruct inner; cbn [andb].
  - destruct (t_gtb _ _ _); cbn [fst]; [left; auto|right; lia].
  - right. cbn [fst]. lia.
Qed.

Lemma dline_okcut : forall C T, (forall h i, 0 <= h < hsize -> 0 <= i < n -> (C h i, T h i) = dline A m n q p T h i) -> okcut m n C.
Proof.
  intros C T H h i Hh Hi. specialize (H h i Hh Hi). unfold dline in H.
  destruct (dcell_range (L <=? h) (csum A (fun c => T c i) (kids m h)) (T h) h i Hi) as [[E1 E2]|K];
    rewrite <- H in *; cbn [fst] in *; [left|right; auto]. split; auto. apply Z.leb_le; auto.
Qed.

Definition mkdpart (r : Z * Z * Z) : dpart A := let '(h, a, b) := r in mkDPart A h (m_sizeof m h) a b (q h a b).
Definition q3 (r : Z * Z * Z) : quality := let '(h, a, b) := r in q h a b.

Lemma dn_sub_ok : forall cuts CU, mrepr cuts hsize n CU -> okcut m n (fun h i => CU h i N) ->
  forall fuel h i k, vget (m_path m) k = Ok h -> 0 <= i < n -> k + (n - i) < Z.of_nat fuel ->
  dn_sub A fuel cuts t m h i N = Ok (map mkdpart (dsel m n (fun h i => CU h i N) h i)).
Proof.
  intros cuts CU RC OK. induction fuel as [|fuel IH]; intros h i k E Hi F; [pose proof (vget_inv _ _ _ _ E); lia|].
  assert (Hh : 0 <= h < hsize) by (apply (In_path m W); eapply vget_In; eauto).
  cbn [dn_sub]. rewrite (mrepr_get _ _ _ _ _ h i N RC) by lia. cbn [bind]. rewrite (dsel_eq m W n ltac:(lia) _ OK) by auto. cbv beta.
  destruct (Z.eqb_spec (CU h i N) (-1)) as [Ec|Dc].
  - rewrite (kids_children m W) by auto. cbn [bind].
    rewrite (mmap_map _ _ _ (fun c => map mkdpart (dsel m n (fun h i => CU h i N) c i))).
    + cbn [bind]. f_equal. rewrite <- flat_map_concat_map. generalize (kids m h).
      induction l as [|c l IHl]; simpl; auto. rewrite map_app, IHl. auto.
    + intros c Hc. destruct (kids_index m W h k c E Hc) as [j [Ej Hj]]. apply (IH c i j Ej); lia.
  - destruct (OK h i Hh Hi) as [|Hc]; [lia|]. rewrite (mrepr_get _ _ _ _ _ h i (CU h i N) Ht) by lia. cbn [bind].
    destruct (Z.ltb_spec (CU h i N) N).
    + rewrite (IH h (CU h i N + 1) k E) by lia. reflexivity.
    + reflexivity.
Qed.

Lemma d_best_ok : exists x C T, d_best A t m p = Ok x /\ okcut m n C /\
  dn_parts x = map mkdpart (dsel m n C root 0) /\ dn_param x = p /\
  dn_quality x = sum_quality A (map q3 (dsel m n C root 0)) /\
  forall h i, 0 <= h < hsize -> 0 <= i < n -> (C h i, T h i) = dline A m n q p T h i.
Proof.
  destruct (db_tables_ok A m W t n q p Ht Hn) as (cuts & tr & tc & C & T & E & (CU & RC & EC) & H).
  unfold d_best. rewrite E. cbn [bind fst]. unfold dn_make. pose proof (wb_L m W).
  destruct (proj2 Ht 0 ltac:(lia)) as [u [Eu Ru]]. rewrite Eu. cbn [bind].
  replace (u_size u) with n by (symmetry; apply Ru).
  assert (H' : forall h i, 0 <= h < hsize -> 0 <= i < n -> ((fun h i => CU h i N) h i, T h i) = dline A m n q p T h i).
  { intros h i Hh Hi. rewrite <- H by auto. cbv beta. rewrite EC. auto. }
  pose proof (dline_okcut _ T H') as OK.
  rewrite (dn_sub_ok cuts CU RC OK _ root 0 (hsize - 1)); [|apply (wb_last m W)|lia|lia].
  cbn [bind]. eexists; exists (fun h i => CU h i N), T. split; [reflexivity|]. cbn [dn_parts dn_param dn_quality].
  split; auto. split; auto. split; auto. split; auto.
  f_equal. rewrite map_map. apply map_ext. intros [[y a] b]; reflexivity.
Qed.
End A.
