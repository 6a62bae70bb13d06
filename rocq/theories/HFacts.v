(** * HPartitioner over any arithmetic: what the tables contain and which parts are produced. *)
From Coq Require Import Lia Permutation.
From Verif Require Import Base BaseFacts Arith Quality Utm Hierarchy SpecTree TreeFacts HierarchyProofs Values Qualities
  Partitions Partitioners TreePath.

Section M.
Context (A : arith).
Notation quality := (quality A).
Notation tradeoff := (tradeoff A).
Context (m : meta).
Hypothesis W : well_built m.
Hypothesis H2 : 2 <= m_hsize m.
Notation ps := (m_parents m).
Notation L := (m_leaves m).
Notation hsize := (m_hsize m).
Notation root := (m_root m).
Notation kids := (kids m).

Variables (t : list quality) (q : Z -> quality) (p : par A).
Hypothesis Ht : vrepr t hsize q.

Definition csum (T : Z -> tradeoff) (l : list Z) : tradeoff := fold_left (t_add A) (map T l) (t_zero A).

Definition hdec (T : Z -> tradeoff) (h : Z) : tradeoff * bool :=
  if h <? L then (t_set A (q h) p, true)
  else if t_ltb A (t_set A (q h) p) (csum T (kids h)) then (csum T (kids h), false)
       else (t_set A (q h) p, true).

Lemma csum_ext : forall T T' l, (forall c, In c l -> T c = T' c) -> csum T l = csum T' l.
Proof. intros T T' l H. unfold csum. rewrite (map_ext_in T T'); auto. Qed.

Lemma hdec_ext : forall T T' h, (forall c, In c (kids h) -> T c = T' c) -> hdec T h = hdec T' h.
Proof. intros T T' h H. unfold hdec. rewrite (csum_ext T T'); auto. Qed.

Definition chd (l : list Z) (h : Z) : list Z := filter (fun c => parent ps c =? h) l.

Definition hinv (pre : list Z) (st : hb_state A) : Prop :=
  let '(tr, tc, agg) := st in
  exists T TC G, vrepr tr hsize T /\ vrepr tc hsize TC /\ vrepr agg hsize G /\
    (forall h, In h pre -> (T h, G h) = hdec T h) /\ (forall h, ~ In h pre -> G h = true) /\
    (forall h, 0 <= h < hsize -> TC h = csum T (chd pre h)).

(** Children of processed nodes are processed. *)
Lemma kids_pre : forall pre post h c, m_path m = pre ++ post -> In h pre -> In c (kids h) -> In c pre.
Proof.
  intros pre post h c E Hh Hc. apply in_split in Hh. destruct Hh as [l1 [l2 ->]].
  rewrite <- app_assoc in E. simpl in E. rewrite (kids_prefix m W l1 h (l2 ++ post) E) in Hc.
  apply filter_In in Hc. apply in_or_app; tauto.
Qed.

Lemma chd_snoc_parent : forall T pre x v, ~ In x pre ->
  csum (fupd T x v) (chd (pre ++ [x]) (parent ps x)) = t_add A (csum T (chd pre (parent ps x))) v.
Proof.
  intros T pre x v Hx. unfold chd. rewrite filter_app. simpl. rewrite Z.eqb_refl.
  unfold csum. rewrite map_app, fold_left_app. simpl. rewrite fupd_same. f_equal.
  change (csum (fupd T x v) (filter (fun c => parent ps c =? parent ps x) pre)
          = csum T (filter (fun c => parent ps c =? parent ps x) pre)).
  apply csum_ext. intros c Hc. apply filter_In in Hc. rewrite fupd_other; auto. intros ->; tauto.
Qed.

Lemma chd_snoc_other : forall T pre x v h, ~ In x pre -> parent ps x <> h ->
  csum (fupd T x v) (chd (pre ++ [x]) h) = csum T (chd pre h).
Proof.
  intros T pre x v h Hx D. unfold chd. rewrite filter_app. simpl.
  destruct (Z.eqb_spec (parent ps x) h); [contradiction|]. rewrite app_nil_r.
  apply csum_ext. intros c Hc. apply filter_In in Hc. rewrite fupd_other; auto. intros ->; tauto.
Qed.

Lemma path_NoDup_pre : forall pre x post, m_path m = pre ++ x :: post -> ~ In x pre.
Proof.
  intros pre x post E K. pose proof (wb_nodup m W) as N. rewrite E in N. apply NoDup_remove_2 in N. apply N.
  apply in_or_app; auto.
Qed.

(** One processed node: the new value, then its addition to the parent. *)
Lemma hinv_step : forall pre x post T TC G, m_path m = pre ++ x :: post -> x <> root ->
  (forall h, In h pre -> (T h, G h) = hdec T h) -> (forall h, ~ In h pre -> G h = true) ->
  (forall h, 0 <= h < hsize -> TC h = csum T (chd pre h)) ->
  let v := fst (hdec T x) in let g := snd (hdec T x) in
  (forall h, In h (pre ++ [x]) -> (fupd T x v h, fupd G x g h) = hdec (fupd T x v) h) /\
  (forall h, ~ In h (pre ++ [x]) -> fupd G x g h = true) /\
  (forall h, 0 <= h < hsize -> fupd TC (parent ps x) (t_add A (TC (parent ps x)) v) h = csum (fupd T x v) (chd (pre ++ [x]) h)).
Proof.
  intros pre x post T TC G E D H1 HG H3 v g. pose proof (path_NoDup_pre _ _ _ E) as Nx.
  assert (E2 : m_path m = (pre ++ [x]) ++ post) by (rewrite <- app_assoc; auto).
  assert (Ext : forall h, In h (pre ++ [x]) -> hdec (fupd T x v) h = hdec T h).
  { intros h Hh. apply hdec_ext. intros c Hc. rewrite fupd_other; auto. intros ->.
    apply in_app_or in Hh. destruct Hh as [Hh|[<-|[]]].
    - apply (kids_pre pre (x :: post) h x E Hh) in Hc. contradiction.
    - apply kids_In in Hc; auto. destruct Hc as [Hc1 Hc2].
      destruct (parent_range m W x) as (_ & _ & K); auto. }
  assert (Rx : 0 <= x < hsize). { apply (In_path m W). rewrite E. apply in_or_app; right; left; auto. }
  destruct (parent_range m W x Rx D) as (Rp & _ & Dp). pose proof (wb_L m W).
  split; [|split].
  - intros h Hh. rewrite Ext by auto. destruct (Z.eq_dec h x) as [->|Dh].
    + rewrite !fupd_same. unfold v, g. symmetry; apply surjective_pairing.
    + rewrite !fupd_other by auto. apply H1. apply in_app_or in Hh. destruct Hh as [|[K|[]]]; congruence.
  - intros h Hh. assert (h <> x) by (intros ->; apply Hh; apply in_or_app; right; left; auto).
    rewrite fupd_other by auto. apply HG. intro K; apply Hh; apply in_or_app; auto.
  - intros h Hh. destruct (Z.eq_dec h (parent ps x)) as [->|Dh].
    + rewrite fupd_same. rewrite chd_snoc_parent by auto. rewrite H3 by lia. auto.
    + rewrite fupd_other by auto. rewrite chd_snoc_other by auto. apply H3; auto.
Qed.

Lemma toParent_ok : forall tr tc T TC x, vrepr tr hsize T -> vrepr tc hsize TC -> 0 <= x < hsize -> x <> root ->
  exists tc', hb_toParent A m x tr tc = Ok tc' /\ vrepr tc' hsize (fupd TC (parent ps x) (t_add A (TC (parent ps x)) (T x))).
Proof.
  intros tr tc T TC x RT RC Hx D. destruct (parent_range m W x Hx D) as (Rp & Ep & _). pose proof (wb_L m W).
  unfold hb_toParent. rewrite Ep. cbn [bind]. rewrite (vrepr_get _ _ _ _ _ RC) by lia. cbn [bind].
  rewrite (vrepr_get _ _ _ _ _ RT) by lia. cbn [bind]. apply vrepr_set; auto. lia.
Qed.

Lemma hb_leaf_ok : forall pre x post st, m_path m = pre ++ x :: post -> 0 <= x < L -> hinv pre st ->
  exists st', hb_leaf A t m p x st = Ok st' /\ hinv (pre ++ [x]) st'.
Proof.
  intros pre x post [[tr tc] agg] E Hx (T & TC & G & RT & RC & RG & I1 & I2 & I3).
  pose proof (wb_L m W). pose proof (wb_root_inner m W H2) as HR.
  assert (D : x <> root) by lia. assert (Rx : 0 <= x < hsize) by lia.
  unfold hb_leaf. rewrite (vrepr_get _ _ _ _ _ Ht) by lia. cbn [bind].
  destruct (vrepr_set _ _ _ _ x (t_set A (q x) p) RT Rx) as [tr' [E1 R1]]. rewrite E1. cbn [bind].
  destruct (toParent_ok tr' tc _ TC x R1 RC Rx D) as [tc' [E3 R3]]. rewrite E3. cbn [bind].
  rewrite fupd_same in R3.
  destruct (hinv_step pre x post T TC G E D I1 I2 I3) as (J1 & J2 & J3).
  assert (Hd : hdec T x = (t_set A (q x) p, true)).
  { unfold hdec. replace (x <? L) with true by (symmetry; apply Z.ltb_lt; lia). auto. }
  rewrite Hd in *. cbn [fst snd] in *.
  eexists; split; [reflexivity|]. cbn. exists (fupd T x (t_set A (q x) p)), (fupd TC (parent ps x) (t_add A (TC (parent ps x)) (t_set A (q x) p))), (fupd G x true).
  repeat split; auto; try apply R1; try apply R3.
  - apply RG.
  - intros i Hi. rewrite (vrepr_get _ _ _ _ i RG) by auto. f_equal. unfold fupd. destruct (Z.eqb_spec i x) as [->|]; auto.
    apply I2. eapply path_NoDup_pre; eauto.
Qed.

Lemma hb_decide_ok : forall pre x post st, m_path m = pre ++ x :: post -> L <= x < hsize -> hinv pre st ->
  exists tr tc agg tr' agg' T TC G, st = (tr, tc, agg) /\ hb_decide A t p x st = Ok (tr', tc, agg') /\
    vrepr tc hsize TC /\ vrepr tr' hsize (fupd T x (fst (hdec T x))) /\ vrepr agg' hsize (fupd G x (snd (hdec T x))) /\
    (forall h, In h pre -> (T h, G h) = hdec T h) /\ (forall h, ~ In h pre -> G h = true) /\
    (forall h, 0 <= h < hsize -> TC h = csum T (chd pre h)).
Proof.
  intros pre x post [[tr tc] agg] E Hx (T & TC & G & RT & RC & RG & I1 & I2 & I3).
  pose proof (wb_L m W). assert (Rx : 0 <= x < hsize) by lia.
  unfold hb_decide. rewrite (vrepr_get _ _ _ _ _ Ht) by lia. cbn [bind].
  destruct (vrepr_set _ _ _ _ x (t_set A (q x) p) RT Rx) as [tr' [E1 R1]]. rewrite E1. cbn [bind].
  rewrite (vrepr_get _ _ _ _ _ R1) by lia. cbn [bind]. rewrite fupd_same.
  rewrite (vrepr_get _ _ _ _ _ RC) by lia. cbn [bind].
  assert (K : TC x = csum T (kids x)).
  { rewrite I3 by lia. f_equal. unfold chd. rewrite <- (kids_prefix m W pre x post E). auto. }
  assert (Hd : hdec T x = if t_ltb A (t_set A (q x) p) (TC x) then (TC x, false) else (t_set A (q x) p, true)).
  { unfold hdec. replace (x <? L) with false by (symmetry; apply Z.ltb_ge; lia). rewrite K. auto. }
  destruct (t_ltb A (t_set A (q x) p) (TC x)).
  - destruct (vrepr_set _ _ _ _ x false RG Rx) as [agg' [E3 R3]]. rewrite E3. cbn [bind].
    destruct (vrepr_set _ _ _ _ x (TC x) R1 Rx) as [tr2 [E4 R4]]. rewrite E4. cbn [bind].
    exists tr, tc, agg, tr2, agg', T, TC, G. rewrite Hd. cbn [fst snd]. repeat (split; auto; try apply RC; try apply R3).
    + apply R4.
    + intros i Hi. rewrite (vrepr_get _ _ _ _ i R4) by auto. f_equal. unfold fupd. destruct (i =? x); auto.
  - exists tr, tc, agg, tr', agg, T, TC, G. rewrite Hd. cbn [fst snd]. repeat (split; auto; try apply RC; try apply R1; try apply RG).
    intros i Hi. rewrite (vrepr_get _ _ _ _ i RG) by auto. f_equal. unfold fupd. destruct (Z.eqb_spec i x) as [->|]; auto.
    apply I2. eapply path_NoDup_pre; eauto.
Qed.

Lemma hb_node_ok : forall pre x post st, m_path m = pre ++ x :: post -> L <= x < hsize -> x <> root -> hinv pre st ->
  exists st', hb_node A t m p x st = Ok st' /\ hinv (pre ++ [x]) st'.
Proof.
  intros pre x post st E Hx D I.
  destruct (hb_decide_ok pre x post st E Hx I) as (tr & tc & agg & tr' & agg' & T & TC & G & Es & Ed & RC & RT & RG & I1 & I2 & I3).
  pose proof (wb_L m W). unfold hb_node. rewrite Ed. cbn [bind].
  destruct (toParent_ok tr' tc _ TC x RT RC ltac:(lia) D) as [tc' [E3 R3]]. rewrite E3. cbn [bind].
  rewrite fupd_same in R3.
  destruct (hinv_step pre x post T TC G E D I1 I2 I3) as (J1 & J2 & J3).
  eexists; split; [reflexivity|]. cbn. eexists _, _, _. split; [exact RT|]. split; [exact R3|]. split; [exact RG|]. auto.
Qed.

Lemma hb_tables_ok : exists tr tc agg T G, hb_tables A t m p = Ok (tr, tc, agg) /\ vrepr agg hsize G /\
  forall h, 0 <= h < hsize -> (T h, G h) = hdec T h.
Proof.
  pose proof (wb_L m W) as HL. pose proof (wb_root_inner m W H2) as HR. pose proof (wb_split m W H2) as SP.
  unfold hb_tables. rewrite (leaf_loop m W) by auto.
  destruct (mfold_prefix _ _ (hb_leaf A t m p) hinv (zrange 0 L) []
     (vrep hsize (t_zero A), vrep hsize (t_zero A), vrep hsize true)) as [s1 [E1 I1]].
  { intros pre x post s E _ I. simpl in E. apply (hb_leaf_ok pre x (post ++ mid m ++ [root]) s); auto.
    - rewrite SP, E, <- app_assoc. reflexivity.
    - apply In_zrange. rewrite E. apply in_or_app; right; left; auto. }
  { cbn. exists (fun _ => t_zero A), (fun _ => t_zero A), (fun _ => true).
    repeat split; try (apply vlen_vrep; lia); try (intros; apply vget_vrep; lia); auto. intros h []. }
  rewrite E1. cbn [bind fst]. rewrite (mid_loop m W) by auto. cbn [app] in I1.
  destruct (mfold_prefix _ _ (hb_node A t m p) hinv (mid m) (zrange 0 L) s1) as [s2 [E2 I2]]; auto.
  { intros pre x post s E Hl I.
    assert (Hx : In x (mid m)).
    { assert (K : exists mid1, pre = zrange 0 L ++ mid1 /\ mid m = mid1 ++ x :: post).
      { clear - E Hl. revert pre E Hl. generalize (zrange 0 L). induction l as [|a l IH]; intros pre E Hl; simpl in *.
        - exists pre; auto.
        - destruct pre as [|b pre]; simpl in *; [lia|]. inversion E; subst. destruct (IH pre H1 ltac:(lia)) as [m1 [-> Hm]].
          exists m1; auto. }
      destruct K as [m1 [_ ->]]. apply in_or_app; right; left; auto. }
    destruct (mid_inner m W x H2 Hx) as [R D].
    apply (hb_node_ok pre x (post ++ [root]) s); auto. rewrite SP, app_assoc, E, <- app_assoc. reflexivity. }
  rewrite E2. cbn [bind fst snd].
  destruct (hb_decide_ok (zrange 0 L ++ mid m) root [] s2) as (tr & tc & agg & tr' & agg' & T & TC & G & Es & Ed & RC & RT & RG & J1 & J2 & J3); auto.
  { rewrite SP, <- app_assoc. auto. }
  { pose proof (vt_root _ _ _ (wb_tree m W)) as N. apply (wb_node_iff m W) in N. lia. }
  exists tr', tc, agg', (fupd T root (fst (hdec T root))), (fupd G root (snd (hdec T root))). split; [exact Ed|]. split; auto.
  assert (SP2 : m_path m = (zrange 0 L ++ mid m) ++ root :: []) by (rewrite SP, <- app_assoc; auto).
  pose proof (path_NoDup_pre _ _ _ SP2) as Nr.
  intros h Hh. rewrite (hdec_ext (fupd T root (fst (hdec T root))) T).
  - destruct (Z.eq_dec h root) as [->|D].
    + rewrite !fupd_same. symmetry; apply surjective_pairing.
    + rewrite !fupd_other by auto. apply J1. apply (In_path m W) in Hh. rewrite SP2 in Hh. apply in_app_or in Hh.
      destruct Hh as [|[K|[]]]; auto; congruence.
  - intros c Hc. rewrite fupd_other; auto. intros ->. apply kids_In in Hc; auto. destruct Hc as [_ Hc].
    rewrite (vt_rootp _ _ _ (wb_tree m W)) in Hc. lia.
Qed.

(** The selected nodes below h. *)
Fixpoint hselF (fuel : nat) (G : Z -> bool) (h : Z) : list Z :=
  match fuel with
  | O => []
  | S f => if G h then [h] else flat_map (hselF f G) (kids h)
  end.
Definition hsel (G : Z -> bool) (h : Z) : list Z := hselF (S (Z.to_nat hsize)) G h.

Lemma kids_index : forall h i c, vget (m_path m) i = Ok h -> In c (kids h) ->
  exists j, vget (m_path m) j = Ok c /\ 0 <= j < i.
Proof.
  intros h i c E Hc. apply (kids_In m W) in Hc. destruct Hc as [Hc Hp].
  destruct (In_vget _ (m_path m) c) as [j [Ej Hj]]; [apply (In_path m W); auto|].
  exists j. split; auto. pose proof (wb_order m W _ _ _ _ Ej E Hp). lia.
Qed.

Lemma node_index : forall h, 0 <= h < hsize -> exists i, vget (m_path m) i = Ok h /\ 0 <= i < hsize.
Proof.
  intros h Hh. destruct (In_vget _ (m_path m) h) as [i [Ei Hi]]; [apply (In_path m W); auto|].
  rewrite (wb_len m W) in Hi. eauto.
Qed.

Lemma flat_map_ext_in : forall X Y (f g : X -> list Y) l, (forall a, In a l -> f a = g a) -> flat_map f l = flat_map g l.
Proof.
  intros X Y f g l H. induction l as [|a l IH]; simpl; auto. rewrite (H a) by (left; auto). f_equal.
  apply IH. intros; apply H; right; auto.
Qed.

Lemma hselF_fuel : forall G n n' h i, vget (m_path m) i = Ok h -> i < Z.of_nat n -> i < Z.of_nat n' ->
  hselF n G h = hselF n' G h.
Proof.
  intros G n. induction n as [|n IH]; intros [|n'] h i E F F'; pose proof (vget_inv _ _ _ _ E); try lia.
  simpl. destruct (G h); auto. apply flat_map_ext_in. intros c Hc. destruct (kids_index h i c E Hc) as [j [Ej Hj]].
  apply (IH n' c j Ej); lia.
Qed.

Lemma hsel_eq : forall G h, 0 <= h < hsize -> hsel G h = if G h then [h] else flat_map (hsel G) (kids h).
Proof.
  intros G h Hh. destruct (node_index h Hh) as [i [Ei Hi]].
  unfold hsel at 1. cbn [hselF]. destruct (G h); auto. apply flat_map_ext_in. intros c Hc.
  destruct (kids_index h i c Ei Hc) as [j [Ej Hj]]. apply (hselF_fuel G _ _ c j Ej); lia.
Qed.

Definition mkhpart (h : Z) : hpart A := mkHPart A h (m_sizeof m h) (q h).

Lemma hn_sub_ok : forall agg G, vrepr agg hsize G -> forall fuel h i, vget (m_path m) i = Ok h -> i < Z.of_nat fuel ->
  hn_sub A fuel agg t m h = Ok (map mkhpart (hsel G h)).
Proof.
  intros agg G RG. induction fuel as [|fuel IH]; intros h i E F; [pose proof (vget_inv _ _ _ _ E); lia|].
  assert (Hh : 0 <= h < hsize) by (apply (In_path m W); eapply vget_In; eauto).
  cbn [hn_sub]. rewrite (vrepr_get _ _ _ _ _ RG) by auto. cbn [bind]. rewrite hsel_eq by auto. destruct (G h).
  - rewrite (vrepr_get _ _ _ _ _ Ht) by auto. reflexivity.
  - rewrite (kids_children m W) by auto. cbn [bind].
    rewrite (mmap_map _ _ _ (fun c => map mkhpart (hsel G c))).
    + cbn [bind]. f_equal. rewrite <- flat_map_concat_map. generalize (kids h).
      induction l as [|c l IHl]; simpl; auto. rewrite map_app, IHl. auto.
    + intros c Hc. destruct (kids_index h i c E Hc) as [j [Ej Hj]]. apply (IH c j Ej). lia.
Qed.

Lemma h_best_ok : exists x T G, h_best A t m p = Ok x /\ hn_parts x = map mkhpart (hsel G root) /\
  hn_param x = p /\ hn_quality x = sum_quality A (map q (hsel G root)) /\
  forall h, 0 <= h < hsize -> (T h, G h) = hdec T h.
Proof.
  destruct hb_tables_ok as (tr & tc & agg & T & G & E & RG & H).
  unfold h_best. rewrite E. cbn [bind snd]. unfold hn_make.
  rewrite (hn_sub_ok agg G RG (S (Z.to_nat hsize)) root (hsize - 1)); [|apply (wb_last m W)|lia].
  cbn [bind]. eexists; exists T, G. split; [reflexivity|]. cbn. repeat split; auto.
  f_equal. rewrite map_map. apply map_ext. reflexivity.
Qed.

(** The selected nodes partition the leaves. *)
Lemma hsel_leaves : forall G, (forall h, 0 <= h < L -> G h = true) -> forall h, 0 <= h < hsize ->
  Permutation (leavesof L ps h) (flat_map (leavesof L ps) (hsel G h)).
Proof.
  intros G HG. apply (tree_ind m W). intros h Hh IH. rewrite hsel_eq by auto.
  destruct (G h) eqn:E.
  - simpl. rewrite app_nil_r. auto.
  - assert (L <= h) by (destruct (Z_lt_le_dec h L); auto; rewrite HG in E by lia; discriminate).
    rewrite (leavesof_kids m W) by lia. clear E. revert IH. generalize (kids h).
    induction l as [|c l IHl]; intro IH; simpl; auto. rewrite flat_map_app. apply Permutation_app.
    + apply IH; left; auto.
    + apply IHl. intros; apply IH; right; auto.
Qed.

Lemma hsel_nodes : forall G h, 0 <= h < hsize -> forall y, In y (hsel G h) -> 0 <= y < hsize /\ below ps y h.
Proof.
  intros G. apply (tree_ind m W (fun h => forall y, In y (hsel G h) -> 0 <= y < hsize /\ below ps y h)).
  intros h Hh IH y Hy. rewrite hsel_eq in Hy by auto. destruct (G h).
  - destruct Hy as [<-|[]]. split; auto. constructor.
  - apply in_flat_map in Hy. destruct Hy as [c [Hc Hy]]. destruct (IH c Hc y Hy). split; auto.
    eapply below_trans; eauto. apply (kids_In m W) in Hc. destruct Hc as [Hc <-]. apply below_up; [|constructor].
    intro E. pose proof (wb_tree m W). assert (c = root).
    { apply (valid_root_iff _ _ _ _ H1). apply (wb_node_iff m W); auto. auto. }
    subst. rewrite E in *. lia.
Qed.

End M.
