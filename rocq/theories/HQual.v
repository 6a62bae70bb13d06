(** * HQualities::computeQualities over exact reals. *)
From Coq Require Import Reals Lra Lia Permutation.
From Verif Require Import Base BaseFacts Arith Quality Utm Hierarchy SpecTree TreeFacts SpecParts SpecInfo SpecData Values Qualities
  TreePath CoverFacts InfoFacts OInfo.

Section M.
Context (P : params).
Notation A := (RP P).
Notation quality := (quality A).
Context (m : meta).
Hypothesis W : well_built m.
Hypothesis H2 : 2 <= m_hsize m.
Notation ps := (m_parents m).
Notation L := (m_leaves m).
Notation hsize := (m_hsize m).
Notation root := (m_root m).
Notation kids := (kids m).
Notation lv := (leavesof L ps).

Definition chd (l : list Z) (h : Z) : list Z := filter (fun c => parent ps c =? h) l.

Lemma path_fresh : forall pre x post, m_path m = pre ++ x :: post -> ~ In x pre.
Proof.
  intros pre x post E K. pose proof (wb_nodup m W) as N. rewrite E in N. apply NoDup_remove_2 in N. apply N.
  apply in_or_app; auto.
Qed.

(** Sums over the leaves below a node. *)
Section S.
Variable (f : Z -> R).
Definition bsum (h : Z) : R := Rsum f (lv h).

Lemma bsum_kids : forall h, L <= h < hsize -> bsum h = Rsum bsum (kids h).
Proof.
  intros h Hh. unfold bsum. rewrite (Rsum_perm _ f _ _ (leavesof_kids m W h Hh)).
  rewrite flat_map_concat_map, Rsum_concat, Rsum_map. auto.
Qed.
Lemma bsum_leaf : forall h, 0 <= h < L -> bsum h = f h.
Proof. intros h Hh. unfold bsum. rewrite (lv_leaf m W) by auto. rewrite Rsum_cons, Rsum_nil. ring. Qed.

(** The accumulator after processing [pre]. *)
Definition acc (pre : list Z) (h : Z) : R :=
  if h <? L then (if in_dec Z.eq_dec h pre then f h else 0%R) else Rsum bsum (chd pre h).

Lemma acc_node : forall pre x post, m_path m = pre ++ x :: post -> L <= x < hsize -> acc pre x = bsum x.
Proof.
  intros pre x post E Hx. unfold acc. replace (x <? L) with false by (symmetry; apply Z.ltb_ge; lia).
  unfold chd. rewrite <- (kids_prefix m W pre x post E). symmetry. apply bsum_kids; auto.
Qed.

Lemma acc_snoc_leaf : forall pre x post h, m_path m = pre ++ x :: post -> 0 <= x < L -> 0 <= h < hsize ->
  fupd (fupd (acc pre) x (f x)) (parent ps x) (acc pre (parent ps x) + f x)%R h = acc (pre ++ [x]) h.
Proof.
  intros pre x post h E Hx Hh. pose proof (wb_L m W). pose proof (wb_root_inner m W H2).
  destruct (parent_range m W x ltac:(lia) ltac:(lia)) as (Rp & _ & _).
  unfold fupd. destruct (Z.eqb_spec h (parent ps x)) as [->|D1].
  - unfold acc. replace (parent ps x <? L) with false by (symmetry; apply Z.ltb_ge; lia).
    unfold chd. rewrite filter_app. cbn [filter]. rewrite Z.eqb_refl, Rsum_app, Rsum_cons, Rsum_nil, bsum_leaf by auto. ring.
  - destruct (Z.eqb_spec h x) as [->|D2].
    + unfold acc. replace (x <? L) with true by (symmetry; apply Z.ltb_lt; lia).
      destruct (in_dec Z.eq_dec x (pre ++ [x])) as [|N]; auto. exfalso; apply N; apply in_or_app; right; left; auto.
    + unfold acc. destruct (h <? L).
      * destruct (in_dec Z.eq_dec h pre) as [I|I], (in_dec Z.eq_dec h (pre ++ [x])) as [J|J]; auto; exfalso.
        -- apply J; apply in_or_app; auto.
        -- apply in_app_or in J. destruct J as [J|[J|[]]]; auto.
      * unfold chd. rewrite filter_app. cbn [filter]. destruct (Z.eqb_spec (parent ps x) h); [congruence|]. rewrite app_nil_r. auto.
Qed.

Lemma acc_snoc_node : forall pre x post h, m_path m = pre ++ x :: post -> L <= x < hsize -> x <> root -> 0 <= h < hsize ->
  fupd (acc pre) (parent ps x) (acc pre (parent ps x) + acc pre x)%R h = acc (pre ++ [x]) h.
Proof.
  intros pre x post h E Hx D Hh. pose proof (wb_L m W).
  destruct (parent_range m W x ltac:(lia) D) as (Rp & _ & _).
  rewrite (acc_node pre x post E Hx). unfold fupd. destruct (Z.eqb_spec h (parent ps x)) as [->|D1].
  - unfold acc. replace (parent ps x <? L) with false by (symmetry; apply Z.ltb_ge; lia).
    unfold chd. rewrite filter_app. cbn [filter]. rewrite Z.eqb_refl, Rsum_app, Rsum_cons, Rsum_nil. ring.
  - unfold acc. destruct (Z.ltb_spec h L).
    + destruct (in_dec Z.eq_dec h pre) as [I|I], (in_dec Z.eq_dec h (pre ++ [x])) as [J|J]; auto; exfalso.
      -- apply J; apply in_or_app; auto.
      -- apply in_app_or in J. destruct J as [J|[J|[]]]; auto; lia.
    + unfold chd. rewrite filter_app. cbn [filter]. destruct (Z.eqb_spec (parent ps x) h); [congruence|]. rewrite app_nil_r. auto.
Qed.
End S.

Variables (v : hvalues A) (k : Z) (x : Z -> R).
Hypothesis Hx : forall h, 0 <= h < L -> hv_value v h k = Ok (x h).
Notation xl := (fun h => xlog2 (x h)).

Definition add_cell (q : quality) (h : Z) : quality :=
  q_bump A q (gain_of (map x (lv h))) (loss_of (map x (lv h))).

Lemma add_cell_eq : forall q h, 0 <= h < hsize -> q_bump A q (entropyReduction A (bsum x h) (bsum xl h))
    (divergence A (m_sizeof m h) (bsum x h) (bsum xl h)) = add_cell q h.
Proof.
  intros q h Hh. unfold add_cell. rewrite (size_leaves m W) by auto.
  replace (vlen (lv h)) with (vlen (map x (lv h))) by (unfold vlen; rewrite map_length; auto).
  replace (bsum x h) with (total (map x (lv h))) by (unfold total; rewrite Rsum_map; auto).
  replace (bsum xl h) with (Rsum xlog2 (map x (lv h))) by (rewrite Rsum_map; auto).
  rewrite er_gain, dv_loss. auto.
Qed.

Variable (Q0 : Z -> quality).

Definition hqinv (pre : list Z) (st : list (num A) * list (num A) * list quality) : Prop :=
  let '(sum, info, q) := st in
  @vrepr (num A) sum hsize (acc x pre) /\ @vrepr (num A) info hsize (acc xl pre) /\
  vrepr q hsize (fun h => if in_dec Z.eq_dec h pre then (if h <? L then Q0 h else add_cell (Q0 h) h) else Q0 h).

Lemma hq_leaf_ok : forall pre y post sum info, m_path m = pre ++ y :: post -> 0 <= y < L ->
  @vrepr (num A) sum hsize (acc x pre) -> @vrepr (num A) info hsize (acc xl pre) ->
  exists sum' info', hq_leaf A v m k y (sum, info) = Ok (sum', info') /\
    @vrepr (num A) sum' hsize (acc x (pre ++ [y])) /\ @vrepr (num A) info' hsize (acc xl (pre ++ [y])).
Proof.
  intros pre y post sum info E Hy RS RI. pose proof (wb_L m W) as HL. pose proof (wb_root_inner m W H2) as HR.
  destruct (parent_range m W y ltac:(lia) ltac:(lia)) as (Rp & Ep & _).
  unfold hq_leaf. rewrite Hx by auto. cbn [bind].
  destruct (vrepr_set (num A) sum _ _ y (x y) RS ltac:(lia)) as (s1 & E1 & R1). rewrite E1. cbn [bind].
  rewrite Ep. cbn [bind]. rewrite (vrepr_get (num A) _ _ _ (parent ps y) R1) by lia. cbn [bind].
  rewrite (vrepr_get (num A) _ _ _ y R1) by lia. cbn [bind]. rewrite fupd_same. rewrite fupd_other by lia.
  destruct (vrepr_set (num A) s1 _ _ (parent ps y) (acc x pre (parent ps y) + x y)%R R1 ltac:(lia)) as (s2 & E2 & R2).
  change (n_add A (acc x pre (parent ps y)) (x y)) with (acc x pre (parent ps y) + x y)%R. rewrite E2. cbn [bind].
  assert (R2' : @vrepr (num A) s2 hsize (acc x (pre ++ [y]))).
  { eapply vrepr_ext; [exact R2|]. intros h Hh. apply (acc_snoc_leaf x pre y post h E Hy Hh). }
  assert (Ey : acc x (pre ++ [y]) y = x y).
  { rewrite <- (acc_snoc_leaf x pre y post y E Hy) by lia. rewrite fupd_other by lia. apply fupd_same. }
  rewrite (vrepr_get (num A) _ _ _ y R2') by lia. cbn [bind]. rewrite Ey.
  change (n_zero A) with 0%R. rewrite er_xlog2.
  destruct (vrepr_set (num A) info _ _ y (xlog2 (x y)) RI ltac:(lia)) as (f1 & F1 & T1). rewrite F1. cbn [bind].
  rewrite (vrepr_get (num A) _ _ _ (parent ps y) T1) by lia. cbn [bind].
  rewrite (vrepr_get (num A) _ _ _ y T1) by lia. cbn [bind]. rewrite fupd_same. rewrite fupd_other by lia.
  destruct (vrepr_set (num A) f1 _ _ (parent ps y) (acc xl pre (parent ps y) + xlog2 (x y))%R T1 ltac:(lia)) as (f2 & F2 & T2).
  change (n_add A (acc xl pre (parent ps y)) (xlog2 (x y))) with (acc xl pre (parent ps y) + xlog2 (x y))%R. rewrite F2. cbn [bind].
  exists s2, f2. split; auto. split; auto.
  eapply vrepr_ext; [exact T2|]. intros h Hh. apply (acc_snoc_leaf xl pre y post h E Hy Hh).
Qed.

Lemma hq_update_ok : forall sum info q (S F : Z -> num A) Q y, vrepr sum hsize S -> vrepr info hsize F -> vrepr q hsize Q -> 0 <= y < hsize ->
  S y = bsum x y -> F y = bsum xl y ->
  exists q', hq_update A m sum info y q = Ok q' /\ vrepr q' hsize (fupd Q y (add_cell (Q y) y)).
Proof.
  intros sum info q S F Q y RS RF RQ Hy ES EF. unfold hq_update.
  rewrite (vrepr_get (num A) _ _ _ y RS) by lia. cbn [bind]. rewrite (vrepr_get (num A) _ _ _ y RF) by lia. cbn [bind].
  rewrite (vrepr_get _ _ _ _ y RQ) by lia. cbn [bind]. rewrite ES, EF, add_cell_eq by auto.
  apply vrepr_set; auto.
Qed.

Lemma hq_node_ok : forall pre y post st, m_path m = pre ++ y :: post -> L <= y < hsize -> y <> root ->
  hqinv pre st -> exists st', hq_node A m y st = Ok st' /\ hqinv (pre ++ [y]) st'.
Proof.
  intros pre y post [[sum info] q] E Hy D (RS & RI & RQ). pose proof (wb_L m W) as HL.
  destruct (parent_range m W y ltac:(lia) D) as (Rp & Ep & Dp).
  unfold hq_node. rewrite Ep. cbn [bind].
  rewrite (vrepr_get (num A) _ _ _ (parent ps y) RS) by lia. cbn [bind]. rewrite (vrepr_get (num A) _ _ _ y RS) by lia. cbn [bind].
  destruct (vrepr_set (num A) sum _ _ (parent ps y) (acc x pre (parent ps y) + acc x pre y)%R RS ltac:(lia)) as (s2 & E2 & R2).
  change (n_add A (acc x pre (parent ps y)) (acc x pre y)) with (acc x pre (parent ps y) + acc x pre y)%R. rewrite E2. cbn [bind].
  rewrite (vrepr_get (num A) _ _ _ (parent ps y) RI) by lia. cbn [bind]. rewrite (vrepr_get (num A) _ _ _ y RI) by lia. cbn [bind].
  destruct (vrepr_set (num A) info _ _ (parent ps y) (acc xl pre (parent ps y) + acc xl pre y)%R RI ltac:(lia)) as (f2 & F2 & T2).
  change (n_add A (acc xl pre (parent ps y)) (acc xl pre y)) with (acc xl pre (parent ps y) + acc xl pre y)%R. rewrite F2. cbn [bind].
  destruct (hq_update_ok s2 f2 q _ _ _ y R2 T2 RQ ltac:(lia)) as (q' & E3 & R3).
  { rewrite fupd_other by auto. apply (acc_node x pre y post E); lia. }
  { rewrite fupd_other by auto. apply (acc_node xl pre y post E); lia. }
  rewrite E3. cbn [bind]. eexists; split; [reflexivity|]. split; [|split].
  - eapply vrepr_ext; [exact R2|]. intros h Hh. apply (acc_snoc_node x pre y post h E Hy D Hh).
  - eapply vrepr_ext; [exact T2|]. intros h Hh. apply (acc_snoc_node xl pre y post h E Hy D Hh).
  - eapply vrepr_ext; [exact R3|]. intros h Hh. pose proof (path_fresh pre y post E) as N. unfold fupd.
    destruct (Z.eqb_spec h y) as [->|Dh].
    + destruct (in_dec Z.eq_dec y pre); [contradiction|]. destruct (in_dec Z.eq_dec y (pre ++ [y])) as [|K].
      * replace (y <? L) with false by (symmetry; apply Z.ltb_ge; lia). auto.
      * exfalso; apply K; apply in_or_app; right; left; auto.
    + destruct (in_dec Z.eq_dec h pre) as [I|I], (in_dec Z.eq_dec h (pre ++ [y])) as [J|J]; auto; exfalso.
      * apply J; apply in_or_app; auto.
      * apply in_app_or in J. destruct J as [J|[J|[]]]; auto.
Qed.

Lemma hq_component_ok : forall q, vrepr q hsize Q0 ->
  exists q', hq_component A v m k q = Ok q' /\ vrepr q' hsize (fun h => if h <? L then Q0 h else add_cell (Q0 h) h).
Proof.
  intros q RQ. pose proof (wb_L m W) as HL. pose proof (wb_root_inner m W H2) as HR. pose proof (wb_split m W H2) as SP.
  unfold hq_component. rewrite (leaf_loop m W) by auto.
  destruct (mfold_prefix _ _ (hq_leaf A v m k) (fun pre st => @vrepr (num A) (fst st) hsize (acc x pre) /\ @vrepr (num A) (snd st) hsize (acc xl pre)) (zrange 0 L) []
     (vrep hsize (n_zero A), vrep hsize (n_zero A))) as [[sum info] [E1 [I1 I1']]].
  { intros pre y post [sum info] E _ [I I']. cbn [app fst snd] in *.
    destruct (hq_leaf_ok pre y (post ++ mid m ++ [root]) sum info) as (s' & f' & K1 & K2 & K3); auto.
    - rewrite SP, E, <- app_assoc. reflexivity.
    - apply In_zrange. rewrite E. apply in_or_app; right; left; auto.
    - exists (s', f'). auto. }
  { cbn [fst snd]. assert (Z0 : forall f h, acc f [] h = 0%R). { intros f h. unfold acc, chd. cbn. destruct (h <? L); auto. }
    split; (eapply vrepr_ext; [apply (vrepr_vrep (num A) hsize 0%R); lia|]; intros; rewrite Z0; auto). }
  rewrite E1. cbn [bind]. rewrite (mid_loop m W) by auto. cbn [app fst snd] in I1, I1'.
  destruct (mfold_prefix _ _ (hq_node A m) hqinv (mid m) (zrange 0 L) (sum, info, q)) as [[[s2 f2] q2] [E2 (J1 & J2 & J3)]].
  { intros pre y post s E Hl I.
    assert (Hy : In y (mid m)).
    { assert (K : exists mid1, pre = zrange 0 L ++ mid1 /\ mid m = mid1 ++ y :: post).
      { clear - E Hl. revert pre E Hl. generalize (zrange 0 L). induction l as [|a l IH]; intros pre E Hl; simpl in *.
        - exists pre; auto.
        - destruct pre as [|b pre]; simpl in *; [lia|]. inversion E; subst. destruct (IH pre H1 ltac:(lia)) as [m1 [-> Hm]].
          exists m1; auto. }
      destruct K as [m1 [_ ->]]. apply in_or_app; right; left; auto. }
    destruct (mid_inner m W y H2 Hy) as [R D].
    apply (hq_node_ok pre y (post ++ [root]) s); auto. rewrite SP, app_assoc, E, <- app_assoc. reflexivity. }
  { split; [exact I1|split; [exact I1'|]]. eapply vrepr_ext; [exact RQ|]. intros h Hh. destruct (in_dec Z.eq_dec h (zrange 0 L)) as [I|I]; auto.
    apply In_zrange in I. replace (h <? L) with true by (symmetry; apply Z.ltb_lt; lia). auto. }
  rewrite E2. cbn [bind].
  assert (SP2 : m_path m = (zrange 0 L ++ mid m) ++ root :: []) by (rewrite SP, <- app_assoc; auto).
  pose proof (path_fresh _ _ _ SP2) as Nr. pose proof (root_node m W) as Rr.
  destruct (hq_update_ok s2 f2 q2 _ _ _ root J1 J2 J3 Rr) as (q' & E3 & R3).
  { apply (acc_node x _ root [] SP2); lia. } { apply (acc_node xl _ root [] SP2); lia. }
  exists q'. split; auto. eapply vrepr_ext; [exact R3|]. intros h Hh. unfold fupd. destruct (Z.eqb_spec h root) as [->|D].
  - destruct (in_dec Z.eq_dec root (zrange 0 L ++ mid m)); [contradiction|]. replace (root <? L) with false by (symmetry; apply Z.ltb_ge; lia). auto.
  - destruct (in_dec Z.eq_dec h (zrange 0 L ++ mid m)) as [|N]; auto. exfalso. apply (In_path m W) in Hh. rewrite SP2 in Hh.
    apply in_app_or in Hh. destruct Hh as [|[K|[]]]; auto.
Qed.
End M.

(** The whole table. *)
Lemma h_compute_prf : forall P (v : hvalues (RP P)) comps, hdata_ok v comps ->
  exists t, hq_compute (RP P) (hq_ofValues (RP P) v) = Ok (mkHQ (RP P) (Some v) (Some t) (hv_meta v)) /\ htable t (hv_meta v) comps.
Proof.
  intros P v comps (Hv & W & H2 & Hc). set (m := hv_meta v) in *. pose proof (wb_L m W) as HL.
  destruct (mmap_zrange (list R) _ _ comps [] Hv Hc) as (Lc & K & Ec).
  pose (x := fun k h => elt 0%R (elt [] comps k) h).
  assert (Hx : forall k, 0 <= k < hv_vsize v -> vlen (elt [] comps k) = m_leaves m /\ forall h, 0 <= h < m_leaves m -> hv_value v h k = Ok (x k h)).
  { intros k Hk. specialize (K k Hk). destruct (mmap_zrange R (fun h => hv_value v h k) (m_leaves m) _ 0%R ltac:(lia) K) as (Ll & K2 & _). split; auto. }
  unfold hq_compute, hq_ofValues, hq_computeTable. cbn [hq_values hq_meta]. fold m.
  destruct (for_up_inv _ (hq_component (RP P) v m) (fun k t => vrepr t (m_hsize m)
     (fun h => @mkQ (RP P) (Rsum (fun i => gain_of (hcells m (elt [] comps i) h)) (zrange 0 k))
                           (Rsum (fun i => loss_of (hcells m (elt [] comps i) h)) (zrange 0 k)))) 0 (hv_vsize v)
     (vrep (m_hsize m) (q_zero (RP P)))) as (t & E & R).
  - auto.
  - intros k t Hk R. destruct (Hx k Hk) as [_ Hxk].
    destruct (hq_component_ok P m W H2 v k (x k) Hxk _ t R) as (t' & E & R'). exists t'. split; auto.
    eapply vrepr_ext; [exact R'|]. intros h Hh. cbv beta.
    rewrite (zrange_snoc 0 k) by lia. rewrite !Rsum_app, !Rsum_cons, !Rsum_nil, !Rplus_0_r.
    change (hcells m (elt [] comps k) h) with (map (x k) (leavesof (m_leaves m) (m_parents m) h)).
    destruct (Z.ltb_spec h (m_leaves m)).
    + rewrite (lv_leaf m W) by lia. cbn [map]. rewrite gain_of_single, loss_of_single, !Rplus_0_r. auto.
    + unfold add_cell, q_bump, q_addLoss, q_addGain. cbn [gain loss RP n_add]. auto.
  - eapply vrepr_ext; [apply vrepr_vrep; lia|]. intros h Hh. rewrite zrange_empty by lia. reflexivity.
  - rewrite E. cbn [bind]. exists t. split; auto. destruct R as [R1 R2]. split; auto. intros h Hh. rewrite R2 by auto. f_equal.
    unfold hgain, hloss.
    assert (G : forall f : list R -> R, Rsum f comps = Rsum (fun i => f (elt [] comps i)) (zrange 0 (hv_vsize v))) by (intro f; rewrite Ec at 1; rewrite Rsum_map; auto).
    rewrite (G (fun c => gain_of (hcells m c h))), (G (fun c => loss_of (hcells m c h))). auto.
Qed.
