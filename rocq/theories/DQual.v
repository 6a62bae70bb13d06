(** * DQualities::computeQualities over exact reals. *)
From Coq Require Import Reals Lra Lia Permutation Bool.
From Verif Require Import Base BaseFacts Arith Quality Utm UtmFacts UtmProofs Hierarchy SpecTree TreeFacts SpecParts SpecInfo SpecData Values Qualities
  TreePath CoverFacts InfoFacts OInfo HQual.

Section M.
Context (P : params).
Notation A := (RP P).
Notation quality := (quality A).
Context (m : meta).
Hypothesis W : well_built m.
Hypothesis H2 : 2 <= m_hsize m.
Notation ps := (m_parents m).
Notation L := (m_leaves m).
Notation hsize := (m_hsize m).
Notation root := (m_root m).
Notation lv := (leavesof L ps).
Variables (n : Z).
Hypothesis Hn : 1 <= n <= 65535.
Variables (v : dvalues A) (k : Z) (row : Z -> list (num A)) (x : Z -> Z -> R).
Hypothesis Hrow : forall h, 0 <= h < L -> dv_row v h k = Ok (row h) /\ @vrepr (num A) (row h) n (x h).
Notation xl := (fun h o => xlog2 (x h o)).

(** Sum of a leaf's slices i..j. *)
Definition cs (f : Z -> Z -> R) (i j h : Z) : R := Rsum (f h) (zrange i (j + 1)).

Lemma cs_diag : forall f i h, cs f i i h = f h i.
Proof. intros. unfold cs. rewrite zrange_snoc, zrange_empty by lia. cbn [app]. rewrite Rsum_cons, Rsum_nil. ring. Qed.
Lemma cs_step : forall f i j h, i < j -> (cs f (i + 1) j h + f h i)%R = cs f i j h.
Proof. intros. unfold cs. rewrite (zrange_cons i (j + 1)) by lia. rewrite Rsum_cons. ring. Qed.

Definition cells (h i j : Z) : list R := flat_map (fun y => map (x y) (zrange i (j + 1))) (lv h).

Lemma cells_total : forall f h i j, Rsum f (cells h i j) = bsum m (cs (fun h o => f (x h o)) i j) h.
Proof.
  intros. unfold cells, bsum, cs. rewrite flat_map_concat_map, Rsum_concat, Rsum_map. apply Rsum_ext. intros y _. apply Rsum_map.
Qed.
Lemma cells_len : forall h i j, i <= j + 1 -> vlen (cells h i j) = (j - i + 1) * vlen (lv h).
Proof.
  intros h i j Hij. unfold cells. induction (lv h) as [|y l IH]; [cbn; lia|]. cbn [flat_map]. rewrite vlen_app, IH.
  replace (vlen (map (x y) (zrange i (j + 1)))) with (j - i + 1) by (unfold vlen; rewrite map_length, zrange_length; lia).
  unfold vlen. cbn [length]. nia.
Qed.

Definition addc (q : quality) (h i j : Z) : quality := q_bump A q (gain_of (cells h i j)) (loss_of (cells h i j)).

Lemma addc_eq : forall q h i j N, i <= j + 1 -> N = (j - i + 1) * vlen (lv h) ->
  q_bump A q (entropyReduction A (bsum m (cs x i j) h) (bsum m (cs xl i j) h))
    (divergence A N (bsum m (cs x i j) h) (bsum m (cs xl i j) h)) = addc q h i j.
Proof.
  intros q h i j N Hij ->. unfold addc. rewrite <- cells_len by auto.
  replace (bsum m (cs x i j) h) with (total (cells h i j)) by (unfold total; rewrite cells_total; auto).
  rewrite <- (cells_total xlog2 h i j). rewrite er_gain, dv_loss. auto.
Qed.

Lemma addc_diag : forall q h i, 0 <= h < L -> addc q h i i = q.
Proof.
  intros [g l] h i Hh. unfold addc, cells. rewrite (lv_leaf m W) by auto. cbn [flat_map]. rewrite zrange_snoc, zrange_empty by lia. cbn [app map].
  rewrite gain_of_single, loss_of_single. unfold q_bump, q_addGain, q_addLoss. cbn [gain loss]. f_equal; apply Rplus_0_r.
Qed.

Variable (Q0 : Z -> Z -> Z -> quality).

(** [pr a b]: the prefix of the path already processed for cell (a,b). *)
Definition qcell (l : list Z) (h a b : Z) : quality := if in_dec Z.eq_dec h l then addc (Q0 h a b) h a b else Q0 h a b.
Definition drep (pr : Z -> Z -> list Z) (st : dq_state A) : Prop :=
  let '(sum, info, q) := st in
  @mrepr (num A) sum hsize n (fun h a b => acc m (cs x a b) (pr a b) h) /\
  @mrepr (num A) info hsize n (fun h a b => acc m (cs xl a b) (pr a b) h) /\
  mrepr q hsize n (fun h a b => qcell (pr a b) h a b).

Lemma drep_ext : forall pr pr' st, (forall a b, 0 <= a <= b -> b < n -> pr a b = pr' a b) -> drep pr st -> drep pr' st.
Proof.
  intros pr pr' [[sum info] q] E (R1 & R2 & R3). repeat split; try apply R1; try apply R2; try apply R3;
  [apply (mrepr_ext (num A) _ _ _ _ _ R1)|apply (mrepr_ext (num A) _ _ _ _ _ R2)|apply (mrepr_ext _ _ _ _ _ _ R3)]; intros h a b Hh Ha Hb; rewrite E by auto; auto.
Qed.

Section Y.
Variables (pre : list Z) (y : Z) (post : list Z).
Hypothesis E : m_path m = pre ++ y :: post.
Notation pre' := (pre ++ [y]).
Definition prd (D : Z -> Z -> bool) (a b : Z) : list Z := if D a b then pre' else pre.
Definition Dadd (D : Z -> Z -> bool) (i j a b : Z) : bool := ((a =? i) && (b =? j)) || D a b.

Lemma prd_false : forall D i j, D i j = false -> prd D i j = pre. Proof. intros D i j H. unfold prd. rewrite H. auto. Qed.
Lemma prd_true : forall D i j, D i j = true -> prd D i j = pre'. Proof. intros D i j H. unfold prd. rewrite H. auto. Qed.
Lemma prd_add : forall D i j a b, prd (Dadd D i j) a b = if (a =? i) && (b =? j) then pre' else prd D a b.
Proof. intros. unfold prd, Dadd. destruct ((a =? i) && (b =? j)); auto. Qed.
Lemma In_pre' : In y pre'. Proof. apply in_or_app; right; left; auto. Qed.

Lemma acc_leaf_in : forall f, 0 <= y < L -> acc m f pre' y = f y.
Proof.
  intros f Hy. unfold acc. replace (y <? L) with true by (symmetry; apply Z.ltb_lt; lia).
  destruct (in_dec Z.eq_dec y pre') as [|N]; auto. exfalso; apply N, In_pre'.
Qed.

(** Updating the quality of cell (y,i,j). *)
Lemma dq_update_ok : forall (sum info : list (utm (num A))) q D N i j, 0 <= y < hsize -> 0 <= i <= j -> j < n ->
  mm_get sum y i j = @Ok (num A) (bsum m (cs x i j) y) -> mm_get info y i j = @Ok (num A) (bsum m (cs xl i j) y) ->
  mrepr q hsize n (fun h a b => qcell (prd D a b) h a b) -> D i j = false -> N = (j - i + 1) * vlen (lv y) ->
  exists q', dq_update A sum info N y i j q = Ok q' /\ mrepr q' hsize n (fun h a b => qcell (prd (Dadd D i j) a b) h a b).
Proof.
  intros sum info q D N i j Hy Hi Hj ES EF RQ HD HN. unfold dq_update. rewrite ES, EF. cbn [bind].
  rewrite (mrepr_get _ _ _ _ _ y i j RQ) by auto. cbn [bind]. rewrite (addc_eq _ y i j N) by (auto; lia).
  destruct (mrepr_set _ _ _ _ _ y i j (addc (qcell (prd D i j) y i j) y i j) RQ Hy Hi Hj) as (q' & E1 & R1).
  exists q'. split; auto. eapply mrepr_ext; [exact R1|]. intros h a b Hh Ha Hb. unfold fupd3. rewrite prd_add.
  pose proof (path_fresh m W pre y post E) as Fr.
  destruct ((a =? i) && (b =? j)) eqn:Eab; [|rewrite andb_false_r; auto].
  rewrite andb_true_r. apply andb_true_iff in Eab. destruct Eab as [Ea Eb]. apply Z.eqb_eq in Ea, Eb. subst a b.
  rewrite prd_false by auto. destruct (Z.eqb_spec h y) as [->|Dh].
  - unfold qcell. destruct (in_dec Z.eq_dec y pre); [contradiction|]. destruct (in_dec Z.eq_dec y pre') as [|N1]; auto. exfalso; apply N1, In_pre'.
  - unfold qcell. destruct (in_dec Z.eq_dec h pre) as [I|I], (in_dec Z.eq_dec h pre') as [J|J]; auto; exfalso.
    + apply J; apply in_or_app; auto.
    + apply in_app_or in J. destruct J as [J|[J|[]]]; auto.
Qed.

(** Adding cell (y,i,j) to the parent's. *)
Lemma dq_toParent_ok : forall f g sum info (S F : Z -> Z -> Z -> num A) i j, 0 <= y < hsize -> y <> root -> 0 <= i <= j -> j < n ->
  @mrepr (num A) sum hsize n S -> @mrepr (num A) info hsize n F -> S y i j = f -> F y i j = g ->
  exists sum' info', dq_toParent A m y i j sum info = Ok (sum', info') /\
    @mrepr (num A) sum' hsize n (fupd3 S (parent ps y) i j (S (parent ps y) i j + f)%R) /\
    @mrepr (num A) info' hsize n (fupd3 F (parent ps y) i j (F (parent ps y) i j + g)%R).
Proof.
  intros f g sum info S F i j Hy D Hi Hj RS RF ES EF. pose proof (wb_L m W) as HL.
  destruct (parent_range m W y Hy D) as (Rp & Ep & Dp). unfold dq_toParent. rewrite Ep. cbn [bind].
  rewrite (mrepr_get (num A) _ _ _ _ y i j RS) by auto. cbn [bind]. unfold mm_addto.
  rewrite (mrepr_get (num A) _ _ _ _ (parent ps y) i j RS) by (auto; lia). cbn [bind].
  destruct (mrepr_set (num A) _ _ _ _ (parent ps y) i j (S (parent ps y) i j + f)%R RS ltac:(lia) Hi Hj) as (s1 & E1 & R1).
  rewrite ES. change (n_add A (S (parent ps y) i j) f) with (S (parent ps y) i j + f)%R. rewrite E1. cbn [bind].
  rewrite (mrepr_get (num A) _ _ _ _ y i j RF) by auto. cbn [bind].
  rewrite (mrepr_get (num A) _ _ _ _ (parent ps y) i j RF) by (auto; lia). cbn [bind].
  destruct (mrepr_set (num A) _ _ _ _ (parent ps y) i j (F (parent ps y) i j + g)%R RF ltac:(lia) Hi Hj) as (f1 & E2 & R2).
  rewrite EF. change (n_add A (F (parent ps y) i j) g) with (F (parent ps y) i j + g)%R. rewrite E2. cbn [bind].
  exists s1, f1. auto.
Qed.

(** Setting cell (y,i,j) of a leaf and adding it to the parent moves the cell to the prefix with y. *)
Lemma leaf_cell_fun : forall f D i j, 0 <= y < L -> D i j = false -> forall h a b, 0 <= h < hsize -> 
  let S := fun h a b => acc m (f a b) (prd D a b) h in
  fupd3 (fupd3 S y i j (f i j y)) (parent ps y) i j (S (parent ps y) i j + f i j y)%R h a b =
  acc m (f a b) (prd (Dadd D i j) a b) h.
Proof.
  intros f D i j Hy HD h a b Hh S. rewrite prd_add. unfold fupd3, S. rewrite (prd_false D i j HD).
  destruct ((a =? i) && (b =? j)) eqn:Eab; [|rewrite !andb_false_r; auto]. rewrite !andb_true_r.
  apply andb_true_iff in Eab. destruct Eab as [Ea Eb]. apply Z.eqb_eq in Ea, Eb. subst a b. rewrite (prd_false D i j HD).
  exact (acc_snoc_leaf m W H2 (f i j) pre y post h E Hy Hh).
Qed.

Lemma leaf_diag_ok : forall sum info q D i r', 0 <= y < L -> 0 <= i < n -> drep (prd D) (sum, info, q) -> D i i = false ->
  r' = row y -> exists st', 
  (let* xx := vget r' i in
   let* sum := mm_set sum y i i xx in
   let* info := mm_set info y i i (entropyReduction A xx (n_zero A)) in
   let* si := dq_toParent A m y i i sum info in
   let '(sum, info) := si in Ok (sum, info, q)) = Ok st' /\ drep (prd (Dadd D i i)) st'.
Proof.
  intros sum info q D i r' Hy Hi (RS & RF & RQ) HD ->. pose proof (wb_L m W) as HL. pose proof (wb_root_inner m W H2) as HR.
  destruct (Hrow y Hy) as [_ Rr]. rewrite (vrepr_get (num A) _ _ _ i Rr) by auto. cbn [bind].
  destruct (mrepr_set (num A) _ _ _ _ y i i (x y i) RS ltac:(lia) ltac:(lia) ltac:(lia)) as (s1 & E1 & R1). rewrite E1. cbn [bind].
  change (n_zero A) with 0%R. rewrite er_xlog2.
  destruct (mrepr_set (num A) _ _ _ _ y i i (xlog2 (x y i)) RF ltac:(lia) ltac:(lia) ltac:(lia)) as (f1 & E2 & R2). rewrite E2. cbn [bind].
  destruct (parent_range m W y ltac:(lia) ltac:(lia)) as (Rp & _ & Dp).
  destruct (dq_toParent_ok (x y i) (xlog2 (x y i)) s1 f1 _ _ i i ltac:(lia) ltac:(lia) ltac:(lia) ltac:(lia) R1 R2) as (s2 & f2 & E3 & R3 & R4).
  { apply fupd3_same. } { apply fupd3_same. }
  rewrite E3. cbn [bind]. eexists; split; [reflexivity|]. split; [|split].
  - apply (mrepr_ext (num A) _ _ _ _ _ R3). intros h a b Hh Ha Hb.
    rewrite (fupd3_other (num A) _ y i i _ (parent ps y) i i) by lia.
    pose proof (leaf_cell_fun (cs x) D i i Hy HD h a b Hh) as K. cbv zeta in K. rewrite cs_diag in K. exact K.
  - apply (mrepr_ext (num A) _ _ _ _ _ R4). intros h a b Hh Ha Hb.
    rewrite (fupd3_other (num A) _ y i i _ (parent ps y) i i) by lia.
    pose proof (leaf_cell_fun (cs xl) D i i Hy HD h a b Hh) as K. cbv zeta in K. rewrite cs_diag in K. exact K.
  - eapply mrepr_ext; [exact RQ|]. intros h a b Hh Ha Hb. cbn beta. rewrite prd_add. destruct ((a =? i) && (b =? i)) eqn:Eab; auto.
    apply andb_true_iff in Eab. destruct Eab as [Ea Eb]. apply Z.eqb_eq in Ea, Eb. subst a b. rewrite (prd_false D i i HD).
    pose proof (path_fresh m W pre y post E) as Fr.
    unfold qcell. destruct (in_dec Z.eq_dec h pre) as [I|I], (in_dec Z.eq_dec h pre') as [J|J]; auto.
    + exfalso. apply J; apply in_or_app; auto.
    + apply in_app_or in J. destruct J as [J|[<-|[]]]; [contradiction|]. rewrite addc_diag by auto. auto.
Qed.

Lemma leaf_cell_ok : forall st D i j, 0 <= y < L -> 0 <= i < j -> j < n -> drep (prd D) st -> D i j = false -> D (i + 1) j = true -> D i i = true ->
  exists st', dq_leafCell A m y i j st = Ok st' /\ drep (prd (Dadd D i j)) st'.
Proof.
  intros [[sum info] q] D i j Hy Hi Hj (RS & RF & RQ) HD HD1 HD2. pose proof (wb_L m W) as HL. pose proof (wb_root_inner m W H2) as HR.
  unfold dq_leafCell.
  rewrite (mrepr_get (num A) _ _ _ _ y (i + 1) j RS) by lia. cbn [bind]. rewrite (mrepr_get (num A) _ _ _ _ y i i RS) by lia. cbn [bind].
  rewrite (prd_true D _ _ HD1), (prd_true D _ _ HD2), !acc_leaf_in, cs_diag by auto.
  change (n_add A (cs x (i + 1) j y) (x y i)) with (cs x (i + 1) j y + x y i)%R. rewrite cs_step by lia.
  destruct (mrepr_set (num A) _ _ _ _ y i j (cs x i j y) RS ltac:(lia) ltac:(lia) ltac:(lia)) as (s1 & E1 & R1). rewrite E1. cbn [bind].
  rewrite (mrepr_get (num A) _ _ _ _ y (i + 1) j RF) by lia. cbn [bind]. rewrite (mrepr_get (num A) _ _ _ _ y i i RF) by lia. cbn [bind].
  rewrite (prd_true D _ _ HD1), (prd_true D _ _ HD2), !acc_leaf_in, cs_diag by auto.
  change (n_add A (cs xl (i + 1) j y) (xlog2 (x y i))) with (cs xl (i + 1) j y + xl y i)%R. rewrite cs_step by lia.
  destruct (mrepr_set (num A) _ _ _ _ y i j (cs xl i j y) RF ltac:(lia) ltac:(lia) ltac:(lia)) as (f1 & E2 & R2). rewrite E2. cbn [bind].
  destruct (dq_update_ok s1 f1 q D (j - i + 1) i j ltac:(lia) ltac:(lia) Hj) as (q' & E3 & R3); auto.
  { rewrite (mrepr_get (num A) _ _ _ _ y i j R1) by lia. rewrite fupd3_same, (bsum_leaf m W) by auto. auto. }
  { rewrite (mrepr_get (num A) _ _ _ _ y i j R2) by lia. rewrite fupd3_same, (bsum_leaf m W) by auto. auto. }
  { rewrite (lv_leaf m W) by auto. unfold vlen. cbn [length]. lia. }
  rewrite E3. cbn [bind].
  destruct (parent_range m W y ltac:(lia) ltac:(lia)) as (Rp & _ & Dp).
  destruct (dq_toParent_ok (cs x i j y) (cs xl i j y) s1 f1 _ _ i j ltac:(lia) ltac:(lia) ltac:(lia) ltac:(lia) R1 R2) as (s2 & f2 & E4 & R4 & R5).
  { apply fupd3_same. } { apply fupd3_same. }
  rewrite E4. cbn [bind]. eexists; split; [reflexivity|]. split; [|split; [|exact R3]].
  - apply (mrepr_ext (num A) _ _ _ _ _ R4). intros h a b Hh Ha Hb.
    rewrite (fupd3_other (num A) _ y i j _ (parent ps y) i j) by lia.
    exact (leaf_cell_fun (cs x) D i j Hy HD h a b Hh).
  - apply (mrepr_ext (num A) _ _ _ _ _ R5). intros h a b Hh Ha Hb.
    rewrite (fupd3_other (num A) _ y i j _ (parent ps y) i j) by lia.
    exact (leaf_cell_fun (cs xl) D i j Hy HD h a b Hh).
Qed.

Lemma node_cell_fun : forall f D i j, L <= y < hsize -> y <> root -> D i j = false -> forall h a b, 0 <= h < hsize ->
  let S := fun h a b => acc m (f a b) (prd D a b) h in
  fupd3 S (parent ps y) i j (S (parent ps y) i j + S y i j)%R h a b = acc m (f a b) (prd (Dadd D i j) a b) h.
Proof.
  intros f D i j Hy Dr HD h a b Hh S. rewrite prd_add. unfold fupd3, S. rewrite (prd_false D i j HD).
  destruct ((a =? i) && (b =? j)) eqn:Eab; [|rewrite !andb_false_r; auto]. rewrite !andb_true_r.
  apply andb_true_iff in Eab. destruct Eab as [Ea Eb]. apply Z.eqb_eq in Ea, Eb. subst a b. rewrite (prd_false D i j HD).
  exact (acc_snoc_node m W (f i j) pre y post h E Hy Dr Hh).
Qed.

Lemma node_cell_ok : forall st D i j, L <= y < hsize -> y <> root -> 0 <= i <= j -> j < n -> drep (prd D) st -> D i j = false ->
  exists st', dq_nodeCell A m y i j st = Ok st' /\ drep (prd (Dadd D i j)) st'.
Proof.
  intros [[sum info] q] D i j Hy Dr Hi Hj (RS & RF & RQ) HD. pose proof (wb_L m W) as HL. unfold dq_nodeCell.
  destruct (dq_update_ok sum info q D ((j - i + 1) * m_sizeof m y) i j ltac:(lia) ltac:(lia) Hj) as (q' & E3 & R3); auto.
  { rewrite (mrepr_get (num A) _ _ _ _ y i j RS) by lia. rewrite (prd_false D i j HD). rewrite (acc_node m W _ pre y post E) by lia. auto. }
  { rewrite (mrepr_get (num A) _ _ _ _ y i j RF) by lia. rewrite (prd_false D i j HD). rewrite (acc_node m W _ pre y post E) by lia. auto. }
  { rewrite (size_leaves m W) by lia. auto. }
  rewrite E3. cbn [bind].
  destruct (dq_toParent_ok _ _ sum info _ _ i j ltac:(lia) Dr ltac:(lia) ltac:(lia) RS RF eq_refl eq_refl) as (s2 & f2 & E4 & R4 & R5).
  rewrite E4. cbn [bind]. eexists; split; [reflexivity|]. split; [|split; [|exact R3]].
  - apply (mrepr_ext (num A) _ _ _ _ _ R4). intros h a b Hh Ha Hb. exact (node_cell_fun (cs x) D i j Hy Dr HD h a b Hh).
  - apply (mrepr_ext (num A) _ _ _ _ _ R5). intros h a b Hh Ha Hb. exact (node_cell_fun (cs xl) D i j Hy Dr HD h a b Hh).
Qed.

Lemma acc_snoc_root : forall f h, y = root -> 0 <= h < hsize -> acc m f pre' h = acc m f pre h.
Proof.
  intros f h Er Hh. unfold acc. pose proof (wb_root_inner m W H2) as HR. destruct (Z.ltb_spec h L).
  - destruct (in_dec Z.eq_dec h pre) as [I|I], (in_dec Z.eq_dec h pre') as [J|J]; auto; exfalso.
    + apply J; apply in_or_app; auto.
    + apply in_app_or in J. destruct J as [J|[J|[]]]; auto; lia.
  - unfold chd. rewrite filter_app. cbn [filter].
    assert (Ep : parent ps y = -1) by (rewrite Er; apply (vt_rootp _ _ _ (wb_tree m W))). rewrite Ep.
    destruct (Z.eqb_spec (-1) h); [lia|]. rewrite app_nil_r. auto.
Qed.

Lemma root_cell_ok : forall st D i j, y = root -> 0 <= i <= j -> j < n -> drep (prd D) st -> D i j = false ->
  exists st', (let '(sum, info, q) := st in
               let* q := dq_update A sum info ((j - i + 1) * m_sizeof m y) y i j q in
               Ok (sum, info, q)) = Ok st' /\ drep (prd (Dadd D i j)) st'.
Proof.
  intros [[sum info] q] D i j Er Hi Hj (RS & RF & RQ) HD. pose proof (wb_L m W) as HL. pose proof (wb_root_inner m W H2) as HR.
  pose proof (root_node m W) as Hr.
  destruct (dq_update_ok sum info q D ((j - i + 1) * m_sizeof m y) i j ltac:(lia) ltac:(lia) Hj) as (q' & E3 & R3); auto.
  { rewrite (mrepr_get (num A) _ _ _ _ y i j RS) by lia. rewrite (prd_false D i j HD). rewrite (acc_node m W _ pre y post E) by lia. auto. }
  { rewrite (mrepr_get (num A) _ _ _ _ y i j RF) by lia. rewrite (prd_false D i j HD). rewrite (acc_node m W _ pre y post E) by lia. auto. }
  { rewrite (size_leaves m W) by lia. auto. }
  rewrite E3. cbn [bind]. eexists; split; [reflexivity|]. split; [|split; [|exact R3]].
  - apply (mrepr_ext (num A) _ _ _ _ _ RS). intros h a b Hh Ha Hb. rewrite prd_add. unfold prd.
    destruct ((a =? i) && (b =? j)); auto. destruct (D a b); auto. symmetry. apply acc_snoc_root; auto.
  - apply (mrepr_ext (num A) _ _ _ _ _ RF). intros h a b Hh Ha Hb. rewrite prd_add. unfold prd.
    destruct ((a =? i) && (b =? j)); auto. destruct (D a b); auto. symmetry. apply acc_snoc_root; auto.
Qed.

(** The loops over the cells: rows downwards, columns upwards. *)
Definition Drow (i j a b : Z) : bool := (i <? a) || ((a =? i) && (b <? j)).

Lemma Drow_out : forall i j, Drow i j i j = false.
Proof. intros. unfold Drow. rewrite !Z.ltb_irrefl, Z.eqb_refl. auto. Qed.
Lemma Drow_next : forall i j a b, a <= b -> Dadd (Drow i j) i j a b = Drow i (j + 1) a b.
Proof.
  intros i j a b Hab. unfold Dadd, Drow. destruct (Z.eqb_spec a i), (Z.eqb_spec b j), (Z.ltb_spec i a), (Z.ltb_spec b j), (Z.ltb_spec b (j + 1)); cbn; auto; lia.
Qed.
Lemma Drow_start : forall i a b, i <= n -> a <= b -> b < n -> Drow i i a b = Drow (i + 1) n a b.
Proof.
  intros i a b Hi Hab Hb. unfold Drow. destruct (Z.ltb_spec i a), (Z.eqb_spec a i), (Z.ltb_spec b i), (Z.ltb_spec (i + 1) a), (Z.eqb_spec a (i + 1)), (Z.ltb_spec b n); cbn; auto; lia.
Qed.

Lemma grid_ok : forall (cell : Z -> Z -> dq_state A -> res (dq_state A)) st,
  (forall st D i j, 0 <= i <= j -> j < n -> drep (prd D) st -> D i j = false -> exists st', cell i j st = Ok st' /\ drep (prd (Dadd D i j)) st') ->
  drep (fun _ _ => pre) st ->
  exists st', for_down n 0 (fun i st => for_up i n (cell i) st) st = Ok st' /\ drep (fun _ _ => pre') st'.
Proof.
  intros cell st Hc R.
  destruct (for_down_inv _ (fun i st => for_up i n (cell i) st) (fun i st => drep (prd (Drow i n)) st) n 0 st) as (st' & E1 & R1).
  - lia.
  - intros i s Hi R1. destruct (for_up_inv _ (cell i) (fun j st => drep (prd (Drow i j)) st) i n s) as (s' & E2 & R2).
    + lia.
    + intros j s1 Hj R2. destruct (Hc s1 (Drow i j) i j ltac:(lia) ltac:(lia) R2 (Drow_out i j)) as (s2 & E3 & R3). exists s2. split; auto.
      eapply drep_ext; [|exact R3]. intros a b Ha Hb. unfold prd. rewrite Drow_next by lia. auto.
    + eapply drep_ext; [|exact R1]. intros a b Ha Hb. unfold prd. rewrite Drow_start by lia. auto.
    + exists s'. auto.
  - eapply drep_ext; [|exact R]. intros a b Ha Hb. unfold prd, Drow. destruct (Z.ltb_spec n a), (Z.eqb_spec a n); cbn; auto; lia.
  - exists st'. split; auto. eapply drep_ext; [|exact R1]. intros a b Ha Hb. unfold prd, Drow.
    destruct (Z.ltb_spec 0 a), (Z.eqb_spec a 0), (Z.ltb_spec b n); cbn; auto; lia.
Qed.

Lemma dq_leaf_ok : forall st, 0 <= y < L -> drep (fun _ _ => pre) st ->
  exists st', dq_leaf A v m n k y st = Ok st' /\ drep (fun _ _ => pre') st'.
Proof.
  intros st Hy R. unfold dq_leaf.
  destruct (for_down_inv _ (dq_leafLine A v m n k y) (fun i st => drep (prd (Drow i n)) st) n 0 st) as (st' & E1 & R1).
  - lia.
  - intros i [[sum info] q] Hi R1. unfold dq_leafLine. destruct (Hrow y Hy) as [Er _]. rewrite Er. cbn [bind].
    assert (R1' : drep (prd (Drow i i)) (sum, info, q)).
    { eapply drep_ext; [|exact R1]. intros a b Ha Hb. unfold prd. rewrite Drow_start by lia. auto. }
    destruct (leaf_diag_ok sum info q (Drow i i) i (row y) Hy Hi R1' (Drow_out i i) eq_refl) as ([[s1 f1] q1] & E2 & R2).
    destruct (vget (row y) i) as [xx| |]; cbn [bind] in *; try discriminate.
    destruct (mm_set sum y i i xx) as [sa| |]; cbn [bind] in *; try discriminate.
    destruct (mm_set info y i i (entropyReduction A xx (n_zero A))) as [fa| |]; cbn [bind] in *; try discriminate.
    destruct (dq_toParent A m y i i sa fa) as [[s3 f3]| |]; cbn [bind] in *; try discriminate. inversion E2; subst s3 f3 q1.
    destruct (for_up_inv _ (dq_leafCell A m y i) (fun j st => drep (prd (Drow i j)) st) (i + 1) n (s1, f1, q)) as (s' & E3 & R3).
    + lia.
    + intros j s2 Hj R3.
      destruct (leaf_cell_ok s2 (Drow i j) i j Hy ltac:(lia) ltac:(lia) R3 (Drow_out i j)) as (s4 & E4 & R4).
      * unfold Drow. replace (i <? i + 1) with true by (symmetry; apply Z.ltb_lt; lia). auto.
      * unfold Drow. rewrite Z.eqb_refl. replace (i <? j) with true by (symmetry; apply Z.ltb_lt; lia). apply orb_true_r.
      * exists s4. split; auto. eapply drep_ext; [|exact R4]. intros a b Ha Hb. unfold prd. rewrite Drow_next by lia. auto.
    + eapply drep_ext; [|exact R2]. intros a b Ha Hb. unfold prd. rewrite Drow_next by lia. auto.
    + exists s'. auto.
  - eapply drep_ext; [|exact R]. intros a b Ha Hb. unfold prd, Drow. destruct (Z.ltb_spec n a), (Z.eqb_spec a n); cbn; auto; lia.
  - exists st'. split; auto. eapply drep_ext; [|exact R1]. intros a b Ha Hb. unfold prd, Drow.
    destruct (Z.ltb_spec 0 a), (Z.eqb_spec a 0), (Z.ltb_spec b n); cbn; auto; lia.
Qed.

Lemma dq_node_ok : forall st, L <= y < hsize -> y <> root -> drep (fun _ _ => pre) st ->
  exists st', dq_node A m n y st = Ok st' /\ drep (fun _ _ => pre') st'.
Proof.
  intros st Hy Dr R. unfold dq_node. apply (grid_ok (dq_nodeCell A m y)); auto.
  intros. apply node_cell_ok; auto.
Qed.

Lemma dq_root_ok : forall st, y = root -> drep (fun _ _ => pre) st ->
  exists st', dq_root A m n y st = Ok st' /\ drep (fun _ _ => pre') st'.
Proof.
  intros st Er R. unfold dq_root. 
  apply (grid_ok (fun i j st => let '(sum, info, q) := st in
                  let* q := dq_update A sum info ((j - i + 1) * m_sizeof m y) y i j q in
                  Ok (sum, info, q))); auto.
  intros. apply root_cell_ok; auto.
Qed.
End Y.

Lemma dq_component_ok : forall q, dv_osize v = n -> mrepr q hsize n Q0 ->
  exists q', dq_component A v m k q = Ok q' /\ mrepr q' hsize n (fun h a b => addc (Q0 h a b) h a b).
Proof.
  intros q Eo RQ. pose proof (wb_L m W) as HL. pose proof (wb_root_inner m W H2) as HR. pose proof (wb_split m W H2) as SP.
  unfold dq_component. rewrite Eo. rewrite (leaf_loop m W) by auto.
  destruct (mfold_prefix _ _ (dq_leaf A v m n k) (fun pre st => drep (fun _ _ => pre) st) (zrange 0 L) []
     (vrep hsize (u_new n (n_zero A)), vrep hsize (u_new n (n_zero A)), q)) as [st1 [E1 I1]].
  { intros pre y post st E _ I. cbn [app] in *. apply (dq_leaf_ok pre y (post ++ mid m ++ [root])); auto.
    - rewrite SP, E, <- app_assoc. reflexivity.
    - apply In_zrange. rewrite E. apply in_or_app; right; left; auto. }
  { assert (Z0 : forall f h, acc m f [] h = 0%R). { intros f h. unfold acc, chd. cbn. destruct (h <? L); auto. }
    split; [|split].
    - apply (mrepr_ext (num A) _ _ _ _ _ (mrepr_new (num A) hsize n 0%R ltac:(lia) ltac:(lia))). intros. rewrite Z0. auto.
    - apply (mrepr_ext (num A) _ _ _ _ _ (mrepr_new (num A) hsize n 0%R ltac:(lia) ltac:(lia))). intros. rewrite Z0. auto.
    - apply (mrepr_ext _ _ _ _ _ _ RQ). intros. unfold qcell. cbn. auto. }
  rewrite E1. cbn [bind fst]. rewrite (mid_loop m W) by auto. cbn [app] in I1.
  destruct (mfold_prefix _ _ (dq_node A m n) (fun pre st => drep (fun _ _ => pre) st) (mid m) (zrange 0 L) st1) as [st2 [E2 I2]].
  { intros pre y post s E Hl I.
    assert (Hy : In y (mid m)).
    { assert (K : exists mid1, pre = zrange 0 L ++ mid1 /\ mid m = mid1 ++ y :: post).
      { clear - E Hl. revert pre E Hl. generalize (zrange 0 L). induction l as [|a l IH]; intros pre E Hl; simpl in *.
        - exists pre; auto.
        - destruct pre as [|b pre]; simpl in *; [lia|]. inversion E; subst. destruct (IH pre H1 ltac:(lia)) as [m1 [-> Hm]].
          exists m1; auto. }
      destruct K as [m1 [_ ->]]. apply in_or_app; right; left; auto. }
    destruct (mid_inner m W y H2 Hy) as [Rr D].
    apply (dq_node_ok pre y (post ++ [root])); auto. rewrite SP, app_assoc, E, <- app_assoc. reflexivity. }
  { exact I1. }
  rewrite E2. cbn [bind fst snd].
  assert (SP2 : m_path m = (zrange 0 L ++ mid m) ++ root :: []) by (rewrite SP, <- app_assoc; auto).
  destruct (dq_root_ok _ root [] SP2 st2 eq_refl I2) as ([[s3 f3] q3] & E3 & (_ & _ & R3)). rewrite E3. cbn [bind snd].
  exists q3. split; auto. apply (mrepr_ext _ _ _ _ _ _ R3). intros h a b Hh Ha Hb. unfold qcell.
  destruct (in_dec Z.eq_dec h ((zrange 0 L ++ mid m) ++ [root])) as [|N]; auto. exfalso. apply (In_path m W) in Hh. rewrite SP2 in Hh. auto.
Qed.
End M.

(** The whole table. *)
Lemma ddata_len : forall P (v : dvalues (RP P)) comps, ddata_ok v comps -> Forall (fun c : list (list R) => vlen c = m_leaves (dv_meta v)) comps.
Proof.
  intros P v comps (Hv & Hn & W & H2 & Hc & Hl). pose proof (wb_L _ W) as HL.
  destruct (mmap_zrange (list (list R)) _ _ comps [] Hv Hc) as (Lc & K & Ec). apply Forall_forall. intros c Hin.
  rewrite Ec in Hin. apply in_map_iff in Hin. destruct Hin as (k & <- & Hk). apply In_zrange in Hk. specialize (K k Hk). cbn beta in K.
  destruct (mmap_zrange (list R) (fun h => dv_row v h k) (m_leaves (dv_meta v)) _ [] ltac:(lia) K) as (Ll & _). auto.
Qed.

Lemma d_compute_prf : forall P (v : dvalues (RP P)) comps, ddata_ok v comps ->
  exists t, dq_compute (RP P) (dq_ofValues (RP P) v) = Ok (mkDQ (RP P) (Some v) (Some t) (dv_meta v)) /\
    dtable t (dv_meta v) (dv_osize v) comps.
Proof.
  intros P v comps D. pose proof (ddata_len P v comps D) as CL. destruct D as (Hv & Hn & W & H2 & Hc & Hr). set (m := dv_meta v) in *. set (n := dv_osize v) in *.
  pose proof (wb_L m W) as HL.
  destruct (mmap_zrange (list (list R)) _ _ comps [] Hv Hc) as (Lc & K & Ec).
  pose (x := fun k h o => elt 0%R (elt [] (elt [] comps k) h) o).
  assert (Hx : forall k, 0 <= k < dv_vsize v -> forall h, 0 <= h < m_leaves m ->
    dv_row v h k = Ok (elt [] (elt [] comps k) h) /\ vlen (elt [] (elt [] comps k) h) = n).
  { intros k Hk h Hh. specialize (K k Hk). cbn beta in K.
    destruct (mmap_zrange (list R) (fun h => dv_row v h k) (m_leaves m) _ [] ltac:(lia) K) as (Ll & K2 & _). split; auto.
    assert (I1 : In (elt [] comps k) comps) by (unfold elt; apply nth_In; unfold vlen in Lc; lia).
    pose proof (proj1 (Forall_forall _ _) Hr _ I1) as F. apply (proj1 (Forall_forall _ _) F). unfold elt at 1. apply nth_In. unfold vlen in Ll; lia. }
  assert (Hcl : forall k h i j, 0 <= k < dv_vsize v -> 0 <= i <= j -> j < n ->
     cells m (x k) h i j = dcells m (elt [] comps k) h i j).
  { intros k h i j Hk Hi Hj. unfold cells, dcells. rewrite !flat_map_concat_map. f_equal. apply map_ext_in. intros y Hy.
    apply (lv_In m W) in Hy. destruct (Hx k Hk y ltac:(tauto)) as [_ E]. rewrite (slice_elt _ 0%R) by lia. auto. }
  unfold dq_compute, dq_ofValues, dq_computeTable. cbn [dq_values dq_meta]. fold m n.
  destruct (for_up_inv _ (dq_component (RP P) v m) (fun k t => mrepr t (m_hsize m) n
     (fun h i j => @mkQ (RP P) (Rsum (fun c => gain_of (dcells m (elt [] comps c) h i j)) (zrange 0 k))
                           (Rsum (fun c => loss_of (dcells m (elt [] comps c) h i j)) (zrange 0 k)))) 0 (dv_vsize v)
     (vrep (m_hsize m) (u_new n (q_zero (RP P))))) as (t & E & R).
  - auto.
  - intros k t Hk R.
    destruct (dq_component_ok P m W H2 n Hn v k (fun h => elt [] (elt [] comps k) h) (x k)) with (Q0 := fun h i j => @mkQ (RP P) (Rsum (fun c => gain_of (dcells m (elt [] comps c) h i j)) (zrange 0 k))
                           (Rsum (fun c => loss_of (dcells m (elt [] comps c) h i j)) (zrange 0 k))) (q := t) as (t' & E & R'); auto.
    { intros h Hh. destruct (Hx k Hk h Hh) as [E1 E2]. split; auto. split; auto. intros o Ho. apply (elt_vget Rdefinitions.R 0%R). lia. }
    exists t'. split; auto. eapply mrepr_ext; [exact R'|]. intros h i j Hh Hi Hj. cbv beta.
    rewrite (zrange_snoc 0 k) by lia. rewrite !Rsum_app, !Rsum_cons, !Rsum_nil, !Rplus_0_r.
    unfold addc, q_bump, q_addLoss, q_addGain. cbn [gain loss RP n_add]. rewrite Hcl by auto. auto.
  - eapply mrepr_ext; [apply mrepr_new; lia|]. intros h i j Hh Hi Hj. rewrite zrange_empty by lia. reflexivity.
  - rewrite E. cbn [bind]. exists t. split; auto. split; [apply R|]. split.
    + apply Forall_forall. intros u Hu. apply In_vget in Hu. destruct Hu as (h & Eh & Hh). rewrite (proj1 R) in Hh.
      destruct (proj2 R h Hh) as (u' & Eu & Ru). rewrite Eh in Eu. inversion Eu; subst u'. exact (repr_shape _ _ _ _ Ru).
    + intros h i j Hh Hi Hj. rewrite (mrepr_get _ _ _ _ _ h i j R) by auto. f_equal. unfold dgain, dloss.
      assert (G : forall f : list (list Rdefinitions.R) -> Rdefinitions.R, Rsum f comps = Rsum (fun i => f (elt [] comps i)) (zrange 0 (dv_vsize v))) by (intro f; rewrite Ec at 1; rewrite Rsum_map; auto).
      rewrite (G (fun c => gain_of (dcells m c h i j))), (G (fun c => loss_of (dcells m c h i j))). auto.
Qed.
