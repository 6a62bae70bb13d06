(** * DQualities::computeQualities over any arithmetic: the additions in the order of the code. *)
From Coq Require Import ZArith Lia Permutation Bool.
From Verif Require Import Base BaseFacts Arith Quality Utm UtmFacts UtmProofs Hierarchy SpecTree TreeFacts SpecParts Values Qualities
  TreePath CoverFacts OQual HQual HQualA.

Section M.
Context (A : arith) (m : meta).
Hypothesis W : well_built m.
Hypothesis H2 : 2 <= m_hsize m.
Notation quality := (quality A).
Notation num := (Arith.num A).
Notation zero := (n_zero A).
Notation add := (n_add A).
Notation ps := (m_parents m).
Notation L := (m_leaves m).
Notation hsize := (m_hsize m).
Notation root := (m_root m).
Notation lv := (leavesof L ps).
Variables (n : Z).
Hypothesis Hn : 1 <= n <= 65535.
Variables (v : dvalues A) (k : Z) (row : Z -> list num) (x : Z -> Z -> num).
Hypothesis Hrow : forall h, 0 <= h < L -> dv_row v h k = Ok (row h) /\ vrepr (row h) n (x h).
Notation xl := (fun h o => entropyReduction A (x h o) zero).

(** Sum of a leaf's slices i..j. *)
Definition csA (f : Z -> Z -> num) (i j h : Z) : num := rs A (f h) i j.
Lemma csA_diag : forall f i h, csA f i i h = f h i. Proof. intros. apply rs_diag. Qed.
Lemma csA_step : forall f i j h, i < j -> add (csA f (i + 1) j h) (f h i) = csA f i j h. Proof. intros. unfold csA. rewrite (rs_step A (f h) i j) by lia. reflexivity. Qed.

Variables (S F : Z -> Z -> Z -> num).
Hypothesis HS : forall i j, 0 <= i <= j -> j < n -> sums A m (csA x i j) (S i j).
Hypothesis HF : forall i j, 0 <= i <= j -> j < n -> sums A m (csA xl i j) (F i j).

Definition addcA (q : quality) (h i j : Z) : quality :=
  q_bump A q (entropyReduction A (S i j h) (F i j h)) (divergence A ((j - i + 1) * vlen (lv h)) (S i j h) (F i j h)).

Variable (Q0 : Z -> Z -> Z -> quality).

(** [pr a b]: the prefix of the path already processed for cell (a,b). *)
Definition donec (h a b : Z) : quality := if (h <? L) && (a =? b) then Q0 h a b else addcA (Q0 h a b) h a b.
Definition qcell (l : list Z) (h a b : Z) : quality := if in_dec Z.eq_dec h l then donec h a b else Q0 h a b.
Definition drep (pr : Z -> Z -> list Z) (st : dq_state A) : Prop :=
  let '(sum, info, q) := st in
  mrepr sum hsize n (fun h a b => facc A m (csA x a b) (S a b) (pr a b) h) /\
  mrepr info hsize n (fun h a b => facc A m (csA xl a b) (F a b) (pr a b) h) /\
  mrepr q hsize n (fun h a b => qcell (pr a b) h a b).

Lemma drep_ext : forall pr pr' st, (forall a b, 0 <= a <= b -> b < n -> pr a b = pr' a b) -> drep pr st -> drep pr' st.
Proof.
  intros pr pr' [[sum info] q] E (R1 & R2 & R3). repeat split; try apply R1; try apply R2; try apply R3;
  [apply (mrepr_ext num _ _ _ _ _ R1)|apply (mrepr_ext num _ _ _ _ _ R2)|apply (mrepr_ext _ _ _ _ _ _ R3)]; intros h a b Hh Ha Hb; rewrite E by auto; auto.
Qed.

Section Y.
Variables (pre : list Z) (y : Z) (post : list Z).
Hypothesis E : m_path m = pre ++ y :: post.
Notation pre' := (pre ++ [y]).
Definition prd (D : Z -> Z -> bool) (a b : Z) : list Z := if D a b then pre' else pre.
Definition Dadd (D : Z -> Z -> bool) (i j a b : Z) : bool := ((a =? i) && (b =? j)) || D a b.

Lemma prd_false : forall D i j, D i j = false -> prd D i j = pre. Proof. intros D i j H. unfold prd. rewrite H. auto. Qed.
Lemma prd_true : forall D i j, D i j = true -> prd D i j = pre'. Proof. intros D i j H. unfold prd. rewrite H. auto. Qed.
Lemma prd_add : forall D i j a b, prd (Dadd D i j) a b = if (a =? i) && (b =? j) then pre' else prd D a b.
Proof. intros. unfold prd, Dadd. destruct ((a =? i) && (b =? j)); auto. Qed.
Lemma In_pre' : In y pre'. Proof. apply in_or_app; right; left; auto. Qed.

Lemma facc_leaf_in : forall f S, 0 <= y < L -> facc A m f S pre' y = f y.
Proof.
  intros f S' Hy. unfold facc. replace (y <? L) with true by (symmetry; apply Z.ltb_lt; lia).
  destruct (in_dec Z.eq_dec y pre') as [|N]; auto. exfalso; apply N, In_pre'.
Qed.

(** Updating the quality of cell (y,i,j). *)
Lemma dq_update_ok : forall (sum info : list (utm num)) q D N i j, 0 <= y < hsize -> 0 <= i <= j -> j < n ->
  mm_get sum y i j = Ok (S i j y) -> mm_get info y i j = Ok (F i j y) ->
  mrepr q hsize n (fun h a b => qcell (prd D a b) h a b) -> D i j = false -> N = (j - i + 1) * vlen (lv y) -> ((y <? L) && (i =? j)) = false ->
  exists q', dq_update A sum info N y i j q = Ok q' /\ mrepr q' hsize n (fun h a b => qcell (prd (Dadd D i j) a b) h a b).
Proof.
  intros sum info q D N i j Hy Hi Hj ES EF RQ HD HN HB. unfold dq_update. rewrite ES, EF. cbn [bind].
  rewrite (mrepr_get _ _ _ _ _ y i j RQ) by auto. cbn [bind]. subst N. fold (addcA (qcell (prd D i j) y i j) y i j).
  destruct (mrepr_set _ _ _ _ _ y i j (addcA (qcell (prd D i j) y i j) y i j) RQ Hy Hi Hj) as (q' & E1 & R1).
  exists q'. split; auto. eapply mrepr_ext; [exact R1|]. intros h a b Hh Ha Hb. unfold fupd3. rewrite prd_add.
  pose proof (path_fresh m W pre y post E) as Fr.
  destruct ((a =? i) && (b =? j)) eqn:Eab; [|rewrite andb_false_r; auto].
  rewrite andb_true_r. apply andb_true_iff in Eab. destruct Eab as [Ea Eb]. apply Z.eqb_eq in Ea, Eb. subst a b.
  rewrite prd_false by auto. destruct (Z.eqb_spec h y) as [->|Dh].
  - unfold qcell. destruct (in_dec Z.eq_dec y pre); [contradiction|]. destruct (in_dec Z.eq_dec y pre') as [|N1]; [unfold donec; rewrite HB; auto|]. exfalso; apply N1, In_pre'.
  - unfold qcell. destruct (in_dec Z.eq_dec h pre) as [I|I], (in_dec Z.eq_dec h pre') as [J|J]; auto; exfalso.
    + apply J; apply in_or_app; auto.
    + apply in_app_or in J. destruct J as [J|[J|[]]]; auto.
Qed.

(** Adding cell (y,i,j) to the parent's. *)
Lemma dq_toParent_ok : forall f g sum info (S' F' : Z -> Z -> Z -> num) i j, 0 <= y < hsize -> y <> root -> 0 <= i <= j -> j < n ->
  mrepr sum hsize n S' -> mrepr info hsize n F' -> S' y i j = f -> F' y i j = g ->
  exists sum' info', dq_toParent A m y i j sum info = Ok (sum', info') /\
    mrepr sum' hsize n (fupd3 S' (parent ps y) i j (add (S' (parent ps y) i j) f)) /\
    mrepr info' hsize n (fupd3 F' (parent ps y) i j (add (F' (parent ps y) i j) g)).
Proof.
  intros f g sum info S' F' i j Hy D Hi Hj RS RF ES EF. pose proof (wb_L m W) as HL.
  destruct (parent_range m W y Hy D) as (Rp & Ep & Dp). unfold dq_toParent. rewrite Ep. cbn [bind].
  rewrite (mrepr_get num _ _ _ _ y i j RS) by auto. cbn [bind]. unfold mm_addto.
  rewrite (mrepr_get num _ _ _ _ (parent ps y) i j RS) by (auto; lia). cbn [bind].
  destruct (mrepr_set num _ _ _ _ (parent ps y) i j (add (S' (parent ps y) i j) f) RS ltac:(lia) Hi Hj) as (s1 & E1 & R1).
  rewrite ES. rewrite E1. cbn [bind].
  rewrite (mrepr_get num _ _ _ _ y i j RF) by auto. cbn [bind].
  rewrite (mrepr_get num _ _ _ _ (parent ps y) i j RF) by (auto; lia). cbn [bind].
  destruct (mrepr_set num _ _ _ _ (parent ps y) i j (add (F' (parent ps y) i j) g) RF ltac:(lia) Hi Hj) as (f1 & E2 & R2).
  rewrite EF. rewrite E2. cbn [bind].
  exists s1, f1. auto.
Qed.

(** Setting cell (y,i,j) of a leaf and adding it to the parent moves the cell to the prefix with y. *)
Lemma leaf_cell_fun : forall (f S' : Z -> Z -> Z -> num) D i j, sums A m (f i j) (S' i j) -> 0 <= y < L -> D i j = false -> forall h a b, 0 <= h < hsize ->
  let T := fun h a b => facc A m (f a b) (S' a b) (prd D a b) h in
  fupd3 (fupd3 T y i j (f i j y)) (parent ps y) i j (add (T (parent ps y) i j) (f i j y)) h a b =
  facc A m (f a b) (S' a b) (prd (Dadd D i j) a b) h.
Proof.
  intros f S' D i j HS' Hy HD h a b Hh T. rewrite prd_add. unfold fupd3, T. rewrite (prd_false D i j HD).
  destruct ((a =? i) && (b =? j)) eqn:Eab; [|rewrite !andb_false_r; auto]. rewrite !andb_true_r.
  apply andb_true_iff in Eab. destruct Eab as [Ea Eb]. apply Z.eqb_eq in Ea, Eb. subst a b. rewrite (prd_false D i j HD).
  exact (facc_snoc_leaf A m W H2 (f i j) (S' i j) HS' pre y post h E Hy Hh).
Qed.

Lemma leaf_diag_ok : forall sum info q D i r', 0 <= y < L -> 0 <= i < n -> drep (prd D) (sum, info, q) -> D i i = false ->
  r' = row y -> exists st', 
  (let* xx := vget r' i in
   let* sum := mm_set sum y i i xx in
   let* info := mm_set info y i i (entropyReduction A xx (n_zero A)) in
   let* si := dq_toParent A m y i i sum info in
   let '(sum, info) := si in Ok (sum, info, q)) = Ok st' /\ drep (prd (Dadd D i i)) st'.
Proof.
  intros sum info q D i r' Hy Hi (RS & RF & RQ) HD ->. pose proof (wb_L m W) as HL. pose proof (wb_root_inner m W H2) as HR.
  destruct (Hrow y Hy) as [_ Rr]. rewrite (vrepr_get num _ _ _ i Rr) by auto. cbn [bind].
  destruct (mrepr_set num _ _ _ _ y i i (x y i) RS ltac:(lia) ltac:(lia) ltac:(lia)) as (s1 & E1 & R1). rewrite E1. cbn [bind].
  destruct (mrepr_set num _ _ _ _ y i i (entropyReduction A (x y i) zero) RF ltac:(lia) ltac:(lia) ltac:(lia)) as (f1 & E2 & R2). rewrite E2. cbn [bind].
  destruct (parent_range m W y ltac:(lia) ltac:(lia)) as (Rp & _ & Dp).
  destruct (dq_toParent_ok (x y i) (entropyReduction A (x y i) zero) s1 f1 _ _ i i ltac:(lia) ltac:(lia) ltac:(lia) ltac:(lia) R1 R2) as (s2 & f2 & E3 & R3 & R4).
  { apply fupd3_same. } { apply fupd3_same. }
  rewrite E3. cbn [bind]. eexists; split; [reflexivity|]. split; [|split].
  - apply (mrepr_ext num _ _ _ _ _ R3). intros h a b Hh Ha Hb.
    rewrite (fupd3_other num _ y i i _ (parent ps y) i i) by lia.
    pose proof (leaf_cell_fun (csA x) S D i i (HS i i ltac:(lia) ltac:(lia)) Hy HD h a b Hh) as K. cbv zeta in K. rewrite csA_diag in K. exact K.
  - apply (mrepr_ext num _ _ _ _ _ R4). intros h a b Hh Ha Hb.
    rewrite (fupd3_other num _ y i i _ (parent ps y) i i) by lia.
    pose proof (leaf_cell_fun (csA xl) F D i i (HF i i ltac:(lia) ltac:(lia)) Hy HD h a b Hh) as K. cbv zeta in K. rewrite csA_diag in K. exact K.
  - eapply mrepr_ext; [exact RQ|]. intros h a b Hh Ha Hb. cbn beta. rewrite prd_add. destruct ((a =? i) && (b =? i)) eqn:Eab; auto.
    apply andb_true_iff in Eab. destruct Eab as [Ea Eb]. apply Z.eqb_eq in Ea, Eb. subst a b. rewrite (prd_false D i i HD).
    pose proof (path_fresh m W pre y post E) as Fr.
    unfold qcell. destruct (in_dec Z.eq_dec h pre) as [I|I], (in_dec Z.eq_dec h pre') as [J|J]; auto.
    + exfalso. apply J; apply in_or_app; auto.
    + apply in_app_or in J. destruct J as [J|[<-|[]]]; [contradiction|]. unfold donec. rewrite Z.eqb_refl. replace (y <? L) with true by (symmetry; apply Z.ltb_lt; lia). auto.
Qed.

Lemma leaf_cell_ok : forall st D i j, 0 <= y < L -> 0 <= i < j -> j < n -> drep (prd D) st -> D i j = false -> D (i + 1) j = true -> D i i = true ->
  exists st', dq_leafCell A m y i j st = Ok st' /\ drep (prd (Dadd D i j)) st'.
Proof.
  intros [[sum info] q] D i j Hy Hi Hj (RS & RF & RQ) HD HD1 HD2. pose proof (wb_L m W) as HL. pose proof (wb_root_inner m W H2) as HR.
  unfold dq_leafCell.
  rewrite (mrepr_get num _ _ _ _ y (i + 1) j RS) by lia. cbn [bind]. rewrite (mrepr_get num _ _ _ _ y i i RS) by lia. cbn [bind].
  rewrite (prd_true D _ _ HD1), (prd_true D _ _ HD2), !facc_leaf_in, csA_diag by auto.
  rewrite (csA_step x i j y) by lia.
  destruct (mrepr_set num _ _ _ _ y i j (csA x i j y) RS ltac:(lia) ltac:(lia) ltac:(lia)) as (s1 & E1 & R1). rewrite E1. cbn [bind].
  rewrite (mrepr_get num _ _ _ _ y (i + 1) j RF) by lia. cbn [bind]. rewrite (mrepr_get num _ _ _ _ y i i RF) by lia. cbn [bind].
  rewrite (prd_true D _ _ HD1), (prd_true D _ _ HD2), !facc_leaf_in, csA_diag by auto.
  rewrite (csA_step xl i j y) by lia.
  destruct (mrepr_set num _ _ _ _ y i j (csA xl i j y) RF ltac:(lia) ltac:(lia) ltac:(lia)) as (f1 & E2 & R2). rewrite E2. cbn [bind].
  destruct (dq_update_ok s1 f1 q D (j - i + 1) i j ltac:(lia) ltac:(lia) Hj) as (q' & E3 & R3); auto.
  { rewrite (mrepr_get num _ _ _ _ y i j R1) by lia. rewrite fupd3_same, (proj1 (HS i j ltac:(lia) ltac:(lia)) y Hy). auto. }
  { rewrite (mrepr_get num _ _ _ _ y i j R2) by lia. rewrite fupd3_same, (proj1 (HF i j ltac:(lia) ltac:(lia)) y Hy). auto. }
  { rewrite (lv_leaf m W) by auto. unfold vlen. cbn [length]. lia. }
  { replace (i =? j) with false by (symmetry; apply Z.eqb_neq; lia). apply andb_false_r. }
  rewrite E3. cbn [bind].
  destruct (parent_range m W y ltac:(lia) ltac:(lia)) as (Rp & _ & Dp).
  destruct (dq_toParent_ok (csA x i j y) (csA xl i j y) s1 f1 _ _ i j ltac:(lia) ltac:(lia) ltac:(lia) ltac:(lia) R1 R2) as (s2 & f2 & E4 & R4 & R5).
  { apply fupd3_same. } { apply fupd3_same. }
  rewrite E4. cbn [bind]. eexists; split; [reflexivity|]. split; [|split; [|exact R3]].
  - apply (mrepr_ext num _ _ _ _ _ R4). intros h a b Hh Ha Hb.
    rewrite (fupd3_other num _ y i j _ (parent ps y) i j) by lia.
    exact (leaf_cell_fun (csA x) S D i j (HS i j ltac:(lia) ltac:(lia)) Hy HD h a b Hh).
  - apply (mrepr_ext num _ _ _ _ _ R5). intros h a b Hh Ha Hb.
    rewrite (fupd3_other num _ y i j _ (parent ps y) i j) by lia.
    exact (leaf_cell_fun (csA xl) F D i j (HF i j ltac:(lia) ltac:(lia)) Hy HD h a b Hh).
Qed.

Lemma node_cell_fun : forall (f S' : Z -> Z -> Z -> num) D i j, sums A m (f i j) (S' i j) -> L <= y < hsize -> y <> root -> D i j = false -> forall h a b, 0 <= h < hsize ->
  let T := fun h a b => facc A m (f a b) (S' a b) (prd D a b) h in
  fupd3 T (parent ps y) i j (add (T (parent ps y) i j) (T y i j)) h a b = facc A m (f a b) (S' a b) (prd (Dadd D i j) a b) h.
Proof.
  intros f S' D i j HS' Hy Dr HD h a b Hh T. rewrite prd_add. unfold fupd3, T. rewrite (prd_false D i j HD).
  destruct ((a =? i) && (b =? j)) eqn:Eab; [|rewrite !andb_false_r; auto]. rewrite !andb_true_r.
  apply andb_true_iff in Eab. destruct Eab as [Ea Eb]. apply Z.eqb_eq in Ea, Eb. subst a b. rewrite (prd_false D i j HD).
  exact (facc_snoc_node A m W (f i j) (S' i j) HS' pre y post h E Hy Dr Hh).
Qed.

Lemma node_cell_ok : forall st D i j, L <= y < hsize -> y <> root -> 0 <= i <= j -> j < n -> drep (prd D) st -> D i j = false ->
  exists st', dq_nodeCell A m y i j st = Ok st' /\ drep (prd (Dadd D i j)) st'.
Proof.
  intros [[sum info] q] D i j Hy Dr Hi Hj (RS & RF & RQ) HD. pose proof (wb_L m W) as HL. unfold dq_nodeCell.
  destruct (dq_update_ok sum info q D ((j - i + 1) * m_sizeof m y) i j ltac:(lia) ltac:(lia) Hj) as (q' & E3 & R3); auto.
  { rewrite (mrepr_get num _ _ _ _ y i j RS) by lia. rewrite (prd_false D i j HD). rewrite (facc_node A m W _ _ (HS i j ltac:(lia) ltac:(lia)) pre y post E) by lia. auto. }
  { rewrite (mrepr_get num _ _ _ _ y i j RF) by lia. rewrite (prd_false D i j HD). rewrite (facc_node A m W _ _ (HF i j ltac:(lia) ltac:(lia)) pre y post E) by lia. auto. }
  { rewrite (size_leaves m W) by lia. auto. }
  { replace (y <? L) with false by (symmetry; apply Z.ltb_ge; lia). auto. }
  rewrite E3. cbn [bind].
  destruct (dq_toParent_ok _ _ sum info _ _ i j ltac:(lia) Dr ltac:(lia) ltac:(lia) RS RF eq_refl eq_refl) as (s2 & f2 & E4 & R4 & R5).
  rewrite E4. cbn [bind]. eexists; split; [reflexivity|]. split; [|split; [|exact R3]].
  - apply (mrepr_ext num _ _ _ _ _ R4). intros h a b Hh Ha Hb. exact (node_cell_fun (csA x) S D i j (HS i j ltac:(lia) ltac:(lia)) Hy Dr HD h a b Hh).
  - apply (mrepr_ext num _ _ _ _ _ R5). intros h a b Hh Ha Hb. exact (node_cell_fun (csA xl) F D i j (HF i j ltac:(lia) ltac:(lia)) Hy Dr HD h a b Hh).
Qed.

Lemma facc_snoc_root : forall f S' h, y = root -> 0 <= h < hsize -> facc A m f S' pre' h = facc A m f S' pre h.
Proof.
  intros f S' h Er Hh. unfold facc. pose proof (wb_root_inner m W H2) as HR. destruct (Z.ltb_spec h L).
  - destruct (in_dec Z.eq_dec h pre) as [I|I], (in_dec Z.eq_dec h pre') as [J|J]; auto; exfalso.
    + apply J; apply in_or_app; auto.
    + apply in_app_or in J. destruct J as [J|[J|[]]]; auto; lia.
  - unfold chd. rewrite filter_app. cbn [filter].
    assert (Ep : parent ps y = -1) by (rewrite Er; apply (vt_rootp _ _ _ (wb_tree m W))). rewrite Ep.
    destruct (Z.eqb_spec (-1) h); [lia|]. rewrite app_nil_r. auto.
Qed.

Lemma root_cell_ok : forall st D i j, y = root -> 0 <= i <= j -> j < n -> drep (prd D) st -> D i j = false ->
  exists st', (let '(sum, info, q) := st in
               let* q := dq_update A sum info ((j - i + 1) * m_sizeof m y) y i j q in
               Ok (sum, info, q)) = Ok st' /\ drep (prd (Dadd D i j)) st'.
Proof.
  intros [[sum info] q] D i j Er Hi Hj (RS & RF & RQ) HD. pose proof (wb_L m W) as HL. pose proof (wb_root_inner m W H2) as HR.
  pose proof (root_node m W) as Hr.
  destruct (dq_update_ok sum info q D ((j - i + 1) * m_sizeof m y) i j ltac:(lia) ltac:(lia) Hj) as (q' & E3 & R3); auto.
  { rewrite (mrepr_get num _ _ _ _ y i j RS) by lia. rewrite (prd_false D i j HD). rewrite (facc_node A m W _ _ (HS i j ltac:(lia) ltac:(lia)) pre y post E) by lia. auto. }
  { rewrite (mrepr_get num _ _ _ _ y i j RF) by lia. rewrite (prd_false D i j HD). rewrite (facc_node A m W _ _ (HF i j ltac:(lia) ltac:(lia)) pre y post E) by lia. auto. }
  { rewrite (size_leaves m W) by lia. auto. }
  { replace (y <? L) with false by (symmetry; apply Z.ltb_ge; lia). auto. }
  rewrite E3. cbn [bind]. eexists; split; [reflexivity|]. split; [|split; [|exact R3]].
  - apply (mrepr_ext num _ _ _ _ _ RS). intros h a b Hh Ha Hb. rewrite prd_add. unfold prd.
    destruct ((a =? i) && (b =? j)); auto. destruct (D a b); auto. symmetry. apply facc_snoc_root; auto.
  - apply (mrepr_ext num _ _ _ _ _ RF). intros h a b Hh Ha Hb. rewrite prd_add. unfold prd.
    destruct ((a =? i) && (b =? j)); auto. destruct (D a b); auto. symmetry. apply facc_snoc_root; auto.
Qed.

(** The loops over the cells: rows downwards, columns upwards. *)
Definition Drow (i j a b : Z) : bool := (i <? a) || ((a =? i) && (b <? j)).

Lemma Drow_out : forall i j, Drow i j i j = false.
Proof. intros. unfold Drow. rewrite !Z.ltb_irrefl, Z.eqb_refl. auto. Qed.
Lemma Drow_next : forall i j a b, a <= b -> Dadd (Drow i j) i j a b = Drow i (j + 1) a b.
Proof.
  intros i j a b Hab. unfold Dadd, Drow. destruct (Z.eqb_spec a i), (Z.eqb_spec b j), (Z.ltb_spec i a), (Z.ltb_spec b j), (Z.ltb_spec b (j + 1)); cbn; auto; lia.
Qed.
Lemma Drow_start : forall i a b, i <= n -> a <= b -> b < n -> Drow i i a b = Drow (i + 1) n a b.
Proof.
  intros i a b Hi Hab Hb. unfold Drow. destruct (Z.ltb_spec i a), (Z.eqb_spec a i), (Z.ltb_spec b i), (Z.ltb_spec (i + 1) a), (Z.eqb_spec a (i + 1)), (Z.ltb_spec b n); cbn; auto; lia.
Qed.

Lemma grid_ok : forall (cell : Z -> Z -> dq_state A -> res (dq_state A)) st,
  (forall st D i j, 0 <= i <= j -> j < n -> drep (prd D) st -> D i j = false -> exists st', cell i j st = Ok st' /\ drep (prd (Dadd D i j)) st') ->
  drep (fun _ _ => pre) st ->
  exists st', for_down n 0 (fun i st => for_up i n (cell i) st) st = Ok st' /\ drep (fun _ _ => pre') st'.
Proof.
  intros cell st Hc R.
  destruct (for_down_inv _ (fun i st => for_up i n (cell i) st) (fun i st => drep (prd (Drow i n)) st) n 0 st) as (st' & E1 & R1).
  - lia.
  - intros i s Hi R1. destruct (for_up_inv _ (cell i) (fun j st => drep (prd (Drow i j)) st) i n s) as (s' & E2 & R2).
    + lia.
    + intros j s1 Hj R2. destruct (Hc s1 (Drow i j) i j ltac:(lia) ltac:(lia) R2 (Drow_out i j)) as (s2 & E3 & R3). exists s2. split; auto.
      eapply drep_ext; [|exact R3]. intros a b Ha Hb. unfold prd. rewrite Drow_next by lia. auto.
    + eapply drep_ext; [|exact R1]. intros a b Ha Hb. unfold prd. rewrite Drow_start by lia. auto.
    + exists s'. auto.
  - eapply drep_ext; [|exact R]. intros a b Ha Hb. unfold prd, Drow. destruct (Z.ltb_spec n a), (Z.eqb_spec a n); cbn; auto; lia.
  - exists st'. split; auto. eapply drep_ext; [|exact R1]. intros a b Ha Hb. unfold prd, Drow.
    destruct (Z.ltb_spec 0 a), (Z.eqb_spec a 0), (Z.ltb_spec b n); cbn; auto; lia.
Qed.

Lemma dq_leaf_ok : forall st, 0 <= y < L -> drep (fun _ _ => pre) st ->
  exists st', dq_leaf A v m n k y st = Ok st' /\ drep (fun _ _ => pre') st'.
Proof.
  intros st Hy R. unfold dq_leaf.
  destruct (for_down_inv _ (dq_leafLine A v m n k y) (fun i st => drep (prd (Drow i n)) st) n 0 st) as (st' & E1 & R1).
  - lia.
  - intros i [[sum info] q] Hi R1. unfold dq_leafLine. destruct (Hrow y Hy) as [Er _]. rewrite Er. cbn [bind].
    assert (R1' : drep (prd (Drow i i)) (sum, info, q)).
    { eapply drep_ext; [|exact R1]. intros a b Ha Hb. unfold prd. rewrite Drow_start by lia. auto. }
    destruct (leaf_diag_ok sum info q (Drow i i) i (row y) Hy Hi R1' (Drow_out i i) eq_refl) as ([[s1 f1] q1] & E2 & R2).
    destruct (vget (row y) i) as [xx| |]; cbn [bind] in *; try discriminate.
    destruct (mm_set sum y i i xx) as [sa| |]; cbn [bind] in *; try discriminate.
    destruct (mm_set info y i i (entropyReduction A xx (n_zero A))) as [fa| |]; cbn [bind] in *; try discriminate.
    destruct (dq_toParent A m y i i sa fa) as [[s3 f3]| |]; cbn [bind] in *; try discriminate. inversion E2; subst s3 f3 q1.
    destruct (for_up_inv _ (dq_leafCell A m y i) (fun j st => drep (prd (Drow i j)) st) (i + 1) n (s1, f1, q)) as (s' & E3 & R3).
    + lia.
    + intros j s2 Hj R3.
      destruct (leaf_cell_ok s2 (Drow i j) i j Hy ltac:(lia) ltac:(lia) R3 (Drow_out i j)) as (s4 & E4 & R4).
      * unfold Drow. replace (i <? i + 1) with true by (symmetry; apply Z.ltb_lt; lia). auto.
      * unfold Drow. rewrite Z.eqb_refl. replace (i <? j) with true by (symmetry; apply Z.ltb_lt; lia). apply orb_true_r.
      * exists s4. split; auto. eapply drep_ext; [|exact R4]. intros a b Ha Hb. unfold prd. rewrite Drow_next by lia. auto.
    + eapply drep_ext; [|exact R2]. intros a b Ha Hb. unfold prd. rewrite Drow_next by lia. auto.
    + exists s'. auto.
  - eapply drep_ext; [|exact R]. intros a b Ha Hb. unfold prd, Drow. destruct (Z.ltb_spec n a), (Z.eqb_spec a n); cbn; auto; lia.
  - exists st'. split; auto. eapply drep_ext; [|exact R1]. intros a b Ha Hb. unfold prd, Drow.
    destruct (Z.ltb_spec 0 a), (Z.eqb_spec a 0), (Z.ltb_spec b n); cbn; auto; lia.
Qed.

Lemma dq_node_ok : forall st, L <= y < hsize -> y <> root -> drep (fun _ _ => pre) st ->
  exists st', dq_node A m n y st = Ok st' /\ drep (fun _ _ => pre') st'.
Proof.
  intros st Hy Dr R. unfold dq_node. apply (grid_ok (dq_nodeCell A m y)); auto.
  intros. apply node_cell_ok; auto.
Qed.

Lemma dq_root_ok : forall st, y = root -> drep (fun _ _ => pre) st ->
  exists st', dq_root A m n y st = Ok st' /\ drep (fun _ _ => pre') st'.
Proof.
  intros st Er R. unfold dq_root. 
  apply (grid_ok (fun i j st => let '(sum, info, q) := st in
                  let* q := dq_update A sum info ((j - i + 1) * m_sizeof m y) y i j q in
                  Ok (sum, info, q))); auto.
  intros. apply root_cell_ok; auto.
Qed.
End Y.

Lemma dq_component_ok : forall q, dv_osize v = n -> mrepr q hsize n Q0 ->
  exists q', dq_component A v m k q = Ok q' /\ mrepr q' hsize n donec.
Proof.
  intros q Eo RQ. pose proof (wb_L m W) as HL. pose proof (wb_root_inner m W H2) as HR. pose proof (wb_split m W H2) as SP.
  unfold dq_component. rewrite Eo. rewrite (leaf_loop m W) by auto.
  destruct (mfold_prefix _ _ (dq_leaf A v m n k) (fun pre st => drep (fun _ _ => pre) st) (zrange 0 L) []
     (vrep hsize (u_new n (n_zero A)), vrep hsize (u_new n (n_zero A)), q)) as [st1 [E1 I1]].
  { intros pre y post st E _ I. cbn [app] in *. apply (dq_leaf_ok pre y (post ++ mid m ++ [root])); auto.
    - rewrite SP, E, <- app_assoc. reflexivity.
    - apply In_zrange. rewrite E. apply in_or_app; right; left; auto. }
  { split; [|split].
    - apply (mrepr_ext num _ _ _ _ _ (mrepr_new num hsize n zero ltac:(lia) ltac:(lia))). intros. rewrite facc_nil. auto.
    - apply (mrepr_ext num _ _ _ _ _ (mrepr_new num hsize n zero ltac:(lia) ltac:(lia))). intros. rewrite facc_nil. auto.
    - apply (mrepr_ext _ _ _ _ _ _ RQ). intros. unfold qcell. cbn. auto. }
  rewrite E1. cbn [bind fst]. rewrite (mid_loop m W) by auto. cbn [app] in I1.
  destruct (mfold_prefix _ _ (dq_node A m n) (fun pre st => drep (fun _ _ => pre) st) (mid m) (zrange 0 L) st1) as [st2 [E2 I2]].
  { intros pre y post s E Hl I.
    assert (Hy : In y (mid m)).
    { assert (K : exists mid1, pre = zrange 0 L ++ mid1 /\ mid m = mid1 ++ y :: post).
      { clear - E Hl. revert pre E Hl. generalize (zrange 0 L). induction l as [|a l IH]; intros pre E Hl; simpl in *.
        - exists pre; auto.
        - destruct pre as [|b pre]; simpl in *; [lia|]. inversion E; subst. destruct (IH pre H1 ltac:(lia)) as [m1 [-> Hm]].
          exists m1; auto. }
      destruct K as [m1 [_ ->]]. apply in_or_app; right; left; auto. }
    destruct (mid_inner m W y H2 Hy) as [Rr D].
    apply (dq_node_ok pre y (post ++ [root])); auto. rewrite SP, app_assoc, E, <- app_assoc. reflexivity. }
  { exact I1. }
  rewrite E2. cbn [bind fst snd].
  assert (SP2 : m_path m = (zrange 0 L ++ mid m) ++ root :: []) by (rewrite SP, <- app_assoc; auto).
  destruct (dq_root_ok _ root [] SP2 st2 eq_refl I2) as ([[s3 f3] q3] & E3 & (_ & _ & R3)). rewrite E3. cbn [bind snd].
  exists q3. split; auto. apply (mrepr_ext _ _ _ _ _ _ R3). intros h a b Hh Ha Hb. unfold qcell.
  destruct (in_dec Z.eq_dec h ((zrange 0 L ++ mid m) ++ [root])) as [|N]; auto. exfalso. apply (In_path m W) in Hh. rewrite SP2 in Hh. auto.
Qed.
End M.

