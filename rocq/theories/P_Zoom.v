(** * Property C98, ordered: zooming into an interval of time.

    [slice r a b] (SpecInfo): the values of slices [a..b]; [shift] (SpecZoom). The first two theorems hold in every arithmetic, in particular
    the code's own floating point, bit for bit. By C84 they cover the containers of every dimension. *)
From Coq Require Import Reals Lra Lia.
From Verif Require Import Base BaseFacts Arith Quality Utm UtmFacts UtmProofs Values Qualities Partitions Partitioners SpecParts SpecInfo SpecData SpecShape SpecZoom
  InfoFacts OQual OFacts OInfo DataFacts OReal OProofs ODataProofs LexR ZoomFacts.

(** The table of the interval is a part of the table of the whole. *)
Theorem C98_ordered_table : forall A (d : list (list (num A))) a b, rect2 d (size2 d) -> 0 <= a <= b -> b < size2 d <= 65535 ->
  exists t t', o_table A (ov2_of A d) = Ok (Some t) /\ o_table A (ov2_of A (map (fun r => slice r a b) d)) = Ok (Some t') /\
    forall i j, 0 <= i <= j -> j <= b - a -> exists q, u_get t' i j = Ok q /\ u_get t (a + i) (a + j) = Ok q.
Proof.
  intros A d a b Rd Ha Hb. destruct (zoom_table A d a b Rd Ha Hb) as (t & t' & q & E & E' & U & U'). exists t, t'. split; [exact E|]. split; [exact E'|].
  intros i j Hi Hj. exists (q (a + i) (a + j)). split; [apply (urepr_get _ _ _ _ i j U'); lia|apply (urepr_get _ _ _ _ (a + i) (a + j) U); lia].
Qed.
Print Assumptions C98_ordered_table.

Lemma zoom_shape : forall A (d : list (list (num A))) t, rect2 d (size2 d) -> size2 d <= 65535 -> o_table A (ov2_of A d) = Ok (Some t) -> exists q, urepr t (size2 d) q.
Proof.
  intros A d t Rd Hn Et. destruct (Z_le_gt_dec (size2 d) 0) as [N|N].
  - assert (S0 : size2 d = 0) by (destruct d; cbn in *; unfold vlen in *; lia).
    destruct (oq_table_ok A (ov2_of A d) (size2 d) (fun _ _ => n_zero A)) as (t0 & E0 & U0); [lia|reflexivity| | |].
    + intros k Hk. pose proof (proj2 (elt_repr _ [] d) k Hk) as Ek. exists (elt [] d k). split; [exact Ek|].
      assert (L : vlen (elt [] d k) = size2 d) by (apply (proj1 (Forall_forall _ _) Rd); eapply vget_In; exact Ek). split; [exact L|]. intros; lia.
    + apply Zle_0_nat.
    + unfold o_table, oq_compute, oq_ofValues in Et. cbn [oq_values] in Et. rewrite E0 in Et. cbn in Et. inversion Et; subst. eauto.
  - destruct (zoom_table A d 0 0 Rd ltac:(lia) ltac:(lia)) as (t0 & _ & q & E0 & _ & U & _). rewrite Et in E0. inversion E0; subst. eauto.
Qed.

(** Zooming into the slices from a cut on shows exactly the parts already shown there, with the same qualities. *)
Theorem C98_ordered_tail : forall A (d : list (list (num A))) a p t t' x x', rect2 d (size2 d) -> size2 d <= 65535 ->
  o_table A (ov2_of A d) = Ok (Some t) -> o_table A (ov2_of A (map (fun r => slice r a (size2 d - 1)) d)) = Ok (Some t') ->
  o_best A t p = Ok x -> o_best A t' p = Ok x' -> In a (map op_start (on_parts x)) ->
  map (fun y => (a + op_start y, a + op_end y, op_quality y)) (on_parts x') =
  map (fun y => (op_start y, op_end y, op_quality y)) (filter (fun y => a <=? op_start y) (on_parts x)).
Proof.
  intros A d a p t t' x x' Rd Hn Et Et' E E' Ia.
  assert (Hs : 0 <= a < size2 d).
  { destruct (zoom_shape A d t Rd Hn Et) as [q U]. destruct (o_best_ok A t _ _ p U) as (y & C & T & l & Ey & Ep & O & _). rewrite E in Ey. inversion Ey; subst y.
    rewrite Ep, map_map in Ia. apply in_map_iff in Ia. destruct Ia as ([i j] & <- & I). cbn. destruct (tiles_In _ _ _ (ochain_tiles _ _ _ _ O) i j I). lia. }
  destruct (zoom_table A d a (size2 d - 1) Rd ltac:(lia) ltac:(lia)) as (t0 & t0' & q & E0 & E0' & U & U'). rewrite Et in E0. rewrite Et' in E0'. inversion E0; inversion E0'; subst t0 t0'.
  replace (size2 d - 1 - a + 1) with (size2 d - a) in U' by lia.
  destruct (o_best_ok A t _ _ p U) as (y & C & T & l & Ey & Ep & O & _ & _ & _ & H). rewrite E in Ey. inversion Ey; subst y.
  destruct (o_best_ok A t' _ _ p U') as (y' & C' & T' & l' & Ey' & Ep' & O' & _ & _ & _ & H'). rewrite E' in Ey'. inversion Ey'; subst y'.
  pose proof (tables_shift A q p (size2 d) a ltac:(lia) C T C' T' H H') as K.
  rewrite Ep, map_map in Ia. cbn in Ia. destruct (ochain_from (size2 d) C 0 l O a Ia) as (pre & post & -> & Op & Lo & Hi).
  assert (Es : map (shift a) l' = post).
  { eapply (ochain_det (size2 d) C a); [|exact Op]. pose proof (ochain_shift (size2 d) a C C' 0 l' (fun i Hi' => proj1 (K i Hi')) ltac:(lia) O') as Q. rewrite Z.add_0_r in Q. exact Q. }
  rewrite Ep, Ep'. rewrite map_app, filter_app. 
  assert (F1 : filter (fun y => a <=? op_start y) (map (mkopart A q) pre) = []).
  { assert (Tp : forall ab, In ab pre -> fst ab <= snd ab).
    { intros [i j] Iab. destruct (tiles_In _ _ _ (ochain_tiles _ _ _ _ O) i j (in_or_app _ _ _ (or_introl Iab))). cbn. lia. }
    clear - Lo Tp. induction pre as [|ab pre IH]; [reflexivity|]. cbn [map filter]. pose proof (Lo ab (or_introl eq_refl)). pose proof (Tp ab (or_introl eq_refl)).
    unfold mkopart at 1. cbn [op_start]. replace (a <=? fst ab) with false by (symmetry; apply Z.leb_gt; lia). apply IH; intros; [apply Lo|apply Tp]; right; assumption. }
  assert (F2 : filter (fun y => a <=? op_start y) (map (mkopart A q) post) = map (mkopart A q) post).
  { clear - Hi. induction post as [|ab post IH]; [reflexivity|]. cbn [map filter]. pose proof (Hi ab (or_introl eq_refl)). unfold mkopart at 1. cbn [op_start].
    replace (a <=? fst ab) with true by (symmetry; apply Z.leb_le; lia). f_equal. apply IH. intros; apply Hi; right; assumption. }
  rewrite F1, F2. cbn [app]. rewrite !map_map, <- Es, map_map. apply map_ext. intros [i j]. reflexivity.
Qed.
Print Assumptions C98_ordered_tail.

(** Between two cuts: what is shown there is as good as what an analysis of the interval shows, value, gain and loss. *)
Lemma no_better_antisym : forall a b G L G' L', no_better a b G L G' L' -> no_better a b G' L' G L -> G = G' /\ L = L'.
Proof. unfold no_better. intros. split; lra. Qed.

Theorem C98_ordered_interval : forall P (d : list (list R)) a b p t t' x x', rect2 d (size2 d) -> size2 d <= 65535 ->
  o_table (RP P) (ov2_of (RP P) d) = Ok (Some t) -> o_table (RP P) (ov2_of (RP P) (map (fun r => slice r a b) d)) = Ok (Some t') ->
  o_best (RP P) t p = Ok x -> o_best (RP P) t' p = Ok x' -> a <= b -> In a (map op_start (on_parts x)) -> In b (map op_end (on_parts x)) ->
  let shown := filter (fun y => (a <=? op_start y) && (op_end y <=? b)) (on_parts x) in
  gain (on_quality x') = Rsum (fun y : opart (RP P) => gain (op_quality y)) shown /\ loss (on_quality x') = Rsum (fun y : opart (RP P) => loss (op_quality y)) shown.
Proof.
  intros P d a b p t t' x x' Rd Hn Et Et' E E' Hab Ia Ib shown.
  remember (size2 d) as n eqn:Esz. assert (Esz' : n = @size2 (num (RP P)) d) by exact Esz.
  destruct (zoom_shape (RP P) d t ltac:(rewrite <- Esz'; exact Rd) ltac:(rewrite <- Esz'; exact Hn) Et) as [q0 U0]. rewrite <- Esz' in U0. destruct (o_best_ok (RP P) t _ _ p U0) as (y & C & T & l & Ey & Ep & O & _). rewrite E in Ey. inversion Ey; subst y.
  pose proof (ochain_tiles _ _ _ _ O) as Tl. rewrite Ep, map_map in Ia, Ib. cbn in Ia, Ib.
  assert (Ha : 0 <= a /\ b < n).
  { apply in_map_iff in Ia. destruct Ia as ([i j] & <- & I). apply in_map_iff in Ib. destruct Ib as ([i' j'] & <- & I'). cbn [fst snd]. destruct (tiles_In _ _ _ Tl i j I), (tiles_In _ _ _ Tl i' j' I').  lia. }
  destruct (tiles_from _ _ _ Tl a Ia) as (pre & rest & -> & T1 & T2).
  assert (Ib' : In b (map snd rest)).
  { rewrite map_app in Ib. apply in_app_or in Ib. destruct Ib as [Ib|Ib]; [|exact Ib]. exfalso. apply in_map_iff in Ib. destruct Ib as ([i j] & Eb & I). cbn in Eb. destruct (tiles_In _ _ _ T1 i j I). lia. }
  destruct (tiles_to _ _ _ T2 b Ib') as (mid & post & -> & T3 & T4).
  destruct (zoom_table (RP P) d a b ltac:(rewrite <- Esz'; exact Rd) ltac:(lia) ltac:(rewrite <- Esz'; lia)) as (t1 & t1' & q & E1 & E1' & U & U'). rewrite <- Esz' in U. assert (X1 : t1 = t) by (assert (Ok (Some t) = Ok (Some t1)) as X by exact (eq_trans (eq_sym Et) E1); inversion X; reflexivity).
  assert (X2 : t1' = t') by (assert (Ok (Some t') = Ok (Some t1')) as X by exact (eq_trans (eq_sym Et') E1'); inversion X; reflexivity). subst t1 t1'. clear E1 E1'.
  assert (Eq : forall i j, 0 <= i <= j -> j < n -> q0 i j = q i j).
  { intros i j Hi Hj. pose proof (urepr_get _ _ _ _ i j U0 Hi Hj) as X. rewrite (urepr_get _ _ _ _ i j U Hi Hj) in X. inversion X. reflexivity. }
  set (G := fun ab : Z * Z => gain (q (fst ab) (snd ab))). set (Ls := fun ab : Z * Z => loss (q (fst ab) (snd ab))).
  assert (Mk : forall (n : Z) (tb : utm (quality (RP P))) f, urepr tb n f -> urepr tb n (fun i j => @mkQ (RP P) (gain (f i j)) (loss (f i j)))).
  { intros n0 tb f Hf. eapply urepr_ext; [exact Hf|]. intros i j _ _. cbn beta. destruct (f i j). reflexivity. }
  (* the parts shown *)
  assert (Sh : shown = map (mkopart (RP P) q) mid).
  { unfold shown. rewrite Ep, !map_app, !filter_app.
    assert (Out : forall l0, (forall ab, In ab l0 -> fst ab <= snd ab /\ (snd ab < a \/ b < fst ab)) -> filter (fun y => (a <=? op_start y) && (op_end y <=? b)) (map (mkopart (RP P) q0) l0) = []).
    { induction l0 as [|ab l0 IH]; intro Ho; [reflexivity|]. cbn [map filter]. destruct (Ho ab (or_introl eq_refl)) as [Q1 Q2]. change (op_start (mkopart (RP P) q0 ab)) with (fst ab). change (op_end (mkopart (RP P) q0 ab)) with (snd ab).
      replace ((a <=? fst ab) && (snd ab <=? b)) with false by (symmetry; apply andb_false_iff; destruct Q2; [left|right]; apply Z.leb_gt; lia). apply IH. intros; apply Ho; right; assumption. }
    rewrite (Out pre), (Out post).
    - rewrite app_nil_r. cbn [app]. assert (In' : forall ab, In ab mid -> a <= fst ab <= snd ab /\ snd ab <= b) by (intros [i j] I; destruct (tiles_In _ _ _ T3 i j I); cbn; lia).
      clear - In' Eq Ha. induction mid as [|ab mid IH]; [reflexivity|]. cbn [map filter]. destruct (In' ab (or_introl eq_refl)) as [Q1 Q2]. change (op_start (mkopart (RP P) q0 ab)) with (fst ab). change (op_end (mkopart (RP P) q0 ab)) with (snd ab).
      replace ((a <=? fst ab) && (snd ab <=? b)) with true by (symmetry; apply andb_true_iff; split; apply Z.leb_le; lia). f_equal; [|apply IH; intros; apply In'; right; assumption].
      unfold mkopart. rewrite Eq by lia. reflexivity.
    - intros [i j] I. destruct (tiles_In _ _ _ T4 i j I). cbn. lia.
    - intros [i j] I. destruct (tiles_In _ _ _ T1 i j I). cbn. lia. }
  rewrite Sh, !Rsum_map. cbn [op_quality mkopart].
  assert (SG : forall l0, Rsum (fun ab => gain (op_quality (mkopart (RP P) q ab))) l0 = Rsum G l0 /\ Rsum (fun ab => loss (op_quality (mkopart (RP P) q ab))) l0 = Rsum Ls l0) by (intro; split; reflexivity).
  destruct (o_total P t n _ _ p x ltac:(lia) (Mk _ _ _ U) E) as (Tx & Gx & Lx). destruct (o_total P t' (b - a + 1) _ _ p x' ltac:(lia) (Mk _ _ _ U') E') as (Tx' & Gx' & Lx').
  assert (Ox : ocoords x = pre ++ mid ++ post) by (unfold ocoords; rewrite Ep, coords_mkopart; reflexivity).
  assert (T3' : exists mid', mid = map (shift a) mid' /\ tiles 0 (b - a + 1) mid').
  { exists (map (shift (- a)) mid). split.
    - rewrite map_map. rewrite <- (map_id mid) at 1. apply map_ext. intros [i j]. unfold shift. cbn. f_equal; lia.
    - pose proof (tiles_shift (- a) _ _ _ T3) as X. replace (- a + a) with 0 in X by lia. replace (- a + (b + 1)) with (b - a + 1) in X by lia. exact X. }
  destruct T3' as (mid' & Em & Tm).
  pose proof (o_no_better P t' (b - a + 1) _ _ p x' mid' ltac:(lia) (Mk _ _ _ U') E' Tm) as N1.
  assert (Tn : tiles 0 n (pre ++ map (shift a) (ocoords x') ++ post)).
  { eapply tiles_app; [exact T1|]. eapply tiles_app; [|exact T4]. pose proof (tiles_shift a _ _ _ Tx') as X. rewrite Z.add_0_r in X. replace (a + (b - a + 1)) with (b + 1) in X by lia. exact X. }
  pose proof (o_no_better P t n _ _ p x _ ltac:(lia) (Mk _ _ _ U) E Tn) as N2.
  rewrite Gx, Lx, Ox in N2. rewrite !Rsum_app in N2. rewrite !Rsum_map in N2.
  assert (R1 : forall F : Z * Z -> R, Rsum F mid = Rsum (fun ab => F (shift a ab)) mid') by (intro F; rewrite Em, Rsum_map; reflexivity).
  apply (no_better_antisym (pp_num P p) (pp_num P (pp_compl P p))).
  - rewrite !R1. exact N1.
  - rewrite Gx', Lx'. clear - N2. unfold no_better in *. cbn beta in *. unfold shift in N2. cbn [fst snd] in *. unfold num in *. cbn [RP] in *. lra.
Qed.
Print Assumptions C98_ordered_interval.
