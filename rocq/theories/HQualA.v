(** * HQualities::computeQualities over any arithmetic: the additions in the order of the code. *)
From Coq Require Import ZArith Lia Permutation.
From Verif Require Import Base BaseFacts Arith Quality Utm Hierarchy SpecTree TreeFacts SpecParts Values Qualities
  TreePath CoverFacts HQual.

Section M.
Context (A : arith) (m : meta).
Hypothesis W : well_built m.
Hypothesis H2 : 2 <= m_hsize m.
Notation quality := (quality A).
Notation num := (num A).
Notation zero := (n_zero A).
Notation add := (n_add A).
Notation ps := (m_parents m).
Notation L := (m_leaves m).
Notation hsize := (m_hsize m).
Notation root := (m_root m).
Notation kids := (kids m).

Definition fsum (l : list num) : num := fold_left add l zero.
Lemma fsum_snoc : forall l x, fsum (l ++ [x]) = add (fsum l) x.
Proof. intros. unfold fsum. rewrite fold_left_app. reflexivity. Qed.

(** [sums f S]: S is f on the leaves and the sum of the children's, from zero and in path order, on the other nodes. *)
Definition sums (f S : Z -> num) : Prop :=
  (forall h, 0 <= h < L -> S h = f h) /\ (forall h, L <= h < hsize -> S h = fsum (map S (kids h))).

(** Such sums exist. *)
Definition sstep (f S : Z -> num) (h : Z) : Z -> num := fupd S h (if h <? L then f h else fsum (map S (kids h))).

Lemma sstep_other : forall f l S h, ~ In h l -> fold_left (sstep f) l S h = S h.
Proof.
  intros f l. induction l as [|y l IH]; intros S h H; auto. cbn [fold_left]. rewrite IH by (intro K; apply H; right; auto).
  unfold sstep. apply fupd_other. intro E. apply H. left; auto.
Qed.

Definition tsum (f : Z -> num) : Z -> num := fold_left (sstep f) (m_path m) (fun _ => zero).

Lemma tsum_ok : forall f, sums f (tsum f).
Proof.
  intro f. unfold tsum.
  assert (K : forall h pre post, m_path m = pre ++ h :: post ->
     fold_left (sstep f) (m_path m) (fun _ => zero) h = if h <? L then f h else fsum (map (fold_left (sstep f) (m_path m) (fun _ => zero)) (kids h))).
  { intros h pre post E. pose proof (wb_nodup m W) as N. rewrite E in N.
    rewrite E at 1. rewrite fold_left_app. cbn [fold_left]. rewrite sstep_other.
    - unfold sstep at 1. rewrite fupd_same. destruct (h <? L); auto. f_equal. apply map_ext_in. intros c Hc.
      rewrite (kids_prefix m W pre h post E) in Hc. apply filter_In in Hc. destruct Hc as [Hc _].
      rewrite E, fold_left_app. symmetry. apply sstep_other. intro K.
      apply in_split in Hc. destruct Hc as (l1 & l2 & ->). rewrite <- app_assoc in N. cbn [app] in N. apply NoDup_remove_2 in N. apply N.
      apply in_or_app; right. apply in_or_app; right. auto.
    - apply NoDup_remove_2 in N. intro K. apply N. apply in_or_app; auto. }
  split; intros h Hh.
  - assert (I : In h (m_path m)) by (apply (In_path m W); pose proof (wb_L m W); lia). apply in_split in I. destruct I as (pre & post & E).
    rewrite (K h pre post E). replace (h <? L) with true by (symmetry; apply Z.ltb_lt; lia). auto.
  - assert (I : In h (m_path m)) by (apply (In_path m W); pose proof (wb_L m W); lia). apply in_split in I. destruct I as (pre & post & E).
    rewrite (K h pre post E). replace (h <? L) with false by (symmetry; apply Z.ltb_ge; lia). auto.
Qed.

(** The accumulator after processing [pre]. *)
Section S.
Variables (f S : Z -> num).
Hypothesis HS : sums f S.

Definition facc (pre : list Z) (h : Z) : num :=
  if h <? L then (if in_dec Z.eq_dec h pre then f h else zero) else fsum (map S (chd m pre h)).

Lemma facc_node : forall pre x post, m_path m = pre ++ x :: post -> L <= x < hsize -> facc pre x = S x.
Proof.
  intros pre x post E Hx. unfold facc. replace (x <? L) with false by (symmetry; apply Z.ltb_ge; lia).
  unfold chd. rewrite <- (kids_prefix m W pre x post E). symmetry. apply HS; auto.
Qed.

Lemma facc_nil : forall h, facc [] h = zero.
Proof. intro h. unfold facc, chd. cbn. destruct (h <? L); auto. Qed.

Lemma facc_snoc_leaf : forall pre x post h, m_path m = pre ++ x :: post -> 0 <= x < L -> 0 <= h < hsize ->
  fupd (fupd (facc pre) x (f x)) (parent ps x) (add (facc pre (parent ps x)) (f x)) h = facc (pre ++ [x]) h.
Proof.
  intros pre x post h E Hx Hh. pose proof (wb_L m W). pose proof (wb_root_inner m W H2).
  destruct (parent_range m W x ltac:(lia) ltac:(lia)) as (Rp & _ & _).
  unfold fupd. destruct (Z.eqb_spec h (parent ps x)) as [->|D1].
  - unfold facc. replace (parent ps x <? L) with false by (symmetry; apply Z.ltb_ge; lia).
    unfold chd. rewrite filter_app. cbn [filter]. rewrite Z.eqb_refl, map_app. cbn [map]. rewrite fsum_snoc, (proj1 HS x) by auto. auto.
  - destruct (Z.eqb_spec h x) as [->|D2].
    + unfold facc. replace (x <? L) with true by (symmetry; apply Z.ltb_lt; lia).
      destruct (in_dec Z.eq_dec x (pre ++ [x])) as [|N]; auto. exfalso; apply N; apply in_or_app; right; left; auto.
    + unfold facc. destruct (h <? L).
      * destruct (in_dec Z.eq_dec h pre) as [I|I], (in_dec Z.eq_dec h (pre ++ [x])) as [J|J]; auto; exfalso.
        -- apply J; apply in_or_app; auto.
        -- apply in_app_or in J. destruct J as [J|[J|[]]]; auto.
      * unfold chd. rewrite filter_app. cbn [filter]. destruct (Z.eqb_spec (parent ps x) h); [congruence|]. rewrite app_nil_r. auto.
Qed.

Lemma facc_snoc_node : forall pre x post h, m_path m = pre ++ x :: post -> L <= x < hsize -> x <> root -> 0 <= h < hsize ->
  fupd (facc pre) (parent ps x) (add (facc pre (parent ps x)) (facc pre x)) h = facc (pre ++ [x]) h.
Proof.
  intros pre x post h E Hx D Hh. pose proof (wb_L m W).
  destruct (parent_range m W x ltac:(lia) D) as (Rp & _ & _).
  rewrite (facc_node pre x post E Hx). unfold fupd. destruct (Z.eqb_spec h (parent ps x)) as [->|D1].
  - unfold facc. replace (parent ps x <? L) with false by (symmetry; apply Z.ltb_ge; lia).
    unfold chd. rewrite filter_app. cbn [filter]. rewrite Z.eqb_refl, map_app. cbn [map]. rewrite fsum_snoc. auto.
  - unfold facc. destruct (Z.ltb_spec h L).
    + destruct (in_dec Z.eq_dec h pre) as [I|I], (in_dec Z.eq_dec h (pre ++ [x])) as [J|J]; auto; exfalso.
      -- apply J; apply in_or_app; auto.
      -- apply in_app_or in J. destruct J as [J|[J|[]]]; auto; lia.
    + unfold chd. rewrite filter_app. cbn [filter]. destruct (Z.eqb_spec (parent ps x) h); [congruence|]. rewrite app_nil_r. auto.
Qed.
End S.

Variables (v : hvalues A) (k : Z) (x : Z -> num).
Hypothesis Hx : forall h, 0 <= h < L -> hv_value v h k = Ok (x h).
Notation xl := (fun h => entropyReduction A (x h) zero).
Variables (S F : Z -> num).
Hypothesis HS : sums x S.
Hypothesis HF : sums xl F.

Definition add_cellA (q : quality) (h : Z) : quality :=
  q_bump A q (entropyReduction A (S h) (F h)) (divergence A (m_sizeof m h) (S h) (F h)).

Variable (Q0 : Z -> quality).

Definition hqinvA (pre : list Z) (st : list num * list num * list quality) : Prop :=
  let '(sum, info, q) := st in
  vrepr sum hsize (facc x S pre) /\ vrepr info hsize (facc xl F pre) /\
  vrepr q hsize (fun h => if in_dec Z.eq_dec h pre then (if h <? L then Q0 h else add_cellA (Q0 h) h) else Q0 h).

Lemma hqA_leaf_ok : forall pre y post sum info, m_path m = pre ++ y :: post -> 0 <= y < L ->
  vrepr sum hsize (facc x S pre) -> vrepr info hsize (facc xl F pre) ->
  exists sum' info', hq_leaf A v m k y (sum, info) = Ok (sum', info') /\
    vrepr sum' hsize (facc x S (pre ++ [y])) /\ vrepr info' hsize (facc xl F (pre ++ [y])).
Proof.
  intros pre y post sum info E Hy RS RI. pose proof (wb_L m W) as HL. pose proof (wb_root_inner m W H2) as HR.
  destruct (parent_range m W y ltac:(lia) ltac:(lia)) as (Rp & Ep & _).
  unfold hq_leaf. rewrite Hx by auto. cbn [bind].
  destruct (vrepr_set num sum _ _ y (x y) RS ltac:(lia)) as (s1 & E1 & R1). rewrite E1. cbn [bind].
  rewrite Ep. cbn [bind]. rewrite (vrepr_get num _ _ _ (parent ps y) R1) by lia. cbn [bind].
  rewrite (vrepr_get num _ _ _ y R1) by lia. cbn [bind]. rewrite fupd_same. rewrite fupd_other by lia.
  destruct (vrepr_set num s1 _ _ (parent ps y) (add (facc x S pre (parent ps y)) (x y)) R1 ltac:(lia)) as (s2 & E2 & R2).
  rewrite E2. cbn [bind].
  assert (R2' : vrepr s2 hsize (facc x S (pre ++ [y]))).
  { eapply vrepr_ext; [exact R2|]. intros h Hh. apply (facc_snoc_leaf x S HS pre y post h E Hy Hh). }
  assert (Ey : facc x S (pre ++ [y]) y = x y).
  { rewrite <- (facc_snoc_leaf x S HS pre y post y E Hy) by lia. rewrite fupd_other by lia. apply fupd_same. }
  rewrite (vrepr_get num _ _ _ y R2') by lia. cbn [bind]. rewrite Ey.
  destruct (vrepr_set num info _ _ y (entropyReduction A (x y) zero) RI ltac:(lia)) as (f1 & F1 & T1). rewrite F1. cbn [bind].
  rewrite (vrepr_get num _ _ _ (parent ps y) T1) by lia. cbn [bind].
  rewrite (vrepr_get num _ _ _ y T1) by lia. cbn [bind]. rewrite fupd_same. rewrite fupd_other by lia.
  destruct (vrepr_set num f1 _ _ (parent ps y) (add (facc xl F pre (parent ps y)) (entropyReduction A (x y) zero)) T1 ltac:(lia)) as (f2 & F2 & T2).
  rewrite F2. cbn [bind].
  exists s2, f2. split; auto. split; auto.
  eapply vrepr_ext; [exact T2|]. intros h Hh. apply (facc_snoc_leaf xl F HF pre y post h E Hy Hh).
Qed.

Lemma hqA_update_ok : forall sum info q (S' F' : Z -> num) Q y, vrepr sum hsize S' -> vrepr info hsize F' -> vrepr q hsize Q -> 0 <= y < hsize ->
  S' y = S y -> F' y = F y ->
  exists q', hq_update A m sum info y q = Ok q' /\ vrepr q' hsize (fupd Q y (add_cellA (Q y) y)).
Proof.
  intros sum info q S' F' Q y RS RF RQ Hy ES EF. unfold hq_update.
  rewrite (vrepr_get num _ _ _ y RS) by lia. cbn [bind]. rewrite (vrepr_get num _ _ _ y RF) by lia. cbn [bind].
  rewrite (vrepr_get _ _ _ _ y RQ) by lia. cbn [bind]. rewrite ES, EF.
  apply vrepr_set; auto.
Qed.

Lemma hqA_node_ok : forall pre y post st, m_path m = pre ++ y :: post -> L <= y < hsize -> y <> root ->
  hqinvA pre st -> exists st', hq_node A m y st = Ok st' /\ hqinvA (pre ++ [y]) st'.
Proof.
  intros pre y post [[sum info] q] E Hy D (RS & RI & RQ). pose proof (wb_L m W) as HL.
  destruct (parent_range m W y ltac:(lia) D) as (Rp & Ep & Dp).
  unfold hq_node. rewrite Ep. cbn [bind].
  rewrite (vrepr_get num _ _ _ (parent ps y) RS) by lia. cbn [bind]. rewrite (vrepr_get num _ _ _ y RS) by lia. cbn [bind].
  destruct (vrepr_set num sum _ _ (parent ps y) (add (facc x S pre (parent ps y)) (facc x S pre y)) RS ltac:(lia)) as (s2 & E2 & R2).
  rewrite E2. cbn [bind].
  rewrite (vrepr_get num _ _ _ (parent ps y) RI) by lia. cbn [bind]. rewrite (vrepr_get num _ _ _ y RI) by lia. cbn [bind].
  destruct (vrepr_set num info _ _ (parent ps y) (add (facc xl F pre (parent ps y)) (facc xl F pre y)) RI ltac:(lia)) as (f2 & F2 & T2).
  rewrite F2. cbn [bind].
  destruct (hqA_update_ok s2 f2 q _ _ _ y R2 T2 RQ ltac:(lia)) as (q' & E3 & R3).
  { rewrite fupd_other by auto. apply (facc_node x S HS pre y post E); lia. }
  { rewrite fupd_other by auto. apply (facc_node xl F HF pre y post E); lia. }
  rewrite E3. cbn [bind]. eexists; split; [reflexivity|]. split; [|split].
  - eapply vrepr_ext; [exact R2|]. intros h Hh. apply (facc_snoc_node x S HS pre y post h E Hy D Hh).
  - eapply vrepr_ext; [exact T2|]. intros h Hh. apply (facc_snoc_node xl F HF pre y post h E Hy D Hh).
  - eapply vrepr_ext; [exact R3|]. intros h Hh. pose proof (path_fresh m W pre y post E) as N. unfold fupd.
    destruct (Z.eqb_spec h y) as [->|Dh].
    + destruct (in_dec Z.eq_dec y pre); [contradiction|]. destruct (in_dec Z.eq_dec y (pre ++ [y])) as [|K].
      * replace (y <? L) with false by (symmetry; apply Z.ltb_ge; lia). auto.
      * exfalso; apply K; apply in_or_app; right; left; auto.
    + destruct (in_dec Z.eq_dec h pre) as [I|I], (in_dec Z.eq_dec h (pre ++ [y])) as [J|J]; auto; exfalso.
      * apply J; apply in_or_app; auto.
      * apply in_app_or in J. destruct J as [J|[J|[]]]; auto.
Qed.

Lemma hqA_component_ok : forall q, vrepr q hsize Q0 ->
  exists q', hq_component A v m k q = Ok q' /\ vrepr q' hsize (fun h => if h <? L then Q0 h else add_cellA (Q0 h) h).
Proof.
  intros q RQ. pose proof (wb_L m W) as HL. pose proof (wb_root_inner m W H2) as HR. pose proof (wb_split m W H2) as SP.
  unfold hq_component. rewrite (leaf_loop m W) by auto.
  destruct (mfold_prefix _ _ (hq_leaf A v m k) (fun pre st => vrepr (fst st) hsize (facc x S pre) /\ vrepr (snd st) hsize (facc xl F pre)) (zrange 0 L) []
     (vrep hsize zero, vrep hsize zero)) as [[sum info] [E1 [I1 I1']]].
  { intros pre y post [sum info] E _ [I I']. cbn [app fst snd] in *.
    destruct (hqA_leaf_ok pre y (post ++ mid m ++ [root]) sum info) as (s' & f' & K1 & K2 & K3); auto.
    - rewrite SP, E, <- app_assoc. reflexivity.
    - apply In_zrange. rewrite E. apply in_or_app; right; left; auto.
    - exists (s', f'). auto. }
  { cbn [fst snd].
    split; (eapply vrepr_ext; [apply (vrepr_vrep num hsize zero); lia|]; intros; rewrite facc_nil; auto). }
  rewrite E1. cbn [bind]. rewrite (mid_loop m W) by auto. cbn [app fst snd] in I1, I1'.
  destruct (mfold_prefix _ _ (hq_node A m) hqinvA (mid m) (zrange 0 L) (sum, info, q)) as [[[s2 f2] q2] [E2 (J1 & J2 & J3)]].
  { intros pre y post s E Hl I.
    assert (Hy : In y (mid m)).
    { assert (K : exists mid1, pre = zrange 0 L ++ mid1 /\ mid m = mid1 ++ y :: post).
      { clear - E Hl. revert pre E Hl. generalize (zrange 0 L). induction l as [|a l IH]; intros pre E Hl; simpl in *.
        - exists pre; auto.
        - destruct pre as [|b pre]; simpl in *; [lia|]. inversion E; subst. destruct (IH pre H1 ltac:(lia)) as [m1 [-> Hm]].
          exists m1; auto. }
      destruct K as [m1 [_ ->]]. apply in_or_app; right; left; auto. }
    destruct (mid_inner m W y H2 Hy) as [R D].
    apply (hqA_node_ok pre y (post ++ [root]) s); auto. rewrite SP, app_assoc, E, <- app_assoc. reflexivity. }
  { split; [exact I1|split; [exact I1'|]]. eapply vrepr_ext; [exact RQ|]. intros h Hh. destruct (in_dec Z.eq_dec h (zrange 0 L)) as [I|I]; auto.
    apply In_zrange in I. replace (h <? L) with true by (symmetry; apply Z.ltb_lt; lia). auto. }
  rewrite E2. cbn [bind].
  assert (SP2 : m_path m = (zrange 0 L ++ mid m) ++ root :: []) by (rewrite SP, <- app_assoc; auto).
  pose proof (path_fresh m W _ _ _ SP2) as Nr. pose proof (root_node m W) as Rr.
  destruct (hqA_update_ok s2 f2 q2 _ _ _ root J1 J2 J3 Rr) as (q' & E3 & R3).
  { apply (facc_node x S HS _ root [] SP2); lia. } { apply (facc_node xl F HF _ root [] SP2); lia. }
  exists q'. split; auto. eapply vrepr_ext; [exact R3|]. intros h Hh. unfold fupd. destruct (Z.eqb_spec h root) as [->|D].
  - destruct (in_dec Z.eq_dec root (zrange 0 L ++ mid m)); [contradiction|]. replace (root <? L) with false by (symmetry; apply Z.ltb_ge; lia). auto.
  - destruct (in_dec Z.eq_dec h (zrange 0 L ++ mid m)) as [|N]; auto. exfalso. apply (In_path m W) in Hh. rewrite SP2 in Hh.
    apply in_app_or in Hh. destruct Hh as [|[K|[]]]; auto.
Qed.
End M.
