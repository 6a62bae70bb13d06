(** * Proofs for C43, C44, C45. *)
From Coq Require Import Lia.
From Verif Require Import Base BaseFacts Arith Quality Utm Hierarchy Values Partitions Aggregation SpecTree SpecParts SpecData
  TreeFacts TreePath HierarchyProofs CoverFacts SpecValues ValuesFacts ValuesProofs SpecAgg.

Lemma mfold_seqsum : forall A X (f : X -> res (num A)) g l acc, (forall x, In x l -> f x = Ok (g x)) ->
  mfold (fun x acc => let* y := f x in Ok (n_add A acc y)) l acc = Ok (fold_left (n_add A) (map g l) acc).
Proof.
  intros A X f g l. induction l as [|x l IH]; intros acc H; cbn [mfold map fold_left]; auto.
  rewrite H by (left; auto). cbn [bind]. apply IH. intros; apply H; right; auto.
Qed.

(** A loop over calls that succeed or run forever, at least one of them forever. *)
Lemma mfold_fuel : forall A X (f : X -> res (num A)) l acc, (forall x, In x l -> f x = OutOfFuel \/ exists y, f x = Ok y) ->
  (exists x, In x l /\ f x = OutOfFuel) -> mfold (fun x acc => let* y := f x in Ok (n_add A acc y)) l acc = OutOfFuel.
Proof.
  intros A X f l. induction l as [|x l IH]; intros acc H (z & Hz & E); [destruct Hz|]. cbn [mfold].
  destruct (H x ltac:(left; auto)) as [E'|[y E']]; rewrite E'; cbn [bind]; auto.
  apply IH; [intros; apply H; right; auto|]. destruct Hz as [->|Hz]; [congruence|]. eauto.
Qed.

Lemma mmap_fuel : forall X Y (f : X -> res Y) l, (forall x, In x l -> f x = OutOfFuel \/ exists y, f x = Ok y) ->
  (exists x, In x l /\ f x = OutOfFuel) -> mmap f l = OutOfFuel.
Proof.
  intros X Y f l. induction l as [|x l IH]; intros H (z & Hz & E); [destruct Hz|]. cbn [mmap].
  destruct (H x ltac:(left; auto)) as [E'|[y E']]; rewrite E'; cbn [bind]; auto.
  rewrite IH; auto; [intros; apply H; right; auto|]. destruct Hz as [->|Hz]; [congruence|]. eauto.
Qed.

Lemma mmap_ok_or_fuel : forall X Y (f : X -> res Y) l, (forall x, In x l -> f x = OutOfFuel \/ exists y, f x = Ok y) ->
  mmap f l = OutOfFuel \/ exists y, mmap f l = Ok y.
Proof.
  intros X Y f l. induction l as [|x l IH]; intros H; cbn [mmap]; [eauto|].
  destruct (H x ltac:(left; auto)) as [E'|[y E']]; rewrite E'; cbn [bind]; auto.
  destruct IH as [E|[ys E]]; [intros; apply H; right; auto| |]; rewrite E; cbn [bind]; eauto.
Qed.

Lemma bind_ok_or_fuel : forall X Y (e : res X) (k : X -> res Y), (e = OutOfFuel \/ exists x, e = Ok x) ->
  (forall x, k x = OutOfFuel \/ exists y, k x = Ok y) -> (let* x := e in k x) = OutOfFuel \/ exists y, (let* x := e in k x) = Ok y.
Proof. intros X Y e k [->|[x ->]] H; cbn [bind]; auto. Qed.

Section M.
Context (A : arith).

(** ** Ordered *)
Lemma oa_cell : forall (v : ovalues A) I J K (q : opart A) a b c, ov_shaped v I J K -> 0 <= op_start q -> op_end q < ov_osize v ->
  0 <= a < I -> 0 <= b < J -> 0 <= c < K ->
  (let* s := oa_sum A (op_start q) (op_end q) (fun o => ov_get v a b c o) in Ok (s, mean A s (op_size q))) =
  Ok (sum_mean A (osum v (op_start q) (op_end q) a b c) (op_size q)).
Proof.
  intros v I J K q a b c Sh H0 H1 Ha Hb Hc. unfold oa_sum, for_up. erewrite mfold_seqsum; [reflexivity|].
  intros o Ho. apply In_zrange in Ho. destruct (ov_get_ok A v I J K a b c o) as [x E]; auto; [lia|]. unfold ov_at. rewrite E. reflexivity.
Qed.

Definition in_slices (n : Z) (x : opartition A) : Prop := forall q, In q (on_parts x) -> 0 <= op_start q /\ op_end q < n.

Lemma oagg_prf : forall (v : ovalues A) I J K x, ov_shaped v I J K -> in_slices (ov_osize v) x ->
  let cell q a b c := sum_mean A (osum v (op_start q) (op_end q) a b c) (op_size q) in
  (ov_dim v = 1 -> oagg1 A x v = Ok (map (fun q => cell q 0 0 0) (on_parts x))) /\
  (ov_dim v = 2 -> oagg2 A x v = Ok (map (fun q => map (fun a => cell q a 0 0) (zrange 0 I)) (on_parts x))) /\
  (ov_dim v = 3 -> oagg3 A x v = Ok (map (fun q => map (fun a => map (fun b => cell q a b 0) (zrange 0 J)) (zrange 0 I)) (on_parts x))) /\
  (ov_dim v = 4 -> oagg4 A x v = Ok (map (fun q => map (fun a => map (fun b => map (fun c => cell q a b c) (zrange 0 K)) (zrange 0 J)) (zrange 0 I)) (on_parts x))).
Proof.
  intros v I J K x Sh Hx cell. pose proof Sh as (_ & _ & _ & _ & HV & Hd). unfold ov_dim.
  split; [|split; [|split]]; intro D; destruct (ov_data v) as [d|d|i j d|i j k d] eqn:ED; try discriminate; clear D.
  - destruct Hd as (-> & -> & -> & _). unfold oagg1. apply mmap_map. intros q Hq. destruct (Hx q Hq). unfold oa1.
    eapply (oa_cell v 1 1 1); eauto; lia.
  - destruct Hd as (-> & -> & _). unfold oagg2. apply mmap_map. intros q Hq. destruct (Hx q Hq). unfold oa2.
    rewrite HV. replace (I * 1 * 1) with I by lia. apply mmap_map. intros a Ha. apply In_zrange in Ha. eapply (oa_cell v I 1 1); eauto; lia.
  - destruct Hd as (-> & -> & -> & _). unfold oagg3. apply mmap_map. intros q Hq. destruct (Hx q Hq). unfold oa3, ov_I, ov_J. rewrite ED.
    apply mmap_map. intros a Ha. apply In_zrange in Ha. apply mmap_map. intros b Hb. apply In_zrange in Hb. eapply (oa_cell v I J 1); eauto; lia.
  - destruct Hd as (-> & -> & -> & _). unfold oagg4. apply mmap_map. intros q Hq. destruct (Hx q Hq). unfold oa4, ov_I, ov_J, ov_K. rewrite ED.
    apply mmap_map. intros a Ha. apply In_zrange in Ha. apply mmap_map. intros b Hb. apply In_zrange in Hb.
    apply mmap_map. intros c Hc. apply In_zrange in Hc. eapply (oa_cell v I J K); eauto; lia.
Qed.

(** ** subSum *)
Section W.
Context (m : meta).
Hypothesis W : well_built m.
Hypothesis H2 : 2 <= m_hsize m.
Notation ps := (m_parents m).
Notation L := (m_leaves m).
Notation hsize := (m_hsize m).
Notation root := (m_root m).
Notation kids := (kids m).

Lemma sub_leaf : forall fuel h f, 0 <= h < L -> sub_sum A (Datatypes.S fuel) m h f root = Ok (n_zero A).
Proof.
  intros fuel h f Hh. cbn [sub_sum]. pose proof (wb_root_inner m W H2). pose proof (wb_L m W).
  destruct (Z.ltb_spec root L); [lia|]. rewrite (kids_children m W h) by lia. cbn [bind]. rewrite (kids_leaf m W h Hh). reflexivity.
Qed.

Lemma shallow_kids : forall h, 0 <= h < hsize -> (shallow m h <-> forall c, In c (kids h) -> c < L).
Proof.
  intros h Hh. split; intros H c.
  - intro Hc. apply (kids_In m W) in Hc. destruct Hc. apply H; auto. apply (wb_node_iff m W); auto.
  - intros Hn Hp. apply H. apply (kids_In m W). split; auto. apply (wb_node_iff m W); auto.
Qed.

Lemma shallow_leaves : forall h, L <= h < hsize -> shallow m h -> kids h = leavesof L ps h.
Proof.
  intros h Hh Sh. pose proof (wb_L m W). assert (Sh' := proj1 (shallow_kids h ltac:(lia)) Sh). clear Sh. rename Sh' into Sh. unfold leavesof.
  assert (K := wb_split m W H2). unfold TreePath.kids in *. rewrite K in *. rewrite filter_app.
  assert (E : filter (fun c => parent ps c =? h) (mid m ++ [root]) = []).
  { match goal with |- ?l = [] => destruct l as [|c r] eqn:E; auto end. exfalso.
    assert (Hc : In c (filter (fun c => parent ps c =? h) (mid m ++ [root]))) by (rewrite E; left; auto).
    assert (In c (filter (fun c => parent ps c =? h) (zrange 0 L ++ mid m ++ [root]))) by (rewrite filter_app; apply in_or_app; auto).
    apply Sh in H0. apply filter_In in Hc. destruct Hc as [Hc _]. apply in_app_or in Hc. destruct Hc as [Hc|[Hc|[]]].
    - apply (mid_inner m W) in Hc; auto. lia.
    - pose proof (wb_root_inner m W H2). lia. }
  rewrite E, app_nil_r. apply filter_ext_in. intros x Hx. apply In_zrange in Hx.
  destruct (wb_rank m W) as [rank Hr]. assert (N : node ps x) by (apply (wb_node_iff m W); lia).
  pose proof (belowb_true ps rank Hr x h N) as B. destruct (Z.eqb_spec (parent ps x) h) as [P|P].
  - symmetry. apply B. apply below_up; [lia|]. rewrite P. constructor.
  - symmetry. destruct (belowb ps x h) eqn:EB; auto. exfalso. apply P. assert (Bx := proj1 B eq_refl).
    destruct (below_kid m W x h ltac:(lia) Bx ltac:(lia)) as (c & Hc & Bc).
    assert (c < L) by (apply Sh; unfold TreePath.kids in Hc; rewrite K in Hc; exact Hc).
    assert (Hc' := proj1 (kids_In m W h c) Hc). destruct Hc' as [Hc1 Hc2].
    assert (x = c); [|subst; auto].
    assert (In x (leavesof L ps c)) by (apply (lv_In m W); split; auto). rewrite (lv_leaf m W) in H1 by lia. destruct H1 as [|[]]; auto.
Qed.

Lemma sub_shallow : forall fuel h f g, L <= h < hsize -> shallow m h -> (forall x, leaf L x -> f x = Ok (g x)) ->
  sub_sum A (Datatypes.S (Datatypes.S fuel)) m h f root = Ok (seqsum A (map g (leavesof L ps h))).
Proof.
  intros fuel h f g Hh Sh Hf. assert (K := shallow_leaves h Hh Sh). rewrite <- K. remember (Datatypes.S fuel) as F eqn:EF. cbn [sub_sum].
  pose proof (wb_root_inner m W H2). pose proof (wb_L m W).
  destruct (Z.ltb_spec root L); [lia|]. rewrite (kids_children m W h) by lia. cbn [bind].
  apply mfold_seqsum. intros x Hx. rewrite K in Hx. apply (lv_In m W) in Hx. destruct Hx as [Hx _]. subst F. cbn [sub_sum].
  destruct (Z.ltb_spec x L); [|lia]. apply Hf; auto.
Qed.

Lemma sub_deep : forall fuel h f n, 0 <= h < hsize -> ~ shallow m h -> (forall x, leaf L x -> exists y, f x = Ok y) -> L <= n ->
  sub_sum A fuel m h f n = OutOfFuel.
Proof.
  intros fuel h f n Hh Sh Hf. assert (exists c, In c (kids h) /\ L <= c) as (c & Hc & Lc).
  { destruct (existsb (fun c => L <=? c) (kids h)) eqn:E.
    - apply existsb_exists in E. destruct E as (c & Hc & E). exists c. split; auto. lia.
    - exfalso. apply Sh. apply (proj2 (shallow_kids h Hh)). intros c Hc. apply Z.nle_gt. intro G.
      assert (existsb (fun c => L <=? c) (kids h) = true) by (apply existsb_exists; exists c; split; auto; lia). congruence. }
  revert n. induction fuel as [|fuel IH]; intros n Hn; [reflexivity|]. cbn [sub_sum].
  destruct (Z.ltb_spec n L); [lia|]. rewrite (kids_children m W h) by lia. cbn [bind]. apply mfold_fuel.
  - intros x Hx. destruct (Z_lt_le_dec x L) as [Hl|Hl]; [|left; apply IH; auto].
    destruct fuel; [left; reflexivity|]. right. cbn [sub_sum]. destruct (Z.ltb_spec x L); [|lia]. apply Hf.
    apply (kids_In m W) in Hx. unfold leaf. lia.
  - exists c. split; auto.
Qed.

(** What compute() finds for one component of one part. *)
Definition reported (h : Z) (g : Z -> num A) : num A := if h <? L then n_zero A else seqsum A (map g (leavesof L ps h)).

Lemma sub_reported : forall fuel h f g, 0 <= h < hsize -> shallow m h -> (forall x, leaf L x -> f x = Ok (g x)) ->
  sub_sum A (Datatypes.S (Datatypes.S fuel)) m h f root = Ok (reported h g).
Proof.
  intros fuel h f g Hh Sh Hf. unfold reported. destruct (Z.ltb_spec h L).
  - apply sub_leaf. lia.
  - apply sub_shallow; auto. lia.
Qed.

Lemma shallow_dec : forall h, 0 <= h < hsize -> shallow m h \/ ~ shallow m h.
Proof.
  intros h Hh. destruct (existsb (fun c => L <=? c) (kids h)) eqn:E.
  - right. intro Sh.
    apply existsb_exists in E. destruct E as (c & Hc & E). pose proof (proj1 (shallow_kids h Hh) Sh c Hc). lia.
  - left. apply (proj2 (shallow_kids h Hh)). intros c Hc. apply Z.nle_gt. intro G.
    assert (existsb (fun c => L <=? c) (kids h) = true) by (apply existsb_exists; exists c; split; auto; lia). congruence.
Qed.

Lemma root_deep_ok : forall fuel h f, 0 <= h < hsize -> (forall x, leaf L x -> exists y, f x = Ok y) ->
  sub_sum A fuel m h f root = OutOfFuel \/ exists y, sub_sum A fuel m h f root = Ok y.
Proof.
  intros fuel h f Hh Hf. destruct (shallow_dec h Hh) as [Sh|Sh].
  - destruct fuel as [|[|fuel]]; [left; reflexivity| |].
    + cbn [sub_sum]. pose proof (wb_root_inner m W H2). destruct (Z.ltb_spec root L); [lia|].
      rewrite (kids_children m W h) by lia. cbn [bind]. destruct (kids h) as [|c l]; [right; cbn; eauto|left; reflexivity].
    + right. set (g := fun x => match f x with Ok y => y | _ => n_zero A end). exists (reported h g). apply sub_reported; auto.
      intros x Hx. unfold g. destruct (Hf x Hx) as [y ->]. reflexivity.
  - left. apply sub_deep; auto. apply (wb_root_inner m W H2).
Qed.
End W.
End M.
