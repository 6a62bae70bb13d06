(** * Facts about melt, aggregate and omacro. *)
From Coq Require Import Lia Permutation Reals Lra.
From Verif Require Import Base BaseFacts Arith RApi SpecR SpecTree SpecParts SpecMacro InfoFacts RHelpers.

(** ** aggregate *)
Section Agg.
Context {X K : Type} (dec : forall a b : K, {a = b} + {a <> b}) (key : X -> K) (value : X -> R) (f : list R -> R).

Definition sel (k : K) (rows : list X) : list X := filter (fun x => if dec (key x) k then true else false) rows.

Lemma In_sel : forall k rows x, In x (sel k rows) <-> In x rows /\ key x = k.
Proof. intros. unfold sel. rewrite filter_In. destruct (dec (key x) k); split; intros [? ?]; split; auto; discriminate. Qed.

Lemma aggregate_ok : forall rows, rows <> [] -> exists a, aggregate dec key value f rows = Ok a /\ NoDup (map fst a) /\
  forall k v, In (k, v) a <-> (exists x, In x rows /\ key x = k) /\ v = f (map value (sel k rows)).
Proof.
  intros rows H. unfold aggregate. destruct rows as [|x0 rows0]; [congruence|]. remember (x0 :: rows0) as rows. clear Heqrows H x0 rows0.
  eexists. split; [reflexivity|]. split.
  - rewrite map_map. cbn [fst]. rewrite map_id. apply NoDup_nodup.
  - intros k v. rewrite in_map_iff. split.
    + intros (k' & E & I). injection E as -> <-. apply nodup_In, in_map_iff in I. destruct I as (x & Ex & Ix). split; eauto.
    + intros ((x & Ix & Ex) & ->). exists k. split; auto. apply nodup_In, in_map_iff. eauto.
Qed.

Lemma aggregate_nil : aggregate dec key value f [] = UB.
Proof. reflexivity. Qed.
End Agg.

Lemma NoDup_fst_pairs : forall X Y (l : list (X * Y)), NoDup (map fst l) -> NoDup l.
Proof. intros. eapply NoDup_map_inv; eauto. Qed.

Lemma NoDup_app2 : forall X (u v : list X), NoDup u -> NoDup v -> (forall x, In x u -> ~ In x v) -> NoDup (u ++ v).
Proof.
  intros X u v N N' D. induction N as [|x u Hx N IH]; cbn; auto. constructor.
  - rewrite in_app_iff. intros [J|J]; [contradiction|]. apply (D x (or_introl eq_refl) J).
  - apply IH. intros y Y. apply D. right; auto.
Qed.

Lemma NoDup_list_prod : forall X Y (l : list X) (l' : list Y), NoDup l -> NoDup l' -> NoDup (list_prod l l').
Proof.
  intros X Y l l' N N'. induction N as [|x l Hx N IH]; cbn [list_prod]; [constructor|]. apply NoDup_app2; auto.
  - apply FinFun.Injective_map_NoDup; auto. intros a b E. injection E; auto.
  - intros [a b] I J. apply in_map_iff in I. destruct I as (y & E & _). injection E as <- <-. apply in_prod_iff in J. tauto.
Qed.

Lemma filter_map_swap : forall X Y (F : X -> Y) (g : Y -> bool) l, filter g (map F l) = map F (filter (fun x => g (F x)) l).
Proof. intros X Y F g l. induction l as [|x l IH]; cbn; auto. destruct (g (F x)); cbn; rewrite IH; auto. Qed.

(** ** melt *)
Definition cells (d0 d1 d2 : Z) : list (Z * Z * Z) := list_prod (list_prod (upto d2) (upto d1)) (upto d0).

Lemma In_upto : forall d i, In i (upto d) <-> 1 <= i <= d.
Proof. intros. unfold upto. rewrite In_zrange. lia. Qed.

Lemma In_cells : forall d0 d1 d2 k j i, In (k, j, i) (cells d0 d1 d2) <-> 1 <= i <= d0 /\ 1 <= j <= d1 /\ 1 <= k <= d2.
Proof. intros. unfold cells. rewrite !in_prod_iff, !In_upto. tauto. Qed.

Lemma NoDup_cells : forall d0 d1 d2, NoDup (cells d0 d1 d2).
Proof. intros. unfold cells, upto. repeat apply NoDup_list_prod; apply NoDup_zrange. Qed.

Lemma r_at_ok : forall (micro : rarray RA) d0 d1 d2 i j k, r_cube micro d0 d1 d2 -> 1 <= i <= d0 -> 1 <= j <= d1 -> 1 <= k <= d2 ->
  r_at micro i j k = Ok (r_val micro i j k).
Proof.
  intros micro d0 d1 d2 i j k (E & H0 & H1 & H2 & Hl) Hi Hj Hk. unfold r_val, r_at. rewrite E.
  destruct (vget_ok _ (ra_data micro) (i - 1 + (j - 1) * d0 + (k - 1) * (d0 * d1))) as [x Ex]; [rewrite Hl; nia|]. rewrite Ex. reflexivity.
Qed.

Lemma melt_prf : forall (micro : rarray RA) d0 d1 d2, r_cube micro d0 d1 d2 ->
  r_melt micro = Ok (map (fun '(k, j, i) => (i, j, k, r_val micro i j k)) (cells d0 d1 d2)).
Proof.
  intros micro d0 d1 d2 C. unfold r_melt. rewrite (proj1 C). apply mmap_map. intros [[k j] i] I. change (In (k, j, i) (cells d0 d1 d2)) in I.
  apply In_cells in I. rewrite (r_at_ok micro d0 d1 d2) by tauto. reflexivity.
Qed.

Lemma fold_map : forall X Y (f : X -> Y -> Y) l d, fold_left (fun d x => map (f x) d) l d = map (fun w => fold_left (fun w x => f x w) l w) d.
Proof.
  intros X Y f l. induction l as [|x l IH]; intro d; cbn [fold_left]; [symmetry; apply map_id|]. rewrite IH, map_map. reflexivity.
Qed.

(** ** Marks *)
Lemma tiles_bounds : forall a n l s e, tiles a n l -> In (s, e) l -> a <= s /\ s <= e < n.
Proof. intros a n l s e T. induction T as [|a e' n l H T IH]; intros I; [destruct I|]. destruct I as [I|I]; [injection I as <- <-; lia|]. specialize (IH I). lia. Qed.

Lemma tiles_unique : forall a n l k s e s' e', tiles a n l -> In (s, e) l -> In (s', e') l -> s <= k <= e -> s' <= k <= e' -> (s, e) = (s', e').
Proof.
  intros a n l k s e s' e' T. induction T as [|a e0 n l H T IH]; intros I I' K K'; [destruct I|].
  destruct I as [I|I], I' as [I'|I'].
  - congruence.
  - injection I as <- <-. pose proof (tiles_bounds _ _ _ _ _ T I'). lia.
  - injection I' as <- <-. pose proof (tiles_bounds _ _ _ _ _ T I). lia.
  - auto.
Qed.

Lemma tiles_find : forall a n l k, tiles a n l -> a <= k < n -> exists s e, In (s, e) l /\ s <= k <= e.
Proof.
  intros a n l k T. induction T as [|a e n l H T IH]; intro K; [lia|].
  destruct (Z_le_gt_dec k e). { exists a, e. split; [left; auto|lia]. }
  destruct IH as (s & e' & I & J); [lia|]. exists s, e'. split; [right; auto|auto].
Qed.

Lemma tiles_NoDup : forall a n l, tiles a n l -> NoDup l.
Proof.
  intros a n l T. induction T as [|a e n l H T IH]; constructor; auto. intro I. pose proof (tiles_bounds _ _ _ _ _ T I). lia.
Qed.

Lemma mark_fold : forall l w, ow_space (fold_left (fun w x => om_mark x w) l w) = ow_space w /\ ow_type (fold_left (fun w x => om_mark x w) l w) = ow_type w /\
  ow_time (fold_left (fun w x => om_mark x w) l w) = ow_time w /\ ow_value (fold_left (fun w x => om_mark x w) l w) = ow_value w.
Proof.
  induction l as [|x l IH]; intro w; cbn [fold_left]; auto. destruct (IH (om_mark x w)) as (-> & -> & -> & ->).
  unfold om_mark. destruct (_ && _); auto.
Qed.

Lemma mark_out : forall l w, (forall s e, In (s, e) l -> ~ (s <= ow_time w <= e)) -> fold_left (fun w x => om_mark x w) l w = w.
Proof.
  induction l as [|[s e] l IH]; intros w H; cbn [fold_left]; auto.
  assert (E : om_mark (s, e) w = w).
  { unfold om_mark. cbn [fst snd]. pose proof (H s e (or_introl eq_refl)).
    destruct (Z.leb_spec s (ow_time w)), (Z.leb_spec (ow_time w) e); cbn; auto. lia. }
  rewrite E. apply IH. intros; apply H; right; auto.
Qed.

Lemma mark_tiles : forall a n l w, tiles a n l -> a <= ow_time w < n ->
  exists s e, In (s, e) l /\ s <= ow_time w <= e /\
    fold_left (fun w x => om_mark x w) l w = mkOW (ow_space w) (ow_type w) (ow_time w) (ow_value w) s e.
Proof.
  intros a n l w T. induction T as [|a e n l H T IH]; intro K; [lia|]. cbn [fold_left].
  destruct (Z_le_gt_dec (ow_time w) e).
  - exists a, e. split; [left; auto|]. split; [lia|].
    assert (E : om_mark (a, e) w = mkOW (ow_space w) (ow_type w) (ow_time w) (ow_value w) a e).
    { unfold om_mark. cbn [fst snd]. destruct (Z.leb_spec a (ow_time w)), (Z.leb_spec (ow_time w) e); try lia. reflexivity. }
    rewrite E. apply mark_out. cbn [ow_time]. intros s e' I J. pose proof (tiles_bounds _ _ _ _ _ T I). lia.
  - assert (E : om_mark (a, e) w = w).
    { unfold om_mark. cbn [fst snd]. destruct (Z.leb_spec a (ow_time w)), (Z.leb_spec (ow_time w) e); cbn; auto; lia. }
    rewrite E. destruct IH as (s & e' & I & J & F); [lia|]. exists s, e'. split; [right; auto|auto].
Qed.

(** ** omacro *)
Lemma omacro_prf : forall (df : list (R * (Z * Z * R * R))) micro p d0 d1 d2, r_cube micro d0 d1 d2 ->
  tiles 1 (d2 + 1) (map (fun '(s, e, _, _) => (s, e)) (rows_at RA p df)) ->
  exists agg, r_omacro df micro p = Ok agg /\ NoDup (map fst agg) /\
    forall i j s e v, In (i, j, s, e, v) agg <->
      1 <= i <= d0 /\ 1 <= j <= d1 /\ In (s, e) (map (fun '(s, e, _, _) => (s, e)) (rows_at RA p df)) /\ v = mean_over (fun k => r_val micro i j k) s e.
Proof.
  intros df micro p d0 d1 d2 C T. unfold r_omacro. rewrite (melt_prf micro d0 d1 d2 C). cbn [bind].
  set (rows := rows_at RA p df) in *. set (parts := map (fun '(s, e, _, _) => (s, e)) rows) in *.
  destruct C as (_ & H0 & H1 & H2 & _).
  assert (NE : rows <> []) by (intro K; unfold parts in T; rewrite K in T; inversion T; lia).
  match goal with |- exists agg, match rows with [] => UB | _ :: _ => ?e end = _ /\ _ => 
    replace (match rows with [] => UB | _ :: _ => e end) with e by (destruct rows; [congruence|reflexivity]) end.
  rewrite map_map.
  assert (E : fold_left (fun d '(s, e, _, _) => map (om_mark (s, e)) d) rows (map (fun x => let '(i, j, k, v) := let '(k, j, i) := x in (i, j, k, r_val micro i j k) in mkOW i j k v (-1) (-1)) (cells d0 d1 d2))
     = map (fun x => let '(k, j, i) := x in fold_left (fun w x => om_mark x w) parts (mkOW i j k (r_val micro i j k) (-1) (-1))) (cells d0 d1 d2)).
  { transitivity (fold_left (fun d x => map (om_mark x) d) parts (map (fun x => let '(k, j, i) := x in mkOW i j k (r_val micro i j k) (-1) (-1)) (cells d0 d1 d2))).
    - replace (map (fun x => let '(i, j, k, v) := let '(k, j, i) := x in (i, j, k, r_val micro i j k) in mkOW i j k v (-1) (-1)) (cells d0 d1 d2))
        with (map (fun x => let '(k, j, i) := x in mkOW i j k (r_val micro i j k) (-1) (-1)) (cells d0 d1 d2)) by (apply map_ext; intros [[k j] i]; reflexivity).
      generalize (map (fun x => let '(k, j, i) := x in mkOW i j k (r_val micro i j k) (-1) (-1)) (cells d0 d1 d2)). unfold parts. clear.
      induction rows as [|[[[s e] g] l] rows IH]; intro d; cbn [fold_left map]; auto.
    - rewrite fold_map, map_map. apply map_ext. intros [[k j] i]. reflexivity. }
  match goal with |- context [fold_left ?f rows ?d] => replace (fold_left f rows d) with
    (map (fun x => let '(k, j, i) := x in fold_left (fun w x => om_mark x w) parts (mkOW i j k (r_val micro i j k) (-1) (-1))) (cells d0 d1 d2)) by (symmetry; exact E) end.
  clear E. set (F := fun x : Z * Z * Z => let '(k, j, i) := x in fold_left (fun w x => om_mark x w) parts (mkOW i j k (r_val micro i j k) (-1) (-1))).
  assert (FS : forall k j i, 1 <= k <= d2 -> exists s e, In (s, e) parts /\ s <= k <= e /\ F (k, j, i) = mkOW i j k (r_val micro i j k) s e).
  { intros k j i Hk. destruct (mark_tiles 1 (d2 + 1) parts (mkOW i j k (r_val micro i j k) (-1) (-1)) T) as (s & e & I & J & G); [cbn; lia|]. exists s, e. cbn in J, G. auto. }
  destruct (aggregate_ok dec4 (fun w => (ow_space w, ow_type w, ow_start w, ow_end w)) ow_value r_mean (map F (cells d0 d1 d2))) as (a & Ea & Na & Ia).
  { intro Hn. apply map_eq_nil in Hn. assert (I : In (1, 1, 1) (cells d0 d1 d2)) by (apply In_cells; lia). rewrite Hn in I. destruct I. }
  exists a. split; [exact Ea|]. split; [exact Na|]. intros i j s e v. rewrite Ia.
  assert (SEL : In (s, e) parts -> 1 <= i <= d0 -> 1 <= j <= d1 ->
    Permutation (map ow_value (sel dec4 (fun w => (ow_space w, ow_type w, ow_start w, ow_end w)) (i, j, s, e) (map F (cells d0 d1 d2)))) (map (fun k => r_val micro i j k) (zrange s (e + 1)))).
  { intros Is Hi Hj. pose proof (tiles_bounds _ _ _ _ _ T Is) as Bd.
    assert (P : Permutation (filter (fun x => if dec4 (let w := F x in (ow_space w, ow_type w, ow_start w, ow_end w)) (i, j, s, e) then true else false) (cells d0 d1 d2)) (map (fun k => (k, j, i)) (zrange s (e + 1)))).
    { apply NoDup_Permutation; [apply NoDup_filter, NoDup_cells|apply FinFun.Injective_map_NoDup; [intros x y Exy; injection Exy; auto|apply NoDup_zrange]|].
      intros [[k' j'] i']. rewrite filter_In, In_cells, in_map_iff. split.
      - intros ((Hi' & Hj' & Hk') & D). destruct (dec4 _ _) as [Ed|]; [|discriminate]. destruct (FS k' j' i' Hk') as (s' & e' & I' & J' & Ef). rewrite Ef in Ed. cbn in Ed. injection Ed as -> -> -> ->.
        exists k'. split; auto. apply In_zrange. lia.
      - intros (k & Ek & Hk). injection Ek as -> <- <-. apply In_zrange in Hk. split; [lia|].
        destruct (FS k' j i ltac:(lia)) as (s' & e' & I' & J' & Ef). rewrite Ef. cbn [ow_space ow_type ow_start ow_end].
        pose proof (tiles_unique _ _ _ k' s e s' e' T Is I' ltac:(lia) J') as Eu. injection Eu as <- <-.
        destruct (dec4 (i, j, s, e) (i, j, s, e)); congruence. }
    unfold sel. rewrite filter_map_swap.
    rewrite map_map. eapply Permutation_trans; [apply Permutation_map; exact P|]. rewrite map_map. erewrite map_ext_in; [apply Permutation_refl|].
    intros k Hk. apply In_zrange in Hk. cbn. destruct (mark_fold parts (mkOW i j k (r_val micro i j k) (-1) (-1))) as (_ & _ & _ & ->). reflexivity. }
  assert (MEAN : In (s, e) parts -> 1 <= i <= d0 -> 1 <= j <= d1 ->
    r_mean (map ow_value (sel dec4 (fun w => (ow_space w, ow_type w, ow_start w, ow_end w)) (i, j, s, e) (map F (cells d0 d1 d2)))) = mean_over (fun k => r_val micro i j k) s e).
  { intros Is Hi Hj. pose proof (tiles_bounds _ _ _ _ _ T Is) as Bd. specialize (SEL Is Hi Hj). unfold r_mean, mean_over, r_sum.
    rewrite (Rsum_perm _ _ _ _ SEL). unfold vlen. rewrite (Permutation_length SEL), map_length, zrange_length, Rsum_map.
    rewrite Z2Nat.id by lia. replace (e + 1 - s) with (e - s + 1) by lia. reflexivity. }
  split.
  - intros ((w & Iw & Ew) & ->). apply in_map_iff in Iw. destruct Iw as ([[k' j'] i'] & Ef & Ic). apply In_cells in Ic.
    destruct (FS k' j' i' ltac:(tauto)) as (s' & e' & I' & J' & Ef'). rewrite Ef' in Ef. subst w. cbn in Ew. injection Ew as -> -> -> ->.
    split; [tauto|]. split; [tauto|]. split; [exact I'|]. apply MEAN; tauto.
  - intros (Hi & Hj & Is & ->). pose proof (tiles_bounds _ _ _ _ _ T Is) as Bd. split; [|symmetry; apply MEAN; auto].
    exists (F (s, j, i)). split; [apply in_map, In_cells; lia|]. destruct (FS s j i ltac:(lia)) as (s' & e' & I' & J' & Ef). rewrite Ef. cbn.
    pose proof (tiles_unique _ _ _ s s e s' e' T Is I' ltac:(lia) J') as Eu. injection Eu as <- <-. reflexivity.
Qed.

(** ** Sums over the rows of omacro *)
Lemma tiles_sum : forall a n l (f : Z -> R), tiles a n l -> Rsum (fun '(s, e) => Rsum f (zrange s (e + 1))) l = Rsum f (zrange a n).
Proof.
  intros a n l f T. induction T as [n|a e n l H T IH]; [rewrite zrange_empty by lia; reflexivity|].
  rewrite Rsum_cons, IH, <- Rsum_app, <- zrange_app by lia. reflexivity.
Qed.

Lemma mean_times : forall f s e, s <= e -> (IZR (e - s + 1) * mean_over f s e = Rsum f (zrange s (e + 1)))%R.
Proof. intros f s e H. unfold mean_over. field. apply IZR_neq. lia. Qed.
