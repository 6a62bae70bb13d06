(** * Properties C63, C64 and C65: getpath, omacro, hmacro and the data of the plots (R/lpaggreg_pjdump.R). *)
From Coq Require Import Lia Permutation Reals Lra.
From Verif Require Import Base BaseFacts Arith Quality Utm Hierarchy SpecTree TreeFacts TreeDec HierarchyFacts HierarchyStop HierarchyProofs HierCheck SpecParts SpecInfo
  CoverFacts InfoFacts Values SpecData DegFacts P_Pipeline SpecSearch SearchReal RApi SpecR P_RApi P_RCurve RHelpers SpecMacro GetPath MacroFacts HMacroFacts.

(** ** C63: getpath *)

(** For every valid tree: when HValuesMetaData::getPath() holds all nodes, getpath returns the same path (counted from 1). *)
Theorem C63_getpath : forall L ps r m, valid_tree L ps r -> meta_build L ps = Ok m -> vlen (m_path m) = vlen ps ->
  r_getpath (map (fun x => x + 1) ps) L = Ok (map (fun x => x + 1) (m_path m)).
Proof. intros L ps r m V E H. exact (proj1 (getpath_prf L ps r V m E) H). Qed.
Print Assumptions C63_getpath.

(** When it does not, getpath stops with an error or its result contains the number 0, which is not a node. *)
Theorem C63_getpath_short : forall L ps r m, valid_tree L ps r -> meta_build L ps = Ok m -> vlen (m_path m) < vlen ps ->
  r_getpath (map (fun x => x + 1) ps) L = UB \/ exists p, r_getpath (map (fun x => x + 1) ps) L = Ok p /\ In 0 p.
Proof.
  intros L ps r m V E H. destruct (r_getpath (map (fun x => x + 1) ps) L) as [p| |] eqn:G; auto.
  - right. exists p. split; auto. exact (proj2 (getpath_prf L ps r V m E) H p G).
  - exfalso. exact (getpath_stops L ps r V G).
Qed.
Print Assumptions C63_getpath_short.

Lemma S1_from0 : forall h, map (fun x => x + 1) (from0 h) = h.
Proof. intro h. unfold from0. rewrite map_map. rewrite <- (map_id h) at 2. apply map_ext. intro; lia. Qed.

(** For the trees of an R user whose leaves are all at the same depth, the result is a path of the hierarchy. *)
Theorem C63_getpath_tree : forall h d0 root, r_tree h d0 root -> exists p, r_getpath h d0 = Ok p /\ r_path h d0 root p.
Proof.
  intros h d0 root (V & U & _). change (map (fun x => x - 1) h) with (from0 h) in *.
  destruct (uniform_well_built _ _ _ V U) as (m & E & W & E1 & E2 & E3).
  assert (Hn : vlen (from0 h) = vlen h) by (unfold from0, vlen; rewrite map_length; auto).
  pose proof (wb_len _ W) as Pl. rewrite (wb_hsize _ W), E2 in Pl.
  exists (map (fun x => x + 1) (m_path m)). split.
  { rewrite <- (S1_from0 h) at 1. apply (C63_getpath d0 (from0 h) root m); auto. }
  assert (INV : forall k c, vget (map (fun x => x + 1) (m_path m)) k = Ok c -> vget (m_path m) k = Ok (c - 1)).
  { intros k c K. pose proof (vget_inv _ _ _ _ K) as B. rewrite vlen_map in B. destruct (vget_ok _ (m_path m) k B) as (x & Ex).
    rewrite (vget_map _ _ (fun x => x + 1) _ _ _ Ex) in K. injection K as <-. rewrite Ex. f_equal. lia. }
  repeat split.
  - rewrite vlen_map. lia.
  - apply FinFun.Injective_map_NoDup; [intros x y K; lia|apply (wb_nodup _ W)].
  - apply in_map_iff in H. destruct H as (y & <- & K). apply (wb_nodes _ W) in K. rewrite E2 in K. unfold node in K. lia.
  - apply in_map_iff in H. destruct H as (y & <- & K). apply (wb_nodes _ W) in K. rewrite E2 in K. unfold node in K. lia.
  - intro H. apply in_map_iff. exists (x - 1). split; [lia|]. apply (wb_nodes _ W). rewrite E2. unfold node. lia.
  - intros i Hi. rewrite (vget_map _ _ (fun x => x + 1) _ _ (i - 1)); [f_equal; lia|]. apply (wb_leaves _ W). rewrite E1. unfold leaf. lia.
  - intros i j c q Ei Ej Ep. apply INV in Ei. apply INV in Ej. apply (wb_order _ W i j (c - 1) (q - 1)); auto.
    rewrite E2. unfold parent, from0. rewrite (vget_map _ _ (fun x => x - 1) _ _ _ Ep). reflexivity.
  - rewrite (vget_map _ _ (fun x => x + 1) _ _ root); auto. pose proof (wb_last _ W) as K. rewrite (wb_hsize _ W), E2, E3, Hn in K. auto.
Qed.
Print Assumptions C63_getpath_tree.

(** ** C64: omacro *)

(** For every parameter of Qualities, omacro has exactly one row per element of Space, element of Type and part of the partition at that
    parameter, and the value is the mean of the data over the part. *)
Theorem C64_omacro : forall (th : R) micro d0 d1 d2 fuel r p, r_cube micro d0 d1 d2 -> d2 <= 65535 -> r_oaggregate RA id_num false fuel micro th = Ok r ->
  In p (map fst (rr_quals r)) ->
  exists agg, r_omacro (rr_parts r) micro p = Ok agg /\ NoDup agg /\
    tiles 1 (d2 + 1) (map (fun '(s, e, _, _) => (s, e)) (rows_at RA p (rr_parts r))) /\
    forall i j s e v, In (i, j, s, e, v) agg <->
      1 <= i <= d0 /\ 1 <= j <= d1 /\ In (s, e) (map (fun '(s, e, _, _) => (s, e)) (rows_at RA p (rr_parts r))) /\ v = mean_over (fun k => r_val micro i j k) s e.
Proof.
  intros th micro d0 d1 d2 fuel r p C Hn E Hp.
  destruct (C59_ordered RA id_num (fun _ => True) th) with (micro := micro) (d0 := d0) (d1 := d1) (d2 := d2) (fuel := fuel) (r := r) as (_ & T & _); auto.
  - intro x. cbn. unfold Rltb. destruct (Rlt_dec x x); [exfalso; lra|reflexivity].
  - apply real_bisectable.
  - apply plt_RA. rewrite one_RA. cbn. lra.
  - destruct (T p Hp) as (Tp & _). destruct (omacro_prf (rr_parts r) micro p d0 d1 d2 C Tp) as (agg & Ea & Na & Ia).
    exists agg. split; [exact Ea|]. split; [apply NoDup_fst_pairs; exact Na|]. split; [exact Tp|exact Ia].
Qed.
Print Assumptions C64_omacro.

(** The rows of an element of Space and an element of Type. *)
Lemma omacro_rows : forall (agg : list (Z * Z * Z * Z * R)) (parts : list (Z * Z)) (mean : Z -> Z -> Z -> Z -> R) d0 d1 i j, NoDup agg -> NoDup parts ->
  (forall i j s e v, In (i, j, s, e, v) agg <-> 1 <= i <= d0 /\ 1 <= j <= d1 /\ In (s, e) parts /\ v = mean i j s e) -> 1 <= i <= d0 -> 1 <= j <= d1 ->
  Permutation (filter (fun '(i', j', _, _, _) => (i' =? i) && (j' =? j)) agg) (map (fun '(s, e) => (i, j, s, e, mean i j s e)) parts).
Proof.
  intros agg parts mean d0 d1 i j Na Np Ia Hi Hj. apply NoDup_Permutation; [apply NoDup_filter; auto| |].
  - apply FinFun.Injective_map_NoDup; auto. intros [s e] [s' e'] K. injection K as -> -> _. auto.
  - intros [[[[i' j'] s] e] v]. rewrite filter_In, andb_true_iff, !Z.eqb_eq, Ia, in_map_iff. split.
    + intros ((_ & _ & I & ->) & -> & ->). exists (s, e). auto.
    + intros ([s' e'] & K & I). injection K as -> -> -> -> <-. repeat split; auto; lia.
Qed.

(** Consequence: no data is lost. For each element of Space and Type, the values of the rows, each times the length of its part, add up to the data. *)
Theorem C64_omacro_total : forall (th : R) micro d0 d1 d2 fuel r p agg i j, r_cube micro d0 d1 d2 -> d2 <= 65535 -> r_oaggregate RA id_num false fuel micro th = Ok r ->
  In p (map fst (rr_quals r)) -> r_omacro (rr_parts r) micro p = Ok agg -> 1 <= i <= d0 -> 1 <= j <= d1 ->
  sum_where (fun '(i', j', _, _, _) => (i' =? i) && (j' =? j)) (fun '(_, _, s, e, v) => (IZR (e - s + 1) * v)%R) agg = Rsum (fun k => r_val micro i j k) (upto d2).
Proof.
  intros th micro d0 d1 d2 fuel r p agg i j C Hn E Hp Ea Hi Hj.
  destruct (C64_omacro th micro d0 d1 d2 fuel r p C Hn E Hp) as (agg' & Ea' & Na & T & Ia). rewrite Ea in Ea'. injection Ea' as <-.
  unfold sum_where.
  rewrite (Rsum_perm _ _ _ _ (omacro_rows agg _ (fun i j s e => mean_over (fun k => r_val micro i j k) s e) d0 d1 i j Na (tiles_NoDup _ _ _ T) Ia Hi Hj)).
  rewrite Rsum_map. unfold upto. rewrite <- (tiles_sum _ _ _ (fun k => r_val micro i j k) T). apply Rsum_ext. intros [s e] K. apply mean_times.
  pose proof (tiles_bounds _ _ _ _ _ T K). lia.
Qed.
Print Assumptions C64_omacro_total.

Lemma rows_at_nil : forall X p (df : list (R * X)), ~ In p (map fst df) -> rows_at RA p df = [].
Proof.
  intros X p df. unfold rows_at. induction df as [|[q x] df IH]; intro H; cbn; auto. cbn in H.
  assert (K : same RA p q = false).
  { unfold same. cbn. unfold Rltb. destruct (Rlt_dec p q), (Rlt_dec q p); auto. exfalso. apply H. left. lra. }
  rewrite K. apply IH. tauto.
Qed.

Lemma mmap_fuel : forall X Y (f : X -> res Y) l, (forall x, f x <> OutOfFuel) -> mmap f l <> OutOfFuel.
Proof.
  intros X Y f l H. induction l as [|x l IH]; cbn [mmap]; [discriminate|].
  destruct (f x) eqn:E; cbn [bind]; [|discriminate|exfalso; eapply H; eauto]. destruct (mmap f l); cbn [bind]; congruence.
Qed.

Lemma melt_fuel : forall micro, r_melt micro <> OutOfFuel.
Proof.
  intro micro. unfold r_melt. destruct (ra_dim micro) as [|d0 [|d1 [|d2 [|]]]]; try discriminate. apply mmap_fuel. intros [[k j] i].
  unfold r_at. destruct (ra_dim micro) as [|e0 [|e1 [|e2 [|]]]]; try discriminate.
  destruct (vget _ _) as [x| |] eqn:Ev; cbn; try discriminate. exfalso; eapply vget_not_fuel; eauto.
Qed.

(** A parameter that no row of Partitions has is an error. *)
Theorem C64_omacro_unknown : forall df micro p, ~ In p (map fst df) -> r_omacro df micro p = UB.
Proof.
  intros df micro p H. unfold r_omacro. change (par RA) with R in *. rewrite rows_at_nil by auto.
  destruct (r_melt micro) eqn:E; cbn; auto. exfalso. eapply melt_fuel; eauto.
Qed.
Print Assumptions C64_omacro_unknown.

(** The data of the stacked plot: one bar per element of Type and part; its height is the mean of the data over Space and over the part,
    its width the number of slices; the area of the bars of an element of Type is the sum of its data divided by the size of Space. *)
Theorem C64_stacked : forall (th : R) micro d0 d1 d2 fuel r p agg, r_cube micro d0 d1 d2 -> d2 <= 65535 -> r_oaggregate RA id_num false fuel micro th = Ok r ->
  In p (map fst (rr_quals r)) -> r_omacro (rr_parts r) micro p = Ok agg ->
  exists bars, r_ostacked agg = Ok bars /\ NoDup bars /\
    (forall j s e v w, In (j, s, e, v, w) bars <-> 1 <= j <= d1 /\ In (s, e) (map (fun '(s, e, _, _) => (s, e)) (rows_at RA p (rr_parts r))) /\ w = e - s + 1 /\
       v = mean_over (fun i => mean_over (fun k => r_val micro i j k) s e) 1 d0) /\
    forall j, 1 <= j <= d1 ->
      (IZR d0 * sum_where (fun '(j', _, _, _, _) => j' =? j) (fun '(_, _, _, v, w) => IZR w * v) bars = Rsum (fun i => Rsum (fun k => r_val micro i j k) (upto d2)) (upto d0))%R.
Proof.
  intros th micro d0 d1 d2 fuel r p agg C Hn E Hp Ea.
  destruct (C64_omacro th micro d0 d1 d2 fuel r p C Hn E Hp) as (agg' & Ea' & Na & T & Ia). rewrite Ea in Ea'. injection Ea' as <-.
  set (parts := map (fun '(s, e, _, _) => (s, e)) (rows_at RA p (rr_parts r))) in *. destruct C as (_ & H0 & H1 & H2 & _).
  assert (P1 : exists s e, In (s, e) parts). { destruct (tiles_find _ _ _ 1 T ltac:(lia)) as (s & e & I & _). eauto. }
  unfold r_ostacked.
  destruct (aggregate_ok dec3 (fun '(_, t, s, e, _) => (t, s, e)) (fun '(_, _, _, _, v) => v) r_mean agg) as (a & Eg & Nk & Ig).
  { intro K. destruct P1 as (s & e & I). assert (J : In (1, 1, s, e, mean_over (fun k => r_val micro 1 1 k) s e) agg) by (apply Ia; repeat split; auto; lia). rewrite K in J. destruct J. }
  rewrite Eg. cbn [bind]. eexists. split; [reflexivity|].
  set (hgt := fun j s e => mean_over (fun i => mean_over (fun k => r_val micro i j k) s e) 1 d0).
  assert (Ig' : forall j s e v, In (j, s, e, v) a <-> 1 <= j <= d1 /\ In (s, e) parts /\ v = hgt j s e).
  { intros j s e v. rewrite Ig.
    assert (M : 1 <= j <= d1 -> In (s, e) parts ->
      r_mean (map (fun '(_, _, _, _, v) => v) (sel dec3 (fun '(_, t, s, e, _) => (t, s, e)) (j, s, e) agg)) = hgt j s e).
    { intros Hj Is. assert (P : Permutation (sel dec3 (fun '(_, t, s, e, _) => (t, s, e)) (j, s, e) agg) (map (fun i => (i, j, s, e, mean_over (fun k => r_val micro i j k) s e)) (zrange 1 (d0 + 1)))).
      { apply NoDup_Permutation; [apply NoDup_filter; auto|apply FinFun.Injective_map_NoDup; [intros x y K; injection K; auto|apply NoDup_zrange]|].
        intros [[[[i' j'] s'] e'] v']. rewrite In_sel, Ia, in_map_iff. split.
        - intros ((Hi & _ & I & ->) & K). injection K as -> -> ->. exists i'. split; auto. apply In_zrange. lia.
        - intros (i & K & Hi). injection K as -> -> -> -> <-. apply In_zrange in Hi. repeat split; auto; lia. }
      unfold r_mean, r_sum, hgt, mean_over at 1. rewrite Rsum_map, (Rsum_perm _ _ _ _ P), Rsum_map. f_equal. unfold vlen. rewrite map_length, (Permutation_length P), map_length, zrange_length. do 2 f_equal. lia. }
    split.
    - intros (([[[[i' j'] s'] e'] v'] & I & K) & ->). injection K as -> -> ->. apply Ia in I. destruct I as (_ & Hj & Is & _). split; auto.
    - intros (Hj & Is & ->). split; [|symmetry; auto]. exists (1, j, s, e, mean_over (fun k => r_val micro 1 j k) s e). split; auto. apply Ia. repeat split; auto; lia. }
  assert (Na' : NoDup a) by (apply NoDup_fst_pairs; auto).
  assert (Ib : forall j s e v w, In (j, s, e, v, w) (map (fun '(t, s, e, v) => (t, s, e, v, e - s + 1)) a) <-> 1 <= j <= d1 /\ In (s, e) parts /\ w = e - s + 1 /\ v = hgt j s e).
  { intros j s e v w. rewrite in_map_iff. split.
    - intros ([[[j' s'] e'] v'] & K & I). injection K as -> -> -> -> <-. apply Ig' in I. tauto.
    - intros (Hj & Is & -> & ->). exists (j, s, e, hgt j s e). split; auto. apply Ig'. auto. }
  assert (Nb : NoDup (map (fun '(t, s, e, v) => (t, s, e, v, e - s + 1)) a)).
  { apply FinFun.Injective_map_NoDup; auto. intros [[[j s] e] v] [[[j' s'] e'] v'] K. injection K as -> -> -> -> _. auto. }
  split; [exact Nb|]. split; [exact Ib|]. intros j Hj.
  assert (P : Permutation (filter (fun '(j', _, _, _, _) => j' =? j) (map (fun '(t, s, e, v) => (t, s, e, v, e - s + 1)) a)) (map (fun '(s, e) => (j, s, e, hgt j s e, e - s + 1)) parts)).
  { apply NoDup_Permutation; [apply NoDup_filter; auto|apply FinFun.Injective_map_NoDup; [intros [s e] [s' e'] K; injection K as -> -> _ _; auto|apply (tiles_NoDup _ _ _ T)]|].
    intros [[[[j' s] e] v] w]. rewrite filter_In, Z.eqb_eq, Ib, in_map_iff. split.
    - intros ((_ & I & -> & ->) & ->). exists (s, e). auto.
    - intros ([s' e'] & K & I). injection K as -> -> -> <- <-. repeat split; auto; lia. }
  unfold sum_where. rewrite (Rsum_perm _ _ _ _ P), Rsum_map, <- Rsum_scal.
  rewrite (Rsum_ext _ _ (fun '(s, e) => Rsum (fun i => Rsum (fun k => r_val micro i j k) (zrange s (e + 1))) (upto d0))).
  - rewrite (Rsum_ext _ (fun i => Rsum (fun k => r_val micro i j k) (upto d2)) (fun i => Rsum (fun x => Rsum (fun k => r_val micro i j k) (zrange (fst x) (snd x + 1))) parts) (upto d0)).
    + rewrite Rsum_swap. apply Rsum_ext. intros [s e] _. reflexivity.
    + intros i _. unfold upto. rewrite <- (tiles_sum _ _ _ (fun k => r_val micro i j k) T). apply Rsum_ext. intros [s e] _. reflexivity.
  - intros [s e] I. pose proof (tiles_bounds _ _ _ _ _ T I). unfold hgt, mean_over at 1. replace (d0 - 1 + 1) with d0 by lia. fold (upto d0).
    replace (IZR d0 * (IZR (e - s + 1) * (Rsum (fun i => mean_over (fun k => r_val micro i j k) s e) (upto d0) / IZR d0)))%R
      with (IZR (e - s + 1) * Rsum (fun i => mean_over (fun k => r_val micro i j k) s e) (upto d0))%R by (field; apply IZR_neq; lia).
    rewrite <- Rsum_scal. apply Rsum_ext. intros i _. apply mean_times. lia.
Qed.
Print Assumptions C64_stacked.

(** ** C65: hmacro *)

Lemma cover_leaves : forall L ps r l, valid_tree L ps r -> node_cover L ps l -> Permutation (flat_map (leavesof L ps) l) (zrange 0 L).
Proof.
  intros L ps r l V (N & Nn & Cv). destruct (valid_rank _ _ _ V) as [rank Hr]. pose proof (vt_L _ _ _ V) as VL.
  apply NoDup_Permutation; [|apply NoDup_zrange|].
  - apply NoDup_flat_map_intro; auto; [intros; apply NoDup_leavesof|].
    intros a b x Ha Hb Xa Xb. apply (In_leavesof ps rank Hr L) in Xa; [|lia]. apply (In_leavesof ps rank Hr L) in Xb; [|lia].
    destruct Xa as [Lx Xa], Xb as [_ Xb]. destruct (Cv x Lx) as (h & _ & _ & U). rewrite (U a Ha Xa), (U b Hb Xb). auto.
  - intro x. rewrite in_flat_map, In_zrange. split.
    + intros (h & _ & K). apply (In_leavesof ps rank Hr L) in K; [|lia]. exact (proj1 K).
    + intro Lx. destruct (Cv x Lx) as (h & Hh & B & _). exists h. split; auto. apply (In_leavesof ps rank Hr L); [lia|]. split; auto.
Qed.

(** For every parameter of Qualities, hmacro has exactly one row per node of the partition at that parameter, element of Type and element of Time;
    the value is the sum of the data of the elements of Space below the node, Size is their number, and Parent is the parent of the node (the root
    itself for the root). *)
Theorem C65_hmacro : forall (th : R) micro d0 d1 d2 h root fuel r p, r_cube micro d0 d1 d2 -> r_tree h d0 root ->
  r_haggregate RA id_num false fuel micro h th = Ok r -> In p (map fst (rr_quals r)) ->
  exists agg, r_hmacro (rr_parts r) micro h p = Ok agg /\ NoDup agg /\
    node_cover d0 (from0 h) (map (fun '(nd, _, _, _) => nd - 1) (rows_at RA p (rr_parts r))) /\
    forall sp ty ti pa v sz, In (sp, ty, ti, pa, v, sz) agg <->
      In sp (map (fun '(nd, _, _, _) => nd) (rows_at RA p (rr_parts r))) /\ 1 <= ty <= d1 /\ 1 <= ti <= d2 /\
      parent_is h root sp pa /\ v = leaf_sum micro h d0 sp ty ti /\ sz = vlen (leavesof d0 (from0 h) (sp - 1)).
Proof.
  intros th micro d0 d1 d2 h root fuel r p C Tr E Hp.
  destruct (C59_hier RA id_num (fun _ => True) th) with (micro := micro) (d0 := d0) (d1 := d1) (d2 := d2) (h := h) (root := root) (fuel := fuel) (r := r) as (_ & T & _); auto.
  - intro x. cbn. unfold Rltb. destruct (Rlt_dec x x); [exfalso; lra|reflexivity].
  - apply real_bisectable.
  - apply plt_RA. rewrite one_RA. cbn. lra.
  - destruct (T p Hp) as (Cv & Sz & _). destruct Tr as (V & U & Two). change (map (fun x => x - 1) h) with (from0 h) in *.
    destruct (uniform_well_built _ _ _ V U) as (m & Em & W & E1 & E2 & E3).
    assert (Hn : vlen (from0 h) = vlen h) by (unfold from0, vlen; rewrite map_length; auto).
    set (rows := rows_at RA p (rr_parts r)) in *.
    assert (NDm : NoDup (map (fun '(nd, _, _, _) => nd) rows)).
    { destruct Cv as (N & _). replace (map (fun '(nd, _, _, _) => nd - 1) rows) with (map (fun x => x - 1) (map (fun '(nd, _, _, _) => nd) rows)) in N
        by (rewrite map_map; apply map_ext; intros [[[? ?] ?] ?]; reflexivity). eapply NoDup_map_inv; eauto. }
    assert (NN : forall nd sz g l, In (nd, sz, g, l) rows -> node (from0 h) (nd - 1)).
    { intros nd sz g l K. apply (proj1 (proj2 Cv)). apply in_map_iff. exists (nd, sz, g, l). auto. }
    assert (NE : rows <> []).
    { pose proof (vt_L _ _ _ V) as VL. destruct (proj2 (proj2 Cv) 0 ltac:(unfold leaf; lia)) as (x & K & _). intro K2. rewrite K2 in K. destruct K. }
    destruct (hmacro_prf (rr_parts r) micro p d0 d1 d2 (from0 h) root m C V ltac:(lia) Em W NE NDm NN) as (agg & Ea & Na & Ia).
    change (map S1 (from0 h)) with (map (fun x => x + 1) (from0 h)) in Ea. rewrite S1_from0 in Ea. exists agg. split; [exact Ea|]. split; [exact Na|]. split; [exact Cv|].
    intros sp ty ti pa v sz. rewrite Ia. fold rows.
    assert (UP : node (from0 h) (sp - 1) -> (pa = up (from0 h) root (sp - 1) <-> parent_is h root sp pa)).
    { intro Ns. unfold up, parent_is. destruct (Z.eqb_spec (sp - 1) root), (Z.eqb_spec sp (root + 1)); try lia.
      destruct (vget_ok _ h (sp - 1)) as (q & Eq); [unfold node in Ns; lia|]. unfold parent, from0. rewrite (vget_map _ _ (fun x => x - 1) _ _ _ Eq), Eq. split; [intros ->; f_equal; lia|]. intro K. injection K as ->. lia. }
    split.
    + intros ((g & l & K) & Hty & Hti & Hpa & ->). split; [apply in_map_iff; exists (sp, sz, g, l); auto|]. split; auto. split; auto. split; [apply UP; eauto|]. split; [reflexivity|]. eapply Sz; eauto.
    + intros (K & Hty & Hti & Hpa & -> & ->). apply in_map_iff in K. destruct K as ([[[nd sz] g] l] & -> & K). pose proof (Sz _ _ _ _ K) as Es. rewrite <- Es.
      split; [eauto|]. split; auto. split; auto. split; [apply UP; eauto|reflexivity].
Qed.
Print Assumptions C65_hmacro.

Lemma hmacro_rows : forall (agg : list (Z * Z * Z * Z * R * Z)) nodes (par_ : Z -> Z) (val : Z -> Z -> Z -> R) (size : Z -> Z) d1 d2 ty ti, NoDup agg -> NoDup nodes ->
  (forall sp ty ti pa v sz, In (sp, ty, ti, pa, v, sz) agg <-> In sp nodes /\ 1 <= ty <= d1 /\ 1 <= ti <= d2 /\ pa = par_ sp /\ v = val sp ty ti /\ sz = size sp) ->
  1 <= ty <= d1 -> 1 <= ti <= d2 ->
  Permutation (filter (fun '(_, ty', ti', _, _, _) => (ty' =? ty) && (ti' =? ti)) agg) (map (fun sp => (sp, ty, ti, par_ sp, val sp ty ti, size sp)) nodes).
Proof.
  intros agg nodes par_ val size d1 d2 ty ti Na Nn Ia Hty Hti. apply NoDup_Permutation; [apply NoDup_filter; auto| |].
  - apply FinFun.Injective_map_NoDup; auto. intros x y K. injection K; auto.
  - intros [[[[[sp ty'] ti'] pa] v] sz]. rewrite filter_In, andb_true_iff, !Z.eqb_eq, Ia, in_map_iff. split.
    + intros ((K & _ & _ & -> & -> & ->) & -> & ->). exists sp. auto.
    + intros (x & K & I). injection K as <- <- <- <- <- <-. repeat split; auto; lia.
Qed.

(** The reported parent is unique. *)
Definition parent_of (h : list Z) (root sp : Z) : Z := if sp =? root + 1 then sp else match vget h (sp - 1) with Ok q => q | _ => 0 end.

Lemma parent_is_of : forall h root sp pa, 1 <= sp <= vlen h -> (parent_is h root sp pa <-> pa = parent_of h root sp).
Proof.
  intros h root sp pa H. unfold parent_is, parent_of. destruct (sp =? root + 1); [reflexivity|].
  destruct (vget_ok _ h (sp - 1) ltac:(lia)) as (q & ->). split; [intro K; injection K; auto|intros ->; auto].
Qed.

(** What the other theorems need of C65_hmacro. *)
Lemma hmacro_facts : forall (th : R) micro d0 d1 d2 h root fuel r p agg, r_cube micro d0 d1 d2 -> r_tree h d0 root ->
  r_haggregate RA id_num false fuel micro h th = Ok r -> In p (map fst (rr_quals r)) -> r_hmacro (rr_parts r) micro h p = Ok agg ->
  exists nodes, nodes = map (fun '(nd, _, _, _) => nd) (rows_at RA p (rr_parts r)) /\ NoDup nodes /\ nodes <> [] /\ NoDup agg /\
    Permutation (flat_map (fun sp => leavesof d0 (from0 h) (sp - 1)) nodes) (zrange 0 d0) /\ (forall sp, In sp nodes -> 1 <= vlen (leavesof d0 (from0 h) (sp - 1))) /\
    (forall sp, In sp nodes -> 1 <= sp <= vlen h) /\
    forall sp ty ti pa v sz, In (sp, ty, ti, pa, v, sz) agg <->
      In sp nodes /\ 1 <= ty <= d1 /\ 1 <= ti <= d2 /\ pa = parent_of h root sp /\ v = leaf_sum micro h d0 sp ty ti /\ sz = vlen (leavesof d0 (from0 h) (sp - 1)).
Proof.
  intros th micro d0 d1 d2 h root fuel r p agg C Tr E Hp Ea.
  destruct (C65_hmacro th micro d0 d1 d2 h root fuel r p C Tr E Hp) as (agg' & Ea' & Na & Cv & Ia). rewrite Ea in Ea'. injection Ea' as <-.
  destruct Tr as (V & _). change (map (fun x => x - 1) h) with (from0 h) in V.
  exists (map (fun '(nd, _, _, _) => nd) (rows_at RA p (rr_parts r))). set (nodes := map (fun '(nd, _, _, _) => nd) (rows_at RA p (rr_parts r))) in *.
  assert (Em : map (fun '(nd, _, _, _) => nd - 1) (rows_at RA p (rr_parts r)) = map (fun x => x - 1) nodes).
  { unfold nodes. rewrite map_map. apply map_ext. intros [[[? ?] ?] ?]. reflexivity. }
  rewrite Em in Cv. assert (Hn : vlen (from0 h) = vlen h) by (unfold from0, vlen; rewrite map_length; auto).
  assert (NN : forall sp, In sp nodes -> node (from0 h) (sp - 1)) by (intros sp K; apply (proj1 (proj2 Cv)), in_map_iff; eauto).
  split; auto. split; [destruct Cv as (N & _); eapply NoDup_map_inv; eauto|]. split.
  { intro K. pose proof (vt_L _ _ _ V). destruct (proj2 (proj2 Cv) 0 ltac:(unfold leaf; lia)) as (x & K2 & _). rewrite K in K2. destruct K2. }
  split; auto. split.
  { pose proof (cover_leaves _ _ _ _ V Cv) as P. rewrite flat_map_concat_map, map_map, <- flat_map_concat_map in P. exact P. }
  split. { intros sp K. apply (lv_pos d0 (from0 h) root V). auto. }
  split. { intros sp K. apply NN in K. unfold node in K. lia. }
  intros sp ty ti pa v sz. rewrite Ia. split; intros (K & K1 & K2 & K3 & K4); (split; [exact K|]); (split; [exact K1|]); (split; [exact K2|]); (split; [|exact K4]);
    apply NN in K; unfold node in K; apply (parent_is_of h root sp pa); auto; lia.
Qed.

(** Consequence: no data is lost. At each element of Type and Time, the values of the rows add up to the data, and the sizes to the size of Space. *)
Theorem C65_hmacro_total : forall (th : R) micro d0 d1 d2 h root fuel r p agg ty ti, r_cube micro d0 d1 d2 -> r_tree h d0 root ->
  r_haggregate RA id_num false fuel micro h th = Ok r -> In p (map fst (rr_quals r)) -> r_hmacro (rr_parts r) micro h p = Ok agg -> 1 <= ty <= d1 -> 1 <= ti <= d2 ->
  sum_where (fun '(_, ty', ti', _, _, _) => (ty' =? ty) && (ti' =? ti)) (fun '(_, _, _, _, v, _) => v) agg = Rsum (fun i => r_val micro i ty ti) (upto d0) /\
  sum_where (fun '(_, ty', ti', _, _, _) => (ty' =? ty) && (ti' =? ti)) (fun '(_, _, _, _, _, sz) => IZR sz) agg = IZR d0.
Proof.
  intros th micro d0 d1 d2 h root fuel r p agg ty ti C Tr E Hp Ea Hty Hti.
  destruct (hmacro_facts th micro d0 d1 d2 h root fuel r p agg C Tr E Hp Ea) as (nodes & _ & Nn & _ & Na & P & _ & _ & Ia).
  pose proof (hmacro_rows agg nodes _ _ _ d1 d2 ty ti Na Nn Ia Hty Hti) as Q. unfold sum_where. destruct C as (_ & H0 & _).
  rewrite !(Rsum_perm _ _ _ _ Q), !Rsum_map. split.
  - unfold leaf_sum. rewrite <- Rsum_flat. rewrite (Rsum_perm _ _ _ _ P).
    unfold upto. replace (zrange 1 (d0 + 1)) with (map (fun x => x + 1) (zrange 0 d0)); [rewrite Rsum_map; reflexivity|].
    apply vget_ext; [rewrite vlen_map, !vlen_zrange by lia; lia|]. intros i Hi. rewrite vlen_map, vlen_zrange in Hi by lia.
    rewrite (vget_map _ _ (fun x => x + 1) _ i (0 + i)) by (apply vget_zrange; lia). rewrite vget_zrange by lia. f_equal. lia.
  - assert (LEN : forall l, Rsum (fun sp => IZR (vlen (leavesof d0 (from0 h) (sp - 1)))) l = IZR (vlen (flat_map (fun sp => leavesof d0 (from0 h) (sp - 1)) l))).
    { induction l as [|x l IH]; [reflexivity|]. rewrite Rsum_cons, IH. cbn [flat_map]. rewrite vlen_app, plus_IZR. reflexivity. }
    rewrite LEN. f_equal. unfold vlen. rewrite (Permutation_length P), zrange_length. lia.
Qed.
Print Assumptions C65_hmacro_total.

(** A parameter that no row of Partitions has is an error. *)
Theorem C65_hmacro_unknown : forall df micro h p, ~ In p (map fst df) -> r_hmacro df micro h p = UB.
Proof.
  intros df micro h p H. unfold r_hmacro. change (par RA) with R in *. rewrite rows_at_nil by auto.
  destruct (r_melt micro) eqn:E; cbn; auto. exfalso. eapply melt_fuel; eauto.
Qed.
Print Assumptions C65_hmacro_unknown.

(** The data of the treemap of states: one area per node and element of Type; its value is the mean over Time. *)
Theorem C65_treemap_state : forall (th : R) micro d0 d1 d2 h root fuel r p agg, r_cube micro d0 d1 d2 -> r_tree h d0 root ->
  r_haggregate RA id_num false fuel micro h th = Ok r -> In p (map fst (rr_quals r)) -> r_hmacro (rr_parts r) micro h p = Ok agg ->
  exists areas, r_htree_state agg = Ok areas /\ NoDup areas /\
    forall sp ty pa v, In (sp, ty, pa, v) areas <->
      In sp (map (fun '(nd, _, _, _) => nd) (rows_at RA p (rr_parts r))) /\ 1 <= ty <= d1 /\ parent_is h root sp pa /\ v = mean_over (fun ti => leaf_sum micro h d0 sp ty ti) 1 d2.
Proof.
  intros th micro d0 d1 d2 h root fuel r p agg C Tr E Hp Ea.
  destruct (hmacro_facts th micro d0 d1 d2 h root fuel r p agg C Tr E Hp Ea) as (nodes & En & Nn & Ne & Na & _ & _ & Bn & Ia). rewrite <- En. destruct C as (_ & H0 & H1 & H2 & _).
  destruct nodes as [|n0 nodes0] eqn:Enn; [congruence|]. rewrite <- Enn in *. assert (K0 : In n0 nodes) by (rewrite Enn; left; auto). clear Enn.
  unfold r_htree_state.
  destruct (aggregate_ok dec3 (fun '(sp, ty, _, pa, _, _) => (sp, ty, pa)) (fun '(_, _, _, _, v, _) => v) r_mean agg) as (a & Eg & Nk & Ig).
  { intro K. assert (J : In (n0, 1, 1, parent_of h root n0, leaf_sum micro h d0 n0 1 1, vlen (leavesof d0 (from0 h) (n0 - 1))) agg) by (apply Ia; repeat split; auto; lia). rewrite K in J. destruct J. }
  exists a. split; [exact Eg|]. split; [apply NoDup_fst_pairs; auto|]. intros sp ty pa v. rewrite Ig.
  assert (M : In sp nodes -> 1 <= ty <= d1 -> pa = parent_of h root sp ->
    r_mean (map (fun '(_, _, _, _, v, _) => v) (sel dec3 (fun '(sp, ty, _, pa, _, _) => (sp, ty, pa)) (sp, ty, pa) agg)) = mean_over (fun ti => leaf_sum micro h d0 sp ty ti) 1 d2).
  { intros Ks Hty Hpa.
    assert (P : Permutation (sel dec3 (fun '(sp, ty, _, pa, _, _) => (sp, ty, pa)) (sp, ty, pa) agg) (map (fun ti => (sp, ty, ti, pa, leaf_sum micro h d0 sp ty ti, vlen (leavesof d0 (from0 h) (sp - 1)))) (zrange 1 (d2 + 1)))).
    { apply NoDup_Permutation; [apply NoDup_filter; auto|apply FinFun.Injective_map_NoDup; [intros x y K; injection K; auto|apply NoDup_zrange]|].
      intros [[[[[sp' ty'] ti'] pa'] v'] sz']. rewrite In_sel, Ia, in_map_iff. split.
      - intros ((_ & _ & Hti & _ & -> & ->) & K). injection K as -> -> ->. exists ti'. split; auto. apply In_zrange. lia.
      - intros (t & K & Ht). injection K as <- <- <- <- <- <-. apply In_zrange in Ht. repeat split; auto; lia. }
    unfold r_mean, r_sum, mean_over. rewrite Rsum_map, (Rsum_perm _ _ _ _ P), Rsum_map. f_equal. unfold vlen. rewrite map_length, (Permutation_length P), map_length, zrange_length. do 2 f_equal. lia. }
  split.
  - intros (([[[[[sp' ty'] ti'] pa'] v'] sz'] & I & K) & ->). injection K as -> -> ->. apply Ia in I. destruct I as (Ks & Hty & _ & Hpa & _).
    split; auto. split; auto. split; [apply parent_is_of; auto|]. apply M; auto.
  - intros (Ks & Hty & Hpa & ->). apply (parent_is_of h root sp pa (Bn sp Ks)) in Hpa. split; [|symmetry; apply M; auto].
    exists (sp, ty, 1, pa, leaf_sum micro h d0 sp ty 1, vlen (leavesof d0 (from0 h) (sp - 1))). split; auto. apply Ia. repeat split; auto; lia.
Qed.
Print Assumptions C65_treemap_state.

(** The data of the treemap of counters: one area per node and element of Type; its size is the number of leaves and its value (the colour) the mean over the leaves and over Time. *)
Theorem C65_treemap_counter : forall (th : R) micro d0 d1 d2 h root fuel r p agg, r_cube micro d0 d1 d2 -> r_tree h d0 root ->
  r_haggregate RA id_num false fuel micro h th = Ok r -> In p (map fst (rr_quals r)) -> r_hmacro (rr_parts r) micro h p = Ok agg ->
  exists areas, r_htree_counter agg = Ok areas /\ NoDup areas /\
    forall sp ty sz pa v, In (sp, ty, sz, pa, v) areas <->
      In sp (map (fun '(nd, _, _, _) => nd) (rows_at RA p (rr_parts r))) /\ 1 <= ty <= d1 /\ sz = vlen (leavesof d0 (from0 h) (sp - 1)) /\ parent_is h root sp pa /\
      v = mean_over (fun ti => (leaf_sum micro h d0 sp ty ti / IZR sz)%R) 1 d2.
Proof.
  intros th micro d0 d1 d2 h root fuel r p agg C Tr E Hp Ea.
  destruct (hmacro_facts th micro d0 d1 d2 h root fuel r p agg C Tr E Hp Ea) as (nodes & En & Nn & Ne & Na & _ & Ps & Bn & Ia). rewrite <- En. destruct C as (_ & H0 & H1 & H2 & _).
  destruct nodes as [|n0 nodes0] eqn:Enn; [congruence|]. rewrite <- Enn in *. assert (K0 : In n0 nodes) by (rewrite Enn; left; auto). clear Enn.
  unfold r_htree_counter.
  destruct (aggregate_ok dec4 (fun '(sp, ty, _, pa, _, sz) => (sp, ty, sz, pa)) (fun '(_, _, _, _, v, _) => v) r_mean agg) as (a & Eg & Nk & Ig).
  { intro K. assert (J : In (n0, 1, 1, parent_of h root n0, leaf_sum micro h d0 n0 1 1, vlen (leavesof d0 (from0 h) (n0 - 1))) agg) by (apply Ia; repeat split; auto; lia). rewrite K in J. destruct J. }
  rewrite Eg. cbn [bind]. eexists. split; [reflexivity|].
  assert (Ig' : forall sp ty sz pa v, In (sp, ty, sz, pa, v) a <-> In sp nodes /\ 1 <= ty <= d1 /\ sz = vlen (leavesof d0 (from0 h) (sp - 1)) /\ pa = parent_of h root sp /\ v = mean_over (fun ti => leaf_sum micro h d0 sp ty ti) 1 d2).
  { intros sp ty sz pa v. rewrite Ig.
    assert (M : In sp nodes -> 1 <= ty <= d1 -> pa = parent_of h root sp -> sz = vlen (leavesof d0 (from0 h) (sp - 1)) ->
      r_mean (map (fun '(_, _, _, _, v, _) => v) (sel dec4 (fun '(sp, ty, _, pa, _, sz) => (sp, ty, sz, pa)) (sp, ty, sz, pa) agg)) = mean_over (fun ti => leaf_sum micro h d0 sp ty ti) 1 d2).
    { intros Ks Hty Hpa Hsz.
      assert (P : Permutation (sel dec4 (fun '(sp, ty, _, pa, _, sz) => (sp, ty, sz, pa)) (sp, ty, sz, pa) agg) (map (fun ti => (sp, ty, ti, pa, leaf_sum micro h d0 sp ty ti, sz)) (zrange 1 (d2 + 1)))).
      { apply NoDup_Permutation; [apply NoDup_filter; auto|apply FinFun.Injective_map_NoDup; [intros x y K; injection K; auto|apply NoDup_zrange]|].
        intros [[[[[sp' ty'] ti'] pa'] v'] sz']. rewrite In_sel, Ia, in_map_iff. split.
        - intros ((_ & _ & Hti & _ & -> & _) & K). injection K as -> -> -> ->. exists ti'. split; auto. apply In_zrange. lia.
        - intros (t & K & Ht). injection K as <- <- <- <- <- <-. apply In_zrange in Ht. repeat split; auto; lia. }
      unfold r_mean, r_sum, mean_over. rewrite Rsum_map, (Rsum_perm _ _ _ _ P), Rsum_map. f_equal. unfold vlen. rewrite map_length, (Permutation_length P), map_length, zrange_length. do 2 f_equal. lia. }
    split.
    - intros (([[[[[sp' ty'] ti'] pa'] v'] sz'] & I & K) & ->). injection K as -> -> -> ->. apply Ia in I. destruct I as (Ks & Hty & _ & Hpa & _ & Hsz). do 4 (split; auto).
    - intros (Ks & Hty & Hsz & Hpa & ->). split; [|symmetry; apply M; auto].
      exists (sp, ty, 1, pa, leaf_sum micro h d0 sp ty 1, sz). split; auto. apply Ia. repeat split; auto; lia. }
  assert (MD : forall sp ty sz, In sp nodes -> sz = vlen (leavesof d0 (from0 h) (sp - 1)) ->
    (mean_over (fun ti => leaf_sum micro h d0 sp ty ti) 1 d2 / IZR sz = mean_over (fun ti => (leaf_sum micro h d0 sp ty ti / IZR sz)%R) 1 d2)%R).
  { intros sp ty sz Ks Hsz. specialize (Ps sp Ks). unfold mean_over.
    rewrite (Rsum_ext _ (fun ti => (leaf_sum micro h d0 sp ty ti / IZR sz)%R) (fun ti => (/ IZR sz * leaf_sum micro h d0 sp ty ti)%R)) by (intros; unfold Rdiv; lra).
    rewrite (Rsum_scal _ (fun ti => leaf_sum micro h d0 sp ty ti) (/ IZR sz)). generalize (Rsum (fun ti => leaf_sum micro h d0 sp ty ti) (zrange 1 (d2 + 1))). intro z. field. split; apply IZR_neq; lia. }
  split.
  - apply (NoDup_map_inv (fun '(sp, ty, sz, pa, v) => (sp, ty, sz, pa))). rewrite map_map.
    rewrite (map_ext _ fst) by (intros [[[[? ?] ?] ?] ?]; reflexivity). exact Nk.
  - intros sp ty sz pa v. rewrite in_map_iff. split.
    + intros ([[[[sp' ty'] sz'] pa'] v'] & K & I). injection K as -> -> -> -> <-. apply Ig' in I. destruct I as (Ks & Hty & Hsz & Hpa & ->). do 3 (split; auto). split; [apply parent_is_of; auto|]. apply MD; auto.
    + intros (Ks & Hty & Hsz & Hpa & ->). apply (parent_is_of h root sp pa (Bn sp Ks)) in Hpa. exists (sp, ty, sz, pa, mean_over (fun ti => leaf_sum micro h d0 sp ty ti) 1 d2). split; [|apply Ig'; auto].
      rewrite (MD sp ty sz Ks Hsz). reflexivity.
Qed.
Print Assumptions C65_treemap_counter.

(** ** The hypotheses are met *)
Example C64_C65_nonvacuous : exists ro rh po ph ao ah,
  r_oaggregate RA id_num false 11 ex_micro (/ 1000)%R = Ok ro /\ In po (map fst (rr_quals ro)) /\ r_omacro (rr_parts ro) ex_micro po = Ok ao /\ ao <> [] /\
  r_haggregate RA id_num false 11 ex_micro [3; 3; 0] (/ 1000)%R = Ok rh /\ In ph (map fst (rr_quals rh)) /\ r_hmacro (rr_parts rh) ex_micro [3; 3; 0] ph = Ok ah /\ ah <> [].
Proof.
  destruct C60_nonvacuous as (C & T & _ & (ro & Eo & _) & (rh & Eh & _) & _).
  assert (Irr : forall x, p_ltb RA x x = false) by (intro x; cbn; unfold Rltb; destruct (Rlt_dec x x); [exfalso; lra|reflexivity]).
  assert (Z1 : plt RA (p_zero RA) (p_one RA)) by (apply plt_RA; rewrite one_RA; cbn; lra).
  destruct (C59_ordered RA id_num (fun _ => True) (/ 1000)%R Irr (real_bisectable _) I I Z1 ex_micro 2 1 2 11 ro C ltac:(lia) Eo) as ((_ & _ & _ & _ & Po) & _).
  destruct (C59_hier RA id_num (fun _ => True) (/ 1000)%R Irr (real_bisectable _) I I Z1 ex_micro 2 1 2 [3; 3; 0] 2 11 rh C T Eh) as ((_ & _ & _ & _ & Ph) & _).
  destruct (C64_omacro (/ 1000)%R ex_micro 2 1 2 11 ro _ C ltac:(lia) Eo Po) as (ao & Eao & _ & To & Io).
  destruct (C65_hmacro (/ 1000)%R ex_micro 2 1 2 [3; 3; 0] 2 11 rh _ C T Eh Ph) as (ah & Eah & _ & Cv & Ih).
  exists ro, rh, (rr_popt ro), (rr_popt rh), ao, ah. repeat (split; [assumption|]). split.
  - intro K. destruct (tiles_find _ _ _ 1 To ltac:(lia)) as (s & e & Is & _).
    assert (J : In (1, 1, s, e, mean_over (fun k => r_val ex_micro 1 1 k) s e) ao) by (apply Io; repeat split; auto; lia). rewrite K in J. destruct J.
  - repeat (split; [assumption|]). intro K. destruct (proj2 (proj2 Cv) 0 ltac:(unfold leaf; lia)) as (x & Kx & _ & _). apply in_map_iff in Kx. destruct Kx as ([[[nd sz] g] l] & Ex & Kx).
    assert (Kn : In nd (map (fun '(nd, _, _, _) => nd) (rows_at RA (rr_popt rh) (rr_parts rh)))) by (apply in_map_iff; exists (nd, sz, g, l); auto).
    assert (Q : node (from0 [3; 3; 0]) (nd - 1)) by (apply (proj1 (proj2 Cv)); apply in_map_iff; exists (nd, sz, g, l); auto).
    assert (Bn : 1 <= nd <= vlen [3; 3; 0]) by (unfold node in Q; change (vlen (from0 [3; 3; 0])) with 3 in Q; change (vlen [3; 3; 0]) with 3; lia).
    assert (J : In (nd, 1, 1, parent_of [3; 3; 0] 2 nd, leaf_sum ex_micro [3; 3; 0] 2 nd 1 1, vlen (leavesof 2 (from0 [3; 3; 0]) (nd - 1))) ah).
    { apply Ih. repeat split; auto; try lia. apply parent_is_of; auto. }
    rewrite K in J. destruct J.
Qed.

(** A tree whose leaves are at different depths: element 1 of Space is below node 3, element 2 below node 4, node 4 below node 3, node 3 below the root 5.
    hmacro does not fail, but the row of the root misses the data of element 2: node 3 was copied to the root before node 4 was copied to node 3. *)
Example C65_hmacro_uneven : forall a b : R, exists agg,
  valid_tree 2 (from0 [3; 4; 5; 3; 0]) 4 /\ r_cube (@mkRArr RA [a; b] [2; 1; 1]) 2 1 1 /\
  r_hmacro [(0%R, (5, 2, 0%R, 0%R))] (@mkRArr RA [a; b] [2; 1; 1]) [3; 4; 5; 3; 0] 0%R = Ok agg /\
  In (5, 1, 1, 5, (a + 0)%R, 2) agg /\ leaf_sum (@mkRArr RA [a; b] [2; 1; 1]) [3; 4; 5; 3; 0] 2 5 1 1 = (a + (b + 0))%R.
Proof.
  intros a b. exists [(5, 1, 1, 5, (a + 0)%R, 2)]. split; [apply valid_treeb_ok; vm_compute; reflexivity|]. split; [repeat split; lia|]. split.
  - unfold r_hmacro. replace (rows_at RA 0%R [(0%R, (5, 2, 0%R, 0%R))]) with [(5, 2, 0%R, 0%R)].
    + replace (r_melt (@mkRArr RA [a; b] [2; 1; 1])) with (Ok [(1, 1, 1, a); (2, 1, 1, b)]) by reflexivity.
      cbn [bind]. replace (vlen (nodup Z.eq_dec (map (fun '(i, _, _, _) => i) [(1, 1, 1, a); (2, 1, 1, b)]))) with 2 by reflexivity.
      replace (r_getpath [3; 4; 5; 3; 0] 2) with (Ok [1; 2; 3; 4; 5]) by reflexivity. cbn [bind].
      vm_compute. reflexivity.
    + unfold rows_at. cbn. unfold same. cbn. unfold Rltb. destruct (Rlt_dec 0 0); [exfalso; lra|]. reflexivity.
  - split; [left; reflexivity|]. vm_compute. reflexivity.
Qed.

(** The trees of C63: one with all nodes in the path, with leaves at different depths and the root in the middle of the numbering; one whose path is short. *)
Example C63_nonvacuous : exists m, valid_tree 2 [3; 4; -1; 2; 3] 2 /\ meta_build 2 [3; 4; -1; 2; 3] = Ok m /\ vlen (m_path m) = vlen [3; 4; -1; 2; 3] /\
  r_getpath [4; 5; 0; 3; 4] 2 = Ok [1; 2; 4; 5; 3].
Proof.
  destruct (meta_build 2 [3; 4; -1; 2; 3]) as [m| |] eqn:E; [|exfalso; vm_compute in E; discriminate E..].
  exists m. split; [apply valid_treeb_ok; vm_compute; reflexivity|]. split; [reflexivity|]. split; [|vm_compute; reflexivity].
  vm_compute in E. injection E as <-. reflexivity.
Qed.
Example C63_short_nonvacuous : exists m, valid_tree 2 [4; 2; 3; 4; -1] 4 /\ meta_build 2 [4; 2; 3; 4; -1] = Ok m /\ vlen (m_path m) < vlen [4; 2; 3; 4; -1] /\
  r_getpath [5; 3; 4; 5; 0] 2 = Ok [1; 2; 5; 3; 0].
Proof.
  destruct (meta_build 2 [4; 2; 3; 4; -1]) as [m| |] eqn:E; [|exfalso; vm_compute in E; discriminate E..].
  exists m. split; [apply valid_treeb_ok; vm_compute; reflexivity|]. split; [reflexivity|]. split; [|vm_compute; reflexivity].
  vm_compute in E. injection E as <-. reflexivity.
Qed.
Example C63_tree_nonvacuous : r_tree [5; 5; 6; 6; 7; 7; 0] 4 6 /\ r_getpath [5; 5; 6; 6; 7; 7; 0] 4 = Ok [1; 2; 3; 4; 5; 6; 7].
Proof.
  split; [|vm_compute; reflexivity]. unfold r_tree. cbn [map]. destruct tree4_prf as (V & U). split; [exact V|]. split; [exact U|]. cbn; lia.
Qed.
