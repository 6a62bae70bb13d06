(** * Property C68: pjdump2micro (R/lpaggreg_pjdump.R). *)
From Coq Require Import Lia Sorting.Sorted Permutation Reals Lra.
From Verif Require Import Base BaseFacts Arith RApi SpecR RFacts SpecTree SpecParts InfoFacts SpecMacro RHelpers MacroFacts HMacroFacts Slicer SpecSlicer SlicerFacts P_Slicer CounterFacts P_Counter
  SpecPj PjFacts GetPath PjTree P_RApi.

(** The data frame of a slicer: one row for each of the names and slices. *)
Definition full_frame (df : list srow) (Rr Tt : Z -> Prop) (K : Z) : Prop :=
  NoDup (map sr_key df) /\ df <> [] /\ (forall x, In x df -> Rr (sr_res x) /\ Tt (sr_type x) /\ 1 <= sr_slice x <= K) /\
  forall r t k, Rr r -> Tt t -> 1 <= k <= K -> exists x, In x df /\ sr_key x = (r, k, t).

Lemma frame_lists : forall df Rr Tt K, full_frame df Rr Tt K ->
  lists Rr (z_sort (nodup Z.eq_dec (map sr_res df))) /\ lists Tt (z_sort (nodup Z.eq_dec (map sr_type df))) /\ z_sort (nodup Z.eq_dec (map sr_slice df)) = upto K /\ 1 <= K.
Proof.
  intros df Rr Tt K (N & E & H1 & H2). destruct df as [|x0 df'] eqn:Ed; [congruence|]. rewrite <- Ed in *. assert (I0 : In x0 df) by (rewrite Ed; left; auto). clear Ed.
  destruct (H1 x0 I0) as (R0 & T0 & K0). repeat split.
  - apply z_sort_sorted, NoDup_nodup.
  - rewrite z_sort_In, nodup_In, in_map_iff. intros (y & <- & I). apply H1; auto.
  - intro Q. rewrite z_sort_In, nodup_In, in_map_iff. destruct (H2 x _ _ Q T0 K0) as (y & I & Ey). exists y. unfold sr_key in Ey. injection Ey as -> _ _. auto.
  - apply z_sort_sorted, NoDup_nodup.
  - rewrite z_sort_In, nodup_In, in_map_iff. intros (y & <- & I). apply H1; auto.
  - intro Q. rewrite z_sort_In, nodup_In, in_map_iff. destruct (H2 _ x _ R0 Q K0) as (y & I & Ey). exists y. unfold sr_key in Ey. injection Ey as _ _ ->. auto.
  - apply sorted_ext; [apply z_sort_sorted, NoDup_nodup|apply zrange_sorted|]. intro k. rewrite z_sort_In, nodup_In, In_upto, in_map_iff. split.
    + intros (y & <- & I). apply H1; auto.
    + intro B. destruct (H2 _ _ k R0 T0 B) as (y & I & Ey). exists y. unfold sr_key in Ey. injection Ey as _ -> _. auto.
  - lia.
Qed.

Lemma frame_filter : forall df Rr Tt K (b : Z -> bool), full_frame df Rr Tt K -> (exists r, Rr r /\ b r = true) -> full_frame (filter (fun x => b (sr_res x)) df) (fun r => Rr r /\ b r = true) Tt K.
Proof.
  intros df Rr Tt K b (N & E & H1 & H2) (r0 & R0 & B0). destruct df as [|x0 df'] eqn:Ed; [congruence|]. rewrite <- Ed in *. assert (I0 : In x0 df) by (rewrite Ed; left; auto). clear Ed.
  destruct (H1 x0 I0) as (Rx & T0 & K0). repeat split.
  - clear -N. induction df as [|x o IH]; cbn; [constructor|]. cbn in N. inversion N as [|? ? Hx N']; subst. destruct (b (sr_res x)); cbn; auto. constructor; auto.
    intro J. apply Hx. apply in_map_iff in J. destruct J as (y & Ey & J). apply filter_In in J. rewrite <- Ey. apply in_map. tauto.
  - destruct (H2 r0 _ _ R0 T0 K0) as (y & I & Ey). intro Q. assert (J : In y (filter (fun x => b (sr_res x)) df)). { apply filter_In. split; auto. unfold sr_key in Ey. injection Ey as -> _ _. auto. } rewrite Q in J. destruct J.
  - apply filter_In in H. apply H1; tauto.
  - apply filter_In in H. tauto.
  - apply filter_In in H. apply H1; tauto.
  - apply filter_In in H. apply H1; tauto.
  - apply filter_In in H. apply H1; tauto.
  - intros r t k (Rr0 & Br) Tt0 Bk. destruct (H2 r t k Rr0 Tt0 Bk) as (y & I & Ey). exists y. split; auto. apply filter_In. split; auto. unfold sr_key in Ey. injection Ey as -> _ _. auto.
Qed.

Lemma frame_cube : forall df Rr Tt K, full_frame df Rr Tt K ->
  let space := z_sort (nodup Z.eq_dec (map sr_res df)) in let type := z_sort (nodup Z.eq_dec (map sr_type df)) in
  exists c, pm_cube space type (upto K) df = Ok c /\ r_cube c (vlen space) (vlen type) K /\
    forall i j k r v, vget space (i - 1) = Ok r -> vget type (j - 1) = Ok v -> 1 <= k <= K -> exists x, In x df /\ sr_key x = (r, k, v) /\ r_at c i j k = Ok (sr_norm x).
Proof.
  intros df Rr Tt K F space type. destruct (frame_lists df Rr Tt K F) as ((S1 & I1) & (S2 & I2) & _ & HK). fold space in S1, I1. fold type in S2, I2. destruct F as (N & E & H1 & H2).
  assert (LK : vlen (upto K) = K) by (unfold upto; rewrite vlen_zrange; lia).
  assert (GK : forall k, 1 <= k <= K -> vget (upto K) (k - 1) = Ok k) by (intros k B; unfold upto; rewrite vget_zrange by lia; f_equal; lia).
  destruct (cube_prf space type (upto K) df E (sorted_NoDup _ S1) (sorted_NoDup _ S2) (NoDup_zrange _ _) N) as (c & Ec & Cc & Gc).
  - intros x I. rewrite I1, I2, In_upto. apply H1; auto.
  - intros r t k. rewrite I1, I2, In_upto. apply H2.
  - exists c. split; auto. rewrite LK in Cc. split; auto. intros i j k r v G1 G2 B. destruct (H2 r v k) as (x & I & Ex); auto.
    + apply I1, (vget_In _ _ _ _ G1). + apply I2, (vget_In _ _ _ _ G2).
    + exists x. split; auto. split; auto. unfold sr_key in Ex. injection Ex as E1 E2 E3. apply Gc; auto; [rewrite E1|rewrite E3|rewrite E2]; auto.
Qed.

Definition slicer_of (data : list drow) (n : Z) (state : bool) : res (list srow) := if state then r_slicerstate (states data) n else r_slicercounter (variables data) n.

(** Without the hierarchy. *)
Lemma pj_flat : forall data cs n state df Rr Tt K, slicer_of data n state = Ok df -> full_frame df Rr Tt K ->
  exists mm, r_pjdump2micro (data, cs) n state false = Ok mm /\ lists Rr (mm_space mm) /\ lists Tt (mm_type mm) /\ mm_time mm = upto K /\ mm_hierarchy mm = [0] /\
    r_cube (mm_data mm) (vlen (mm_space mm)) (vlen (mm_type mm)) K /\
    forall i j k r v, vget (mm_space mm) (i - 1) = Ok r -> vget (mm_type mm) (j - 1) = Ok v -> 1 <= k <= K -> exists x, In x df /\ sr_key x = (r, k, v) /\ r_at (mm_data mm) i j k = Ok (sr_norm x).
Proof.
  intros data cs n state df Rr Tt K E F. destruct (frame_lists _ _ _ _ F) as (L1 & L2 & L3 & HK). destruct (frame_cube _ _ _ _ F) as (c & Ec & Cc & Gc).
  unfold r_pjdump2micro. cbn [fst snd]. unfold slicer_of in E. fold (states data) (variables data). rewrite E. cbn [bind]. rewrite L3, Ec. cbn [bind].
  eexists. split; [reflexivity|]. cbn [mm_space mm_type mm_time mm_data mm_hierarchy]. auto 10.
Qed.

Lemma is_parent_map : forall cs q, In q (map snd cs) <-> is_parent cs q.
Proof.
  intros cs q. rewrite in_map_iff. split; [intros ([c q'] & <- & I); exists c; auto|intros (c & I); exists (c, q); auto].
Qed.

(** With the hierarchy. *)
Lemma pj_tree : forall data cs n state df Rr Tt K root, slicer_of data n state = Ok df -> full_frame df Rr Tt K ->
  let P := fun r => Rr r /\ ~ is_parent cs r in (exists r, P r) -> tree_of cs P root ->
  exists mm, r_pjdump2micro (data, cs) n state true = Ok mm /\ lists P (mm_space mm) /\ lists Tt (mm_type mm) /\ mm_time mm = upto K /\
    r_cube (mm_data mm) (vlen (mm_space mm)) (vlen (mm_type mm)) K /\
    (forall i j k r v, vget (mm_space mm) (i - 1) = Ok r -> vget (mm_type mm) (j - 1) = Ok v -> 1 <= k <= K -> exists x, In x df /\ sr_key x = (r, k, v) /\ r_at (mm_data mm) i j k = Ok (sr_norm x)) /\
    (exists parents, lists (is_parent cs) parents /\ mm_nodes mm = mm_space mm ++ rev parents) /\ NoDup (mm_nodes mm) /\
    exists ro, vget (mm_nodes mm) ro = Ok root /\ (no_empty cs P -> valid_tree (vlen (mm_space mm)) (from0 (mm_hierarchy mm)) ro) /\ vlen (mm_hierarchy mm) = vlen (mm_nodes mm) /\
      (forall i x, vget (mm_nodes mm) (i - 1) = Ok x -> (x = root /\ vget (mm_hierarchy mm) (i - 1) = Ok 0) \/
         (x <> root /\ exists q j, In (x, q) cs /\ vget (mm_nodes mm) (j - 1) = Ok q /\ vget (mm_hierarchy mm) (i - 1) = Ok j)) /\
      (forall D, no_empty cs P -> (forall x, P x -> above (tl cs) D x root) -> r_tree (mm_hierarchy mm) (vlen (mm_space mm)) ro).
Proof.
  intros data cs n state df Rr Tt K root E F P HP T. destruct (frame_lists _ _ _ _ F) as (L1 & L2 & L3 & HK).
  pose proof (lists_sort (is_parent cs) (map snd cs) (is_parent_map cs)) as Lp.
  set (ps := z_sort (nodup Z.eq_dec (map snd cs))) in *. set (b := fun r => negb (existsb (Z.eqb r) (rev ps))).
  assert (Hb : forall r, b r = true <-> ~ is_parent cs r).
  { intro r. unfold b. rewrite negb_true_iff. split.
    - intros Q I. apply (proj2 Lp) in I. apply in_rev in I. assert (existsb (Z.eqb r) (rev ps) = true) by (apply existsb_exists; exists r; split; [auto|apply Z.eqb_refl]). congruence.
    - intro H. destruct (existsb _ _) eqn:Q; auto. exfalso. apply existsb_exists in Q. destruct Q as (y & I & Ey). apply Z.eqb_eq in Ey. subst y. apply in_rev in I. apply (proj2 Lp) in I. auto. }
  pose proof (frame_filter df Rr Tt K b F) as F'. destruct F' as (Fa & Fb & Fc & Fd). { destruct HP as (r & Q1 & Q2). exists r. split; auto. apply Hb. auto. }
  set (df' := filter (fun x => b (sr_res x)) df) in *.
  assert (F' : full_frame df' P Tt K).
  { repeat split; auto.
    - apply Fc; auto. - apply Hb. apply Fc; auto. - apply Fc; auto. - apply Fc; auto. - apply Fc; auto.
    - intros r t k (Q1 & Q2). apply Fd. split; auto. apply Hb. auto. }
  destruct (frame_lists _ _ _ _ F') as (M1 & M2 & M3 & _). destruct (frame_cube _ _ _ _ F') as (c & Ec & Cc & Gc).
  pose proof (lists_unique _ _ _ L2 M2) as E2.
  set (space := z_sort (nodup Z.eq_dec (map sr_res df'))) in *.
  destruct (tree_prf cs P root space ps T M1 Lp) as (Nn & vh & ro & Eh & Lv & Gro & V & Pv & U & L2').
  { intros x (_ & Q). exact Q. } { destruct HP as (r & Q). apply (proj2 M1) in Q. intro Z0. rewrite Z0 in Q. destruct Q. }
  unfold r_pjdump2micro. cbn [fst snd]. unfold slicer_of in E. fold (states data) (variables data). rewrite E. cbn [bind]. fold ps.
  change (fun x => negb (existsb (Z.eqb (sr_res x)) (rev ps))) with (fun x => b (sr_res x)). fold df'. fold space.
  rewrite (nodup_fixed_point Z.eq_dec Nn), Eh. cbn [bind]. rewrite L3. rewrite E2, Ec. cbn [bind].
  eexists. split; [reflexivity|]. cbn [mm_space mm_type mm_time mm_data mm_nodes mm_hierarchy]. rewrite <- E2 in *.
  split; auto. split; auto. split; auto. split; auto. split.
  { intros i j k r v G1 G2 B. destruct (Gc i j k r v G1 G2 B) as (x & I & Q). exists x. split; auto. apply filter_In in I. tauto. }
  split; [exists ps; auto|]. split; auto. exists ro. split; auto. split; auto. split; auto. split; auto.
  intros D Hf HD. split; [apply V; auto|]. split; [apply (U D); auto|auto].
Qed.

(** ** States *)
Lemma state_frame : forall trace n t0 t1, trace_span trace t0 t1 -> (forall w, In w trace -> row_ok w) -> (t0 < t1)%R -> (exists r, seen trace t0 t1 n r) ->
  exists df K, r_slicerstate trace n = Ok df /\ full_frame df (seen trace t0 t1 n) (seen_state trace t0 t1 n) K /\
    (exists w, In w trace /\ inside t0 t1 n w K) /\ (forall w k, In w trace -> inside t0 t1 n w k -> k <= K) /\
    forall x r k v, In x df -> sr_key x = (r, k, v) -> sr_norm x = (time_in trace r v (slice_lo t0 t1 n k) (slice_hi t0 t1 n k) / (t1 - t0))%R.
Proof.
  intros trace n t0 t1 Hs Hr Ht (r & w & k & I & _ & J). destruct (C66_slicerstate trace n t0 t1 Hs Hr Ht) as (o & K & E & N & (wK & IK & JK) & Kmax & Io); [exists w, k; auto|].
  assert (FF : forall r v k, seen trace t0 t1 n r -> seen_state trace t0 t1 n v -> 1 <= k <= K -> exists x, In x o /\ sr_key x = (r, k, v)).
  { intros r0 v k0 S1 S2 B. set (f := time_in trace r0 v (slice_lo t0 t1 n k0) (slice_hi t0 t1 n k0)).
    destruct (Classical_Prop.classic (exists w, In w trace /\ dr_res w = r0 /\ dr_state w = v /\ inside t0 t1 n w k0)) as [Q|Q].
    - exists (mkSR r0 k0 v (slice_lo t0 t1 n k0 - t0) (slice_hi t0 t1 n k0 - t0) f (f / (t1 - t0))). split; auto. apply Io. cbn. repeat split; auto; try lia; tauto.
    - exists (mkSR r0 k0 v 0 0 f (f / (t1 - t0))). split; auto. apply Io. cbn. repeat split; auto; try lia; tauto. }
  exists o, K. split; auto. split; [|split; [exists wK; auto|split; auto]].
  - split; auto. split; [|split; auto].
    + destruct (FF (dr_res w) (dr_state w) k) as (x & Ix & _); [exists w, k; auto|exists w, k; auto|pose proof (Kmax w k I J); pose proof (proj1 J); lia|]. intro Q. rewrite Q in Ix. destruct Ix.
    + intros x Ix. apply Io in Ix. destruct Ix as (A1 & A2 & A3 & _). auto.
  - intros x r0 k0 v Ix Ex. apply Io in Ix. destruct Ix as (_ & _ & _ & E1 & E2 & _). unfold sr_key in Ex. injection Ex as <- <- <-. rewrite E2, E1. reflexivity.
Qed.

(** Without the hierarchy: the elements of Space are the resources, those of Type the states seen inside a slice; Time counts the slices, up to the last one in which a
    state is seen; an element of the array is the part of the whole trace that the resource spends in the state within the slice. *)
Theorem C68_states_flat : forall data containers n t0 t1, trace_span (states data) t0 t1 -> (forall w, In w (states data) -> row_ok w) -> (t0 < t1)%R ->
  (exists r, seen (states data) t0 t1 n r) ->
  exists mm K, r_pjdump2micro (data, containers) n true false = Ok mm /\
    (exists w, In w (states data) /\ inside t0 t1 n w K) /\ (forall w k, In w (states data) -> inside t0 t1 n w k -> k <= K) /\
    lists (seen (states data) t0 t1 n) (mm_space mm) /\ lists (seen_state (states data) t0 t1 n) (mm_type mm) /\ mm_time mm = upto K /\ mm_hierarchy mm = [0] /\
    r_cube (mm_data mm) (vlen (mm_space mm)) (vlen (mm_type mm)) K /\
    forall i j k r v, vget (mm_space mm) (i - 1) = Ok r -> vget (mm_type mm) (j - 1) = Ok v -> 1 <= k <= K ->
      r_at (mm_data mm) i j k = Ok (time_in (states data) r v (slice_lo t0 t1 n k) (slice_hi t0 t1 n k) / (t1 - t0))%R.
Proof.
  intros data cs n t0 t1 Hs Hr Ht He. destruct (state_frame (states data) n t0 t1 Hs Hr Ht He) as (df & K & E & F & HK & Km & Gn).
  destruct (pj_flat data cs n true df _ _ K E F) as (mm & Em & L1 & L2 & L3 & L4 & C & G). exists mm, K. repeat (split; [assumption|]).
  intros i j k r v G1 G2 B. destruct (G i j k r v G1 G2 B) as (x & I & Ex & ->). rewrite (Gn x r k v I Ex). reflexivity.
Qed.
Print Assumptions C68_states_flat.

(** With the hierarchy: Space is restricted to the resources that are no parents; the nodes of the hierarchy are these, followed by the parents in decreasing order; the
    vector gives for every node the position of its parent's name, and 0 for the root, which is the first container. If every parent has an element of Space below, it is a tree over the elements of Space. When all of
    these have the same number of containers above, it is a tree that haggregate and daggregate handle (C59). *)
Theorem C68_states : forall data containers n t0 t1 root, trace_span (states data) t0 t1 -> (forall w, In w (states data) -> row_ok w) -> (t0 < t1)%R ->
  let P := fun r => seen (states data) t0 t1 n r /\ ~ is_parent containers r in (exists r, P r) -> tree_of containers P root ->
  exists mm K, r_pjdump2micro (data, containers) n true true = Ok mm /\
    (exists w, In w (states data) /\ inside t0 t1 n w K) /\ (forall w k, In w (states data) -> inside t0 t1 n w k -> k <= K) /\
    lists P (mm_space mm) /\ lists (seen_state (states data) t0 t1 n) (mm_type mm) /\ mm_time mm = upto K /\
    r_cube (mm_data mm) (vlen (mm_space mm)) (vlen (mm_type mm)) K /\
    (forall i j k r v, vget (mm_space mm) (i - 1) = Ok r -> vget (mm_type mm) (j - 1) = Ok v -> 1 <= k <= K ->
      r_at (mm_data mm) i j k = Ok (time_in (states data) r v (slice_lo t0 t1 n k) (slice_hi t0 t1 n k) / (t1 - t0))%R) /\
    (exists parents, lists (is_parent containers) parents /\ mm_nodes mm = mm_space mm ++ rev parents) /\ NoDup (mm_nodes mm) /\
    exists ro, vget (mm_nodes mm) ro = Ok root /\ (no_empty containers P -> valid_tree (vlen (mm_space mm)) (from0 (mm_hierarchy mm)) ro) /\ vlen (mm_hierarchy mm) = vlen (mm_nodes mm) /\
      (forall i x, vget (mm_nodes mm) (i - 1) = Ok x -> (x = root /\ vget (mm_hierarchy mm) (i - 1) = Ok 0) \/
         (x <> root /\ exists q j, In (x, q) containers /\ vget (mm_nodes mm) (j - 1) = Ok q /\ vget (mm_hierarchy mm) (i - 1) = Ok j)) /\
      (forall D, no_empty containers P -> (forall x, P x -> above (tl containers) D x root) -> r_tree (mm_hierarchy mm) (vlen (mm_space mm)) ro).
Proof.
  intros data cs n t0 t1 root Hs Hr Ht P HP T. destruct (state_frame (states data) n t0 t1 Hs Hr Ht) as (df & K & E & F & HK & Km & Gn). { destruct HP as (r & Q & _). exists r; auto. }
  destruct (pj_tree data cs n true df _ _ K root E F HP T) as (mm & Em & L1 & L2 & L3 & C & G & Nd & Rest). exists mm, K. repeat (split; [assumption|]). split; [|split; auto].
  intros i j k r v G1 G2 B. destruct (G i j k r v G1 G2 B) as (x & I & Ex & ->). rewrite (Gn x r k v I Ex). reflexivity.
Qed.
Print Assumptions C68_states.

(** ** Counters *)
Lemma Rsum_prod : forall X Y (f : X -> Y -> R) (a : list X) (b : list Y), Rsum (fun p => f (fst p) (snd p)) (list_prod a b) = Rsum (fun x => Rsum (f x) b) a.
Proof.
  intros X Y f a b. induction a as [|x a IH]; [reflexivity|]. cbn [list_prod]. rewrite Rsum_app, Rsum_map, Rsum_cons, IH. reflexivity.
Qed.

Lemma counter_frame : forall trace n t0 t1 df, trace_span trace t0 t1 -> r_slicercounter trace n = Ok df ->
  exists K, full_frame df (counted trace t0 t1 n) (counter_type trace t0 t1 n) K /\
    (exists r t, measured trace t0 t1 n r t K) /\ (forall r t k, measured trace t0 t1 n r t k -> k <= K) /\
    forall all, lists (counted trace t0 t1 n) all -> forall x r k t, In x df -> sr_key x = (r, k, t) ->
      sr_norm x = (counter_value trace t0 t1 n r t k / Rsum (fun r' => Rsum (fun k' => counter_value trace t0 t1 n r' t k') (upto K)) all)%R.
Proof.
  intros trace n t0 t1 o Hs E. destruct (C67_counter trace n t0 t1 o Hs E) as (N & K & (rK & tK & MK) & Km & Io). exists K.
  assert (Ev : forall x, In x o -> sr_sum x = counter_value trace t0 t1 n (sr_res x) (sr_type x) (sr_slice x)).
  { intros x I. apply Io in I. destruct I as (_ & _ & _ & A1 & A2 & _). unfold counter_value. destruct (ClassicalDedekindReals.sig_not_dec _) as [Q|Q].
    - apply Classical_Prop.NNPP in Q. apply A1; auto. - apply A2; auto. }
  assert (FF : forall r t k, counted trace t0 t1 n r -> counter_type trace t0 t1 n t -> 1 <= k <= K -> exists x, In x o /\ sr_key x = (r, k, t)).
  { intros r t k S1 S2 B. destruct (Classical_Prop.classic (measured trace t0 t1 n r t k)) as [Q|Q].
    - set (v := Rmax 0 (mean_rate trace r t (slice_lo t0 t1 n k) (slice_hi t0 t1 n k))). exists (mkSR r k t (slice_lo t0 t1 n k - t0) (slice_hi t0 t1 n k - t0) v (v / sum_where (fun y => sr_type y =? t) sr_sum o)).
      split; auto. apply Io. cbn. repeat split; auto; try lia; tauto.
    - exists (mkSR r k t 0 0 0 (0 / sum_where (fun y => sr_type y =? t) sr_sum o)). split; auto. apply Io. cbn. repeat split; auto; try lia; tauto. }
  assert (HK : 1 <= K) by (destruct MK as (p & _ & (B & _)); lia).
  split; [|split; [exists rK, tK; auto|split; auto]].
  - split; auto. split; [|split; auto].
    + destruct (FF rK tK K) as (x & I & _); [exists tK, K; auto|exists rK, K; auto|lia|]. intro Q. rewrite Q in I. destruct I.
    + intros x I. apply Io in I. destruct I as (A1 & A2 & A3 & _). auto.
  - intros all (Sa & Ia) x r k t I Ex. unfold sr_key in Ex. injection Ex as <- <- <-. pose proof (Ev x I) as V. apply Io in I. destruct I as (_ & T2 & _ & _ & _ & ->). rewrite V. f_equal.
    set (t := sr_type x) in *. unfold sum_where. rewrite (Rsum_ext _ sr_sum (fun y => counter_value trace t0 t1 n (sr_res y) t (sr_slice y))).
    2: { intros y Iy. apply filter_In in Iy. destruct Iy as [Iy Et]. apply Z.eqb_eq in Et. rewrite (Ev y Iy), Et. reflexivity. }
    assert (Pm : Permutation (map (fun y => (sr_res y, sr_slice y)) (filter (fun y => sr_type y =? t) o)) (list_prod all (upto K))).
    { apply NoDup_Permutation.
      - apply (NoDup_map_inv (fun p : Z * Z => (fst p, snd p, t))). rewrite map_map. cbn [fst snd]. rewrite (map_ext_in _ sr_key).
        + clear -N. induction o as [|y o IH]; cbn; [constructor|]. cbn in N. inversion N as [|? ? Hx N']; subst. destruct (_ =? _); cbn; auto. constructor; auto.
          intro J. apply Hx. apply in_map_iff in J. destruct J as (z & Ez & J). apply filter_In in J. rewrite <- Ez. apply in_map. tauto.
        + intros y Iy. apply filter_In in Iy. destruct Iy as [_ Et]. apply Z.eqb_eq in Et. unfold sr_key. congruence.
      - apply NoDup_list_prod; [apply sorted_NoDup; auto|apply NoDup_zrange].
      - intros [r k]. rewrite in_prod_iff, In_upto, Ia, in_map_iff. split.
        + intros (y & Ey & Iy). injection Ey as <- <-. apply filter_In in Iy. destruct Iy as [Iy _]. apply Io in Iy. destruct Iy as (A1 & _ & A3 & _). auto.
        + intros (S1 & B). destruct (FF r t k S1 T2 B) as (y & Iy & Ey). unfold sr_key in Ey. injection Ey as E1 E2 E3. exists y. split; [congruence|]. apply filter_In. split; auto. apply Z.eqb_eq. auto. }
    transitivity (Rsum (fun p : Z * Z => counter_value trace t0 t1 n (fst p) t (snd p)) (map (fun y => (sr_res y, sr_slice y)) (filter (fun y => sr_type y =? t) o))); [rewrite Rsum_map; reflexivity|].
    rewrite (Rsum_perm _ _ _ _ Pm). apply (Rsum_prod _ _ (fun r' k' => counter_value trace t0 t1 n r' t k')).
Qed.

(** The same two for counters: an element of the array is the mean rate of the counter in the slice, divided by the sum of these over all resources and slices. *)
Theorem C68_counters_flat : forall data containers n t0 t1 df, trace_span (variables data) t0 t1 -> r_slicercounter (variables data) n = Ok df ->
  exists mm K, r_pjdump2micro (data, containers) n false false = Ok mm /\
    (exists r t, measured (variables data) t0 t1 n r t K) /\ (forall r t k, measured (variables data) t0 t1 n r t k -> k <= K) /\
    lists (counted (variables data) t0 t1 n) (mm_space mm) /\ lists (counter_type (variables data) t0 t1 n) (mm_type mm) /\ mm_time mm = upto K /\ mm_hierarchy mm = [0] /\
    r_cube (mm_data mm) (vlen (mm_space mm)) (vlen (mm_type mm)) K /\
    forall i j k r t, vget (mm_space mm) (i - 1) = Ok r -> vget (mm_type mm) (j - 1) = Ok t -> 1 <= k <= K ->
      r_at (mm_data mm) i j k = Ok (counter_value (variables data) t0 t1 n r t k / Rsum (fun r' => Rsum (fun k' => counter_value (variables data) t0 t1 n r' t k') (upto K)) (mm_space mm))%R.
Proof.
  intros data cs n t0 t1 df Hs E. destruct (counter_frame (variables data) n t0 t1 df Hs E) as (K & F & HK & Km & Gn).
  destruct (pj_flat data cs n false df _ _ K E F) as (mm & Em & L1 & L2 & L3 & L4 & C & G). exists mm, K. repeat (split; [assumption|]).
  intros i j k r v G1 G2 B. destruct (G i j k r v G1 G2 B) as (x & I & Ex & ->). rewrite (Gn _ L1 x r k v I Ex). reflexivity.
Qed.
Print Assumptions C68_counters_flat.

Theorem C68_counters : forall data containers n t0 t1 df root, trace_span (variables data) t0 t1 -> r_slicercounter (variables data) n = Ok df ->
  let P := fun r => counted (variables data) t0 t1 n r /\ ~ is_parent containers r in (exists r, P r) -> tree_of containers P root ->
  exists mm K, r_pjdump2micro (data, containers) n false true = Ok mm /\
    (exists r t, measured (variables data) t0 t1 n r t K) /\ (forall r t k, measured (variables data) t0 t1 n r t k -> k <= K) /\
    lists P (mm_space mm) /\ lists (counter_type (variables data) t0 t1 n) (mm_type mm) /\ mm_time mm = upto K /\
    r_cube (mm_data mm) (vlen (mm_space mm)) (vlen (mm_type mm)) K /\
    (forall all i j k r t, lists (counted (variables data) t0 t1 n) all -> vget (mm_space mm) (i - 1) = Ok r -> vget (mm_type mm) (j - 1) = Ok t -> 1 <= k <= K ->
      r_at (mm_data mm) i j k = Ok (counter_value (variables data) t0 t1 n r t k / Rsum (fun r' => Rsum (fun k' => counter_value (variables data) t0 t1 n r' t k') (upto K)) all)%R) /\
    (exists parents, lists (is_parent containers) parents /\ mm_nodes mm = mm_space mm ++ rev parents) /\ NoDup (mm_nodes mm) /\
    exists ro, vget (mm_nodes mm) ro = Ok root /\ (no_empty containers P -> valid_tree (vlen (mm_space mm)) (from0 (mm_hierarchy mm)) ro) /\ vlen (mm_hierarchy mm) = vlen (mm_nodes mm) /\
      (forall i x, vget (mm_nodes mm) (i - 1) = Ok x -> (x = root /\ vget (mm_hierarchy mm) (i - 1) = Ok 0) \/
         (x <> root /\ exists q j, In (x, q) containers /\ vget (mm_nodes mm) (j - 1) = Ok q /\ vget (mm_hierarchy mm) (i - 1) = Ok j)) /\
      (forall D, no_empty containers P -> (forall x, P x -> above (tl containers) D x root) -> r_tree (mm_hierarchy mm) (vlen (mm_space mm)) ro).
Proof.
  intros data cs n t0 t1 df root Hs E P HP T. destruct (counter_frame (variables data) n t0 t1 df Hs E) as (K & F & HK & Km & Gn).
  destruct (pj_tree data cs n false df _ _ K root E F HP T) as (mm & Em & L1 & L2 & L3 & C & G & Nd & Rest). exists mm, K. repeat (split; [assumption|]). split; [|split; auto].
  intros all i j k r v La G1 G2 B. destruct (G i j k r v G1 G2 B) as (x & I & Ex & ->). rewrite (Gn _ La x r k v I Ex). reflexivity.
Qed.
Print Assumptions C68_counters.

(** ** What pjdump2micro needs: with the hierarchy, an answer means that every parent is a container and every element of Space is one. *)
Theorem C68_needs : forall data containers n state mm, r_pjdump2micro (data, containers) n state true = Ok mm ->
  (forall q, is_parent containers q -> is_container containers q) /\ (forall x, In x (mm_space mm) -> is_container containers x).
Proof.
  intros data cs n state mm E. unfold r_pjdump2micro in E. cbn [fst snd] in E. destruct (if state then _ else _) as [df| |]; try discriminate. cbn [bind] in E.
  destruct (pm_hierarchy _ _) as [vh| |] eqn:Eh; try discriminate. cbn [bind] in E. destruct (pm_cube _ _ _ _) as [c| |]; try discriminate. cbn [bind] in E. injection E as <-.
  cbn [mm_space]. split; intros x I; apply (pm_hierarchy_needs _ _ _ x Eh); rewrite nodup_In; apply in_or_app; [right|left; auto].
  apply in_rev. rewrite rev_involutive, z_sort_In, nodup_In. apply is_parent_map. auto.
Qed.
Print Assumptions C68_needs.
