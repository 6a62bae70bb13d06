(** * The hypotheses of C70 are met: a file, its array and hierarchy, the frames of oaggregate and haggregate, and the data of the plots. *)
From Coq Require Import Lia Sorting.Sorted Reals Lra.
From Verif Require Import Base BaseFacts Arith Quality Utm Hierarchy SpecTree TreeFacts TreeDec HierarchyFacts HierarchyStop HierarchyProofs HierCheck SpecParts SpecInfo CoverFacts InfoFacts Values SpecData DegFacts P_Pipeline SpecSearch SearchReal RApi SpecR P_RApi P_RCurve RHelpers SpecMacro GetPath MacroFacts HMacroFacts P_RMacro P_OrderedData Slicer SpecSlicer SlicerFacts P_Slicer SpecPj PjFacts PjTree P_Pj P_EndToEnd P_RootPlace.

(** A machine (9) with two threads (1 and 2); the first one is in state 1 from 0 to 2, the second one from 0 to 1. *)
Definition two_threads : list pjline := [LContainer 9 9; LContainer 9 1; LContainer 9 2; LState 1 5 0 2 2 1; LState 2 5 0 1 1 1].
Definition tt_data : list drow := fst (r_parse two_threads).
Definition tt_cs : list (Z * Z) := snd (r_parse two_threads).

Lemma tt_span : trace_span (states tt_data) 0 2 /\ (forall w, In w (states tt_data) -> row_ok w).
Proof.
  split.
  - split; [exists (mkDR NState 1 5 0 2 2 1 0); cbn; auto|]. split; [exists (mkDR NState 1 5 0 2 2 1 0); cbn; auto|]. intros w [<-|[<-|[]]]; cbn; lra.
  - intros w [<-|[<-|[]]]; unfold row_ok; cbn; lra.
Qed.

Definition ttP (r : Z) : Prop := seen (states tt_data) 0 2 2 r /\ ~ is_parent tt_cs r.

Lemma tt_seen : forall r, seen (states tt_data) 0 2 2 r <-> r = 1 \/ r = 2.
Proof.
  intro r. split.
  - intros (w & k & [<-|[<-|[]]] & <- & _); cbn; auto.
  - intros [->| ->].
    + exists (mkDR NState 1 5 0 2 2 1 0), 1. split; [cbn; auto|]. split; auto. split; [lia|]. exists (1/2)%R. unfold slice_lo, slice_hi. cbn. lra.
    + exists (mkDR NState 2 5 0 1 1 1 0), 1. split; [cbn; auto|]. split; auto. split; [lia|]. exists (1/2)%R. unfold slice_lo, slice_hi. cbn. lra.
Qed.

Lemma tt_P : forall x, ttP x <-> x = 1 \/ x = 2.
Proof. intro x. unfold ttP. rewrite tt_seen. split; [tauto|]. intro Q. split; auto. intros (c & H). cbn in H. destruct H as [H|[H|[H|[]]]]; injection H as _ H; lia. Qed.

Lemma tt_par : forall q, is_parent tt_cs q <-> q = 9.
Proof. intro q. split; [intros (c & H); cbn in H; destruct H as [H|[H|[H|[]]]]; injection H; auto|intros ->; exists 1; cbn; auto]. Qed.

Lemma tt_above : forall x, ttP x -> above (tl tt_cs) 1 x 9.
Proof. intros x H. apply tt_P in H. destruct H as [->| ->]; (apply above_S with 9; [cbn; auto|constructor]). Qed.

Lemma tt_tree : tree_of tt_cs ttP 9 /\ no_empty tt_cs ttP.
Proof.
  split.
  - exists 9, (tl tt_cs). split; [reflexivity|]. split; [cbn; repeat constructor; cbn; lia|]. split; [|split].
    + intros q H. apply tt_par in H. subst. exists 9. cbn. auto.
    + intros x H. apply tt_P in H. destruct H as [->| ->]; exists 9; cbn; auto.
    + intros x [H|H]; [exists 1%nat; apply tt_above; auto|]. apply tt_par in H. subst. exists 0%nat. constructor.
  - intros q H. apply tt_par in H. subst. exists 1, 1%nat. split; [apply tt_P; auto|apply tt_above, tt_P; auto].
Qed.

Lemma tt_lists : forall l, lists ttP l -> l = [1; 2].
Proof. intros l H. apply (lists_unique _ _ _ H). split; [repeat constructor; lia|]. intro x. cbn. rewrite tt_P. lia. Qed.

Lemma tt_types : forall l, lists (seen_state (states tt_data) 0 2 2) l -> l = [1].
Proof.
  intros l H. apply (lists_unique _ _ _ H). split; [repeat constructor; lia|]. intro x. cbn. split.
  - intros [<-|[]]. exists (mkDR NState 1 5 0 2 2 1 0), 1. split; [cbn; auto|]. split; auto. split; [lia|]. exists (1/2)%R. unfold slice_lo, slice_hi. cbn. lra.
  - intros (w & k & [<-|[<-|[]]] & <- & _); cbn; auto.
Qed.

Lemma tt_K : forall K, (exists w, In w (states tt_data) /\ inside 0 2 2 w K) -> (forall w k, In w (states tt_data) -> inside 0 2 2 w k -> k <= K) -> K = 2.
Proof.
  intros K (w & I & (B & _)) H. assert (2 <= K); [|lia]. apply (H (mkDR NState 1 5 0 2 2 1 0)); [cbn; auto|]. split; [lia|]. exists (3/2)%R. unfold slice_lo, slice_hi. cbn. lra.
Qed.

Lemma tt_cells : forall k, 1 <= k <= 2 -> time_in (states tt_data) 1 1 (slice_lo 0 2 2 k) (slice_hi 0 2 2 k) = 1%R /\
  time_in (states tt_data) 2 1 (slice_lo 0 2 2 k) (slice_hi 0 2 2 k) = (if k =? 1 then 1 else 0)%R.
Proof.
  intros k B. assert (k = 1 \/ k = 2) as [->| ->] by lia; unfold time_in, slice_lo, slice_hi, overlap, Rmax, Rmin; cbn; repeat (destruct (Rle_dec _ _)); lra.
Qed.

Lemma log2_half : log2 (1 / 2) = (-1)%R.
Proof.
  unfold log2. replace (1 / 2)%R with (/ 2)%R by lra. rewrite ln_Rinv by lra. pose proof ln2_pos. field. lra.
Qed.
Lemma hh : gain_of [1 / 2; 1 / 2]%R = 1%R.
Proof.
  unfold gain_of, total, Rsum. cbn [map fold_right]. replace (1 / 2 + (1 / 2 + 0))%R with 1%R by field.
  unfold xlog2. repeat match goal with |- context [Rlt_dec ?a ?b] => destruct (Rlt_dec a b); try lra end. rewrite log2_1, log2_half. field.
Qed.
Lemma h0 : gain_of [1 / 2; 0]%R = 0%R.
Proof.
  unfold gain_of, total, Rsum. cbn [map fold_right]. replace (1 / 2 + (0 + 0))%R with (1 / 2)%R by field.
  unfold xlog2. repeat match goal with |- context [Rlt_dec ?a ?b] => destruct (Rlt_dec a b); try lra end.
Qed.

Lemma tt_sums : Rsum gain_of [[1 / 2; 1 / 2]; [1 / 2; 0]]%R = 1%R /\ Rsum loss_of [[1 / 2; 1 / 2]; [1 / 2; 0]]%R = (1 / 2)%R.
Proof.
  split; unfold Rsum; cbn [map fold_right]; unfold loss_of; rewrite hh, h0; [ring|].
  change (vlen [1 / 2; 1 / 2]%R) with 2. change (vlen [1 / 2; 0]%R) with 2. rewrite log2_2. unfold total, Rsum. cbn [map fold_right]. field.
Qed.

Lemma at_val : forall (micro : rarray RA) i j k (x y : R), @eq (res R) (r_at micro i j k) (Ok x) -> @eq R x y -> r_val micro i j k = y.
Proof. intros micro i j k x y E <-. apply r_val_at; auto. Qed.

(** All arrays that pjdump2micro may give on the file have the shape and the values of [1/2, 1/2; 1/2, 0]. *)
Lemma tt_curves : forall micro : rarray RA, r_cube micro 2 1 2 ->
  (forall i k r, vget [1; 2] (i - 1) = Ok r -> 1 <= k <= 2 -> r_at micro i 1 k = Ok (time_in (states tt_data) r 1 (slice_lo 0 2 2 k) (slice_hi 0 2 2 k) / (2 - 0))%R) ->
  (exists r, r_oaggregate RA id_num false 11 micro (/ 1000)%R = Ok r) /\
  ((r_tree [3; 3; 0] 2 2) -> exists r, r_haggregate RA id_num false 11 micro [3; 3; 0] (/ 1000)%R = Ok r).
Proof.
  intros micro C G. destruct (tt_cells 1 ltac:(lia)) as (C11 & C21). destruct (tt_cells 2 ltac:(lia)) as (C12 & C22). change (2 =? 1) with false in C22. change (1 =? 1) with true in C21. cbv iota in C21, C22.
  assert (V11 : r_val micro 1 1 1 = (1 / 2)%R) by (apply (at_val _ _ _ _ _ _ (G 1 1 1 eq_refl ltac:(lia))); rewrite C11; field).
  assert (V21 : r_val micro 2 1 1 = (1 / 2)%R) by (apply (at_val _ _ _ _ _ _ (G 2 1 2 eq_refl ltac:(lia))); rewrite C21; field).
  assert (V12 : r_val micro 1 1 2 = (1 / 2)%R) by (apply (at_val _ _ _ _ _ _ (G 1 2 1 eq_refl ltac:(lia))); rewrite C12; field).
  assert (V22 : r_val micro 2 1 2 = 0%R) by (apply (at_val _ _ _ _ _ _ (G 2 2 2 eq_refl ltac:(lia))); rewrite C22; field).
  assert (S1 : r_series micro 2 1 2 = [[1 / 2; 1 / 2]; [1 / 2; 0]]%R) by (change (r_series micro 2 1 2) with [[r_val micro 1 1 1; r_val micro 1 1 2]; [r_val micro 2 1 1; r_val micro 2 1 2]]; rewrite V11, V12, V21, V22; reflexivity).
  assert (S2 : r_columns micro 2 1 2 = [[1 / 2; 1 / 2]; [1 / 2; 0]]%R) by (change (r_columns micro 2 1 2) with [[r_val micro 1 1 1; r_val micro 2 1 1]; [r_val micro 1 1 2; r_val micro 2 1 2]]; rewrite V11, V12, V21, V22; reflexivity).
  destruct tt_sums as (Sg & Sl). assert (Hth : (1 <= / 1000 * 2 ^ 10)%R) by (cbn; lra).
  assert (NN : nonneg (ra_data micro)).
  { destruct C as (Ed & _ & _ & _ & Lv). unfold r_val, r_at in V11, V12, V21, V22. rewrite Ed in *. destruct (ra_data micro) as [|a [|b [|c [|d [|e l]]]]]; unfold vlen in Lv; cbn in Lv; try lia. change (a = 1 / 2)%R in V11. change (b = 1 / 2)%R in V21. change (c = 1 / 2)%R in V12. change (d = 0)%R in V22. subst. unfold nonneg. repeat apply Forall_cons; try lra. constructor. }
  split.
  - destruct (C60_ordered_total (/ 1000)%R micro 2 1 2 10 C ltac:(lia) NN) as (r & E & _); try (rewrite S1, ?Sg, ?Sl; lra); auto. exists r. auto.
  - intro Tr. destruct (C60_hier_total (/ 1000)%R micro 2 1 2 [3; 3; 0] 10 C Tr NN) as (r & E & _); try (rewrite S2, ?Sg, ?Sl; lra); auto. exists r. auto.
Qed.

Lemma tt_ordered : exists mm, r_pjdump2micro (r_parse two_threads) 2 true false = Ok mm /\ mm_space mm = [1; 2] /\ mm_type mm = [1] /\ exists r, r_oaggregate RA id_num false 11 (mm_data mm) (/ 1000)%R = Ok r.
Proof.
  destruct tt_span as (Hs & Hr). destruct (C68_states_flat tt_data tt_cs 2 0 2 Hs Hr ltac:(lra)) as (mm & K & Em & HK & Km & Ls & Lt & _ & _ & C & G). { exists 1. apply tt_seen. auto. }
  exists mm. split; [exact Em|]. assert (Es : mm_space mm = [1; 2]). { apply tt_lists. destruct Ls as (S1 & S2). split; auto. intro x. rewrite S2, tt_P, tt_seen. tauto. }
  assert (Et : mm_type mm = [1]) by (apply tt_types; auto). rewrite Es, Et in *. rewrite (tt_K K HK Km) in *. split; auto. split; auto.
  apply (tt_curves (mm_data mm) C). intros i k r Gr B. apply (G i 1 k r 1); auto.
Qed.

Lemma tt_hier : exists mm, r_pjdump2micro (r_parse two_threads) 2 true true = Ok mm /\ mm_space mm = [1; 2] /\ mm_type mm = [1] /\ mm_hierarchy mm = [3; 3; 0] /\
  exists r, r_haggregate RA id_num false 11 (mm_data mm) (mm_hierarchy mm) (/ 1000)%R = Ok r.
Proof.
  destruct tt_span as (Hs & Hr). destruct tt_tree as (T & Nf).
  destruct (C68_states tt_data tt_cs 2 0 2 9 Hs Hr ltac:(lra) (ex_intro _ 1 (proj2 (tt_P 1) (or_introl eq_refl))) T) as (mm & K & Em & HK & Km & Ls & Lt & _ & C & G & (ps & Lp & En) & Nd & ro & Gro & V & Lv & Hn & Ut).
  exists mm. split; [exact Em|]. assert (Es : mm_space mm = [1; 2]) by (apply tt_lists; exact Ls).
  assert (Et : mm_type mm = [1]) by (apply tt_types; auto). rewrite Es, Et in *. rewrite (tt_K K HK Km) in *. split; auto. split; auto.
  assert (Ep : ps = [9]). { apply (lists_unique _ _ _ Lp). split; [repeat constructor|]. intro x. cbn. rewrite tt_par. lia. }
  rewrite Ep in En. cbn in En. rewrite En in *.
  assert (J : forall j, vget [1; 2; 9] (j - 1) = Ok 9 -> j = 3).
  { intros j H. pose proof (vget_inv _ _ _ _ H) as B. unfold vlen in B. cbn in B. assert (j = 1 \/ j = 2 \/ j = 3) as [->|[->| ->]] by lia; [discriminate H|discriminate H|reflexivity]. }
  assert (Q : forall x q, In (x, q) tt_cs -> q = 9) by (intros x q H; apply tt_par; exists x; auto).
  assert (Eh : mm_hierarchy mm = [3; 3; 0]).
  { destruct (mm_hierarchy mm) as [|h1 [|h2 [|h3 [|h4 hh]]]] eqn:Eh; unfold vlen in Lv; cbn in Lv; try lia.
    destruct (Hn 1 1 eq_refl) as [(K1 & _)|(_ & q1 & j1 & I1 & Gj1 & H1)]; [lia|]. destruct (Hn 2 2 eq_refl) as [(K2 & _)|(_ & q2 & j2 & I2 & Gj2 & H2)]; [lia|].
    destruct (Hn 3 9 eq_refl) as [(_ & H3)|(K3 & _)]; [|lia]. apply Q in I1, I2. subst q1 q2. apply J in Gj1, Gj2. change (Ok h1 = Ok j1) in H1. change (Ok h2 = Ok j2) in H2. change (Ok h3 = Ok 0) in H3. congruence. }
  split; auto. assert (Er : ro + 1 = 3) by (apply J; replace (ro + 1 - 1) with ro by lia; exact Gro). assert (ro = 2) by lia. subst ro.
  pose proof (Ut 1%nat Nf tt_above) as Tr. rewrite Eh in *. change (vlen [1; 2]) with 2 in Tr.
  refine (proj2 (tt_curves (mm_data mm) C _) Tr). intros i k r Gr B. apply (G i 1 k r 1); auto.
Qed.

Lemma tt_time : total_time (states tt_data) 1 1 = 2%R /\ total_time (states tt_data) 2 1 = 1%R.
Proof. split; unfold total_time, sum_where, Rsum; cbn; ring. Qed.

(** Both ways from the file to the plots; the first thread is in state 1 during the whole trace and the second one during a half. *)
Example C70_nonvacuous :
  (exists mm r agg, r_pjdump2micro (r_parse two_threads) 2 true false = Ok mm /\ r_oaggregate RA id_num false 11 (mm_data mm) (/ 1000)%R = Ok r /\
    r_omacro (rr_parts r) (mm_data mm) (rr_popt r) = Ok agg /\
    sum_where (fun '(i', j', _, _, _) => (i' =? 2) && (j' =? 1)) (fun '(_, _, s, e, y) => (IZR (e - s + 1) * y)%R) agg = (1 / 2)%R) /\
  (exists mm r agg, r_pjdump2micro (r_parse two_threads) 2 true true = Ok mm /\ r_haggregate RA id_num false 11 (mm_data mm) (mm_hierarchy mm) (/ 1000)%R = Ok r /\
    r_hmacro (rr_parts r) (mm_data mm) (mm_hierarchy mm) (rr_popt r) = Ok agg /\ sum_where (fun '(_, j', _, _, _, _) => j' =? 1) (fun '(_, _, _, _, y, _) => y) agg = (3 / 2)%R).
Proof.
  destruct tt_span as (Hs & Hr). destruct tt_tree as (T & Nf). destruct tt_time as (T1 & T2).
  assert (Irr : forall x, p_ltb RA x x = false) by (intro x; cbn; unfold Rltb; destruct (Rlt_dec x x); [exfalso; lra|reflexivity]).
  assert (Z1 : plt RA (p_zero RA) (p_one RA)) by (apply plt_RA; rewrite one_RA; cbn; lra). split.
  - destruct tt_ordered as (mm & Em & Es & Et & r & Er). exists mm, r. destruct (C68_states_flat tt_data tt_cs 2 0 2 Hs Hr ltac:(lra)) as (mm' & K & Em' & HK & Km & _ & _ & _ & _ & C & _). { exists 1. apply tt_seen. auto. }
    change (r_parse two_threads) with (tt_data, tt_cs) in *. rewrite Em in Em'. injection Em' as <-. rewrite (tt_K K HK Km) in C.
    destruct (C59_ordered RA id_num (fun _ => True) (/ 1000)%R Irr (real_bisectable _) I I Z1 (mm_data mm) _ _ _ 11 r C ltac:(lia) Er) as ((_ & _ & _ & _ & Po) & _).
    destruct (C70_ordered tt_data tt_cs 2 0 2 mm (/ 1000)%R 11 r (rr_popt r) Hs Hr ltac:(lra) (ex_intro _ 1 (proj2 (tt_seen 1) (or_introl eq_refl))) ltac:(lia) Em Er Po) as (agg & Ea & Q).
    exists agg. do 3 (split; auto). rewrite (Q 2 1 2 1) by (rewrite ?Es, ?Et; reflexivity). rewrite T2. field.
  - destruct tt_hier as (mm & Em & Es & Et & Eh & r & Er). exists mm, r.
    destruct (C68_states tt_data tt_cs 2 0 2 9 Hs Hr ltac:(lra) (ex_intro _ 1 (proj2 (tt_P 1) (or_introl eq_refl))) T) as (mm' & K & Em' & HK & Km & _ & _ & _ & C & _ & _ & _ & ro & _ & _ & _ & _ & Ut).
    change (r_parse two_threads) with (tt_data, tt_cs) in *. rewrite Em in Em'. injection Em' as <-. rewrite (tt_K K HK Km) in C.
    destruct (C59_hier RA id_num (fun _ => True) (/ 1000)%R Irr (real_bisectable _) I I Z1 (mm_data mm) _ _ _ (mm_hierarchy mm) ro 11 r C (Ut 1%nat Nf tt_above) Er) as ((_ & _ & _ & _ & Po) & _).
    destruct (C70_hier tt_data tt_cs 2 0 2 9 mm (/ 1000)%R 11 r (rr_popt r) 1%nat Hs Hr ltac:(lra) (ex_intro _ 1 (proj2 (tt_P 1) (or_introl eq_refl))) T Nf tt_above Em Er Po) as (agg & Ea & Q & _).
    exists agg. do 3 (split; auto). rewrite (Q 1 1) by (rewrite Et; reflexivity). rewrite Es. unfold Rsum. cbn [map fold_right]. rewrite T1, T2. field.
Qed.

(** The same file meets the hypotheses of C71: all three curves exist. *)
Example C71_nonvacuous :
  (exists mm r, r_pjdump2micro (r_parse two_threads) 2 true false = Ok mm /\ r_oaggregate RA id_num false 11 (mm_data mm) (/ 1000)%R = Ok r /\ unit_curve (rr_quals r)) /\
  (exists mm r, r_pjdump2micro (r_parse two_threads) 2 true true = Ok mm /\ r_haggregate RA id_num false 11 (mm_data mm) (mm_hierarchy mm) (/ 1000)%R = Ok r /\ unit_curve (rr_quals r)) /\
  (exists mm r, r_pjdump2micro (r_parse two_threads) 2 true true = Ok mm /\ r_daggregate RA id_num false 11 (mm_data mm) (mm_hierarchy mm) (/ 1000)%R = Ok r /\ unit_curve (rr_quals r)).
Proof.
  destruct tt_span as (Hs & Hr). destruct tt_tree as (T & Nf). assert (Hth : (1 <= / 1000 * 2 ^ 10)%R) by (cbn; lra).
  destruct (tt_cells 1 ltac:(lia)) as (C11 & C21). destruct (tt_cells 2 ltac:(lia)) as (C12 & C22). change (2 =? 1) with false in C22. change (1 =? 1) with true in C21. cbv iota in C21, C22.
  assert (Hl : exists w, In w (states tt_data) /\ inside 0 2 2 w 2). { exists (mkDR NState 1 5 0 2 2 1 0). split; [cbn; auto|]. split; [lia|]. exists (3/2)%R. unfold slice_lo, slice_hi. cbn. lra. }
  assert (P1 : ttP 1) by (apply tt_P; auto). assert (P2 : ttP 2) by (apply tt_P; auto).
  assert (Ro : forall q, is_parent tt_cs q -> 9 <= q) by (intros q H; apply tt_par in H; lia).
  change (r_parse two_threads) with (tt_data, tt_cs). split; [|split].
  - destruct (C71_ordered tt_data tt_cs 2 0 2 (/ 1000)%R 10 Hs Hr ltac:(lra) ltac:(lia) Hl) as (mm & r & H1 & H2 & H3 & _); auto.
    + exists 1, 1, 1, 2. unfold slot. rewrite C11, C12. repeat split; lia || lra.
    + exists 2, 1, 1, 2. unfold slot. rewrite C21, C22. repeat split; lia || lra.
    + exists mm, r. auto.
  - destruct (C71_hier tt_data tt_cs 2 0 2 9 (/ 1000)%R 10 1 Hs Hr ltac:(lra) Hl T Nf tt_above Ro Hth) as (mm & r & H1 & H2 & H3 & _).
    + exists 1, 2, 1, 1. unfold slot. rewrite C11, C21. do 2 (split; [assumption|]). repeat split; lia || lra.
    + exists 1, 2, 1, 2. unfold slot. rewrite C12, C22. do 2 (split; [assumption|]). repeat split; lia || lra.
    + exists mm, r. auto.
  - destruct (C71_spatio tt_data tt_cs 2 0 2 9 (/ 1000)%R 10 1 Hs Hr ltac:(lra) ltac:(lia) Hl T Nf tt_above Ro Hth) as (mm & r & H1 & H2 & H3 & _).
    + exists 1, 2, 1, 1, 1. unfold slot. rewrite C11, C21. do 2 (split; [assumption|]). repeat split; try lia; try lra. congruence.
    + exists 1, 2, 1, 1, 2. unfold slot. rewrite C11, C22. do 2 (split; [assumption|]). repeat split; lia || lra.
    + exists mm, r. auto.
Qed.
Print Assumptions C71_nonvacuous.
