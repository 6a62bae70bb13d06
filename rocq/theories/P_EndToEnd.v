(** * Property C70: from the trace to the plots, no time is lost. *)
From Coq Require Import Lia Sorting.Sorted Permutation Reals Lra.
From Verif Require Import Base BaseFacts Arith SpecTree RApi SpecR SpecParts InfoFacts SpecMacro RHelpers MacroFacts HMacroFacts Slicer SpecSlicer SlicerFacts P_Slicer SpecPj PjFacts GetPath PjTree P_RApi P_RCurve P_RMacro P_Pj.

(** The total time that a resource spends in a state. *)
Definition total_time (trace : list drow) (r v : Z) : R := sum_where (fun w => (dr_res w =? r) && (dr_state w =? v)) dr_dur trace.

Lemma time_total : forall trace n t0 t1 K r v, trace_span trace t0 t1 -> (forall w, In w trace -> row_ok w) -> (t0 < t1)%R ->
  (exists w, In w trace /\ inside t0 t1 n w K) -> (forall w k, In w trace -> inside t0 t1 n w k -> k <= K) ->
  Rsum (fun k => time_in trace r v (slice_lo t0 t1 n k) (slice_hi t0 t1 n k)) (upto K) = total_time trace r v.
Proof.
  intros trace n t0 t1 K r v Hs Hr Ht (wK & IK & JK) Km. assert (B : 1 <= K <= n) by apply JK.
  destruct (C66_slicerstate trace n t0 t1 Hs Hr Ht) as (o & K' & E & _); [exists wK, K; auto|].
  pose proof (slices_of trace n t0 t1 o r v Hs Hr Ht E) as Q. destruct (C66_conserved trace n t0 t1 o r v Hs Hr Ht E) as (C & _).
  unfold total_time. rewrite <- C. unfold sum_where. change (fun x => (sr_res x =? r) && (sr_type x =? v)) with (sr_of r v). rewrite Q.
  unfold upto. rewrite (zrange_app 1 (K + 1) (n + 1)) by lia. rewrite Rsum_app. rewrite (Rsum_zero _ _ (zrange (K + 1) (n + 1))); [lra|].
  intros k I. apply In_zrange in I. apply time_in_none; auto; [lia|lia|]. intros (w & Iw & _ & _ & J). specialize (Km w k Iw J). lia.
Qed.

Lemma r_val_at : forall (micro : rarray RA) i j k x, r_at micro i j k = Ok x -> r_val micro i j k = x.
Proof. intros micro i j k x E. unfold r_val. rewrite E. reflexivity. Qed.

Lemma cell_sums : forall (micro : rarray RA) trace n t0 t1 K i j r v, trace_span trace t0 t1 -> (forall w, In w trace -> row_ok w) -> (t0 < t1)%R ->
  (exists w, In w trace /\ inside t0 t1 n w K) -> (forall w k, In w trace -> inside t0 t1 n w k -> k <= K) ->
  (forall k, 1 <= k <= K -> r_at micro i j k = Ok (time_in trace r v (slice_lo t0 t1 n k) (slice_hi t0 t1 n k) / (t1 - t0))%R) ->
  Rsum (fun k => r_val micro i j k) (upto K) = (total_time trace r v / (t1 - t0))%R.
Proof.
  intros micro trace n t0 t1 K i j r v Hs Hr Ht HK Km G. rewrite <- (time_total trace n t0 t1 K r v Hs Hr Ht HK Km).
  rewrite (Rsum_ext _ _ (fun k => (/ (t1 - t0) * time_in trace r v (slice_lo t0 t1 n k) (slice_hi t0 t1 n k))%R)).
  - rewrite (Rsum_scal _ (fun k => time_in trace r v (slice_lo t0 t1 n k) (slice_hi t0 t1 n k))). unfold Rdiv. lra.
  - intros k I. apply In_upto in I. rewrite (r_val_at _ _ _ _ _ (G k I)). unfold Rdiv. lra.
Qed.

(** From a trace through pjdump2micro, oaggregate and omacro: whatever the partition, the values of a resource and a state, each times the number of slices of its part,
    add up to the part of the whole trace that the resource spends in the state. *)
Theorem C70_ordered : forall data containers n t0 t1 mm (th : R) fuel r p, trace_span (states data) t0 t1 -> (forall w, In w (states data) -> row_ok w) -> (t0 < t1)%R ->
  (exists x, seen (states data) t0 t1 n x) -> n <= 65535 -> r_pjdump2micro (data, containers) n true false = Ok mm ->
  r_oaggregate RA id_num false fuel (mm_data mm) th = Ok r -> In p (map fst (rr_quals r)) ->
  exists agg, r_omacro (rr_parts r) (mm_data mm) p = Ok agg /\
    forall i j x v, vget (mm_space mm) (i - 1) = Ok x -> vget (mm_type mm) (j - 1) = Ok v ->
      sum_where (fun '(i', j', _, _, _) => (i' =? i) && (j' =? j)) (fun '(_, _, s, e, y) => (IZR (e - s + 1) * y)%R) agg = (total_time (states data) x v / (t1 - t0))%R.
Proof.
  intros data cs n t0 t1 mm th fuel r p Hs Hr Ht He Hn Em Er Hp.
  destruct (C68_states_flat data cs n t0 t1 Hs Hr Ht He) as (mm' & K & Em' & HK & Km & Ls & Lt & _ & _ & C & G). rewrite Em in Em'. injection Em' as <-.
  assert (HKn : K <= 65535) by (destruct HK as (w & _ & (B & _)); lia).
  destruct (C64_omacro th (mm_data mm) _ _ _ fuel r p C HKn Er Hp) as (agg & Ea & _). exists agg. split; auto. intros i j x v G1 G2.
  pose proof (vget_inv _ _ _ _ G1) as B1. pose proof (vget_inv _ _ _ _ G2) as B2.
  rewrite (C64_omacro_total th (mm_data mm) _ _ _ fuel r p agg i j C HKn Er Hp Ea) by lia. apply (cell_sums _ _ n t0 t1 K); auto.
Qed.
Print Assumptions C70_ordered.

Lemma filter_filter : forall X (f g : X -> bool) l, filter f (filter g l) = filter (fun x => g x && f x) l.
Proof. intros X f g l. induction l as [|x l IH]; auto. cbn [filter]. destruct (g x); cbn [filter andb]; [destruct (f x)|]; congruence. Qed.

Lemma Rsum_by : forall X (g : X -> R) (key : X -> Z) l K, (forall x, In x l -> 1 <= key x <= K) -> Rsum g l = Rsum (fun k => Rsum g (filter (fun x => key x =? k) l)) (upto K).
Proof.
  intros X g key l K H. induction l as [|x l IH].
  - rewrite Rsum_nil. symmetry. apply Rsum_zero. intros. reflexivity.
  - rewrite Rsum_cons, IH by (intros; apply H; right; auto).
    rewrite (Rsum_ext _ (fun k => Rsum g (filter (fun x => key x =? k) (x :: l))) (fun k => ((if k =? key x then g x else 0) + Rsum g (filter (fun x => key x =? k) l))%R)).
    + rewrite Rsum_plus. f_equal. rewrite (Rsum_pick (fun _ => g x)) by apply NoDup_zrange. rewrite (proj2 (existsb_exists _ _)); auto.
      exists (key x). split; [apply In_upto; apply H; left; auto|apply Z.eqb_refl].
    + intros k _. cbn [filter]. rewrite (Z.eqb_sym k). destruct (key x =? k); [rewrite Rsum_cons; auto|lra].
Qed.

(** From a trace through pjdump2micro, haggregate and hmacro: whatever the partition, the values of a state over all nodes and slices add up to the part of the whole trace that
    the resources spend in the state (as many times as there are resources in it), and at every slice the sizes of the nodes add up to the number of resources. *)
Theorem C70_hier : forall data containers n t0 t1 root mm (th : R) fuel r p D, trace_span (states data) t0 t1 -> (forall w, In w (states data) -> row_ok w) -> (t0 < t1)%R ->
  let P := fun x => seen (states data) t0 t1 n x /\ ~ is_parent containers x in (exists x, P x) -> tree_of containers P root -> no_empty containers P ->
  (forall x, P x -> above (tl containers) D x root) -> r_pjdump2micro (data, containers) n true true = Ok mm ->
  r_haggregate RA id_num false fuel (mm_data mm) (mm_hierarchy mm) th = Ok r -> In p (map fst (rr_quals r)) ->
  exists agg, r_hmacro (rr_parts r) (mm_data mm) (mm_hierarchy mm) p = Ok agg /\
    (forall j v, vget (mm_type mm) (j - 1) = Ok v ->
      sum_where (fun '(_, j', _, _, _, _) => j' =? j) (fun '(_, _, _, _, y, _) => y) agg = Rsum (fun x => (total_time (states data) x v / (t1 - t0))%R) (mm_space mm)) /\
    forall j k, 1 <= j <= vlen (mm_type mm) -> In k (mm_time mm) ->
      sum_where (fun '(_, j', k', _, _, _) => (j' =? j) && (k' =? k)) (fun '(_, _, _, _, _, sz) => IZR sz) agg = IZR (vlen (mm_space mm)).
Proof.
  intros data cs n t0 t1 root mm th fuel r p D Hs Hr Ht P HP T Nf U Em Er Hp.
  destruct (C68_states data cs n t0 t1 root Hs Hr Ht HP T) as (mm' & K & Em' & HK & Km & Ls & Lt & L3 & C & G & _ & _ & ro & Gro & _ & Lv & _ & Ut). rewrite Em in Em'. injection Em' as <-.
  specialize (Ut D Nf U).
  destruct (C65_hmacro th (mm_data mm) _ _ _ (mm_hierarchy mm) ro fuel r p C Ut Er Hp) as (agg & Ea & _ & _ & Ia). exists agg. split; auto. split.
  - intros j v Gj. pose proof (vget_inv _ _ _ _ Gj) as Bj. unfold sum_where. set (rows := filter _ agg).
    rewrite (Rsum_by _ _ (fun '(_, _, k', _, _, _) => k') rows K).
    2: { intros [[[[[sp ty] ti] pa] y] sz] I. unfold rows in I. apply filter_In in I. destruct I as (I & _). apply Ia in I. apply I. }
    rewrite (Rsum_ext _ _ (fun k => Rsum (fun i => r_val (mm_data mm) i j k) (upto (vlen (mm_space mm))))).
    + rewrite Rsum_swap. transitivity (Rsum (fun i => match vget (mm_space mm) (i - 1) with Ok x => (total_time (states data) x v / (t1 - t0))%R | _ => 0%R end) (upto (vlen (mm_space mm)))).
      * apply Rsum_ext. intros i Ii. apply In_upto in Ii. destruct (vget_ok _ (mm_space mm) (i - 1) ltac:(lia)) as (x & Gx). rewrite Gx. apply (cell_sums _ _ n t0 t1 K); auto.
      * set (f := fun x => (total_time (states data) x v / (t1 - t0))%R).
        assert (M : map (fun i => match vget (mm_space mm) (i - 1) with Ok x => x | _ => 0 end) (upto (vlen (mm_space mm))) = mm_space mm).
        { apply vget_ext; [rewrite vlen_map; unfold upto; rewrite vlen_zrange; pose proof (vlen_nonneg _ (mm_space mm)); lia|]. intros i Bi. rewrite vlen_map in Bi. unfold upto in *. rewrite vlen_zrange in Bi by (pose proof (vlen_nonneg _ (mm_space mm)); lia).
          rewrite (vget_map _ _ _ _ i (1 + i)) by (apply vget_zrange; lia). replace (1 + i - 1) with i by lia. destruct (vget_ok _ (mm_space mm) i ltac:(lia)) as (x & Gx). rewrite Gx. reflexivity. }
        transitivity (Rsum f (map (fun i => match vget (mm_space mm) (i - 1) with Ok x => x | _ => 0 end) (upto (vlen (mm_space mm))))); [|rewrite M; reflexivity]. rewrite Rsum_map. apply Rsum_ext. intros i Ii. apply In_upto in Ii. destruct (vget_ok _ (mm_space mm) (i - 1) ltac:(lia)) as (x & Gx). rewrite Gx. reflexivity.
    + intros k Ik. apply In_upto in Ik. destruct (C65_hmacro_total th (mm_data mm) _ _ _ (mm_hierarchy mm) ro fuel r p agg j k C Ut Er Hp Ea ltac:(lia) Ik) as (Q & _). rewrite <- Q. unfold sum_where, rows.
      rewrite filter_filter. f_equal. apply filter_ext. intros [[[[[sp ty] ti] pa] y] sz]. reflexivity.
  - intros j k Bj Ik. rewrite L3 in Ik. apply In_upto in Ik. apply (C65_hmacro_total th (mm_data mm) _ _ _ (mm_hierarchy mm) ro fuel r p agg j k C Ut Er Hp Ea Bj Ik).
Qed.
Print Assumptions C70_hier.
