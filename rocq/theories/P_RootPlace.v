(** * Property C71: where pjdump2micro puts the root, and what it means for haggregate and daggregate. *)
From Coq Require Import Lia Sorting.Sorted Permutation Reals Lra.
From Verif Require Import Base BaseFacts Arith SpecTree RApi SpecR SpecParts SpecInfo InfoFacts SpecMacro RHelpers MacroFacts HMacroFacts Slicer SpecSlicer SlicerFacts P_Slicer SpecPj PjFacts GetPath PjTree P_RApi P_RCurve P_RMacro P_Pj P_EndToEnd.

Lemma sorted_first : forall l x y, StronglySorted Z.lt (x :: l) -> In y (x :: l) -> x <= y.
Proof. intros l x y H [->|I]; [lia|]. inversion H as [|? ? _ F]; subst. rewrite Forall_forall in F. specialize (F y I). lia. Qed.

Lemma vget_last : forall X (l : list X) x, vget (l ++ [x]) (vlen (l ++ [x]) - 1) = Ok x.
Proof. intros X l x. rewrite vlen_app. change (vlen [x]) with 1. rewrite vget_app_r by lia. replace (vlen l + 1 - 1 - vlen l) with 0 by lia. reflexivity. Qed.

Lemma NoDup_vget_inj : forall (l : list Z) i j x, NoDup l -> vget l i = Ok x -> vget l j = Ok x -> i = j.
Proof. intros l i j x N G1 G2. apply (NoDup_vget _ l i j x N G1 G2). Qed.

(** The place of the root among the nodes is the last one exactly when the root comes first in the order of the names of the parents. *)
Theorem C71_place : forall data containers n t0 t1 root mm, trace_span (states data) t0 t1 -> (forall w, In w (states data) -> row_ok w) -> (t0 < t1)%R ->
  let P := fun r => seen (states data) t0 t1 n r /\ ~ is_parent containers r in (exists r, P r) -> tree_of containers P root ->
  r_pjdump2micro (data, containers) n true true = Ok mm ->
  (vget (mm_hierarchy mm) (vlen (mm_hierarchy mm) - 1) = Ok 0 <-> forall q, is_parent containers q -> root <= q).
Proof.
  intros data cs n t0 t1 root mm Hs Hr Ht P HP T Em.
  destruct (C68_states data cs n t0 t1 root Hs Hr Ht HP T) as (mm' & K & Em' & _ & _ & Ls & _ & _ & C & _ & (ps & Lp & En) & Nd & ro & Gro & _ & Lv & Hn & _). rewrite Em in Em'. injection Em' as <-.
  assert (Pr : is_parent cs root).
  { destruct T as (q0 & rest & -> & _ & _ & _ & Ab). assert (P0 : is_parent ((root, q0) :: rest) q0) by (exists root; left; auto). destruct (Ab q0 (or_intror P0)) as (d & A).
    assert (Z : forall d x y, above rest d x y -> x = y \/ is_parent ((root, q0) :: rest) y).
    { clear. intros d x y A. induction A as [x|d x q y I A IH]; auto. destruct IH as [<-|IH]; auto. right. exists x. right. auto. }
    destruct (Z _ _ _ A) as [->|Z']; auto. }
  destruct ps as [|p ps]; [exfalso; apply (proj2 Lp root) in Pr; destruct Pr|].
  cbn [rev] in En. rewrite app_assoc in En. rewrite Lv. assert (Gl : vget (mm_nodes mm) (vlen (mm_nodes mm) - 1) = Ok p) by (rewrite En; apply vget_last).
  destruct (Hn (vlen (mm_nodes mm)) p Gl) as [(-> & G)|(D & q & j & I & Gj & G)]; rewrite G.
  - split; [|reflexivity]. intros _ q Hq. apply (sorted_first ps); [apply Lp|]. apply (proj2 Lp). auto.
  - split.
    + intro E. injection E as ->. pose proof (vget_inv _ _ _ _ Gj). lia.
    + intro H. exfalso. apply D. assert (p <= root) by (apply (sorted_first ps); [apply Lp|]; apply (proj2 Lp); auto). assert (root <= p); [|lia]. apply H, (proj2 Lp). left. auto.
Qed.
Print Assumptions C71_place.

Lemma time_in_nonneg : forall trace r v a b, (0 <= time_in trace r v a b)%R.
Proof. intros. unfold time_in, sum_where. apply Rsum_nonneg. intros x _. apply overlap_nonneg. Qed.

Lemma pick2 : forall X (l : list X) a b, In a l -> In b l -> a <> b -> exists l', Permutation l (a :: b :: l').
Proof.
  intros X l a b Ia Ib D. apply in_split in Ia. destruct Ia as (l1 & l2 & ->).
  assert (I : In b (l1 ++ l2)) by (apply in_app_or in Ib; destruct Ib as [I|[->|I]]; [apply in_or_app; auto|congruence|apply in_or_app; auto]).
  apply in_split in I. destruct I as (l3 & l4 & E). exists (l3 ++ l4). rewrite <- Permutation_middle, E, <- Permutation_middle. reflexivity.
Qed.

Lemma gain_two : forall x y, (0 < x)%R -> (0 < y)%R -> (0 < gain_of [x; y])%R.
Proof.
  intros x y Hx Hy. rewrite gain_of_xl by (repeat constructor; lra). unfold total, Rsum. cbn [map fold_right]. rewrite !Rplus_0_r.
  pose proof ln2_pos as L. unfold Rdiv. apply Rmult_lt_0_compat; [|apply Rinv_0_lt_compat; auto].
  rewrite !xl_pos by lra. assert (L1 : (ln x < ln (x + y))%R) by (apply ln_increasing; lra). assert (L2 : (ln y < ln (x + y))%R) by (apply ln_increasing; lra).
  assert ((x * ln x < x * ln (x + y))%R) by (apply Rmult_lt_compat_l; auto). assert ((y * ln y < y * ln (x + y))%R) by (apply Rmult_lt_compat_l; auto). lra.
Qed.

Lemma gain_pos : forall X (f : X -> R) l a b, (forall x, In x l -> (0 <= f x)%R) -> In a l -> In b l -> a <> b -> (0 < f a)%R -> (0 < f b)%R -> (0 < gain_of (map f l))%R.
Proof.
  intros X f l a b N Ia Ib D Ha Hb. destruct (pick2 _ l a b Ia Ib D) as (l' & Pm). rewrite (gain_perm _ _ (Permutation_map f Pm)). cbn [map].
  assert (N' : nonneg (map f l')). { apply Forall_forall. intros y I. apply in_map_iff in I. destruct I as (x & <- & I). apply N. apply (Permutation_in _ (Permutation_sym Pm)). right. right. auto. }
  pose proof (gain_super [f a; f b] (map f l') ltac:(repeat constructor; try lra; exact N')) as G. cbn [app] in G.
  pose proof (gain_two _ _ Ha Hb). pose proof (gain_of_nonneg _ N'). lra.
Qed.

Lemma loss_pos : forall X (f : X -> R) l a b, (forall x, In x l -> (0 <= f x)%R) -> In a l -> In b l -> f a <> f b -> (0 < loss_of (map f l))%R.
Proof.
  intros X f l a b N Ia Ib D. assert (N' : nonneg (map f l)). { apply Forall_forall. intros y I. apply in_map_iff in I. destruct I as (x & <- & I). auto. }
  pose proof (loss_of_nonneg _ N') as [L|L]; auto. exfalso. apply D. apply (loss_of_zero _ N' (eq_sym L)); apply in_map; auto.
Qed.

Lemma Rsum_pos : forall X (f : X -> R) l a, (forall x, In x l -> (0 <= f x)%R) -> In a l -> (0 < f a)%R -> Rsum f l <> 0%R.
Proof.
  intros X f l a N I H. apply in_split in I. destruct I as (l1 & l2 & ->). rewrite Rsum_app, Rsum_cons.
  assert (0 <= Rsum f l1)%R by (apply Rsum_nonneg; intros; apply N, in_or_app; auto). assert (0 <= Rsum f l2)%R by (apply Rsum_nonneg; intros; apply N, in_or_app; cbn; auto). lra.
Qed.

Lemma gains_pos : forall X Y (g : Y -> X -> R) ll l y a b, (forall y x, In y ll -> In x l -> (0 <= g y x)%R) -> In y ll -> In a l -> In b l -> a <> b -> (0 < g y a)%R -> (0 < g y b)%R ->
  Rsum gain_of (map (fun y => map (g y) l) ll) <> 0%R.
Proof.
  intros X Y g ll l y a b N Iy Ia Ib D Ha Hb. rewrite Rsum_map. apply (Rsum_pos _ _ ll y); auto; [|apply (gain_pos _ (g y) l a b); auto].
  intros y' I. apply gain_of_nonneg. apply Forall_forall. intros z K. apply in_map_iff in K. destruct K as (x & <- & K). auto.
Qed.

Lemma losses_pos : forall X Y (g : Y -> X -> R) ll l y a b, (forall y x, In y ll -> In x l -> (0 <= g y x)%R) -> In y ll -> In a l -> In b l -> g y a <> g y b ->
  Rsum loss_of (map (fun y => map (g y) l) ll) <> 0%R.
Proof.
  intros X Y g ll l y a b N Iy Ia Ib D. rewrite Rsum_map. apply (Rsum_pos _ _ ll y); auto; [|apply (loss_pos _ (g y) l a b); auto].
  intros y' I. apply loss_of_nonneg. apply Forall_forall. intros z K. apply in_map_iff in K. destruct K as (x & <- & K). auto.
Qed.

Lemma series_map : forall micro d0 d1 d2, r_series micro d0 d1 d2 = map (fun y => map (fun k => r_val micro (fst y) (snd y) k) (upto d2)) (list_prod (upto d0) (upto d1)).
Proof. intros. apply map_ext. intros [i j]. reflexivity. Qed.
Lemma columns_map : forall micro d0 d1 d2, r_columns micro d0 d1 d2 = map (fun y => map (fun i => r_val micro i (fst y) (snd y)) (upto d0)) (list_prod (upto d1) (upto d2)).
Proof. intros. apply map_ext. intros [i j]. reflexivity. Qed.
Lemma slabs_map : forall micro d0 d1 d2, r_slabs micro d0 d1 d2 = map (fun j => map (fun x => r_val micro (fst x) j (snd x)) (list_prod (upto d0) (upto d2))) (upto d1).
Proof. intros. apply map_ext. intro j. apply map_ext. intros [i k]. reflexivity. Qed.

(** All elements of an array are among the [micro[i,j,k]]. *)
Lemma cube_nonneg : forall (micro : rarray RA) d0 d1 d2, r_cube micro d0 d1 d2 -> (forall i j k, 1 <= i <= d0 -> 1 <= j <= d1 -> 1 <= k <= d2 -> (0 <= r_val micro i j k)%R) -> nonneg (ra_data micro).
Proof.
  intros micro d0 d1 d2 (Ed & B0 & B1 & B2 & Lv) H. apply Forall_forall. intros x I. apply In_vget in I. destruct I as (p & G & Bp). change (num RA) with R in Lv. rewrite Lv in Bp.
  pose (i := p mod d0 + 1). pose (j := (p / d0) mod d1 + 1). pose (k := p / d0 / d1 + 1).
  pose proof (Z.mod_pos_bound p d0 ltac:(lia)) as M0. pose proof (Z.mod_pos_bound (p / d0) d1 ltac:(lia)) as M1.
  pose proof (Z.div_mod p d0 ltac:(lia)) as D0. pose proof (Z.div_mod (p / d0) d1 ltac:(lia)) as D1.
  assert (Bk : 0 <= p / d0 / d1 < d2). { split; [apply Z.div_pos; [apply Z.div_pos|]; lia|]. apply Z.div_lt_upper_bound; [lia|]. apply Z.div_lt_upper_bound; [lia|]. nia. }
  specialize (H i j k ltac:(unfold i; lia) ltac:(unfold j; lia) ltac:(unfold k; lia)). unfold r_val, r_at in H. rewrite Ed in H.
  match type of H with context [vget _ ?q] => replace q with p in H end; [change (num RA) with R in *; rewrite G in H; exact H|]. unfold i, j, k. set (a := p mod d0) in *. set (b := (p / d0) mod d1) in *. set (c := p / d0 / d1) in *. rewrite D0 at 1. rewrite D1. ring.
Qed.

Lemma time_seen : forall trace n t0 t1 x v k, (forall w, In w trace -> row_ok w) -> (t0 < t1)%R -> 1 <= k <= n ->
  time_in trace x v (slice_lo t0 t1 n k) (slice_hi t0 t1 n k) <> 0%R -> seen trace t0 t1 n x /\ seen_state trace t0 t1 n v.
Proof.
  intros trace n t0 t1 x v k Hr Ht B H.
  destruct (Classical_Prop.classic (exists w, In w trace /\ dr_res w = x /\ dr_state w = v /\ inside t0 t1 n w k)) as [(w & I & E1 & E2 & J)|N].
  - split; exists w, k; auto.
  - exfalso. apply H. apply time_in_none; auto; lia.
Qed.

Lemma lists_place : forall P l x, lists P l -> P x -> exists i, 1 <= i <= vlen l /\ vget l (i - 1) = Ok x.
Proof. intros P l x (_ & H) Q. apply H in Q. apply In_vget in Q. destruct Q as (i & G & B). exists (i + 1). split; [lia|]. replace (i + 1 - 1) with i by lia. auto. Qed.

Lemma last_slice : forall trace n t0 t1 K, (exists w, In w trace /\ inside t0 t1 n w K) -> (forall w k, In w trace -> inside t0 t1 n w k -> k <= K) ->
  (exists w, In w trace /\ inside t0 t1 n w n) -> K = n.
Proof. intros trace n t0 t1 K (w & _ & (B & _)) Km (w' & I & J). specialize (Km w' n I J). lia. Qed.

Lemma div_pos : forall a b, (0 < a)%R -> (0 < b)%R -> (0 < a / b)%R.
Proof. intros a b Ha Hb. unfold Rdiv. apply Rmult_lt_0_compat; auto. apply Rinv_0_lt_compat. auto. Qed.
Lemma div_neq : forall a a' b, a <> a' -> (0 < b)%R -> (a / b <> a' / b)%R.
Proof. intros a a' b D Hb E. apply D. apply (Rmult_eq_reg_r (/ b)); [exact E|]. apply Rinv_neq_0_compat. lra. Qed.
Lemma div_nonneg : forall a b, (0 <= a)%R -> (0 < b)%R -> (0 <= a / b)%R.
Proof. intros a b Ha Hb. unfold Rdiv. apply Rmult_le_pos; auto. left. apply Rinv_0_lt_compat. auto. Qed.

Section T.
Context (data : list drow) (n : Z) (t0 t1 : R).
(** The time that a resource spends in a state in a slice. *)
Definition slot (x v k : Z) : R := time_in (states data) x v (slice_lo t0 t1 n k) (slice_hi t0 t1 n k).
End T.

(** The curves that a trace gives: from a trace through pjdump2micro to oaggregate. Some resource is in the same state in two slices, and not equally long in some two slices. *)
Theorem C71_ordered : forall data containers n t0 t1 (th : R) m, trace_span (states data) t0 t1 -> (forall w, In w (states data) -> row_ok w) -> (t0 < t1)%R -> n <= 65535 ->
  (exists w, In w (states data) /\ inside t0 t1 n w n) ->
  (exists x v k k', 1 <= k <= n /\ 1 <= k' <= n /\ k <> k' /\ (0 < slot data n t0 t1 x v k)%R /\ (0 < slot data n t0 t1 x v k')%R) ->
  (exists x v k k', 1 <= k <= n /\ 1 <= k' <= n /\ slot data n t0 t1 x v k <> slot data n t0 t1 x v k') -> (1 <= th * 2 ^ m)%R ->
  exists mm r, r_pjdump2micro (data, containers) n true false = Ok mm /\ r_oaggregate RA id_num false (S m) (mm_data mm) th = Ok r /\ unit_curve (rr_quals r) /\ (0 <= rr_auc r <= 1)%R.
Proof.
  intros data cs n t0 t1 th m Hs Hr Ht Hn Hl (x & v & k & k' & B & B' & D & S1 & S2) (y & u & l & l' & C1 & C2 & S3) Hth.
  destruct (C68_states_flat data cs n t0 t1 Hs Hr Ht) as (mm & K & Em & HK & Km & Ls & Lt & _ & _ & C & G). { destruct Hl as (w & I & J). exists (dr_res w), w, n. auto. }
  rewrite (last_slice _ _ _ _ _ HK Km Hl) in *. exists mm. unfold slot in *.
  destruct (time_seen _ n t0 t1 x v k Hr Ht B ltac:(lra)) as (P1 & P2).
  assert (P34 : seen (states data) t0 t1 n y /\ seen_state (states data) t0 t1 n u).
  { destruct (Req_dec (time_in (states data) y u (slice_lo t0 t1 n l) (slice_hi t0 t1 n l)) 0); [|apply (time_seen _ n t0 t1 y u l); auto]. apply (time_seen _ n t0 t1 y u l'); auto. lra. }
  destruct P34 as (P3 & P4).
  destruct (lists_place _ _ x Ls P1) as (i & Bi & Gi). destruct (lists_place _ _ y Ls P3) as (i' & Bi' & Gi'). destruct (lists_place _ _ v Lt P2) as (j & Bj & Gj). destruct (lists_place _ _ u Lt P4) as (j' & Bj' & Gj').
  assert (V : forall i j k x v, vget (mm_space mm) (i - 1) = Ok x -> vget (mm_type mm) (j - 1) = Ok v -> 1 <= k <= n -> r_val (mm_data mm) i j k = (time_in (states data) x v (slice_lo t0 t1 n k) (slice_hi t0 t1 n k) / (t1 - t0))%R).
  { intros. apply r_val_at. apply G; auto. }
  assert (N : forall i j k, 1 <= i <= vlen (mm_space mm) -> 1 <= j <= vlen (mm_type mm) -> 1 <= k <= n -> (0 <= r_val (mm_data mm) i j k)%R).
  { intros i0 j0 k0 X1 X2 X3. destruct (vget_ok _ (mm_space mm) (i0 - 1) ltac:(lia)) as (x0 & G1). destruct (vget_ok _ (mm_type mm) (j0 - 1) ltac:(lia)) as (v0 & G2). rewrite (V i0 j0 k0 x0 v0); auto. apply div_nonneg; [apply time_in_nonneg|lra]. }
  pose proof (cube_nonneg _ _ _ _ C N) as NN.
  assert (N' : forall (a : Z * Z) b, In a (list_prod (upto (vlen (mm_space mm))) (upto (vlen (mm_type mm)))) -> In b (upto n) -> (0 <= r_val (mm_data mm) (fst a) (snd a) b)%R).
  { intros [a1 a2] b I1 I2. apply in_prod_iff in I1. rewrite !In_upto in I1. apply In_upto in I2. apply N; cbn [fst snd]; lia. }
  destruct (C60_ordered_total th (mm_data mm) _ _ _ m C Hn NN) as (r & E & U & A); auto.
  - rewrite series_map. apply (gains_pos _ _ (fun y k => r_val (mm_data mm) (fst y) (snd y) k) _ _ (i, j) k k'); auto; try (apply In_upto; auto); try (apply in_prod; apply In_upto; auto); cbn [fst snd].
    + rewrite (V i j k x v); auto. apply div_pos; lra.
    + rewrite (V i j k' x v); auto. apply div_pos; lra.
  - rewrite series_map. apply (losses_pos _ _ (fun y k => r_val (mm_data mm) (fst y) (snd y) k) _ _ (i', j') l l'); auto; try (apply In_upto; auto); try (apply in_prod; apply In_upto; auto); cbn [fst snd].
    rewrite (V i' j' l y u), (V i' j' l' y u); auto. apply div_neq; auto. lra.
  - exists r. auto.
Qed.
Print Assumptions C71_ordered.

(** The same with the hierarchy, when the name of the root comes first: for haggregate, some two resources are in the same state in a slice, and not equally long in some slice; for
    daggregate, the same over all pairs of a resource and a slice. *)
Section H.
Context (data : list drow) (containers : list (Z * Z)) (n : Z) (t0 t1 : R) (root : Z) (th : R) (m D : nat).
Context (Hs : trace_span (states data) t0 t1) (Hr : forall w, In w (states data) -> row_ok w) (Ht : (t0 < t1)%R) (Hl : exists w, In w (states data) /\ inside t0 t1 n w n).
Let P := fun r => seen (states data) t0 t1 n r /\ ~ is_parent containers r.
Context (HP : exists x, P x) (T : tree_of containers P root) (Nf : no_empty containers P) (U : forall x, P x -> above (tl containers) D x root).
Context (Hroot : forall q, is_parent containers q -> root <= q) (Hth : (1 <= th * 2 ^ m)%R).

Lemma root_frame : exists mm, r_pjdump2micro (data, containers) n true true = Ok mm /\ lists P (mm_space mm) /\ lists (seen_state (states data) t0 t1 n) (mm_type mm) /\
  r_cube (mm_data mm) (vlen (mm_space mm)) (vlen (mm_type mm)) n /\ r_tree (mm_hierarchy mm) (vlen (mm_space mm)) (vlen (mm_hierarchy mm) - 1) /\
  (forall i j k x v, vget (mm_space mm) (i - 1) = Ok x -> vget (mm_type mm) (j - 1) = Ok v -> 1 <= k <= n -> r_val (mm_data mm) i j k = (slot data n t0 t1 x v k / (t1 - t0))%R) /\
  (forall i j k, 1 <= i <= vlen (mm_space mm) -> 1 <= j <= vlen (mm_type mm) -> 1 <= k <= n -> (0 <= r_val (mm_data mm) i j k)%R).
Proof.
  destruct (C68_states data containers n t0 t1 root Hs Hr Ht HP T) as (mm & K & Em & HK & Km & Ls & Lt & _ & C & G & (ps & Lp & En) & Nd & ro & Gro & _ & Lv & Hn & Ut). exists mm.
  rewrite (last_slice _ _ _ _ _ HK Km Hl) in *. split; auto. split; auto. split; auto. split; auto.
  pose proof (proj2 (C71_place data containers n t0 t1 root mm Hs Hr Ht HP T Em) Hroot) as Z0. rewrite Lv in Z0.
  assert (Er : ro = vlen (mm_hierarchy mm) - 1).
  { rewrite Lv. destruct (vget_ok _ (mm_nodes mm) (vlen (mm_nodes mm) - 1)) as (z & Gz). { pose proof (vget_inv _ _ _ _ Gro). lia. }
    destruct (Hn (vlen (mm_nodes mm)) z Gz) as [(-> & _)|(_ & q & j & _ & Gj & G')]; [apply (NoDup_vget_inj _ _ _ root Nd); auto|].
    rewrite Z0 in G'. injection G' as <-. pose proof (vget_inv _ _ _ _ Gj). lia. }
  split; [rewrite <- Er; apply (Ut D); auto|].
  assert (V : forall i j k x v, vget (mm_space mm) (i - 1) = Ok x -> vget (mm_type mm) (j - 1) = Ok v -> 1 <= k <= n -> r_val (mm_data mm) i j k = (slot data n t0 t1 x v k / (t1 - t0))%R).
  { intros. apply r_val_at. apply G; auto. }
  split; auto. intros i0 j0 k0 X1 X2 X3. destruct (vget_ok _ (mm_space mm) (i0 - 1) ltac:(lia)) as (x0 & G1). destruct (vget_ok _ (mm_type mm) (j0 - 1) ltac:(lia)) as (v0 & G2). rewrite (V i0 j0 k0 x0 v0); auto. apply div_nonneg; [apply time_in_nonneg|lra].
Qed.

Lemma slot_seen : forall x x' v k k', 1 <= k <= n -> 1 <= k' <= n -> slot data n t0 t1 x v k <> slot data n t0 t1 x' v k' -> seen_state (states data) t0 t1 n v.
Proof.
  intros x x' v k k' B B' S. destruct (Req_dec (slot data n t0 t1 x v k) 0); [apply (time_seen _ n t0 t1 x' v k'); auto; unfold slot in *; lra|apply (time_seen _ n t0 t1 x v k); auto].
Qed.

Lemma hier_curve : (exists x x' v k, P x /\ P x' /\ 1 <= k <= n /\ x <> x' /\ (0 < slot data n t0 t1 x v k)%R /\ (0 < slot data n t0 t1 x' v k)%R) ->
  (exists x x' v k, P x /\ P x' /\ 1 <= k <= n /\ slot data n t0 t1 x v k <> slot data n t0 t1 x' v k) ->
  exists mm r, r_pjdump2micro (data, containers) n true true = Ok mm /\ r_haggregate RA id_num false (S m) (mm_data mm) (mm_hierarchy mm) th = Ok r /\ unit_curve (rr_quals r) /\ (0 <= rr_auc r <= 1)%R.
Proof.
  intros (x & x' & v & k & P1 & P2 & B & Dx & S1 & S2) (y & y' & u & l & P3 & P4 & C1 & S3).
  destruct root_frame as (mm & Em & Ls & Lt & C & Tr & V & N). exists mm.
  assert (Pv : seen_state (states data) t0 t1 n v) by (apply (time_seen _ n t0 t1 x v k); auto; unfold slot in *; lra). pose proof (slot_seen _ _ _ _ _ C1 C1 S3) as Pu.
  destruct (lists_place _ _ x Ls P1) as (i1 & B1 & G1). destruct (lists_place _ _ x' Ls P2) as (i2 & B2 & G2). destruct (lists_place _ _ y Ls P3) as (i3 & B3 & G3). destruct (lists_place _ _ y' Ls P4) as (i4 & B4 & G4).
  destruct (lists_place _ _ v Lt Pv) as (j & Bj & Gj). destruct (lists_place _ _ u Lt Pu) as (j' & Bj' & Gj').
  pose proof (cube_nonneg _ _ _ _ C N) as NN.
  assert (N' : forall (a : Z * Z) b, In a (list_prod (upto (vlen (mm_type mm))) (upto n)) -> In b (upto (vlen (mm_space mm))) -> (0 <= r_val (mm_data mm) b (fst a) (snd a))%R).
  { intros [a1 a2] b I1 I2. apply in_prod_iff in I1. rewrite !In_upto in I1. apply In_upto in I2. apply N; cbn [fst snd]; lia. }
  destruct (C60_hier_total th (mm_data mm) _ _ _ (mm_hierarchy mm) m C Tr NN) as (r & E & Uc & A); auto.
  - rewrite columns_map. apply (gains_pos _ _ (fun y i => r_val (mm_data mm) i (fst y) (snd y)) _ _ (j, k) i1 i2); auto; try (apply In_upto; auto); try (apply in_prod; apply In_upto; auto); cbn [fst snd].
    + congruence.
    + rewrite (V i1 j k x v); auto. apply div_pos; lra.
    + rewrite (V i2 j k x' v); auto. apply div_pos; lra.
  - rewrite columns_map. apply (losses_pos _ _ (fun y i => r_val (mm_data mm) i (fst y) (snd y)) _ _ (j', l) i3 i4); auto; try (apply In_upto; auto); try (apply in_prod; apply In_upto; auto); cbn [fst snd].
    rewrite (V i3 j' l y u), (V i4 j' l y' u); auto. apply div_neq; auto. lra.
  - exists r. auto.
Qed.

Lemma spatio_curve : n <= 65535 -> (exists x x' v k k', P x /\ P x' /\ 1 <= k <= n /\ 1 <= k' <= n /\ (x, k) <> (x', k') /\ (0 < slot data n t0 t1 x v k)%R /\ (0 < slot data n t0 t1 x' v k')%R) ->
  (exists x x' v k k', P x /\ P x' /\ 1 <= k <= n /\ 1 <= k' <= n /\ slot data n t0 t1 x v k <> slot data n t0 t1 x' v k') ->
  exists mm r, r_pjdump2micro (data, containers) n true true = Ok mm /\ r_daggregate RA id_num false (S m) (mm_data mm) (mm_hierarchy mm) th = Ok r /\ unit_curve (rr_quals r) /\ (0 <= rr_auc r <= 1)%R.
Proof.
  intros Hn (x & x' & v & k & k' & P1 & P2 & B & B' & Dx & S1 & S2) (y & y' & u & l & l' & P3 & P4 & C1 & C2 & S3).
  destruct root_frame as (mm & Em & Ls & Lt & C & Tr & V & N). exists mm.
  assert (Pv : seen_state (states data) t0 t1 n v) by (apply (time_seen _ n t0 t1 x v k); auto; unfold slot in *; lra). pose proof (slot_seen _ _ _ _ _ C1 C2 S3) as Pu.
  destruct (lists_place _ _ x Ls P1) as (i1 & B1 & G1). destruct (lists_place _ _ x' Ls P2) as (i2 & B2 & G2). destruct (lists_place _ _ y Ls P3) as (i3 & B3 & G3). destruct (lists_place _ _ y' Ls P4) as (i4 & B4 & G4).
  destruct (lists_place _ _ v Lt Pv) as (j & Bj & Gj). destruct (lists_place _ _ u Lt Pu) as (j' & Bj' & Gj').
  pose proof (cube_nonneg _ _ _ _ C N) as NN.
  assert (N' : forall j (a : Z * Z), In j (upto (vlen (mm_type mm))) -> In a (list_prod (upto (vlen (mm_space mm))) (upto n)) -> (0 <= r_val (mm_data mm) (fst a) j (snd a))%R).
  { intros b [a1 a2] I2 I1. apply in_prod_iff in I1. rewrite !In_upto in I1. apply In_upto in I2. apply N; cbn [fst snd]; lia. }
  destruct (C60_spatio_total th (mm_data mm) _ _ _ (mm_hierarchy mm) m C Hn Tr NN) as (r & E & Uc & A); auto.
  - rewrite slabs_map. apply (gains_pos _ _ (fun j x => r_val (mm_data mm) (fst x) j (snd x)) _ _ j (i1, k) (i2, k')); auto; try (apply In_upto; auto); try (apply in_prod; apply In_upto; auto); cbn [fst snd].
    + congruence.
    + rewrite (V i1 j k x v); auto. apply div_pos; lra.
    + rewrite (V i2 j k' x' v); auto. apply div_pos; lra.
  - rewrite slabs_map. apply (losses_pos _ _ (fun j x => r_val (mm_data mm) (fst x) j (snd x)) _ _ j' (i3, l) (i4, l')); auto; try (apply In_upto; auto); try (apply in_prod; apply In_upto; auto); cbn [fst snd].
    rewrite (V i3 j' l y u), (V i4 j' l' y' u); auto. apply div_neq; auto. lra.
  - exists r. auto.
Qed.
End H.

Theorem C71_hier : forall data containers n t0 t1 root (th : R) m D, trace_span (states data) t0 t1 -> (forall w, In w (states data) -> row_ok w) -> (t0 < t1)%R ->
  (exists w, In w (states data) /\ inside t0 t1 n w n) ->
  let P := fun r => seen (states data) t0 t1 n r /\ ~ is_parent containers r in
  tree_of containers P root -> no_empty containers P -> (forall x, P x -> above (tl containers) D x root) -> (forall q, is_parent containers q -> root <= q) -> (1 <= th * 2 ^ m)%R ->
  (exists x x' v k, P x /\ P x' /\ 1 <= k <= n /\ x <> x' /\ (0 < slot data n t0 t1 x v k)%R /\ (0 < slot data n t0 t1 x' v k)%R) ->
  (exists x x' v k, P x /\ P x' /\ 1 <= k <= n /\ slot data n t0 t1 x v k <> slot data n t0 t1 x' v k) ->
  exists mm r, r_pjdump2micro (data, containers) n true true = Ok mm /\ r_haggregate RA id_num false (S m) (mm_data mm) (mm_hierarchy mm) th = Ok r /\ unit_curve (rr_quals r) /\ (0 <= rr_auc r <= 1)%R.
Proof.
  intros data cs n t0 t1 root th m D Hs Hr Ht Hl P T Nf U Ro Hth A B. destruct A as (x & x' & v & k & P1 & A).
  apply (hier_curve data cs n t0 t1 root th m D Hs Hr Ht Hl (ex_intro _ x P1) T Nf U Ro Hth); auto. exists x, x', v, k. auto.
Qed.
Print Assumptions C71_hier.

Theorem C71_spatio : forall data containers n t0 t1 root (th : R) m D, trace_span (states data) t0 t1 -> (forall w, In w (states data) -> row_ok w) -> (t0 < t1)%R -> n <= 65535 ->
  (exists w, In w (states data) /\ inside t0 t1 n w n) ->
  let P := fun r => seen (states data) t0 t1 n r /\ ~ is_parent containers r in
  tree_of containers P root -> no_empty containers P -> (forall x, P x -> above (tl containers) D x root) -> (forall q, is_parent containers q -> root <= q) -> (1 <= th * 2 ^ m)%R ->
  (exists x x' v k k', P x /\ P x' /\ 1 <= k <= n /\ 1 <= k' <= n /\ (x, k) <> (x', k') /\ (0 < slot data n t0 t1 x v k)%R /\ (0 < slot data n t0 t1 x' v k')%R) ->
  (exists x x' v k k', P x /\ P x' /\ 1 <= k <= n /\ 1 <= k' <= n /\ slot data n t0 t1 x v k <> slot data n t0 t1 x' v k') ->
  exists mm r, r_pjdump2micro (data, containers) n true true = Ok mm /\ r_daggregate RA id_num false (S m) (mm_data mm) (mm_hierarchy mm) th = Ok r /\ unit_curve (rr_quals r) /\ (0 <= rr_auc r <= 1)%R.
Proof.
  intros data cs n t0 t1 root th m D Hs Hr Ht Hn Hl P T Nf U Ro Hth A B. destruct A as (x & x' & v & k & k' & P1 & A).
  apply (spatio_curve data cs n t0 t1 root th m D Hs Hr Ht Hl (ex_intro _ x P1) T Nf U Ro Hth Hn); auto. exists x, x', v, k, k'. auto.
Qed.
Print Assumptions C71_spatio.
