(** * Proofs about spatiotemporal qualities computed from data: range, normalisation, extremes, scaling, history. *)
From Coq Require Import Reals Lra Lia Permutation.
From Verif Require Import Base BaseFacts Arith Quality Utm UtmFacts UtmProofs Hierarchy SpecTree TreeFacts SpecParts SpecInfo SpecData Values
  Qualities Partitions Partitioners TreePath CoverFacts InfoFacts OInfo DataFacts NormFacts HFacts DFacts DSel DProofs OReal OProofs Sim ODataProofs
  HDataProofs DQual.

(** ** Superadditivity over a tiling of a rectangle *)
Section W.
Context (m : meta).
Hypothesis W : well_built m.
Notation ps := (m_parents m).
Notation L := (m_leaves m).
Notation lv := (leavesof L ps).

Definition cl (h i j : Z) : list (Z * Z) := flat_map (fun x => map (pair x) (zrange i (j + 1))) (lv h).
Definition cl3 (r : Z * Z * Z) : list (Z * Z) := let '(h, i, j) := r in cl h i j.

Lemma cl_In : forall h i j x o, In (x, o) (cl h i j) <-> (0 <= x < L /\ below ps x h) /\ i <= o <= j.
Proof.
  intros h i j x o. unfold cl. rewrite in_flat_map. split.
  - intros [y [Hy Hx]]. apply in_map_iff in Hx. destruct Hx as (a & E & Ha). inversion E; subst. apply In_zrange in Ha.
    apply (lv_In m W) in Hy. split; [tauto|lia].
  - intros [Hx Ho]. exists x. split; [apply (lv_In m W); auto|]. apply in_map. apply In_zrange. lia.
Qed.

Lemma cl_NoDup : forall h i j, NoDup (cl h i j).
Proof.
  intros. unfold cl. apply NoDup_flat_map_intro; [apply (lv_NoDup m)| |].
  - intros. apply FinFun.Injective_map_NoDup; [|apply NoDup_zrange]. intros x y E; inversion E; auto.
  - intros a b [x o] _ _ Ha Hb. apply in_map_iff in Ha, Hb. destruct Ha as (? & E1 & _), Hb as (? & E2 & _). inversion E1; inversion E2; congruence.
Qed.

Lemma rect_split_perm : forall h i j l, rect_split L ps h i j l -> Permutation (flat_map cl3 l) (cl h i j).
Proof.
  intros h i j l (N & Hn & Hc). apply NoDup_Permutation; [|apply cl_NoDup|].
  - apply NoDup_flat_map_intro; auto.
    + intros [[a b] c] _. apply cl_NoDup.
    + intros [[y a] b] [[y' a'] b'] [x o] Ha Hb Hxa Hxb. cbn [cl3] in *. apply cl_In in Hxa, Hxb.
      destruct Hxa as [[Rx Ba] Oa], Hxb as [[_ Bb] Ob]. destruct (Hn _ _ _ Ha) as (_ & By & Ia & Ja).
      assert (B : below ps x h) by (apply (below_trans ps x y h); auto). destruct (Hc x o Rx B ltac:(lia)) as (z & c & d & _ & _ & _ & U).
      rewrite (U y a b), (U y' a' b'); auto.
  - intros [x o]. rewrite in_flat_map, cl_In. split.
    + intros [[[y a] b] [Hy Hx]]. cbn [cl3] in Hx. apply cl_In in Hx. destruct Hx as [[Rx Bx] Ox]. destruct (Hn _ _ _ Hy) as (_ & By & Ia & Ja).
      split; [|lia]. split; auto. eapply below_trans; eauto.
    + intros [[Rx Bx] Ox]. destruct (Hc x o Rx Bx Ox) as (y & a & b & Hy & B & O & _). exists (y, a, b). split; auto. apply cl_In; auto.
Qed.

Lemma rect_cover_split : forall n l, rect_cover L ps n l -> rect_split L ps (m_root m) 0 (n - 1) l.
Proof.
  intros n l (N & Hn & Hc). split; auto. split.
  - intros y a b Hy. destruct (Hn _ _ _ Hy) as (K1 & K2 & K3). split; auto. split; [apply (vt_reach _ _ _ (wb_tree m W)); auto|lia].
  - intros x o Hx _ Ho. apply Hc; auto. lia.
Qed.

Lemma rect_split_root : forall n l, rect_split L ps (m_root m) 0 (n - 1) l -> rect_cover L ps n l.
Proof.
  intros n l (N & Hn & Hc). split; auto. split.
  - intros y a b Hy. destruct (Hn _ _ _ Hy) as (K1 & K2 & K3). split; auto. lia.
  - intros x o Hx Ho. apply Hc; auto; [|lia].
    apply (vt_reach _ _ _ (wb_tree m W)). apply (wb_node_iff m W). pose proof (wb_L m W). unfold leaf in Hx. lia.
Qed.

Variable (n : Z).

(** One component. *)
Definition comp_len (c : list (list R)) : Prop := vlen c = L /\ Forall (fun r => vlen r = n) c.

Definition cval (c : list (list R)) (xo : Z * Z) : R := elt 0%R (elt [] c (fst xo)) (snd xo).

Lemma comp_row : forall c x, comp_len c -> 0 <= x < L -> In (elt [] c x) c /\ vlen (elt [] c x) = n.
Proof.
  intros c x [Lc Rc] Hx. assert (I1 : In (elt [] c x) c) by (unfold elt; apply nth_In; unfold vlen in Lc; lia).
  split; auto. exact (proj1 (Forall_forall _ _) Rc _ I1).
Qed.

Lemma dcells_cl : forall c h i j, comp_len c -> 0 <= i <= j -> j < n -> dcells m c h i j = map (cval c) (cl h i j).
Proof.
  intros c h i j Hc Hi Hj. unfold dcells, cl. rewrite !flat_map_concat_map, concat_map, map_map. f_equal. apply map_ext_in. intros x Hx.
  apply (lv_In m W) in Hx. destruct (comp_row c x Hc ltac:(tauto)) as [_ E].
  rewrite (slice_elt _ 0%R) by lia. rewrite map_map. reflexivity.
Qed.

Lemma dcells_split : forall c h i j l, comp_len c -> 0 <= i <= j -> j < n -> Permutation (flat_map cl3 l) (cl h i j) ->
  (forall y a b, In (y, a, b) l -> 0 <= a <= b /\ b < n) ->
  Permutation (dcells m c h i j) (concat (map (fun r => let '(y, a, b) := r in dcells m c y a b) l)).
Proof.
  intros c h i j l Hc Hi Hj Pm Hl. rewrite dcells_cl by auto.
  replace (map (fun r => let '(y, a, b) := r in dcells m c y a b) l) with (map (fun r => map (cval c) (cl3 r)) l).
  - rewrite <- (map_map cl3 (map (cval c))), <- concat_map. apply Permutation_map. rewrite <- flat_map_concat_map. apply Permutation_sym; auto.
  - apply map_ext_in. intros [[y a] b] Hy. destruct (Hl _ _ _ Hy). symmetry. apply dcells_cl; auto.
Qed.

Definition dnonneg (c : list (list R)) : Prop := Forall nonneg c.

Lemma cval_nonneg : forall c x o, dnonneg c -> comp_len c -> 0 <= x < L -> 0 <= o < n -> (0 <= cval c (x, o))%R.
Proof.
  intros c x o N Hc Hx Ho. unfold cval. cbn [fst snd]. destruct (comp_row c x Hc Hx) as [I1 E].
  pose proof (proj1 (Forall_forall _ _) N _ I1) as F. apply (proj1 (Forall_forall _ _) F). unfold elt at 1. apply nth_In. unfold vlen in E; lia.
Qed.

Lemma nonneg_dcells : forall c h i j, dnonneg c -> comp_len c -> 0 <= i <= j -> j < n -> nonneg (dcells m c h i j).
Proof.
  intros c h i j N Hc Hi Hj. rewrite dcells_cl by auto. apply Forall_forall. intros v Hv. apply in_map_iff in Hv. destruct Hv as ([x o] & <- & Hx).
  apply cl_In in Hx. apply cval_nonneg; auto; [tauto|lia].
Qed.

Variable (comps : list (list (list R))).
Hypothesis CL : Forall comp_len comps.
Hypothesis NN : Forall dnonneg comps.

Lemma dcomp_len : forall c, In c comps -> comp_len c.
Proof. intros c Hc. exact (proj1 (Forall_forall _ _) CL c Hc). Qed.
Lemma dcomp_ok : forall c h i j, In c comps -> 0 <= i <= j -> j < n -> nonneg (dcells m c h i j).
Proof. intros c h i j Hc Hi Hj. apply nonneg_dcells; auto; [exact (proj1 (Forall_forall _ _) NN c Hc)|apply dcomp_len; auto]. Qed.

Lemma dgain_nonneg : forall h i j, 0 <= i <= j -> j < n -> (0 <= dgain m comps h i j)%R.
Proof. intros. apply Rsum_nonneg. intros c Hc. apply gain_of_nonneg, dcomp_ok; auto. Qed.
Lemma dloss_nonneg : forall h i j, 0 <= i <= j -> j < n -> (0 <= dloss m comps h i j)%R.
Proof. intros. apply Rsum_nonneg. intros c Hc. apply loss_of_nonneg, dcomp_ok; auto. Qed.

Definition un3 {X} (f : Z -> Z -> Z -> X) (r : Z * Z * Z) : X := let '(h, a, b) := r in f h a b.

Lemma d_super : forall h i j l, 0 <= i <= j -> j < n -> Permutation (flat_map cl3 l) (cl h i j) ->
  (forall y a b, In (y, a, b) l -> 0 <= a <= b /\ b < n) ->
  (Rsum (un3 (dgain m comps)) l <= dgain m comps h i j)%R /\ (Rsum (un3 (dloss m comps)) l <= dloss m comps h i j)%R.
Proof.
  intros h i j l Hi Hj Pm Hl.
  assert (E1 : Rsum (un3 (dgain m comps)) l = Rsum (fun c => Rsum gain_of (map (fun r => let '(y, a, b) := r in dcells m c y a b) l)) comps).
  { rewrite (Rsum_ext _ _ (fun r => Rsum (fun c => gain_of (un3 (dcells m c) r)) comps)) by (intros [[y a] b] _; reflexivity).
    rewrite (Rsum_swap _ _ (fun r c => gain_of (un3 (dcells m c) r))). apply Rsum_ext. intros c _. rewrite Rsum_map. reflexivity. }
  assert (E2 : Rsum (un3 (dloss m comps)) l = Rsum (fun c => Rsum loss_of (map (fun r => let '(y, a, b) := r in dcells m c y a b) l)) comps).
  { rewrite (Rsum_ext _ _ (fun r => Rsum (fun c => loss_of (un3 (dcells m c) r)) comps)) by (intros [[y a] b] _; reflexivity).
    rewrite (Rsum_swap _ _ (fun r c => loss_of (un3 (dcells m c) r))). apply Rsum_ext. intros c _. rewrite Rsum_map. reflexivity. }
  rewrite E1, E2. unfold dgain, dloss.
  split; apply InfoFacts.Rsum_le; intros c Hc; pose proof (dcells_split c h i j l (dcomp_len c Hc) Hi Hj Pm Hl) as Pc; pose proof (dcomp_ok c h i j Hc Hi Hj) as NC.
  - rewrite (gain_perm _ _ Pc). apply gain_concat. eapply Permutation_Forall; [exact Pc|exact NC].
  - rewrite (loss_perm _ _ Pc). apply loss_concat. eapply Permutation_Forall; [exact Pc|exact NC].
Qed.

Lemma cl_single : forall x o, 0 <= x < L -> cl x o o = [(x, o)].
Proof. intros x o Hx. unfold cl. rewrite (lv_leaf m W) by auto. cbn [flat_map]. rewrite (zrange_cons o) by lia. rewrite zrange_empty by lia. reflexivity. Qed.

Definition singles (l : list (Z * Z)) : list (Z * Z * Z) := map (fun xo => (fst xo, snd xo, snd xo)) l.

Lemma cl_singles : forall l, (forall x o, In (x, o) l -> 0 <= x < L) -> flat_map cl3 (singles l) = l.
Proof.
  induction l as [|[x o] l IH]; intro Hl; auto. cbn [singles map flat_map fst snd cl3]. rewrite cl_single by (apply (Hl x o); left; auto).
  cbn [app]. f_equal. apply IH. intros; eapply Hl; right; eauto.
Qed.

Definition pair_dec : forall a b : Z * Z, {a = b} + {a <> b}.
Proof. intros [a b] [c d]. destruct (Z.eq_dec a c), (Z.eq_dec b d); subst; auto; right; congruence. Defined.

Definition rest (h i j : Z) : list (Z * Z) := filter (fun xo => if in_dec pair_dec xo (cl h i j) then false else true) (cl (m_root m) 0 (n - 1)).

Lemma cl_rest : forall h i j, 0 <= i <= j -> j < n ->
  Permutation (flat_map cl3 ((h, i, j) :: singles (rest h i j))) (cl (m_root m) 0 (n - 1)).
Proof.
  intros h i j Hi Hj. cbn [flat_map cl3]. rewrite cl_singles.
  2:{ intros x o Hx. apply filter_In in Hx. destruct Hx as [Hx _]. apply cl_In in Hx. tauto. }
  apply NoDup_Permutation; [|apply cl_NoDup|].
  - apply NoDup_app_iff. split; [apply cl_NoDup|]. split; [apply NoDup_filter, cl_NoDup|].
    intros x H1 H2. apply filter_In in H2. destruct H2 as [_ H2]. destruct (in_dec pair_dec x (cl h i j)); [discriminate|auto].
  - intros [x o]. rewrite in_app_iff. unfold rest. rewrite filter_In. split.
    + intros [H1|[H1 _]]; auto. apply cl_In in H1. apply cl_In. destruct H1 as [[Rx Bx] Ox]. split; [|lia]. split; auto.
      apply (vt_reach _ _ _ (wb_tree m W)). apply (wb_node_iff m W). pose proof (wb_L m W). lia.
    + intro H1. destruct (in_dec pair_dec (x, o) (cl h i j)); auto.
Qed.

Lemma d_part_whole : forall h i j, 0 <= i <= j -> j < n ->
  (dgain m comps h i j <= dgain m comps (m_root m) 0 (n - 1))%R /\ (dloss m comps h i j <= dloss m comps (m_root m) 0 (n - 1))%R.
Proof.
  intros h i j Hi Hj.
  assert (Hs : forall y a b, In (y, a, b) (singles (rest h i j)) -> 0 <= a <= b /\ b < n).
  { intros y a b Hy. apply in_map_iff in Hy. destruct Hy as ([x o] & E & Hx). cbn in E. inversion E; subst. apply filter_In in Hx. destruct Hx as [Hx _].
    apply cl_In in Hx. lia. }
  destruct (d_super (m_root m) 0 (n - 1) _ ltac:(lia) ltac:(lia) (cl_rest h i j Hi Hj)) as [K1 K2].
  { intros y a b [E|Hy]; [inversion E; subst; lia|apply (Hs y); auto]. }
  rewrite Rsum_cons in K1, K2. cbn [un3] in K1, K2.
  assert (0 <= Rsum (un3 (dgain m comps)) (singles (rest h i j)))%R.
  { apply Rsum_nonneg. intros [[y a] b] Hy. destruct (Hs _ _ _ Hy). apply dgain_nonneg; auto. }
  assert (0 <= Rsum (un3 (dloss m comps)) (singles (rest h i j)))%R.
  { apply Rsum_nonneg. intros [[y a] b] Hy. destruct (Hs _ _ _ Hy). apply dloss_nonneg; auto. }
  lra.
Qed.

Lemma dsingle_zero : forall (cs : list (list (list R))) x o, Forall comp_len cs -> 0 <= x < L -> 0 <= o < n -> dgain m cs x o o = 0%R /\ dloss m cs x o o = 0%R.
Proof.
  intros cs x o Hcs Hx Ho. unfold dgain, dloss.
  split; apply Rsum_zero; intros c Hc; pose proof (proj1 (Forall_forall _ _) Hcs c Hc); rewrite dcells_cl, cl_single by (auto; lia); cbn [map];
   [apply gain_of_single|apply loss_of_single].
Qed.

Lemma dloss_zero : forall h i j, 0 <= i <= j -> j < n ->
  ((dloss m comps h i j = 0)%R <-> (forall c x o y q, In c comps -> In (x, o) (cl h i j) -> In (y, q) (cl h i j) -> cval c (x, o) = cval c (y, q))).
Proof.
  intros h i j Hi Hj. unfold dloss. split.
  - intros E c x o y q Hc Hx Hy. apply (loss_of_zero (dcells m c h i j)); [apply dcomp_ok; auto| | |].
    + apply (Rsum_zero_inv _ (fun c => loss_of (dcells m c h i j)) comps); auto. intros d Hd. apply loss_of_nonneg, dcomp_ok; auto.
    + rewrite dcells_cl by (auto; apply dcomp_len; auto). apply (in_map (cval c)); auto.
    + rewrite dcells_cl by (auto; apply dcomp_len; auto). apply (in_map (cval c)); auto.
  - intro E. apply Rsum_zero. intros c Hc. pose proof (dcomp_ok c h i j Hc Hi Hj) as N. rewrite dcells_cl in * by (auto; apply dcomp_len; auto).
    destruct (cl h i j) as [|[x o] l0] eqn:El. { apply loss_of_nil. }
    apply (loss_of_const (cval c (x, o))).
    + intros v Hv. apply in_map_iff in Hv. destruct Hv as ([y q] & <- & Hy). apply E; auto. left; auto.
    + inversion N; auto.
Qed.
End W.

(** ** Normalisation (any arithmetic) *)
Section N.
Context (A : arith).

Lemma dq_normalize_ok : forall (v : dvalues A) t m f, mrepr t (m_hsize m) (dv_osize v) f -> 1 <= dv_osize v <= 65535 -> 0 <= m_root m < m_hsize m ->
  exists t', dq_normalize A (mkDQ A (Some v) (Some t) m) = Ok (mkDQ A (Some v) (Some t') m) /\
    mrepr t' (m_hsize m) (dv_osize v) (fun h i j => q_div A (f h i j) (ndiv A (f (m_root m) 0 (dv_osize v - 1)) (h <=? m_root m))).
Proof.
  intros v t m f R Hn Hr. unfold dq_normalize. cbn [dq_table dq_meta dq_values]. destruct (proj2 R _ Hr) as (u & Eu & Ru). rewrite Eu. cbn [bind].
  rewrite (urepr_get _ _ _ _ 0 (dv_osize v - 1) Ru) by lia. cbn [bind].
  replace (u_size u) with (dv_osize v) by (symmetry; apply Ru).
  destruct (d_normalize_ok A t _ _ f (m_root m) R ltac:(lia) Hr) as (t' & E & R'). rewrite E. cbn [bind]. eauto.
Qed.

Lemma d_normalize_prf : forall (v : dvalues A) (t : list (utm (quality A))) m mx, well_built m -> 1 <= dv_osize v <= 65535 ->
  vlen t = m_hsize m -> Forall (fun u => utm_shape u (dv_osize v)) t -> mm_get t (m_root m) 0 (dv_osize v - 1) = Ok mx ->
  exists t', dq_normalize A (mkDQ A (Some v) (Some t) m) = Ok (mkDQ A (Some v) (Some t') m) /\ vlen t' = m_hsize m /\
    Forall (fun u => utm_shape u (dv_osize v)) t' /\
    (forall h i j q, 0 <= h <= m_root m -> 0 <= i <= j -> j < dv_osize v -> mm_get t h i j = Ok q ->
       mm_get t' h i j = Ok (mkQ (n_div A (gain q) (gain mx)) (n_div A (loss q) (loss mx)))) /\
    (forall h i j q, m_root m < h < m_hsize m -> 0 <= i <= j -> j < dv_osize v -> mm_get t h i j = Ok q ->
       mm_get t' h i j = Ok (mkQ (n_div A (gain q) (n_div A (gain mx) (gain mx))) (n_div A (loss q) (n_div A (loss mx) (loss mx))))).
Proof.
  intros v t m mx W Hn Ht F Em. pose proof (root_node m W) as Hr. pose proof (shape_mrepr _ t _ (dv_osize v) (q_zero A) ltac:(lia) Ht F) as R.
  destruct (dq_normalize_ok v t m _ R Hn Hr) as (t' & E & R'). exists t'. split; auto. split; [apply R'|]. rewrite Em in R'. split; [|split].
  - apply Forall_forall. intros u Hu. apply In_vget in Hu. destruct Hu as (h & Eh & Hh). rewrite (proj1 R') in Hh.
    destruct (proj2 R' h Hh) as (u' & Eu & Ru). rewrite Eh in Eu. inversion Eu; subst u'. exact (repr_shape _ _ _ _ Ru).
  - intros h i j q Hh Hi Hj Eq. rewrite (mrepr_get _ _ _ _ _ h i j R') by lia. rewrite Eq. replace (h <=? m_root m) with true by (symmetry; apply Z.leb_le; lia). auto.
  - intros h i j q Hh Hi Hj Eq. rewrite (mrepr_get _ _ _ _ _ h i j R') by lia. rewrite Eq. replace (h <=? m_root m) with false by (symmetry; apply Z.leb_gt; lia). auto.
Qed.

Lemma dq_history_prf : forall v cs o,
  mfold (fun c o => match c with Compute => dq_compute A o | Normalize => dq_normalize A o end) cs (dq_ofValues A v) = Ok o ->
  dq_compute A o = dq_compute A (dq_ofValues A v).
Proof.
  intros v cs. assert (G : forall o o',
    mfold (fun c o => match c with Compute => dq_compute A o | Normalize => dq_normalize A o end) cs o = Ok o' ->
    dq_values o' = dq_values o /\ dq_meta o' = dq_meta o).
  { induction cs as [|c cs IH]; intros o o' H; cbn [mfold] in H; [inversion H; auto|].
    match type of H with bind ?e _ = _ => destruct e as [o1| |] eqn:E end; cbn [bind] in H; try discriminate.
    destruct (IH _ _ H) as [-> ->]. destruct c.
    - unfold dq_compute in E. destruct (dq_values o) eqn:Ev; [|inversion E; subst; auto].
      destruct (dq_computeTable A d (dq_meta o)); cbn [bind] in E; inversion E; auto.
    - unfold dq_normalize in E. destruct (dq_table o); [|discriminate]. destruct (dq_values o) eqn:Ev; [|discriminate].
      destruct (vget l (m_root (dq_meta o))) as [u| |]; cbn [bind] in E; try discriminate.
      destruct (u_get u 0 (dv_osize d - 1)); cbn [bind] in E; try discriminate.
      match type of E with bind ?e _ = _ => destruct e; cbn [bind] in E; inversion E; auto end. }
  intros o H. destruct (G _ _ H) as [E1 E2]. unfold dq_compute. rewrite E1, E2. reflexivity.
Qed.
End N.

(** ** Real arithmetic *)
Section R.
Context (P : params).
Notation A := (RP P).
Context (m : meta).
Hypothesis W : well_built m.
Notation ps := (m_parents m).
Notation L := (m_leaves m).
Variable (n : Z).
Hypothesis Hn : 1 <= n <= 65535.

Lemma dtable_repr : forall (t : list (utm (quality A))) comps, dtable t m n comps ->
  mrepr t (m_hsize m) n (fun h i j => @mkQ A (dgain m comps h i j) (dloss m comps h i j)).
Proof.
  intros t comps (S & F & H). eapply mrepr_ext; [apply (shape_mrepr _ t _ n (q_zero A)); auto; lia|].
  intros h i j Hh Hi Hj. cbn beta. rewrite H by auto. auto.
Qed.

Lemma mrepr_shape : forall (t : list (utm (quality A))) H f, mrepr t H n f -> Forall (fun u => utm_shape u n) t.
Proof.
  intros t H f R. apply Forall_forall. intros u Hu. apply In_vget in Hu. destruct Hu as (h & Eh & Hh). rewrite (proj1 R) in Hh.
  destruct (proj2 R h Hh) as (u' & Eu & Ru). rewrite Eh in Eu. inversion Eu; subst u'. exact (repr_shape _ _ _ _ Ru).
Qed.

Variables (G Ls : Z -> Z -> Z -> R).

Lemma d_total : forall (t : list (utm (quality A))) p x, mrepr t (m_hsize m) n (fun h i j => @mkQ A (G h i j) (Ls h i j)) -> d_best A t m p = Ok x ->
  rect_cover L ps n (map rect (dn_parts x)) /\
  gain (dn_quality x) = Rsum (un3 G) (map rect (dn_parts x)) /\ loss (dn_quality x) = Rsum (un3 Ls) (map rect (dn_parts x)).
Proof.
  intros t p x R E. pose proof (mrepr_shape t _ _ R) as F.
  destruct (d_cover_prf m W A t n p Hn (proj1 R) F) as (y & Ey & _ & C & _). rewrite E in Ey. inversion Ey; subst y. split; auto.
  destruct (d_quality_prf m W A t n p x Hn (proj1 R) F E) as (K1 & K2 & K3). rewrite K2, K3.
  assert (Gn : forall (l : list (dpart A)) , (forall y, In y l -> mm_get t (dp_h y) (dp_start y) (dp_end y) = Ok (@mkQ A (un3 G (rect y)) (un3 Ls (rect y))) /\
                                                mm_get t (dp_h y) (dp_start y) (dp_end y) = Ok (dp_quality y)) ->
     forall a b : num A, fold_left (n_add A) (map (fun y => gain (dp_quality y)) l) a = (a + Rsum (un3 G) (map rect l))%R /\
                 fold_left (n_add A) (map (fun y => loss (dp_quality y)) l) b = (b + Rsum (un3 Ls) (map rect l))%R).
  { induction l as [|y l IH]; intros Hl a b.
    - cbn [map fold_left]. rewrite !Rsum_nil. split; rq.
    - cbn [map fold_left]. rewrite !Rsum_cons. destruct (Hl y (or_introl eq_refl)) as [Hy Ey2]. rewrite Hy in Ey2.
      assert (Eq : dp_quality y = @mkQ A (un3 G (rect y)) (un3 Ls (rect y))) by congruence. clear Ey2. rewrite Eq. cbn [gain loss].
      destruct (IH (fun z Hz => Hl z (or_intror Hz)) (a + un3 G (rect y))%R (b + un3 Ls (rect y))%R) as [I1 I2].
      split; [transitivity (a + un3 G (rect y) + Rsum (un3 G) (map rect l))%R; [exact I1|rq]|transitivity (b + un3 Ls (rect y) + Rsum (un3 Ls) (map rect l))%R; [exact I2|rq]]. }
  destruct (Gn (dn_parts x)) with (a := n_zero A) (b := n_zero A) as [G1 G2].
  { intros y Hy. split; [|apply K1; auto]. destruct C as (_ & C & _). destruct (C (dp_h y) (dp_start y) (dp_end y)) as (C1 & C2 & C3).
    { change (In (rect y) (map rect (dn_parts x))). apply in_map; auto. }
    rewrite (mrepr_get _ _ _ _ _ _ _ _ R); auto. apply (wb_node_iff m W); auto. }
  rewrite G1, G2. change (n_zero A) with 0%R. split; rq.
Qed.

Lemma d_value_le : forall (t : list (utm (quality A))) p x l, mrepr t (m_hsize m) n (fun h i j => @mkQ A (G h i j) (Ls h i j)) -> d_best A t m p = Ok x ->
  rect_cover L ps n l -> never_up L ps l ->
  (pp_num P p * Rsum (un3 G) l - pp_num P (pp_compl P p) * Rsum (un3 Ls) l <=
   pp_num P p * gain (dn_quality x) - pp_num P (pp_compl P p) * loss (dn_quality x))%R.
Proof.
  intros t p x l R E C NU.
  assert (El : mmap (fun '(h, a, b) => mm_get t h a b) l = Ok (map (q3 A (fun h i j => @mkQ A (G h i j) (Ls h i j))) l)).
  { apply (mmap_mrepr A t (m_hsize m) n); auto. intros h a b Hh. destruct C as (_ & C & _). destruct (C _ _ _ Hh) as (C1 & C2). split; auto. apply (wb_node_iff m W); auto. }
  pose proof (d_optimal_prf m W P t n p x l _ Hn (proj1 R) (mrepr_shape t _ _ R) E C NU El) as K. rewrite !Rsum_map in K.
  rewrite (Rsum_ext _ (fun x => gain (q3 A _ x)) (un3 G)) in K by (intros [[a b] c] _; reflexivity).
  rewrite (Rsum_ext _ (fun x => loss (q3 A _ x)) (un3 Ls)) in K by (intros [[a b] c] _; reflexivity).
  destruct K as [K|[K _]]; [left; exact K|right; exact K].
Qed.

Lemma cells_cover : rect_cover L ps n (singles (cl m (m_root m) 0 (n - 1))) /\ never_up L ps (singles (cl m (m_root m) 0 (n - 1))).
Proof.
  assert (I : forall y a b, In (y, a, b) (singles (cl m (m_root m) 0 (n - 1))) <-> 0 <= y < L /\ 0 <= a < n /\ a = b).
  { intros y a b. unfold singles. rewrite in_map_iff. split.
    - intros ([x o] & E & Hx). cbn in E. inversion E; subst. apply (cl_In m W) in Hx. split; [tauto|]. split; auto. lia.
    - intros (Hy & Ha & <-). exists (y, a). split; auto. apply (cl_In m W). split; [|lia]. split; auto.
      apply (vt_reach _ _ _ (wb_tree m W)). apply (wb_node_iff m W). pose proof (wb_L m W). lia. }
  assert (B : forall x y, 0 <= x < L -> 0 <= y < L -> below ps x y -> y = x).
  { intros x y Hx Hy Bxy. assert (K : In x (leavesof L ps y)) by (apply (lv_In m W); auto). rewrite (lv_leaf m W) in K by auto. destruct K as [K|[]]; auto. }
  split; [split; [|split]|].
  - apply FinFun.Injective_map_NoDup; [|apply (cl_NoDup m)]. intros [a b] [c d] E; cbn in E. inversion E; auto.
  - intros h a b Hh. apply I in Hh. destruct Hh as (K1 & K2 & <-). split; [|lia]. apply (wb_node_iff m W). pose proof (wb_L m W). lia.
  - intros x o Hx Ho. exists x, o, o. split; [apply I; unfold leaf in Hx; auto|]. split; [constructor|]. split; [lia|].
    intros h' a' b' Hh Bh Ha. apply I in Hh. destruct Hh as (K1 & K2 & <-). rewrite (B x h') by auto. replace a' with o by lia. auto.
  - intros x h a b h' a' b' Hx Hh Hh' Bh Bh' _. apply I in Hh, Hh'. destruct Hh as (K1 & _), Hh' as (K2 & _).
    rewrite (B x h), (B x h') by auto. constructor.
Qed.

Lemma whole_cover : rect_cover L ps n [(m_root m, 0, n - 1)] /\ never_up L ps [(m_root m, 0, n - 1)].
Proof.
  pose proof (root_node m W) as Hr. split; [apply rect_split_root; auto; split; [|split]|].
  - constructor; [intros []|constructor].
  - intros y a b [E|[]]. inversion E; subst. split; [apply (wb_node_iff m W); auto|]. split; [constructor|lia].
  - intros x o Hx B Ho. exists (m_root m), 0, (n - 1). split; [left; auto|]. split; auto. split; [lia|]. intros y a b [E|[]] _ _; auto.
  - intros x h a b h' a' b' Hx [E|[]] [E'|[]] _ _ _. inversion E; inversion E'; subst. constructor.
Qed.

Lemma d_extreme0 : forall (t : list (utm (quality A))) p x, mrepr t (m_hsize m) n (fun h i j => @mkQ A (G h i j) (Ls h i j)) -> d_best A t m p = Ok x ->
  pp_num P p = 0%R -> pp_num P (pp_compl P p) = 1%R ->
  (forall h i j, 0 <= h < m_hsize m -> 0 <= i <= j -> j < n -> (0 <= Ls h i j)%R) -> (forall h i, 0 <= h < L -> 0 <= i < n -> Ls h i i = 0%R) -> loss (dn_quality x) = 0%R.
Proof.
  intros t p x R E P0 P1 HL HD. destruct (d_total t p x R E) as (C & _ & EL).
  assert (L0 : (0 <= loss (dn_quality x))%R).
  { rewrite EL. apply Rsum_nonneg. intros [[y a] b] Hy. destruct C as (_ & C & _). destruct (C _ _ _ Hy) as (C1 & C2 & C3). apply HL; auto. apply (wb_node_iff m W); auto. }
  pose proof (d_value_le t p x _ R E (proj1 cells_cover) (proj2 cells_cover)) as K. rewrite P0, P1 in K.
  rewrite (Rsum_zero _ (un3 Ls)) in K.
  - change (num (RP P)) with Rdefinitions.R in *. lra.
  - intros [[y a] b] Hy. apply in_map_iff in Hy. destruct Hy as ([u o] & Eu & Hu). cbn in Eu. inversion Eu; subst. apply (cl_In m W) in Hu. apply HD; [tauto|lia].
Qed.

Lemma d_extreme1 : forall (t : list (utm (quality A))) p x, mrepr t (m_hsize m) n (fun h i j => @mkQ A (G h i j) (Ls h i j)) -> d_best A t m p = Ok x ->
  pp_num P p = 1%R -> pp_num P (pp_compl P p) = 0%R ->
  (forall l, rect_cover L ps n l -> (Rsum (un3 G) l <= G (m_root m) 0 (n - 1))%R) -> gain (dn_quality x) = G (m_root m) 0 (n - 1).
Proof.
  intros t p x R E P0 P1 HG. destruct (d_total t p x R E) as (C & EG & _).
  pose proof (HG _ C) as K. rewrite <- EG in K.
  pose proof (d_value_le t p x _ R E (proj1 whole_cover) (proj2 whole_cover)) as K2. rewrite P0, P1 in K2. unfold Rsum in K2. cbn [map fold_right un3] in K2.
  change (num (RP P)) with Rdefinitions.R in *. lra.
Qed.

Lemma d_scaled_best : forall (t t' : list (utm (quality A))) c p x x', (0 < c)%R ->
  mrepr t (m_hsize m) n (fun h i j => @mkQ A (G h i j) (Ls h i j)) -> mrepr t' (m_hsize m) n (fun h i j => @mkQ A (c * G h i j)%R (c * Ls h i j)%R) ->
  d_best A t m p = Ok x -> d_best A t' m p = Ok x' -> dcoords x' = dcoords x.
Proof.
  intros t t' c p x x' Hc R R' E E'.
  refine (d_sim A A (tscale P c) (tscale_hom P c Hc) p p m W n _ _ Hn _ t t' x x' R R' E E').
  intros h i j Hh Hi Hj. apply tscale_set.
Qed.

Lemma dgain_scaled : forall c comps h i j, (0 < c)%R -> Forall (Forall nonneg) comps -> Forall (comp_len m n) comps -> 0 <= i <= j -> j < n ->
  dgain m (map (scaled c) comps) h i j = (c * dgain m comps h i j)%R /\ dloss m (map (scaled c) comps) h i j = (c * dloss m comps h i j)%R.
Proof.
  intros c comps h i j Hc NN CL Hi Hj. unfold dgain, dloss. rewrite !Rsum_map, <- !Rsum_scal.
  assert (E : forall r, dcells m (scaled c r) h i j = map (Rmult c) (dcells m r h i j)).
  { intro r. unfold dcells, scaled. rewrite !flat_map_concat_map, concat_map, map_map. f_equal. apply map_ext. intro y. unfold elt, slice.
    rewrite <- firstn_map, <- skipn_map. do 2 f_equal. rewrite <- (map_nth (map (Rmult c))). reflexivity. }
  split; apply Rsum_ext; intros r Hr; rewrite E; [apply gain_scal|apply loss_scal]; auto; apply (dcomp_ok m W n comps CL NN); auto.
Qed.
End R.

Lemma ddata_comp : forall P (v : dvalues (RP P)) comps, ddata_ok v comps -> Forall (comp_len (dv_meta v) (dv_osize v)) comps.
Proof.
  intros P v comps D. pose proof (ddata_len P v comps D) as Lc. destruct D as (_ & _ & _ & _ & _ & Rc). apply Forall_forall. intros c Hc. split.
  - exact (proj1 (Forall_forall _ _) Lc c Hc).
  - exact (proj1 (Forall_forall _ _) Rc c Hc).
Qed.
