(** * Property C87: running time backwards. Exact arithmetic. *)
From Coq Require Import Reals Lra Lia Permutation.
From Verif Require Import Base BaseFacts Arith Quality Utm UtmFacts UtmProofs Hierarchy HierarchyFacts SpecTree SpecParts SpecInfo SpecData SpecSym SpecShape Values Qualities Partitions Partitioners
  InfoFacts OQual HQual DQual OInfo DataFacts NormFacts OReal OProofs HProofs DProofs ODataProofs HDataProofs DDataProofs P_Shape P_Sym.

Lemma elt_rev : forall X (d : X) r i, 0 <= i < vlen r -> elt d (rev r) i = elt d r (vlen r - 1 - i).
Proof. intros X d r i H. unfold elt, vlen in *. rewrite rev_nth by lia. f_equal. lia. Qed.
Lemma zrange_mirror : forall n i j, i <= j -> Permutation (map (fun k => n - 1 - k) (zrange i j)) (zrange (n - j) (n - i)).
Proof.
  intros n i j H. apply NoDup_Permutation.
  - apply FinFun.Injective_map_NoDup; [intros a b; lia|apply NoDup_zrange].
  - apply NoDup_zrange.
  - intro x. rewrite In_zrange, in_map_iff. split.
    + intros (k & <- & Ik). apply In_zrange in Ik. lia.
    + intro Hx. exists (n - 1 - x). split; [lia|]. apply In_zrange. lia.
Qed.
Lemma slice_rev : forall (r : list R) i j, 0 <= i <= j -> j < vlen r -> Permutation (slice (rev r) i j) (slice r (vlen r - 1 - j) (vlen r - 1 - i)).
Proof.
  intros r i j Hi Hj. assert (Lr : vlen (rev r) = vlen r) by (unfold vlen; rewrite rev_length; reflexivity).
  rewrite (slice_elt _ 0%R (rev r)) by lia. rewrite (slice_elt _ 0%R r) by lia.
  rewrite (map_ext_in (elt 0%R (rev r)) (fun k => elt 0%R r (vlen r - 1 - k))) by (intros k Hk; apply In_zrange in Hk; apply elt_rev; lia).
  rewrite <- (map_map (fun k => vlen r - 1 - k) (elt 0%R r)). apply Permutation_map.
  replace (vlen r - 1 - j) with (vlen r - (j + 1)) by lia. replace (vlen r - 1 - i + 1) with (vlen r - i) by lia. apply zrange_mirror. lia.
Qed.

Lemma tiles_app : forall a b l, tiles a b l -> forall c l', tiles b c l' -> tiles a c (l ++ l').
Proof.
  intros a b l T. induction T as [n|a e n r H T IH]; intros c l' T'; [exact T'|]. cbn [app]. constructor; [|apply IH; exact T'].
  assert (G : forall x y z, tiles x y z -> x <= y) by (clear; intros x y z T; induction T; lia). pose proof (G _ _ _ T'). lia.
Qed.
Lemma tiles_mirror : forall n a b l, tiles a b l -> tiles (n - b) (n - a) (rev (map (mirror n) l)).
Proof.
  intros n a b l T. induction T as [m|a e m r H T IH]; [constructor|]. cbn [map rev]. eapply tiles_app; [exact IH|]. unfold mirror. cbn [fst snd].
  replace (n - (e + 1)) with (n - 1 - e) by lia. constructor; [lia|]. replace (n - 1 - a + 1) with (n - a) by lia. constructor.
Qed.

Lemma no_better_antisym : forall a b G L G' L', no_better a b G L G' L' -> no_better a b G' L' G L -> G = G' /\ L = L'.
Proof. intros a b G L G' L'. unfold no_better. intros [H|[H [K|[K M]]]] [H'|[H' [K'|[K' M']]]]; split; lra. Qed.

(** ** Ordered *)
Theorem C87_ordered : forall P (v v' : ovalues (RP P)) rows t t', odata_ok v rows -> odata_ok v' (map (@rev R) rows) -> ov_osize v' = ov_osize v ->
  o_table (RP P) v = Ok (Some t) -> o_table (RP P) v' = Ok (Some t') ->
  let n := ov_osize v in
  (forall i j, 0 <= i <= j -> j < n -> u_get t' i j = u_get t (n - 1 - j) (n - 1 - i)) /\
  forall p x x', o_best (RP P) t p = Ok x -> o_best (RP P) t' p = Ok x' ->
    gain (on_quality x') = gain (on_quality x) /\ loss (on_quality x') = loss (on_quality x).
Proof.
  intros P v v' rows t t' D D' En Et Et' n. unfold o_table in Et, Et'.
  destruct (o_compute_data P v rows D) as (t1 & E & T). destruct (o_compute_data P v' _ D') as (t1' & E' & T').
  rewrite E in Et. rewrite E' in Et'. cbn [bind oq_table] in Et, Et'. inversion Et; inversion Et'; subst t1 t1'. rewrite En in T'. fold n in T, T'.
  pose proof (proj1 (proj2 D)) as Hn. fold n in Hn.
  assert (Hr : forall r : list R, In r rows -> vlen r = n) by (apply Forall_forall; exact (proj2 (proj2 (proj2 D)))).
  assert (S : forall i j, 0 <= i <= j -> j < n -> ogain (map (@rev R) rows) i j = ogain rows (n - 1 - j) (n - 1 - i) /\ oloss (map (@rev R) rows) i j = oloss rows (n - 1 - j) (n - 1 - i)).
  { intros i j Hi Hj. unfold ogain, oloss. rewrite !Rsum_map. split; apply Rsum_ext; intros r Ir; [apply gain_perm|apply loss_perm]; rewrite <- (Hr r Ir); apply slice_rev; rewrite ?(Hr r Ir); auto; lia. }
  split.
  - intros i j Hi Hj. rewrite (proj2 T' i j Hi Hj). rewrite (proj2 T (n - 1 - j) (n - 1 - i)) by lia. destruct (S i j Hi Hj) as [-> ->]. reflexivity.
  - pose proof (otable_repr P _ _ _ Hn T) as U. pose proof (otable_repr P _ _ _ Hn T') as U'.
    intros p x x' B B'. destruct (o_total P t n _ _ p x Hn U B) as (Tx & Gx & Lx). destruct (o_total P t' n _ _ p x' Hn U' B') as (Tx' & Gx' & Lx').
    assert (M : forall (F F' : Z -> Z -> R) l, tiles 0 n l -> (forall i j, 0 <= i <= j -> j < n -> F' i j = F (n - 1 - j) (n - 1 - i)) ->
                  Rsum (fun ab => F (fst ab) (snd ab)) (rev (map (mirror n) l)) = Rsum (fun ab => F' (fst ab) (snd ab)) l).
    { intros F F' l Tl HF. rewrite <- (Rsum_perm _ _ _ _ (Permutation_rev (map (mirror n) l))). rewrite Rsum_map. apply Rsum_ext. intros [i j] Il. unfold mirror. cbn [fst snd]. symmetry.
      assert (I : forall a b z, tiles a b z -> forall i j, In (i, j) z -> a <= i <= j /\ j < b).
      { clear. intros a b z T. induction T as [m|a e m r H T IH]; intros i j I; [destruct I|]. destruct I as [I|I]; [inversion I; subst; lia|]. apply IH in I. lia. }
      destruct (I _ _ _ Tl i j Il). apply HF; lia. }
    assert (Mr : forall l, tiles 0 n l -> tiles 0 n (rev (map (mirror n) l))).
    { intros l Tl. apply (tiles_mirror n) in Tl. replace (n - n) with 0 in Tl by lia. replace (n - 0) with n in Tl by lia. exact Tl. }
    pose proof (o_no_better P t n _ _ p x _ Hn U B (Mr _ Tx')) as K. pose proof (o_no_better P t' n _ _ p x' _ Hn U' B' (Mr _ Tx)) as K'.
    rewrite (M (ogain rows) (ogain (map (@rev R) rows)) _ Tx'), (M (oloss rows) (oloss (map (@rev R) rows)) _ Tx') in K by (intros i j Hi Hj; apply (S i j Hi Hj)).
    assert (S' : forall i j, 0 <= i <= j -> j < n -> ogain rows i j = ogain (map (@rev R) rows) (n - 1 - j) (n - 1 - i) /\ oloss rows i j = oloss (map (@rev R) rows) (n - 1 - j) (n - 1 - i)).
    { intros i j Hi Hj. destruct (S (n - 1 - j) (n - 1 - i) ltac:(lia) ltac:(lia)) as [S1 S2]. rewrite S1, S2. replace (n - 1 - (n - 1 - i)) with i by lia. replace (n - 1 - (n - 1 - j)) with j by lia. split; reflexivity. }
    rewrite (M (ogain (map (@rev R) rows)) (ogain rows) _ Tx), (M (oloss (map (@rev R) rows)) (oloss rows) _ Tx) in K' by (intros i j Hi Hj; apply (S' i j Hi Hj)).
    cbn beta in Gx, Lx, Gx', Lx'. rewrite <- Gx', <- Lx' in K. rewrite <- Gx, <- Lx in K'. destruct (no_better_antisym _ _ _ _ _ _ K K') as [K1 K2]. split; [symmetry; exact K1|symmetry; exact K2].
Qed.

(** ** Spatiotemporal: the tables are mirrored *)
Theorem C87_spatio_table : forall P (v v' : dvalues (RP P)) comps t t' m m', ddata_ok v comps -> ddata_ok v' (map (map (@rev R)) comps) -> dv_osize v' = dv_osize v -> dv_meta v' = dv_meta v ->
  d_table (RP P) (Ok v) = Ok (Some t, m) -> d_table (RP P) (Ok v') = Ok (Some t', m') ->
  let n := dv_osize v in
  m' = m /\ forall h i j, 0 <= h < m_hsize m -> 0 <= i <= j -> j < n -> mm_get t' h i j = mm_get t h (n - 1 - j) (n - 1 - i).
Proof.
  intros P v v' comps t t' m m' D D' En Em Et Et' n. unfold d_table in Et, Et'. cbn [bind] in Et, Et'.
  destruct (d_compute_prf P v comps D) as (t1 & E & T). destruct (d_compute_prf P v' _ D') as (t1' & E' & T').
  rewrite E in Et. rewrite E' in Et'. cbn [bind dq_table dq_meta] in Et, Et'. inversion Et; inversion Et'; subst t1 t1' m m'. rewrite En, Em in T'. fold n in T, T'. split; [exact Em|].
  intros h i j Hh Hi Hj. pose proof (ddata_comp P v comps D) as CL. rewrite (proj2 (proj2 T') h i j Hh Hi Hj). rewrite (proj2 (proj2 T) h (n - 1 - j) (n - 1 - i) Hh) by lia.
  assert (Pc : forall c, In c comps -> Permutation (dcells (dv_meta v) (map (@rev R) c) h i j) (dcells (dv_meta v) c h (n - 1 - j) (n - 1 - i))).
  { intros c Ic. pose proof (proj1 (Forall_forall _ _) CL c Ic) as Cc. unfold dcells. unfold leavesof.
    assert (G : forall l, (forall x, In x l -> 0 <= x < m_leaves (dv_meta v)) -> Permutation (flat_map (fun x => slice (elt [] (map (@rev R) c) x) i j) l) (flat_map (fun x => slice (elt [] c x) (n - 1 - j) (n - 1 - i)) l)).
    { induction l as [|x l IH]; intro Hl; [constructor|]. cbn [flat_map]. apply Permutation_app; [|apply IH; intros y Iy; apply Hl; right; exact Iy].
      assert (Hx : 0 <= x < m_leaves (dv_meta v)) by (apply Hl; left; reflexivity). destruct (comp_row _ n c x Cc Hx) as [I0 L0].
      replace (elt [] (map (@rev R) c) x) with (rev (elt [] c x)).
      - replace (n - 1) with (vlen (elt [] c x) - 1) by lia. apply slice_rev; lia.
      - unfold elt. change (@nil R) with (rev (@nil R)) at 2. rewrite map_nth. reflexivity. }
    apply G. intros x Ix. apply filter_In in Ix. destruct Ix as [Ix _]. apply In_zrange in Ix. lia. }
  f_equal. unfold dgain, dloss. f_equal; rewrite Rsum_map; apply Rsum_ext; intros c Ic; [apply gain_perm|apply loss_perm]; apply (Pc c Ic).
Qed.
