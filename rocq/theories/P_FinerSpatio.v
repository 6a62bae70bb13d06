(** * Property C102: a finer time resolution in spatiotemporal aggregation. Exact arithmetic. *)
From Coq Require Import Reals Lra Lia List Permutation.
From Verif Require Import Base BaseFacts Arith Quality Utm UtmFacts UtmProofs Hierarchy HierarchyFacts HierarchyProofs SpecTree SpecParts SpecInfo SpecData SpecShape SpecResample SpecFinerS Values Qualities Partitions Partitioners
  TreeFacts TreePath CoverFacts InfoFacts HFacts DQual LexR OInfo DFacts DSel DReal DProofs DataFacts HDataProofs DDataProofs P_HierData P_Spatio P_SpatioData P_RNum ResampleFacts P_Copies P_CopiesSpatio.

Section F.
Context (k : nat) (m : meta) (n : Z).
Hypothesis K0 : (0 < k)%nat.
Hypothesis W : well_built m.
Hypothesis Hn : 1 <= n.
Notation L := (m_leaves m).
Notation ps := (m_parents m).
Notation M := (Z.of_nat k).

Lemma fs_cells : forall c h i j, 0 <= i <= j + 1 -> dcells m (map (refine k) c) h (i * M) (j * M + M - 1) = refine k (dcells m c h i j).
Proof.
  intros c h i j Hi. unfold dcells. induction (leavesof L ps h) as [|x l IH]; [reflexivity|]. cbn [flat_map]. rewrite refine_app by exact K0. rewrite IH. f_equal.
  rewrite <- refine_slice by auto. f_equal. unfold elt. rewrite <- (map_nth (refine k)). reflexivity.
Qed.
Lemma fs_qual : forall comps, Forall (comp_len m n) comps -> Forall (Forall nonneg) comps -> forall h i j, 0 <= i <= j -> j < n ->
  dgain m (finer_data k comps) h (i * M) (j * M + M - 1) = (dgain m comps h i j + log2 (INR k) * dall m comps h i j)%R /\
  dloss m (finer_data k comps) h (i * M) (j * M + M - 1) = dloss m comps h i j.
Proof.
  intros comps CL NN h i j Hi Hj. unfold dgain, dloss, dall, finer_data. rewrite !Rsum_map. induction comps as [|c l IH]; [rewrite !Rsum_nil; split; lra|].
  inversion CL; inversion NN; subst. rewrite !Rsum_cons. destruct (IH ltac:(assumption) ltac:(assumption)) as [-> ->]. rewrite fs_cells by lia.
  pose proof (nonneg_dcells m W n c h i j ltac:(assumption) ltac:(assumption) Hi Hj) as Nn. rewrite refine_gain by auto. rewrite refine_loss by auto. split; lra.
Qed.

Lemma fs_le : forall i o, (i * M <= o <-> i <= o / M).
Proof. intros i o. split; intro H; [apply Z.div_le_lower_bound; lia|]. pose proof (Z.div_mod o M ltac:(lia)). pose proof (Z.mod_pos_bound o M ltac:(lia)). nia. Qed.
Lemma fs_ge : forall j o, (o <= j * M + M - 1 <-> o / M <= j).
Proof.
  intros j o. split; intro H.
  - assert (o / M < j + 1); [|lia]. apply Z.div_lt_upper_bound; lia.
  - pose proof (Z.div_mod o M ltac:(lia)). pose proof (Z.mod_pos_bound o M ltac:(lia)). nia.
Qed.
Lemma fs_rect : forall l, rect_cover L ps n l -> never_up L ps l -> rect_cover L ps (n * M) (map (finer_rect k) l) /\ never_up L ps (map (finer_rect k) l).
Proof.
  intros l (ND & N & C) NU. split; [split; [|split]|].
  - apply cp_NoDup_map; [|exact ND]. intros [[y i] j] [[z i'] j'] _ _ E. unfold finer_rect, finer in E. cbn [fst snd] in E. injection E as -> E1 E2. f_equal; [f_equal|]; nia.
  - intros h a b I. apply in_map_iff in I. destruct I as ([[y i] j] & E & I). unfold finer_rect, finer in E. cbn [fst snd] in E. injection E as <- <- <-. destruct (N _ _ _ I) as (Ny & K & K'). split; [exact Ny|nia].
  - intros x o Hx Ho. assert (Ro : 0 <= o / M < n) by (split; [apply Z.div_pos; lia|apply Z.div_lt_upper_bound; lia]). destruct (C x (o / M) Hx Ro) as (h & a & b & I & B & K & U).
    exists h, (a * M), (b * M + M - 1). split; [apply (in_map (finer_rect k) _ _ I)|]. split; [exact B|]. split; [split; [apply fs_le|apply fs_ge]; apply K|].
    intros h' a' b' I' B' K'. apply in_map_iff in I'. destruct I' as ([[y i] j] & E & I'). unfold finer_rect, finer in E. cbn [fst snd] in E. injection E as <- <- <-. rewrite fs_le, fs_ge in K'.
    pose proof (U _ _ _ I' B' K') as Q. injection Q as -> -> ->. reflexivity.
  - intros x h a b h' a' b' Hx I I' B B' K. apply in_map_iff in I. destruct I as ([[y i] j] & E & I). unfold finer_rect, finer in E. cbn [fst snd] in E. injection E as <- <- <-.
    apply in_map_iff in I'. destruct I' as ([[z i'] j'] & E & I'). unfold finer_rect, finer in E. cbn [fst snd] in E. injection E as <- <- <-.
    apply (NU x y i j z i' j'); auto. nia.
Qed.
End F.

Theorem C102_table : forall P k (v v' : dvalues (RP P)) comps t t' m, (0 < k)%nat -> ddata_ok v comps -> Forall (Forall nonneg) comps ->
  ddata_ok v' (finer_data k comps) -> dv_osize v' = dv_osize v * Z.of_nat k -> d_table (RP P) (Ok v) = Ok (Some t, m) -> d_table (RP P) (Ok v') = Ok (Some t', m) ->
  forall h i j, node (m_parents m) h -> 0 <= i <= j -> j < dv_osize v -> exists q q', mm_get t h i j = Ok q /\ mm_get t' h (fst (finer k (i, j))) (snd (finer k (i, j))) = Ok q' /\
    gain q' = (gain q + log2 (INR k) * Rsum (fun c => Rsum (fun x => total (slice (elt [] c x) i j)) (leavesof (m_leaves m) (m_parents m) h)) comps)%R /\ loss q' = loss q.
Proof.
  intros P k v v' comps t t' m K0 D NN D' Eo Et Et'. unfold d_table in Et, Et'. cbn [bind] in Et, Et'.
  destruct (d_compute_prf P v comps D) as (t1 & E & T). destruct (d_compute_prf P v' _ D') as (t1' & E' & T').
  rewrite E in Et. rewrite E' in Et'. cbn [bind dq_table dq_meta] in Et, Et'. injection Et as -> Em. injection Et' as -> Em'. pose proof (ddata_comp P v comps D) as CL.
  destruct D as (_ & Hn & W & _). destruct D' as (_ & Hn' & W' & _). rewrite Eo in *. rewrite Em in *. rewrite Em' in *. intros h i j Nh Hi Hj.
  pose proof (proj1 (wb_node_iff m W h) Nh) as Hh. pose proof (dtable_repr P m _ Hn t comps T) as U. pose proof (dtable_repr P m _ Hn' t' _ T') as U'. unfold finer. cbn [fst snd].
  eexists; eexists. split; [apply (mrepr_get _ _ _ _ _ h i j U); lia|]. split; [apply (mrepr_get _ _ _ _ _ h _ _ U'); [lia|nia|nia]|].
  cbn [gain loss]. destruct (fs_qual k m (dv_osize v) K0 W comps CL NN h i j Hi Hj) as [-> ->].
  split; [|reflexivity]. do 2 f_equal. unfold dall. apply Rsum_ext. intros c _. unfold dcells. apply total_flat.
Qed.

(** The old partition, on the finer axis, is a partition that the finer run can display, and its value is the old one plus p log2(k) times all the data:
    the computed one has at least this value. *)
Theorem C102_kept : forall P k (v v' : dvalues (RP P)) comps t t' m, (0 < k)%nat -> ddata_ok v comps -> Forall (Forall nonneg) comps ->
  ddata_ok v' (finer_data k comps) -> dv_osize v' = dv_osize v * Z.of_nat k -> d_table (RP P) (Ok v) = Ok (Some t, m) -> d_table (RP P) (Ok v') = Ok (Some t', m) ->
  forall p x x', d_best (RP P) t m p = Ok x -> d_best (RP P) t' m p = Ok x' ->
  rect_cover (m_leaves m) (m_parents m) (dv_osize v') (map (finer_rect k) (map rect (dn_parts x))) /\ never_up (m_leaves m) (m_parents m) (map (finer_rect k) (map rect (dn_parts x))) /\
  (pp_num P p * gain (dn_quality x) - pp_num P (pp_compl P p) * loss (dn_quality x) + pp_num P p * (log2 (INR k) * Rsum all_data comps) <=
   pp_num P p * gain (dn_quality x') - pp_num P (pp_compl P p) * loss (dn_quality x'))%R.
Proof.
  intros P k v v' comps t t' m K0 D NN D' Eo Et Et'. unfold d_table in Et, Et'. cbn [bind] in Et, Et'.
  destruct (d_compute_prf P v comps D) as (t1 & E & T). destruct (d_compute_prf P v' _ D') as (t1' & E' & T').
  rewrite E in Et. rewrite E' in Et'. cbn [bind dq_table dq_meta] in Et, Et'. injection Et as -> Em. injection Et' as -> Em'. pose proof (ddata_comp P v comps D) as CL.
  destruct D as (_ & Hn & W & _). destruct D' as (_ & Hn' & W' & _). rewrite Eo in *. rewrite Em in *. rewrite Em' in *. set (n := dv_osize v) in *.
  pose proof (dtable_repr P m _ Hn t comps T) as U. pose proof (dtable_repr P m _ Hn' t' _ T') as U'. intros p x x' Ex Ex'.
  pose proof T as (S0 & F0 & _). destruct (d_cover_prf m W (RP P) t _ p Hn S0 F0) as (x1 & E1 & _ & C & NU & _). rewrite Ex in E1. inversion E1; subst x1.
  destruct (d_total P m W _ Hn _ _ t p x U Ex) as (_ & G & Ls). remember (map rect (dn_parts x)) as l eqn:El.
  destruct (fs_rect k m n K0 l C NU) as [C' N']. split; [exact C'|]. split; [exact N'|].
  pose proof (d_value_le P m W _ Hn' _ _ t' p x' _ U' Ex' C' N') as K. rewrite !Rsum_map in K. rewrite G, Ls.
  rewrite (Rsum_ext _ (fun r => un3 (dgain m (finer_data k comps)) (finer_rect k r)) (fun r => un3 (dgain m comps) r + log2 (INR k) * un3 (dall m comps) r)%R l) in K
    by (intros [[h i] j] I; cbn [un3 finer_rect]; unfold finer; cbn [fst snd]; destruct (proj1 (proj2 C) h i j I) as (A1 & A2 & A3); apply (fs_qual k m n K0 W comps CL NN h i j A2 A3)).
  rewrite (Rsum_ext _ (fun r => un3 (dloss m (finer_data k comps)) (finer_rect k r)) (un3 (dloss m comps)) l) in K
    by (intros [[h i] j] I; cbn [un3 finer_rect]; unfold finer; cbn [fst snd]; destruct (proj1 (proj2 C) h i j I) as (A1 & A2 & A3); apply (fs_qual k m n K0 W comps CL NN h i j A2 A3)).
  rewrite Rsum_plus, Rsum_scal, (dall_cover m n W ltac:(lia) comps l CL C), (dall_root m n W ltac:(lia) comps CL) in K.
  change (num (RP P)) with R in *. rewrite Rmult_plus_distr_l in K. lra.
Qed.
Print Assumptions C102_table.
Print Assumptions C102_kept.
