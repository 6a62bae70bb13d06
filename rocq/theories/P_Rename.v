(** * Property C88: the numbering of leaves and nodes does not matter. Exact arithmetic. *)
From Coq Require Import Reals Lra Lia Permutation.
From Verif Require Import Base BaseFacts Arith Quality Utm UtmFacts UtmProofs Hierarchy HierarchyFacts SpecTree SpecParts SpecInfo SpecData SpecSym SpecShape Values Qualities Partitions Partitioners
  TreeFacts TreePath HFacts CoverFacts DSel InfoFacts OQual HQual DQual OInfo DataFacts NormFacts OReal OProofs HProofs DProofs ODataProofs HDataProofs DDataProofs P_Shape P_Sym P_Mirror.

(** ** Renamings *)
Section S.
Context (m m' : meta) (s : Z -> Z).
Hypothesis W : well_built m.
Hypothesis W' : well_built m'.
Hypothesis EL : m_leaves m' = m_leaves m.
Notation L := (m_leaves m).
Notation ps := (m_parents m).
Notation ps' := (m_parents m').
Hypothesis Rn : renaming L ps ps' s.

Lemma rn_parent_node : forall h, node ps h -> parent ps h <> -1 -> node ps (parent ps h).
Proof.
  intros h Hh Hp. pose proof (wb_tree _ W) as V. destruct (Z.eq_dec h (m_root m)) as [->|D]; [exfalso; apply Hp; exact (vt_rootp _ _ _ V)|].
  destruct (vt_parent _ _ _ V h Hh D). pose proof (vt_L _ _ _ V). unfold node. lia.
Qed.
Lemma node_minus1 : forall qs h, node qs h -> h <> -1.
Proof. intros qs h H. unfold node in H. lia. Qed.
Lemma rn_up : forall x h, below ps x h -> node ps x -> below ps' (s x) (s h).
Proof.
  intros x h B. induction B as [h|x h Hp B IH]; intro Hx; [constructor|]. pose proof (rn_parent_node x Hx Hp) as Np.
  assert (E : parent ps' (s x) = s (parent ps x)). { rewrite (rn_parent _ _ _ _ Rn x Hx). destruct (Z.eqb_spec (parent ps x) (-1)); [contradiction|reflexivity]. }
  apply below_up; rewrite E; [|apply IH; exact Np]. apply (node_minus1 ps'). apply (rn_node _ _ _ _ Rn). exact Np.
Qed.
Lemma rn_down : forall y k, below ps' y k -> forall x h, node ps x -> node ps h -> y = s x -> k = s h -> below ps x h.
Proof.
  intros y k B. induction B as [k|y k Hp B IH]; intros x h Hx Hh E1 E2.
  - assert (x = h) by (apply (rn_inj _ _ _ _ Rn); congruence). subst h. constructor.
  - subst y. rewrite (rn_parent _ _ _ _ Rn x Hx) in Hp, IH. destruct (Z.eqb_spec (parent ps x) (-1)) as [D|D]; [congruence|].
    apply below_up; [exact D|]. eapply IH; [apply rn_parent_node; assumption|exact Hh|reflexivity|exact E2].
Qed.
Lemma rn_below : forall x h, node ps x -> node ps h -> (below ps' (s x) (s h) <-> below ps x h).
Proof. intros x h Hx Hh. split; intro B; [eapply rn_down; eauto|apply rn_up; auto]. Qed.
Lemma leaf_node : forall x, leaf L x -> node ps x.
Proof. intros x Hx. pose proof (vt_L _ _ _ (wb_tree _ W)). unfold leaf, node in *. lia. Qed.
Lemma leaf_node' : forall x, leaf L x -> node ps' x.
Proof. intros x Hx. pose proof (vt_L _ _ _ (wb_tree _ W')). rewrite EL in *. unfold leaf, node in *. lia. Qed.

Lemma rn_leaves : forall h, node ps h -> Permutation (leavesof L ps' (s h)) (map s (leavesof L ps h)).
Proof.
  intros h Hh. apply NoDup_Permutation.
  - rewrite <- EL. apply (lv_NoDup m').
  - assert (G : forall l, (forall x, In x l -> node ps x) -> NoDup l -> NoDup (map s l)).
    { induction l as [|x l IH]; intros Hl N; [constructor|]. inversion N as [|? ? N1 N2]; subst. cbn [map]. constructor; [|apply IH; [intros y Iy; apply Hl; right; exact Iy|exact N2]].
      intro I. apply in_map_iff in I. destruct I as (y & E & Iy). apply (rn_inj _ _ _ _ Rn) in E; [subst y; contradiction|apply Hl; right; exact Iy|apply Hl; left; reflexivity]. }
    apply G; [|apply (lv_NoDup m)]. intros x Ix. apply (lv_In m W) in Ix. apply leaf_node. exact (proj1 Ix).
  - intro y. rewrite in_map_iff. split.
    + intro I. rewrite <- EL in I. apply (lv_In m' W') in I. rewrite EL in I. destruct I as [Ly By]. destruct (rn_onto _ _ _ _ Rn y (leaf_node' y Ly)) as (x & Nx & <-).
      exists x. split; [reflexivity|]. apply (lv_In m W). split; [apply (rn_leaf _ _ _ _ Rn x Nx); exact Ly|apply rn_below; assumption].
    + intros (x & <- & I). apply (lv_In m W) in I. destruct I as [Lx Bx]. pose proof (leaf_node x Lx) as Nx. rewrite <- EL. apply (lv_In m' W'). rewrite EL. split; [apply (rn_leaf _ _ _ _ Rn x Nx); exact Lx|apply rn_below; assumption].
Qed.

Lemma rn_cover : forall l, node_cover L ps l -> node_cover L ps' (map s l).
Proof.
  intros l (N & Nl & C). split; [|split].
  - clear C. induction l as [|x l IH]; [constructor|]. inversion N as [|? ? N1 N2]; subst. cbn [map]. constructor; [|apply IH; [exact N2|intros y Iy; apply Nl; right; exact Iy]].
    intro I. apply in_map_iff in I. destruct I as (y & E & Iy). apply (rn_inj _ _ _ _ Rn) in E; [subst y; contradiction|apply Nl; right; exact Iy|apply Nl; left; reflexivity].
  - intros k I. apply in_map_iff in I. destruct I as (h & <- & Ih). apply (rn_node _ _ _ _ Rn). apply Nl. exact Ih.
  - intros y Ly. destruct (rn_onto _ _ _ _ Rn y (leaf_node' y Ly)) as (x & Nx & <-). assert (Lx : leaf L x) by (apply (rn_leaf _ _ _ _ Rn x Nx); exact Ly).
    destruct (C x Lx) as (h & Ih & Bh & Uh). exists (s h). split; [apply in_map; exact Ih|]. split; [apply rn_below; auto|].
    intros k' Ik Bk. apply in_map_iff in Ik. destruct Ik as (h' & <- & Ih'). f_equal. apply Uh; [exact Ih'|]. apply rn_below; auto.
Qed.

Definition s3 (r : Z * Z * Z) : Z * Z * Z := let '(h, a, b) := r in (s h, a, b).
Lemma rn_rect : forall n l, rect_cover L ps n l -> rect_cover L ps' n (map s3 l).
Proof.
  intros n l (N & Nl & C). split; [|split].
  - clear C. induction l as [|[[x a] b] l IH]; [constructor|]. inversion N as [|? ? N1 N2]; subst. cbn [map s3]. constructor; [|apply IH; [exact N2|intros y c d Iy; apply Nl; right; exact Iy]].
    intro I. apply in_map_iff in I. destruct I as ([[y c] d] & E & Iy). cbn [s3] in E. injection E as E1 E2 E3. apply (rn_inj _ _ _ _ Rn) in E1; [subst; contradiction|exact (proj1 (Nl _ _ _ (or_intror Iy)))|exact (proj1 (Nl _ _ _ (or_introl eq_refl)))].
  - intros k a b I. apply in_map_iff in I. destruct I as ([[h c] d] & E & Ih). cbn [s3] in E. injection E as <- <- <-. destruct (Nl _ _ _ Ih) as (K1 & K2). split; [apply (rn_node _ _ _ _ Rn); exact K1|exact K2].
  - intros y o Ly Ho. destruct (rn_onto _ _ _ _ Rn y (leaf_node' y Ly)) as (x & Nx & <-). assert (Lx : leaf L x) by (apply (rn_leaf _ _ _ _ Rn x Nx); exact Ly).
    destruct (C x o Lx Ho) as (h & a & b & Ih & Bh & Oh & Uh). exists (s h), a, b. split; [apply in_map_iff; exists (h, a, b); auto|]. split; [apply rn_below; auto; exact (proj1 (Nl _ _ _ Ih))|]. split; [exact Oh|].
    intros k' a' b' Ik Bk Ok'. apply in_map_iff in Ik. destruct Ik as ([[h' c] d] & E & Ih'). cbn [s3] in E. injection E as <- <- <-.
    assert (E : (h', c, d) = (h, a, b)) by (apply Uh; auto; apply rn_below; auto; exact (proj1 (Nl _ _ _ Ih'))). injection E as -> -> ->. reflexivity.
Qed.
Lemma rn_never : forall n l, rect_cover L ps n l -> never_up L ps l -> never_up L ps' (map s3 l).
Proof.
  intros n l (_ & Nl & _) NU y k a b k' a' b' Ly I I' B B' Lt. apply in_map_iff in I, I'. destruct I as ([[h c] d] & E & I). destruct I' as ([[h' c'] d'] & E' & I'). cbn [s3] in E, E'.
  injection E as <- <- <-. injection E' as <- <- <-. destruct (rn_onto _ _ _ _ Rn y (leaf_node' y Ly)) as (x & Nx & <-). assert (Lx : leaf L x) by (apply (rn_leaf _ _ _ _ Rn x Nx); exact Ly).
  pose proof (proj1 (Nl _ _ _ I)) as Nh. pose proof (proj1 (Nl _ _ _ I')) as Nh'. apply rn_below in B; auto. apply rn_below in B'; auto. apply rn_below; auto. eapply (NU x h c d h' c' d'); eauto.
Qed.
End S.

(** The inverse renaming. *)
Definition inv (n : Z) (s : Z -> Z) (k : Z) : Z := hd (-1) (filter (fun h => s h =? k) (zrange 0 n)).
Lemma inv_ok : forall L ps ps' s h, renaming L ps ps' s -> node ps h -> inv (vlen ps) s (s h) = h.
Proof.
  intros L ps ps' s h Rn Hh. unfold inv. assert (G : forall x, In x (filter (fun y => s y =? s h) (zrange 0 (vlen ps))) <-> x = h).
  { intro x. rewrite filter_In, In_zrange, Z.eqb_eq. split; [intros [Hx E]; apply (rn_inj _ _ _ _ Rn); assumption|intros ->; split; [exact Hh|reflexivity]]. }
  destruct (filter _ _) as [|x l]; [exfalso; apply (G h); reflexivity|]. cbn [hd]. apply G. left. reflexivity.
Qed.
Lemma inv_renaming : forall m m' s, well_built m -> well_built m' -> renaming (m_leaves m) (m_parents m) (m_parents m') s ->
  renaming (m_leaves m) (m_parents m') (m_parents m) (inv (vlen (m_parents m)) s).
Proof.
  intros m m' s W W' Rn. set (r := inv (vlen (m_parents m)) s). assert (Ir : forall h, node (m_parents m) h -> r (s h) = h) by (intros h Hh; eapply inv_ok; eauto).
  assert (O : forall k, node (m_parents m') k -> node (m_parents m) (r k) /\ s (r k) = k).
  { intros k Hk. destruct (rn_onto _ _ _ _ Rn k Hk) as (h & Hh & <-). rewrite Ir by exact Hh. auto. }
  constructor.
  - symmetry. apply (rn_size _ _ _ _ Rn).
  - intros k Hk. destruct (O k Hk) as [N E]. rewrite <- (rn_leaf _ _ _ _ Rn (r k) N), E. tauto.
  - intros k Hk. apply (O k Hk).
  - intros h k Hh Hk E. destruct (O h Hh) as [_ <-]. destruct (O k Hk) as [_ <-]. rewrite E. reflexivity.
  - intros h Hh. exists (s h). split; [apply (rn_node _ _ _ _ Rn); exact Hh|apply Ir; exact Hh].
  - intros k Hk. destruct (O k Hk) as [N E]. pose proof (rn_parent _ _ _ _ Rn (r k) N) as Ep. rewrite E in Ep. rewrite Ep.
    destruct (Z.eqb_spec (parent (m_parents m) (r k)) (-1)) as [D|D]; [rewrite D; reflexivity|].
    pose proof (rn_parent_node m W (r k) N D) as Np. destruct (Z.eqb_spec (s (parent (m_parents m) (r k))) (-1)) as [D'|D'].
    + exfalso. apply (node_minus1 _ _ (rn_node _ _ _ _ Rn _ Np)). exact D'.
    + symmetry. apply Ir. exact Np.
Qed.

(** The same data, leaf by leaf. *)
Definition renamed_data {X} (d : X) (L : Z) (s : Z -> Z) (c c' : list (list X)) : Prop :=
  Forall2 (fun a a' => forall x, leaf L x -> elt d a' (s x) = elt d a x) c c'.

Lemma Forall2_Rsum : forall X Y (Q : X -> Y -> Prop) (f : X -> R) (g : Y -> R) l l', (forall x y, Q x y -> g y = f x) -> Forall2 Q l l' -> Rsum g l' = Rsum f l.
Proof. intros X Y Q f g l l' H F. induction F as [|x y l l' Hq F IH]; [reflexivity|]. rewrite !Rsum_cons, IH, (H x y Hq). reflexivity. Qed.

(** ** Hierarchical *)
Theorem C88_hier : forall P (v v' : hvalues (RP P)) comps comps' s t t' m m', hdata_ok v comps -> hdata_ok v' comps' ->
  h_table (RP P) (Ok v) = Ok (Some t, m) -> h_table (RP P) (Ok v') = Ok (Some t', m') ->
  m_leaves m' = m_leaves m -> renaming (m_leaves m) (m_parents m) (m_parents m') s -> renamed_data 0%R (m_leaves m) s comps comps' ->
  (forall h, node (m_parents m) h -> vget t' (s h) = vget t h) /\
  forall p x x', h_best (RP P) t m p = Ok x -> h_best (RP P) t' m' p = Ok x' ->
    Permutation (map hp_h (hn_parts x')) (map s (map hp_h (hn_parts x))) /\ gain (hn_quality x') = gain (hn_quality x) /\ loss (hn_quality x') = loss (hn_quality x).
Proof.
  intros P v v' comps comps' s t t' m m' D D' Et Et' EL Rn Rd. unfold h_table in Et, Et'. cbn [bind] in Et, Et'.
  destruct (h_compute_prf P v comps D) as (t1 & E & T). destruct (h_compute_prf P v' _ D') as (t1' & E' & T').
  rewrite E in Et. rewrite E' in Et'. cbn [bind hq_table hq_meta] in Et, Et'. inversion Et; inversion Et'; subst t1 t1' m m'. clear Et Et' E E'.
  destruct D as (_ & W & H2 & _). destruct D' as (_ & W' & H2' & _). set (m := hv_meta v) in *. set (m' := hv_meta v') in *.
  assert (Pc : forall h, node (m_parents m) h -> hgain m' comps' (s h) = hgain m comps h /\ hloss m' comps' (s h) = hloss m comps h).
  { intros h Hh. assert (Q : forall c c' : list R, (forall x, leaf (m_leaves m) x -> elt 0%R c' (s x) = elt 0%R c x) -> Permutation (hcells m' c' (s h)) (hcells m c h)).
    { intros c c' Hc. unfold hcells. rewrite EL. rewrite (Permutation_map (elt 0%R c') (rn_leaves m m' s W W' EL Rn h Hh)). rewrite map_map.
      rewrite (map_ext_in _ (elt 0%R c)); [reflexivity|]. intros x Ix. apply (lv_In m W) in Ix. apply Hc. exact (proj1 Ix). }
    unfold hgain, hloss. split; eapply Forall2_Rsum; try exact Rd; intros c c' Hc; [apply gain_perm|apply loss_perm]; apply Q; exact Hc. }
  assert (Tn : forall h, node (m_parents m) h -> vget t' (s h) = vget t h).
  { intros h Hh. rewrite (proj2 T h) by (apply (wb_node_iff m W); exact Hh). rewrite (proj2 T' (s h)) by (apply (wb_node_iff m' W'); apply (rn_node _ _ _ _ Rn); exact Hh). destruct (Pc h Hh) as [-> ->]. reflexivity. }
  split; [exact Tn|]. intros p x x' B B'.
  pose proof (htable_repr P m t comps T) as U. pose proof (htable_repr P m' t' comps' T') as U'.
  destruct (h_total P m W H2 t _ _ p x U B) as (C & Gx & Lx). destruct (h_total P m' W' H2' t' _ _ p x' U' B') as (C' & Gx' & Lx').
  set (c := map hp_h (hn_parts x)) in *. set (c' := map hp_h (hn_parts x')) in *.
  pose proof (inv_renaming m m' s W W' Rn) as Rv. set (r := inv (vlen (m_parents m)) s) in *.
  assert (Ir : forall h, node (m_parents m) h -> r (s h) = h) by (intros h Hh; eapply inv_ok; eauto).
  assert (Is : forall k, node (m_parents m') k -> node (m_parents m) (r k) /\ s (r k) = k).
  { intros k Hk. destruct (rn_onto _ _ _ _ Rn k Hk) as (h & Hh & <-). rewrite Ir by exact Hh. auto. }
  pose proof (rn_cover m m' s W W' EL Rn c C) as C1. rewrite <- EL in C1.
  assert (EL2 : m_leaves m = m_leaves m') by congruence. rewrite <- EL in Rv. pose proof (rn_cover m' m r W' W EL2 Rv c' C') as C2. rewrite EL in C2.
  assert (S1 : Rsum (hgain m' comps') (map s c) = Rsum (hgain m comps) c /\ Rsum (hloss m' comps') (map s c) = Rsum (hloss m comps) c).
  { rewrite !Rsum_map. split; apply Rsum_ext; intros h Ih; apply (Pc h); apply C; exact Ih. }
  assert (S2 : Rsum (hgain m comps) (map r c') = Rsum (hgain m' comps') c' /\ Rsum (hloss m comps) (map r c') = Rsum (hloss m' comps') c').
  { rewrite !Rsum_map. split; apply Rsum_ext; intros k Ik; destruct (Is k (proj1 (proj2 C') k Ik)) as [N E]; rewrite <- E at 2; symmetry; apply (Pc (r k)); exact N. }
  assert (M1 : mmap (vget t') (map s c) = Ok (map (fun h => @mkQ (RP P) (hgain m' comps' h) (hloss m' comps' h)) (map s c))).
  { apply (mmap_vrepr _ t' (m_hsize m')); [exact U'|]. intros h Hh. apply (wb_node_iff m' W'). apply C1; exact Hh. }
  assert (M2 : mmap (vget t) (map r c') = Ok (map (fun h => @mkQ (RP P) (hgain m comps h) (hloss m comps h)) (map r c'))).
  { apply (mmap_vrepr _ t (m_hsize m)); [exact U|]. intros h Hh. apply (wb_node_iff m W). apply C2; exact Hh. }
  destruct (h_optimal_prf m' W' H2' P t' p x' _ _ (proj1 U') B' C1 M1) as [K1 K1'].
  destruct (h_optimal_prf m W H2 P t p x _ _ (proj1 U) B C2 M2) as [K2 K2'].
  rewrite (Rsum_map _ _ (@gain (RP P))), (Rsum_map _ _ (@loss (RP P))) in K1, K1', K2, K2'. cbn [gain loss] in K1, K1', K2, K2'.
  destruct S1 as [S1 S1l]. destruct S2 as [S2 S2l]. unfold num in *. cbn [RP] in *.
  change (fun x0 : Z => hgain m' comps' x0) with (hgain m' comps') in *. change (fun x0 : Z => hloss m' comps' x0) with (hloss m' comps') in *.
  change (fun x0 : Z => hgain m comps x0) with (hgain m comps) in *. change (fun x0 : Z => hloss m comps x0) with (hloss m comps) in *.
  rewrite S1, S1l in K1, K1'. rewrite S2, S2l in K2, K2'. rewrite <- Gx, <- Lx in K1, K1'. rewrite <- Gx', <- Lx' in K2, K2'.
  assert (Ev : (pp_num P p * gain (hn_quality x) - pp_num P (pp_compl P p) * loss (hn_quality x) = pp_num P p * gain (hn_quality x') - pp_num P (pp_compl P p) * loss (hn_quality x'))%R) by (apply Rle_antisym; assumption).
  specialize (K1' Ev). specialize (K2' (eq_sym Ev)).
  assert (Sub : forall (n n' : meta) u (l l' : list Z), well_built n -> well_built n' -> m_leaves n' = m_leaves n -> renaming (m_leaves n) (m_parents n) (m_parents n') u ->
            node_cover (m_leaves n) (m_parents n) l -> (forall h, In h l -> exists k, In k l' /\ below (m_parents n') (u h) (u k) /\ node (m_parents n) k /\ exists y, In y l /\ below (m_parents n) k y) ->
            forall h, In h l -> In h l').
  { clear. intros n n' u l l' W W' EL Rn (ND & Nl & C) H h Ih. destruct (H h Ih) as (k & Ik & B1 & Nk & y & Iy & B2). pose proof (Nl h Ih) as Nh. apply (rn_below n n' u W Rn) in B1; auto.
    assert (E : h = y).
    { pose proof (lv_nonempty n W h ltac:(apply (wb_node_iff n W); exact Nh)) as NE. destruct (leavesof (m_leaves n) (m_parents n) h) as [|z zs] eqn:Ez; [congruence|].
      assert (Iz : In z (leavesof (m_leaves n) (m_parents n) h)) by (rewrite Ez; left; reflexivity). apply (lv_In n W) in Iz. destruct Iz as [Lz Bz].
      destruct (C z Lz) as (w & Iw & Bw & Uw). transitivity w; [apply Uw; auto|symmetry; apply Uw; auto]. eapply below_trans; [exact Bz|]. eapply below_trans; eauto. }
    subst y. assert (h = k) by (apply (below_anti n W); [apply (wb_node_iff n W); exact Nh|exact B1|exact B2]). subst k. exact Ik. }
  assert (I1 : forall h, In h c -> In h (map r c')).
  { apply (Sub m m' s c (map r c') W W' EL Rn C). intros h Ih. destruct (K1' (s h) (in_map s c h Ih)) as (y & Iy & By). exists (r (hp_h y)).
    assert (Iy' : In (hp_h y) c') by (apply in_map; exact Iy). destruct (Is (hp_h y) (proj1 (proj2 C') _ Iy')) as [N E]. rewrite E.
    split; [apply in_map; exact Iy'|]. split; [exact By|]. split; [exact N|]. destruct (K2' (r (hp_h y)) (in_map r c' _ Iy')) as (z & Iz & Bz). exists (hp_h z). split; [apply in_map; exact Iz|exact Bz]. }
  assert (I2 : forall k, In k c' -> In k (map s c)).
  { intros k Ik. destruct (K2' (r k) (in_map r c' k Ik)) as (y & Iy & By). assert (Iy' : In (hp_h y) c) by (apply in_map; exact Iy). destruct (Is k (proj1 (proj2 C') k Ik)) as [N E].
    pose proof (I1 (hp_h y) Iy') as Ir2. apply in_map_iff in Ir2. destruct Ir2 as (k2 & E2 & Ik2). destruct (Is k2 (proj1 (proj2 C') k2 Ik2)) as [N2 E3]. apply in_map_iff. exists (hp_h y). split; [|exact Iy'].
    rewrite <- E2, E3. rewrite <- E2 in By. apply (rn_up m m' s W Rn) in By; [|exact N]. rewrite E, E3 in By.
    pose proof (proj1 (proj2 C') k Ik) as Nk. pose proof (lv_nonempty m' W' k ltac:(apply (wb_node_iff m' W'); exact Nk)) as NE. destruct (leavesof (m_leaves m') (m_parents m') k) as [|z zs] eqn:Ez; [congruence|].
    assert (Iz : In z (leavesof (m_leaves m') (m_parents m') k)) by (rewrite Ez; left; reflexivity). apply (lv_In m' W') in Iz. destruct Iz as [Lz Bz].
    destruct (proj2 (proj2 C') z Lz) as (w & Iw & Bw & Uw). transitivity w; [apply Uw; [exact Ik2|exact (below_trans _ _ _ _ Bz By)]|symmetry; apply Uw; auto]. }
  assert (Pm : Permutation c' (map s c)).
  { apply NoDup_Permutation; [exact (proj1 C')|exact (proj1 C1)|]. intro k. split; [apply I2|]. intro Ik. apply in_map_iff in Ik. destruct Ik as (h & <- & Ih).
    pose proof (I1 h Ih) as Ih2. apply in_map_iff in Ih2. destruct Ih2 as (k & <- & Ik). destruct (Is k (proj1 (proj2 C') k Ik)) as [_ ->]. exact Ik. }
  split; [exact Pm|]. rewrite Gx, Lx, Gx', Lx'. rewrite (Rsum_perm _ _ _ _ Pm), (Rsum_perm _ (hloss m' comps') _ _ Pm). split; [exact S1|exact S1l].
Qed.

(** ** Spatiotemporal *)
Lemma d_no_better : forall P m n (G Ls : Z -> Z -> Z -> R) (t : list (utm (quality (RP P)))) p x l, well_built m -> 1 <= n <= 65535 ->
  mrepr t (m_hsize m) n (fun h i j => @mkQ (RP P) (G h i j) (Ls h i j)) -> d_best (RP P) t m p = Ok x ->
  rect_cover (m_leaves m) (m_parents m) n l -> never_up (m_leaves m) (m_parents m) l ->
  no_better (pp_num P p) (pp_num P (pp_compl P p)) (gain (dn_quality x)) (loss (dn_quality x)) (Rsum (un3 G) l) (Rsum (un3 Ls) l).
Proof.
  intros P m n G Ls t p x l W Hn R E C NU.
  assert (El : mmap (fun '(h, a, b) => mm_get t h a b) l = Ok (map (q3 (RP P) (fun h i j => @mkQ (RP P) (G h i j) (Ls h i j))) l)).
  { apply (mmap_mrepr (RP P) t (m_hsize m) n); auto. intros h a b Hh. destruct C as (_ & C & _). destruct (C _ _ _ Hh) as (C1 & C2). split; auto. apply (wb_node_iff m W); auto. }
  pose proof (d_optimal_prf m W P t n p x l _ Hn (proj1 R) (mrepr_shape P n t _ _ R) E C NU El) as K. rewrite !Rsum_map in K.
  rewrite (Rsum_ext _ (fun x => gain (q3 (RP P) _ x)) (un3 G)) in K by (intros [[a b] c] _; reflexivity).
  rewrite (Rsum_ext _ (fun x => loss (q3 (RP P) _ x)) (un3 Ls)) in K by (intros [[a b] c] _; reflexivity). exact K.
Qed.

Theorem C88_spatio : forall P (v v' : dvalues (RP P)) comps comps' s t t' m m', ddata_ok v comps -> ddata_ok v' comps' -> dv_osize v' = dv_osize v ->
  d_table (RP P) (Ok v) = Ok (Some t, m) -> d_table (RP P) (Ok v') = Ok (Some t', m') ->
  m_leaves m' = m_leaves m -> renaming (m_leaves m) (m_parents m) (m_parents m') s -> renamed_data [] (m_leaves m) s comps comps' ->
  (forall h i j, node (m_parents m) h -> 0 <= i <= j -> j < dv_osize v -> mm_get t' (s h) i j = mm_get t h i j) /\
  forall p x x', d_best (RP P) t m p = Ok x -> d_best (RP P) t' m' p = Ok x' -> gain (dn_quality x') = gain (dn_quality x) /\ loss (dn_quality x') = loss (dn_quality x).
Proof.
  intros P v v' comps comps' s t t' m m' D D' En Et Et' EL Rn Rd. unfold d_table in Et, Et'. cbn [bind] in Et, Et'.
  destruct (d_compute_prf P v comps D) as (t1 & E & T). destruct (d_compute_prf P v' _ D') as (t1' & E' & T').
  rewrite E in Et. rewrite E' in Et'. cbn [bind dq_table dq_meta] in Et, Et'. inversion Et; inversion Et'; subst t1 t1' m m'. clear Et Et' E E'. rewrite En in T'.
  destruct D as (_ & Hn & W & H2 & _). destruct D' as (_ & _ & W' & H2' & _). set (m := dv_meta v) in *. set (m' := dv_meta v') in *. set (n := dv_osize v) in *.
  assert (Pc : forall h i j, node (m_parents m) h -> dgain m' comps' (s h) i j = dgain m comps h i j /\ dloss m' comps' (s h) i j = dloss m comps h i j).
  { intros h i j Hh. assert (Q : forall c c' : list (list R), (forall x, leaf (m_leaves m) x -> elt [] c' (s x) = elt [] c x) -> Permutation (dcells m' c' (s h) i j) (dcells m c h i j)).
    { intros c c' Hc. unfold dcells. rewrite EL. rewrite (Permutation_flat_map (fun x => slice (elt [] c' x) i j) (rn_leaves m m' s W W' EL Rn h Hh)).
      assert (G : forall l, (forall x, In x l -> leaf (m_leaves m) x) -> flat_map (fun x => slice (elt [] c' x) i j) (map s l) = flat_map (fun x => slice (elt [] c x) i j) l).
      { induction l as [|x l IH]; intro Hl; [reflexivity|]. cbn [map flat_map]. rewrite Hc by (apply Hl; left; reflexivity). f_equal. apply IH. intros y Iy. apply Hl. right. exact Iy. }
      rewrite G; [reflexivity|]. intros x Ix. apply (lv_In m W) in Ix. exact (proj1 Ix). }
    unfold dgain, dloss. split; eapply Forall2_Rsum; try exact Rd; intros c c' Hc; [apply gain_perm|apply loss_perm]; apply Q; exact Hc. }
  split.
  - intros h i j Hh Hi Hj. rewrite (proj2 (proj2 T) h i j) by (auto; apply (wb_node_iff m W); exact Hh). rewrite (proj2 (proj2 T') (s h) i j) by (auto; apply (wb_node_iff m' W'); apply (rn_node _ _ _ _ Rn); exact Hh).
    destruct (Pc h i j Hh) as [-> ->]. reflexivity.
  - intros p x x' B B'. pose proof (dtable_repr P _ _ Hn t _ T) as U. pose proof (dtable_repr P _ _ Hn t' _ T') as U'.
    destruct (d_total P m W n Hn _ _ t p x U B) as (C & Gx & Lx). destruct (d_total P m' W' n Hn _ _ t' p x' U' B') as (C' & Gx' & Lx').
    destruct (d_cover_prf m W (RP P) t n p Hn (proj1 T) (proj1 (proj2 T))) as (y & Ey & _ & _ & NU & _). rewrite B in Ey. inversion Ey; subst y.
    destruct (d_cover_prf m' W' (RP P) t' n p Hn (proj1 T') (proj1 (proj2 T'))) as (y & Ey' & _ & _ & NU' & _). rewrite B' in Ey'. inversion Ey'; subst y.
    set (c := map rect (dn_parts x)) in *. set (c' := map rect (dn_parts x')) in *.
    pose proof (inv_renaming m m' s W W' Rn) as Rv. set (r := inv (vlen (m_parents m)) s) in *.
    assert (Ir : forall h, node (m_parents m) h -> r (s h) = h) by (intros h Hh; eapply inv_ok; eauto).
    assert (Is : forall k, node (m_parents m') k -> node (m_parents m) (r k) /\ s (r k) = k).
    { intros k Hk. destruct (rn_onto _ _ _ _ Rn k Hk) as (h & Hh & <-). rewrite Ir by exact Hh. auto. }
    assert (EL2 : m_leaves m = m_leaves m') by congruence. rewrite <- EL in Rv.
    pose proof (rn_rect m m' s W W' EL Rn n c C) as C1. pose proof (rn_never m m' s W W' EL Rn n c C NU) as N1.
    pose proof (rn_rect m' m r W' W EL2 Rv n c' C') as C2. pose proof (rn_never m' m r W' W EL2 Rv n c' C' NU') as N2.
    rewrite <- EL in C1, N1. rewrite EL in C2, N2.
    pose proof (d_no_better P m' n _ _ t' p x' _ W' Hn U' B' C1 N1) as K'. pose proof (d_no_better P m n _ _ t p x _ W Hn U B C2 N2) as K.
    assert (S1 : Rsum (un3 (dgain m' comps')) (map (s3 s) c) = Rsum (un3 (dgain m comps)) c /\ Rsum (un3 (dloss m' comps')) (map (s3 s) c) = Rsum (un3 (dloss m comps)) c).
    { rewrite !Rsum_map. split; apply Rsum_ext; intros [[h i] j] Ih; cbn [s3 un3]; apply (Pc h); exact (proj1 (proj1 (proj2 C) _ _ _ Ih)). }
    assert (S2 : Rsum (un3 (dgain m comps)) (map (s3 r) c') = Rsum (un3 (dgain m' comps')) c' /\ Rsum (un3 (dloss m comps)) (map (s3 r) c') = Rsum (un3 (dloss m' comps')) c').
    { rewrite !Rsum_map. split; apply Rsum_ext; intros [[k i] j] Ik; cbn [s3 un3]; destruct (Is k (proj1 (proj1 (proj2 C') _ _ _ Ik))) as [N E]; rewrite <- E at 2; symmetry; apply (Pc (r k)); exact N. }
    destruct S1 as [S1 S1l]. destruct S2 as [S2 S2l]. rewrite S1, S1l, <- Gx, <- Lx in K'. rewrite S2, S2l, <- Gx', <- Lx' in K.
    destruct (no_better_antisym _ _ _ _ _ _ K' K) as [K1 K2]. split; assumption.
Qed.

(** Non-vacuity: exchanging the two subtrees {0,1} and {2,3} (and leaves 0 and 1 with 3 and 2). *)
Example C88_nonvacuous : renaming 4 [4; 4; 5; 5; 6; 6; -1] [4; 4; 5; 5; 6; 6; -1] (fun h => if h <? 4 then 3 - h else if h <? 6 then 9 - h else h) /\
  renamed_data 0%R 4 (fun h => if h <? 4 then 3 - h else if h <? 6 then 9 - h else h) [[1; 2; 3; 4]%R] [[4; 3; 2; 1]%R].
Proof.
  assert (Sp : forall h, 0 <= h < 7 -> h = 0 \/ h = 1 \/ h = 2 \/ h = 3 \/ h = 4 \/ h = 5 \/ h = 6) by (intros; lia).
  split.
  - constructor; unfold node, leaf; change (vlen [4; 4; 5; 5; 6; 6; -1]) with 7.
    + reflexivity.
    + intros h Hh. destruct (Z.ltb_spec h 4); [lia|]. destruct (Z.ltb_spec h 6); lia.
    + intros h Hh. destruct (Z.ltb_spec h 4); [lia|]. destruct (Z.ltb_spec h 6); lia.
    + intros h k Hh Hk. destruct (Z.ltb_spec h 4), (Z.ltb_spec k 4), (Z.ltb_spec h 6), (Z.ltb_spec k 6); lia.
    + intros k Hk. exists (if k <? 4 then 3 - k else if k <? 6 then 9 - k else k). destruct (Sp k Hk) as [->|[->|[->|[->|[->|[->| ->]]]]]]; cbn; split; lia.
    + intros h Hh. destruct (Sp h Hh) as [->|[->|[->|[->|[->|[->| ->]]]]]]; reflexivity.
  - constructor; [|constructor]. intros x Hx. unfold leaf in Hx. assert (x = 0 \/ x = 1 \/ x = 2 \/ x = 3) as [->|[->|[->| ->]]] by lia; reflexivity.
Qed.
Example C86_nonvacuous : same_components zero_row [[1; 2]; [0; 0]; [3; 4]]%R [[3; 4]; [1; 2]]%R.
Proof.
  exists [], [[0; 0]%R]. split; [constructor|]. split; [repeat constructor|]. cbn. eapply perm_trans; [apply perm_swap|]. apply perm_skip. apply perm_swap.
Qed.
