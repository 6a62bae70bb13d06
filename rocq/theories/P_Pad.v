(** * Property C99: a hierarchy with leaves at different depths, made even by single-child nodes, is analysed as it is.

    [padding] (SpecPad): some nodes are repeated; [g] maps the nodes of the padded hierarchy to those of the hierarchy. *)
From Coq Require Import Reals Lra Lia List.
From Verif Require Import Base BaseFacts Arith Quality Utm UtmFacts UtmProofs Hierarchy HierarchyFacts HierarchyProofs SpecTree SpecParts SpecInfo SpecData SpecShape SpecPad Values Qualities Partitions Partitioners
  TreeFacts TreePath CoverFacts InfoFacts HQual DQual HFacts LexR OInfo HProofs DSel DProofs DataFacts DataCons HDataProofs DDataProofs P_HierData P_Spatio P_SpatioData P_RootFirst PadFacts.

(** ** The padded hierarchy exists *)
Theorem C99_exists : forall L ps r, valid_tree L ps r -> exists ps' g,
  valid_tree L ps' (vlen ps' - 1) /\ uniform_depth L ps' (vlen ps' - 1) /\ padding L ps ps' g /\ vlen ps <= vlen ps'.
Proof. exact pad_exists_last. Qed.
Print Assumptions C99_exists.

Section Pad.
Context (L : Z) (ps : list Z) (r : Z) (m : meta) (g : Z -> Z).
Hypothesis V : valid_tree L ps r.
Hypothesis W : well_built m.
Hypothesis EL : m_leaves m = L.
Hypothesis Pd : padding L ps (m_parents m) g.

Lemma p_leaves : forall y, node (m_parents m) y -> leavesof (m_leaves m) (m_parents m) y = leavesof L ps (g y).
Proof.
  intros y Ny. rewrite EL. unfold leavesof. apply filter_ext_in. intros x Ix. apply In_zrange in Ix.
  destruct (wb_rank m W) as [rk Hr]. destruct (valid_rank _ _ _ V) as [rk' Hr']. pose proof (vt_L _ _ _ V) as V1. pose proof (vt_L _ _ _ (wb_tree m W)) as V2. rewrite EL in V2.
  assert (E : belowb (m_parents m) x y = true <-> belowb ps x (g y) = true).
  { rewrite (belowb_true _ rk Hr) by (unfold node; lia). rewrite (belowb_true _ rk' Hr') by (unfold node; lia). apply (pd_below _ _ _ _ Pd); auto. }
  destruct (belowb (m_parents m) x y), (belowb ps x (g y)); auto; [symmetry; apply E; auto|apply E; auto].
Qed.
Lemma p_onto : forall x, leaf L x -> node ps x.
Proof. intros x Hx. pose proof (vt_L _ _ _ V). unfold leaf in Hx. unfold node. lia. Qed.
Lemma p_has : forall y, node (m_parents m) y -> exists x, leaf L x /\ below ps x (g y).
Proof.
  intros y Ny. destruct (leavesof L ps (g y)) as [|x xs] eqn:E.
  - exfalso. apply (lv_nonempty m W y); [apply (wb_node_iff m W); exact Ny|]. rewrite p_leaves by exact Ny. exact E.
  - exists x. destruct (valid_rank _ _ _ V) as [rk Hr]. pose proof (vt_L _ _ _ V). apply (In_leavesof ps rk Hr L ltac:(lia)). rewrite E. left. reflexivity.
Qed.

(** A section of [g]. *)
Lemma p_section : exists s : Z -> Z, forall h, node ps h -> node (m_parents m) (s h) /\ g (s h) = h.
Proof.
  exists (fun h => match find (fun y => g y =? h) (zrange 0 (vlen (m_parents m))) with Some y => y | None => 0 end). intros h Nh.
  destruct (find (fun y => g y =? h) (zrange 0 (vlen (m_parents m)))) as [y|] eqn:F.
  - apply find_some in F. destruct F as [I E]. apply In_zrange in I. apply Z.eqb_eq in E. auto.
  - exfalso. destruct (pd_onto _ _ _ _ Pd h Nh) as (y & Ny & E). pose proof (find_none _ _ F y (proj2 (In_zrange _ _ _) Ny)) as K. cbv beta in K. rewrite E, Z.eqb_refl in K. discriminate.
Qed.

Lemma NoDup_map_in : forall X Y (f : X -> Y) l, (forall x y, In x l -> In y l -> f x = f y -> x = y) -> NoDup l -> NoDup (map f l).
Proof.
  intros X Y f l. induction l as [|x l IH]; intros H ND; cbn; constructor; inversion ND as [|? ? N1 N2]; subst.
  - intros I. apply in_map_iff in I. destruct I as (y & E & I). apply N1. rewrite <- (H y x); cbn; auto.
  - apply IH; auto. intros; apply H; cbn; auto.
Qed.

(** Covers of the padded hierarchy and of the hierarchy. *)
Lemma p_down : forall l, node_cover L (m_parents m) l -> node_cover L ps (map g l).
Proof.
  intros l (ND & N & C). split; [|split].
  - apply NoDup_map_in; auto. intros y z Iy Iz E. destruct (p_has y (N y Iy)) as (x & Hx & B). destruct (C x Hx) as (h & _ & _ & U).
    rewrite (U y Iy), (U z Iz); [reflexivity|apply (pd_below _ _ _ _ Pd); auto; rewrite <- E; exact B|apply (pd_below _ _ _ _ Pd); auto].
  - intros h I. apply in_map_iff in I. destruct I as (y & <- & I). apply (pd_node _ _ _ _ Pd); auto.
  - intros x Hx. destruct (C x Hx) as (h & I & B & U). exists (g h). split; [apply in_map, I|]. split; [apply (pd_below _ _ _ _ Pd); auto|].
    intros h' I' B'. apply in_map_iff in I'. destruct I' as (y & <- & I'). f_equal. apply U; auto. apply (pd_below _ _ _ _ Pd); auto.
Qed.
Lemma p_up : forall s, (forall h, node ps h -> node (m_parents m) (s h) /\ g (s h) = h) -> forall l, node_cover L ps l -> node_cover L (m_parents m) (map s l).
Proof.
  intros s Hs l (ND & N & C). split; [|split].
  - apply NoDup_map_in; auto. intros y z Iy Iz E. rewrite <- (proj2 (Hs y (N y Iy))), <- (proj2 (Hs z (N z Iz))), E. reflexivity.
  - intros h I. apply in_map_iff in I. destruct I as (y & <- & I). apply Hs; auto.
  - intros x Hx. destruct (C x Hx) as (h & I & B & U). exists (s h). destruct (Hs h (N h I)) as [N1 E1]. split; [apply in_map, I|]. split; [apply (pd_below _ _ _ _ Pd); auto; rewrite E1; exact B|].
    intros h' I' B'. apply in_map_iff in I'. destruct I' as (y & <- & I'). f_equal. destruct (Hs y (N y I')) as [N2 E2]. apply U; auto. rewrite <- E2. apply (pd_below _ _ _ _ Pd); auto.
Qed.

Lemma p_rdown : forall n l, rect_cover L (m_parents m) n l -> never_up L (m_parents m) l -> rect_cover L ps n (map (unpad g) l) /\ never_up L ps (map (unpad g) l).
Proof.
  intros n l (ND & N & C) NU. split; [split; [|split]|].
  - apply NoDup_map_in; auto. intros [[y i] j] [[z i'] j'] Iy Iz E. cbn in E. injection E as E -> ->. destruct (N _ _ _ Iy) as (Ny & Hi & Hj). destruct (N _ _ _ Iz) as (Nz & _).
    destruct (p_has y Ny) as (x & Hx & B). destruct (C x i' Hx ltac:(lia)) as (h & a & b & _ & _ & _ & U).
    rewrite (U _ _ _ Iy), (U _ _ _ Iz); [reflexivity|apply (pd_below _ _ _ _ Pd); auto; rewrite <- E; exact B|lia|apply (pd_below _ _ _ _ Pd); auto|lia].
  - intros h a b I. apply in_map_iff in I. destruct I as ([[y i] j] & E & I). cbn in E. injection E as <- <- <-. destruct (N _ _ _ I) as (Ny & K). split; [apply (pd_node _ _ _ _ Pd); auto|exact K].
  - intros x o Hx Ho. destruct (C x o Hx Ho) as (h & a & b & I & B & K & U). destruct (N _ _ _ I) as (Nh & _). exists (g h), a, b. split; [apply (in_map (unpad g) _ _ I)|]. split; [apply (pd_below _ _ _ _ Pd); auto|]. split; [exact K|].
    intros h' a' b' I' B' K'. apply in_map_iff in I'. destruct I' as ([[y i] j] & E & I'). cbn in E. injection E as <- <- <-. destruct (N _ _ _ I') as (Ny & _).
    apply (pd_below _ _ _ _ Pd) in B'; auto. pose proof (U _ _ _ I' B' K') as Q. injection Q as -> -> ->. reflexivity.
  - intros x h a b h' a' b' Hx I I' B B' K. apply in_map_iff in I. destruct I as ([[y i] j] & E & I). cbn in E. injection E as <- <- <-. apply in_map_iff in I'. destruct I' as ([[z i'] j'] & E & I'). cbn in E. injection E as <- <- <-.
    destruct (N _ _ _ I) as (Ny & _). destruct (N _ _ _ I') as (Nz & _). apply (pd_mono _ _ _ _ Pd); auto. apply (NU x y i j z i' j'); auto; apply (pd_below _ _ _ _ Pd); auto.
Qed.
Lemma p_rup : forall s, (forall h, node ps h -> node (m_parents m) (s h) /\ g (s h) = h) -> forall n l, rect_cover L ps n l -> never_up L ps l ->
  rect_cover L (m_parents m) n (map (unpad s) l) /\ never_up L (m_parents m) (map (unpad s) l).
Proof.
  intros s Hs n l (ND & N & C) NU. split; [split; [|split]|].
  - apply NoDup_map_in; auto. intros [[y i] j] [[z i'] j'] Iy Iz E. cbn in E. injection E as E -> ->. destruct (N _ _ _ Iy) as (Ny & _). destruct (N _ _ _ Iz) as (Nz & _).
    rewrite <- (proj2 (Hs y Ny)), <- (proj2 (Hs z Nz)), E. reflexivity.
  - intros h a b I. apply in_map_iff in I. destruct I as ([[y i] j] & E & I). cbn in E. injection E as <- <- <-. destruct (N _ _ _ I) as (Ny & K). split; [apply Hs; auto|exact K].
  - intros x o Hx Ho. destruct (C x o Hx Ho) as (h & a & b & I & B & K & U). destruct (N _ _ _ I) as (Nh & _). destruct (Hs h Nh) as [N1 E1]. exists (s h), a, b. split; [apply (in_map (unpad s) _ _ I)|].
    split; [apply (pd_below _ _ _ _ Pd); auto; rewrite E1; exact B|]. split; [exact K|].
    intros h' a' b' I' B' K'. apply in_map_iff in I'. destruct I' as ([[y i] j] & E & I'). cbn in E. injection E as <- <- <-. destruct (N _ _ _ I') as (Ny & _). destruct (Hs y Ny) as [N2 E2].
    apply (pd_below _ _ _ _ Pd) in B'; auto. rewrite E2 in B'. pose proof (U _ _ _ I' B' K') as Q. injection Q as -> -> ->. reflexivity.
  - intros x h a b h' a' b' Hx I I' B B' K. apply in_map_iff in I. destruct I as ([[y i] j] & E & I). cbn in E. injection E as <- <- <-. apply in_map_iff in I'. destruct I' as ([[z i'] j'] & E & I'). cbn in E. injection E as <- <- <-.
    destruct (N _ _ _ I) as (Ny & _). destruct (N _ _ _ I') as (Nz & _). destruct (Hs y Ny) as [N1 E1]. destruct (Hs z Nz) as [N2 E2].
    pose proof (proj1 (pd_below _ _ _ _ Pd x _ Hx N1) B) as Bd. pose proof (proj1 (pd_below _ _ _ _ Pd x _ Hx N2) B') as Bd'. rewrite E1 in Bd. rewrite E2 in Bd'.
    pose proof (NU x y i j z i' j' Hx I I' Bd Bd' K) as Zy. destruct (below_linear _ _ _ _ B B') as [Q|Q]; [|exact Q].
    apply (pd_mono _ _ _ _ Pd) in Q; auto. rewrite E1, E2 in Q. destruct (valid_rank _ _ _ V) as [rk Hr]. assert (z = y) by (apply (below_antisym ps rk Hr); auto). subst z. apply below_refl.
Qed.
End Pad.

(** ** Hierarchical aggregation: the qualities of the padded hierarchy are those of the nodes they stand for; the parts
    stand for a cover of the hierarchy, and no cover of the hierarchy by its nodes is better. *)
Theorem C99_hier : forall P (v : hvalues (RP P)) comps L ps r g t m, hdata_ok v comps -> h_table (RP P) (Ok v) = Ok (Some t, m) ->
  valid_tree L ps r -> m_leaves m = L -> padding L ps (m_parents m) g ->
  (forall y, node (m_parents m) y -> vget t y = Ok (@mkQ (RP P) (tree_gain L ps comps (g y)) (tree_loss L ps comps (g y)))) /\
  forall p, exists x, h_best (RP P) t m p = Ok x /\ let shown := map g (map hp_h (hn_parts x)) in
    node_cover L ps shown /\ gain (hn_quality x) = Rsum (tree_gain L ps comps) shown /\ loss (hn_quality x) = Rsum (tree_loss L ps comps) shown /\
    (forall l, node_cover L ps l ->
      (pp_num P p * Rsum (tree_gain L ps comps) l - pp_num P (pp_compl P p) * Rsum (tree_loss L ps comps) l <=
       pp_num P p * gain (hn_quality x) - pp_num P (pp_compl P p) * loss (hn_quality x))%R) /\
    forall l, node_cover L ps l ->      (* ties keep the aggregate *)
      (pp_num P p * Rsum (tree_gain L ps comps) l - pp_num P (pp_compl P p) * Rsum (tree_loss L ps comps) l =
       pp_num P p * gain (hn_quality x) - pp_num P (pp_compl P p) * loss (hn_quality x))%R ->
      forall h, In h l -> exists y, In y shown /\ below ps h y.
Proof.
  intros P v comps L ps r g t m D Et V EL Pd. unfold h_table in Et. cbn [bind] in Et.
  destruct (h_compute_prf P v comps D) as (t1 & E & T). rewrite E in Et. cbn [bind hq_table hq_meta] in Et. inversion Et; subst t1 m. clear Et E. destruct D as (_ & W & H2 & _). set (m := hv_meta v) in *.
  assert (Gy : forall y, node (m_parents m) y -> hgain m comps y = tree_gain L ps comps (g y) /\ hloss m comps y = tree_loss L ps comps (g y)).
  { intros y Ny. unfold hgain, hloss, tree_gain, tree_loss, hcells. rewrite (p_leaves L ps r m g V W EL Pd y Ny). auto. }
  pose proof (htable_repr P m t comps T) as U. split.
  - intros y Ny. rewrite (proj2 U y) by (apply (wb_node_iff m W); exact Ny). destruct (Gy y Ny) as [-> ->]. reflexivity.
  - intros p. destruct (h_cover_prf m W H2 (RP P) t p (proj1 U)) as (x & Ex & _). exists x. split; [exact Ex|]. cbv zeta.
    destruct (h_total P m W H2 t _ _ p x U Ex) as (C & G & Ls). rewrite EL in C. remember (map hp_h (hn_parts x)) as l0 eqn:El0.
    split; [apply (p_down L ps r m g V W EL Pd); exact C|]. rewrite !Rsum_map.
    split; [rewrite G; apply Rsum_ext; intros y I; apply Gy, C, I|]. split; [rewrite Ls; apply Rsum_ext; intros y I; apply Gy, C, I|].
    destruct (p_section L ps m g Pd) as [s Hs].
    assert (K : forall l, node_cover L ps l -> node_cover L (m_parents m) (map s l) /\ Rsum (hgain m comps) (map s l) = Rsum (tree_gain L ps comps) l /\ Rsum (hloss m comps) (map s l) = Rsum (tree_loss L ps comps) l).
    { intros l Cl. split; [exact (p_up L ps r m g V EL Pd s Hs l Cl)|]. rewrite !Rsum_map.
      split; apply Rsum_ext; intros h I; destruct (Hs h (proj1 (proj2 Cl) h I)) as [N1 E1]; [rewrite (proj1 (Gy _ N1))|rewrite (proj2 (Gy _ N1))]; rewrite E1; reflexivity. }
    split; intros l Cl; destruct (K l Cl) as (C' & <- & <-); rewrite <- EL in C'; [exact (h_value_le P m W H2 t _ _ p x _ U Ex C')|].
    intros Eq h I.
    assert (El : mmap (vget t) (map s l) = Ok (map (fun h => @mkQ (RP P) (hgain m comps h) (hloss m comps h)) (map s l))).
    { apply (mmap_vrepr _ t (m_hsize m)); auto. intros y Iy. apply (wb_node_iff m W). apply C'; auto. }
    pose proof (proj2 (h_optimal_prf m W H2 P t p x (map s l) _ (proj1 U) Ex C' El)) as Q. rewrite (Rsum_map _ _ (@gain (RP P))), (Rsum_map _ _ (@loss (RP P))) in Q.
    destruct (Q Eq (s h) (in_map s l h I)) as (y & Iy & By). destruct (Hs h (proj1 (proj2 Cl) h I)) as [N1 E1].
    exists (g (hp_h y)). rewrite El0. split; [do 2 apply in_map; exact Iy|]. rewrite <- E1 at 1. apply (pd_mono _ _ _ _ Pd); auto. apply C. rewrite El0. apply in_map, Iy.
Qed.
Print Assumptions C99_hier.

(** ** Spatiotemporal aggregation: no cover of the hierarchy that never moves back up is better. *)
Theorem C99_spatio : forall P (v : dvalues (RP P)) comps L ps r g t m, ddata_ok v comps -> d_table (RP P) (Ok v) = Ok (Some t, m) ->
  valid_tree L ps r -> m_leaves m = L -> padding L ps (m_parents m) g ->
  (forall y i j, node (m_parents m) y -> 0 <= i <= j -> j < dv_osize v -> mm_get t y i j = Ok (@mkQ (RP P) (rect_gain L ps comps (g y, i, j)) (rect_loss L ps comps (g y, i, j)))) /\
  forall p, exists x, d_best (RP P) t m p = Ok x /\ let shown := map (unpad g) (map rect (dn_parts x)) in
    rect_cover L ps (dv_osize v) shown /\ never_up L ps shown /\ gain (dn_quality x) = Rsum (rect_gain L ps comps) shown /\ loss (dn_quality x) = Rsum (rect_loss L ps comps) shown /\
    forall l, rect_cover L ps (dv_osize v) l -> never_up L ps l ->
      (pp_num P p * Rsum (rect_gain L ps comps) l - pp_num P (pp_compl P p) * Rsum (rect_loss L ps comps) l <=
       pp_num P p * gain (dn_quality x) - pp_num P (pp_compl P p) * loss (dn_quality x))%R.
Proof.
  intros P v comps L ps r g t m D Et V EL Pd. unfold d_table in Et. cbn [bind] in Et.
  destruct (d_compute_prf P v comps D) as (t1 & E & T). rewrite E in Et. cbn [bind dq_table dq_meta] in Et. inversion Et; subst t1 m. clear Et E. destruct D as (_ & Hn & W & H2 & _). set (m := dv_meta v) in *.
  assert (Gy : forall y i j, node (m_parents m) y -> dgain m comps y i j = rect_gain L ps comps (g y, i, j) /\ dloss m comps y i j = rect_loss L ps comps (g y, i, j)).
  { intros y i j Ny. unfold dgain, dloss, rect_gain, rect_loss, dcells. rewrite (p_leaves L ps r m g V W EL Pd y Ny). auto. }
  pose proof (dtable_repr P m _ Hn t comps T) as U. split.
  - intros y i j Ny Hi Hj. rewrite (mrepr_get _ _ _ _ _ y i j U) by (try lia; apply (wb_node_iff m W); exact Ny). destruct (Gy y i j Ny) as [-> ->]. reflexivity.
  - intros p. pose proof T as (S0 & F0 & _). destruct (d_cover_prf m W (RP P) t _ p Hn S0 F0) as (x & Ex & _ & C & NU & _). exists x. split; [exact Ex|]. cbv zeta.
    destruct (d_total P m W _ Hn _ _ t p x U Ex) as (_ & G & Ls). rewrite EL in C, NU. remember (map rect (dn_parts x)) as l0 eqn:El0.
    destruct (p_rdown L ps r m g V W EL Pd _ _ C NU) as [C1 N1]. split; [exact C1|]. split; [exact N1|]. rewrite !Rsum_map.
    assert (Gu : forall y, In y l0 -> un3 (dgain m comps) y = rect_gain L ps comps (unpad g y) /\ un3 (dloss m comps) y = rect_loss L ps comps (unpad g y)).
    { intros [[y i] j] I. cbn [un3 unpad]. apply Gy. apply (proj1 (proj2 C) y i j I). }
    split; [rewrite G; apply Rsum_ext; intros y I; apply Gu, I|]. split; [rewrite Ls; apply Rsum_ext; intros y I; apply Gu, I|].
    intros l Cl Nl. destruct (p_section L ps m g Pd) as [s Hs]. destruct (p_rup L ps r m g V EL Pd s Hs _ l Cl Nl) as [C' N']. rewrite <- EL in C', N'.
    pose proof (d_value_le P m W _ Hn _ _ t p x _ U Ex C' N') as K. rewrite !Rsum_map in K.
    rewrite (Rsum_ext _ (fun y => un3 (dgain m comps) (unpad s y)) (rect_gain L ps comps) l) in K
      by (intros [[h i] j] I; destruct (Hs h (proj1 (proj1 (proj2 Cl) h i j I))) as [N2 E2]; cbn [un3 unpad]; rewrite (proj1 (Gy _ i j N2)), E2; reflexivity).
    rewrite (Rsum_ext _ (fun y => un3 (dloss m comps) (unpad s y)) (rect_loss L ps comps) l) in K
      by (intros [[h i] j] I; destruct (Hs h (proj1 (proj1 (proj2 Cl) h i j I))) as [N2 E2]; cbn [un3 unpad]; rewrite (proj2 (Gy _ i j N2)), E2; reflexivity).
    exact K.
Qed.
Print Assumptions C99_spatio.

(** ** From the data and any hierarchy: there is a padded hierarchy on which the analysis answers for the hierarchy. *)
Theorem C99_data : forall P (d : list (list R)) ps r p, valid_tree (vlen d) ps r -> 2 <= vlen ps -> rect2 d (size2 d) ->
  exists ps' g t m x, padding (vlen d) ps ps' g /\ h_table (RP P) (hv2_of (RP P) d ps') = Ok (Some t, m) /\ h_best (RP P) t m p = Ok x /\
    let shown := map g (map hp_h (hn_parts x)) in let comps := columns 0%R (size2 d) d in
    node_cover (vlen d) ps shown /\ gain (hn_quality x) = Rsum (tree_gain (vlen d) ps comps) shown /\ loss (hn_quality x) = Rsum (tree_loss (vlen d) ps comps) shown /\
    forall l, node_cover (vlen d) ps l ->
      (pp_num P p * Rsum (tree_gain (vlen d) ps comps) l - pp_num P (pp_compl P p) * Rsum (tree_loss (vlen d) ps comps) l <=
       pp_num P p * gain (hn_quality x) - pp_num P (pp_compl P p) * loss (hn_quality x))%R.
Proof.
  intros P d ps r p V H2 Rd. destruct (pad_exists_last _ _ _ V) as (ps' & g & V' & U' & Pd & Le).
  destruct (hv2_data P ps' _ ltac:(lia) d V' U' Rd) as (v & E & (M1 & M2 & M3) & D).
  destruct (h_compute_prf P v _ D) as (t & E1 & T).
  assert (Et : h_table (RP P) (Ok v) = Ok (Some t, hv_meta v)) by (unfold h_table; cbn [bind]; rewrite E1; reflexivity).
  rewrite <- M2 in Pd. destruct (C99_hier P v _ (vlen d) ps r g t (hv_meta v) D Et V M1 Pd) as (_ & K). destruct (K p) as (x & Ex & K1 & K2 & K3 & K4 & _).
  exists ps', g, t, (hv_meta v), x. rewrite M2 in Pd. split; [exact Pd|]. split; [rewrite E; exact Et|]. split; [exact Ex|]. cbv zeta. auto.
Qed.
Print Assumptions C99_data.

Theorem C99_data_spatio : forall P (d : list (list R)) ps r p, valid_tree (vlen d) ps r -> 2 <= vlen ps -> rect2 d (size2 d) -> 1 <= size2 d <= 65535 ->
  exists ps' g t m x, padding (vlen d) ps ps' g /\ d_table (RP P) (dv2_of (RP P) d ps') = Ok (Some t, m) /\ d_best (RP P) t m p = Ok x /\
    let shown := map (unpad g) (map rect (dn_parts x)) in
    rect_cover (vlen d) ps (size2 d) shown /\ never_up (vlen d) ps shown /\ gain (dn_quality x) = Rsum (rect_gain (vlen d) ps [d]) shown /\ loss (dn_quality x) = Rsum (rect_loss (vlen d) ps [d]) shown /\
    forall l, rect_cover (vlen d) ps (size2 d) l -> never_up (vlen d) ps l ->
      (pp_num P p * Rsum (rect_gain (vlen d) ps [d]) l - pp_num P (pp_compl P p) * Rsum (rect_loss (vlen d) ps [d]) l <=
       pp_num P p * gain (dn_quality x) - pp_num P (pp_compl P p) * loss (dn_quality x))%R.
Proof.
  intros P d ps r p V H2 Rd Hs. destruct (pad_exists_last _ _ _ V) as (ps' & g & V' & U' & Pd & Le).
  destruct (dv2_data P ps' _ ltac:(lia) d V' U' Rd Hs) as (v & E & (M1 & M2 & M3) & M4 & D).
  destruct (d_compute_prf P v _ D) as (t & E1 & T).
  assert (Et : d_table (RP P) (Ok v) = Ok (Some t, dv_meta v)) by (unfold d_table; cbn [bind]; rewrite E1; reflexivity).
  rewrite <- M2 in Pd. destruct (C99_spatio P v _ (vlen d) ps r g t (dv_meta v) D Et V M1 Pd) as (_ & K). destruct (K p) as (x & Ex & K').
  exists ps', g, t, (dv_meta v), x. rewrite M2 in Pd. split; [exact Pd|]. split; [rewrite E; exact Et|]. split; [exact Ex|]. rewrite <- M4. exact K'.
Qed.
Print Assumptions C99_data_spatio.
