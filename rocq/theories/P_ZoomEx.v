(** * Property C98: concrete cases that meet the hypotheses of its theorems. *)
From Coq Require Import Reals Lra Lia.
From Verif Require Import Base BaseFacts Arith Quality Utm UtmFacts UtmProofs Hierarchy HierarchyFacts HierarchyProofs SpecTree SpecParts SpecInfo SpecData SpecShape SpecZoom Values Qualities Partitions Partitioners
  TreeFacts TreePath TreeDec CoverFacts InfoFacts OQual HQual DQual OFacts LexR OInfo OReal OProofs HProofs DProofs DataFacts DataCons ODataProofs HDataProofs DDataProofs DSel P_Ordered P_OrderedData P_HierData P_Spatio P_SpatioData P_SpatioNot P_RootPlace ZoomFacts P_Zoom P_ZoomHier P_ZoomSpatio.

(** Three slices, p = 0: every slice is a part of its own, so there is a cut at slice 1. *)
Definition zo_d : list (list R) := [[1; 0; 1]]%R.
Lemma zo_loss : forall i j, 0 <= i < j -> j < 3 -> (0 < oloss zo_d i j)%R.
Proof.
  intros i j Hi Hj. assert (C : (i = 0 /\ j = 1) \/ (i = 0 /\ j = 2) \/ (i = 1 /\ j = 2)) by lia. unfold oloss, zo_d. rewrite Rsum_cons, Rsum_nil, Rplus_0_r.
  assert (L : forall l, (forall x : R, In x l -> (0 <= x)%R) -> In 1%R l -> In 0%R l -> (0 < loss_of l)%R).
  { intros l N I1 I0. rewrite <- (map_id l). apply (loss_pos _ (fun x => x) l 1%R 0%R); auto; lra. }
  destruct C as [[-> ->]|[[-> ->]|[-> ->]]]; [change (slice [1; 0; 1]%R 0 1) with [1; 0]%R|change (slice [1; 0; 1]%R 0 2) with [1; 0; 1]%R|change (slice [1; 0; 1]%R 1 2) with [0; 1]%R];
    (apply L; [intros x I; cbn in I; intuition (subst; lra)|cbn; auto|cbn; auto]).
Qed.
Example C98_ordered_met : exists t t' x x', rect2 zo_d (size2 zo_d) /\ o_table RA (ov2_of RA zo_d) = Ok (Some t) /\ o_table RA (ov2_of RA (map (fun r => slice r 1 (size2 zo_d - 1)) zo_d)) = Ok (Some t') /\
  o_best RA t 0%R = Ok x /\ o_best RA t' 0%R = Ok x' /\ In 1 (map op_start (on_parts x)) /\ In 2 (map op_end (on_parts x)).
Proof.
  assert (Rd : rect2 zo_d (size2 zo_d)) by (repeat constructor).
  assert (D : odata_ok (P := Rpar) (ov2_of RA zo_d) zo_d). { split; [cbn; lia|]. split; [split; cbn; lia|]. apply (ov2_rows Rpar zo_d). repeat constructor. }
  assert (NN : Forall nonneg zo_d) by (repeat constructor; lra).
  destruct (zoom_table RA zo_d 1 2 Rd ltac:(lia) ltac:(cbn; lia)) as (t & t' & q & E & E' & U & U').
  destruct (o_best_ok RA t _ _ 0%R U) as (x & _ & _ & _ & Ex & _). destruct (o_best_ok RA t' _ _ 0%R U') as (x' & _ & _ & _ & Ex' & _).
  exists t, t', x, x'. do 5 (split; [assumption|]).
  destruct (o_compute_data Rpar (ov2_of RA zo_d) zo_d D) as (t1 & E1 & T1). change (RP Rpar) with RA in *. pose proof E as E0. unfold o_table in E0. rewrite E1 in E0. cbn [bind oq_table] in E0. inversion E0; subst t1.
  destruct (o_zero_data Rpar _ zo_d t 0%R x D NN T1 Ex ltac:(reflexivity) ltac:(cbn; lra)) as [L0 _].
  destruct (o_total Rpar t 3 (ogain zo_d) (oloss zo_d) 0%R x ltac:(lia) (otable_repr Rpar t 3 zo_d ltac:(lia) T1) Ex) as (Tl & _ & L1). rewrite L1 in L0.
  assert (Nn : forall i j, In (i, j) (ocoords x) -> i = j).
  { intros i j I. destruct (tiles_In _ _ _ Tl i j I) as [Hi Hj]. destruct (Z.eq_dec i j) as [Q|Q]; [exact Q|exfalso].
    apply (Rsum_pos _ (fun ab => oloss zo_d (fst ab) (snd ab)) (ocoords x) (i, j)); [intros; apply (oloss_nonneg _ 3); [repeat constructor|exact NN]|exact I|cbn [fst snd]; apply zo_loss; lia|exact L0]. }
  assert (K : In (1, 1) (ocoords x) /\ In (2, 2) (ocoords x)).
  { assert (K : forall l, tiles 0 3 l -> (forall i j, In (i, j) l -> i = j) -> In (1, 1) l /\ In (2, 2) l); [|exact (K _ Tl Nn)]. clear. intros l Tl Nn. inversion Tl as [|a e n r He Tr]; subst. pose proof (Nn _ _ (or_introl eq_refl)) as <-. inversion Tr as [|a e n r' He' Tr']; subst.
    pose proof (Nn _ _ (or_intror (or_introl eq_refl))) as <-. inversion Tr' as [|a e n r He'' Tr'']; subst.
    pose proof (Nn _ _ (or_intror (or_intror (or_introl eq_refl)))) as <-. cbn. auto. }
  unfold ocoords in K. destruct K as [K1 K2]. apply in_map_iff in K1. apply in_map_iff in K2. destruct K1 as (y & Ey & Iy), K2 as (z & Ez & Iz).
  split; apply in_map_iff; [exists y|exists z]; split; auto; [injection Ey|injection Ez]; auto.
Qed.

Lemma below_inv : forall ps x h, below ps x h -> x = h \/ (parent ps x <> -1 /\ below ps (parent ps x) h).
Proof. intros ps x h H. inversion H; subst; auto. Qed.

(** The first group of a hierarchy of four leaves in two groups. *)
Definition zh_f (y : Z) : Z := if y =? 2 then 4 else y.
Lemma zh_sub : subtree 4 [4; 4; 5; 5; 6; 6; -1] 4 2 exn_ps zh_f.
Proof.
  assert (N3 : forall y, node exn_ps y -> y = 0 \/ y = 1 \/ y = 2) by (intros y Ny; unfold node in Ny; cbn in Ny; lia).
  constructor.
  - intros y Ny. destruct (N3 y Ny) as [->|[->| ->]]; unfold leaf, zh_f; cbn; lia.
  - intros y Ny. destruct (N3 y Ny) as [->|[->| ->]]; (split; [unfold node, zh_f; cbn; lia|apply (climb_sound 5); reflexivity]).
  - intros y z Ny Nz. destruct (N3 y Ny) as [->|[->| ->]], (N3 z Nz) as [->|[->| ->]]; cbn; congruence.
  - intros x Nx B. unfold node in Nx. cbn in Nx. assert (C : x = 0 \/ x = 1 \/ x = 4 \/ x = 2 \/ x = 3 \/ x = 5 \/ x = 6) by lia.
    destruct C as [->|[->|[->|C]]]; [exists 0|exists 1|exists 2|exfalso]; try (split; [unfold node; cbn; lia|reflexivity]).
    destruct C as [->|[->|[->| ->]]]; repeat (apply below_inv in B; destruct B as [B|[Q B]]; [discriminate B|vm_compute in Q, B; first [apply Q; reflexivity|clear Q]]).
  - intros y Ny Q. destruct (N3 y Ny) as [->|[->| ->]]; vm_compute in Q; try discriminate Q; reflexivity.
  - intros y Ny Q. destruct (N3 y Ny) as [->|[->| ->]]; try reflexivity. exfalso. apply Q. reflexivity.
Qed.

(** Four leaves, one component, p = 0: the leaves of the first group differ, so a part of the best partition is below node 4. *)
Definition zh_d : list (list R) := [[1]; [0]; [1]; [1]]%R.
Definition zh_d' : list (list R) := [[1]; [0]]%R.
Example C98_hier_met : exists v v' t t' m m' x x', hv2_of RA zh_d [4; 4; 5; 5; 6; 6; -1] = Ok v /\ hv2_of RA zh_d' exn_ps = Ok v' /\
  hdata_ok (P := Rpar) v [[1; 0; 1; 1]]%R /\ hdata_ok (P := Rpar) v' [[1; 0]]%R /\
  h_table RA (Ok v) = Ok (Some t, m) /\ h_table RA (Ok v') = Ok (Some t', m') /\
  subtree (m_leaves m) (m_parents m) 4 (m_leaves m') (m_parents m') zh_f /\ subtree_data 0%R (m_leaves m') zh_f [[1; 0; 1; 1]]%R [[1; 0]]%R /\
  h_best RA t m 0%R = Ok x /\ h_best RA t' m' 0%R = Ok x' /\ exists y, In y (map hp_h (hn_parts x)) /\ below (m_parents m) y 4.
Proof.
  destruct tree4_prf as [V U]. destruct exn_tree as [V' U'].
  destruct (hv2_data Rpar [4; 4; 5; 5; 6; 6; -1] 6 ltac:(cbv; discriminate) zh_d V U ltac:(repeat constructor)) as (v & E & (M1 & M2 & M3) & D).
  destruct (hv2_data Rpar exn_ps 2 ltac:(cbv; discriminate) zh_d' V' U' ltac:(repeat constructor)) as (v' & E' & (M1' & M2' & M3') & D').
  change (columns 0%R (size2 zh_d) zh_d) with [[1; 0; 1; 1]]%R in D. change (columns 0%R (size2 zh_d') zh_d') with [[1; 0]]%R in D'.
  destruct (h_compute_prf Rpar v _ D) as (t & E1 & T). destruct (h_compute_prf Rpar v' _ D') as (t' & E1' & T').
  assert (NN : Forall nonneg [[1; 0; 1; 1]]%R) by (repeat constructor; lra). pose proof (hdata_len _ v _ D) as CL.
  pose proof D as (_ & W & H2 & _). pose proof D' as (_ & W' & H2' & _). pose proof (htable_repr Rpar _ t _ T) as Tr. pose proof (htable_repr Rpar _ t' _ T') as Tr'.
  destruct (h_cover_prf _ W H2 (RP Rpar) t 0%R (proj1 Tr)) as (x & Ex & _ & C & _). destruct (h_cover_prf _ W' H2' (RP Rpar) t' 0%R (proj1 Tr')) as (x' & Ex' & _).
  exists v, v', t, t', (hv_meta v), (hv_meta v'), x, x'. split; [exact E|]. split; [exact E'|]. split; [exact D|]. split; [exact D'|].
  split; [unfold h_table; cbn [bind]; change RA with (RP Rpar); rewrite E1; reflexivity|]. split; [unfold h_table; cbn [bind]; change RA with (RP Rpar); rewrite E1'; reflexivity|].
  rewrite M1, M1', M2, M2'. split; [exact zh_sub|].
  split. { constructor; [|constructor]. intros y Hy. change (0 <= y < 2) in Hy. assert (y = 0 \/ y = 1) as [->| ->] by lia; reflexivity. }
  split; [exact Ex|]. split; [exact Ex'|]. rewrite M1, M2 in C. destruct C as (_ & CN & C). destruct (C 0 ltac:(unfold leaf; cbn; lia)) as (y & Iy & By & _).
  exists y. split; [exact Iy|]. apply below_inv in By. destruct By as [<-|[_ By]]; [apply (climb_sound 5); reflexivity|]. change (parent _ 0) with 4 in By.
  apply below_inv in By. destruct By as [<-|[_ By]]; [constructor|]. change (parent _ 4) with 6 in By. exfalso.
  assert (y = 6). { apply below_inv in By. destruct By as [By|[Q _]]; [auto|exfalso; apply Q; reflexivity]. } subst y.
  assert (L0 : loss (hn_quality x) = 0%R).
  { eapply (h_extreme0 Rpar _ W H2 t); [exact Tr|exact Ex|reflexivity|cbn; lra| |]; [intros; apply hloss_nonneg; auto|intros; apply (hleaf_zero _ W); auto]. }
  destruct (h_total Rpar _ W H2 t _ _ _ x Tr Ex) as (_ & _ & L1). rewrite L1 in L0. revert L0. apply (Rsum_pos _ _ _ 6); [intros; apply hloss_nonneg; auto|exact Iy|].
  unfold hloss, hcells. rewrite M1, M2. rewrite Rsum_cons, Rsum_nil, Rplus_0_r. change (vlen zh_d) with 4. change (leavesof 4 _ 6) with [0; 1; 2; 3].
  apply (loss_pos _ _ _ 0 1); [|cbn; auto|cbn; auto|change (1 <> 0)%R; lra]. intros z [<-|[<-|[<-|[<-|[]]]]]; [change (0 <= 1)%R|change (0 <= 0)%R|change (0 <= 1)%R|change (0 <= 1)%R]; lra.
Qed.

(** Two equal leaves, two slices, p = 1/8: the root's part in the second slice is displayed. *)
Definition zd_d : list (list R) := [[0; 1]; [0; 1]]%R.
Definition zd_d' : list (list R) := [[1]; [1]]%R.
Definition zval (m : meta) (h i j : Z) : R := (1 / 8 * dgain m [zd_d] h i j - (1 - 1 / 8) * dloss m [zd_d] h i j)%R.
Definition zd_l : list (Z * Z * Z) := [(2, 0, 0); (2, 1, 1)].

Lemma zd_gains : (gain_of [0; 0] = 0 /\ gain_of [1; 1] = 2 /\ gain_of [0; 1] = 0 /\ gain_of [0; 1; 0; 1] = 2)%R.
Proof.
  repeat split; gain_tac; rewrite ?log2_1.
  - replace (1 + (1 + 0))%R with 2%R by ring. rewrite log2_2. ring.
  - replace (0 + (1 + 0))%R with 1%R by ring. rewrite log2_1. ring.
  - replace (0 + (1 + (0 + (1 + 0))))%R with 2%R by ring. rewrite log2_2. ring.
Qed.

Lemma zd_val : forall m, m_leaves m = 2 -> m_parents m = exn_ps ->
  (zval m 2 0 1 <= 0 /\ zval m 2 0 0 = 0 /\ zval m 2 1 1 = 1 / 4 /\ zval m 0 0 1 <= 0 /\ zval m 1 0 1 <= 0 /\
   zval m 0 0 0 = 0 /\ zval m 0 1 1 = 0 /\ zval m 1 0 0 = 0 /\ zval m 1 1 1 = 0)%R.
Proof.
  intros m EL EP. destruct zd_gains as (G1 & G2 & G3 & G4).
  assert (T2 : forall a b, total [a; b] = (a + b)%R) by (intros; unfold total, Rsum; cbn; ring).
  assert (T4 : forall a b c d, total [a; b; c; d] = (a + b + c + d)%R) by (intros; unfold total, Rsum; cbn; ring).
  unfold zval, zd_d.
  repeat split; cells_tac EL EP; rewrite ?G1, ?G2, ?G3, ?G4, ?gain_of_single, ?T2, ?T4; lra.
Qed.

Lemma zd_cover : rect_cover 2 exn_ps 2 zd_l /\ never_up 2 exn_ps zd_l.
Proof.
  split; [split; [repeat constructor; cbn; intuition discriminate|]; split|].
  - intros y a b K. cbn in K. repeat (destruct K as [K|K]; [inversion K; subst; split; [split; cbv; congruence|lia]|]). destruct K.
  - intros x o Hx Ho. pose proof (exn_below x Hx) as B2. exists 2, o, o. assert (Ho2 : o = 0 \/ o = 1) by lia.
    split; [destruct Ho2 as [->| ->]; cbn; auto|]. split; [exact B2|]. split; [lia|].
    intros y' a' b' K. cbn in K. destruct K as [K|[K|[]]]; inversion K; subst; intros _ Q; destruct Ho2 as [->| ->]; first [reflexivity|lia].
  - intros x h a b h' a' b' _ I I' _ _ _. assert (Q : h = 2) by (destruct I as [I|[I|[]]]; inversion I; reflexivity). assert (Q' : h' = 2) by (destruct I' as [I'|[I'|[]]]; inversion I'; reflexivity).
    rewrite Q, Q'. apply below_refl.
Qed.

Lemma id_sub : subtree 2 exn_ps 2 2 exn_ps (fun y => y).
Proof.
  assert (N3 : forall y, node exn_ps y -> y = 0 \/ y = 1 \/ y = 2) by (intros y Ny; unfold node in Ny; cbn in Ny; lia).
  constructor; [tauto| |auto|eauto| |auto].
  - intros y Ny. split; [exact Ny|]. destruct (N3 y Ny) as [->|[->| ->]]; apply (climb_sound 3); reflexivity.
  - intros y Ny Q. destruct (N3 y Ny) as [->|[->| ->]]; vm_compute in Q; try discriminate Q; reflexivity.
Qed.

Example C98_spatio_met : exists v v' t t' m m' x x', dv2_of RA zd_d exn_ps = Ok v /\ dv2_of RA zd_d' exn_ps = Ok v' /\
  ddata_ok (P := Rpar) v [zd_d] /\ ddata_ok (P := Rpar) v' [zd_d'] /\ dv_osize v = 2 /\ dv_osize v' = 1 - 1 + 1 /\
  d_table RA (Ok v) = Ok (Some t, m) /\ d_table RA (Ok v') = Ok (Some t', m') /\
  subtree (m_leaves m) (m_parents m) 2 (m_leaves m') (m_parents m') (fun y => y) /\ window_data (m_leaves m') (fun y => y) 1 1 [zd_d] [zd_d'] /\
  d_best RA t m (1 / 8)%R = Ok x /\ d_best RA t' m' (1 / 8)%R = Ok x' /\ In (2, 1, 1) (map rect (dn_parts x)).
Proof.
  destruct exn_tree as [V U].
  destruct (dv2_data Rpar exn_ps 2 ltac:(cbv; discriminate) zd_d V U ltac:(repeat constructor) ltac:(cbv; split; discriminate)) as (v & E & (M1 & M2 & M3) & M4 & D).
  destruct (dv2_data Rpar exn_ps 2 ltac:(cbv; discriminate) zd_d' V U ltac:(repeat constructor) ltac:(cbv; split; discriminate)) as (v' & E' & (M1' & M2' & M3') & M4' & D').
  destruct (d_compute_prf Rpar v _ D) as (t & E1 & T). destruct (d_compute_prf Rpar v' _ D') as (t' & E1' & T').
  pose proof D as (_ & Hn & W & H2 & _). pose proof D' as (_ & Hn' & W' & H2' & _). pose proof (dtable_repr Rpar _ _ Hn t _ T) as Tr. pose proof (dtable_repr Rpar _ _ Hn' t' _ T') as Tr'.
  pose proof T as (S0 & F0 & _). pose proof T' as (S0' & F0' & _).
  destruct (d_cover_prf _ W (RP Rpar) t (dv_osize v) (1 / 8)%R Hn S0 F0) as (x & Ex & _ & C & NU & _). destruct (d_cover_prf _ W' (RP Rpar) t' (dv_osize v') (1 / 8)%R Hn' S0' F0') as (x' & Ex' & _).
  change (size2 zd_d) with 2 in M4. change (size2 zd_d') with 1 in M4'. change (vlen zd_d) with 2 in M1. change (vlen zd_d') with 2 in M1'.
  exists v, v', t, t', (dv_meta v), (dv_meta v'), x, x'. split; [exact E|]. split; [exact E'|]. split; [exact D|]. split; [exact D'|]. split; [exact M4|]. split; [exact M4'|].
  split; [unfold d_table; cbn [bind]; change RA with (RP Rpar); rewrite E1; reflexivity|]. split; [unfold d_table; cbn [bind]; change RA with (RP Rpar); rewrite E1'; reflexivity|].
  rewrite M1, M1', M2, M2'. split; [exact id_sub|].
  split. { constructor; [|constructor]. intros y Hy. change (0 <= y < 2) in Hy. assert (y = 0 \/ y = 1) as [->| ->] by lia; reflexivity. }
  split; [exact Ex|]. split; [exact Ex'|].
  assert (Dec : forall a b : Z * Z * Z, {a = b} + {a <> b}) by (repeat decide equality). destruct (in_dec Dec (2, 1, 1) (map rect (dn_parts x))) as [I|N]; [exact I|exfalso].
  destruct (zd_val (dv_meta v) M1 M2) as (V1 & V2 & V3 & V4 & V5 & V6 & V7 & V8 & V9).
  destruct (d_total Rpar _ W _ Hn _ _ t _ x Tr Ex) as (_ & Gx & Lx).
  assert (Ev : forall l, Rsum (un3 (zval (dv_meta v))) l = (1 / 8 * Rsum (un3 (dgain (dv_meta v) [zd_d])) l - (1 - 1 / 8) * Rsum (un3 (dloss (dv_meta v) [zd_d])) l)%R).
  { induction l as [|[[h a] b] l IH]; rewrite ?Rsum_nil, ?Rsum_cons; [lra|]. rewrite IH. cbn [un3]. unfold zval. ring. }
  assert (Up : (Rsum (un3 (zval (dv_meta v))) (map rect (dn_parts x)) <= 0)%R).
  { apply Rsum_nonpos. intros [[h a] b] I. destruct C as (_ & C & _). destruct (C _ _ _ I) as (Nh & Ha & Hb). rewrite M4 in Hb. rewrite M2 in Nh. change (0 <= h < 3) in Nh. cbn [un3].
    assert (Hh' : h = 0 \/ h = 1 \/ h = 2) by lia. assert (Hab : (a = 0 /\ b = 0) \/ (a = 0 /\ b = 1) \/ (a = 1 /\ b = 1)) by lia.
    destruct Hh' as [->|[->| ->]], Hab as [[-> ->]|[[-> ->]|[-> ->]]]; try lra. exfalso. exact (N I). }
  assert (Hl : forall y a b, In (y, a, b) zd_l -> 0 <= y < m_hsize (dv_meta v) /\ 0 <= a <= b /\ b < dv_osize v).
  { intros y a b Hy. rewrite M4, (wb_hsize _ W), M2. change (vlen exn_ps) with 3. cbn in Hy. destruct Hy as [Hy|[Hy|[]]]; inversion Hy; subst; lia. }
  pose proof (mmap_mrepr (RP Rpar) t (m_hsize (dv_meta v)) (dv_osize v) _ zd_l Tr Hl) as El.
  destruct zd_cover as [C2 N2].
  pose proof (C26_spatio_optimal_real (dv_meta v) W t (dv_osize v) (1 / 8)%R x zd_l _ Hn S0 F0 Ex ltac:(rewrite M1, M2, M4; exact C2) ltac:(rewrite M1, M2; exact N2) El) as Op.
  unfold no_better in Op. change RA with (RP Rpar) in Op. rewrite Gx, Lx in Op. rewrite !Rsum_map in Op.
  match type of Op with context [Rsum (fun y => gain (q3 ?A ?q y)) zd_l] =>
    rewrite (Rsum_ext _ (fun y => gain (q3 A q y)) (un3 (dgain (dv_meta v) [zd_d])) zd_l) in Op by (intros [[a b] c] _; reflexivity);
    rewrite (Rsum_ext _ (fun y => loss (q3 A q y)) (un3 (dloss (dv_meta v) [zd_d])) zd_l) in Op by (intros [[a b] c] _; reflexivity) end.
  pose proof (Ev zd_l) as K2. assert (K3 : Rsum (un3 (zval (dv_meta v))) zd_l = (1 / 4)%R) by (unfold Rsum, zd_l; cbn [map fold_right un3]; rewrite V2, V3; ring).
  rewrite Ev in Up. change (num (RP Rpar)) with Rdefinitions.R in *. rewrite !Rsum_map in Up. lra.
Qed.
