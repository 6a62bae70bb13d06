(** * Property C91 for the data frames of R, and data for which every grid is strictly worse. *)
From Coq Require Import Reals Lra Lia Permutation Sorting.Sorted.
From Verif Require Import Base BaseFacts Arith Quality Utm UtmFacts UtmProofs Hierarchy HierarchyFacts SpecTree SpecParts SpecInfo SpecData SpecShape SpecOverlap SpecSearch SpecR Values Qualities Partitions Partitioners Search RApi
  TreeFacts TreePath LexR HFacts CoverFacts InfoFacts HReal OReal HProofs HQual DataFacts DataCons HDataProofs SearchReal SearchInst P_Search P_Ordered P_OrderedData P_HierData P_SpatioNot P_Shape P_Overlap P_Overlap2
  RFacts P_RApi P_RCurve P_RBest P_Nested.
From Verif Require Import SpecMacro MacroFacts HMacroFacts P_RMacro SpecBest SpecValues ValuesFacts OInfo.
From Verif Require Import TreeDec SpecProduct DDataProofs DProofs DQual P_Spatio P_SpatioData P_Product.

(** What daggregate returns, against stacked partitions (the data frame numbers nodes and slices from 1). *)
Theorem C91_r : forall (th : R) micro d0 d1 d2 h root fuel r p g l, r_cube micro d0 d1 d2 -> d2 <= 65535 -> r_tree h d0 (root - 1) -> r_daggregate RA id_num false fuel micro h th = Ok r -> In (p, (g, l)) (rr_quals r) ->
  rectangle gain_of micro d0 d1 h root 1 d2 <> 0%R -> rectangle loss_of micro d0 d1 h root 1 d2 <> 0%R ->
  let G := fun '(x, s, e) => relative root (x + 1) (rectangle gain_of micro d0 d1 h (x + 1) (s + 1) (e + 1)) (rectangle gain_of micro d0 d1 h root 1 d2) in
  let L := fun '(x, s, e) => relative root (x + 1) (rectangle loss_of micro d0 d1 h (x + 1) (s + 1) (e + 1)) (rectangle loss_of micro d0 d1 h root 1 d2) in
  forall c i, node_cover d0 (from0 h) c -> (forall x, In x c -> tiles 0 d2 (i x)) -> no_better p (1 - p) g l (Rsum G (stacked c i)) (Rsum L (stacked c i)).
Proof.
  intros th micro d0 d1 d2 h root fuel r p g l C Hn Tr E Iq NG NL G L c i Hc Hi.
  destruct (C72_spatio th micro d0 d1 d2 h root fuel r p g l C Hn Tr E Iq NG NL) as (_ & _ & _ & _ & K).
  destruct (stacked_cover _ _ d2 c i Hc Hi) as [Cv Nu]. set (s1 := map (fun '(x, s, e) => (x + 1, s + 1, e + 1)) (stacked c i)).
  assert (Es : map (fun '(x, s, e) => (x - 1, s - 1, e - 1)) s1 = stacked c i).
  { unfold s1. rewrite map_map. rewrite <- (map_id (stacked c i)) at 2. apply map_ext. intros [[x s] e]. rewrite !Z.add_simpl_r. reflexivity. }
  specialize (K s1). cbv zeta in K. rewrite Es in K. specialize (K Cv Nu). unfold s1 in K. rewrite !Rsum_map in K.
  match type of K with no_better _ _ _ _ ?a ?b => replace (Rsum G (stacked c i)) with a; [replace (Rsum L (stacked c i)) with b; [exact K|]|] end; apply Rsum_ext; intros [[x s] e] _; reflexivity.
Qed.
Print Assumptions C91_r.

(** ** Leaf 0 is (1, 1), leaf 1 is (1, 0), p = 1/4: leaf 0 over both slices and leaf 1 slice by slice beats every grid. *)
Definition pr_d : list (list R) := [[1; 1]; [1; 0]]%R.
Definition pr_ps : list Z := [2; 2; -1].
Lemma pr_tree : valid_tree 2 pr_ps 2 /\ uniform_depth 2 pr_ps 2. Proof. exact exn_tree. Qed.
Lemma tiles2 : forall l, tiles 0 2 l -> l = [(0, 1)] \/ l = [(0, 0); (1, 1)].
Proof.
  intros l H. inversion H as [|a e m r He Hr]; subst. assert (e = 0 \/ e = 1) as [-> | ->] by lia.
  - inversion Hr as [|a e m r' He' Hr']; subst. assert (e = 1) by lia. subst e. inversion Hr'; subst; [auto|lia].
  - inversion Hr; subst; [auto|lia].
Qed.
Lemma pr_cover : forall c, node_cover 2 pr_ps c -> c = [2] \/ Permutation c [0; 1].
Proof.
  intros c (N & Nd & Cv). assert (B0 : forall x, leaf 2 x -> below pr_ps x 2). { intros x Hx. assert (x = 0 \/ x = 1) as [->| ->] by (unfold leaf in Hx; lia); apply (climb_sound 3); reflexivity. }
  assert (B1 : forall x y, leaf 2 x -> node pr_ps y -> below pr_ps x y -> y = x \/ y = 2).
  { intros x y Hx Hy B. assert (Hy' : y = 0 \/ y = 1 \/ y = 2) by (unfold node in Hy; change (vlen pr_ps) with 3 in Hy; lia). assert (Hx' : x = 0 \/ x = 1) by (unfold leaf in Hx; lia).
    destruct Hy' as [->|[->| ->]]; auto; destruct Hx' as [->| ->]; auto; exfalso; clear - B;
      inversion B as [|? ? _ K]; subst; change (parent pr_ps 1) with 2 in K; change (parent pr_ps 0) with 2 in K; inversion K as [|? ? Q _]; subst; apply Q; reflexivity. }
  destruct (Cv 0 ltac:(unfold leaf; lia)) as (h & Ih & B & U). destruct (B1 0 h ltac:(unfold leaf; lia) (Nd h Ih) B) as [-> | ->].
  - right. destruct (Cv 1 ltac:(unfold leaf; lia)) as (h & Ih' & B' & U'). destruct (B1 1 h ltac:(unfold leaf; lia) (Nd h Ih') B') as [-> | ->].
    + apply NoDup_Permutation; [exact N|repeat constructor; cbn; intuition discriminate|]. intro y. split.
      * intro Iy. assert (Hy' : y = 0 \/ y = 1 \/ y = 2) by (pose proof (Nd y Iy) as K; unfold node in K; change (vlen pr_ps) with 3 in K; lia). destruct Hy' as [->|[->| ->]]; cbn; auto. specialize (U 2 Iy (B0 0 ltac:(unfold leaf; lia))). discriminate.
      * cbn. intros [<-|[<-|[]]]; assumption.
    + specialize (U 2 Ih' (B0 0 ltac:(unfold leaf; lia))). discriminate.
  - left. assert (A : forall y, In y c -> y = 2).
    { intros y Iy. assert (Hy' : y = 0 \/ y = 1 \/ y = 2) by (pose proof (Nd y Iy) as K; unfold node in K; change (vlen pr_ps) with 3 in K; lia). destruct Hy' as [->|[->| ->]]; [| |reflexivity].
      - symmetry. rewrite <- (U 0 Iy ltac:(constructor)). reflexivity.
      - destruct (Cv 1 ltac:(unfold leaf; lia)) as (h & Ih' & B' & U'). rewrite (U' 1 Iy ltac:(constructor)). symmetry. apply U'; [exact Ih|apply B0; unfold leaf; lia]. }
    destruct c as [|a [|b c]]; [destruct Ih| |].
    + rewrite (A a (or_introl eq_refl)). reflexivity.
    + exfalso. inversion N as [|? ? Na _]; subst. apply Na. left. rewrite (A a (or_introl eq_refl)), (A b (or_intror (or_introl eq_refl))). reflexivity.
Qed.

Lemma pr_cells : forall m, m_leaves m = 2 -> m_parents m = pr_ps ->
  (dgain m [pr_d] 0 0 1 = 2 /\ dloss m [pr_d] 0 0 1 = 0 /\ dgain m [pr_d] 1 0 1 = 0 /\ dloss m [pr_d] 1 0 1 = 1 /\
   dgain m [pr_d] 0 0 0 = 0 /\ dloss m [pr_d] 0 0 0 = 0 /\ dgain m [pr_d] 1 0 0 = 0 /\ dloss m [pr_d] 1 0 0 = 0 /\
   dgain m [pr_d] 0 1 1 = 0 /\ dloss m [pr_d] 0 1 1 = 0 /\ dgain m [pr_d] 1 1 1 = 0 /\ dloss m [pr_d] 1 1 1 = 0 /\
   dgain m [pr_d] 2 0 0 = 2 /\ dloss m [pr_d] 2 0 0 = 0 /\ dgain m [pr_d] 2 1 1 = 0 /\ dloss m [pr_d] 2 1 1 = 1 /\
   dgain m [pr_d] 2 0 1 = 3 * log2 3 /\ dloss m [pr_d] 2 0 1 = 6 - 3 * log2 3)%R.
Proof.
  intros m EL EP. destruct ex_log3 as [_ L4]. assert (T2 : forall a b, total [a; b] = (a + b)%R) by (intros; unfold total, Rsum; cbn; ring). assert (T4 : total [1; 1; 1; 0]%R = 3%R) by (unfold total, Rsum; cbn; ring).
  unfold dgain, dloss, dcells. rewrite EL, EP. change (leavesof 2 pr_ps 2) with [0; 1]; change (leavesof 2 pr_ps 0) with [0]; change (leavesof 2 pr_ps 1) with [1].
  unfold Rsum, pr_d; cbn [map fold_right flat_map]; unfold elt, slice;
  change (Z.to_nat 0) with 0%nat; change (Z.to_nat 1) with 1%nat;
  change (Z.to_nat (1 - 0 + 1)) with 2%nat; change (Z.to_nat (0 - 0 + 1)) with 1%nat; change (Z.to_nat (1 - 1 + 1)) with 1%nat;
  cbn [nth firstn skipn app]. rewrite !gain_of_single, !loss_of_single, ex_g11, ex_g10, ex_g1110. unfold loss_of. rewrite ex_g11, ex_g10, ex_g1110, !T2, T4.
  change (vlen [1; 1]%R) with 2; change (vlen [1; 0]%R) with 2; change (vlen [1; 1; 1; 0]%R) with 4. rewrite log2_2, L4. repeat split; ring.
Qed.

Theorem C91_strict : exists (d : list (list R)) ps r v t p x, valid_tree (vlen d) ps r /\ uniform_depth (vlen d) ps r /\ Forall nonneg d /\ (0 < p < 1)%R /\
  dv2_of RA d ps = Ok v /\ d_table RA (Ok v) = Ok (Some t, dv_meta v) /\ d_best RA t (dv_meta v) p = Ok x /\
  forall c l ql, node_cover (vlen d) ps c -> tiles 0 (dv_osize v) l -> mmap (fun '(h, a, b) => mm_get t h a b) (stacked c (fun _ => l)) = Ok ql ->
    (p * Rsum (@gain RA) ql - (1 - p) * Rsum (@loss RA) ql < p * gain (dn_quality x) - (1 - p) * loss (dn_quality x))%R.
Proof.
  destruct pr_tree as [V U]. change RA with (RP Rpar).
  destruct (dv2_data Rpar pr_ps 2 ltac:(cbv; discriminate) pr_d V U ltac:(repeat constructor) ltac:(cbv; split; discriminate)) as (v & E & (M1 & M2 & M3) & M4 & D).
  change (vlen pr_d) with 2 in M1. change (size2 pr_d) with 2 in M4. pose proof D as (_ & Hn & W & _).
  destruct (d_compute_prf Rpar v _ D) as (t & E0 & T). pose proof T as (S0 & F0 & T0). pose proof (dtable_repr Rpar _ _ Hn t _ T) as Rt.
  destruct (d_cover_prf (dv_meta v) W (RP Rpar) t (dv_osize v) (1 / 4)%R Hn S0 F0) as (x & Ex & _).
  exists pr_d, pr_ps, 2, v, t, (1 / 4)%R, x. do 2 (split; [assumption|]). split; [repeat constructor; lra|]. split; [lra|]. split; [exact E|]. split; [unfold d_table; cbn [bind]; rewrite E0; reflexivity|]. split; [exact Ex|].
  destruct (pr_cells _ M1 M2) as (G1 & L1 & G2 & L2 & G3 & L3 & G4 & L4 & G5 & L5 & G6 & L6 & G7 & L7 & G8 & L8 & G9 & L9). pose proof log2_3_bounds as B3.
  pose proof (wb_hsize _ W) as Eh. rewrite M2 in Eh. change (vlen pr_ps) with 3 in Eh.
  set (lx := fun h : Z => if h =? 0 then [(0, 1)] else [(0, 0); (1, 1)]).
  assert (T1 : tiles 0 2 [(0, 1)]) by (apply tiles_cons; [lia|apply tiles_nil]). assert (T2 : tiles 0 2 [(0, 0); (1, 1)]) by (apply tiles_cons; [lia|apply tiles_cons; [lia|apply tiles_nil]]).
  assert (Cl : node_cover 2 pr_ps [0; 1]).
  { split; [repeat constructor; cbn; intuition discriminate|]. split; [intros h [<-|[<-|[]]]; split; cbv; congruence|].
    intros y Hy. exists y. split; [unfold leaf in Hy; assert (y = 0 \/ y = 1) as [->| ->] by lia; cbn; auto|]. split; [constructor|].
    intros h Ih B. assert (Hl : h = 0 \/ h = 1) by (cbn in Ih; lia). assert (y = 0 \/ y = 1) as Hy' by (unfold leaf in Hy; lia).
    destruct Hl as [-> | ->], Hy' as [-> | ->]; try reflexivity; exfalso; inversion B as [|? ? _ K]; subst; change (parent pr_ps 1) with 2 in K; change (parent pr_ps 0) with 2 in K; inversion K as [|? ? Q _]; subst; apply Q; reflexivity. }
  destruct (stacked_cover 2 pr_ps 2 [0; 1] lx Cl ltac:(intros h [<-|[<-|[]]]; unfold lx; cbn [Z.eqb]; assumption)) as [Cv Nu].
  assert (K : (1 / 4 * Rsum (un3 (dgain (dv_meta v) [pr_d])) (stacked [0%Z; 1%Z] lx) - (1 - 1 / 4) * Rsum (un3 (dloss (dv_meta v) [pr_d])) (stacked [0%Z; 1%Z] lx) <= 1 / 4 * gain (dn_quality x) - (1 - 1 / 4) * loss (dn_quality x))%R).
  { apply (d_value_le Rpar _ W _ Hn _ _ t _ x _ Rt Ex); rewrite M1, M2, ?M4; assumption. }
  change (stacked [0; 1] lx) with [(0, 0, 1); (1, 0, 0); (1, 1, 1)] in K. unfold Rsum at 1 2 in K. cbn [map fold_right un3] in K. rewrite G1, L1, G4, L4, G6, L6 in K.
  intros c l ql Hc Hl Q. change (vlen pr_d) with 2 in Hc. rewrite M4 in *.
  assert (Q' : ql = map (fun '(h, a, b) => @mkQ (RP Rpar) (dgain (dv_meta v) [pr_d] h a b) (dloss (dv_meta v) [pr_d] h a b)) (stacked c (fun _ => l))).
  { assert (Q2 : mmap (fun '(h, a, b) => mm_get t h a b) (stacked c (fun _ => l)) = Ok (map (fun '(h, a, b) => @mkQ (RP Rpar) (dgain (dv_meta v) [pr_d] h a b) (dloss (dv_meta v) [pr_d] h a b)) (stacked c (fun _ => l)))).
    { apply mmap_map. intros [[h a] b] Ir. apply stacked_In in Ir. destruct Ir as [Ih Ia]. destruct (tiles_bounds 0 2 l a b Hl Ia). destruct Hc as (_ & Nd & _). pose proof (Nd h Ih) as B. unfold node in B. change (vlen pr_ps) with 3 in B. apply T0; lia. }
    rewrite Q in Q2. injection Q2 as ->. reflexivity. }
  subst ql. rewrite !Rsum_map. clear Q.
  assert (Pm : forall (f : Z * Z * Z -> R) c', Permutation c c' -> Rsum f (stacked c (fun _ => l)) = Rsum f (stacked c' (fun _ => l))).
  { intros f c' Pc. apply Rsum_perm. unfold stacked. apply Permutation_flat_map. exact Pc. }
  destruct (pr_cover c Hc) as [-> |Pc]; [|rewrite !(Pm _ _ Pc)]; destruct (tiles2 l Hl) as [-> | ->];
    unfold stacked; cbn [flat_map map fst snd app]; unfold Rsum at 1 2; cbn [map fold_right gain loss];
    rewrite ?G1, ?L1, ?G2, ?L2, ?G3, ?L3, ?G4, ?L4, ?G5, ?L5, ?G6, ?L6, ?G7, ?L7, ?G8, ?L8, ?G9, ?L9; change (num (RP Rpar)) with R in *; lra.
Qed.
Print Assumptions C91_strict.

(** The hypotheses of C91_temporal and C91_spatial hold of the same data (any p): both comparisons apply. *)
Example C91_nonvacuous : forall p : R, exists v t x u y w z, dv2_of RA pr_d pr_ps = Ok v /\ well_built (dv_meta v) /\ d_best RA t (dv_meta v) p = Ok x /\
  vget t 2 = Ok u /\ o_best RA u p = Ok y /\ node_cover (m_leaves (dv_meta v)) (m_parents (dv_meta v)) [2] /\ vlen w = 3 /\ h_best RA w (dv_meta v) p = Ok z /\
  no_better p (1 - p) (gain (dn_quality x)) (loss (dn_quality x)) (gain (on_quality y)) (loss (on_quality y)) /\
  no_better p (1 - p) (gain (dn_quality x)) (loss (dn_quality x)) (gain (hn_quality z)) (loss (hn_quality z)).
Proof.
  intro p. destruct pr_tree as [V U]. change RA with (RP Rpar).
  destruct (dv2_data Rpar pr_ps 2 ltac:(cbv; discriminate) pr_d V U ltac:(repeat constructor) ltac:(cbv; split; discriminate)) as (v & E & (M1 & M2 & M3) & M4 & D).
  change (vlen pr_d) with 2 in M1. change (size2 pr_d) with 2 in M4. pose proof D as (_ & Hn & W & _).
  destruct (d_compute_prf Rpar v _ D) as (t & E0 & T). pose proof T as (S0 & F0 & T0). pose proof (wb_hsize _ W) as Eh. rewrite M2 in Eh. change (vlen pr_ps) with 3 in Eh.
  destruct (d_cover_prf (dv_meta v) W (RP Rpar) t (dv_osize v) p Hn S0 F0) as (x & Ex & _).
  destruct (vget_ok _ t 2 ltac:(lia)) as (u & Eu). assert (Su : utm_shape u (dv_osize v)) by (rewrite Forall_forall in F0; apply F0; apply (vget_In _ t 2); exact Eu).
  destruct (C19_ordered_tiles (RP Rpar) u (dv_osize v) p ltac:(lia) Su) as (y & Ey & _).
  set (w := map (fun h => @mkQ (RP Rpar) (dgain (dv_meta v) [pr_d] h 0 (dv_osize v - 1)) (dloss (dv_meta v) [pr_d] h 0 (dv_osize v - 1))) [0; 1; 2]).
  assert (Lw : vlen w = m_hsize (dv_meta v)) by (rewrite Eh; reflexivity). destruct (h_cover_prf (dv_meta v) W ltac:(lia) (RP Rpar) w p Lw) as (z & Ez & _).
  assert (Cr : node_cover (m_leaves (dv_meta v)) (m_parents (dv_meta v)) [2]).
  { rewrite M1, M2. split; [repeat constructor; cbn; tauto|]. split; [intros h [<-|[]]; split; cbv; congruence|]. intros a Ha. exists 2. split; [left; reflexivity|]. split; [|intros h [<-|[]] _; reflexivity].
    assert (a = 0 \/ a = 1) as [->| ->] by (unfold leaf in Ha; lia); apply (climb_sound 3); reflexivity. }
  exists v, t, x, u, y, w, z. split; [exact E|]. do 5 (split; [assumption|]). split; [reflexivity|]. split; [exact Ez|]. split.
  - pose proof (C91_temporal Rpar _ W t _ p x [2] (fun _ => y) Hn S0 F0 Ex Cr) as K. rewrite !Rsum_cons, !Rsum_nil, !Rplus_0_r in K. apply K. intros h [<-|[]]. exists u. auto.
  - apply (C91_spatial Rpar _ W ltac:(lia) t (dv_osize v) p x w z Hn S0 F0 Ex Lw); [|exact Ez]. intros h Hh. rewrite T0 by lia. assert (h = 0 \/ h = 1 \/ h = 2) as [->|[->| ->]] by lia; reflexivity.
Qed.
