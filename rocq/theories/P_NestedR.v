(** * Property C90, for the data frames that R shows: haggregate's partitions are nested, and there are few of them. *)
From Coq Require Import Reals Lra Lia Permutation Sorting.Sorted.
From Verif Require Import Base BaseFacts Arith Quality Utm UtmFacts UtmProofs Hierarchy HierarchyFacts SpecTree SpecParts SpecInfo SpecData SpecShape SpecOverlap SpecSearch SpecR Values Qualities Partitions Partitioners Search RApi
  TreeFacts TreePath LexR HFacts CoverFacts InfoFacts HReal OReal HProofs HQual DataFacts DataCons HDataProofs SearchReal SearchInst P_Search P_Ordered P_OrderedData P_HierData P_SpatioNot P_Shape P_Overlap P_Overlap2
  RFacts P_RApi P_RCurve P_RBest P_Nested.
From Verif Require Import SpecMacro MacroFacts HMacroFacts P_RMacro SpecBest SpecValues ValuesFacts OInfo.

(** Dividing all nodes by the same positive gain and loss keeps a table superadditive. *)
Lemma scaled_super : forall m (t t' : list (quality RA)) (a b : R), well_built m -> vlen t = m_hsize m -> vlen t' = m_hsize m -> (0 < a)%R -> (0 < b)%R ->
  (forall h q, 0 <= h < m_hsize m -> vget t h = Ok q -> vget t' h = Ok (@mkQ RA (gain q / a)%R (loss q / b)%R)) ->
  superadditive (P := Rpar) t m -> superadditive (P := Rpar) t' m.
Proof.
  intros m t t' a b W Lt Lt' Ha Hb S Su h ch qs q Ec Nc Eq Ek.
  assert (Hh : 0 <= h < m_hsize m). { apply vget_inv in Ek. rewrite <- Lt'. exact Ek. }
  pose proof (list_vrepr _ t _ (q_zero RA) Lt) as Rt. set (f := fun i => match vget t i with Ok x => x | _ => q_zero RA end) in *.
  assert (Hc : forall c, In c ch -> 0 <= c < m_hsize m) by (rewrite (kids_children m W) in Ec by exact Hh; injection Ec as <-; intros c Ic; apply (kids_In m W) in Ic; tauto).
  assert (E0 : mmap (vget t) ch = Ok (map f ch)).
  { apply mmap_map. intros c Ic. apply (vrepr_get _ _ _ _ c Rt). apply Hc. exact Ic. }
  assert (E1 : mmap (vget t') ch = Ok (map (fun c => @mkQ RA (gain (f c) / a)%R (loss (f c) / b)%R) ch)).
  { apply mmap_map. intros c Ic. apply S; [apply Hc; exact Ic|]. apply (vrepr_get _ _ _ _ c Rt). apply Hc. exact Ic. }
  change (RP Rpar) with RA in *. rewrite E1 in Eq. injection Eq as <-. pose proof (vrepr_get _ _ _ _ h Rt Hh) as E2. rewrite (S h _ Hh E2) in Ek. injection Ek as <-.
  destruct (Su h ch _ _ Ec Nc E0 E2) as [K1 K2]. rewrite !Rsum_map in *. cbn [gain loss]. change (RP Rpar) with RA in *. 
  assert (D : forall (g : Z -> R) c l, Rsum (fun x => (g x / c)%R) l = (Rsum g l / c)%R).
  { intros g c l. induction l as [|x l IH]; [unfold Rsum; cbn; lra|]. rewrite !Rsum_cons, IH. lra. }
  rewrite (D (fun c => gain (f c))), (D (fun c => loss (f c))). unfold Rdiv. split; apply Rmult_le_compat_r; auto; left; apply Rinv_0_lt_compat; assumption.
Qed.

Theorem C90_r_hier : forall (th : R) (micro : rarray RA) d0 d1 d2 h fuel r, r_cube micro d0 d1 d2 -> r_tree h d0 (vlen h - 1) -> nonneg (ra_data micro) ->
  Rsum gain_of (r_columns micro d0 d1 d2) <> 0%R -> Rsum loss_of (r_columns micro d0 d1 d2) <> 0%R ->
  r_haggregate RA id_num false fuel micro h th = Ok r ->
  vlen (rr_quals r) <= vlen h - d0 + 1 /\
  forall p1 p2, In p1 (map fst (rr_quals r)) -> In p2 (map fst (rr_quals r)) -> (p1 < p2)%R ->
    forall x s g l, In (x, s, g, l) (rows_at RA p1 (rr_parts r)) -> exists z s' g' l', In (z, s', g', l') (rows_at RA p2 (rr_parts r)) /\ below (from0 h) (x - 1) (z - 1).
Proof.
  intros th micro d0 d1 d2 h fuel r C Tr NN G0 L0 E. pose proof E as E'.
  destruct (C59_hier RA id_num (fun _ => True) th irr_RA (real_bisectable _) I I zero_one_RA micro d0 d1 d2 h _ fuel r C Tr E) as ((So & _ & Rg & _) & Tl & m0 & v0 & o & t1 & Em0 & Ev0 & Ec0 & En0 & St & Bx).
  destruct (h_setup RA micro d0 d1 d2 h _ C Tr) as (m & v & t0 & t & q0 & Em & Ev & Sh & W & El & Ep & Ero & Ehs & Ec & En & Lt0 & Lt & Gq & Er0).
  rewrite Em in Em0. injection Em0 as <-. rewrite Ev in Ev0. injection Ev0 as <-. rewrite Ec in Ec0. injection Ec0 as <-. rewrite En in En0. injection En0 as <-.
  pose proof (nested_prf micro d0 d1 d2 C) as Em'. rewrite Em in Em'. inversion Em'; subst m. clear Em'. destruct C as (_ & H0 & H1 & H2 & _). destruct Tr as (V & U0 & Hh).
  assert (Hs : 2 <= m_hsize (hv_meta v)) by lia. assert (Lt' : vlen t = m_hsize (hv_meta v)) by lia.
  pose proof (nested_rect micro d0 d1 d2 ltac:(lia) ltac:(lia)) as R3. pose proof (nested_len micro d0 d1 d2 ltac:(lia)) as L3.
  destruct (size3_rect _ _ d0 d1 d2 L3 H0 H1 R3) as (S1 & S2 & S3).
  assert (D : hdata_ok v (r_columns micro d0 d1 d2)).
  { destruct (hv3_data Rpar (map (fun x => x - 1) h) (vlen h - 1) ltac:(unfold vlen; rewrite map_length; exact Hh) (r_nested micro d0 d1 d2)) as (v' & Ev' & _ & D).
    - rewrite L3. exact V.
    - rewrite L3. exact U0.
    - rewrite S2, S3. exact R3.
    - change (RP Rpar) with RA in *. rewrite Ev in Ev'. inversion Ev'; subst v'. rewrite S2, S3, columns_nested in D by lia. exact D. }
  assert (NS : Forall nonneg (r_columns micro d0 d1 d2)).
  { apply Forall_map, Forall_forall. intros [i j] _. apply Forall_map, Forall_forall. intros x _. apply val_nonneg; auto. }
  assert (Wh : forall f, Rsum (fun c => f (hcells (hv_meta v) c (m_root (hv_meta v)))) (r_columns micro d0 d1 d2) = Rsum f (r_columns micro d0 d1 d2)).
  { intro f. apply Rsum_ext. intros c Hc. f_equal. unfold hcells. rewrite leaves_root, El by auto.
    assert (Lc : vlen c = d0). { apply in_map_iff in Hc. destruct Hc as ([j kk] & <- & _). unfold vlen. rewrite map_length. apply upto_len. lia. }
    rewrite <- Lc. symmetry. apply (list_elt _ 0%R). }
  destruct (h_compute_prf Rpar v _ D) as (t1 & E1 & T0). change (RP Rpar) with RA in *. rewrite Ec in E1. injection E1 as <-.
  pose proof (hdata_len Rpar v _ D) as CL. pose proof (htable_super Rpar (hv_meta v) t0 _ W T0 CL NS) as Su0.
  pose proof (root_node _ W) as Hr. destruct T0 as [_ T0]. change (RP Rpar) with RA in T0. pose proof (T0 _ Hr) as Er.
  unfold hgain, hloss in Er. rewrite !Wh in Er.
  destruct (h_normalize_prf RA (Some v) t0 _ _ W ltac:(lia) Er) as (t2 & E2 & _ & N1 & _). rewrite En in E2. injection E2 as <-.
  assert (Su : superadditive (P := Rpar) t (hv_meta v)).
  { apply (scaled_super _ t0 t (Rsum gain_of (r_columns micro d0 d1 d2)) (Rsum loss_of (r_columns micro d0 d1 d2))); auto; [lia| | | ].
    - assert (0 <= Rsum gain_of (r_columns micro d0 d1 d2))%R; [|lra]. apply Rsum_nonneg. intros c Hc. apply gain_of_nonneg. rewrite Forall_forall in NS. auto.
    - assert (0 <= Rsum loss_of (r_columns micro d0 d1 d2))%R; [|lra]. apply Rsum_nonneg. intros c Hc. apply loss_of_nonneg. rewrite Forall_forall in NS. auto.
    - intros y q Hy Eq. apply (N1 y q); [lia|exact Eq]. }
  split.
  - rewrite Er0, one_RA in E. apply bind_ok in E. destruct E as (st & Es & Ef).
    pose proof (C90_count _ t W Hs Lt' Su th fuel _ 0%R 1%R st ltac:(lra) ltac:(lra) Es) as Cn. rewrite El, Ehs in Cn.
    pose proof (C30_hier_real _ W Hs t Lt' th fuel _ 0%R 1%R st ltac:(lra) Es) as (_ & _ & _ & _ & Kq & _).
    apply bind_ok in Ef. destruct Ef as (po & _ & Ef). apply bind_ok in Ef. destruct Ef as (au & _ & Ef). injection Ef as <-. cbn [rr_quals].
    apply (f_equal (@length R)) in Kq. rewrite map_length in Kq. unfold vlen at 1. rewrite map_length. unfold vlen at 1 in Cn. etransitivity; [|exact Cn]. apply Z.eq_le_incl. f_equal. exact Kq.
  - intros p1 p2 I1 I2 Lp x s g l Ix.
    destruct (Bx p1 I1) as (x1 & B1 & R1). destruct (Bx p2 I2) as (x2 & B2 & R2).
    rewrite one_RA in Rg.
    assert (K1 : (0 <= p1)%R) by (destruct (Rg p1 I1) as [->|[->|[K _]]]; [apply Rle_refl|lra|apply plt_RA in K; left; exact K]).
    assert (K2 : (p2 <= 1)%R) by (destruct (Rg p2 I2) as [->|[->|[_ K]]]; [cbn; lra|apply Rle_refl|apply plt_RA in K; left; exact K]).
    rewrite R1 in Ix. apply in_map_iff in Ix. destruct Ix as (y & Ey & Iy). injection Ey as <- <- <- <-.
    destruct (C90_hier Rpar _ t p1 p2 x1 x2 W Hs Lt' Su (Rpar_plt p1 p2 K1 Lp K2) B1 B2 y Iy) as (z & Iz & Bz).
    exists (hp_h z + 1), (hp_size z), (id_num (gain (hp_quality z))), (id_num (loss (hp_quality z))). split; [rewrite R2; apply in_map_iff; exists z; auto|].
    rewrite !Z.add_simpl_r. rewrite Ep in Bz. exact Bz.
Qed.
Print Assumptions C90_r_hier.

(** The hypotheses hold of concrete data: two leaves, two slices. *)
Example C90_r_nonvacuous : exists r, r_haggregate RA id_num false 11 ex_micro [3; 3; 0] (/ 1000)%R = Ok r /\ vlen (rr_quals r) <= 2 /\
  forall p1 p2, In p1 (map fst (rr_quals r)) -> In p2 (map fst (rr_quals r)) -> (p1 < p2)%R ->
    forall x s g l, In (x, s, g, l) (rows_at RA p1 (rr_parts r)) -> exists z s' g' l', In (z, s', g', l') (rows_at RA p2 (rr_parts r)) /\ below (from0 [3; 3; 0]) (x - 1) (z - 1).
Proof.
  assert (NN : nonneg (ra_data ex_micro)) by (repeat constructor; lra).
  destruct C60_nonvacuous as (C & Tr & _ & _ & (r & E & _) & _). exists r. split; [exact E|].
  assert (S2 : r_columns ex_micro 2 1 2 = [[1; 1]; [1; 0]]%R) by reflexivity.
  assert (G : Rsum gain_of [[1; 1]; [1; 0]]%R = 2%R) by (unfold Rsum; cbn [map fold_right]; rewrite ex_g11, ex_g10; ring).
  assert (Ls : Rsum loss_of [[1; 1]; [1; 0]]%R = 1%R).
  { unfold Rsum; cbn [map fold_right]. unfold loss_of. rewrite ex_g11, ex_g10. change (vlen [1; 1]%R) with 2. change (vlen [1; 0]%R) with 2. rewrite log2_2. unfold total, Rsum. cbn [map fold_right]. ring. }
  apply (C90_r_hier (/ 1000)%R ex_micro 2 1 2 [3; 3; 0] 11 r C Tr NN); try (rewrite S2, ?G, ?Ls; lra). exact E.
Qed.
