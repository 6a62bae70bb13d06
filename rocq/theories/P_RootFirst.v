(** * Property C73: the root not in the last place - the whole is never chosen, and POpt may be left uninitialised. *)
From Coq Require Import Lia Sorting.Sorted Reals Lra Permutation.
From Verif Require Import Base BaseFacts Arith Quality Utm UtmFacts UtmProofs Hierarchy SpecTree TreeFacts HierarchyFacts HierarchyProofs TreeDec SpecParts SpecInfo Values Qualities Partitions Partitioners   TreePath CoverFacts InfoFacts InfoFacts OInfo DataFacts DataCons OProofs HProofs DProofs ODataProofs HDataProofs DDataProofs HQual DQual SpecData SpecValues ValuesFacts ValuesProofs QualInv DegFacts   Search SpecSearch SearchFacts SearchProofs SearchReal SearchInst SearchGet AucData P_Ordered P_Hier P_Spatio P_OrderedData P_Search P_SearchGet P_Session RApi SpecR RFacts P_RApi RDefFacts.
From Verif Require Import SpecMacro RHelpers MacroFacts HMacroFacts P_RCurve P_RMacro SpecBest P_RBest.

(** ** Where the root is not last *)
Lemma frac1 : forall b : R, b <> 0%R -> (b / b + 0)%R = 1%R.
Proof. intros b H. field. exact H. Qed.

Lemma has_leaf : forall L ps r, valid_tree L ps r -> uniform_depth L ps r -> forall h, node ps h -> exists x, leaf L x /\ below ps x h.
Proof.
  intros L ps r V U h Nh. destruct (uniform_well_built _ _ _ V U) as (me & _ & W & E1 & E2 & _). destruct (leavesof L ps h) as [|x xs] eqn:El.
  - exfalso. apply (lv_nonempty me W h); [rewrite (wb_hsize me W), E2; exact Nh|]. rewrite E1, E2. exact El.
  - exists x. destruct (valid_rank _ _ _ V) as [rank Hr]. pose proof (vt_L _ _ _ V). apply (In_leavesof ps rank Hr L ltac:(lia)). rewrite El. left. reflexivity.
Qed.

(** If nodes that come after the root cover all elements with a gain above 1 and a loss below 1, the root is in no result, at no parameter: what is compared is the quality of the whole
    divided by itself with qualities in bits. *)
Theorem C73_root_never : forall (th : R) micro d0 d1 d2 h root fuel r c, r_cube micro d0 d1 d2 -> r_tree h d0 (root - 1) -> r_haggregate RA id_num false fuel micro h th = Ok r ->
  subtree gain_of micro d0 d1 d2 h root <> 0%R -> subtree loss_of micro d0 d1 d2 h root <> 0%R ->
  node_cover d0 (from0 h) (map (fun x => x - 1) c) -> (forall x, In x c -> root < x) ->
  (1 < Rsum (subtree gain_of micro d0 d1 d2 h) c)%R -> (Rsum (subtree loss_of micro d0 d1 d2 h) c < 1)%R ->
  forall p s g l, ~ In (p, (root, s, g, l)) (rr_parts r).
Proof.
  intros th micro d0 d1 d2 h root fuel r c C Tr E NG NL Tc Hc HG HL p s g l Ip.
  destruct (C59_hier RA id_num (fun _ => True) th irr_RA (real_bisectable _) I I zero_one_RA micro d0 d1 d2 h _ fuel r C Tr E) as ((So & _ & Rg & Gr & _) & Tl & _).
  assert (Iq : In p (map fst (rr_quals r))).
  { rewrite Gr in Ip. apply in_concat in Ip. destruct Ip as (l' & I1 & I2). apply in_map_iff in I1. destruct I1 as (p' & <- & I1). apply in_map_iff in I2. destruct I2 as (x & K & _). injection K as -> _. exact I1. }
  assert (Ir : In (root, s, g, l) (rows_at RA p (rr_parts r))).
  { unfold rows_at. apply in_map_iff. exists (p, (root, s, g, l)). split; [reflexivity|]. apply filter_In. split; [exact Ip|]. unfold same. cbn [fst]. rewrite !irr_RA. reflexivity. }
  assert (P01 : (0 <= p <= 1)%R).
  { destruct (Rg p Iq) as [->|[->|[K1 K2]]]; rewrite ?one_RA; [cbn; lra|lra|]. apply plt_RA in K1, K2. rewrite one_RA in K2. cbn in K1. lra. }
  destruct (Tl p Iq) as ((Nd & Nn & Cv) & _ & [g0 l0] & Iq0 & _).
  destruct (C72_hier th micro d0 d1 d2 h root fuel r p g0 l0 C Tr E Iq0 NG NL) as (_ & Eg & El & Op).
  set (rows := rows_at RA p (rr_parts r)) in *. destruct Tr as (V & U & H2).
  assert (Hx : forall x, In x (map (fun '(n, _, _, _) => n) rows) -> x = root).
  { intros x Ix. assert (Ix0 : In (x - 1) (map (fun '(n, _, _, _) => n - 1) rows)). { apply in_map_iff in Ix. destruct Ix as ([[[n a] b] e] & <- & Ix). apply in_map_iff. exists (n, a, b, e). auto. }
    assert (Ir0 : In (root - 1) (map (fun '(n, _, _, _) => n - 1) rows)). { apply in_map_iff. exists (root, s, g, l). auto. }
    pose proof (Nn _ Ix0) as Nx. destruct (has_leaf _ _ _ V U (x - 1) Nx) as (y & Ly & By).
    destruct (Cv y Ly) as (z & Iz & _ & Un). pose proof (Un _ Ix0 By) as E1. assert (Br : below (map (fun x => x - 1) h) y (root - 1)). { apply (vt_reach _ _ _ V). pose proof (vt_L _ _ _ V). unfold leaf, node in *. lia. }
    pose proof (Un _ Ir0 Br). lia. }
  assert (Er : map (fun '(n, _, _, _) => n) rows = [root]).
  { assert (Nd' : NoDup (map (fun '(n, _, _, _) => n) rows)).
    { apply (NoDup_map_inv (fun n => n - 1)). rewrite map_map. erewrite map_ext; [exact Nd|]. intros [[[n a] b] e]. reflexivity. }
    assert (Ir' : In root (map (fun '(n, _, _, _) => n) rows)) by (apply in_map_iff; exists (root, s, g, l); auto).
    destruct (map (fun '(n, _, _, _) => n) rows) as [|a [|b w]]; [destruct Ir'| |].
    - rewrite (Hx a) by (left; auto). reflexivity.
    - exfalso. inversion Nd' as [|? ? Na _]; subst. apply Na. rewrite (Hx a), (Hx b) by (cbn; auto). left. reflexivity. }
  rewrite Er, Rsum_cons, Rsum_nil in Eg, El. unfold relative in Eg, El. rewrite Z.leb_refl in Eg, El.
  pose proof (eq_trans Eg (frac1 _ NG)) as Eg'. pose proof (eq_trans El (frac1 _ NL)) as El'.
  destruct (Op c Tc) as [K _]. rewrite Eg', El' in K.
  rewrite (Rsum_ext _ _ (subtree gain_of micro d0 d1 d2 h) c) in K by (intros x Ix; unfold relative; specialize (Hc x Ix); destruct (Z.leb_spec x root); [lia|reflexivity]).
  rewrite (Rsum_ext _ (fun x => relative root x (subtree loss_of micro d0 d1 d2 h x) _) (subtree loss_of micro d0 d1 d2 h) c) in K by (intros x Ix; unfold relative; specialize (Hc x Ix); destruct (Z.leb_spec x root); [lia|reflexivity]).
  assert (0 <= p * (Rsum (subtree gain_of micro d0 d1 d2 h) c - 1))%R by (apply Rmult_le_pos; lra).
  assert (0 <= (1 - p) * (1 - Rsum (subtree loss_of micro d0 d1 d2 h) c))%R by (apply Rmult_le_pos; lra).
  destruct (Req_dec p 0) as [->|P0]; [lra|]. assert (0 < p * (Rsum (subtree gain_of micro d0 d1 d2 h) c - 1))%R by (apply Rmult_lt_0_compat; lra). lra.
Qed.
Print Assumptions C73_root_never.

(** ** The tables of haggregate and daggregate in terms of the array *)
Lemma hier_table : forall (micro : rarray RA) d0 d1 d2 h root, r_cube micro d0 d1 d2 -> r_tree h d0 (root - 1) ->
  subtree gain_of micro d0 d1 d2 h root <> 0%R -> subtree loss_of micro d0 d1 d2 h root <> 0%R ->
  exists m (t : list (quality RA)), well_built m /\ m_leaves m = d0 /\ m_parents m = from0 h /\ m_hsize m = vlen h /\ vlen t = vlen h /\ 2 <= vlen h /\
    (forall y, 0 <= y < vlen h -> vget t y = Ok (@mkQ RA (relative root (y + 1) (subtree gain_of micro d0 d1 d2 h (y + 1)) (subtree gain_of micro d0 d1 d2 h root))
                                                       (relative root (y + 1) (subtree loss_of micro d0 d1 d2 h (y + 1)) (subtree loss_of micro d0 d1 d2 h root)))) /\
    forall rd strict fuel th, r_haggregate RA rd strict fuel micro h th =
      (let* st := h_search RA strict fuel t m (ps_empty RA) th (p_zero RA) (p_one RA) in r_frames RA rd (h_row RA rd) st).
Proof.
  intros micro d0 d1 d2 h root C Tr NG NL.
  destruct (h_setup RA micro d0 d1 d2 h _ C Tr) as (m & v & t0 & t & q0 & Em & Ev & Sh & W & El & Ep & Ero & Ehs & Ec & En & Lt0 & Lt & _ & Er0).
  pose proof (nested_prf micro d0 d1 d2 C) as Em'. rewrite Em in Em'. injection Em' as ->. pose proof C as (_ & H0 & H1 & H2 & _). destruct Tr as (V & U0 & Hh).
  pose proof (nested_rect micro d0 d1 d2 ltac:(lia) ltac:(lia)) as R3. pose proof (nested_len micro d0 d1 d2 ltac:(lia)) as L3.
  destruct (size3_rect _ _ d0 d1 d2 L3 H0 H1 R3) as (S1 & S2 & S3).
  assert (D : hdata_ok v (r_columns micro d0 d1 d2)).
  { destruct (hv3_data Rpar (map (fun x => x - 1) h) (root - 1) ltac:(unfold vlen; rewrite map_length; exact Hh) (r_nested micro d0 d1 d2)) as (v' & Ev' & _ & D).
    - rewrite L3. exact V.
    - rewrite L3. exact U0.
    - rewrite S2, S3. exact R3.
    - change (RP Rpar) with RA in *. rewrite Ev in Ev'. injection Ev' as <-. rewrite S2, S3, columns_nested in D by lia. exact D. }
  destruct (h_compute_prf Rpar v _ D) as (t1 & E1 & T0). change (RP Rpar) with RA in *. rewrite Ec in E1. injection E1 as <-. destruct T0 as [_ T0]. change (RP Rpar) with RA in T0.
  pose proof (root_node _ W) as Hr. rewrite Ero in Hr.
  assert (TV : forall y, 0 <= y < vlen h -> vget t0 y = Ok (@mkQ RA (subtree gain_of micro d0 d1 d2 h (y + 1)) (subtree loss_of micro d0 d1 d2 h (y + 1)))).
  { intros y Hy. rewrite (T0 y) by lia. unfold hgain, hloss. rewrite !(hier_block _ micro d0 d1 d2 h) by auto. reflexivity. }
  assert (Er : vget t0 (m_root (hv_meta v)) = Ok (@mkQ RA (subtree gain_of micro d0 d1 d2 h root) (subtree loss_of micro d0 d1 d2 h root))).
  { rewrite Ero, TV by lia. replace (root - 1 + 1) with root by lia. reflexivity. }
  destruct (h_normalize_prf RA (Some v) t0 _ _ W ltac:(lia) Er) as (t2 & E2 & _ & N1 & N2). rewrite En in E2. injection E2 as <-. rewrite Ero in N1, N2.
  exists (hv_meta v), t. repeat (split; [assumption || lia|]). split; [|exact Er0].
  intros y Hy. unfold relative. destruct (Z.leb_spec (y + 1) root) as [Le|Gt].
  - rewrite (N1 y _ ltac:(lia) (TV y Hy)). reflexivity.
  - rewrite (N2 y _ ltac:(lia) (TV y Hy)). cbn [gain loss]. change (n_div RA) with Rdiv. rewrite !one_div by assumption. reflexivity.
Qed.

Lemma subtree_nonneg : forall f (micro : rarray RA) d0 d1 d2 h x, (forall l, nonneg l -> (0 <= f l)%R) -> nonneg (ra_data micro) -> (0 <= subtree f micro d0 d1 d2 h x)%R.
Proof.
  intros f micro d0 d1 d2 h x Hf NN. apply Rsum_nonneg. intros [j k] _. apply Hf. apply Forall_map, Forall_forall. intros i _. apply val_nonneg; auto.
Qed.

Lemma relative_nonneg : forall root x v w, (0 <= v)%R -> (0 <= w)%R -> w <> 0%R -> (0 <= relative root x v w)%R.
Proof.
  intros root x v w Hv Hw Nw. unfold relative. destruct (x <=? root); [|exact Hv]. apply Rmult_le_pos; [exact Hv|]. apply Rlt_le, Rinv_0_lt_compat. lra.
Qed.

Lemma Rsum_incl : forall X (dec : forall a b : X, {a = b} + {a <> b}) (f : X -> R) l m, NoDup l -> NoDup m -> (forall x, In x l -> In x m) -> (forall x, In x m -> 0 <= f x)%R -> (Rsum f l <= Rsum f m)%R.
Proof.
  intros X dec f l m Nl Nm H Hf.
  assert (P : Permutation l (filter (fun x => if in_dec dec x l then true else false) m)).
  { apply NoDup_Permutation; [exact Nl|apply NoDup_filter; exact Nm|]. intro x. rewrite filter_In. destruct (in_dec dec x l); split; intros K; try tauto; auto. destruct K as [_ K]. discriminate. }
  rewrite (Rsum_perm _ _ _ _ P), Rsum_filter. apply Rsum_le. intros x Ix. destruct (in_dec dec x l); [lra|auto].
Qed.

Lemma Rsum_ge_one : forall X (f : X -> R) l x, (forall y, In y l -> 0 <= f y)%R -> In x l -> (f x <= Rsum f l)%R.
Proof.
  intros X f l x H I. induction l as [|y l IH]; [destruct I|]. rewrite Rsum_cons. assert (0 <= Rsum f l)%R by (apply Rsum_nonneg; intros; apply H; right; auto). assert (0 <= f y)%R by (apply H; left; auto).
  destruct I as [->|I]; [lra|]. assert (f x <= Rsum f l)%R by (apply IH; auto; intros; apply H; right; auto). lra.
Qed.

Lemma score_large : forall q : quality RA, (46342 < gain q)%R -> n_leb RA (s_score RA q) (n_ofZ RA RAND_MAX) = false.
Proof.
  intros q H. unfold s_score. cbn [n_leb n_sub n_mul n_add n_one n_ofZ RA RP]. unfold RAND_MAX. change (num RA) with R in *.
  set (g := gain q) in *. set (l := loss q) in *. change (num RA) with R in g, l.
  assert (0 <= l * l)%R by (apply Rle_0_sqr). assert (46341 * 46341 < (g - 1) * (g - 1))%R by (apply Rmult_le_0_lt_compat; lra).
  unfold Rleb. destruct (Rle_dec _ _) as [K|K]; [exfalso|reflexivity]. lra.
Qed.

(** ** Hierarchical: POpt is never set when the children of the root all come after it, the elements below each are equal and their gain (in bits) is large. *)
Theorem C73_hier_undefined : forall (th : R) (micro : rarray RA) d0 d1 d2 h root c, r_cube micro d0 d1 d2 -> r_tree h d0 (root - 1) -> nonneg (ra_data micro) ->
  subtree gain_of micro d0 d1 d2 h root <> 0%R -> subtree loss_of micro d0 d1 d2 h root <> 0%R ->
  node_cover d0 (from0 h) (map (fun x => x - 1) c) -> (forall x, In x c -> root < x /\ vget h (x - 1) = Ok root /\ subtree loss_of micro d0 d1 d2 h x = 0%R) ->
  (46342 < Rsum (subtree gain_of micro d0 d1 d2 h) c)%R ->
  (forall fuel r, r_haggregate RA id_num false fuel micro h th <> Ok r) /\
  (forall k, (1 <= th * 2 ^ k)%R -> r_haggregate RA id_num false (S k) micro h th = UB).
Proof.
  intros th micro d0 d1 d2 h root c C Tr NN NG NL Tc Hc HG.
  destruct (hier_table micro d0 d1 d2 h root C Tr NG NL) as (m & t & W & El & Ep & Ehs & Lt & H2 & TT & Er).
  set (G := fun x => relative root x (subtree gain_of micro d0 d1 d2 h x) (subtree gain_of micro d0 d1 d2 h root)) in *.
  set (L := fun x => relative root x (subtree loss_of micro d0 d1 d2 h x) (subtree loss_of micro d0 d1 d2 h root)) in *.
  assert (TT' : forall y, 0 <= y < vlen h -> vget t y = Ok (@mkQ RA (G (y + 1)) (L (y + 1)))) by exact TT.
  assert (G0 : forall x, (0 <= G x)%R) by (intro x; apply relative_nonneg; auto; apply subtree_nonneg; auto using gain_of_nonneg).
  assert (L0 : forall x, (0 <= L x)%R) by (intro x; apply relative_nonneg; auto; apply subtree_nonneg; auto using loss_of_nonneg).
  assert (Gc : Rsum G c = Rsum (subtree gain_of micro d0 d1 d2 h) c).
  { apply Rsum_ext. intros x Ix. destruct (Hc x Ix) as (K & _). unfold G, relative. destruct (Z.leb_spec x root); [lia|reflexivity]. }
  assert (Lc : Rsum L c = 0%R).
  { apply Rsum_zero. intros x Ix. destruct (Hc x Ix) as (K & _ & K2). unfold L, relative. destruct (Z.leb_spec x root); [lia|exact K2]. }
  assert (Hs : 2 <= m_hsize m) by lia. assert (Lt' : vlen t = m_hsize m) by lia. destruct Tr as (V & U & _).
  assert (Bq : forall p x, (0 <= p <= 1)%R -> h_best RA t m p = Ok x -> (46342 < gain (hn_quality x))%R).
  { intros p x Hp Ex. destruct (C22_hier _ W Hs RA t p x Lt' Ex) as (Qx & Gx & Lx). destruct (C20_hier_cover _ W Hs RA t p Lt') as (x' & Ex' & _ & (Nd & Nx & Cv) & _). rewrite Ex in Ex'. injection Ex' as <-.
    rewrite Ep in Nx, Cv. rewrite El in Cv.
    assert (Qv : forall y, In y (hn_parts x) -> hp_quality y = @mkQ RA (G (hp_h y + 1)) (L (hp_h y + 1))).
    { intros y Iy. pose proof (Nx (hp_h y) (in_map hp_h _ _ Iy)) as B. unfold node, from0, vlen in B. rewrite map_length in B. pose proof (Qx y Iy) as K. rewrite TT' in K by (unfold vlen; lia). injection K as <-. reflexivity. }
    assert (Gs : gain (hn_quality x) = Rsum (fun y => G (hp_h y + 1)) (hn_parts x)). { rewrite Gx. etransitivity; [apply fold_Rsum|]. apply Rsum_ext. intros y Iy. rewrite (Qv y Iy). reflexivity. }
    assert (Ls : loss (hn_quality x) = Rsum (fun y => L (hp_h y + 1)) (hn_parts x)). { rewrite Lx. etransitivity; [apply fold_Rsum|]. apply Rsum_ext. intros y Iy. rewrite (Qv y Iy). reflexivity. }
    assert (Mc : mmap (vget t) (map (fun k => k - 1) c) = Ok (map (fun k => @mkQ RA (G k) (L k)) c)).
    { rewrite mmap_comp. apply mmap_map. intros y Ic. destruct Tc as (_ & Nc & _). pose proof (Nc _ (in_map (fun k => k - 1) _ _ Ic)) as B. unfold node, from0, vlen in B. rewrite map_length in B. rewrite TT' by (unfold vlen; lia). replace (y - 1 + 1) with y by lia. reflexivity. }
    assert (Tc' : node_cover (m_leaves m) (m_parents m) (map (fun k => k - 1) c)) by (rewrite El, Ep; exact Tc).
    pose proof (C24_hier_optimal_real _ W Hs t p x _ _ Lt' Ex Tc' Mc) as [Op Oe]. rewrite !Rsum_map in Op, Oe. cbn [gain loss] in Op, Oe.
    change (num RA) with R in *.
    change (Rsum (fun x0 : Z => G x0) c) with (Rsum G c) in *. change (Rsum (fun x0 : Z => L x0) c) with (Rsum L c) in *. rewrite Gc, Lc in Op, Oe.
    assert (Ln : (0 <= loss (hn_quality x))%R) by (rewrite Ls; apply Rsum_nonneg; intros y _; apply L0).
    set (g := gain (hn_quality x)) in *. set (l := loss (hn_quality x)) in *. change (num RA) with R in g, l. set (S := Rsum (subtree gain_of micro d0 d1 d2 h) c) in *.
    assert (Pl : (0 <= (1 - p) * l)%R) by (apply Rmult_le_pos; lra).
    destruct (Req_dec p 0) as [->|P0].
    - assert (l0 : l = 0%R) by lra. specialize (Oe ltac:(lra)).
      assert (Ic : forall y, In y c -> In y (map (fun y => hp_h y + 1) (hn_parts x))).
      { intros y Iy. destruct (Oe (y - 1) (in_map (fun k => k - 1) _ _ Iy)) as (z & Iz & Bz). rewrite Ep in Bz. destruct (Hc y Iy) as (K1 & K2 & _).
        apply in_map_iff. exists z. split; [|exact Iz].
        inversion Bz as [b Eb|a b N1 B1 Ea Eb]; subst.
        - lia.
        - exfalso. assert (Pr : parent (from0 h) (y - 1) = root - 1). { unfold parent, from0. rewrite (vget_map _ _ _ _ _ _ K2). reflexivity. }
          rewrite Pr in B1. assert (Ez : hp_h z = root - 1). { inversion B1 as [b Eb|a b N2 B2 Ea Eb]; subst; auto. exfalso. apply N2. exact (vt_rootp _ _ _ V). }
          assert (Lz : (L (hp_h z + 1)%Z <= l)%R).
          { rewrite Ls. apply (Rsum_ge_one _ (fun y => L (hp_h y + 1))); auto. }
          rewrite Ez in Lz. replace (root - 1 + 1) with root in Lz by lia. unfold L, relative in Lz. rewrite Z.leb_refl in Lz. unfold Rdiv in Lz. rewrite Rinv_r in Lz by exact NL. lra. }
      assert (Ndc : NoDup c) by (destruct Tc as (Nc & _); apply NoDup_map_inv in Nc; exact Nc).
      assert (Ndp : NoDup (map (fun y => hp_h y + 1) (hn_parts x))).
      { apply (NoDup_map_inv (fun z => z - 1)). rewrite map_map. rewrite (map_ext _ hp_h) by (intro; lia). exact Nd. }
      pose proof (Rsum_incl _ Z.eq_dec G c _ Ndc Ndp Ic (fun x _ => G0 x)) as K. rewrite Rsum_map in K. rewrite Gc in K. rewrite Gs. fold S in K. apply (Rlt_le_trans _ S); [exact HG|exact K].
    - assert (p * S <= p * g)%R by lra. assert (S <= g)%R by (apply (Rmult_le_reg_l p); lra). lra. }
  assert (Key : forall fuel st, h_search RA false fuel t m (ps_empty RA) th (p_zero RA) (p_one RA) = Ok st -> r_frames RA id_num (h_row RA id_num) st = UB).
  { intros fuel st Es. rewrite one_RA in Es. pose proof (C30_hier_real _ W Hs t Lt' th fuel _ 0%R 1%R st ltac:(lra) Es) as (_ & _ & Rg & _ & Kq & _ & Qs).
    apply frames_ub. intros p q Iq. destruct (Qs p q Iq) as (x & Ex & ->). apply score_large. apply (Bq p x); [|exact Ex].
    assert (Ip : In p (ps_list st)) by (rewrite <- Kq; apply (in_map fst _ _ Iq)). destruct (Rg p Ip) as [->|[->|[K1 K2]]]; try lra. apply plt_RA in K1, K2. lra. }
  split.
  - intros fuel r E. rewrite Er in E. apply bind_ok in E. destruct E as (st & Es & Ef). rewrite (Key fuel st Es) in Ef. discriminate.
  - intros k Hk. rewrite Er. destruct (C33_hier _ W Hs t Lt' th 0%R 1%R k (ps_empty RA) ltac:(lra) ltac:(lra)) as (st & Es). rewrite <- one_RA in Es.
    match goal with |- bind ?e _ = _ => replace e with (@Ok _ st) by (symmetry; exact Es) end. cbn [bind]. exact (Key _ st Es).
Qed.
Print Assumptions C73_hier_undefined.

(** ** Spatiotemporal *)
Lemma spatio_table : forall (micro : rarray RA) d0 d1 d2 h root, r_cube micro d0 d1 d2 -> d2 <= 65535 -> r_tree h d0 (root - 1) ->
  rectangle gain_of micro d0 d1 h root 1 d2 <> 0%R -> rectangle loss_of micro d0 d1 h root 1 d2 <> 0%R ->
  exists m (t : list (utm (quality RA))), well_built m /\ m_leaves m = d0 /\ m_parents m = from0 h /\ m_hsize m = vlen h /\ vlen t = vlen h /\ Forall (fun u => utm_shape u d2) t /\
    (forall y i j, 0 <= y < vlen h -> 0 <= i <= j -> j < d2 -> mm_get t y i j =
       Ok (@mkQ RA (relative root (y + 1) (rectangle gain_of micro d0 d1 h (y + 1) (i + 1) (j + 1)) (rectangle gain_of micro d0 d1 h root 1 d2))
                   (relative root (y + 1) (rectangle loss_of micro d0 d1 h (y + 1) (i + 1) (j + 1)) (rectangle loss_of micro d0 d1 h root 1 d2)))) /\
    forall rd strict fuel th, r_daggregate RA rd strict fuel micro h th =
      (let* st := d_search RA strict fuel t m (ps_empty RA) th (p_zero RA) (p_one RA) in r_frames RA rd (d_row RA rd) st).
Proof.
  intros micro d0 d1 d2 h root C Hn Tr NG NL.
  destruct (d_setup RA micro d0 d1 d2 h _ C Hn Tr) as (m & v & t0 & t & q0 & Em & Ev & Sh & Eo & W & El & Ep & Ero & Ehs & Ec & En & (Lt0 & Ft0) & (Lt & Ft) & _ & Er0).
  pose proof (nested_prf micro d0 d1 d2 C) as Em'. rewrite Em in Em'. injection Em' as ->. pose proof C as (_ & H0 & H1 & H2 & _). destruct Tr as (V & U0 & Hh).
  pose proof (nested_rect micro d0 d1 d2 ltac:(lia) ltac:(lia)) as R3. pose proof (nested_len micro d0 d1 d2 ltac:(lia)) as L3.
  destruct (size3_rect _ _ d0 d1 d2 L3 H0 H1 R3) as (S1 & S2 & S3). set (comps := columns [] d1 (r_nested micro d0 d1 d2)).
  assert (D : ddata_ok v comps).
  { destruct (dv3_data Rpar (map (fun x => x - 1) h) (root - 1) ltac:(unfold vlen; rewrite map_length; exact Hh) (r_nested micro d0 d1 d2)) as (v' & Ev' & _ & _ & D).
    - rewrite L3. exact V.
    - rewrite L3. exact U0.
    - rewrite S2, S3. exact R3.
    - rewrite S3. lia.
    - change (RP Rpar) with RA in *. rewrite Ev in Ev'. injection Ev' as <-. rewrite S2 in D. exact D. }
  assert (Cd : comps = map (fun j => map (fun i => map (fun kk => r_val micro i j kk) (upto d2)) (upto d0)) (upto d1)).
  { apply (columns_swap _ _ _ [] (fun i j => map (fun kk => r_val micro i j kk) (upto d2))). apply upto_len. lia. }
  destruct (d_compute_prf Rpar v _ D) as (t1 & E1 & T0). change (RP Rpar) with RA in *. rewrite Ec in E1. injection E1 as <-. destruct T0 as (_ & _ & T0). change (RP Rpar) with RA in T0.
  pose proof (root_node _ W) as Hr. rewrite Ero in Hr.
  assert (TV : forall y i j, 0 <= y < vlen h -> 0 <= i <= j -> j < d2 -> mm_get t0 y i j = Ok (@mkQ RA (rectangle gain_of micro d0 d1 h (y + 1) (i + 1) (j + 1)) (rectangle loss_of micro d0 d1 h (y + 1) (i + 1) (j + 1)))).
  { intros y i j Hy Hi Hj. rewrite (T0 y i j) by lia. unfold dgain, dloss. rewrite Cd, !(spatio_block _ micro d0 d1 d2 h) by auto. reflexivity. }
  assert (Er : mm_get t0 (m_root (dv_meta v)) 0 (dv_osize v - 1) = Ok (@mkQ RA (rectangle gain_of micro d0 d1 h root 1 d2) (rectangle loss_of micro d0 d1 h root 1 d2))).
  { rewrite Ero, Eo, TV by lia. replace (root - 1 + 1) with root by lia. replace (d2 - 1 + 1) with d2 by lia. reflexivity. }
  destruct (d_normalize_prf RA v t0 _ _ W ltac:(lia) ltac:(lia) ltac:(rewrite Eo; exact Ft0) Er) as (t2 & E2 & _ & _ & N1 & N2). rewrite En in E2. injection E2 as <-. rewrite Ero, ?Eo in N1, N2.
  exists (dv_meta v), t. repeat (split; [assumption || lia|]). split; [|exact Er0].
  intros y i j Hy Hi Hj. unfold relative. destruct (Z.leb_spec (y + 1) root) as [Le|Gt].
  - rewrite (N1 y i j _ ltac:(lia) ltac:(lia) ltac:(lia) (TV y i j Hy Hi Hj)). reflexivity.
  - rewrite (N2 y i j _ ltac:(lia) ltac:(lia) ltac:(lia) (TV y i j Hy Hi Hj)). cbn [gain loss]. change (n_div RA) with Rdiv. rewrite !one_div by assumption. reflexivity.
Qed.

Lemma rectangle_nonneg : forall f (micro : rarray RA) d0 d1 h x s e, (forall l, nonneg l -> (0 <= f l)%R) -> nonneg (ra_data micro) -> (0 <= rectangle f micro d0 d1 h x s e)%R.
Proof.
  intros f micro d0 d1 h x s e Hf NN. apply Rsum_nonneg. intros j _. apply Hf. apply Forall_forall. intros y K. apply in_flat_map in K. destruct K as (i & _ & K). apply in_map_iff in K. destruct K as (k & <- & _). apply val_nonneg; auto.
Qed.

(** If rectangles of nodes that come after the root cover all cells with a gain above 1 and a loss below 1, the whole is in no result, at no parameter. *)
Theorem C73_spatio_never : forall (th : R) micro d0 d1 d2 h root fuel r c, r_cube micro d0 d1 d2 -> d2 <= 65535 -> r_tree h d0 (root - 1) -> r_daggregate RA id_num false fuel micro h th = Ok r ->
  rectangle gain_of micro d0 d1 h root 1 d2 <> 0%R -> rectangle loss_of micro d0 d1 h root 1 d2 <> 0%R ->
  let c0 := map (fun '(x, s, e) => (x - 1, s - 1, e - 1)) c in rect_cover d0 (from0 h) d2 c0 -> never_up d0 (from0 h) c0 -> (forall x s e, In (x, s, e) c -> root < x) ->
  (1 < Rsum (fun '(x, s, e) => rectangle gain_of micro d0 d1 h x s e) c)%R -> (Rsum (fun '(x, s, e) => rectangle loss_of micro d0 d1 h x s e) c < 1)%R ->
  forall p z g l, ~ In (p, (root, z, 1, d2, g, l)) (rr_parts r).
Proof.
  intros th micro d0 d1 d2 h root fuel r c C Hn Tr E NG NL c0 Tc Nc Hc HG HL p z g l Ip.
  destruct (C59_spatio RA id_num (fun _ => True) th irr_RA (real_bisectable _) I I zero_one_RA micro d0 d1 d2 h _ fuel r C Hn Tr E) as ((So & _ & Rg & Gr & _) & Tl & _).
  assert (Iq : In p (map fst (rr_quals r))).
  { rewrite Gr in Ip. apply in_concat in Ip. destruct Ip as (l' & I1 & I2). apply in_map_iff in I1. destruct I1 as (p' & <- & I1). apply in_map_iff in I2. destruct I2 as (x & K & _). injection K as -> _. exact I1. }
  assert (Ir : In (root, z, 1, d2, g, l) (rows_at RA p (rr_parts r))).
  { unfold rows_at. apply in_map_iff. exists (p, (root, z, 1, d2, g, l)). split; [reflexivity|]. apply filter_In. split; [exact Ip|]. unfold same. cbn [fst]. rewrite !irr_RA. reflexivity. }
  assert (P01 : (0 <= p <= 1)%R).
  { destruct (Rg p Iq) as [->|[->|[K1 K2]]]; rewrite ?one_RA; [cbn; lra|lra|]. apply plt_RA in K1, K2. rewrite one_RA in K2. cbn in K1. lra. }
  destruct (Tl p Iq) as ((Nd & Nn & Cv) & _ & [g0 l0] & Iq0 & _).
  destruct (C72_spatio th micro d0 d1 d2 h root fuel r p g0 l0 C Hn Tr E Iq0 NG NL) as (_ & _ & Eg & El & Op).
  set (rows := rows_at RA p (rr_parts r)) in *. destruct Tr as (V & U & H2).
  assert (Ir0 : In (root - 1, 1 - 1, d2 - 1) (map (fun '(n, _, s, e, _, _) => (n - 1, s - 1, e - 1)) rows)). { apply in_map_iff. exists (root, z, 1, d2, g, l). auto. }
  assert (Hx : forall k, In k (map (fun '(n, _, s, e, _, _) => (n, s, e)) rows) -> k = (root, 1, d2)).
  { intros [[n s] e] Ix. assert (Ix0 : In (n - 1, s - 1, e - 1) (map (fun '(n, _, s, e, _, _) => (n - 1, s - 1, e - 1)) rows)).
    { apply in_map_iff in Ix. destruct Ix as ([[[[[n' a] s'] e'] b] b'] & K & Ix). injection K as <- <- <-. apply in_map_iff. exists (n', a, s', e', b, b'). auto. }
    destruct (Nn _ _ _ Ix0) as (Nx & B1 & B2). destruct (has_leaf _ _ _ V U (n - 1) Nx) as (y & Ly & By).
    destruct (Cv y (s - 1) Ly ltac:(lia)) as (n1 & a & b & Iz & _ & _ & Un). pose proof (Un _ _ _ Ix0 By ltac:(lia)) as E1. assert (Br : below (map (fun x => x - 1) h) y (root - 1)). { apply (vt_reach _ _ _ V). pose proof (vt_L _ _ _ V). unfold leaf, node in *. lia. }
    pose proof (Un _ _ _ Ir0 Br ltac:(lia)) as E2. rewrite <- E2 in E1. injection E1 as E3 E4 E5. replace n with root by lia. replace s with 1 by lia. replace e with d2 by lia. reflexivity. }
  assert (Er : map (fun '(n, _, s, e, _, _) => (n, s, e)) rows = [(root, 1, d2)]).
  { assert (Nd' : NoDup (map (fun '(n, _, s, e, _, _) => (n, s, e)) rows)).
    { apply (NoDup_map_inv (fun '(n, s, e) => (n - 1, s - 1, e - 1))). rewrite map_map. erewrite map_ext; [exact Nd|]. intros [[[[[n a] b] e] b1] b2]. reflexivity. }
    assert (Ir' : In (root, 1, d2) (map (fun '(n, _, s, e, _, _) => (n, s, e)) rows)) by (apply in_map_iff; exists (root, z, 1, d2, g, l); auto).
    destruct (map (fun '(n, _, s, e, _, _) => (n, s, e)) rows) as [|a [|b w]]; [destruct Ir'| |].
    - rewrite (Hx a) by (left; auto). reflexivity.
    - exfalso. inversion Nd' as [|? ? Na _]; subst. apply Na. rewrite (Hx a), (Hx b) by (cbn; auto). left. reflexivity. }
  rewrite Er, Rsum_cons, Rsum_nil in Eg, El. unfold relative in Eg, El. rewrite Z.leb_refl in Eg, El.
  pose proof (eq_trans Eg (frac1 _ NG)) as Eg'. pose proof (eq_trans El (frac1 _ NL)) as El'.
  pose proof (Op c Tc Nc) as K. rewrite Eg', El' in K.
  rewrite (Rsum_ext _ _ (fun '(x, s, e) => rectangle gain_of micro d0 d1 h x s e) c) in K by (intros [[x s] e] Ix; unfold relative; specialize (Hc x s e Ix); destruct (Z.leb_spec x root); [lia|reflexivity]).
  rewrite (Rsum_ext _ (fun '(x, s, e) => relative root x (rectangle loss_of micro d0 d1 h x s e) _) (fun '(x, s, e) => rectangle loss_of micro d0 d1 h x s e) c) in K by (intros [[x s] e] Ix; unfold relative; specialize (Hc x s e Ix); destruct (Z.leb_spec x root); [lia|reflexivity]).
  set (SG := Rsum (fun '(x, s, e) => rectangle gain_of micro d0 d1 h x s e) c) in *. set (SL := Rsum (fun '(x, s, e) => rectangle loss_of micro d0 d1 h x s e) c) in *.
  assert (0 <= p * (SG - 1))%R by (apply Rmult_le_pos; lra).
  assert (0 <= (1 - p) * (1 - SL))%R by (apply Rmult_le_pos; lra). unfold no_better in K.
  destruct (Req_dec p 0) as [->|P0]; [lra|]. assert (0 < p * (SG - 1))%R by (apply Rmult_lt_0_compat; lra). lra.
Qed.
Print Assumptions C73_spatio_never.

(** POpt is never set when such rectangles have no loss and a large gain (in bits). *)
Theorem C73_spatio_undefined : forall (th : R) (micro : rarray RA) d0 d1 d2 h root c, r_cube micro d0 d1 d2 -> d2 <= 65535 -> r_tree h d0 (root - 1) -> nonneg (ra_data micro) ->
  rectangle gain_of micro d0 d1 h root 1 d2 <> 0%R -> rectangle loss_of micro d0 d1 h root 1 d2 <> 0%R ->
  let c0 := map (fun '(x, s, e) => (x - 1, s - 1, e - 1)) c in rect_cover d0 (from0 h) d2 c0 -> never_up d0 (from0 h) c0 ->
  (forall x s e, In (x, s, e) c -> root < x /\ rectangle loss_of micro d0 d1 h x s e = 0%R) ->
  (46342 < Rsum (fun '(x, s, e) => rectangle gain_of micro d0 d1 h x s e) c)%R ->
  (forall fuel r, r_daggregate RA id_num false fuel micro h th <> Ok r) /\
  (forall k, (1 <= th * 2 ^ k)%R -> r_daggregate RA id_num false (S k) micro h th = UB).
Proof.
  intros th micro d0 d1 d2 h root c C Hn Tr NN NG NL c0 Tc Nc Hc HG.
  destruct (spatio_table micro d0 d1 d2 h root C Hn Tr NG NL) as (m & t & W & El & Ep & Ehs & Lt & Ft & TT & Er).
  set (G := fun '(x, s, e) => relative root x (rectangle gain_of micro d0 d1 h x s e) (rectangle gain_of micro d0 d1 h root 1 d2)).
  set (L := fun '(x, s, e) => relative root x (rectangle loss_of micro d0 d1 h x s e) (rectangle loss_of micro d0 d1 h root 1 d2)).
  assert (TT' : forall y i j, 0 <= y < vlen h -> 0 <= i <= j -> j < d2 -> mm_get t y i j = Ok (@mkQ RA (G (y + 1, i + 1, j + 1)) (L (y + 1, i + 1, j + 1)))) by exact TT.
  assert (L0 : forall k, (0 <= L k)%R) by (intros [[x s] e]; apply relative_nonneg; auto; apply rectangle_nonneg; auto using loss_of_nonneg).
  assert (Gc : Rsum G c = Rsum (fun '(x, s, e) => rectangle gain_of micro d0 d1 h x s e) c).
  { apply Rsum_ext. intros [[x s] e] Ix. destruct (Hc x s e Ix) as (K & _). unfold G, relative. destruct (Z.leb_spec x root); [lia|reflexivity]. }
  assert (Lc : Rsum L c = 0%R).
  { apply Rsum_zero. intros [[x s] e] Ix. destruct (Hc x s e Ix) as (K & K2). unfold L, relative. destruct (Z.leb_spec x root); [lia|exact K2]. }
  assert (Lt' : vlen t = m_hsize m) by lia. assert (Hn' : 1 <= d2 <= 65535) by (destruct C as (_ & _ & _ & C2 & _); lia). destruct Tr as (V & U & _).
  assert (Bq : forall p x, (0 <= p <= 1)%R -> d_best RA t m p = Ok x -> (46342 < gain (dn_quality x))%R).
  { intros p x Hp Ex. destruct (C22_spatio _ W RA t d2 p x Hn' Lt' Ft Ex) as (Qx & Gx & Lx). destruct (C21_spatio_cover _ W RA t d2 p Hn' Lt' Ft) as (x' & Ex' & _ & (_ & Rx & _) & _). rewrite Ex in Ex'. injection Ex' as <-.
    assert (Qv : forall y, In y (dn_parts x) -> dp_quality y = @mkQ RA (G (dp_h y + 1, dp_start y + 1, dp_end y + 1)) (L (dp_h y + 1, dp_start y + 1, dp_end y + 1))).
    { intros y Iy. destruct (Rx _ _ _ (in_map (fun y => (dp_h y, dp_start y, dp_end y)) _ _ Iy)) as (B1 & B2 & B3). unfold node in B1. rewrite Ep in B1. unfold from0, vlen in B1. rewrite map_length in B1. pose proof (Qx y Iy) as K. rewrite TT' in K by (unfold vlen; lia). injection K as <-. reflexivity. }
    assert (Ls : loss (dn_quality x) = Rsum (fun y => L (dp_h y + 1, dp_start y + 1, dp_end y + 1)) (dn_parts x)). { rewrite Lx. etransitivity; [apply fold_Rsum|]. apply Rsum_ext. intros y Iy. rewrite (Qv y Iy). reflexivity. }
    assert (Mc : mmap (fun '(h, a, b) => mm_get t h a b) c0 = Ok (map (fun k => @mkQ RA (G k) (L k)) c)).
    { unfold c0. rewrite mmap_comp. apply mmap_map. intros [[y s] e] Ic. destruct Tc as (_ & Nr & _). destruct (Nr _ _ _ (in_map (fun '(x, s, e) => (x - 1, s - 1, e - 1)) _ _ Ic)) as (B & B2 & B3). unfold node, from0, vlen in B. rewrite map_length in B. rewrite TT' by (unfold vlen; lia). replace (y - 1 + 1) with y by lia. replace (s - 1 + 1) with s by lia. replace (e - 1 + 1) with e by lia. reflexivity. }
    assert (Tc' : rect_cover (m_leaves m) (m_parents m) d2 c0) by (rewrite El, Ep; exact Tc).
    assert (Nc' : never_up (m_leaves m) (m_parents m) c0) by (rewrite El, Ep; exact Nc).
    pose proof (C26_spatio_optimal_real _ W t d2 p x _ _ Hn' Lt' Ft Ex Tc' Nc' Mc) as Op. rewrite !Rsum_map in Op. cbn [gain loss] in Op.
    change (Rsum (fun x0 => G x0) c) with (Rsum G c) in Op. change (Rsum (fun x0 => L x0) c) with (Rsum L c) in Op. rewrite Gc, Lc in Op.
    assert (Ln : (0 <= loss (dn_quality x))%R) by (rewrite Ls; apply Rsum_nonneg; intros y _; apply L0).
    change (num RA) with R in *. set (g := gain (dn_quality x)) in *. set (l := loss (dn_quality x)) in *. change (num RA) with R in g, l. set (SG := Rsum (fun '(x, s, e) => rectangle gain_of micro d0 d1 h x s e) c) in *.
    assert (Pl : (0 <= (1 - p) * l)%R) by (apply Rmult_le_pos; lra). unfold no_better in Op.
    destruct (Req_dec p 0) as [->|P0]; [lra|]. assert (p * SG <= p * g)%R by lra. assert (SG <= g)%R by (apply (Rmult_le_reg_l p); lra). lra. }
  assert (Key : forall fuel st, d_search RA false fuel t m (ps_empty RA) th (p_zero RA) (p_one RA) = Ok st -> r_frames RA id_num (d_row RA id_num) st = UB).
  { intros fuel st Es. rewrite one_RA in Es. pose proof (C30_spatio_real _ W t d2 Hn' Lt' Ft th fuel _ 0%R 1%R st ltac:(lra) Es) as (_ & _ & Rg & _ & Kq & _ & Qs).
    apply frames_ub. intros p q Iq. destruct (Qs p q Iq) as (x & Ex & ->). apply score_large. apply (Bq p x); [|exact Ex].
    assert (Ip : In p (ps_list st)) by (rewrite <- Kq; apply (in_map fst _ _ Iq)). destruct (Rg p Ip) as [->|[->|[K1 K2]]]; try lra. apply plt_RA in K1, K2. lra. }
  split.
  - intros fuel r E. rewrite Er in E. apply bind_ok in E. destruct E as (st & Es & Ef). rewrite (Key fuel st Es) in Ef. discriminate.
  - intros k Hk. rewrite Er. destruct (C33_spatio _ W t d2 Hn' Lt' Ft th 0%R 1%R k (ps_empty RA) ltac:(lra) ltac:(lra)) as (st & Es). rewrite <- one_RA in Es.
    match goal with |- bind ?e _ = _ => replace e with (@Ok _ st) by (symmetry; exact Es) end. cbn [bind]. exact (Key _ st Es).
Qed.
Print Assumptions C73_spatio_undefined.
