(** * hmacro: the rows spread up the hierarchy. *)
From Coq Require Import Lia Permutation Reals Lra.
From Verif Require Import Base BaseFacts Arith Hierarchy SpecTree TreeFacts HierarchyFacts HierarchyStop HierarchyProofs HierCheck RApi SpecR SpecParts InfoFacts RHelpers GetPath MacroFacts.

Lemma Rsum_filter : forall X (f : X -> R) (P : X -> bool) l, Rsum f (filter P l) = Rsum (fun x => if P x then f x else 0%R) l.
Proof. intros X f P l. induction l as [|x l IH]; cbn [filter]; [reflexivity|]. rewrite Rsum_cons, <- IH. destruct (P x); rewrite ?Rsum_cons; lra. Qed.

Lemma Rsum_flat : forall X Y (f : Y -> R) (g : X -> list Y) l, Rsum f (flat_map g l) = Rsum (fun x => Rsum f (g x)) l.
Proof. intros X Y f g l. induction l as [|x l IH]; cbn [flat_map]; [reflexivity|]. rewrite Rsum_app, Rsum_cons, IH. reflexivity. Qed.

Section HM.
Variables (L : Z) (ps : list Z) (r : Z).
Hypothesis V : valid_tree L ps r.
Variable path : list Z.
Hypothesis P_len : vlen path = vlen ps.
Hypothesis P_nd : NoDup path.
Hypothesis P_nodes : forall h, In h path <-> node ps h.
Hypothesis P_order : forall i j c h, vget path i = Ok c -> vget path j = Ok h -> parent ps c = h -> i < j.
Hypothesis P_last : vget path (vlen ps - 1) = Ok r.
Hypothesis Two : 2 <= vlen ps.
Variables (d1 d2 : Z).
Variable val : Z -> Z -> Z -> R.  (* leaf (0-based), type, time *)

Let childof (h : Z) (l : list Z) : list Z := filter (fun c => parent ps c =? h) l.
Let lst (vis : list Z) (y : Z) : list Z := (if y <? L then [y] else []) ++ flat_map (leavesof L ps) (childof y vis).
Let ind (y j k : Z) (w : hrow) : R := if (hw_space w =? y + 1) && (hw_type w =? j) && (hw_time w =? k) then hw_value w else 0%R.
Let has (vis : list Z) (y : Z) : Prop := leaf L y \/ exists c, In c vis /\ parent ps c = y.
Let par_of (vis : list Z) (y : Z) : Z := if in_dec Z.eq_dec y vis then parent ps y + 1 else if y <? L then 0 else y + 1.

Record hinv (vis : list Z) (d : list hrow) : Prop := {
  hi_sum : forall y j k, node ps y -> 1 <= j <= d1 -> 1 <= k <= d2 -> Rsum (ind y j k) d = Rsum (fun x => val x j k) (lst vis y);
  hi_rows : forall w, In w d -> exists y, node ps y /\ hw_space w = y + 1 /\ has vis y /\ 1 <= hw_type w <= d1 /\ 1 <= hw_time w <= d2 /\ hw_parent w = par_of vis y;
  hi_some : forall y j k, node ps y -> has vis y -> 1 <= j <= d1 -> 1 <= k <= d2 -> exists w, In w d /\ hw_space w = y + 1 /\ hw_type w = j /\ hw_time w = k
}.

Lemma In_child : forall h l c, In c (childof h l) <-> In c l /\ parent ps c = h.
Proof. intros. unfold childof. rewrite filter_In, Z.eqb_eq. tauto. Qed.

Lemma lst_full : forall vis x, NoDup vis -> node ps x -> (forall c, In c vis -> node ps c) -> (forall c, node ps c -> parent ps c = x -> In c vis) ->
  Permutation (lst vis x) (leavesof L ps x).
Proof.
  intros vis x ND Nx Nv Hc. destruct (valid_rank _ _ _ V) as [rank Hr]. pose proof (vt_L _ _ _ V) as VL. unfold lst.
  destruct (Z.ltb_spec x L) as [Lt|Ge].
  - assert (Hl : leaf L x) by (unfold leaf, node in *; lia).
    assert (E : childof x vis = []).
    { destruct (childof x vis) as [|c l] eqn:E; auto. exfalso. assert (K : In c (childof x vis)) by (rewrite E; left; auto).
      apply In_child in K. destruct K as [K1 K2]. apply (leaf_no_child L ps r V x c Hl (Nv c K1) K2). }
    rewrite E. cbn. rewrite (leavesof_leaf ps rank Hr L ltac:(lia) x Hl); [apply Permutation_refl|].
    intros c Nc Hp. destruct (Z.eq_dec c r) as [->|D]; [exfalso; apply Hp, (vt_rootp _ _ _ V)|].
    pose proof (vt_parent _ _ _ V c Nc D); lia.
  - cbn [app]. apply Permutation_sym. apply (leavesof_children ps rank Hr L ltac:(lia)); auto.
    + apply NoDup_filter; auto.
    + intro c. rewrite In_child. split; intros [K1 K2]; split; auto.
Qed.

Lemma root_not_leaf : L <= r.
Proof.
  destruct (Z_le_gt_dec L r) as [|G]; auto. exfalso. pose proof (vt_root _ _ _ V) as Nr. pose proof (vt_L _ _ _ V) as VL.
  assert (exists x, node ps x /\ x <> r) as (x & Nx & Dx).
  { destruct (Z.eq_dec r 0) as [->|]; [exists 1; unfold node; lia|exists 0; unfold node; lia]. }
  pose proof (vt_reach _ _ _ V x Nx) as Bx. destruct (below_child L ps r V x r Nx Bx Dx) as (c & Nc & Pc & _).
  apply (leaf_no_child L ps r V r c); auto. unfold leaf, node in *; lia.
Qed.

Lemma hm_step : forall vis d x, hinv vis d -> NoDup vis -> (forall c, In c vis -> node ps c) -> node ps x -> x <> r -> ~ In x vis -> has vis x ->
  (forall c, node ps c -> parent ps c = x -> In c vis) -> ~ In (parent ps x) vis ->
  hinv (vis ++ [x]) (hm_copy (x + 1) (parent ps x + 1) d).
Proof.
  intros vis d x B ND Nv Nx Dr Kx Hx Hc Kq. pose proof (vt_parent _ _ _ V x Nx Dr) as Pb. pose proof (vt_L _ _ _ V) as VL.
  set (q := parent ps x) in *. assert (Nq : node ps q) by (unfold node; lia).
  assert (Dq : q <> x). { intro E. apply Kx. apply Hc; auto. }
  assert (HAS : forall y, has (vis ++ [x]) y <-> has vis y \/ y = q).
  { intro y. unfold has. split.
    - intros [K|(c & K & E)]; auto. apply in_app_or in K. destruct K as [K|[<-|[]]]; [left; right; eauto|right; auto].
    - intros [[K|(c & K & E)]| ->]; auto; right; [exists c|exists x]; split; auto; apply in_or_app; [auto|right; left; auto]. }
  assert (PAR : forall y, y <> x -> par_of (vis ++ [x]) y = par_of vis y).
  { intros y Dy. unfold par_of. destruct (in_dec Z.eq_dec y (vis ++ [x])) as [K|K], (in_dec Z.eq_dec y vis) as [K'|K']; auto.
    - exfalso. apply in_app_or in K. destruct K as [K|[K|[]]]; auto.
    - exfalso. apply K, in_or_app; auto. }
  assert (PARx : par_of (vis ++ [x]) x = q + 1).
  { unfold par_of. destruct (in_dec Z.eq_dec x (vis ++ [x])) as [K|K]; auto. exfalso; apply K, in_or_app; right; left; auto. }
  assert (PARq : par_of (vis ++ [x]) q = q + 1).
  { rewrite PAR by auto. unfold par_of. destruct (in_dec Z.eq_dec q vis); [contradiction|]. destruct (Z.ltb_spec q L); [lia|auto]. }
  unfold hm_copy.
  set (f := fun w => if hw_space w =? x + 1 then mkHW (hw_space w) (hw_type w) (hw_time w) (hw_value w) (q + 1) else w).
  set (g := fun w => mkHW (q + 1) (hw_type w) (hw_time w) (hw_value w) (hw_parent w)).
  assert (Fs : forall w, hw_space (f w) = hw_space w /\ hw_type (f w) = hw_type w /\ hw_time (f w) = hw_time w /\ hw_value (f w) = hw_value w).
  { intro w. unfold f. destruct (_ =? _); auto. }
  constructor.
  - intros y j k Ny Hj Hk. rewrite Rsum_app, !Rsum_map, Rsum_filter, Rsum_map.
    assert (E1 : Rsum (fun w => ind y j k (f w)) d = Rsum (ind y j k) d).
    { apply Rsum_ext. intros w _. unfold ind. destruct (Fs w) as (-> & -> & -> & ->). auto. }
    assert (E2 : Rsum (fun w => if hw_space (f w) =? x + 1 then ind y j k (g (f w)) else 0%R) d = if y =? q then Rsum (ind x j k) d else 0%R).
    { destruct (Z.eqb_spec y q) as [->|Dy].
      - apply Rsum_ext. intros w _. unfold ind, g. cbn [hw_space hw_type hw_time hw_value]. destruct (Fs w) as (-> & -> & -> & ->). rewrite Z.eqb_refl. destruct (_ =? x + 1); reflexivity.
      - apply Rsum_zero. intros w _. unfold ind, g. cbn [hw_space]. destruct (Z.eqb_spec (q + 1) (y + 1)); [lia|]. cbn. destruct (_ =? _); reflexivity. }
    rewrite E1, E2, (hi_sum _ _ B y j k Ny Hj Hk).
    assert (E3 : lst (vis ++ [x]) y = lst vis y ++ (if y =? q then leavesof L ps x else [])).
    { unfold lst, childof. rewrite filter_app, flat_map_app, app_assoc. f_equal. cbn [filter]. fold q. rewrite Z.eqb_sym.
      destruct (y =? q); cbn; [apply app_nil_r|reflexivity]. }
    rewrite E3, Rsum_app. f_equal. destruct (y =? q); [|reflexivity].
    rewrite (hi_sum _ _ B x j k Nx Hj Hk). apply Rsum_perm. apply lst_full; auto.
  - intros w K. apply in_app_or in K. destruct K as [K|K].
    + apply in_map_iff in K. destruct K as (w0 & <- & K). destruct (hi_rows _ _ B w0 K) as (y & Ny & Es & Hy & Ht & Hm & Hp).
      destruct (Fs w0) as (F1 & F2 & F3 & _). exists y. split; auto. split; [congruence|]. split; [apply HAS; auto|]. rewrite F2, F3. split; auto. split; auto.
      unfold f. destruct (Z.eqb_spec (hw_space w0) (x + 1)) as [E|E].
      * cbn. replace y with x by lia. auto.
      * rewrite PAR by lia. auto.
    + apply in_map_iff in K. destruct K as (w1 & <- & K). apply filter_In in K. destruct K as [K E]. apply Z.eqb_eq in E.
      apply in_map_iff in K. destruct K as (w0 & <- & K). destruct (hi_rows _ _ B w0 K) as (y & Ny & Es & Hy & Ht & Hm & Hp).
      destruct (Fs w0) as (F1 & F2 & F3 & _). exists q. split; auto. split; [reflexivity|]. split; [apply HAS; auto|]. unfold g; cbn. rewrite F2, F3. split; auto. split; auto.
      rewrite PARq. unfold f. rewrite F1 in E. rewrite E, Z.eqb_refl. reflexivity.
  - intros y j k Ny Hy Hj Hk. apply HAS in Hy. destruct Hy as [Hy| ->].
    + destruct (hi_some _ _ B y j k Ny Hy Hj Hk) as (w & K & E1 & E2 & E3). exists (f w). destruct (Fs w) as (F1 & F2 & F3 & _).
      split; [apply in_or_app; left; apply in_map; auto|]. rewrite F1, F2, F3. auto.
    + destruct (hi_some _ _ B x j k Nx Hx Hj Hk) as (w & K & E1 & E2 & E3). exists (g (f w)). destruct (Fs w) as (F1 & F2 & F3 & _).
      split; [|unfold g; cbn; rewrite F2, F3; auto].
      apply in_or_app; right. apply in_map. apply filter_In. split; [apply in_map; auto|]. rewrite F1, E1. apply Z.eqb_refl.
Qed.

Let vh := map S1 ps.
Let allbut := pre (vlen ps - 1) path.

Lemma allbut_In : forall h, In h allbut <-> node ps h /\ h <> r.
Proof.
  intro h. unfold allbut. split.
  - intro K. split; [apply P_nodes; eapply pre_incl; eauto|]. intros ->. apply In_pre in K. destruct K as (k & Hk & E).
    pose proof (NoDup_vget _ _ _ _ _ P_nd E P_last). lia.
  - intros [Nh D]. apply P_nodes in Nh. destruct (In_vget _ _ _ Nh) as (k & E & Hk). apply In_pre. exists k. split; auto.
    destruct (Z.eq_dec k (vlen ps - 1)) as [->|]; [|lia]. rewrite P_last in E. congruence.
Qed.

(** The metadata of a node in the end. *)
Definition up (y : Z) : Z := if y =? r then y + 1 else parent ps y + 1.

Lemma spread_prf : forall d, hinv [] d ->
  exists d', hm_spread vh (map S1 path) d = Ok d' /\
    (forall y j k, node ps y -> 1 <= j <= d1 -> 1 <= k <= d2 -> Rsum (ind y j k) d' = Rsum (fun x => val x j k) (leavesof L ps y)) /\
    (forall w, In w d' -> exists y, node ps y /\ hw_space w = y + 1 /\ 1 <= hw_type w <= d1 /\ 1 <= hw_time w <= d2 /\ hw_parent w = up y) /\
    (forall y j k, node ps y -> 1 <= j <= d1 -> 1 <= k <= d2 -> exists w, In w d' /\ hw_space w = y + 1 /\ hw_type w = j /\ hw_time w = k).
Proof.
  intros d B. pose proof (vt_L _ _ _ V) as VL. pose proof (vt_root _ _ _ V) as Nr.
  unfold hm_spread. rewrite vlen_map, P_len. destruct (Z.ltb_spec (vlen ps) 2); [lia|].
  match goal with |- context [mfold ?b (zrange 1 (vlen ps)) d] => destruct (for_up_inv _ b (fun h d => hinv (pre (h - 1) path) d) 1 (vlen ps) d ltac:(lia)) as (d' & E & B') end.
  - intros h s Hh Bs. destruct (vget_ok _ path (h - 1) ltac:(lia)) as (x & Ex).
    assert (Nx : node ps x) by (apply P_nodes; eapply vget_In; eauto).
    assert (Dr : x <> r). { intros ->. pose proof (NoDup_vget _ _ _ _ _ P_nd Ex P_last). lia. }
    pose proof (vt_parent _ _ _ V x Nx Dr) as Pb. assert (Nq : node ps (parent ps x)) by (unfold node; lia).
    rewrite (vget_map _ _ S1 path (h - 1) x Ex). cbn [bind]. replace (S1 x - 1) with x by (unfold S1; lia).
    unfold vh. rewrite (vget_map _ _ S1 ps x (parent ps x)) by (apply parent_vget; auto). cbn [bind].
    replace (S1 (parent ps x) - 1) with (parent ps x) by (unfold S1; lia).
    rewrite (vget_map _ _ S1 ps (parent ps x) (parent ps (parent ps x))) by (apply parent_vget; auto). cbn [bind].
    eexists. split; [reflexivity|]. replace (h + 1 - 1) with (h - 1 + 1) by lia. rewrite (pre_succ _ _ _ _ Ex).
    assert (CH : forall c, node ps c -> parent ps c = x -> In c (pre (h - 1) path)).
    { intros c Nc Pc. apply P_nodes in Nc. destruct (In_vget _ _ _ Nc) as (k & Ek & Hk). pose proof (P_order _ _ _ _ Ek Ex Pc). apply In_pre. exists k. split; [lia|auto]. }
    apply hm_step; auto.
    + apply NoDup_pre; auto.
    + intros c K. apply P_nodes. eapply pre_incl; eauto.
    + intro K. apply In_pre in K. destruct K as (k & Hk & Ek). pose proof (NoDup_vget _ _ _ _ _ P_nd Ek Ex). lia.
    + destruct (Z_lt_ge_dec x L) as [Lt|Ge]; [left; unfold leaf, node in *; lia|]. right.
      destruct (vt_child _ _ _ V x ltac:(unfold node in Nx; lia)) as (c & Nc & Pc). exists c. split; auto.
    + intro K. apply In_pre in K. destruct K as (k & Hk & Ek). pose proof (P_order _ _ _ _ Ex Ek eq_refl). lia.
  - exact B.
  - exists d'. split; [exact E|]. fold allbut in B'.
    assert (CHI : forall y c, node ps y -> node ps c -> parent ps c = y -> In c allbut).
    { intros y c Ny Nc Pc. apply allbut_In. split; auto. intros ->. rewrite (vt_rootp _ _ _ V) in Pc. unfold node in Ny; lia. }
    assert (HAS : forall y, node ps y -> has allbut y).
    { intros y Ny. destruct (Z_lt_ge_dec y L) as [Lt|Ge]; [left; unfold leaf, node in *; lia|]. right.
      destruct (vt_child _ _ _ V y ltac:(unfold node in Ny; lia)) as (c & Nc & Pc). exists c. split; eauto. }
    split; [|split].
    + intros y j k Ny Hj Hk. rewrite (hi_sum _ _ B' y j k Ny Hj Hk). apply Rsum_perm. apply lst_full; auto.
      * apply NoDup_pre; auto.
      * intros c K. apply allbut_In in K. tauto.
      * intros c Nc Pc. eauto.
    + intros w K. destruct (hi_rows _ _ B' w K) as (y & Ny & Es & _ & Ht & Hm & Hp). exists y. do 4 (split; [assumption|]).
      rewrite Hp. unfold par_of, up. destruct (in_dec Z.eq_dec y allbut) as [I|I].
      * apply allbut_In in I. destruct (Z.eqb_spec y r); [tauto|auto].
      * destruct (Z.eqb_spec y r) as [->|D]; [|exfalso; apply I, allbut_In; auto]. pose proof root_not_leaf. destruct (Z.ltb_spec r L); [lia|auto].
    + intros y j k Ny Hj Hk. apply (hi_some _ _ B'); auto.
Qed.
End HM.

Lemma flat_single : forall X Y K (g : X -> list Y) (kx : X -> K) (ky : Y -> K) a,
  (forall x, In x a -> exists y, g x = [y] /\ ky y = kx x) -> map ky (flat_map g a) = map kx a.
Proof.
  intros X Y K g kx ky a. induction a as [|x a IH]; intro H; cbn; auto.
  destruct (H x (or_introl eq_refl)) as (y & E & Ek). rewrite E. cbn. rewrite Ek, IH; auto. intros; apply H; right; auto.
Qed.

Lemma filter_unique : forall X (key : X -> Z) l x, NoDup (map key l) -> In x l -> filter (fun y => key y =? key x) l = [x].
Proof.
  intros X key l x. induction l as [|y l IH]; intros N I; [destruct I|]. cbn in N. inversion N as [|? ? Hy N']; subst. cbn.
  destruct I as [->|I].
  - rewrite Z.eqb_refl. f_equal. clear - Hy. induction l as [|z l IH]; auto. cbn in *. destruct (Z.eqb_spec (key z) (key x)); [exfalso; apply Hy; left; auto|]. apply IH. tauto.
  - destruct (Z.eqb_spec (key y) (key x)) as [E|E]; [exfalso; apply Hy; rewrite E; apply in_map; auto|]. auto.
Qed.

Lemma leavesize_prf : forall (micro : rarray RA) d0 d1 d2, 1 <= d0 -> 1 <= d1 -> 1 <= d2 ->
  vlen (nodup Z.eq_dec (map (fun '(i, _, _, _) => i) (map (fun '(k, j, i) => (i, j, k, r_val micro i j k)) (cells d0 d1 d2)))) = d0.
Proof.
  intros micro d0 d1 d2 H0 H1 H2.
  assert (P : Permutation (nodup Z.eq_dec (map (fun '(i, _, _, _) => i) (map (fun '(k, j, i) => (i, j, k, r_val micro i j k)) (cells d0 d1 d2)))) (upto d0)).
  { apply NoDup_Permutation; [apply NoDup_nodup|apply NoDup_zrange|]. intro i. rewrite nodup_In, map_map, in_map_iff, In_upto. split.
    - intros ([[k j] i'] & <- & K). apply In_cells in K. tauto.
    - intro Hi. exists (1, 1, i). split; auto. apply In_cells. lia. }
  unfold vlen. rewrite (Permutation_length P). unfold upto. rewrite zrange_length. lia.
Qed.

Lemma hinv_init : forall L ps r (V : valid_tree L ps r) (micro : rarray RA) d1 d2, 
  hinv L ps d1 d2 (fun x j k => r_val micro (x + 1) j k) [] (map (fun '(i, j, k, v) => mkHW i j k v 0) (map (fun '(k, j, i) => (i, j, k, r_val micro i j k)) (cells L d1 d2))).
Proof.
  intros L ps r V micro d1 d2. pose proof (vt_L _ _ _ V) as VL. rewrite map_map. constructor.
  - intros y j k Ny Hj Hk. rewrite Rsum_map.
    rewrite (Rsum_ext _ _ (fun x => if (let '(k', j', i') := x in (i' =? y + 1) && (j' =? j) && (k' =? k)) then r_val micro (y + 1) j k else 0%R)).
    2:{ intros [[k' j'] i'] _. cbn. destruct (Z.eqb_spec i' (y + 1)); cbn; auto. destruct (Z.eqb_spec j' j); cbn; auto. destruct (Z.eqb_spec k' k); cbn; subst; auto. }
    rewrite <- Rsum_filter.
    assert (P : Permutation (filter (fun x => let '(k', j', i') := x in (i' =? y + 1) && (j' =? j) && (k' =? k)) (cells L d1 d2)) (if y <? L then [(k, j, y + 1)] else [])).
    { apply NoDup_Permutation; [apply NoDup_filter, NoDup_cells| |].
      - destruct (y <? L); repeat constructor. intros [].
      - intros [[k' j'] i']. rewrite filter_In, In_cells, !andb_true_iff, !Z.eqb_eq. destruct (Z.ltb_spec y L).
        + cbn. split; [intros (_ & (-> & ->) & ->); auto|]. intros [E|[]]. injection E as <- <- <-. unfold node in Ny. lia.
        + split; [|intros []]. intros (K1 & K2). lia. }
    rewrite (Rsum_perm _ _ _ _ P). cbn. destruct (y <? L); cbn; reflexivity.
  - intros w K. apply in_map_iff in K. destruct K as ([[k j] i] & <- & K). apply In_cells in K. cbn.
    exists (i - 1). split; [unfold node; lia|]. split; [lia|]. split; [left; unfold leaf; lia|]. split; [tauto|]. split; [tauto|].
    destruct (Z.ltb_spec (i - 1) L); [auto|lia].
  - intros y j k Ny Hy Hj Hk. destruct Hy as [Hy|(c & [] & _)]. unfold leaf in Hy.
    exists (mkHW (y + 1) j k (r_val micro (y + 1) j k) 0). split; [|auto]. apply in_map_iff. exists (k, j, y + 1). split; auto. apply In_cells. lia.
Qed.

Theorem hmacro_prf : forall (df : list (R * (Z * Z * R * R))) (micro : rarray RA) p d0 d1 d2 ps r m, r_cube micro d0 d1 d2 -> valid_tree d0 ps r -> 2 <= vlen ps ->
  meta_build d0 ps = Ok m -> well_built m ->
  rows_at RA p df <> [] -> NoDup (map (fun '(nd, _, _, _) => nd) (rows_at RA p df)) -> (forall nd sz g l, In (nd, sz, g, l) (rows_at RA p df) -> node ps (nd - 1)) ->
  exists agg, r_hmacro df micro (map S1 ps) p = Ok agg /\ NoDup agg /\
    forall sp ty ti pa v sz, In (sp, ty, ti, pa, v, sz) agg <->
      (exists g l, In (sp, sz, g, l) (rows_at RA p df)) /\ 1 <= ty <= d1 /\ 1 <= ti <= d2 /\ pa = up ps r (sp - 1) /\
      v = Rsum (fun x => r_val micro (x + 1) ty ti) (leavesof d0 ps (sp - 1)).
Proof.
  intros df micro p d0 d1 d2 ps r m C V Two Em W NE ND Nn.
  unfold r_hmacro. rewrite (melt_prf micro d0 d1 d2 C). cbn [bind]. pose proof C as (_ & H0 & H1 & H2 & _).
  rewrite (leavesize_prf micro d0 d1 d2 H0 H1 H2).
  set (rows := rows_at RA p df) in *.
  match goal with |- exists agg, match rows with [] => UB | _ :: _ => ?e end = _ /\ _ => 
    replace (match rows with [] => UB | _ :: _ => e end) with e by (destruct rows; [congruence|reflexivity]) end.
  assert (Ep : m_parents m = ps /\ m_leaves m = d0 /\ m_hsize m = vlen ps).
  { unfold meta_build, meta_build_fuel in Em. apply bind_ok in Em. destruct Em as [[[pa c] z] [_ Em]]. apply bind_ok in Em. destruct Em as [x [_ Em]]. injection Em as <-. auto. }
  destruct Ep as (Ep & El & Eh).
  assert (Er : m_root m = r).
  { pose proof (wb_tree _ W) as V'. rewrite Ep, El in V'. apply (valid_root_iff d0 ps r); auto; [exact (vt_root _ _ _ V')|exact (vt_rootp _ _ _ V')]. }
  pose proof (wb_len _ W) as Pl. rewrite Eh in Pl.
  destruct (getpath_prf d0 ps r V m Em) as [G _]. rewrite (G Pl). cbn [bind].
  assert (Po : forall i j c h, vget (m_path m) i = Ok c -> vget (m_path m) j = Ok h -> parent ps c = h -> i < j).
  { pose proof (wb_order _ W) as K. rewrite Ep in K. exact K. }
  assert (Pn : forall h, In h (m_path m) <-> node ps h) by (pose proof (wb_nodes _ W) as K; rewrite Ep in K; exact K).
  assert (Pla : vget (m_path m) (vlen ps - 1) = Ok r) by (pose proof (wb_last _ W) as K; rewrite Eh, Er in K; exact K).
  destruct (spread_prf d0 ps r V (m_path m) Pl (wb_nodup _ W) Pn Po Pla Two d1 d2 (fun x j k => r_val micro (x + 1) j k) _ (hinv_init d0 ps r V micro d1 d2)) as (d' & Ed & Sd & Rd & Xd).
  rewrite Ed. cbn [bind].
  set (nodes := map (fun '(nd, _, _, _) => nd) rows) in *.
  set (sub := filter (fun w => existsb (Z.eqb (hw_space w)) nodes) d').
  assert (InSub : forall w, In w sub <-> In w d' /\ In (hw_space w) nodes).
  { intro w. unfold sub. rewrite filter_In, existsb_exists. split; intros [K1 K2]; split; auto.
    - destruct K2 as (z & Kz & E). apply Z.eqb_eq in E. subst; auto.
    - exists (hw_space w). split; auto. apply Z.eqb_refl. }
  assert (InN : forall sp, In sp nodes <-> exists sz g l, In (sp, sz, g, l) rows).
  { intro sp. unfold nodes. rewrite in_map_iff. split.
    - intros ([[[a b] g] l] & <- & K). eauto.
    - intros (sz & g & l & K). exists (sp, sz, g, l). auto. }
  assert (NN : forall sp, In sp nodes -> node ps (sp - 1)) by (intros sp K; apply InN in K; destruct K as (sz & g & l & K); eauto).
  destruct (aggregate_ok dec4 (fun w => (hw_space w, hw_type w, hw_time w, hw_parent w)) hw_value r_sum sub) as (a & Ea & Na & Ia).
  { destruct rows as [|[[[nd sz] g] l] rows'] eqn:Erows; [congruence|].
    assert (K : In nd nodes) by (left; reflexivity). pose proof (NN nd K) as Nd.
    destruct (Xd (nd - 1) 1 1 Nd ltac:(lia) ltac:(lia)) as (w & Kw & Es & _). intro En. assert (Kw' : In w sub) by (apply InSub; split; auto; rewrite Es; replace (nd - 1 + 1) with nd by lia; auto).
    rewrite En in Kw'. destruct Kw'. }
  assert (Ia' : forall sp ty ti pa v, In (sp, ty, ti, pa, v) a <-> In sp nodes /\ 1 <= ty <= d1 /\ 1 <= ti <= d2 /\ pa = up ps r (sp - 1) /\ v = Rsum (fun x => r_val micro (x + 1) ty ti) (leavesof d0 ps (sp - 1))).
  { intros sp ty ti pa v. rewrite Ia.
    assert (SUM : In sp nodes -> 1 <= ty <= d1 -> 1 <= ti <= d2 -> pa = up ps r (sp - 1) ->
      r_sum (map hw_value (sel dec4 (fun w => (hw_space w, hw_type w, hw_time w, hw_parent w)) (sp, ty, ti, pa) sub)) = Rsum (fun x => r_val micro (x + 1) ty ti) (leavesof d0 ps (sp - 1))).
    { intros Ks Hty Hti Hpa. rewrite <- (Sd (sp - 1) ty ti (NN sp Ks) Hty Hti). unfold r_sum, sel. rewrite Rsum_map, Rsum_filter. unfold sub. rewrite Rsum_filter.
      apply Rsum_ext. intros w Kw. replace (sp - 1 + 1) with sp by lia.
      destruct (Rd w Kw) as (y & Ny & Es & Hj & Hk & Hp).
      destruct (dec4 (hw_space w, hw_type w, hw_time w, hw_parent w) (sp, ty, ti, pa)) as [E|E].
      - injection E as E1 E2 E3 E4. rewrite E1, E2, E3, !Z.eqb_refl. cbn [andb].
        replace (existsb (Z.eqb sp) nodes) with true; [reflexivity|]. symmetry. apply existsb_exists. exists sp. split; auto. apply Z.eqb_refl.
      - destruct (Z.eqb_spec (hw_space w) sp) as [E1|]; [|cbn [andb]; destruct (existsb _ _); reflexivity].
        destruct (Z.eqb_spec (hw_type w) ty) as [E2|]; [|cbn [andb]; destruct (existsb _ _); reflexivity].
        destruct (Z.eqb_spec (hw_time w) ti) as [E3|]; [|cbn [andb]; destruct (existsb _ _); reflexivity].
        exfalso. apply E. rewrite E1, E2, E3, Hp, Hpa. do 2 f_equal. lia. }
    split.
    - intros ((w & Kw & E) & ->). injection E as E1 E2 E3 E4. apply InSub in Kw. destruct Kw as [Kw Ks]. rewrite E1 in Ks.
      destruct (Rd w Kw) as (y & Ny & Es & Hj & Hk & Hp). assert (pa = up ps r (sp - 1)) by (rewrite <- E4, Hp; f_equal; lia).
      rewrite E2 in Hj. rewrite E3 in Hk. repeat (split; [assumption|]). apply SUM; auto.
    - intros (Ks & Hj & Hk & Hpa & ->). split; [|symmetry; apply SUM; auto].
      destruct (Xd (sp - 1) ty ti (NN sp Ks) Hj Hk) as (w & Kw & E1 & E2 & E3). exists w.
      destruct (Rd w Kw) as (y & Ny & Es & _ & _ & Hp). split; [apply InSub; split; auto; rewrite E1; replace (sp - 1 + 1) with sp by lia; auto|].
      rewrite E2, E3, Hp, Hpa, E1. replace y with (sp - 1) by lia. do 3 f_equal. lia. }
  rewrite Ea. cbn [bind]. eexists. split; [reflexivity|].
  assert (SING : forall sp, In sp nodes -> exists sz g l, In (sp, sz, g, l) rows /\ filter (fun '(nd, _, _, _) => nd =? sp) rows = [(sp, sz, g, l)]).
  { intros sp K. apply InN in K. destruct K as (sz & g & l & K). exists sz, g, l. split; auto.
    pose proof (filter_unique _ (fun '(nd, _, _, _) => nd) rows (sp, sz, g, l) ND K) as F. cbn in F. rewrite <- F. apply filter_ext. intros [[[nd ?] ?] ?]. reflexivity. }
  split.
  - apply (NoDup_map_inv (fun '(sp, ty, ti, pa, v, sz) => (sp, ty, ti, pa))).
    rewrite (flat_single _ _ _ _ fst); [exact Na|]. intros [[[[sp ty] ti] pa] v] K. apply Ia' in K. destruct K as (K & _).
    destruct (SING sp K) as (sz & g & l & _ & F). rewrite F. cbn. eauto.
  - intros sp ty ti pa v sz. rewrite in_flat_map. split.
    + intros ([[[[sp' ty'] ti'] pa'] v'] & Ka & Kr). apply Ia' in Ka. destruct Ka as (Ks & Ka). destruct (SING sp' Ks) as (sz' & g & l & Kin & F). rewrite F in Kr. cbn in Kr.
      destruct Kr as [E|[]]. injection E as -> -> -> -> -> ->. split; [eauto|auto].
    + intros ((g & l & K) & Ka). assert (Ks : In sp nodes) by (apply InN; eauto). exists (sp, ty, ti, pa, v). split; [apply Ia'; auto|].
      destruct (SING sp Ks) as (sz' & g' & l' & Kin & F). apply in_map_iff. exists (sp, sz, g, l). split; auto. apply filter_In. split; auto. apply Z.eqb_refl.
Qed.
