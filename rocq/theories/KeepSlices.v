(** * Ordered partitions and equal neighbouring slices: an optimal tiling does not separate them. *)
From Coq Require Import Reals Lra Lia Permutation.
From Verif Require Import Base BaseFacts Arith Quality Utm UtmFacts UtmProofs SpecParts SpecInfo SpecData Partitions Partitioners
  InfoFacts OFacts LexR OInfo OReal OProofs ODataProofs P_Mirror KeepFacts.

Lemma tiles_le : forall a b l, tiles a b l -> a <= b.
Proof. intros a b l T. induction T; lia. Qed.
Lemma tiles_in : forall a b l, tiles a b l -> forall i e, In (i, e) l ->
  exists l1 l2, l = l1 ++ (i, e) :: l2 /\ tiles a i l1 /\ i <= e < b /\ tiles (e + 1) b l2.
Proof.
  intros a b l T. induction T as [n|a e n r H T IH]; intros i e' I; [destruct I|]. destruct I as [I|I].
  - inversion I; subst. exists [], r. repeat split; auto; try lia. constructor.
  - destruct (IH _ _ I) as (l1 & l2 & -> & T1 & Hi & T2). exists ((a, e) :: l1), l2. repeat split; auto; try lia.
    constructor; auto. pose proof (tiles_le _ _ _ T1). lia.
Qed.
Lemma tiles_at : forall a b l, tiles a b l -> forall s, a <= s < b -> exists i e, In (i, e) l /\ i <= s <= e.
Proof.
  intros a b l T. induction T as [n|a e n r H T IH]; intros s Hs; [lia|]. destruct (Z_le_gt_dec s e).
  - exists a, e. split; [left; reflexivity|lia].
  - destruct (IH s ltac:(lia)) as (i & e' & I & K). exists i, e'. split; [right; exact I|exact K].
Qed.

(** Value of an interval, for weights a and b. *)
Definition oval (a b : R) (rows : list (list R)) (i j : Z) : R := (a * ogain rows i j - b * oloss rows i j)%R.

Lemma oval_lval : forall a b rows i j, oval a b rows i j = Rsum (fun r => lval a b (slice r i j)) rows.
Proof.
  intros a b rows i j. unfold oval, ogain, oloss. rewrite <- (Rsum_scal _ _ a), <- (Rsum_scal _ _ b). unfold lval.
  induction rows as [|r rows IH]; [rewrite !Rsum_nil; lra|]. rewrite !Rsum_cons, <- IH. lra.
Qed.
Lemma Rsum_lt : forall X (f g : X -> R) l, (forall x, In x l -> (f x <= g x)%R) -> (exists x, In x l /\ (f x < g x)%R) -> (Rsum f l < Rsum g l)%R.
Proof.
  intros X f g l H (x & I & K). induction l as [|y l IH]; [destruct I|]. rewrite !Rsum_cons. destruct I as [->|I].
  - pose proof (Rsum_le _ f g l ltac:(intros z Iz; apply H; right; exact Iz)). lra.
  - pose proof (H y (or_introl eq_refl)). specialize (IH ltac:(intros z Iz; apply H; right; exact Iz) I). lra.
Qed.

Section K.
Variables (rows : list (list R)) (n : Z) (a b : R).
Hypothesis HL : Forall (fun r => vlen r = n) rows.
Hypothesis NN : Forall nonneg rows.
Hypothesis Ha : (0 < a)%R.
Hypothesis Hb : (0 < b)%R.
Notation val := (oval a b rows).

Lemma row_len : forall r, In r rows -> vlen r = n.
Proof. intros r I. exact (proj1 (Forall_forall _ _) HL r I). Qed.
Lemma row_nn : forall r i j, In r rows -> nonneg (slice r i j).
Proof. intros r i j I. apply nonneg_slice. exact (proj1 (Forall_forall _ _) NN r I). Qed.

Lemma slice_empty : forall X (r : list X) i, slice r i (i - 1) = [].
Proof. intros. unfold slice. replace (Z.to_nat (i - 1 - i + 1)) with 0%nat by lia. reflexivity. Qed.
Lemma val_empty : forall i, val i (i - 1) = 0%R.
Proof. intro i. rewrite oval_lval. apply Rsum_zero. intros r _. rewrite slice_empty. apply lval_nil. Qed.

Lemma slice_snoc : forall (r : list R) i s, 0 <= i <= s -> s < vlen r -> slice r i s = slice r i (s - 1) ++ [elt 0%R r s].
Proof.
  intros r i s Hi Hs. rewrite (slice_app _ r i (s - 1) s) by lia. replace (s - 1 + 1) with s by lia. rewrite (slice_one _ 0%R) by lia. reflexivity.
Qed.

(** One part on each side of the cut. *)
Lemma val_left : forall i s, 0 <= i <= s -> s + 1 < n -> (forall r, In r rows -> elt 0%R r s = elt 0%R r (s + 1)) ->
  (2 * val i s <= val i (s - 1) + val i (s + 1))%R /\
  ((exists r, In r rows /\ (0 < total (slice r i s))%R) -> (2 * val i s < val i (s - 1) + val i (s + 1))%R).
Proof.
  intros i s Hi Hs Eq. rewrite !oval_lval, <- Rsum_plus, <- Rsum_scal.
  assert (K : forall r, In r rows -> slice r i s = slice r i (s - 1) ++ [elt 0%R r s] /\ slice r i (s + 1) = slice r i (s - 1) ++ [elt 0%R r s; elt 0%R r s]).
  { intros r I. pose proof (row_len r I) as Lr. split; [apply slice_snoc; lia|]. rewrite (slice_snoc r i (s + 1)) by lia.
    replace (s + 1 - 1) with s by lia. rewrite (slice_snoc r i s) by lia. rewrite <- app_assoc. cbn [app]. rewrite <- (Eq r I). reflexivity. }
  split.
  - apply Rsum_le. intros r I. destruct (K r I) as [K1 K2]. rewrite K1, K2. apply lval_twice; try lra. rewrite <- K1. apply row_nn; exact I.
  - intros (r0 & I0 & T0). apply Rsum_lt.
    + intros r I. destruct (K r I) as [K1 K2]. rewrite K1, K2. apply lval_twice; try lra. rewrite <- K1. apply row_nn; exact I.
    + exists r0. split; [exact I0|]. destruct (K r0 I0) as [K1 K2]. rewrite K1 in T0. rewrite K1, K2. apply lval_twice_lt; auto. rewrite <- K1. apply row_nn; exact I0.
Qed.
Lemma val_right : forall s e, 0 <= s -> s + 1 <= e < n -> (forall r, In r rows -> elt 0%R r s = elt 0%R r (s + 1)) ->
  (2 * val (s + 1) e <= val (s + 2) e + val s e)%R /\
  ((exists r, In r rows /\ (0 < total (slice r (s + 1) e))%R) -> (2 * val (s + 1) e < val (s + 2) e + val s e)%R).
Proof.
  intros s e Hs He Eq. rewrite !oval_lval, <- Rsum_plus, <- Rsum_scal.
  assert (K : forall r, In r rows -> Permutation (slice r (s + 1) e) (slice r (s + 2) e ++ [elt 0%R r s]) /\ Permutation (slice r s e) (slice r (s + 2) e ++ [elt 0%R r s; elt 0%R r s])).
  { intros r I. pose proof (row_len r I) as Lr. rewrite (slice_app _ r (s + 1) (s + 1) e) by lia. rewrite (slice_app _ r s s e) by lia. rewrite (slice_app _ r (s + 1) (s + 1) e) by lia.
    replace (s + 1 + 1) with (s + 2) by lia. rewrite !(slice_one _ 0%R) by lia. rewrite <- (Eq r I). cbn [app]. split; [apply Permutation_cons_append|].
    eapply perm_trans; [|apply Permutation_app_comm]. reflexivity. }
  assert (N : forall r, In r rows -> nonneg (slice r (s + 2) e ++ [elt 0%R r s])).
  { intros r I. destruct (K r I) as [K1 _]. unfold nonneg. eapply Permutation_Forall; [exact K1|]. apply (row_nn r _ _ I). }
  assert (Q : forall r, In r rows -> (2 * lval a b (slice r (s + 1) e) <= lval a b (slice r (s + 2) e) + lval a b (slice r s e))%R).
  { intros r I. destruct (K r I) as [K1 K2]. rewrite (lval_perm _ _ _ _ K1), (lval_perm _ _ _ _ K2). apply lval_twice; try lra. apply (N r I). }
  split; [apply Rsum_le; exact Q|]. intros (r0 & I0 & T0). apply Rsum_lt; [exact Q|]. exists r0. split; [exact I0|].
  destruct (K r0 I0) as [K1 K2]. rewrite (lval_perm _ _ _ _ K1), (lval_perm _ _ _ _ K2). apply lval_twice_lt; auto. rewrite <- (total_perm _ _ K1). exact T0.
Qed.

Lemma zero_or_pos : forall i j, 0 <= i -> i <= j < n -> (forall r k, In r rows -> i <= k <= j -> elt 0%R r k = 0%R) \/ exists r, In r rows /\ (0 < total (slice r i j))%R.
Proof.
  intros i j Hi Hj. assert (G : forall l, (forall r, In r l -> In r rows) ->
    (forall r k, In r l -> i <= k <= j -> elt 0%R r k = 0%R) \/ exists r, In r l /\ (0 < total (slice r i j))%R).
  { induction l as [|r l IH]; intro S; [left; intros r k []|]. destruct (IH ltac:(intros; apply S; right; assumption)) as [Z|(r' & I & Pr)]; [|right; exists r'; split; [right; exact I|exact Pr]].
    pose proof (row_nn r i j (S r (or_introl eq_refl))) as Nr. pose proof (row_len r (S r (or_introl eq_refl))) as Lr. destruct (Rle_lt_or_eq_dec _ _ (total_nonneg _ Nr)) as [Pr|Pr].
    - right. exists r. split; [left; reflexivity|exact Pr].
    - left. intros r' k [<-|I] Hk; [|apply Z; assumption]. apply (total_zero _ Nr (eq_sym Pr)). rewrite (slice_elt _ 0%R) by lia. apply in_map. apply In_zrange. lia. }
  apply (G rows). auto.
Qed.

(** The exchange. *)
Lemma keep_core : forall l, tiles 0 n l -> (forall l', tiles 0 n l' -> (Rsum (fun ab => val (fst ab) (snd ab)) l' <= Rsum (fun ab => val (fst ab) (snd ab)) l)%R) ->
  forall s, 0 <= s -> s + 1 < n -> (forall r, In r rows -> elt 0%R r s = elt 0%R r (s + 1)) ->
  (exists i e, In (i, e) l /\ i <= s /\ s + 1 <= e) \/
  (exists i e, In (i, s) l /\ In (s + 1, e) l /\ forall r k, In r rows -> i <= k <= e -> elt 0%R r k = 0%R).
Proof.
  intros l T Opt s Hs Hn Eq. destruct (tiles_at _ _ _ T s ltac:(lia)) as (i & e0 & I & Hie). destruct (Z_lt_le_dec s e0); [left; exists i, e0; repeat split; auto; lia|].
  assert (e0 = s) by lia. subst e0. right. destruct (tiles_in _ _ _ T _ _ I) as (l1 & l2 & El & T1 & _ & T2).
  inversion T2 as [|s' e m l3 He T3]; subst; [lia|]. pose proof (tiles_le _ _ _ T1) as Li. pose proof (tiles_le _ _ _ T3) as Le.
  exists i, e. split; [exact I|]. split; [apply in_or_app; right; right; left; reflexivity|].
  assert (OptL : (val i (s - 1) + val s e <= val i s + val (s + 1) e)%R).
  { set (l' := l1 ++ (if i =? s then [] else [(i, s - 1)]) ++ (s, e) :: l3).
    assert (T' : tiles 0 n l').
    { eapply tiles_app; [exact T1|]. destruct (Z.eqb_spec i s) as [->|D]; cbn [app].
      - constructor; [lia|]. exact T3.
      - constructor; [lia|]. replace (s - 1 + 1) with s by lia. constructor; [lia|exact T3]. }
    pose proof (Opt l' T') as K. unfold l' in K. rewrite !Rsum_app, !Rsum_cons in K. cbn [fst snd] in K.
    destruct (Z.eqb_spec i s) as [->|D].
    - rewrite Rsum_nil in K. rewrite val_empty. lra.
    - rewrite Rsum_cons, Rsum_nil in K. cbn [fst snd] in K. lra. }
  assert (OptR : (val i (s + 1) + val (s + 2) e <= val i s + val (s + 1) e)%R).
  { set (l' := l1 ++ (i, s + 1) :: (if e =? s + 1 then [] else [(s + 2, e)]) ++ l3).
    assert (T' : tiles 0 n l').
    { eapply tiles_app; [exact T1|]. constructor; [lia|]. destruct (Z.eqb_spec e (s + 1)) as [->|D]; cbn [app]; [exact T3|].
      replace (s + 1 + 1) with (s + 2) by lia. constructor; [lia|exact T3]. }
    pose proof (Opt l' T') as K. unfold l' in K. rewrite !Rsum_app, !Rsum_cons, !Rsum_app in K. cbn [fst snd] in K.
    destruct (Z.eqb_spec e (s + 1)) as [->|D].
    - rewrite Rsum_nil in K. replace (s + 1) with (s + 2 - 1) at 2 by lia. rewrite val_empty. lra.
    - rewrite Rsum_cons, Rsum_nil in K. cbn [fst snd] in K. lra. }
  destruct (val_left i s ltac:(lia) ltac:(lia) Eq) as [VL VL']. destruct (val_right s e ltac:(lia) ltac:(lia) Eq) as [VR VR'].
  destruct (zero_or_pos i s ltac:(lia) ltac:(lia)) as [Z1|P1]; [|specialize (VL' P1); lra].
  destruct (zero_or_pos (s + 1) e ltac:(lia) ltac:(lia)) as [Z2|P2]; [|specialize (VR' P2); lra].
  intros r k Ir Hk. destruct (Z_le_gt_dec k s); [apply Z1|apply Z2]; auto; lia.
Qed.
End K.

(** Among equally good continuations from [i], the code takes the one that goes to the end, else the one whose first part is shortest. *)
Section First.
Context (P : params).
Notation A := (RP P).

Lemma ochain_app : forall n C i l1 j e l2, ochain n C i (l1 ++ (j, e) :: l2) -> i <= j /\ ochain n C j ((j, e) :: l2).
Proof.
  intros n C i l1. revert i. induction l1 as [|[a c] l1 IH]; intros i j e l2 O.
  - cbn [app] in O. inversion O; subst. split; [lia|exact O].
  - cbn [app] in O. inversion O; subst. destruct (IH _ _ _ _ H4) as [K1 K2]. split; [lia|exact K2].
Qed.

Lemma oq_Rsum : forall (G L : Z -> Z -> R) l, oq P (fun i j => @mkQ A (G i j) (L i j)) l =
  @mkQ A (Rsum (fun ab => G (fst ab) (snd ab)) l) (Rsum (fun ab => L (fst ab) (snd ab)) l).
Proof.
  intros G L l. unfold oq. destruct (qsum_Rsum P (map (fun ab => @mkQ A (G (fst ab) (snd ab)) (L (fst ab) (snd ab))) l)) as [E1 E2].
  rewrite !Rsum_map in E1, E2. cbn [gain loss] in E1, E2. destruct (qsum (map (fun ab => @mkQ A (G (fst ab) (snd ab)) (L (fst ab) (snd ab))) l)) as [g lo].
  cbn [gain loss] in E1, E2. subst. reflexivity.
Qed.

Lemma o_first : forall (t : utm (quality A)) n (G L : Z -> Z -> R) p x, 0 <= n <= 65535 ->
  urepr t n (fun i j => @mkQ A (G i j) (L i j)) -> o_best A t p = Ok x ->
  forall l1 i e l2, ocoords x = l1 ++ (i, e) :: l2 -> forall c l', i <= c < n -> tiles (c + 1) n l' ->
  Rsum (fun ab => G (fst ab) (snd ab)) ((i, c) :: l') = Rsum (fun ab => G (fst ab) (snd ab)) ((i, e) :: l2) ->
  Rsum (fun ab => L (fst ab) (snd ab)) ((i, c) :: l') = Rsum (fun ab => L (fst ab) (snd ab)) ((i, e) :: l2) ->
  e = n - 1 \/ (e <= c /\ c <> n - 1).
Proof.
  intros t n G L p x Hn R E l1 i e l2 El c l' Hc Tl' EG EL. destruct (o_best_ok A t n _ p R) as (y & C & T & l & Ey & Ep & O & _ & _ & _ & H).
  rewrite E in Ey. inversion Ey; subst y. unfold ocoords in El. rewrite Ep, coords_mkopart in El. subst l.
  destruct (ochain_app _ _ _ _ _ _ _ O) as [Hi Oi]. set (q := fun i j => @mkQ A (G i j) (L i j)) in *.
  assert (Eo : oq P q ((i, c) :: l') = oq P q ((i, e) :: l2)) by (unfold q; rewrite !oq_Rsum, EG, EL; reflexivity).
  assert (Ei : e = C i) by (inversion Oi; reflexivity). assert (Hie : i <= e < n) by (inversion Oi; lia).
  destruct (oline_first P n q p C T H i ltac:(lia)) as (_ & _ & K). destruct (K c Hc) as [_ K2].
  destruct (Z_lt_le_dec (ordc n c) (ordc n (C i))) as [Lt|Ge]; [|unfold ordc in Ge; rewrite <- Ei in Ge; destruct (Z.eqb_spec c (n - 1)); destruct (Z.eqb_spec e (n - 1)); lia].
  exfalso. specialize (K2 Lt).
  assert (T1 : T i = t_set A (oq P q ((i, c) :: l')) p). { rewrite Eo. apply (ochain_T P n q p C T H); [lia|exact Oi]. }
  assert (K3 : tle (T i) (ocf P n q p T i c)).
  { rewrite T1. unfold oq. cbn [map fst snd]. rewrite tset_cons. unfold ocf. destruct (Z.eqb_spec c (n - 1)) as [E1|D].
    - subst c. replace (n - 1 + 1) with n in Tl' by lia. inversion Tl'; subst; [|lia]. cbn [map]. rewrite tset_nil, tadd_0_r. apply tle_refl.
    - unfold ocand. apply tadd_le; [apply tle_refl|]. apply (otile_le P n q p C T H); [lia|]. exact Tl'. }
  eapply tlt_irrefl. eapply tlt_le_trans; eauto.
Qed.

(** The parts of [o_best] as an optimal tiling. *)
Lemma o_best_opt : forall (t : utm (quality A)) n (G L : Z -> Z -> R) p x, 0 <= n <= 65535 ->
  urepr t n (fun i j => @mkQ A (G i j) (L i j)) -> o_best A t p = Ok x -> forall l, tiles 0 n l ->
  (pp_num P p * Rsum (fun ab => G (fst ab) (snd ab)) l - pp_num P (pp_compl P p) * Rsum (fun ab => L (fst ab) (snd ab)) l <=
   pp_num P p * Rsum (fun ab => G (fst ab) (snd ab)) (ocoords x) - pp_num P (pp_compl P p) * Rsum (fun ab => L (fst ab) (snd ab)) (ocoords x))%R.
Proof.
  intros t n G L p x Hn R E l T. pose proof (o_no_better P t n G L p x l Hn R E T) as K. destruct (o_total P t n G L p x Hn R E) as (_ & <- & <-).
  unfold no_better in K. destruct K as [K|[K _]]; lra.
Qed.

(** Same tables up to positive factors. *)
Lemma o_keep : forall (t : utm (quality A)) n rows g h p x, 0 <= n <= 65535 -> Forall (fun r : list R => vlen r = n) rows -> Forall nonneg rows ->
  (0 < g)%R -> (0 < h)%R -> (0 < pp_num P p)%R -> (0 < pp_num P (pp_compl P p))%R ->
  urepr t n (fun i j => @mkQ A (g * ogain rows i j)%R (h * oloss rows i j)%R) -> o_best A t p = Ok x ->
  forall s, 0 <= s -> s + 1 < n -> (forall r, In r rows -> elt 0%R r s = elt 0%R r (s + 1)) ->
  (exists i e, In (i, e) (ocoords x) /\ i <= s /\ s + 1 <= e) \/
  (exists i e, In (i, s) (ocoords x) /\ In (s + 1, e) (ocoords x) /\ forall r k, In r rows -> i <= k <= e -> elt 0%R r k = 0%R).
Proof.
  intros t n rows g h p x Hn HL NN Hg Hh Hp Hq R E. destruct (o_total P t n _ _ p x Hn R E) as (T & _ & _).
  apply (keep_core rows n (pp_num P p * g) (pp_num P (pp_compl P p) * h) HL NN); [apply Rmult_lt_0_compat; auto|apply Rmult_lt_0_compat; auto|exact T|].
  intros l' T'. pose proof (o_best_opt t n _ _ p x Hn R E l' T') as K.
  assert (V : forall l, Rsum (fun ab => oval (pp_num P p * g) (pp_num P (pp_compl P p) * h) rows (fst ab) (snd ab)) l =
    (pp_num P p * Rsum (fun ab => g * ogain rows (fst ab) (snd ab)) l - pp_num P (pp_compl P p) * Rsum (fun ab => h * oloss rows (fst ab) (snd ab)) l)%R).
  { clear. intro l. induction l as [|ab l IH]; [rewrite !Rsum_nil; lra|]. rewrite !Rsum_cons, IH. unfold oval. lra. }
  rewrite !V. exact K.
Qed.

(** A part without any data that does not reach the end is a single slice. *)
Lemma o_idle : forall (t : utm (quality A)) n rows g h p x, 0 <= n <= 65535 -> Forall (fun r : list R => vlen r = n) rows ->
  urepr t n (fun i j => @mkQ A (g * ogain rows i j)%R (h * oloss rows i j)%R) -> o_best A t p = Ok x ->
  forall i e, In (i, e) (ocoords x) -> e < n - 1 -> (forall r k, In r rows -> i <= k <= e -> elt 0%R r k = 0%R) -> i = e.
Proof.
  intros t n rows g h p x Hn HL R E i e I He Z. destruct (o_total P t n _ _ p x Hn R E) as (T & _ & _).
  destruct (tiles_in _ _ _ T _ _ I) as (l1 & l2 & El & T1 & Hie & T2). pose proof (tiles_le _ _ _ T1) as Li. destruct (Z.eq_dec i e) as [|D]; [assumption|].
  assert (Z0 : forall a b, i <= a -> a <= b <= e -> ogain rows a b = 0%R /\ oloss rows a b = 0%R).
  { intros a b Ha Hb. unfold ogain, oloss. assert (S : forall r, In r rows -> forall v, In v (slice r a b) -> v = 0%R).
    { intros r Ir v Iv. pose proof (proj1 (Forall_forall _ _) HL r Ir) as Lr. cbv beta in Lr. rewrite (slice_elt _ 0%R) in Iv by lia. apply in_map_iff in Iv. destruct Iv as (k & <- & Ik). apply In_zrange in Ik. apply Z; auto; lia. }
    split; apply Rsum_zero; intros r Ir; apply P_Sym.zero_gain; apply (S r Ir). }
  destruct (o_first t n _ _ p x Hn R E l1 i e l2 El i ((i + 1, e) :: l2)) as [K|[K _]]; try lia.
  - constructor; [lia|exact T2].
  - rewrite !Rsum_cons. cbn [fst snd]. rewrite (proj1 (Z0 i e ltac:(lia) ltac:(lia))), (proj1 (Z0 i i ltac:(lia) ltac:(lia))), (proj1 (Z0 (i + 1) e ltac:(lia) ltac:(lia))). lra.
  - rewrite !Rsum_cons. cbn [fst snd]. rewrite (proj2 (Z0 i e ltac:(lia) ltac:(lia))), (proj2 (Z0 i i ltac:(lia) ltac:(lia))), (proj2 (Z0 (i + 1) e ltac:(lia) ltac:(lia))). lra.
Qed.
End First.
