(** * The parameter search with exact real parameters. *)
From Coq Require Import Reals Lra Lia Sorting.Sorted.
From Verif Require Import Base BaseFacts Arith Quality Partitioners Search SpecSearch SearchFacts SearchProofs.

Lemma Rltb_lt : forall x y : R, Rltb x y = true <-> (x < y)%R.
Proof. intros x y. unfold Rltb. destruct (Rlt_dec x y); split; intros; auto; try discriminate; contradiction. Qed.

Lemma plt_RA : forall x y : R, SpecSearch.plt RA x y <-> (x < y)%R.
Proof. intros. apply Rltb_lt. Qed.

Lemma real_bisectable : forall th : R, bisectable RA (fun _ => True) th.
Proof.
  intro th. constructor.
  - intros a _ H. apply plt_RA in H. lra.
  - intros a b c _ _ _ H1 H2. apply plt_RA in H1, H2. apply plt_RA. lra.
  - intros a b _ _ H _. apply plt_RA in H. cbn. split; auto. rewrite !plt_RA. lra.
Qed.

Section M.
Context {Pn Tu : Type}.
Context (best : R -> res Pn) (pn_param : Pn -> R) (eqb : Pn -> Pn -> bool)
        (pn_quality : Pn -> quality RA) (pn_tuples : Pn -> list Tu).
Context (best_ok : forall p, exists x, best p = Ok x /\ pn_param x = p).
Notation add := (s_add RA best pn_param eqb).
Notation search := (s_computeBestPartitions RA best pn_param eqb pn_quality pn_tuples).

Lemma wide_R : forall th a b : R, s_wide RA th a b = true <-> (th < b - a)%R.
Proof. intros. apply Rltb_lt. Qed.
Lemma wide_R_false : forall th a b : R, s_wide RA th a b = false <-> (b - a <= th)%R.
Proof.
  intros. destruct (s_wide RA th a b) eqn:E.
  - apply wide_R in E. split; [discriminate|lra].
  - split; auto. intros _. apply Rnot_lt_le. intro H. apply wide_R in H. congruence.
Qed.

(** Termination with depth log2 of the ratio. *)
Lemma add_total : forall (th : R) n a b st, (pn_param b - pn_param a <= th * 2 ^ n)%R ->
  exists r, add (S n) th a b st = Ok r.
Proof.
  intros th n. induction n as [|n IH]; intros a b st H.
  - simpl in H. cbn [s_add]. destruct (s_wide RA th (pn_param a) (pn_param b)) eqn:E.
    + apply wide_R in E. exfalso. lra.
    + rewrite andb_false_r. eauto.
  - change (add (S (S n)) th a b st) with
      (if negb (eqb a b) && s_wide RA th (pn_param a) (pn_param b) then
        let x := s_mid RA (pn_param a) (pn_param b) in
        let* c := best x in let* st := add (S n) th a c st in
        let '(l, ps) := st in add (S n) th c b (l ++ [x], fmap_set RA ps x c) else Ok st).
    destruct (negb (eqb a b) && s_wide RA th (pn_param a) (pn_param b)); eauto. cbv zeta.
    set (x := s_mid RA (pn_param a) (pn_param b)).
    assert (Ex : x = (pn_param a + (pn_param b - pn_param a) / 2)%R) by reflexivity.
    destruct (best_ok x) as (c & Ec & Pc). rewrite Ec. cbn [bind]. simpl in H.
    destruct (IH a c st) as [[l ps] R1]; [rewrite Pc, Ex; lra|]. rewrite R1. cbn [bind].
    apply IH. rewrite Pc, Ex. lra.
Qed.

Lemma search_terminates : forall (th mn mx : R) n prev, (mn < mx)%R -> (mx - mn <= th * 2 ^ n)%R ->
  exists st, search false (S n) prev th mn mx = Ok st.
Proof.
  intros th mn mx n prev H1 H2. apply plt_RA in H1.
  destruct (search_eval RA (fun _ => True) th (real_bisectable th) best pn_param eqb pn_quality pn_tuples
     (fun p _ => best_ok p) false (S n) prev mn mx I I H1) as (a & b & Ea & Eb & H).
  destruct (best_ok mn) as (a' & Ea' & Pa). destruct (best_ok mx) as (b' & Eb' & Pb).
  assert (a' = a) by congruence. assert (b' = b) by congruence. subst a' b'.
  destruct (add_total th n a b ([mn], [(mn, a)])) as [[l ps] R1].
  { clear H. rewrite Pa, Pb. lra. }
  match type of H with match ?e with _ => _ end => replace e with (Ok (l, ps)) in H by (symmetry; exact R1) end.
  destruct H as (pts & Ev & _ & _ & Es). rewrite Es.
  rewrite (dedup_full RA (fun _ => True) th (real_bisectable th) best eqb mn mx a b pts Ev false) by discriminate.
  cbn [bind]. eauto.
Qed.

(** Divergence. *)
Context (OKp : Pn -> Prop).
Context (best_OK : forall p x, best p = Ok x -> OKp x).
Context (eqb_trans : forall x y z, OKp x -> OKp y -> OKp z -> eqb x y = true -> eqb y z = true -> eqb x z = true).
Context (eqb_sym : forall x y, OKp x -> OKp y -> eqb x y = true -> eqb y x = true).

Lemma add_diverges : forall (th : R) fuel a b st, (th <= 0)%R -> (pn_param a < pn_param b)%R -> OKp a -> OKp b ->
  eqb a b = false -> add fuel th a b st = OutOfFuel.
Proof.
  intros th fuel. induction fuel as [|fuel IH]; intros a b st Hth Hlt Oa Ob E; auto.
  cbn [s_add]. rewrite E. assert (W : s_wide RA th (pn_param a) (pn_param b) = true) by (apply wide_R; lra).
  rewrite W. cbn [negb andb]. set (x := s_mid RA (pn_param a) (pn_param b)).
  assert (Ex : x = (pn_param a + (pn_param b - pn_param a) / 2)%R) by reflexivity.
  destruct (best_ok x) as (c & Ec & Pc). rewrite Ec. cbn [bind]. assert (Oc := best_OK _ _ Ec).
  destruct (eqb a c) eqn:E1.
  - assert (E2 : eqb c b = false).
    { destruct (eqb c b) eqn:E2; auto. rewrite (eqb_trans a c b) in E; auto. }
    destruct fuel as [|fuel]; [reflexivity|].
    cbn [s_add]. rewrite E1. cbn [negb andb bind]. destruct st as [l ps].
    change (add (S fuel) th c b (l ++ [x], fmap_set RA ps x c) = OutOfFuel).
    apply IH; auto. rewrite Pc, Ex. lra.
  - rewrite IH; auto. rewrite Pc, Ex. lra.
Qed.

Lemma search_diverges : forall (th mn mx : R) fuel prev a b strict, (th <= 0)%R -> (mn < mx)%R ->
  best mn = Ok a -> best mx = Ok b -> eqb a b = false ->
  search strict fuel prev th mn mx = OutOfFuel.
Proof.
  intros th mn mx fuel prev a b strict H1 H2 Ea Eb E. unfold s_computeBestPartitions. rewrite Ea, Eb. cbn [bind].
  destruct (best_ok mn) as (a' & Ea' & Pa). destruct (best_ok mx) as (b' & Eb' & Pb).
  assert (a' = a) by congruence. assert (b' = b) by congruence. subst a' b'.
  rewrite add_diverges; auto; [|eapply best_OK; eauto|eapply best_OK; eauto]. rewrite Pa, Pb. lra.
Qed.

(** Resolution. *)
Context (Dr : R -> Prop).
Context (between : forall p1 p p2 x1 x x2, Dr p1 -> Dr p2 -> (p1 < p)%R -> (p < p2)%R ->
  best p1 = Ok x1 -> best p = Ok x -> best p2 = Ok x2 -> eqb x1 x2 = true -> eqb x x1 = true).
Context (eqb_refl : forall x, OKp x -> eqb x x = true).

Notation good := (good RA (fun _ => True) best).
Notation link th := (link RA th eqb).
Notation keep := (keep RA eqb).

Fixpoint linked (th : R) (u : R * Pn) (l : list (R * Pn)) : Prop :=
  match l with [] => True | v :: r => link th u v /\ linked th v r end.

Lemma chain_linked : forall th l u w, chain (link th) u l w -> linked th u (l ++ [w]).
Proof. intros th l. induction l as [|v l IH]; intros u w H; simpl in *; auto. destruct H. auto. Qed.

Lemma linked_above : forall th l u, linked th u l -> forall v, In v l -> (fst u < fst v)%R.
Proof.
  intros th l. induction l as [|v l IH]; intros u H w Hw; simpl in *; [destruct Hw|].
  destruct H as [[H _] H']. apply plt_RA in H. destruct Hw as [->|Hw]; auto. specialize (IH v H' w Hw).
  change (par RA) with R in *. lra.
Qed.

Lemma good_best : forall (kx : R * Pn) (p : R) x, good kx -> p = fst kx -> best p = Ok x -> x = snd kx.
Proof. intros kx p x [_ G] -> E. change (par RA) with R in *. congruence. Qed.

Lemma keep_cover : forall (th : R) l u rep, Forall good (u :: l) -> Forall (fun kx => Dr (fst kx)) (u :: l) ->
  good rep -> eqb (snd u) (snd rep) = true -> (fst rep <= fst u)%R -> linked th u l ->
  forall (p q : R) x, (fst u <= p)%R -> (p <= fst (last l u))%R -> best p = Ok x ->
  In q (map fst (rep :: keep u l)) -> (q <= p)%R ->
  (forall q', In q' (map fst (rep :: keep u l)) -> (q' <= p)%R -> (q' <= q)%R) ->
  (forall q', In q' (map fst (rep :: keep u l)) -> (p < q')%R -> (p < q' - th)%R) ->
  forall y, best q = Ok y -> eqb x y = true.
Proof.
  intros th l. induction l as [|v l IH]; intros u rep G Dw Gr He Hr C p q x H1 H2 Ex Iq Lq Mx Fa y Ey;
    change (par RA) with R in *.
  - simpl in H2. assert (p = fst u) by lra. subst p. simpl in Iq. destruct Iq as [Iq|[]].
    inversion G as [|? ? Gu _]; subst.
    rewrite (good_best u (fst u) x Gu eq_refl Ex), (good_best rep (fst rep) y Gr eq_refl Ey). auto.
  - destruct C as [[C1 C2] C3]. apply plt_RA in C1. change (par RA) with R in *. inversion G as [|? ? Gu G']; subst. inversion Dw as [|? ? Du D']; subst.
    inversion G' as [|? ? Gv _]; subst. inversion D' as [|? ? Dv _]; subst.
    assert (Ou : OKp (snd u)) by (eapply best_OK; apply Gu). assert (Orp : OKp (snd rep)) by (eapply best_OK; apply Gr).
    assert (Ov : OKp (snd v)) by (eapply best_OK; apply Gv).
    assert (HL : fst (last (v :: l) u) = fst (last l v)).
    { clear. destruct l as [|z l]; auto. change (last (v :: z :: l) u) with (last (z :: l) u). f_equal.
      revert z. induction l as [|z' l IH]; intro z; auto. change (last (z' :: l) u = last (z' :: l) v). apply IH. }
    assert (Ab := linked_above th l v C3). assert (H2' := eq_ind _ (fun z => (p <= z)%R) H2 _ HL). cbv beta in H2'.
    destruct (Rle_or_lt (fst v) p) as [Hv|Hv].
    + cbn [SearchFacts.keep] in Iq, Mx, Fa. change (par RA) with R in *. destruct (eqb (snd v) (snd u)) eqn:E; rewrite ?E in Iq, Mx, Fa.
      * apply (IH v rep G' D' Gr) with (p := p) (q := q); auto; try lra.
        apply (eqb_trans _ (snd u)); auto.
      * assert (Nq : q <> fst rep).
        { intro K. specialize (Mx (fst v)). simpl in Mx. specialize (Mx (or_intror (or_introl eq_refl)) Hv). lra. }
        apply (IH v v G' D' Gv) with (p := p) (q := q); auto; try lra.
        -- simpl in Iq. destruct Iq as [Iq|Iq]; [exfalso; auto|]. exact Iq.
        -- intros q' K. apply Mx. right. exact K.
        -- intros q' K. apply Fa. right. exact K.
    + assert (Eq : q = fst rep).
      { destruct Iq as [Iq|Iq]; auto. exfalso. apply in_map_iff in Iq. destruct Iq as (kx & <- & Iq).
        apply (keep_incl RA eqb (v :: l) u kx) in Iq. destruct Iq as [->|Iq]; [lra|]. specialize (Ab kx Iq). lra. }
      assert (y = snd rep) by (apply (good_best rep q y Gr); auto). subst y.
      destruct (eqb (snd v) (snd u)) eqn:E.
      * destruct (Req_dec p (fst u)) as [Ep|Ep].
        -- assert (x = snd u) by (apply (good_best u p x Gu); auto). subst x. auto.
        -- assert (Exu : eqb x (snd u) = true).
           { apply (between (fst u) p (fst v) (snd u) x (snd v)); auto; try lra; [apply Gu|apply Gv]. }
           apply (eqb_trans _ (snd u)); auto. eapply best_OK; eauto.
      * exfalso. destruct C2 as [C2|C2].
        -- rewrite (eqb_sym (snd u) (snd v)) in E; auto. discriminate.
        -- apply wide_R_false in C2. specialize (Fa (fst v)). cbn [SearchFacts.keep] in Fa. change (par RA) with R in *. rewrite E in Fa.
           specialize (Fa (or_intror (or_introl eq_refl)) Hv). lra.
Qed.

Lemma search_resolution : forall (th mn mx : R) fuel prev st, (mn < mx)%R -> (forall p, (mn <= p)%R -> (p <= mx)%R -> Dr p) ->
  search false fuel prev th mn mx = Ok st ->
  forall (p q : R) x y, (mn <= p)%R -> (p <= mx)%R -> best p = Ok x -> In q (ps_list st) -> (q <= p)%R ->
  (forall q', In q' (ps_list st) -> (q' <= p)%R -> (q' <= q)%R) ->
  (forall q', In q' (ps_list st) -> (p < q')%R -> (p < q' - th)%R) ->
  best q = Ok y -> eqb x y = true.
Proof.
  intros th mn mx fuel prev st Hlt HD E p q x y H1 H2 Ex Iq Lq Mx Fa Ey.
  destruct (search_ok RA (fun _ => True) th (real_bisectable th) best pn_param eqb pn_quality pn_tuples
     (fun p _ => best_ok p) fuel prev mn mx st I I (proj2 (plt_RA mn mx) Hlt) E) as (a & b & pts & Ev & ->).
  pose proof (ev_sorted RA (fun _ => True) th (real_bisectable th) best eqb _ _ _ _ _ Ev) as S.
  destruct Ev as (G & C & _). cbn [ps_list result] in *. unfold result, SearchFacts.dd in *. cbn [ps_list] in *.
  eapply (keep_cover th (pts ++ [(mx, b)]) (mn, a) (mn, a)) with (p := p) (q := q); eauto.
  - apply Forall_forall. intros [k z] Hk. apply HD; cbn [fst].
    + rewrite map_cons in S. inversion S as [|? ? S1 S2]; subst. destruct Hk as [Hk|Hk]; [inversion Hk; subst; lra|].
      rewrite Forall_forall in S2. specialize (S2 k (in_map fst _ _ Hk)). apply plt_RA in S2. cbn in S2. lra.
    + change ((mn, a) :: pts ++ [(mx, b)]) with (((mn, a) :: pts) ++ [(mx, b)]) in Hk, S.
      rewrite map_app in S. apply SSorted_app in S. destruct S as (_ & _ & S). apply in_app_or in Hk. destruct Hk as [Hk|[Hk|[]]].
      * specialize (S k mx (in_map fst _ _ Hk) (or_introl eq_refl)). apply plt_RA in S. lra.
      * inversion Hk; subst; lra.
  - inversion G; subst; auto.
  - apply eqb_refl. inversion G as [|? ? [_ Ga] _]; subst. eapply best_OK; eauto.
  - cbn; lra.
  - apply chain_linked. auto.
  - rewrite last_last. auto.
Qed.

End M.
