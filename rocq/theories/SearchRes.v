(** * Resolution of the parameter search for any totally ordered kind of parameters. *)
From Coq Require Import Lia Sorting.Sorted.
From Verif Require Import Base BaseFacts Arith Quality Partitioners Search SpecSearch SearchFacts SearchProofs.

Section M.
Context (A : arith) (D : par A -> Prop) (th : par A) (B : bisectable A D th).
Context {Pn Tu : Type}.
Context (best : par A -> res Pn) (pn_param : Pn -> par A) (eqb : Pn -> Pn -> bool)
        (pn_quality : Pn -> quality A) (pn_tuples : Pn -> list Tu).
Context (best_ok : forall p, D p -> exists x, best p = Ok x /\ pn_param x = p).
Notation add := (s_add A best pn_param eqb).
Notation search := (s_computeBestPartitions A best pn_param eqb pn_quality pn_tuples).
Notation plt := (SpecSearch.plt A).
Notation ple a b := (plt a b \/ a = b).
Context (OKp : Pn -> Prop).
Context (best_OK : forall p x, best p = Ok x -> OKp x).
Context (eqb_trans : forall x y z, OKp x -> OKp y -> OKp z -> eqb x y = true -> eqb y z = true -> eqb x z = true).
Context (eqb_sym : forall x y, OKp x -> OKp y -> eqb x y = true -> eqb y x = true).
Context (eqb_refl : forall x, OKp x -> eqb x x = true).
Context (total : forall a b, D a -> D b -> plt a b \/ a = b \/ plt b a).
Context (sub_mono : forall u p v, D u -> D p -> D v -> ple u p -> plt p v -> plt th (p_sub A v p) -> plt th (p_sub A v u)).
Context (between : forall p1 p p2 x1 x x2, D p1 -> D p -> D p2 -> plt p1 p -> plt p p2 ->
  best p1 = Ok x1 -> best p = Ok x -> best p2 = Ok x2 -> eqb x1 x2 = true -> eqb x x1 = true).

Notation good := (good A D best).
Notation link := (link A th eqb).
Notation keep := (keep A eqb).

Fixpoint linked (u : par A * Pn) (l : list (par A * Pn)) : Prop :=
  match l with [] => True | v :: r => link u v /\ linked v r end.

Lemma chain_linked : forall l u w, chain link u l w -> linked u (l ++ [w]).
Proof. intros l. induction l as [|v l IH]; intros u w H; simpl in *; auto. destruct H. auto. Qed.

Lemma irr : forall a, D a -> plt a a -> False. Proof. intros a Da. apply (bis_irr _ _ _ B a Da). Qed.
Lemma trans : forall a b c, D a -> D b -> D c -> plt a b -> plt b c -> plt a c. Proof. exact (bis_trans _ _ _ B). Qed.
Lemma contra : forall a b, D a -> D b -> ple a b -> plt b a -> False.
Proof. intros a b Da Db [H| ->] K; [|apply (irr b); auto]. apply (irr a); auto. apply (trans a b a); auto. Qed.

Lemma linked_above : forall l u, Forall good (u :: l) -> linked u l -> forall v, In v l -> plt (fst u) (fst v).
Proof.
  intros l. induction l as [|v l IH]; intros u G H w Hw; simpl in *; [destruct Hw|].
  destruct H as [[H _] H']. destruct Hw as [->|Hw]; auto. inversion G as [|? ? Gu G']; subst. inversion G' as [|? ? Gv G'']; subst.
  assert (Gw : good w) by (rewrite Forall_forall in G''; apply G''; auto).
  apply (trans _ (fst v)); try apply Gu; try apply Gv; try apply Gw; auto.
Qed.

Lemma good_best : forall (kx : par A * Pn) p x, good kx -> p = fst kx -> best p = Ok x -> x = snd kx.
Proof. intros kx p x [_ G] -> E. congruence. Qed.

Lemma keep_cover : forall l u rep, Forall good (u :: l) -> good rep -> eqb (snd u) (snd rep) = true -> ple (fst rep) (fst u) -> linked u l ->
  forall p q x, D p -> ple (fst u) p -> ple p (fst (last l u)) -> best p = Ok x ->
  In q (map fst (rep :: keep u l)) -> ple q p ->
  (forall q', In q' (map fst (rep :: keep u l)) -> ple q' p -> ple q' q) ->
  (forall q', In q' (map fst (rep :: keep u l)) -> plt p q' -> plt th (p_sub A q' p)) ->
  forall y, best q = Ok y -> eqb x y = true.
Proof.
  intros l. induction l as [|v l IH]; intros u rep G Gr He Hr C p q x Dp H1 H2 Ex Iq Lq Mx Fa y Ey.
  - simpl in H2. assert (Gu : good u) by (inversion G; auto). assert (Du : D (fst u)) by apply Gu.
    assert (p = fst u). { destruct H1 as [H1|H1]; [|auto]. exfalso. apply (contra p (fst u)); auto. }
    subst p. simpl in Iq. destruct Iq as [Iq|[]]. subst q.
    rewrite (good_best u (fst u) x Gu eq_refl Ex), (good_best rep (fst rep) y Gr eq_refl Ey). auto.
  - destruct C as [[C1 C2] C3]. inversion G as [|? ? Gu G']; subst.
    inversion G' as [|? ? Gv _]; subst.
    assert (Du : D (fst u)) by apply Gu. assert (Dv : D (fst v)) by apply Gv. assert (Dr : D (fst rep)) by apply Gr.
    assert (Ou : OKp (snd u)) by (eapply best_OK; apply Gu). assert (Orp : OKp (snd rep)) by (eapply best_OK; apply Gr).
    assert (Ov : OKp (snd v)) by (eapply best_OK; apply Gv).
    assert (HL : fst (last (v :: l) u) = fst (last l v)).
    { clear. destruct l as [|z l]; auto. change (last (v :: z :: l) u) with (last (z :: l) u). f_equal.
      revert z. induction l as [|z' l IH]; intro z; auto. change (last (z' :: l) u = last (z' :: l) v). apply IH. }
    assert (Ab := linked_above l v G' C3). assert (H2' := eq_ind _ (fun z => ple p z) H2 _ HL). cbv beta in H2'.
    assert (Rv : plt (fst rep) (fst v)).
    { destruct Hr as [Hr|Hr]; [apply (trans _ (fst u)); auto|rewrite Hr; auto]. }
    assert (Cs : ple (fst v) p \/ plt p (fst v)).
    { destruct (total (fst v) p Dv Dp) as [K|[K|K]]; auto. }
    destruct Cs as [Hv|Hv].
    + cbn [SearchFacts.keep] in Iq, Mx, Fa. destruct (eqb (snd v) (snd u)) eqn:E; rewrite ?E in Iq, Mx, Fa.
      * apply (IH v rep G' Gr) with (p := p) (q := q); auto.
        apply (eqb_trans _ (snd u)); auto.
      * assert (Nq : q <> fst rep).
        { intro K. specialize (Mx (fst v)). simpl in Mx. specialize (Mx (or_intror (or_introl eq_refl)) Hv). subst q.
          apply (contra (fst v) (fst rep)); auto. }
        apply (IH v v G' Gv) with (p := p) (q := q); auto.
        -- simpl in Iq. destruct Iq as [Iq|Iq]; [exfalso; auto|]. exact Iq.
        -- intros q' K. apply Mx. right. exact K.
        -- intros q' K. apply Fa. right. exact K.
    + assert (Eq : q = fst rep).
      { destruct Iq as [Iq|Iq]; auto. exfalso. apply in_map_iff in Iq. destruct Iq as (kx & <- & Iq).
        apply (keep_incl A eqb (v :: l) u kx) in Iq. assert (Gk : good kx) by (rewrite Forall_forall in G'; apply G'; auto).
        destruct Iq as [->|Iq]; [apply (contra (fst kx) p); auto|]. specialize (Ab kx Iq).
        apply (contra (fst kx) p); auto; [apply Gk|]. apply (trans p (fst v) (fst kx)); auto. apply Gk. }
      assert (y = snd rep) by (apply (good_best rep q y Gr); auto). subst y.
      destruct (eqb (snd v) (snd u)) eqn:E.
      * destruct H1 as [H1|H1].
        -- assert (Exu : eqb x (snd u) = true).
           { apply (between (fst u) p (fst v) (snd u) x (snd v)); auto; [apply Gu|apply Gv]. }
           apply (eqb_trans _ (snd u)); auto. eapply best_OK; eauto.
        -- assert (x = snd u) by (apply (good_best u p x Gu); auto). subst x. auto.
      * exfalso. destruct C2 as [C2|C2].
        -- rewrite (eqb_sym (snd u) (snd v)) in E; auto. discriminate.
        -- specialize (Fa (fst v)). cbn [SearchFacts.keep] in Fa. rewrite E in Fa.
           specialize (Fa (or_intror (or_introl eq_refl)) Hv). pose proof (sub_mono (fst u) p (fst v) Du Dp Dv H1 Hv Fa) as K.
           unfold s_wide in C2. unfold SpecSearch.plt in K. congruence.
Qed.

Lemma search_resolution : forall mn mx fuel prev st, D mn -> D mx -> plt mn mx ->
  search false fuel prev th mn mx = Ok st ->
  forall p q x y, D p -> ple mn p -> ple p mx -> best p = Ok x -> In q (ps_list st) -> ple q p ->
  (forall q', In q' (ps_list st) -> ple q' p -> ple q' q) ->
  (forall q', In q' (ps_list st) -> plt p q' -> plt th (p_sub A q' p)) ->
  best q = Ok y -> eqb x y = true.
Proof.
  intros mn mx fuel prev st Dn Dx Hlt E p q x y Dp H1 H2 Ex Iq Lq Mx Fa Ey.
  destruct (search_ok A D th B best pn_param eqb pn_quality pn_tuples best_ok fuel prev mn mx st Dn Dx Hlt E) as (a & b & pts & Ev & ->).
  destruct Ev as (G & C & _). cbn [ps_list result] in *. unfold result, SearchFacts.dd in *. cbn [ps_list] in *.
  eapply (keep_cover (pts ++ [(mx, b)]) (mn, a) (mn, a)) with (p := p) (q := q); eauto.
  - inversion G; subst; auto.
  - apply eqb_refl. inversion G as [|? ? [_ Ga] _]; subst. eapply best_OK; eauto.
  - apply chain_linked. auto.
  - rewrite last_last. auto.
Qed.
End M.
