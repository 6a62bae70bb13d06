(** * Termination of the parameter search from a measure on the parameters, for any arithmetic. *)
From Coq Require Import Lia Sorting.Sorted.
From Verif Require Import Base BaseFacts Arith Quality Partitioners Search SpecSearch SearchFacts SearchProofs.

Section M.
Context (A : arith) (D : par A -> Prop) (th : par A) (B : bisectable A D th).
Context {Pn Tu : Type}.
Context (best : par A -> res Pn) (pn_param : Pn -> par A) (eqb : Pn -> Pn -> bool)
        (pn_quality : Pn -> quality A) (pn_tuples : Pn -> list Tu).
Context (best_ok : forall p, D p -> exists x, best p = Ok x /\ pn_param x = p).
Notation add := (s_add A best pn_param eqb).
Notation search := (s_computeBestPartitions A best pn_param eqb pn_quality pn_tuples).

(** An integer measure that increases with the parameters. *)
Lemma measure_bisect : forall mu : par A -> Z, (forall a b, D a -> D b -> plt A a b -> mu a < mu b) ->
  forall a b, D a -> D b -> plt A a b -> exists l, bisect A best eqb th a b l.
Proof.
  intros mu Mo. assert (K : forall n a b, mu b - mu a < Z.of_nat n -> D a -> D b -> plt A a b -> exists l, bisect A best eqb th a b l).
  2:{ intros a b Da Db L. apply (K (Z.to_nat (mu b - mu a + 1))); auto. pose proof (Mo _ _ Da Db L). lia. }
  induction n as [|n IH]; intros a b Hn Da Db L; [pose proof (Mo _ _ Da Db L); lia|].
  destruct (best_ok a Da) as (x & Ex & _). destruct (best_ok b Db) as (y & Ey & _).
  destruct (eqb x y) eqn:E; [exists []; eapply bis_same; eauto|].
  destruct (p_ltb A th (p_sub A b a)) eqn:W; [|exists []; eapply bis_near; eauto; unfold plt; congruence].
  destruct (bis_mid _ _ _ B a b Da Db L W) as (Dm & L1 & L2).
  pose proof (Mo _ _ Da Dm L1). pose proof (Mo _ _ Dm Db L2).
  match type of Dm with D ?m => set (mm := m) in * end.
  destruct (IH a mm) as [l1 B1]; auto; [lia|]. destruct (IH mm b) as [l2 B2]; auto; [lia|].
  eexists. eapply bis_split; eauto.
Qed.

(** A depth: [W n a b] is halved by bisection and implies at 0 that the interval is not wide. *)
Context (W : nat -> par A -> par A -> Prop).
Context (W0 : forall a b, D a -> D b -> plt A a b -> W 0 a b -> p_ltb A th (p_sub A b a) = false).
Context (WS : forall n a b, D a -> D b -> plt A a b -> plt A th (p_sub A b a) -> W (S n) a b ->
  W n a (p_add A a (p_half A (p_sub A b a))) /\ W n (p_add A a (p_half A (p_sub A b a))) b).

Lemma add_depth : forall n a b st, D (pn_param a) -> D (pn_param b) -> plt A (pn_param a) (pn_param b) -> W n (pn_param a) (pn_param b) ->
  exists r, add (S n) th a b st = Ok r.
Proof.
  intros n. induction n as [|n IH]; intros a b st Da Db L H.
  - cbn [s_add]. unfold s_wide. rewrite W0 by auto. rewrite andb_false_r. eauto.
  - change (add (S (S n)) th a b st) with
      (if negb (eqb a b) && s_wide A th (pn_param a) (pn_param b) then
        let x := s_mid A (pn_param a) (pn_param b) in
        let* c := best x in let* st := add (S n) th a c st in
        let '(l, ps) := st in add (S n) th c b (l ++ [x], fmap_set A ps x c) else Ok st).
    destruct (s_wide A th (pn_param a) (pn_param b)) eqn:Ew; [|rewrite andb_false_r; eauto].
    destruct (negb (eqb a b)); [|cbn [andb]; eauto]. cbn [andb]. cbv zeta. set (x := s_mid A (pn_param a) (pn_param b)).
    destruct (bis_mid _ _ _ B _ _ Da Db L Ew) as (Dm & L1 & L2). destruct (WS n _ _ Da Db L Ew H) as [Wa Wb].
    change (p_add A (pn_param a) (p_half A (p_sub A (pn_param b) (pn_param a)))) with x in *. cbv zeta in *. fold x in Dm, L1, L2.
    destruct (best_ok x Dm) as (c & Ec & Pc). rewrite Ec. cbn [bind].
    destruct (IH a c st) as [[l ps] R1]; rewrite ?Pc; auto. rewrite R1. cbn [bind].
    apply IH; rewrite ?Pc; auto.
Qed.

Lemma search_depth : forall n prev mn mx, D mn -> D mx -> plt A mn mx -> W n mn mx -> exists st, search false (S n) prev th mn mx = Ok st.
Proof.
  intros n prev mn mx Dn Dx L H1.
  destruct (search_eval A D th B best pn_param eqb pn_quality pn_tuples best_ok false (S n) prev mn mx Dn Dx L) as (a & b & Ea & Eb & H).
  destruct (best_ok mn Dn) as (a' & Ea' & Pa). destruct (best_ok mx Dx) as (b' & Eb' & Pb).
  assert (a' = a) by congruence. assert (b' = b) by congruence. subst a' b'.
  destruct (add_depth n a b ([mn], [(mn, a)])) as [[l ps] R1]; rewrite ?Pa, ?Pb; auto.
  match type of H with match ?e with _ => _ end => replace e with (Ok (l, ps)) in H by (symmetry; exact R1) end.
  destruct H as (pts & Ev & _ & _ & Es). rewrite Es.
  rewrite (dedup_full A D th B best eqb mn mx a b pts Ev false) by discriminate.
  cbn [bind]. eauto.
Qed.
End M.
