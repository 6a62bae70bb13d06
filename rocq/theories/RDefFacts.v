(** * Generic proofs for C61: when the R functions return. *)
From Coq Require Import Lia Sorting.Sorted.
From Verif Require Import Base BaseFacts Arith Quality Hierarchy Search SpecSearch SearchFacts RApi SpecR RFacts.

Lemma for_up_ok_ex : forall S (f : Z -> S -> res S) a b s, a <= b -> (forall i s, a <= i < b -> exists s', f i s = Ok s') -> exists s', for_up a b f s = Ok s'.
Proof.
  intros S f a b s Hab H. destruct (for_up_inv S f (fun _ _ => True) a b s Hab) as (s' & E & _); eauto.
  intros i s0 Hi _. destruct (H i s0 Hi) as (s' & E). eauto.
Qed.

Section G.
Context (A : arith) {Pn Tu Row : Type} (best : par A -> res Pn) (pn_param : Pn -> par A) (eqb : Pn -> Pn -> bool)
  (qual : Pn -> quality A) (tuples : Pn -> list Tu) (row : Tu -> Row) (rd : num A -> num A).

(** The search when both ends give the same partition. *)
Lemma search_flat : forall strict fuel prev th mn mx a b, best mn = Ok a -> best mx = Ok b -> eqb a b = true -> eqb b a = true ->
  p_ltb A mn mx = true -> p_ltb A mx mn = false -> p_ltb A mn mn = false -> p_ltb A mx mx = false ->
  s_computeBestPartitions A best pn_param eqb qual tuples strict (S fuel) prev th mn mx =
    (if strict then UB else Ok (mkPS A [mn] [(mn, a)] (s_tuples A tuples [(mn, a)] []) [(mn, qual a)])).
Proof.
  intros strict fuel prev th mn mx a b Ea Eb Q1 Q2 L1 L2 L3 L4. unfold s_computeBestPartitions, cleared. rewrite Ea. cbn [bind app fmap_set]. rewrite Eb. cbn [bind].
  cbn [s_add]. rewrite Q1. cbn [negb andb bind app]. cbn [fmap_set]. rewrite L2, L1. unfold s_dedup. cbn [fst]. change (vlen [mn; mx]) with 2.
  unfold for_down. change (rev (zrange 1 2)) with [1]. cbn [mfold]. unfold s_dedup1. change (vget [mn; mx] 1) with (Ok mx).
  change (vget [mn; mx] (1 - 1)) with (Ok mn). cbn [bind]. unfold fmap_at. cbn [fmap_get]. rewrite ?L1, ?L2, ?L3, ?L4. cbn [bind]. rewrite Q2.
  destruct strict; [reflexivity|]. cbn [bind]. change (Z.to_nat 1) with 1%nat. cbn [erase_at fmap_erase]. rewrite L2, L1, L4. reflexivity.
Qed.

(** POpt is uninitialised when no listed quality has a score of at most RAND_MAX. *)
Lemma popt_ub : forall (st : @pstate A Pn Tu), (forall p q, In (p, q) (ps_qual st) -> n_leb A (s_score A q) (n_ofZ A RAND_MAX) = false) ->
  s_getP A st P_OPT = UB.
Proof.
  intros st H. unfold s_getP. cbn [Z.eqb P_MIN P_MAX P_OPT Pos.eqb]. unfold s_popt.
  assert (G : forall l r, mfold (fun p sp => let '(score, popt) := sp in
                     let* q := fmap_at A (ps_qual st) p in
                     if n_leb A (s_score A q) score then Ok (s_score A q, Some p) else Ok (score, popt)) l (n_ofZ A RAND_MAX, None) = r ->
            r = Ok (n_ofZ A RAND_MAX, None) \/ r = UB).
  { induction l as [|p l IH]; intros r <-; cbn [mfold]; [auto|]. destruct (fmap_at A (ps_qual st) p) as [q| |] eqn:E; cbn [bind]; auto.
    - unfold fmap_at in E. destruct (fmap_get A (ps_qual st) p) as [q'|] eqn:Eg; [|discriminate]. inversion E; subst q'.
      assert (I : exists p', In (p', q) (ps_qual st)).
      { clear -Eg. induction (ps_qual st) as [|[k x] m IH]; cbn [fmap_get] in Eg; [discriminate|]. destruct (p_ltb A p k); [discriminate|]. destruct (p_ltb A k p).
        - destruct (IH Eg) as (p' & I). exists p'. right. auto.
        - inversion Eg; subst. exists k. left. auto. }
      destruct I as (p' & I). rewrite (H p' q I). apply IH. reflexivity.
    - unfold fmap_at in E. destruct (fmap_get A (ps_qual st) p); discriminate. }
  match goal with |- bind ?e _ = _ => destruct (G (ps_list st) e eq_refl) as [E|E]; rewrite E; reflexivity end.
Qed.

Lemma frames_ub : forall (st : @pstate A Pn Tu), (forall p q, In (p, q) (ps_qual st) -> n_leb A (s_score A q) (n_ofZ A RAND_MAX) = false) ->
  r_frames A rd row st = UB.
Proof. intros st H. unfold r_frames. rewrite (popt_ub st H). reflexivity. Qed.

(** ... and it is set as soon as one has. *)
Lemma frames_defined : forall (D : par A -> Prop) th mn mx (st : @pstate A Pn Tu), bisectable A D th ->
  results_agree A best qual mn mx (ps_list st) (ps_parts st) (ps_qual st) -> Forall D (ps_list st) ->
  (exists p q, In (p, q) (ps_qual st) /\ n_leb A (s_score A q) (n_ofZ A RAND_MAX) = true) -> exists r, r_frames A rd row st = Ok r.
Proof.
  intros D th mn mx st B (S & Hh & _ & _ & Kq & _) FD (p0 & q0 & I0 & E0).
  assert (Gt : forall p q, In (p, q) (ps_qual st) -> fmap_at A (ps_qual st) p = Ok q).
  { intros p q I. unfold fmap_at. rewrite (fmap_get_In A D th B) with (x := q); auto; rewrite Kq; auto. }
  assert (Gk : forall p, In p (ps_list st) -> exists q, In (p, q) (ps_qual st) /\ fmap_at A (ps_qual st) p = Ok q).
  { intros p I. rewrite <- Kq in I. apply in_map_iff in I. destruct I as ([p' q] & Ep & I). cbn in Ep. subst p'. exists q. auto. }
  assert (P : exists p, s_getP A st P_OPT = Ok p).
  { unfold s_getP. cbn [Z.eqb P_MIN P_MAX P_OPT Pos.eqb]. unfold s_popt.
    assert (G : forall l sc po, (forall p, In p l -> In p (ps_list st)) -> (sc = n_ofZ A RAND_MAX /\ po = None /\ In p0 l \/ po <> None) ->
      exists r, mfold (fun p sp => let '(score, popt) := sp in
                     let* q := fmap_at A (ps_qual st) p in
                     if n_leb A (s_score A q) score then Ok (s_score A q, Some p) else Ok (score, popt)) l (sc, po) = Ok r /\ snd r <> None).
    { induction l as [|p l IH]; intros sc po Hl Hs; cbn [mfold].
      - exists (sc, po). split; auto. destruct Hs as [(_ & _ & [])|Hs]; auto.
      - destruct (Gk p (Hl p (or_introl eq_refl))) as (q & Iq & Eq). rewrite Eq. cbn [bind]. destruct (n_leb A (s_score A q) sc) eqn:Le; cbn [bind].
        + apply IH; [intros; apply Hl; right; auto|]. right. discriminate.
        + apply IH; [intros; apply Hl; right; auto|]. destruct Hs as [(-> & -> & [->|I])|Hs]; auto. rewrite (Gt p0 q0 I0) in Eq. inversion Eq; subst q. congruence. }
    destruct (G (ps_list st) (n_ofZ A RAND_MAX) None) as (r & Er & Nr); auto.
    { left. repeat split. rewrite <- Kq. apply (in_map fst _ _ I0). }
    match goal with |- exists p, bind ?e _ = Ok p => replace e with (Ok r) by (symmetry; exact Er) end. cbn [bind]. destruct (snd r); [eauto|congruence]. }
  destruct P as (po & Eo). unfold r_frames. rewrite Eo. cbn [bind].
  assert (Au : exists a, s_auc A st = Ok a).
  { unfold s_auc. destruct (ps_list st) as [|p l] eqn:El; [discriminate|]. rewrite <- El in *.
    match goal with |- context [for_up 0 ?n ?f ?z] => destruct (for_up_ok_ex _ f 0 n z) as (a & Ea) end.
    { rewrite El. unfold vlen. cbn [length]. lia. }
    { intros i s Hi. destruct (vget_ok _ (ps_list st) (i + 1)) as (p1 & E1); [lia|]. destruct (vget_ok _ (ps_list st) i) as (p2 & E2); [lia|]. rewrite E1, E2. cbn [bind].
      destruct (Gk p1 (vget_In _ _ _ _ E1)) as (q1 & _ & F1). destruct (Gk p2 (vget_In _ _ _ _ E2)) as (q2 & _ & F2). rewrite F1, F2. cbn [bind]. eauto. }
    rewrite Ea. cbn [bind]. eauto. }
  destruct Au as (a & Ea). rewrite Ea. cbn [bind]. eauto.
Qed.
End G.
