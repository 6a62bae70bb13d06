(** * The parameter search: the whole run. *)
From Coq Require Import Lia Sorting.Sorted.
From Verif Require Import Base BaseFacts Arith Quality Partitioners Search SpecSearch SearchFacts.

Section M.
Context (A : arith).
Notation par := (par A).
Notation plt := (plt A).
Context (D : par -> Prop) (th : par) (B : bisectable A D th).
Context {Pn Tu : Type}.
Context (best : par -> res Pn) (pn_param : Pn -> par) (eqb : Pn -> Pn -> bool)
        (pn_quality : Pn -> quality A) (pn_tuples : Pn -> list Tu).
Context (best_ok : forall p, D p -> exists x, best p = Ok x /\ pn_param x = p).

Notation search := (s_computeBestPartitions A best pn_param eqb pn_quality pn_tuples).
Notation good := (good A D best).
Notation link := (link A th eqb).
Notation dd := (dd A eqb).
Notation keep := (keep A eqb).
Notation dup := (dup A eqb).

Lemma tuples_spec : forall ps ts,
  s_tuples A pn_tuples ps ts = ts ++ flat_map (fun kx => map (fun t => (fst kx, t)) (pn_tuples (snd kx))) ps.
Proof.
  assert (H : forall k l ts, fold_left (fun ts (t : Tu) => ts ++ [(k : par, t)]) l ts = ts ++ map (fun t => (k, t)) l).
  { intros k l. induction l as [|t l IH]; intro ts; simpl; [rewrite app_nil_r; auto|]. rewrite IH, <- app_assoc. auto. }
  unfold s_tuples. induction ps as [|kx ps IH]; intro ts; simpl; [rewrite app_nil_r; auto|].
  rewrite IH, H, <- app_assoc. auto.
Qed.

Lemma quals_spec : forall ps m, Forall D (map fst m) -> Forall D (map fst ps) -> StronglySorted plt (map fst m ++ map fst ps) ->
  s_quals A pn_quality ps m = m ++ map (fun kx => (fst kx, pn_quality (snd kx))) ps.
Proof.
  unfold s_quals. induction ps as [|kx ps IH]; intros m Hm Hp S; simpl in *; [rewrite app_nil_r; auto|].
  inversion Hp as [|? ? H1 H2]; subst.
  rewrite (fmap_set_last A D th B) by
    (auto; intros k Hk; apply SSorted_app in S; destruct S as (_ & _ & S); apply S; simpl; auto).
  rewrite IH; auto.
  - rewrite <- app_assoc. reflexivity.
  - rewrite map_app. apply Forall_app. split; auto. repeat constructor; auto.
  - rewrite map_app, <- app_assoc. auto.
Qed.

Definition result (l : list (par * Pn)) : pstate A (Pn := Pn) (Tu := Tu) :=
  mkPS A (map fst l) l (flat_map (fun kx => map (fun t => (fst kx, t)) (pn_tuples (snd kx))) l)
    (map (fun kx => (fst kx, pn_quality (snd kx))) l).

(** The evaluated parameters with their partitions. *)
Definition evaluated (mn mx : par) (a b : Pn) (pts : list (par * Pn)) : Prop :=
  Forall good ((mn, a) :: pts ++ [(mx, b)]) /\ chain link (mn, a) pts (mx, b) /\
  bisect A best eqb th mn mx (map fst pts).

Lemma ev_sorted : forall mn mx a b pts, evaluated mn mx a b pts ->
  StronglySorted plt (map fst ((mn, a) :: pts ++ [(mx, b)])).
Proof. intros mn mx a b pts (G & C & _). apply (chain_sorted A D th B best eqb); auto. Qed.

Lemma dd_In : forall l x, In x (dd l) -> In x l.
Proof. intros [|y l] x H; simpl in *; auto. destruct H; auto. right. eapply keep_incl; eauto. Qed.

Lemma dd_sorted : forall l, StronglySorted plt (map fst l) -> StronglySorted plt (map fst (dd l)).
Proof.
  intros [|y l] H; simpl in *; auto. inversion H as [|? ? H1 H2]; subst. constructor; [apply keep_sorted; auto|].
  apply Forall_forall. intros k Hk. apply in_map_iff in Hk. destruct Hk as (kx & <- & Hk).
  rewrite Forall_forall in H2. apply H2. apply in_map. eapply keep_incl; eauto.
Qed.

Lemma result_spec : forall l, Forall D (map fst l) -> StronglySorted plt (map fst l) ->
  mkPS A (map fst l) l (s_tuples A pn_tuples l []) (s_quals A pn_quality l []) = result l.
Proof. intros l H1 H2. unfold result. rewrite tuples_spec, quals_spec; auto. constructor. Qed.

Lemma last_split : forall (x : par * Pn) l y, exists pre z, x :: l ++ [y] = pre ++ [z] /\ z = y.
Proof. intros x l y. exists (x :: l), y. auto. Qed.

Lemma vlen_full : forall (l : list (par * Pn)) x, vlen (fst (map fst (l ++ [x]), l ++ [x])) = vlen l + 1.
Proof. intros l x. cbn [fst]. unfold vlen. rewrite map_length, app_length. simpl. lia. Qed.

Lemma dedup_full : forall mn mx a b pts, evaluated mn mx a b pts ->
  forall strict, (strict = true -> ~ dup ((mn, a) :: pts ++ [(mx, b)])) ->
  s_dedup A eqb strict (map fst ((mn, a) :: pts ++ [(mx, b)]), (mn, a) :: pts ++ [(mx, b)])
  = Ok (map fst (dd ((mn, a) :: pts ++ [(mx, b)])), dd ((mn, a) :: pts ++ [(mx, b)])).
Proof.
  intros mn mx a b pts Ev strict N. pose proof (ev_sorted _ _ _ _ _ Ev) as S. destruct Ev as (G & _ & _).
  change ((mn, a) :: pts ++ [(mx, b)]) with (((mn, a) :: pts) ++ [(mx, b)]) in *.
  rewrite <- (dd_loop A D th B best eqb strict ((mn, a) :: pts) (mx, b) [] G S N).
  unfold s_dedup. rewrite vlen_full. reflexivity.
Qed.

Lemma dedup_strict : forall mn mx a b pts, evaluated mn mx a b pts -> dup ((mn, a) :: pts ++ [(mx, b)]) ->
  s_dedup A eqb true (map fst ((mn, a) :: pts ++ [(mx, b)]), (mn, a) :: pts ++ [(mx, b)]) = UB.
Proof.
  intros mn mx a b pts Ev N. pose proof (ev_sorted _ _ _ _ _ Ev) as S. destruct Ev as (G & _ & _).
  change ((mn, a) :: pts ++ [(mx, b)]) with (((mn, a) :: pts) ++ [(mx, b)]) in *.
  rewrite <- (strict_loop A D th B best eqb ((mn, a) :: pts) (mx, b) [] G S); auto.
  - unfold s_dedup. rewrite vlen_full. reflexivity.
  - intros (u & v & (l1 & l2 & E) & _). apply (f_equal (@length _)) in E. rewrite app_length in E. simpl in E. lia.
Qed.

(** The first half of the run: evaluation. *)
Lemma search_eval : forall strict fuel prev mn mx, D mn -> D mx -> plt mn mx ->
  exists a b, best mn = Ok a /\ best mx = Ok b /\
  match s_add A best pn_param eqb fuel th a b ([mn], [(mn, a)]) with
  | Ok (l, ps) => exists pts, evaluated mn mx a b pts /\ l = mn :: map fst pts /\ ps = (mn, a) :: pts /\
      search strict fuel prev th mn mx =
        (let* st := s_dedup A eqb strict (map fst ((mn, a) :: pts ++ [(mx, b)]), (mn, a) :: pts ++ [(mx, b)]) in
         let '(l, ps) := st in Ok (mkPS A l ps (s_tuples A pn_tuples ps []) (s_quals A pn_quality ps [])))
  | UB => search strict fuel prev th mn mx = UB
  | OutOfFuel => search strict fuel prev th mn mx = OutOfFuel
  end.
Proof.
  intros strict fuel prev mn mx Hn Hx Hlt. destruct (best_ok mn Hn) as (a & Ea & _). destruct (best_ok mx Hx) as (b & Eb & _).
  exists a, b. split; auto. split; auto. unfold s_computeBestPartitions. rewrite Ea, Eb. cbn [bind].
  unfold cleared. change ([] ++ [mn]) with [mn]. change (fmap_set A [] mn a) with [(mn, a)]. cbn [bind].
  destruct (s_add A best pn_param eqb fuel th a b ([mn], [(mn, a)])) as [[l ps]| |] eqn:E; auto.
  assert (Ga : good (mn, a)) by (split; auto). assert (Gb : good (mx, b)) by (split; auto).
  assert (K1 : Forall D (map fst [(mn, a)])) by (repeat constructor; auto).
  assert (K2 : forall k, In k (map fst [(mn, a)]) -> plt k mn \/ k = mn) by (intros k [<-|[]]; auto).
  destruct (s_add_ok A D th B best pn_param eqb best_ok fuel a b mn mx [mn] [(mn, a)] _ Ga Gb Hlt K1 K2 E)
    as (pts & Er & G & C & Bi). inversion Er; subst. exists pts.
  assert (Ev : evaluated mn mx a b pts).
  { split; [|split]; auto. constructor; auto. apply Forall_app. split; auto. }
  split; auto. split; auto. split; auto. cbn [bind].
  pose proof (ev_sorted _ _ _ _ _ Ev) as S. change ((mn, a) :: pts ++ [(mx, b)]) with (((mn, a) :: pts) ++ [(mx, b)]) in S.
  rewrite (fmap_set_last A D th B); auto.
  - replace (map fst ((mn, a) :: pts ++ [(mx, b)])) with ((mn :: map fst pts) ++ [mx]); [reflexivity|].
    rewrite map_cons, map_app. reflexivity.
  - apply Forall_map. apply Forall_cons; auto. eapply Forall_impl; [|exact G]. intros kx [? _]; auto.
  - intros k Hk. rewrite map_app in S. apply SSorted_app in S. destruct S as (_ & _ & S). apply S; simpl; auto.
Qed.

Lemma ev_D : forall mn mx a b pts, evaluated mn mx a b pts -> Forall D (map fst ((mn, a) :: pts ++ [(mx, b)])).
Proof. intros mn mx a b pts (G & _). apply Forall_map. eapply Forall_impl; [|exact G]. intros kx [? _]; auto. Qed.

Lemma search_ok : forall fuel prev mn mx st, D mn -> D mx -> plt mn mx ->
  search false fuel prev th mn mx = Ok st ->
  exists a b pts, evaluated mn mx a b pts /\ st = result (dd ((mn, a) :: pts ++ [(mx, b)])).
Proof.
  intros fuel prev mn mx st Hn Hx Hlt E. destruct (search_eval false fuel prev mn mx Hn Hx Hlt) as (a & b & Ea & Eb & H).
  destruct (s_add A best pn_param eqb fuel th a b ([mn], [(mn, a)])) as [[l ps]| |]; try congruence.
  destruct H as (pts & Ev & -> & -> & Es). exists a, b, pts. split; auto. rewrite Es in E.
  rewrite (dedup_full mn mx a b pts Ev false) in E by discriminate. cbn [bind] in E.
  rewrite result_spec in E; [inversion E; auto| |].
  - apply Forall_forall. intros k Hk. apply in_map_iff in Hk. destruct Hk as (kx & <- & Hk). apply dd_In in Hk.
    pose proof (ev_D _ _ _ _ _ Ev) as F. rewrite Forall_forall in F. apply F. apply in_map. auto.
  - apply dd_sorted. eapply ev_sorted; eauto.
Qed.

(** C30 *)
Lemma search_agree : forall fuel prev mn mx st, D mn -> D mx -> plt mn mx ->
  search false fuel prev th mn mx = Ok st ->
  results_agree A best pn_quality mn mx (ps_list st) (ps_parts st) (ps_qual st).
Proof.
  intros fuel prev mn mx st Hn Hx Hlt E. destruct (search_ok _ _ _ _ _ Hn Hx Hlt E) as (a & b & pts & Ev & ->).
  pose proof (ev_sorted _ _ _ _ _ Ev) as S. pose proof Ev as (G & _ & _). rewrite Forall_forall in G.
  assert (DS := dd_sorted _ S). assert (DI := dd_In ((mn, a) :: pts ++ [(mx, b)])).
  assert (DH : hd_error (map fst (dd ((mn, a) :: pts ++ [(mx, b)]))) = Some mn) by reflexivity.
  remember (dd ((mn, a) :: pts ++ [(mx, b)])) as L eqn:EL. clear EL.
  unfold results_agree, result. cbn [ps_list ps_parts ps_qual].
  split; [auto|]. split; [auto|].
  split; [|split; [reflexivity|split; [|split]]].
  - intros p Hp. assert (Hp' : In p (map fst ((mn, a) :: pts ++ [(mx, b)]))).
    { apply in_map_iff in Hp. destruct Hp as (kx & <- & Hk). apply in_map. apply DI. auto. }
    rewrite map_cons, map_app in Hp', S. simpl in Hp'. inversion S as [|? ? S1 S2]; subst.
    destruct Hp' as [->|Hp']; auto. apply in_app_or in Hp'. destruct Hp' as [Hp'|[->|[]]]; auto.
    right; right. split.
    + rewrite Forall_forall in S2. apply S2. apply in_or_app; auto.
    + apply SSorted_app in S1. destruct S1 as (_ & _ & S1). apply S1; simpl; auto.
  - rewrite map_map. cbn [fst]. auto.
  - intros p x H. apply DI in H. apply G in H. apply H.
  - intros p q H. apply in_map_iff in H. destruct H as ([p' x] & E' & H). inversion E'; subst.
    apply DI in H. apply G in H. exists x. split; auto. apply H.
Qed.

(** C37 *)
Lemma changes_det : forall p l r, changes A best eqb p l r -> forall r', changes A best eqb p l r' -> r = r'.
Proof.
  intros p l r H. induction H as [p|p q l r x y E1 E2 E3 H IH|p q l r x y E1 E2 E3 H IH]; intros r' H'; inversion H'; subst; auto; try congruence.
  f_equal. auto.
Qed.

Lemma keep_changes : forall l u, Forall good (u :: l) -> changes A best eqb (fst u) (map fst l) (map fst (keep u l)).
Proof.
  induction l as [|v l IH]; intros u G; simpl; [constructor|]. inversion G as [|? ? G1 G2]; subst. inversion G2 as [|? ? G3 _]; subst.
  destruct (eqb (snd v) (snd u)) eqn:E; simpl.
  - eapply ch_same; [apply G1|apply G3|exact E|apply IH; auto].
  - eapply ch_diff; [apply G1|apply G3|exact E|apply IH; auto].
Qed.

Lemma search_exact : forall fuel prev mn mx st, D mn -> D mx -> plt mn mx ->
  search false fuel prev th mn mx = Ok st ->
  exists l r, bisect A best eqb th mn mx l /\ changes A best eqb mn (l ++ [mx]) r /\ ps_list st = mn :: r.
Proof.
  intros fuel prev mn mx st Hn Hx Hlt E. destruct (search_ok _ _ _ _ _ Hn Hx Hlt E) as (a & b & pts & Ev & ->).
  destruct Ev as (G & _ & Bi). exists (map fst pts), (map fst (keep (mn, a) (pts ++ [(mx, b)]))). split; auto. split.
  - pose proof (keep_changes (pts ++ [(mx, b)]) (mn, a) G) as H. rewrite map_app in H. exact H.
  - reflexivity.
Qed.

Lemma search_tuples : forall fuel prev mn mx st, D mn -> D mx -> plt mn mx ->
  search false fuel prev th mn mx = Ok st ->
  ps_tuples st = concat (map (fun kx => map (fun t => (fst kx, t)) (pn_tuples (snd kx))) (ps_parts st)).
Proof.
  intros fuel prev mn mx st Hn Hx Hlt E. destruct (search_ok _ _ _ _ _ Hn Hx Hlt E) as (a & b & pts & Ev & ->).
  simpl. rewrite flat_map_concat_map. auto.
Qed.

(** The search ends exactly when the bisection is finite. *)
Lemma search_total : forall mn mx l, D mn -> D mx -> plt mn mx -> bisect A best eqb th mn mx l ->
  exists fuel, forall prev, exists st, search false fuel prev th mn mx = Ok st.
Proof.
  intros mn mx l Hn Hx Hlt Bi. destruct (bisect_add A D th B best pn_param eqb best_ok mn mx l Bi Hn Hx Hlt) as [fuel F].
  exists fuel. intro prev. destruct (search_eval false fuel prev mn mx Hn Hx Hlt) as (a & b & Ea & Eb & H).
  destruct (F a b ([mn], [(mn, a)])) as [[l' ps] R]; [split; auto|split; auto|]. rewrite R in H.
  destruct H as (pts & Ev & _ & _ & Es). rewrite Es. rewrite (dedup_full mn mx a b pts Ev false) by discriminate.
  cbn [bind]. eauto.
Qed.

Lemma search_bisect : forall strict fuel prev mn mx st, D mn -> D mx -> plt mn mx ->
  search strict fuel prev th mn mx = Ok st -> exists l, bisect A best eqb th mn mx l.
Proof.
  intros strict fuel prev mn mx st Hn Hx Hlt E. destruct (search_eval strict fuel prev mn mx Hn Hx Hlt) as (a & b & Ea & Eb & H).
  destruct (s_add A best pn_param eqb fuel th a b ([mn], [(mn, a)])) as [[l' ps]| |]; try congruence.
  destruct H as (pts & (_ & _ & Bi) & _). eauto.
Qed.

Lemma bisect_det : forall pa pb l, bisect A best eqb th pa pb l -> forall l', bisect A best eqb th pa pb l' -> l = l'.
Proof.
  intros pa pb l H. induction H as [pa pb a b Ea Eb E|pa pb a b Ea Eb E|pa pb a b l1 l2 Ea Eb E Ew H1 IH1 H2 IH2];
    intros l' H'; inversion H'; subst; try reflexivity; try congruence; try contradiction.
  f_equal; [apply IH1; auto|]. f_equal. apply IH2; auto.
Qed.

Lemma fst_snd_eq : forall l l' : list (par * Pn), Forall good l -> Forall good l' -> map fst l = map fst l' -> l = l'.
Proof.
  induction l as [|[p x] l IH]; intros [|[p' x'] l'] G G' E; try discriminate; auto.
  simpl in E. inversion E; subst. inversion G as [|? ? G1 G2]; inversion G' as [|? ? G3 G4]; subst.
  f_equal; [|apply IH; auto]. f_equal. destruct G1, G3. simpl in *. congruence.
Qed.

(** With the C++ rules for invalidated iterators: undefined behaviour exactly when two neighbours are equal. *)
Lemma search_strict : forall mn mx l, D mn -> D mx -> plt mn mx -> bisect A best eqb th mn mx l ->
  exists fuel, forall prev,
    ((exists p q x y, neighbours (mn :: l ++ [mx]) p q /\ best p = Ok x /\ best q = Ok y /\ eqb y x = true) ->
       search true fuel prev th mn mx = UB) /\
    ((forall p q x y, neighbours (mn :: l ++ [mx]) p q -> best p = Ok x -> best q = Ok y -> eqb y x = false) ->
       exists st, search true fuel prev th mn mx = Ok st /\ ps_list st = mn :: l ++ [mx] /\
                  search false fuel prev th mn mx = Ok st).
Proof.
  intros mn mx l Hn Hx Hlt Bi. destruct (bisect_add A D th B best pn_param eqb best_ok mn mx l Bi Hn Hx Hlt) as [fuel F].
  exists fuel. intro prev. destruct (search_eval true fuel prev mn mx Hn Hx Hlt) as (a & b & Ea & Eb & H).
  destruct (search_eval false fuel prev mn mx Hn Hx Hlt) as (a' & b' & Ea' & Eb' & H').
  assert (a' = a) by congruence. assert (b' = b) by congruence. subst a' b'.
  destruct (F a b ([mn], [(mn, a)])) as [[l' ps] R]; [split; auto|split; auto|]. rewrite R in H, H'.
  destruct H as (pts & Ev & _ & Eps & Es). destruct H' as (pts' & Ev' & _ & Eps' & Es').
  assert (pts' = pts) by (rewrite Eps in Eps'; inversion Eps'; auto). subst pts'.
  pose proof Ev as (G & _ & Bi').
  assert (El := bisect_det _ _ _ Bi _ Bi').
  assert (EF : map fst ((mn, a) :: pts ++ [(mx, b)]) = mn :: l ++ [mx]) by (rewrite map_cons, map_app, <- El; auto).
  rewrite Es, Es'. split.
  - intros (p & q & x & y & (l1 & l2 & N) & Ep & Eq & E). rewrite (dedup_strict mn mx a b pts Ev); auto.
    assert (exists m1 m2, (mn, a) :: pts ++ [(mx, b)] = m1 ++ (p, x) :: (q, y) :: m2) as (m1 & m2 & Em).
    { rewrite <- EF in N. apply map_eq_app in N. destruct N as (m1 & m2 & Em & E1 & E2).
      apply map_eq_cons in E2. destruct E2 as ([p' x'] & m3 & -> & Ep' & E2). apply map_eq_cons in E2.
      destruct E2 as ([q' y'] & m4 & -> & Eq' & E2). simpl in Ep', Eq'. subst p' q'. exists m1, m4. rewrite Em. f_equal.
      rewrite Em in G. apply Forall_app in G. destruct G as [_ G]. inversion G as [|? ? [_ G1] G2]; subst.
      inversion G2 as [|? ? [_ G3] _]; subst. simpl in *. repeat f_equal; congruence. }
    exists (p, x), (q, y). split; auto. exists m1, m2; auto.
  - intro N. assert (ND : ~ dup ((mn, a) :: pts ++ [(mx, b)])).
    { intros ([p x] & [q y] & (m1 & m2 & Em) & E). rewrite Em in G. apply Forall_app in G. destruct G as [_ G].
      inversion G as [|? ? [_ G1] G2]; subst. inversion G2 as [|? ? [_ G3] _]; subst. cbn [fst snd] in G1, G3, E.
      rewrite (N p q x y) in E; auto; [discriminate|]. exists (map fst m1), (map fst m2). rewrite Em in EF.
      rewrite <- EF, map_app. auto. }
    rewrite !(dedup_full mn mx a b pts Ev) by (auto; discriminate). cbn [bind].
    eexists. split; [reflexivity|]. split; [|reflexivity]. cbn [ps_list].
    assert (Ed : dd ((mn, a) :: pts ++ [(mx, b)]) = (mn, a) :: pts ++ [(mx, b)]).
    { simpl. f_equal. apply keep_all; auto. }
    rewrite Ed. auto.
Qed.

(** ** Consecutive results differ *)
Section Eqv.
Context (OKp : Pn -> Prop).
Context (best_OK : forall p x, D p -> best p = Ok x -> OKp x).
Context (eqb_sym : forall x y, OKp x -> OKp y -> eqb x y = true -> eqb y x = true).
Context (eqb_trans : forall x y z, OKp x -> OKp y -> OKp z -> eqb x y = true -> eqb y z = true -> eqb x z = true).

Lemma good_OK : forall kx, good kx -> OKp (snd kx).
Proof. intros kx [H1 H2]. eapply best_OK; eauto. Qed.

Lemma keep_first : forall l prev rep, Forall good (prev :: l) -> OKp (snd rep) -> eqb (snd prev) (snd rep) = true \/ prev = rep ->
  forall u r, keep prev l = u :: r -> eqb (snd u) (snd rep) = false.
Proof.
  induction l as [|y l IH]; intros prev rep G Or He u r E; simpl in E; [discriminate|].
  inversion G as [|? ? G1 G2]; subst. inversion G2 as [|? ? G3 G4]; subst.
  destruct (eqb (snd y) (snd prev)) eqn:Ey.
  - apply (IH y rep G2 Or) with (u := u) (r := r); auto. left.
    destruct He as [He| ->]; auto. apply (eqb_trans _ (snd prev)); auto; apply good_OK; auto.
  - inversion E; subst. destruct (eqb (snd u) (snd rep)) eqn:Eu; auto.
    destruct He as [He| ->]; [|congruence]. exfalso.
    assert (eqb (snd u) (snd prev) = true); [|congruence].
    apply (eqb_trans _ (snd rep)); auto; try (apply good_OK; auto). apply eqb_sym; auto. apply good_OK; auto.
Qed.

Lemma keep_differ : forall l prev, Forall good (prev :: l) ->
  forall u v, neighbours (prev :: keep prev l) u v -> eqb (snd v) (snd u) = false.
Proof.
  assert (H : forall l prev rep, Forall good (prev :: l) -> good rep -> eqb (snd prev) (snd rep) = true \/ prev = rep ->
    forall u v, neighbours (rep :: keep prev l) u v -> eqb (snd v) (snd u) = false).
  { induction l as [|y l IH]; intros prev rep G Gr He u v (l1 & l2 & N).
    - exfalso. simpl in N. apply (f_equal (@length _)) in N. rewrite app_length in N. simpl in N. lia.
    - simpl in N. inversion G as [|? ? G1 G2]; subst. inversion G2 as [|? ? G3 G4]; subst.
      destruct (eqb (snd y) (snd prev)) eqn:Ey.
      + apply (IH y rep G2 Gr) with (u := u) (v := v); [|exists l1, l2; auto]. left.
        destruct He as [He| ->]; auto. apply (eqb_trans _ (snd prev)); auto; apply good_OK; auto.
      + destruct l1 as [|w l1].
        * simpl in N. inversion N; subst. eapply (keep_first (v :: l) prev u G); eauto; [apply good_OK; auto|].
          simpl. rewrite Ey. eauto.
        * simpl in N. injection N as E1 N. apply (IH y y G2 G3) with (u := u) (v := v); auto. exists l1, l2. auto. }
  intros l prev G u v N. inversion G; subst. eapply (H l prev prev); eauto.
Qed.

Lemma search_differ : forall fuel prev mn mx st, D mn -> D mx -> plt mn mx ->
  search false fuel prev th mn mx = Ok st ->
  forall p q x y, neighbours (ps_parts st) (p, x) (q, y) -> eqb x y = false.
Proof.
  intros fuel prev mn mx st Hn Hx Hlt E p q x y N. destruct (search_ok _ _ _ _ _ Hn Hx Hlt E) as (a & b & pts & (G & _) & ->).
  simpl in N. pose proof (keep_differ _ _ G (p, x) (q, y) N) as K. simpl in K.
  destruct (eqb x y) eqn:Ex; auto. rewrite eqb_sym in K; auto.
  - rewrite Forall_forall in G. destruct N as (l1 & l2 & N).
    apply (good_OK (p, x)). apply G. apply (dd_In ((mn, a) :: pts ++ [(mx, b)])). cbn [dd SearchFacts.dd]. unfold SearchFacts.dd.
    rewrite N. apply in_or_app. right. left. auto.
  - rewrite Forall_forall in G. destruct N as (l1 & l2 & N).
    apply (good_OK (q, y)). apply G. apply (dd_In ((mn, a) :: pts ++ [(mx, b)])). unfold SearchFacts.dd.
    rewrite N. apply in_or_app. right. right. left. auto.
Qed.

End Eqv.
End M.
