(** * Facts for property C93: how many partitions the search computes. *)
From Coq Require Import Lia Sorting.Sorted.
From Verif Require Import Base BaseFacts Arith Quality Partitioners Search Cost SpecSearch SearchFacts SearchProofs.

Section M.
Context (A : arith).
Notation par := (par A).
Notation plt := (plt A).
Section E.
Context {Pn Tu : Type}.
Context (best : par -> res Pn) (pn_param : Pn -> par) (eqb : Pn -> Pn -> bool)
        (pn_quality : Pn -> quality A) (pn_tuples : Pn -> list Tu).
Notation add := (s_add A best pn_param eqb).
Notation addc := (s_addc A best pn_param eqb).
Notation search := (s_computeBestPartitions A best pn_param eqb pn_quality pn_tuples).
Notation searchc := (s_searchc A best pn_param eqb pn_quality pn_tuples).

(** The counter is the growth of the list. *)
Lemma addc_add : forall fuel th a b st n, addc fuel th a b st n = let* r := add fuel th a b st in Ok (r, n + (vlen (fst r) - vlen (fst st))).
Proof.
  induction fuel as [|fuel IH]; intros th a b st n; [reflexivity|]. cbn [s_addc s_add]. destruct (negb (eqb a b) && s_wide A th (pn_param a) (pn_param b)).
  - unfold called. destruct (best (s_mid A (pn_param a) (pn_param b))) as [c| |]; cbn [bind]; [|reflexivity|reflexivity]. rewrite IH. destruct (add fuel th a c st) as [[l ps]| |]; cbn [bind]; [|reflexivity|reflexivity].
    rewrite IH. destruct (add fuel th c b _) as [[l2 ps2]| |]; cbn [bind]; [|reflexivity|reflexivity]. do 2 f_equal. cbn [fst]. unfold vlen. rewrite app_length. cbn [length]. lia.
  - cbn [bind]. do 2 f_equal. lia.
Qed.
Lemma searchc_search : forall strict fuel prev th mn mx, (let* r := searchc strict fuel prev th mn mx in Ok (fst r)) = search strict fuel prev th mn mx.
Proof.
  intros. unfold s_searchc, s_computeBestPartitions, called, cleared. destruct (best mn) as [a| |]; cbn [bind]; [|reflexivity|reflexivity]. destruct (best mx) as [b| |]; cbn [bind]; [|reflexivity|reflexivity].
  rewrite addc_add. destruct (add fuel th a b _) as [[l ps]| |]; cbn [bind]; [|reflexivity|reflexivity]. destruct (s_dedup A eqb strict _) as [[l2 ps2]| |]; cbn [bind fst]; reflexivity.
Qed.
End E.

Context (D : par -> Prop) (th : par) (B : bisectable A D th).
Context {Pn Tu : Type}.
Context (best : par -> res Pn) (pn_param : Pn -> par) (eqb : Pn -> Pn -> bool)
        (pn_quality : Pn -> quality A) (pn_tuples : Pn -> list Tu).
Context (best_ok : forall p, D p -> exists x, best p = Ok x /\ pn_param x = p).
Notation add := (s_add A best pn_param eqb).
Notation search := (s_computeBestPartitions A best pn_param eqb pn_quality pn_tuples).
Notation searchc := (s_searchc A best pn_param eqb pn_quality pn_tuples).
Notation good := (good A D best).
Notation keep := (keep A eqb).
Context (OKp : Pn -> Prop).
Context (best_OK : forall p x, D p -> best p = Ok x -> OKp x).
Context (eqb_sym : forall x y, OKp x -> OKp y -> eqb x y = true -> eqb y x = true).
Context (eqb_trans : forall x y z, OKp x -> OKp y -> OKp z -> eqb x y = true -> eqb y z = true -> eqb x z = true).

Lemma keep_app : forall l1 u x l2, keep u (l1 ++ x :: l2) = keep u (l1 ++ [x]) ++ keep x l2.
Proof.
  induction l1 as [|y l1 IH]; intros u x l2; cbn [app SearchFacts.keep]; [destruct (eqb (snd x) (snd u)); reflexivity|]. rewrite IH. destruct (eqb (snd y) (snd u)); reflexivity.
Qed.
Lemma keep_len : forall l u, (length (keep u l) <= length l)%nat.
Proof. induction l as [|y l IH]; intro u; cbn [SearchFacts.keep length]; [lia|]. specialize (IH y). destruct (eqb (snd y) (snd u)); cbn [length]; lia. Qed.
Lemma keep_nil : forall l u v, Forall good (u :: l ++ [v]) -> keep u (l ++ [v]) = [] -> eqb (snd v) (snd u) = true.
Proof.
  induction l as [|y l IH]; intros u v G E; cbn [app SearchFacts.keep] in E.
  - destruct (eqb (snd v) (snd u)) eqn:K; [reflexivity|discriminate E].
  - destruct (eqb (snd y) (snd u)) eqn:K; [|discriminate E]. inversion G as [|? ? Gu G']; subst. specialize (IH y v G' E). inversion G' as [|? ? Gy G'']; subst. apply Forall_app in G''. destruct G'' as [_ Gv]. inversion Gv as [|? ? Gv' _]; subst.
    apply (eqb_trans _ (snd y)); auto; eapply (good_OK A D best OKp best_OK); eauto.
Qed.

Lemma add_step : forall f a b st, add (S f) th a b st =
  if negb (eqb a b) && s_wide A th (pn_param a) (pn_param b) then
    let* c := best (s_mid A (pn_param a) (pn_param b)) in
    let* r := add f th a c st in
    let '(l, ps) := r in
    add f th c b (l ++ [s_mid A (pn_param a) (pn_param b)], fmap_set A ps (s_mid A (pn_param a) (pn_param b)) c)
  else Ok st.
Proof. reflexivity. Qed.
Lemma add_bound : forall fuel a b pa pb l ps r, good (pa, a) -> good (pb, b) -> plt pa pb ->
  Forall D (map fst ps) -> (forall k, In k (map fst ps) -> plt k pa \/ k = pa) -> add (S fuel) th a b (l, ps) = Ok r ->
  exists pts, r = (l ++ map fst pts, ps ++ pts) /\ Forall good pts /\ (length pts <= fuel * length (keep (pa, a) (pts ++ [(pb, b)])))%nat.
Proof.
  induction fuel as [|fuel IH]; intros a b pa pb l ps r Ga Gb Hlt Hd Hk E.
  { rewrite add_step in E. destruct (negb (eqb a b) && s_wide A th (pn_param a) (pn_param b)).
    - destruct (best (s_mid A (pn_param a) (pn_param b))); cbn [bind] in E; discriminate E.
    - injection E as <-. exists []. rewrite !app_nil_r. cbn [length]. split; [reflexivity|]. split; [constructor|lia]. }
  rewrite add_step in E.
  rewrite (good_param A D best pn_param best_ok _ _ Ga), (good_param A D best pn_param best_ok _ _ Gb) in E.
  destruct (eqb a b) eqn:Eab; [cbn [negb andb] in E; injection E as <-; exists []; rewrite !app_nil_r; cbn [length]; split; [reflexivity|]; split; [constructor|lia]|].
  destruct (s_wide A th pa pb) eqn:Ew; [|cbn [negb andb] in E; injection E as <-; exists []; rewrite !app_nil_r; cbn [length]; split; [reflexivity|]; split; [constructor|lia]]. cbn [negb andb] in E.
  unfold s_mid in E. destruct (bis_mid _ _ _ B pa pb (proj1 Ga) (proj1 Gb) Hlt Ew) as (Dm & L1 & L2). set (m := p_add A pa (p_half A (p_sub A pb pa))) in *.
  destruct (best_ok m Dm) as (c & Ec & Pc). rewrite Ec in E. cbn [bind] in E. assert (Gc : good (m, c)) by (split; auto).
  apply bind_ok in E. destruct E as ([l' ps'] & E1 & E2). cbv beta iota in E2.
  destruct (s_add_ok A D th B best pn_param eqb best_ok _ _ _ _ _ _ _ _ Ga Gc L1 Hd Hk E1) as (q1 & Q1 & G1 & C1 & _).
  destruct (IH _ _ _ _ _ _ _ Ga Gc L1 Hd Hk E1) as (p1 & P1 & _ & N1). rewrite Q1 in P1. injection P1 as _ P1. apply app_inv_head in P1. subst p1. injection Q1 as -> ->.
  assert (F1 : Forall good ((pa, a) :: q1 ++ [(m, c)])) by (constructor; auto; apply Forall_app; split; auto). pose proof (chain_sorted A D th B best eqb q1 (pa, a) (m, c) F1 C1) as S1.
  assert (D1 : Forall D (map fst (ps ++ q1))). { rewrite map_app. apply Forall_app. split; auto. apply Forall_map. eapply Forall_impl; [|exact G1]. intros kx [? _]; auto. }
  assert (K1 : forall k, In k (map fst (ps ++ q1)) -> plt k m).
  { intros k H. rewrite map_app in H. apply in_app_or in H. destruct H as [H|H].
    - assert (D k) by (rewrite Forall_forall in Hd; auto). destruct (Hk k H) as [Hz| ->]; auto. apply (bis_trans _ _ _ B k pa m); auto. apply Ga.
    - rewrite map_cons, map_app in S1. change (fst (pa, a) :: map fst q1 ++ map fst [(m, c)]) with ((pa :: map fst q1) ++ [m]) in S1. apply SSorted_app in S1. destruct S1 as (_ & _ & S1). apply S1; simpl; auto. }
  rewrite (fmap_set_last A D th B) in E2 by auto.
  assert (Q1 : Forall D (map fst ((ps ++ q1) ++ [(m, c)]))) by (rewrite map_app; apply Forall_app; split; auto; constructor; auto).
  assert (Q2 : forall k, In k (map fst ((ps ++ q1) ++ [(m, c)])) -> plt k m \/ k = m) by (intros k H; rewrite map_app in H; apply in_app_or in H; destruct H as [H|[<-|[]]]; auto).
  destruct (IH _ _ _ _ _ _ _ Gc Gb L2 Q1 Q2 E2) as (p2 & -> & G2 & N2). exists (q1 ++ (m, c) :: p2). split; [rewrite map_app, <- !app_assoc; reflexivity|]. assert (G12 : Forall good (q1 ++ (m, c) :: p2)) by (apply Forall_app; split; auto). split; [exact G12|].
  assert (NZ : keep (pa, a) ((q1 ++ (m, c) :: p2) ++ [(pb, b)]) <> []).
  { intro Z. apply keep_nil in Z; [|constructor; auto; apply Forall_app; split; auto]. cbn [snd] in Z. apply eqb_sym in Z; [congruence| |]; [apply (good_OK A D best OKp best_OK _ Gb)|apply (good_OK A D best OKp best_OK _ Ga)]. }
  rewrite <- app_assoc. cbn [app]. rewrite keep_app, !app_length. cbn [length]. rewrite <- app_assoc in NZ. cbn [app] in NZ. rewrite keep_app in NZ.
  assert (1 <= length (keep (pa, a) (q1 ++ [(m, c)])) + length (keep (m, c) (p2 ++ [(pb, b)])))%nat.
  { destruct (keep (pa, a) (q1 ++ [(m, c)])); [|cbn; lia]. destruct (keep (m, c) (p2 ++ [(pb, b)])); [exfalso; apply NZ; reflexivity|cbn; lia]. }
  nia.
Qed.

(** The number of calls against the number of listed partitions. *)
Lemma search_calls : forall fuel k prev mn mx st c, D mn -> D mx -> plt mn mx -> searchc false fuel prev th mn mx = Ok (st, c) -> (exists st', search false (S k) prev th mn mx = Ok st') ->
  vlen (ps_list st) <= c <= 2 + Z.of_nat k * (vlen (ps_list st) - 1).
Proof.
  intros fuel k prev mn mx st c Hn Hx Hlt E (st' & E').
  assert (Es : search false fuel prev th mn mx = Ok st) by (rewrite <- searchc_search, E; reflexivity).
  destruct (search_eval A D th B best pn_param eqb pn_quality pn_tuples best_ok false fuel prev mn mx Hn Hx Hlt) as (a & b & Ea & Eb & H).
  destruct (search_eval A D th B best pn_param eqb pn_quality pn_tuples best_ok false (S k) prev mn mx Hn Hx Hlt) as (a' & b' & Ea' & Eb' & H'). rewrite Ea in Ea'. injection Ea' as <-. rewrite Eb in Eb'. injection Eb' as <-.
  destruct (add fuel th a b ([mn], [(mn, a)])) as [[l ps]| |] eqn:F; [|congruence|congruence]. destruct (add (S k) th a b ([mn], [(mn, a)])) as [[l' ps']| |] eqn:F'; [|congruence|congruence].
  destruct H as (pts & Ev & -> & -> & _).
  assert (R : (l', ps') = (mn :: map fst pts, (mn, a) :: pts)).
  { pose proof (s_add_mono A th best pn_param eqb fuel (Nat.max fuel (S k)) _ _ _ _ ltac:(lia) F) as M1. pose proof (s_add_mono A th best pn_param eqb (S k) (Nat.max fuel (S k)) _ _ _ _ ltac:(lia) F') as M2. congruence. }
  rewrite R in F'. assert (Ga : good (mn, a)) by (split; auto). assert (Gb : good (mx, b)) by (split; auto).
  destruct (add_bound k a b mn mx [mn] [(mn, a)] _ Ga Gb Hlt ltac:(repeat constructor; auto) ltac:(intros q [<-|[]]; auto) F') as (pts' & Ep & _ & N). injection Ep as _ Ep. subst pts'.
  destruct (search_ok A D th B best pn_param eqb pn_quality pn_tuples best_ok _ _ _ _ _ Hn Hx Hlt Es) as (a2 & b2 & pts2 & Ev2 & Est).
  assert (c = 2 + vlen pts /\ pts2 = pts /\ a2 = a /\ b2 = b) as (-> & -> & -> & ->).
  { unfold s_searchc, called, cleared in E. rewrite Ea, Eb in E. cbn [bind app fmap_set] in E. rewrite addc_add, F in E. cbn [bind] in E. apply bind_ok in E. destruct E as ([l2 ps2] & _ & E). apply (f_equal (fun r => match r with Ok (_, z) => z | _ => 0 end)) in E. cbv beta iota in E. rewrite <- E.
    split; [cbn [fst]; unfold vlen; cbn [length]; rewrite map_length; lia|]. pose proof Ev as (Gv & _ & Bv). pose proof Ev2 as (Gv2 & _ & Bv2).
    assert (map fst pts2 = map fst pts) by (eapply (bisect_det A th best eqb); eauto).
    assert (Gp : Forall good pts) by (inversion Gv as [|? ? _ Gw]; subst; apply Forall_app in Gw; apply Gw). assert (Gp2 : Forall good pts2) by (inversion Gv2 as [|? ? _ Gw]; subst; apply Forall_app in Gw; apply Gw).
    split; [eapply (fst_snd_eq A D best); eauto|]. inversion Gv2 as [|? ? Ga2 Gw]; subst. apply Forall_app in Gw. destruct Gw as [_ Gw]. inversion Gw as [|? ? Gb2 _]; subst. destruct Ga2 as [_ Ga2], Gb2 as [_ Gb2]. cbn [fst snd] in *. split; congruence. }
  rewrite Est. cbn [result ps_list dd]. unfold SearchFacts.dd. cbn [map]. unfold vlen. cbn [length]. rewrite map_length. pose proof (keep_len (pts ++ [(mx, b)]) (mn, a)) as KL. rewrite app_length in KL. cbn [length] in KL.
  split; [lia|]. nia.
Qed.
Lemma search_exact : forall fuel prev mn mx st c, D mn -> D mx -> plt mn mx -> searchc false fuel prev th mn mx = Ok (st, c) ->
  exists l, bisect A best eqb th mn mx l /\ c = 2 + vlen l.
Proof.
  intros fuel prev mn mx st c Hn Hx Hlt E.
  assert (Es : search false fuel prev th mn mx = Ok st) by (rewrite <- searchc_search, E; reflexivity).
  destruct (search_eval A D th B best pn_param eqb pn_quality pn_tuples best_ok false fuel prev mn mx Hn Hx Hlt) as (a & b & Ea & Eb & H).
  destruct (add fuel th a b ([mn], [(mn, a)])) as [[l ps]| |] eqn:F; [|congruence|congruence]. destruct H as (pts & (_ & _ & Bv) & -> & -> & _).
  exists (map fst pts). split; [exact Bv|].
  unfold s_searchc, called, cleared in E. rewrite Ea, Eb in E. cbn [bind app fmap_set] in E. rewrite addc_add, F in E. cbn [bind] in E. apply bind_ok in E. destruct E as ([l2 ps2] & _ & E). apply (f_equal (fun r => match r with Ok (_, z) => z | _ => 0 end)) in E. cbv beta iota in E. rewrite <- E.
  cbn [fst]; unfold vlen; cbn [length]; rewrite map_length; lia.
Qed.
End M.
