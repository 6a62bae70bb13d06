(** * Pointer-level sessions refine value-level ones. *)
From Coq Require Import Lia.
From Verif Require Import Base BaseFacts Arith Quality Utm Hierarchy Values Qualities Partitions Partitioners TradeoffHeap SpecHeap HeapFacts Session.

Lemma F2_mono_In : forall X Y (R Q : X -> Y -> Prop) u v, (forall a b, In a u -> R a b -> Q a b) -> Forall2 R u v -> Forall2 Q u v.
Proof. intros X Y R Q u v H K. induction K; constructor; auto. - apply H; simpl; auto. - apply IHK. intros; apply H; simpl; auto. Qed.

Lemma NoDup_app_disj : forall X (u v : list X), NoDup (u ++ v) -> forall a, In a u -> In a v -> False.
Proof.
  intros X u. induction u as [|x u IH]; intros v H a Hu Hv; [contradiction|]. inversion H; subst. destruct Hu as [->|Hu].
  - apply H2, in_or_app. auto.
  - eapply IH; eauto.
Qed.
Lemma NoDup_app_l' : forall X (u v : list X), NoDup (u ++ v) -> NoDup u.
Proof. intros X u v H. induction u; [constructor|]. inversion H; subst. constructor; auto. intro K. apply H2, in_or_app. auto. Qed.
Lemma NoDup_app_r' : forall X (u v : list X), NoDup (u ++ v) -> NoDup v.
Proof. intros X u v H. induction u; auto. inversion H; auto. Qed.
Lemma NoDup_app_intro : forall X (u v : list X), NoDup u -> NoDup v -> (forall a, In a u -> In a v -> False) -> NoDup (u ++ v).
Proof.
  intros X u v Hu Hv H. induction Hu as [|x u N Hu IH]; auto. simpl. constructor.
  - intro K. apply in_app_or in K. destruct K; auto. eapply H; [left; reflexivity|auto].
  - apply IH. intros a Ka Kb. eapply H; [right; exact Ka|exact Kb].
Qed.

Section Gen.
Context (A : arith) (PT VT C K N : Type).
Notation heap := (heap A).
Notation quality := (quality A).
Notation tab := (tab A).
Notation ext := (ext A).
Variables (ptrs : PT -> list Z) (den : heap -> PT -> VT -> Prop) (plook : PT -> K -> res Z) (vlook : VT -> K -> res quality)
  (choiceOf : N -> C) (keysOf : N -> list K) (parOf : N -> par A) (totalOf : N -> quality).
Variables (compute : heap -> res (heap * PT)) (normalize : heap -> PT -> res heap) (best : heap -> PT -> par A -> res (heap * hpn A C K)).
Variables (vcompute : res VT) (vnormalize : VT -> res VT) (vbest : VT -> par A -> res N).

Hypothesis den_mono : forall hp hp' t tq, den hp t tq -> (forall a, In a (ptrs t) -> vget hp' a = vget hp a) -> den hp' t tq.
Hypothesis den_ptrs : forall hp t tq a, den hp t tq -> In a (ptrs t) -> 0 <= a < vlen hp.
Hypothesis den_look : forall hp t tq k, den hp t tq -> rsim (tab hp) (plook t k) (vlook tq k).
Hypothesis Hcompute : forall hp, rsim (fun r tq => ext hp (fst r) /\ den (fst r) (snd r) tq /\ NoDup (ptrs (snd r)) /\
  forall a, In a (ptrs (snd r)) -> vlen hp <= a) (compute hp) vcompute.
Hypothesis Hnorm : forall hp t tq, den hp t tq -> NoDup (ptrs t) ->
  rsim (fun hp' tq' => den hp' t tq' /\ vlen hp' = vlen hp /\ forall a, ~ In a (ptrs t) -> vget hp' a = vget hp a) (normalize hp t) (vnormalize tq).
Hypothesis Hbest : forall hp t tq p, den hp t tq ->
  rsim (fun r x => let '(hp', y) := r in ext hp hp' /\ pn_choice y = choiceOf x /\ pn_par y = parOf x /\ tab hp' (pn_qual y) (totalOf x) /\
    vlen hp <= pn_qual y /\ map fst (pn_parts y) = keysOf x /\ forall k a, In (k, a) (pn_parts y) -> plook t k = Ok a) (best hp t p) (vbest tq p).

Definition entry (hp : heap) (tabs : list PT) (e : Z * hpn A C K) (e' : Z * N) : Prop :=
  fst e = fst e' /\ pn_choice (snd e) = choiceOf (snd e') /\ pn_par (snd e) = parOf (snd e') /\ tab hp (pn_qual (snd e)) (totalOf (snd e')) /\
  map fst (pn_parts (snd e)) = keysOf (snd e') /\
  exists t, vget tabs (fst e) = Ok t /\ forall k a, In (k, a) (pn_parts (snd e)) -> plook t k = Ok a.

Definition addrs (tabs : list PT) (log : list (Z * hpn A C K)) : list Z := concat (map ptrs tabs) ++ map (fun e => pn_qual (snd e)) log.

Definition RS (s : hs_state A PT C K) (s' : vs_state VT N) : Prop :=
  let '(hp, tabs, log) := s in let '(tabs', log') := s' in
  Forall2 (den hp) tabs tabs' /\ NoDup (addrs tabs log) /\ Forall2 (entry hp tabs) log log'.

Lemma addrs_bound : forall hp tabs log tabs' log' a, Forall2 (den hp) tabs tabs' -> Forall2 (entry hp tabs) log log' ->
  In a (addrs tabs log) -> 0 <= a < vlen hp.
Proof.
  intros hp tabs log tabs' log' a H H' I. unfold addrs in I. apply in_app_or in I. destruct I as [I|I].
  - clear H'. induction H as [|t tq tabs tabs' D H IH]; [contradiction|]. simpl in I. apply in_app_or in I. destruct I as [I|I]; [eapply den_ptrs; eauto|].
    apply IH; auto.
  - clear H. induction H' as [|e e' log log' D H IH]; [contradiction|]. destruct I as [<-|I]; auto.
    destruct D as (_ & _ & _ & D & _). eapply vget_inv; eauto.
Qed.

Lemma entry_ext : forall hp hp' tabs tabs2 e e', ext hp hp' -> entry hp tabs e e' -> entry hp' (tabs ++ tabs2) e e'.
Proof.
  intros hp hp' tabs tabs2 e e' E (E1 & E2 & E3 & E4 & E5 & t & E6 & E7). unfold entry. repeat (split; auto).
  - eapply vget_ext_heap; eauto.
  - exists t. split; auto. rewrite vget_app_l; auto. apply vget_inv in E6. lia.
Qed.

Lemma den_ext : forall hp hp' t tq, ext hp hp' -> den hp t tq -> den hp' t tq.
Proof. intros hp hp' t tq E D. eapply den_mono; eauto. intros a Ha. apply ext_vget; auto. eapply den_ptrs; eauto. Qed.

Lemma last_split : forall X (l : list X) x, vget l (vlen l - 1) = Ok x -> exists l', l = l' ++ [x].
Proof.
  intros X l x H. destruct (rev l) as [|y r] eqn:E.
  - apply (f_equal (@rev X)) in E. rewrite rev_involutive in E. subst. discriminate.
  - apply (f_equal (@rev X)) in E. rewrite rev_involutive in E. simpl in E. subst l. exists (rev r). f_equal.
    rewrite vlen_app in H. unfold vlen at 2 in H. simpl in H. replace (vlen (rev r) + 1 - 1) with (vlen (rev r)) in H by lia.
    rewrite vget_last in H. congruence.
Qed.

Lemma step_sim : forall e s s', RS s s' -> rsim RS (hs_step A PT C K compute normalize best e s) (vs_step A VT N vcompute vnormalize vbest e s').
Proof.
  intros e [[hp tabs] log] [tabs' log'] (D & ND & L). pose proof (fun a => addrs_bound hp tabs log tabs' log' a D L) as B.
  destruct e as [| |k p]; cbn [hs_step vs_step].
  - eapply rsim_bind; [apply Hcompute|]. intros [hp1 t] tq (E1 & D1 & N1 & F1). cbn [fst snd] in *. cbn [rsim RS]. split; [|split].
    + apply Forall2_app; [|constructor; auto]. eapply F2_impl; [|exact D]. intros; eapply den_ext; eauto.
    + unfold addrs in *. rewrite map_app, concat_app. cbn [map concat]. rewrite app_nil_r.
      pose proof (NoDup_app_l' _ _ _ ND) as ND1. pose proof (NoDup_app_r' _ _ _ ND) as ND2.
      rewrite <- app_assoc. apply NoDup_app_intro; auto.
      * apply NoDup_app_intro; auto. intros a Ia Ib. specialize (F1 a Ia). specialize (B a ltac:(apply in_or_app; right; auto)). lia.
      * intros a Ia Ib. apply in_app_or in Ib. destruct Ib as [Ib|Ib]; [|eapply NoDup_app_disj; eauto].
        specialize (F1 a Ib). specialize (B a ltac:(apply in_or_app; left; auto)). lia.
    + eapply F2_impl; [|exact L]. intros; apply (entry_ext hp); auto.
  - pose proof (F2_len _ _ _ _ _ D) as Len. rewrite <- Len.
    destruct (vget tabs (vlen tabs - 1)) as [t| |] eqn:Et; [|pose proof (rsim_vget _ _ _ _ _ (vlen tabs - 1) D) as K0; rewrite Et in K0;
      destruct (vget tabs' (vlen tabs - 1)); simpl in *; tauto|exfalso; eapply vget_not_fuel; eauto].
    destruct (last_split _ _ _ Et) as [tabs1 ->].
    pose proof (rsim_vget _ _ _ _ _ (vlen (tabs1 ++ [t]) - 1) D) as K0. rewrite Et in K0.
    destruct (vget tabs' (vlen (tabs1 ++ [t]) - 1)) as [tq| |] eqn:Etq; simpl in K0; try tauto. cbn [bind].
    rewrite Len in Etq. destruct (last_split _ _ _ Etq) as [tabs1' ->].
    apply Forall2_app_inv_l in D. destruct D as (d1 & d2 & D1 & D2 & Ed). inversion D2; subst. inversion H3; subst. clear H3 D2.
    apply app_inj_tail in Ed. destruct Ed as [<- <-].
    assert (Ep : addrs (tabs1 ++ [t]) log = concat (map ptrs tabs1) ++ ptrs t ++ map (fun e => pn_qual (snd e)) log).
    { unfold addrs. rewrite map_app, concat_app. cbn [map concat]. rewrite app_nil_r, <- app_assoc. auto. }
    pose proof ND as ND0. rewrite Ep in ND. pose proof (NoDup_app_r' _ _ _ ND) as ND1.
    eapply rsim_bind; [apply Hnorm; [exact K0|exact (NoDup_app_l' _ _ _ ND1)]|]. intros hp1 tq1 (D3 & L1 & O1).
    assert (Es : vset (tabs1' ++ [tq]) (vlen (tabs1 ++ [t]) - 1) tq1 = Ok (tabs1' ++ [tq1])).
    { rewrite Len, vlen_app. unfold vlen at 2. simpl. replace (vlen tabs1' + 1 - 1) with (vlen tabs1') by lia. apply vset_last. }
    rewrite Es. cbn [bind rsim RS]. split; [|split; auto].
    + apply Forall2_app; [|constructor; auto].
      assert (G : forall x, In x tabs1 -> forall a, In a (ptrs x) -> ~ In a (ptrs t)).
      { intros x Hx a Ha Hb. eapply NoDup_app_disj; [exact ND| |apply in_or_app; left; exact Hb]. apply in_concat. exists (ptrs x). split; auto. apply in_map; auto. }
      eapply F2_mono_In; [|exact D1]. intros x xq Hx Hd. eapply den_mono; [exact Hd|]. intros a Ha. apply O1. apply (G x); auto.
    + assert (G : forall x, In x log -> ~ In (pn_qual (snd x)) (ptrs t)).
      { intros x Hx Ha. eapply NoDup_app_disj; [exact ND1|exact Ha|]. apply (in_map (fun e => pn_qual (snd e))). auto. }
      eapply F2_mono_In; [|exact L]. intros x x' Hx (E1 & E2 & E3 & E4 & E5 & E6). unfold entry. repeat (split; auto).
      unfold HeapFacts.tab in *. rewrite O1; auto.
  - destruct (vget tabs k) as [t| |] eqn:Et; [|pose proof (rsim_vget _ _ _ _ _ k D) as K0; rewrite Et in K0;
      destruct (vget tabs' k); simpl in *; tauto|exfalso; eapply vget_not_fuel; eauto].
    pose proof (rsim_vget _ _ _ _ _ k D) as K0. rewrite Et in K0. destruct (vget tabs' k) as [tq| |] eqn:Etq; simpl in K0; try tauto. cbn [bind].
    eapply rsim_bind; [apply Hbest; exact K0|]. intros [hp1 y] x (E1 & E2 & E3 & E4 & E5 & E6 & E7). cbn [rsim RS]. split; [|split].
    + eapply F2_impl; [|exact D]. intros; eapply den_ext; eauto.
    + unfold addrs in *. rewrite map_app. cbn [map snd]. rewrite app_assoc. apply NoDup_app_intro; auto.
      * constructor; [intros []|constructor].
      * intros a Ia [<-|[]]. apply B in Ia. lia.
    + apply Forall2_app.
      * eapply F2_impl; [|exact L]. intros a b Hab. rewrite <- (app_nil_r tabs). apply (entry_ext hp); auto.
      * constructor; [|constructor]. unfold entry. cbn [fst snd]. repeat (split; auto). exists t. auto.
Qed.

(** What the pointer-level log says at the end, in terms of the value-level session. *)
Definition reports (hp : heap) (tabs' : list VT) (e : Z * hpn A C K) (e' : Z * N) : Prop :=
  fst e = fst e' /\ pn_choice (snd e) = choiceOf (snd e') /\ pn_par (snd e) = parOf (snd e') /\
  vget hp (pn_qual (snd e)) = Ok (totalOf (snd e')) /\
  map fst (pn_parts (snd e)) = keysOf (snd e') /\
  exists tq, vget tabs' (fst e) = Ok tq /\ forall k a, In (k, a) (pn_parts (snd e)) -> exists q, vget hp a = Ok q /\ vlook tq k = Ok q.

Theorem run_sim : forall es, rsim (fun s s' => Forall2 (reports (fst (fst s)) (fst s')) (snd s) (snd s'))
  (hs_run A PT C K compute normalize best es) (vs_run A VT N vcompute vnormalize vbest es).
Proof.
  intro es. unfold hs_run, vs_run. eapply rsim_weaken; [apply rsim_mfold with (R := RS)|].
  - intros e s s' _ H. apply step_sim; auto.
  - cbn. repeat split; constructor.
  - intros [[hp tabs] log] [tabs' log'] (D & _ & L). cbn [fst snd]. eapply F2_impl; [|exact L].
    intros e e' (E1 & E2 & E3 & E4 & E5 & t & E6 & E7). unfold reports. repeat (split; auto).
    pose proof (rsim_vget _ _ _ _ _ (fst e) D) as K0. rewrite E6 in K0. destruct (vget tabs' (fst e)) as [tq| |]; simpl in K0; try tauto.
    exists tq. split; auto. intros k a Ia. pose proof (den_look _ _ _ k K0) as K1. rewrite (E7 k a Ia) in K1.
    destruct (vlook tq k) as [q| |]; simpl in K1; try tauto. exists q. auto.
Qed.
End Gen.
