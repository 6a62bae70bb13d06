(** * Sessions of the three partitioners. *)
From Coq Require Import Lia.
From Verif Require Import Base BaseFacts Arith Quality Utm UtmFacts Hierarchy SpecTree TreeFacts HierarchyFacts HierarchyProofs Values Qualities Partitions Partitioners
  TreePath CoverFacts DFacts QualInv TradeoffHeap SpecHeap HeapFacts HeapFactsD Session SessionFacts.

Section I.
Context (A : arith).
Notation heap := (heap A).
Notation quality := (quality A).
Notation tab := (tab A).
Notation ext := (ext A).

(** ** Pieces of tables *)
Lemma tab_keep : forall (hp hp' : heap) ptrs vals, Forall2 (tab hp) ptrs vals -> (forall a, In a ptrs -> vget hp' a = vget hp a) -> Forall2 (tab hp') ptrs vals.
Proof. intros hp hp' ptrs vals H K. eapply F2_mono_In; [|exact H]. intros a b Ia Hab. unfold HeapFacts.tab in *. rewrite K; auto. Qed.

Lemma tab_bound : forall (hp : heap) ptrs vals a, Forall2 (tab hp) ptrs vals -> In a ptrs -> 0 <= a < vlen hp.
Proof. intros hp ptrs vals a H. induction H as [|x y u v Hxy H IH]; intros []; subst; auto. eapply vget_inv; eauto. Qed.

Lemma NoDup_vget_inj : forall (l : list Z) i j a, NoDup l -> vget l i = Ok a -> vget l j = Ok a -> i = j.
Proof.
  intros l i j a N Hi Hj. apply vget_nth in Hi. apply vget_nth in Hj. destruct Hi as [Pi Hi], Hj as [Pj Hj].
  rewrite NoDup_nth_error in N. assert (Z.to_nat i = Z.to_nat j). { apply N; [apply nth_error_Some; congruence|congruence]. } lia.
Qed.

Lemma tab_set : forall (hp hp' : heap) ptrs vals i a q, NoDup ptrs -> Forall2 (tab hp) ptrs vals -> vget ptrs i = Ok a ->
  vget hp' a = Ok q -> (forall k, k <> a -> vget hp' k = vget hp k) ->
  exists vals', vset vals i q = Ok vals' /\ Forall2 (tab hp') ptrs vals'.
Proof.
  intros hp hp' ptrs vals i a q N H Ea Eq K. pose proof (F2_len _ _ _ _ _ H) as Len. pose proof (vget_inv _ _ _ _ Ea) as B.
  rewrite vset_ok by lia. eexists. split; [reflexivity|]. apply F2_of_vget.
  { unfold vlen in *. rewrite upd_length. lia. }
  intros k x y Hx Hy. rewrite vget_upd in Hy by lia. destruct (Z.eqb_spec k i) as [->|Ne].
  - rewrite Ea in Hx. inversion Hx; inversion Hy; subst. exact Eq.
  - unfold HeapFacts.tab. pose proof (rsim_vget _ _ _ _ _ k H) as R. rewrite Hx, Hy in R. simpl in R. rewrite K; auto.
    intros ->. apply Ne. eapply NoDup_vget_inj; eauto.
Qed.

(** One division. *)
Lemma h_div_ok : forall (hp : heap) a mx q x, vget hp a = Ok q -> vget hp mx = Ok x -> exists hp', h_div A hp a mx = Ok hp' /\ vlen hp' = vlen hp /\
  vget hp' a = Ok (q_div A q x) /\ forall k, k <> a -> vget hp' k = vget hp k.
Proof.
  intros hp a mx q x H1 H2. unfold h_div. rewrite H1, H2. cbn [bind]. pose proof (vget_inv _ _ _ _ H1) as B. rewrite vset_ok by auto.
  eexists. split; [reflexivity|]. split; [unfold vlen; rewrite upd_length; auto|]. split.
  - rewrite vget_upd, Z.eqb_refl by auto. auto.
  - intros k Hk. rewrite vget_upd by auto. destruct (Z.eqb_spec k a); congruence.
Qed.

Lemma store_ok : forall (hp : heap) qs, Forall2 (tab (hp ++ qs)) (zrange (vlen hp) (vlen hp + vlen qs)) qs.
Proof.
  intros hp qs. apply F2_of_vget. { rewrite vlen_zrange; pose proof (vlen_nonneg _ qs); lia. }
  intros k a q Ha Hq. pose proof (vget_inv _ _ _ _ Hq) as B. rewrite vget_zrange in Ha by lia. inversion Ha; subst a.
  unfold HeapFacts.tab. rewrite vget_app_r by lia. replace (vlen hp + k - vlen hp) with k by lia. exact Hq.
Qed.

(** ** Ordered *)
Definition o_look {X : Type} (t : utm X) (k : Z * Z) : res X := u_get t (fst k) (snd k).
Definition o_key (x : opart A) : Z * Z := (op_start x, op_end x).

Lemma oh_loop_ptr : forall fuel cuts t i l, oh_loop fuel cuts t i = Ok l -> forall k a, In (k, a) l -> o_look t k = Ok a.
Proof.
  induction fuel as [|fuel IH]; intros cuts t i l H k a Hk; cbn [oh_loop] in H; [discriminate|].
  destruct ((0 <=? i) && (i <? vlen cuts)); [|inversion H; subst; contradiction].
  apply bind_ok in H. destruct H as (c & H1 & H). apply bind_ok in H. destruct H as (q & H2 & H). apply bind_ok in H. destruct H as (r & H3 & H).
  inversion H; subst l. destruct Hk as [E|Hk]; [inversion E; subst; exact H2|eapply IH; eauto].
Qed.

Lemma tparts_keys : forall K hp (l : list (K * Z)) l', tparts A hp l l' -> map fst l = map fst l'.
Proof. intros K hp l l' H. induction H as [|a b l l' [E _] H IH]; simpl; auto. congruence. Qed.

Lemma o_best_full : forall hp t tq p, urel (tab hp) t tq ->
  rsim (fun r x => let '(hp', y) := r in ext hp hp' /\ pn_choice y = on_cuts x /\ pn_par y = on_param x /\ tab hp' (pn_qual y) (on_quality x) /\
    vlen hp <= pn_qual y /\ map fst (pn_parts y) = map o_key (on_parts x) /\ forall k a, In (k, a) (pn_parts y) -> o_look t k = Ok a) (oh_best A hp t p) (o_best A tq p).
Proof.
  intros hp t tq p T. pose proof (oh_best_sim A hp t tq p T) as S.
  destruct (oh_best A hp t p) as [[hp' y]| |] eqn:E, (o_best A tq p) as [x| |]; simpl in S |- *; auto.
  destruct S as (S1 & S2 & S3 & S4 & S5 & S6). repeat (split; auto).
  - rewrite (tparts_keys _ _ _ _ S6), map_map. reflexivity.
  - unfold oh_best in E. apply bind_ok in E. destruct E as ([[[h1 tx] cut] tr] & _ & E). apply bind_ok in E. destruct E as (l & El & E).
    apply bind_ok in E. destruct E as ([h2 a] & _ & E). inversion E; subst. cbn [pn_parts]. eapply oh_loop_ptr; eauto.
Qed.

Lemma o_norm_full : forall (v : ovalues A) hp t tq, urel (tab hp) t tq -> NoDup (u_data t) ->
  rsim (fun hp' tq' => urel (tab hp') t tq' /\ vlen hp' = vlen hp /\ forall a, ~ In a (u_data t) -> vget hp' a = vget hp a)
    (oh_normalize A hp t (ov_osize v)) (let* o := oq_normalize A (mkOQ A (Some v) (Some tq)) in some_table (oq_table o)).
Proof.
  intros v hp t tq (S1 & S2 & S3) ND. unfold oh_normalize, oq_normalize. cbn [oq_table oq_values]. unfold u_get. rewrite <- S1.
  set (im := u_index (u_size t) 0 (ov_osize v - 1)).
  pose proof (rsim_vget _ _ _ _ _ im S3) as K0. destruct (vget (u_data t) im) as [mx| |] eqn:Em, (vget (u_data tq) im) as [x0| |]; simpl in K0; try tauto; cbn [bind]; try exact Logic.I.
  unfold u_normalize. rewrite <- S2.
  match goal with |- rsim ?P ?x (bind (bind ?y ?f) ?g) => assert (Q : rsim (fun hp' tq' => urel (tab hp') t tq' /\ vlen hp' = vlen hp /\ forall a, ~ In a (u_data t) -> vget hp' a = vget hp a) x y) end.
  { unfold for_up. apply rsim_mfold; [|split; [split; auto|auto]]. intros i h1 t1 _ ((R1 & R2 & R3) & L1 & O1). unfold u_at.
    pose proof (rsim_vget _ _ _ _ _ (wrap i) R3) as K1. destruct (vget (u_data t) (wrap i)) as [a| |] eqn:Ea, (vget (u_data t1) (wrap i)) as [q| |]; simpl in K1; try tauto; cbn [bind]; try exact Logic.I.
    pose proof (rsim_vget _ _ _ _ _ im R3) as K2. rewrite Em in K2. destruct (vget (u_data t1) im) as [x| |]; simpl in K2; try tauto. cbn [bind].
    destruct (h_div_ok h1 a mx q x K1 K2) as (h2 & -> & L2 & V2 & O2).
    destruct (tab_set h1 h2 _ _ _ a _ ND R3 Ea V2 O2) as (d' & Ed & R3'). unfold u_put. rewrite Ed. cbn [bind rsim]. split; [split; auto|].
    split; [lia|]. intros k Hk. rewrite O2; auto. intros ->. apply Hk. eapply vget_In; eauto. }
  match goal with |- rsim _ ?x (bind (bind ?y _) _) => destruct x as [h1| |], y as [t1| |] end; simpl in Q |- *; try tauto.
Qed.

Lemma o_compute_full : forall (v : ovalues A) hp,
  rsim (fun r tq => ext hp (fst r) /\ urel (tab (fst r)) (snd r) tq /\ NoDup (u_data (snd r)) /\ forall a, In a (u_data (snd r)) -> vlen hp <= a)
    (oh_compute A hp v) (let* o := oq_compute A (oq_ofValues A v) in some_table (oq_table o)).
Proof.
  intros v hp. unfold oh_compute, oq_compute. cbn [oq_values oq_ofValues]. destruct (oq_computeTable A v) as [t| |]; cbn [bind]; try exact Logic.I.
  unfold h_store. simpl. split; [apply ext_app|]. split; [|split].
  - split; auto. split; auto. apply store_ok.
  - apply NoDup_zrange.
  - intros a Ha. apply In_zrange in Ha. lia.
Qed.

Theorem o_session : forall (v : ovalues A) es,
  rsim (fun s s' => Forall2 (reports A _ _ _ _ o_look on_cuts (fun x => map o_key (on_parts x)) on_param on_quality (fst (fst s)) (fst s')) (snd s) (snd s'))
    (oh_run A v es) (ov_run A v es).
Proof.
  intros v es. unfold oh_run, ov_run. eapply (run_sim A (utm Z) (utm quality) (list Z) (Z * Z) (opartition A) u_data (fun hp => urel (tab hp)) o_look o_look).
  - intros hp hp' t tq (D1 & D2 & D3) K. split; auto. split; auto. eapply tab_keep; eauto.
  - intros hp t tq a (D1 & D2 & D3) I. eapply tab_bound; eauto.
  - intros hp t tq k D. apply rsim_u_get. exact D.
  - intro hp. apply o_compute_full.
  - intros hp t tq D N. apply o_norm_full; auto.
  - intros hp t tq p D. apply o_best_full; auto.
Qed.

(** ** Hierarchical *)
Definition h_look {X : Type} (t : list X) (k : Z * Z) : res X := vget t (fst k).
Definition h_key (x : hpart A) : Z * Z := (hp_h x, hp_size x).

Lemma hh_sub_ptr : forall fuel agg t m h l, hh_sub fuel agg t m h = Ok l -> forall k a, In (k, a) l -> h_look t k = Ok a.
Proof.
  induction fuel as [|fuel IH]; intros agg t m h l H k a Hk; cbn [hh_sub] in H; [discriminate|].
  apply bind_ok in H. destruct H as (b & H1 & H). destruct b.
  - apply bind_ok in H. destruct H as (q & H2 & H). inversion H; subst l. destruct Hk as [E|[]]. inversion E; subst. exact H2.
  - apply bind_ok in H. destruct H as (ch & H2 & H). apply bind_ok in H. destruct H as (ls & H3 & H). inversion H; subst l.
    apply in_concat in Hk. destruct Hk as (l & Il & Hk). apply mmap_Forall2 in H3. clear H H2.
    induction H3 as [|c l1 chs lss Hc H3 IH3]; [contradiction|]. destruct Il as [->|Il]; auto. eapply IH; eauto.
Qed.

Lemma h_best_full : forall m hp t tq p, Forall2 (tab hp) t tq ->
  rsim (fun r x => let '(hp', y) := r in ext hp hp' /\ pn_choice y = hn_agg x /\ pn_par y = hn_param x /\ tab hp' (pn_qual y) (hn_quality x) /\
    vlen hp <= pn_qual y /\ map fst (pn_parts y) = map h_key (hn_parts x) /\ forall k a, In (k, a) (pn_parts y) -> h_look t k = Ok a) (hh_best A hp t m p) (h_best A tq m p).
Proof.
  intros m hp t tq p T. pose proof (hh_best_sim A hp t tq m p T) as S.
  destruct (hh_best A hp t m p) as [[hp' y]| |] eqn:E, (h_best A tq m p) as [x| |]; simpl in S |- *; auto.
  destruct S as (S1 & S2 & S3 & S4 & S5 & S6). repeat (split; auto).
  - rewrite (tparts_keys _ _ _ _ S6), map_map. reflexivity.
  - unfold hh_best in E. apply bind_ok in E. destruct E as ([[[h1 tr] tc] agg] & _ & E). apply bind_ok in E. destruct E as (l & El & E).
    apply bind_ok in E. destruct E as ([h2 a] & _ & E). inversion E; subst. cbn [pn_parts]. eapply hh_sub_ptr; eauto.
Qed.

Lemma h_norm_full : forall (v : hvalues A) hp t tq, Forall2 (tab hp) t tq -> NoDup t ->
  rsim (fun hp' tq' => Forall2 (tab hp') t tq' /\ vlen hp' = vlen hp /\ forall a, ~ In a t -> vget hp' a = vget hp a)
    (hh_normalize A hp t (m_root (hv_meta v))) (let* o := hq_normalize A (mkHQ A (Some v) (Some tq) (hv_meta v)) in some_table (hq_table o)).
Proof.
  intros v hp t tq S3 ND. unfold hh_normalize, hq_normalize. cbn [hq_table hq_meta]. set (r := m_root (hv_meta v)).
  pose proof (rsim_vget _ _ _ _ _ r S3) as K0. destruct (vget t r) as [mx| |] eqn:Em, (vget tq r) as [x0| |]; simpl in K0; try tauto; cbn [bind]; try exact Logic.I.
  unfold h_normalize. rewrite <- (F2_len _ _ _ _ _ S3).
  match goal with |- rsim ?P ?x (bind (bind ?y ?f) ?g) => assert (Q : rsim (fun hp' tq' => Forall2 (tab hp') t tq' /\ vlen hp' = vlen hp /\ forall a, ~ In a t -> vget hp' a = vget hp a) x y) end.
  { unfold for_up. apply rsim_mfold; [|auto]. intros i h1 t1 _ (R3 & L1 & O1).
    pose proof (rsim_vget _ _ _ _ _ i R3) as K1. destruct (vget t i) as [a| |] eqn:Ea, (vget t1 i) as [q| |]; simpl in K1; try tauto; cbn [bind]; try exact Logic.I.
    pose proof (rsim_vget _ _ _ _ _ r R3) as K2. rewrite Em in K2. destruct (vget t1 r) as [x| |]; simpl in K2; try tauto. cbn [bind].
    destruct (h_div_ok h1 a mx q x K1 K2) as (h2 & -> & L2 & V2 & O2).
    destruct (tab_set h1 h2 _ _ _ a _ ND R3 Ea V2 O2) as (d' & Ed & R3'). rewrite Ed. cbn [rsim]. split; auto.
    split; [lia|]. intros k Hk. rewrite O2; auto. intros ->. apply Hk. eapply vget_In; eauto. }
  match goal with |- rsim _ ?x (bind (bind ?y _) _) => destruct x as [h1| |], y as [t1| |] end; simpl in Q |- *; try tauto.
Qed.

Lemma h_compute_full : forall (v : hvalues A) hp,
  rsim (fun r tq => ext hp (fst r) /\ Forall2 (tab (fst r)) (snd r) tq /\ NoDup (snd r) /\ forall a, In a (snd r) -> vlen hp <= a)
    (hh_compute A hp v (hv_meta v)) (let* o := hq_compute A (hq_ofValues A v) in some_table (hq_table o)).
Proof.
  intros v hp. unfold hh_compute, hq_compute. cbn [hq_values hq_ofValues hq_meta]. destruct (hq_computeTable A v (hv_meta v)) as [t| |]; cbn [bind]; try exact Logic.I.
  unfold h_store. simpl. split; [apply ext_app|]. split; [apply store_ok|]. split; [apply NoDup_zrange|].
  intros a Ha. apply In_zrange in Ha. lia.
Qed.

Theorem h_session : forall (v : hvalues A) es,
  rsim (fun s s' => Forall2 (reports A _ _ _ _ h_look hn_agg (fun x => map h_key (hn_parts x)) hn_param hn_quality (fst (fst s)) (fst s')) (snd s) (snd s'))
    (hh_run A v es) (hv_run A v es).
Proof.
  intros v es. unfold hh_run, hv_run. eapply (run_sim A (list Z) (list quality) (list bool) (Z * Z) (hpartition A) (fun t => t) (fun hp => Forall2 (tab hp)) h_look h_look).
  - intros hp hp' t tq D K. eapply tab_keep; eauto.
  - intros hp t tq a D I. eapply tab_bound; eauto.
  - intros hp t tq k D. apply rsim_vget. exact D.
  - intro hp. apply h_compute_full.
  - intros hp t tq D N. apply h_norm_full; auto.
  - intros hp t tq p D. apply h_best_full; auto.
Qed.

(** ** Spatiotemporal *)
Definition d_look {X : Type} (t : list (utm X)) (k : Z * Z * (Z * Z)) : res X := mm_get t (fst (fst k)) (fst (snd k)) (snd (snd k)).
Definition d_key (x : dpart A) : Z * Z * (Z * Z) := (dp_h x, dp_hsize x, (dp_start x, dp_end x)).
Definition d_ptrs (t : list (utm Z)) : list Z := concat (map u_data t).
Definition d_den (hp : heap) (t : list (utm Z)) (tq : list (utm quality)) : Prop :=
  Forall2 (urel (tab hp)) t tq /\ forall u, vget t 0 = Ok u -> 0 <= u_size u <= 65535.

Lemma dh_sub_ptr : forall fuel cuts t m h i j l, dh_sub fuel cuts t m h i j = Ok l -> forall k a, In (k, a) l -> d_look t k = Ok a.
Proof.
  induction fuel as [|fuel IH]; intros cuts t m h i j l H k a Hk; cbn [dh_sub] in H; [discriminate|].
  apply bind_ok in H. destruct H as (c & H1 & H). destruct (c =? -1).
  - apply bind_ok in H. destruct H as (ch & H2 & H). apply bind_ok in H. destruct H as (ls & H3 & H). inversion H; subst l.
    apply in_concat in Hk. destruct Hk as (l & Il & Hk). apply mmap_Forall2 in H3. clear H H2.
    induction H3 as [|x l1 chs lss Hc H3 IH3]; [contradiction|]. destruct Il as [->|Il]; auto. eapply IH; eauto.
  - apply bind_ok in H. destruct H as (q & H2 & H). destruct (c <? j).
    + apply bind_ok in H. destruct H as (r & H3 & H). inversion H; subst l. destruct Hk as [E|Hk]; [inversion E; subst; exact H2|eapply IH; eauto].
    + inversion H; subst l. destruct Hk as [E|[]]. inversion E; subst. exact H2.
Qed.

Lemma d_best_full : forall m, well_built m -> forall hp t tq p, d_den hp t tq ->
  rsim (fun r x => let '(hp', y) := r in ext hp hp' /\ pn_choice y = dn_cuts x /\ pn_par y = dn_param x /\ tab hp' (pn_qual y) (dn_quality x) /\
    vlen hp <= pn_qual y /\ map fst (pn_parts y) = map d_key (dn_parts x) /\ forall k a, In (k, a) (pn_parts y) -> d_look t k = Ok a) (dh_best A hp t m p) (d_best A tq m p).
Proof.
  intros m W hp t tq p [T Ht].
  assert (Hs : exists n, 0 <= n <= 65535 /\ forall u, vget t 0 = Ok u -> u_size u = n).
  { destruct (vget t 0) as [u| |]; [exists (u_size u); split; [auto|congruence]|exists 0; split; [lia|discriminate]..]. }
  destruct Hs as (n & Hn & Hu).
  pose proof (wb_L m W) as HL.
  assert (Hpath : forall k h, vget (m_path m) k = Ok h -> 0 <= h < m_hsize m).
  { intros k h E. apply (In_path m W). eapply vget_In; eauto. }
  assert (Hpar : forall k h g, vget (m_path m) k = Ok h -> k < m_hsize m - 1 -> vget (m_parents m) h = Ok g -> g <> h /\ 0 <= g < m_hsize m).
  { intros k h g E Lk Eg. pose proof (Hpath _ _ E) as Hh. assert (D : h <> m_root m) by (apply (index_root m W k); auto).
    destruct (parent_range m W h Hh D) as (Rp & Ep & Np). rewrite Ep in Eg. inversion Eg; subst. split; [exact Np|lia]. }
  pose proof (dh_best_sim A hp t tq m p n T Hn Hu ltac:(lia) Hpath Hpar) as S.
  destruct (dh_best A hp t m p) as [[hp' y]| |] eqn:E, (d_best A tq m p) as [x| |]; simpl in S |- *; auto.
  destruct S as (S1 & S2 & S3 & S4 & S5 & S6). repeat (split; auto).
  - rewrite (tparts_keys _ _ _ _ S6), map_map. reflexivity.
  - unfold dh_best in E. apply bind_ok in E. destruct E as ([[[h1 cuts] tr] tc] & _ & E). apply bind_ok in E. destruct E as (u & Eu & E).
    apply bind_ok in E. destruct E as (l & El & E).
    apply bind_ok in E. destruct E as ([h2 a] & _ & E). inversion E; subst. cbn [pn_parts]. eapply dh_sub_ptr; eauto.
Qed.

Lemma d_keep : forall (hp hp' : heap) t tq, Forall2 (urel (tab hp)) t tq -> (forall a, In a (d_ptrs t) -> vget hp' a = vget hp a) -> Forall2 (urel (tab hp')) t tq.
Proof.
  intros hp hp' t tq H K. eapply F2_mono_In; [|exact H]. intros u v Iu (E1 & E2 & E3). split; auto. split; auto. eapply tab_keep; eauto.
  intros a Ia. apply K. unfold d_ptrs. apply in_concat. exists (u_data u). split; auto. apply in_map; auto.
Qed.

Lemma d_set : forall (hp hp' : heap) t tq h i u a q, NoDup (d_ptrs t) -> Forall2 (urel (tab hp)) t tq -> vget t h = Ok u -> vget (u_data u) i = Ok a ->
  vget hp' a = Ok q -> (forall k, k <> a -> vget hp' k = vget hp k) ->
  exists uq d' tq', vget tq h = Ok uq /\ vset (u_data uq) i q = Ok d' /\ vset tq h (mkU (u_size uq) (u_elements uq) d') = Ok tq' /\ Forall2 (urel (tab hp')) t tq'.
Proof.
  intros hp hp' t tq h i u a q N H Eu Ea Eq K.
  assert (I : forall n, nth_error t n = Some u -> exists uq d', nth_error tq n = Some uq /\ vset (u_data uq) i q = Ok d' /\
     Forall2 (urel (tab hp')) t (upd n (mkU (u_size uq) (u_elements uq) d') tq)).
  { clear Eu h. induction H as [|v vq t tq (E1 & E2 & E3) H IH]; intros [|n] En; try discriminate.
    - inversion En; subst v. unfold d_ptrs in N. cbn [map concat] in N.
      destruct (tab_set hp hp' _ _ i a q (NoDup_app_l' _ _ _ N) E3 Ea Eq K) as (d' & Ed & R). exists vq, d'. split; auto. split; auto. cbn [upd].
      constructor; [split; auto|]. eapply d_keep; [exact H|]. intros b Ib. apply K. intros ->. eapply NoDup_app_disj; [exact N| |exact Ib]. eapply vget_In; eauto.
    - unfold d_ptrs in N. cbn [map concat] in N. destruct (IH (NoDup_app_r' _ _ _ N) n En) as (uq & d' & F1 & F2 & F3). exists uq, d'. split; auto. split; auto.
      cbn [upd]. constructor; auto. split; auto. split; auto. eapply tab_keep; [exact E3|]. intros b Ib. apply K. intros ->.
      eapply NoDup_app_disj; [exact N|exact Ib|]. apply in_concat. exists (u_data u). split; [|eapply vget_In; eauto]. apply in_map. eapply nth_error_In; eauto. }
  pose proof (proj1 (vget_nth _ _ _ _) Eu) as [P0 P1]. destruct (I _ P1) as (uq & d' & F1 & F2 & F3). pose proof (vget_inv _ _ _ _ Eu) as B.
  exists uq, d', (upd (Z.to_nat h) (mkU (u_size uq) (u_elements uq) d') tq). split; [apply vget_nth; auto|]. split; auto. split; auto.
  apply vset_ok. rewrite <- (F2_len _ _ _ _ _ H). lia.
Qed.

Lemma d_norm_full : forall (v : dvalues A) hp t tq, d_den hp t tq -> NoDup (d_ptrs t) ->
  rsim (fun hp' tq' => d_den hp' t tq' /\ vlen hp' = vlen hp /\ forall a, ~ In a (d_ptrs t) -> vget hp' a = vget hp a)
    (dh_normalize A hp t (dv_meta v) (dv_osize v)) (let* o := dq_normalize A (mkDQ A (Some v) (Some tq) (dv_meta v)) in some_table (dq_table o)).
Proof.
  intros v hp t tq [S3 Sn] ND. unfold dh_normalize, dq_normalize. cbn [dq_table dq_values dq_meta]. set (r := m_root (dv_meta v)).
  pose proof (rsim_vget _ _ _ _ _ r S3) as K0. destruct (vget t r) as [ur| |] eqn:Er, (vget tq r) as [urq| |]; simpl in K0; try tauto; cbn [bind]; try exact Logic.I.
  destruct K0 as (U1 & U2 & U3). unfold u_get. rewrite <- U1. set (im := u_index (u_size ur) 0 (dv_osize v - 1)).
  pose proof (rsim_vget _ _ _ _ _ im U3) as K0. destruct (vget (u_data ur) im) as [mx| |] eqn:Em, (vget (u_data urq) im) as [x0| |]; simpl in K0; try tauto; cbn [bind]; try exact Logic.I.
  clear K0 x0. unfold d_normalize.
  match goal with |- rsim ?P ?x (bind (bind ?y ?f) ?g) => assert (Q : rsim (fun hp' tq' => d_den hp' t tq' /\ vlen hp' = vlen hp /\ forall a, ~ In a (d_ptrs t) -> vget hp' a = vget hp a) x y) end.
  { unfold for_up at 1 3. apply rsim_mfold; [|split; [split; auto|auto]]. intros h h1 t1 _ [[R3 _] [L1 O1]].
    pose proof (rsim_vget _ _ _ _ _ h R3) as K1. destruct (vget t h) as [u| |] eqn:Eu, (vget t1 h) as [u1| |]; simpl in K1; try tauto; cbn [bind]; try exact Logic.I.
    destruct K1 as (_ & V2 & _). rewrite <- V2. clear u1 V2.
    unfold for_up. apply rsim_mfold; [|split; [split; auto|auto]]. clear h1 t1 R3 L1 O1. intros i h1 t1 _ [[R3 _] [L1 O1]].
    pose proof (rsim_vget _ _ _ _ _ h R3) as K1. rewrite Eu in K1. destruct (vget t1 h) as [u1| |] eqn:Eu1; simpl in K1; try tauto. cbn [bind].
    destruct K1 as (_ & _ & K1). unfold u_at.
    pose proof (rsim_vget _ _ _ _ _ (wrap i) K1) as K2. destruct (vget (u_data u) (wrap i)) as [a| |] eqn:Ea, (vget (u_data u1) (wrap i)) as [q| |]; simpl in K2; try tauto; cbn [bind]; try exact Logic.I.
    pose proof (rsim_vget _ _ _ _ _ r R3) as K3. rewrite Er in K3. destruct (vget t1 r) as [ur1| |] eqn:Er1; simpl in K3; try tauto. cbn [bind].
    destruct K3 as (_ & _ & K3). pose proof (rsim_vget _ _ _ _ _ im K3) as K4. rewrite Em in K4. destruct (vget (u_data ur1) im) as [x| |]; simpl in K4; try tauto. cbn [bind].
    destruct (h_div_ok h1 a mx q x K2 K4) as (h2 & -> & L2 & V2 & O2).
    destruct (d_set h1 h2 _ _ h (wrap i) u a _ ND R3 Eu Ea V2 O2) as (uq & d' & tq' & G1 & G2 & G3 & G4). rewrite Eu1 in G1. inversion G1; subst uq.
    unfold u_put. rewrite G2. cbn [bind]. rewrite G3. cbn [rsim]. split; [split; auto|]. split; [lia|]. intros k Hk. rewrite O2; auto. intros ->. apply Hk.
    apply in_concat. exists (u_data u). split; [|eapply vget_In; eauto]. apply in_map. eapply vget_In; eauto. }
  match goal with |- rsim _ ?x (bind (bind ?y _) _) => destruct x as [h1| |], y as [t1| |] end; simpl in Q |- *; try tauto.
Qed.

Lemma d_store_ok : forall tq (hp : heap) pt, let r := fold_left (d_store A) tq (hp, pt) in
  exists l, snd r = pt ++ l /\ ext hp (fst r) /\ Forall2 (urel (tab (fst r))) l tq /\ NoDup (d_ptrs l) /\ forall a, In a (d_ptrs l) -> vlen hp <= a.
Proof.
  induction tq as [|u tq IH]; intros hp pt; cbn [fold_left]; cbv zeta.
  - exists []. rewrite app_nil_r. repeat split; try constructor; auto using ext_refl. intros a [].
  - set (hp1 := hp ++ u_data u). set (p1 := zrange (vlen hp) (vlen hp + vlen (u_data u))).
    change (d_store A (hp, pt) u) with (hp1, pt ++ [mkU (u_size u) (u_elements u) p1]).
    destruct (IH hp1 (pt ++ [mkU (u_size u) (u_elements u) p1])) as (l & E1 & E2 & E3 & E4 & E5). cbv zeta in *.
    assert (X1 : ext hp hp1) by apply ext_app. assert (L1 : vlen hp1 = vlen hp + vlen (u_data u)) by apply vlen_app.
    exists (mkU (u_size u) (u_elements u) p1 :: l). split; [etransitivity; [exact E1|rewrite <- app_assoc; reflexivity]|].
    assert (P : Forall2 (tab hp1) p1 (u_data u)) by apply store_ok.
    split; [apply (ext_trans A hp hp1); auto|]. split; [|split].
    + constructor; auto. split; auto. split; auto. cbn [u_data]. eapply F2_impl; [|exact P]. intros a b Hab. eapply vget_ext_heap; eauto.
    + unfold d_ptrs. cbn [map concat u_data]. apply NoDup_app_intro; [apply NoDup_zrange|exact E4|]. intros a Ia Ib. apply E5 in Ib. apply In_zrange in Ia. lia.
    + unfold d_ptrs. cbn [map concat u_data]. intros a Ia. apply in_app_or in Ia. destruct Ia as [Ia|Ia]; [apply In_zrange in Ia; lia|].
      apply E5 in Ia. pose proof (vlen_nonneg _ (u_data u)). lia.
Qed.

Theorem d_session : forall (v : dvalues A), well_built (dv_meta v) ->
  (forall t u, dq_computeTable A v (dv_meta v) = Ok t -> vget t 0 = Ok u -> 0 <= u_size u <= 65535) -> forall es,
  rsim (fun s s' => Forall2 (reports A _ _ _ _ d_look dn_cuts (fun x => map d_key (dn_parts x)) dn_param dn_quality (fst (fst s)) (fst s')) (snd s) (snd s'))
    (dh_run A v es) (dv_run A v es).
Proof.
  intros v W Hc es. unfold dh_run, dv_run. eapply (run_sim A (list (utm Z)) (list (utm quality)) (list (utm Z)) (Z * Z * (Z * Z)) (dpartition A) d_ptrs d_den d_look d_look).
  - intros hp hp' t tq [D Dn] K. split; auto. eapply d_keep; eauto.
  - intros hp t tq a [D Dn] I. unfold d_ptrs in I. apply in_concat in I. destruct I as (l & Il & Ia). apply in_map_iff in Il. destruct Il as (u & <- & Iu).
    clear Dn. induction D as [|x y t tq (E1 & E2 & E3) D IH]; [contradiction|]. destruct Iu as [->|Iu]; [eapply tab_bound; eauto|auto].
  - intros hp t tq k [D _]. apply rsim_mm_get. exact D.
  - intro hp. unfold dh_compute, dq_compute. cbn [dq_values dq_ofValues dq_meta]. destruct (dq_computeTable A v (dv_meta v)) as [t| |] eqn:Et; cbn [bind]; try exact Logic.I.
    destruct (d_store_ok t hp []) as (l & E1 & E2 & E3 & E4 & E5). cbv zeta in *. cbn [bind some_table dq_table rsim]. rewrite E1. cbn [app]. split; auto. split; [|auto]. split; auto.
    intros u Eu. pose proof (rsim_vget _ _ _ _ _ 0 E3) as K. rewrite Eu in K. destruct (vget t 0) as [u'| |] eqn:Eu'; simpl in K; try tauto.
    destruct K as [K _]. rewrite K. eapply Hc; eauto.
  - intros hp t tq D N. apply d_norm_full; auto.
  - intros hp t tq p D. apply d_best_full; auto.
Qed.
End I.
