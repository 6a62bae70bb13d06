(** * Property C69: hierarchies with a branch that contains no leaf. *)
From Coq Require Import Lia Sorting.Sorted Reals Lra.
From Verif Require Import Base BaseFacts Arith Quality Utm Hierarchy Values Qualities SpecTree TreeFacts TreeDec HierarchyFacts HierarchyStop HierarchyProofs HierCheck CoverFacts P_HierCheck.

(** Whatever the vector of parents: the path consists of different nodes, each above a leaf. *)
Lemma sp_loop_above : forall L ps fuel i path ch sz path' ch' sz', sp_loop fuel ps i (path, ch, sz) = Ok (path', ch', sz') ->
  vlen ch = vlen ps -> NoDup path -> (forall h, In h path <-> imap_get sz h <> None) -> (forall h, In h path -> 0 <= h < vlen ps /\ exists x, leaf L x /\ below ps x h) ->
  NoDup path' /\ (forall h, In h path' <-> imap_get sz' h <> None) /\ forall h, In h path' -> 0 <= h < vlen ps /\ exists x, leaf L x /\ below ps x h.
Proof.
  intros L ps fuel. induction fuel as [|fuel IH]; intros i path ch sz path' ch' sz' E Lc N Hz Ha; [discriminate|]. cbn [sp_loop] in E.
  apply bind_ok in E. destruct E as (h & Eh & E). apply bind_ok in E. destruct E as (pr & Ep & E). destruct (Z.eqb_spec pr (-1)) as [->|D].
  - injection E as <- <- <-. auto.
  - pose proof (vget_In _ _ _ _ Eh) as Ih. destruct (Ha h Ih) as (Bh & x & Lx & Bx).
    assert (Bp : below ps x pr).
    { eapply below_trans; [exact Bx|]. assert (P : parent ps h = pr) by (unfold parent; rewrite Ep; auto). rewrite <- P. apply below_up; [rewrite P; auto|constructor]. }
    set (st := match imap_get sz pr with Some s => (path, imap_set sz pr (s + imap_at sz h)) | None => (path ++ [pr], imap_set sz pr (imap_at sz h)) end) in E.
    destruct st as [path1 sz1] eqn:Es. apply bind_ok in E. destruct E as (c & Ec & E). apply bind_ok in E. destruct E as (ch1 & Ec1 & E).
    pose proof (vget_inv _ _ _ _ Ec) as Bpr. rewrite Lc in Bpr.
    apply IH in E; auto.
    + rewrite (vset_len _ _ _ _ _ Ec1). auto.
    + unfold st in Es. destruct (imap_get sz pr) eqn:G; injection Es as <- <-; auto. rewrite NoDup_app_iff. split; auto. split; [repeat constructor; auto|]. intros y Iy [<-|[]]. apply Hz in Iy. congruence.
    + intro y. unfold st in Es. destruct (imap_get sz pr) eqn:G; injection Es as <- <-; rewrite imap_get_set.
      * rewrite Hz. destruct (Z.eqb_spec y pr) as [->|]; [rewrite G; split; congruence|tauto].
      * rewrite in_app_iff, Hz. cbn. destruct (Z.eqb_spec y pr) as [->|]; [split; [congruence|auto]|]. split; [intros [K|[K|[]]]; [auto|congruence]|auto].
    + intros y Iy. unfold st in Es. destruct (imap_get sz pr) eqn:G; injection Es as <- <-; auto. apply in_app_or in Iy. destruct Iy as [Iy|[<-|[]]]; auto. split; auto. exists x. auto.
Qed.

Lemma build_above : forall L ps m, 0 <= L <= vlen ps -> meta_build L ps = Ok m ->
  NoDup (m_path m) /\ (forall h, In h (m_path m) -> node ps h /\ exists x, leaf L x /\ below ps x h) /\ m_hsize m = vlen ps /\ m_leaves m = L /\
  (forall h, In h (m_path m) <-> imap_get (m_size m) h <> None).
Proof.
  intros L ps m HL E. unfold meta_build, meta_build_fuel in E. apply bind_ok in E. destruct E as ([[path ch] sz] & E & F). apply bind_ok in F. destruct F as (r & _ & F). injection F as <-. cbn [m_path m_hsize m_leaves m_size].
  unfold sp_init in E. apply (sp_loop_above L) in E.
  - destruct E as (N & Z & H). split; auto.
  - rewrite vlen_app, !vlen_vrep by lia. lia.
  - apply NoDup_zrange.
  - intro h. rewrite imap_get_init, In_zrange. destruct (Z.leb_spec 0 h), (Z.ltb_spec h L); cbn; split; intros; try lia; congruence.
  - intros h I. apply In_zrange in I. split; [lia|]. exists h. split; [exact I|constructor].
Qed.

(** ** A node above no leaf is missing from the path, and computeQualities() then reads out of bounds. *)
Theorem C69_path : forall L ps m h, 0 <= L <= vlen ps -> node ps h -> (forall x, leaf L x -> ~ below ps x h) -> meta_build L ps = Ok m ->
  ~ In h (m_path m) /\ vlen (m_path m) < m_hsize m.
Proof.
  intros L ps m h HL Nh Hno E. destruct (build_above L ps m HL E) as (N & Hp & Hh & _).
  assert (Q : ~ In h (m_path m)) by (intro I; destruct (Hp h I) as (_ & x & Lx & Bx); exact (Hno x Lx Bx)). split; auto.
  assert (K : vlen (h :: m_path m) <= vlen ps). { apply NoDup_nodes_len; [constructor; auto|]. intros y [<-|I]; auto. apply Hp; auto. }
  unfold vlen in *. cbn [length] in K. lia.
Qed.
Print Assumptions C69_path.

(** ... and the sizes report that it has no leaf. *)
Theorem C69_size : forall L ps m h, 0 <= L <= vlen ps -> node ps h -> (forall x, leaf L x -> ~ below ps x h) -> meta_build L ps = Ok m ->
  m_sizeof m h = 0.
Proof.
  intros L ps m h HL Nh Hno E. destruct (C69_path L ps m h HL Nh Hno E) as [Q _]. destruct (build_above L ps m HL E) as (_ & _ & _ & _ & Z).
  unfold m_sizeof, imap_at. destruct (imap_get (m_size m) h) eqn:G; [|reflexivity]. exfalso. apply Q, Z. congruence.
Qed.
Print Assumptions C69_size.

Lemma no_leaf_inside : forall L ps h, node ps h -> (forall x, leaf L x -> ~ below ps x h) -> L <= h.
Proof. intros L ps h (B1 & B2) H. destruct (Z.lt_ge_cases h L) as [K|K]; auto. exfalso. apply (H h); [unfold leaf; lia|constructor]. Qed.

Theorem C69_hier : forall (A : arith) L ps m (v : hvalues A) h, 0 <= L <= vlen ps -> node ps h -> (forall x, leaf L x -> ~ below ps x h) -> meta_build L ps = Ok m ->
  hv_meta v = m -> 0 < hv_vsize v -> forall o, hq_compute A (hq_ofValues A v) <> Ok o.
Proof.
  intros A L ps m v h HL Nh Hno E Em Hv o K. destruct (C69_path L ps m h HL Nh Hno E) as (_ & Hs). destruct (build_above L ps m HL E) as (_ & _ & H2 & H1 & _). pose proof (no_leaf_inside L ps h Nh Hno). unfold node in Nh.
  unfold hq_compute, hq_ofValues in K. cbn in K. apply bind_ok in K. destruct K as [t [K _]].
  unfold hq_computeTable in K. rewrite for_up_cons in K by lia. apply bind_ok in K. destruct K as [q [K _]].
  unfold hq_component in K. apply bind_ok in K. destruct K as [[[s1 s2] h1] [_ K]]. apply bind_ok in K. destruct K as [[[[s3 s4] s5] h2] [K _]].
  rewrite Em in K. apply path_loop_len in K; lia.
Qed.
Print Assumptions C69_hier.

Theorem C69_spatio : forall (A : arith) L ps m (v : dvalues A) h, 0 <= L <= vlen ps -> node ps h -> (forall x, leaf L x -> ~ below ps x h) -> meta_build L ps = Ok m ->
  dv_meta v = m -> 0 < dv_vsize v -> forall o, dq_compute A (dq_ofValues A v) <> Ok o.
Proof.
  intros A L ps m v h HL Nh Hno E Em Hv o K. destruct (C69_path L ps m h HL Nh Hno E) as (_ & Hs). destruct (build_above L ps m HL E) as (_ & _ & H2 & H1 & _). pose proof (no_leaf_inside L ps h Nh Hno). unfold node in Nh.
  unfold dq_compute, dq_ofValues in K. cbn in K. apply bind_ok in K. destruct K as [t [K _]].
  unfold dq_computeTable in K. rewrite for_up_cons in K by lia. apply bind_ok in K. destruct K as [q [K _]].
  unfold dq_component in K. apply bind_ok in K. destruct K as [x1 [_ K]]. apply bind_ok in K. destruct K as [x2 [K _]].
  rewrite Em in K. apply path_loop_len in K; lia.
Qed.
Print Assumptions C69_spatio.
