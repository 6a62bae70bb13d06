(** * The path construction always stops; it never leaves the vectors on a valid tree; unequal depths. *)
From Coq Require Import Lia Permutation.
From Verif Require Import Base BaseFacts Hierarchy SpecTree TreeFacts HierarchyFacts.

(** Whatever the input, path entries are distinct indices into [children]. *)
Definition sinv (C : Z) (path : list Z) (ch : list (list Z)) (sz : list (Z * Z)) : Prop :=
  NoDup path /\ (forall h, In h path -> 0 <= h < C) /\ vlen ch = C /\
  (forall h, In h path -> imap_get sz h <> None).

Lemma sinv_len : forall C path ch sz, sinv C path ch sz -> 0 <= C -> vlen path <= C.
Proof.
  intros C path ch sz (N & B & _) HC.
  assert (incl path (zrange 0 C)) by (intros x K; apply In_zrange; auto).
  pose proof (NoDup_incl_length N H). rewrite zrange_length in H0. unfold vlen in *; lia.
Qed.

Lemma sp_loop_stop : forall C ps, 0 <= C -> forall fuel i path ch sz, sinv C path ch sz -> 0 <= i <= C -> C - i < Z.of_nat fuel ->
  sp_loop fuel ps i (path, ch, sz) <> OutOfFuel.
Proof.
  intros C ps HC. induction fuel as [|fuel IH]; intros i path ch sz S Hi F.
  - exfalso. lia.
  - cbn [sp_loop]. destruct (vget path i) as [h| |] eqn:E; cbn [bind]; try discriminate; [|exfalso; eapply vget_not_fuel; eauto].
    destruct (vget ps h) as [pr| |] eqn:E2; cbn [bind]; try discriminate; [|exfalso; eapply vget_not_fuel; eauto].
    destruct (pr =? -1); [discriminate|].
    destruct (match imap_get sz pr with
              | Some s => (path, imap_set sz pr (s + imap_at sz h))
              | None => (path ++ [pr], imap_set sz pr (imap_at sz h)) end) as [path' sz'] eqn:E3.
    destruct (vget ch pr) as [c| |] eqn:E4; cbn [bind]; try discriminate; [|exfalso; eapply vget_not_fuel; eauto].
    destruct (vset ch pr (c ++ [h])) as [ch'| |] eqn:E5; cbn [bind]; try discriminate; [|exfalso; eapply vset_not_fuel; eauto].
    pose proof (vget_inv _ _ _ _ E). pose proof (sinv_len _ _ _ _ S HC).
    apply IH; [|lia|lia].
    destruct S as (N & B & LC & K). pose proof (vget_inv _ _ _ _ E4) as P.
    destruct (imap_get sz pr) as [s|] eqn:E6; inversion E3; subst path' sz'; clear E3.
    + repeat split; auto; try (apply B; auto). { rewrite (vset_len _ _ _ _ _ E5); auto. }
      intros x Hx. rewrite imap_get_set. destruct (x =? pr); [discriminate|auto].
    + assert (~ In pr path) by (intro X; apply K in X; congruence).
      repeat split.
      * apply Permutation_NoDup with (pr :: path); [apply Permutation_cons_append|constructor; auto].
      * apply in_app_or in H2. destruct H2 as [H2|[<-|[]]]; [apply B; auto|lia].
      * apply in_app_or in H2. destruct H2 as [H2|[<-|[]]]; [apply B; auto|lia].
      * rewrite (vset_len _ _ _ _ _ E5); auto.
      * intros x Hx. rewrite imap_get_set. destruct (Z.eqb_spec x pr); [discriminate|].
        apply K. apply in_app_or in Hx. destruct Hx as [|[|[]]]; auto; congruence.
Qed.

Lemma sp_loop_more : forall ps fuel k i st, sp_loop fuel ps i st <> OutOfFuel -> sp_loop (fuel + k) ps i st = sp_loop fuel ps i st.
Proof.
  intros ps; induction fuel as [|fuel IH]; intros k i [[path ch] sz] H; [exfalso; apply H; reflexivity|].
  cbn [Nat.add sp_loop] in *.
  destruct (vget path i) as [h| |]; cbn [bind] in *; auto.
  destruct (vget ps h) as [pr| |]; cbn [bind] in *; auto.
  destruct (pr =? -1); auto.
  destruct (match imap_get sz pr with
              | Some s => (path, imap_set sz pr (s + imap_at sz h))
              | None => (path ++ [pr], imap_set sz pr (imap_at sz h)) end) as [path' sz'].
  destruct (vget ch pr) as [c| |]; cbn [bind] in *; auto.
  destruct (vset ch pr (c ++ [h])) as [ch'| |]; cbn [bind] in *; auto.
Qed.

Lemma sinv_init : forall L H, 0 <= L -> 0 <= H -> sinv (Z.max L H) (zrange 0 L) (vrep L [] ++ vrep (H - L) []) (map (fun h => (h, 1)) (zrange 0 L)).
Proof.
  intros L H HL HH. split; [apply NoDup_zrange|]. split; [|split].
  - intros h K. apply In_zrange in K. lia.
  - rewrite vlen_app. rewrite (vlen_vrep _ L) by lia. unfold vlen, vrep; rewrite repeat_length. lia.
  - intros h K. apply In_zrange in K. rewrite imap_get_init.
    destruct (Z.leb_spec 0 h), (Z.ltb_spec h L); simpl; try lia; discriminate.
Qed.

Lemma meta_build_stops : forall L ps fuel, (Z.to_nat (Z.max L (vlen ps)) + 1 <= fuel)%nat ->
  meta_build_fuel fuel L ps = meta_build L ps /\ meta_build_fuel fuel L ps <> OutOfFuel.
Proof.
  intros L ps fuel F. pose proof (vlen_nonneg _ ps) as HH.
  set (n0 := (Z.to_nat (Z.max L (vlen ps)) + 1)%nat) in *.
  assert (S0 : sp_loop n0 ps 0 (sp_init L (vlen ps)) <> OutOfFuel).
  { destruct (Z_lt_ge_dec L 0) as [Neg|Pos].
    - unfold sp_init. rewrite zrange_empty by lia. unfold n0. rewrite Nat.add_comm. simpl. discriminate.
    - unfold sp_init. apply (sp_loop_stop (Z.max L (vlen ps))); try lia. apply sinv_init; lia. }
  assert (M : forall n, (n0 <= n)%nat -> sp_loop n ps 0 (sp_init L (vlen ps)) = sp_loop n0 ps 0 (sp_init L (vlen ps))).
  { intros n Hn. replace n with (n0 + (n - n0))%nat by lia. apply sp_loop_more; auto. }
  assert (E : meta_build_fuel fuel L ps = meta_build L ps).
  { unfold meta_build, meta_build_fuel. rewrite (M fuel), (M (sp_fuel L (vlen ps))); auto. unfold sp_fuel, n0. lia. }
  split; auto. unfold meta_build_fuel. rewrite (M fuel) by auto.
  destruct (sp_loop n0 ps 0 (sp_init L (vlen ps))) as [[[path ch] sz]| |]; simpl; try congruence.
  destruct (vget path (vlen path - 1)) eqn:E2; simpl; try discriminate. exfalso; eapply vget_not_fuel; eauto.
Qed.

(** ** On a valid tree (any depths) the construction succeeds. *)
Section Valid.
Variables (L : Z) (ps : list Z) (r : Z).
Hypothesis V : valid_tree L ps r.

Record vinv (i : Z) (path : list Z) (ch : list (list Z)) (sz : list (Z * Z)) : Prop := {
  vi_i : 0 <= i;
  vi_nd : NoDup path;
  vi_node : forall h, In h path -> node ps h;
  vi_leaf : In 0 path;
  vi_noroot : ~ In r (pre i path);
  vi_closed : forall h, In h (pre i path) -> In (parent ps h) path;
  vi_ch : vlen ch = vlen ps;
  vi_sz : forall h, In h path <-> imap_get sz h <> None
}.

Lemma vinv_next : forall i path ch sz, vinv i path ch sz -> i < vlen path.
Proof.
  intros i path ch sz B. destruct (Z_lt_ge_dec i (vlen path)) as [|Ge]; auto. exfalso.
  assert (ALL : forall h, In h path -> In h (pre i path)).
  { intros h K. destruct (In_vget _ _ _ K) as [k [E Hk]]. apply In_pre. exists k; split; [lia|auto]. }
  pose proof (vt_L _ _ _ V) as VL.
  assert (CL : forall h k, below ps h k -> In h path -> In k path).
  { intros h k Bk. induction Bk as [h|h k Hp Bk IH]; auto. intro K. apply IH. apply (vi_closed _ _ _ _ B). auto. }
  apply (vi_noroot _ _ _ _ B). apply ALL. apply (CL 0); [|apply (vi_leaf _ _ _ _ B)].
  apply (vt_reach _ _ _ V). unfold node; lia.
Qed.

Lemma vinv_loop : forall fuel i path ch sz, vinv i path ch sz -> vlen ps - i < Z.of_nat fuel ->
  exists path' ch' sz', sp_loop fuel ps i (path, ch, sz) = Ok (path', ch', sz') /\ In r path'.
Proof.
  induction fuel as [|fuel IH]; intros i path ch sz B F.
  { pose proof (NoDup_nodes_len ps path (vi_nd _ _ _ _ B) (vi_node _ _ _ _ B)). pose proof (vinv_next _ _ _ _ B). lia. }
  pose proof (vinv_next _ _ _ _ B) as Lt. pose proof (vi_i _ _ _ _ B) as Hi.
  destruct (vget_ok _ path i ltac:(lia)) as [h E].
  pose proof (vi_node _ _ _ _ B h (vget_In _ _ _ _ E)) as Nh.
  pose proof (vt_L _ _ _ V) as VL.
  cbn [sp_loop]. rewrite E. cbn [bind]. rewrite (parent_vget ps h Nh). cbn [bind].
  destruct (Z.eqb_spec (parent ps h) (-1)) as [Er|Er].
  - apply (valid_root_iff L ps r h V Nh) in Er. subst h. exists path, ch, sz. split; auto. eapply vget_In; eauto.
  - assert (Dr : h <> r) by (intro K; apply Er; apply (valid_root_iff L ps r h V Nh); auto).
    pose proof (vt_parent _ _ _ V h Nh Dr) as Pb.
    set (p := parent ps h) in *.
    destruct (match imap_get sz p with
              | Some s => (path, imap_set sz p (s + imap_at sz h))
              | None => (path ++ [p], imap_set sz p (imap_at sz h)) end) as [path' sz'] eqn:E3.
    pose proof (vi_ch _ _ _ _ B) as LC.
    destruct (vget_ok _ ch p ltac:(lia)) as [c Ec]. rewrite Ec. cbn [bind].
    rewrite vset_ok by lia. cbn [bind]. apply IH; [|lia].
    assert (PP : pre (i + 1) path = pre i path ++ [h]) by (apply pre_succ; auto).
    assert (LC' : vlen (upd (Z.to_nat p) (c ++ [h]) ch) = vlen ps) by (unfold vlen in *; rewrite upd_length; auto).
    destruct (imap_get sz p) as [s|] eqn:E6; inversion E3; subst path' sz'; clear E3.
    + assert (Pin : In p path) by (apply (vi_sz _ _ _ _ B); congruence).
      constructor.
      * lia.
      * apply B.
      * apply B.
      * apply B.
      * rewrite PP, in_app_iff. intros [K|[K|[]]]; [apply (vi_noroot _ _ _ _ B); auto|congruence].
      * intros x. rewrite PP, in_app_iff. intros [K|[<-|[]]]; [apply (vi_closed _ _ _ _ B); auto|auto].
      * exact LC'.
      * intro x. rewrite imap_get_set. destruct (Z.eqb_spec x p) as [->|Np].
        -- split; [discriminate|auto].
        -- apply (vi_sz _ _ _ _ B).
    + assert (Pin : ~ In p path) by (intro K; apply (vi_sz _ _ _ _ B) in K; congruence).
      assert (PP' : pre (i + 1) (path ++ [p]) = pre i path ++ [h]) by (rewrite pre_app by lia; auto).
      constructor.
      * lia.
      * apply Permutation_NoDup with (p :: path); [apply Permutation_cons_append|constructor; [auto|apply B]].
      * intros x K. apply in_app_or in K. destruct K as [K|[<-|[]]]; [apply B; auto|unfold node; lia].
      * apply in_or_app; left; apply B.
      * rewrite PP', in_app_iff. intros [K|[K|[]]]; [apply (vi_noroot _ _ _ _ B); auto|congruence].
      * intros x. rewrite PP', !in_app_iff. intros [K|[<-|[]]]; [left; apply (vi_closed _ _ _ _ B); auto|right; left; auto].
      * exact LC'.
      * intro x. rewrite imap_get_set, in_app_iff. destruct (Z.eqb_spec x p) as [->|Np].
        -- split; [discriminate|right; left; auto].
        -- rewrite (vi_sz _ _ _ _ B x). split; [|auto]. intros [K|[K|[]]]; [auto|congruence].
Qed.

Lemma valid_build_ok : exists m, meta_build L ps = Ok m.
Proof.
  pose proof (vt_L _ _ _ V) as VL.
  destruct (vinv_loop (sp_fuel L (vlen ps)) 0 (zrange 0 L) (vrep L [] ++ vrep (vlen ps - L) []) (map (fun h => (h, 1)) (zrange 0 L))) as [path [ch [sz [E K]]]].
  - constructor.
    + lia.
    + apply NoDup_zrange.
    + intros h K. apply In_zrange in K. unfold node; lia.
    + apply In_zrange; lia.
    + intros [].
    + intros h [].
    + rewrite vlen_app, !vlen_vrep by lia. lia.
    + intro h. rewrite In_zrange, imap_get_init.
      destruct (Z.leb_spec 0 h), (Z.ltb_spec h L); simpl; split; try lia; try congruence.
  - unfold sp_fuel. lia.
  - unfold meta_build, meta_build_fuel, sp_init. rewrite E. simpl.
    destruct (vget_ok _ path (vlen path - 1)) as [x Ex].
    { destruct path; [destruct K|]. unfold vlen; simpl length. lia. }
    rewrite Ex. simpl. eauto.
Qed.
End Valid.

(** ** Leaves at different depths: leaf 0 hangs off the root 4, leaves 1 and 2 off the internal node 3. *)
Definition ps_uneven : list Z := [4; 3; 3; 4; -1].

Lemma uneven_valid : valid_tree 3 ps_uneven 4.
Proof.
  assert (N : forall h, node ps_uneven h -> h = 0 \/ h = 1 \/ h = 2 \/ h = 3 \/ h = 4).
  { intros h H. unfold node, ps_uneven, vlen in H; simpl in H. lia. }
  constructor.
  - unfold vlen; simpl; lia.
  - unfold node, vlen; simpl; lia.
  - reflexivity.
  - intros h H D. apply N in H. unfold vlen; simpl.
    destruct H as [->|[->|[->|[->| ->]]]]; cbv [parent ps_uneven vget]; simpl; lia.
  - intros h H. unfold vlen in H; simpl in H. assert (h = 3 \/ h = 4) as [->| ->] by lia.
    + exists 1. split; [unfold node, vlen; simpl; lia|reflexivity].
    + exists 3. split; [unfold node, vlen; simpl; lia|reflexivity].
  - intros h H. apply N in H. destruct H as [->|[->|[->|[->| ->]]]];
      repeat (first [apply below_refl | apply below_up; [discriminate|]; cbv [parent ps_uneven vget]; simpl]).
Qed.

Definition m_uneven : meta :=
  mkMeta 5 3 ps_uneven [[]; []; []; [1; 2]; [0]] [(0, 1); (1, 1); (2, 1); (4, 1); (3, 2)] [0; 1; 2; 4; 3] 3.

Lemma uneven_build : meta_build 3 ps_uneven = Ok m_uneven.
Proof. vm_compute. reflexivity. Qed.
