(** * Correctness of the path construction. *)
From Coq Require Import Lia Permutation.
From Verif Require Import Base BaseFacts Hierarchy SpecTree TreeFacts.

Lemma imap_get_set : forall m k v k', imap_get (imap_set m k v) k' = if k' =? k then Some v else imap_get m k'.
Proof.
  induction m as [|[a b] m IH]; intros k v k'; simpl.
  - destruct (Z.eqb_spec k' k); reflexivity.
  - destruct (Z.eqb_spec k a) as [->|N]; simpl.
    + destruct (Z.eqb_spec k' a); reflexivity.
    + rewrite IH. destruct (Z.eqb_spec k' a) as [->|N2]; auto. destruct (Z.eqb_spec a k); congruence.
Qed.

Lemma imap_get_init : forall L h, imap_get (map (fun h => (h, 1)) (zrange 0 L)) h = if (0 <=? h) && (h <? L) then Some 1 else None.
Proof.
  intros L h.
  assert (G : forall l, imap_get (map (fun h => (h, 1)) l) h = if existsb (fun x => h =? x) l then Some 1 else None).
  { induction l as [|x l IH]; simpl; auto. destruct (h =? x); auto. }
  rewrite G. destruct (existsb _ _) eqn:E.
  - apply existsb_exists in E. destruct E as [x [K1 K2]]. apply In_zrange in K1. apply Z.eqb_eq in K2. subst.
    destruct (Z.leb_spec 0 x), (Z.ltb_spec x L); simpl; auto; lia.
  - destruct (Z.leb_spec 0 h), (Z.ltb_spec h L); simpl; auto.
    assert (existsb (fun x => h =? x) (zrange 0 L) = true); [|congruence].
    apply existsb_exists. exists h. split; [apply In_zrange; lia|apply Z.eqb_refl].
Qed.

(** Prefix of the first i entries. *)
Definition pre {X} (i : Z) (l : list X) : list X := firstn (Z.to_nat i) l.

Lemma In_pre : forall X (l : list X) i x, In x (pre i l) <-> exists k, 0 <= k < i /\ vget l k = Ok x.
Proof.
  intros X l i x. unfold pre. split.
  - intro K. apply In_nth_error in K. destruct K as [n K].
    assert (n < length (firstn (Z.to_nat i) l))%nat by (apply nth_error_Some; congruence).
    rewrite firstn_length in H. exists (Z.of_nat n). split; [lia|].
    apply vget_nth. rewrite Nat2Z.id. split; [lia|]. rewrite <- K. clear K.
    rewrite <- (firstn_skipn (Z.to_nat i) l) at 1. rewrite nth_error_app1; auto. rewrite firstn_length; lia.
  - intros [k [Hk E]]. apply vget_nth in E. destruct E as [_ E].
    rewrite <- (firstn_skipn (Z.to_nat i) l) in E. 
    assert (Z.to_nat k < length l)%nat.
    { apply nth_error_Some. rewrite <- (firstn_skipn (Z.to_nat i) l). congruence. }
    rewrite nth_error_app1 in E; [eapply nth_error_In; eauto|]. rewrite firstn_length; lia.
Qed.

Lemma pre_succ : forall X (l : list X) i x, vget l i = Ok x -> pre (i + 1) l = pre i l ++ [x].
Proof.
  intros X l i x E. pose proof (vget_inv _ _ _ _ E). apply vget_nth in E. destruct E as [_ E].
  unfold pre. replace (Z.to_nat (i + 1)) with (S (Z.to_nat i)) by lia.
  clear H. revert E. generalize (Z.to_nat i). intro n. revert l.
  induction n as [|n IH]; intros [|a l] E; simpl in E; try discriminate.
  - inversion E; reflexivity.
  - change (firstn (S (S n)) (a :: l)) with (a :: firstn (S n) l). rewrite IH by auto. reflexivity.
Qed.

Lemma pre_app : forall X (l u : list X) i, i <= vlen l -> pre i (l ++ u) = pre i l.
Proof.
  intros X l u i H. unfold pre, vlen in *. rewrite firstn_app.
  replace (Z.to_nat i - length l)%nat with O by lia. rewrite firstn_O, app_nil_r. reflexivity.
Qed.

Lemma pre_incl : forall X (l : list X) i x, In x (pre i l) -> In x l.
Proof. intros X l i x H. apply In_pre in H. destruct H as [k [_ E]]. eapply vget_In; eauto. Qed.

Lemma NoDup_vget : forall X (l : list X) i j x, NoDup l -> vget l i = Ok x -> vget l j = Ok x -> i = j.
Proof.
  intros X l i j x N E1 E2. apply vget_nth in E1. apply vget_nth in E2. destruct E1 as [H1 E1], E2 as [H2 E2].
  assert (Z.to_nat i = Z.to_nat j); [|lia].
  eapply NoDup_nth_error; eauto; [|congruence]. apply nth_error_Some. congruence.
Qed.

Lemma NoDup_nodes_len : forall ps l, NoDup l -> (forall h, In h l -> node ps h) -> vlen l <= vlen ps.
Proof.
  intros ps l N H. assert (incl l (zrange 0 (vlen ps))) by (intros x K; apply In_zrange; apply H; auto).
  pose proof (NoDup_incl_length N H0). rewrite zrange_length in H1. unfold vlen in *. lia.
Qed.

Section BFS.
Variables (L : Z) (ps : list Z) (r : Z).
Hypothesis V : valid_tree L ps r.
Variable lev : Z -> Z.
Hypothesis lev_leaf : forall x, leaf L x -> lev x = 0.
Hypothesis lev_par : forall h, node ps h -> h <> r -> lev (parent ps h) = lev h + 1.
Hypothesis lev_pos : forall h, node ps h -> 0 <= lev h.

Let childof (h : Z) (l : list Z) : list Z := filter (fun c => parent ps c =? h) l.
Let cnt (l : list Z) : Z := vlen (flat_map (leavesof L ps) l).

Record binv (i : Z) (path : list Z) (ch : list (list Z)) (sz : list (Z * Z)) : Prop := {
  bi_i : 0 <= i < vlen path;
  bi_nd : NoDup path;
  bi_node : forall h, In h path -> node ps h;
  bi_leaves : forall k, leaf L k -> vget path k = Ok k;
  bi_sorted : forall a b x y, vget path a = Ok x -> vget path b = Ok y -> a <= b -> lev x <= lev y;
  bi_up : forall x y, In x path -> vget path i = Ok y -> lev x <= lev y + 1;
  bi_in : forall h, In h path <-> leaf L h \/ (node ps h /\ exists c, In c (pre i path) /\ parent ps c = h);
  bi_lt : forall y h, vget path i = Ok y -> node ps h -> lev h < lev y -> In h (pre i path);
  bi_eq : forall y h, vget path i = Ok y -> node ps h -> lev h = lev y -> In h path;
  bi_ch : vrepr ch (vlen ps) (fun h => childof h (pre i path));
  bi_leafsz : forall h, leaf L h -> imap_get sz h = Some 1;
  bi_intsz : forall h, L <= h -> In h path -> imap_get sz h = Some (cnt (childof h (pre i path)));
  bi_nosz : forall h, ~ In h path -> imap_get sz h = None
}.

Lemma ranked : exists rank, forall h, node ps h -> parent ps h <> -1 -> node ps (parent ps h) /\ rank h < rank (parent ps h).
Proof. exact (valid_rank _ _ _ V). Qed.

Lemma child_not_root : forall c h, node ps h -> parent ps c = h -> c <> r.
Proof. intros c h N E ->. rewrite (vt_rootp _ _ _ V) in E. unfold node in N. lia. Qed.

(** When a node is processed its size entry is final. *)
Lemma binv_size : forall i path ch sz h, binv i path ch sz -> vget path i = Ok h ->
  imap_get sz h = Some (vlen (leavesof L ps h)).
Proof.
  intros i path ch sz h B E. destruct ranked as [rank Hr].
  pose proof (vt_L _ _ _ V) as VL.
  pose proof (bi_node _ _ _ _ B h (vget_In _ _ _ _ E)) as Nh.
  destruct (Z_lt_ge_dec h L) as [Lt|Ge].
  - assert (leaf L h) by (unfold leaf; unfold node in Nh; lia).
    rewrite (bi_leafsz _ _ _ _ B h H).
    rewrite (leavesof_leaf ps rank Hr L ltac:(lia) h H); [reflexivity|].
    intros c Nc Hp. destruct (Z.eq_dec c r) as [->|D]; [exfalso; apply Hp, (vt_rootp _ _ _ V)|].
    pose proof (vt_parent _ _ _ V c Nc D); lia.
  - rewrite (bi_intsz _ _ _ _ B h ltac:(lia) (vget_In _ _ _ _ E)). unfold cnt, vlen. do 2 f_equal.
    symmetry. apply Permutation_length. apply (leavesof_children ps rank Hr L ltac:(lia)); auto; [lia| |].
    + apply NoDup_filter. pose proof (bi_nd _ _ _ _ B) as ND.
      rewrite <- (firstn_skipn (Z.to_nat i) path) in ND. clear - ND. unfold pre.
      induction (firstn (Z.to_nat i) path) as [|a l IH]; [constructor|]. simpl in ND. inversion ND; subst.
      constructor; [intro K; apply H1, in_or_app; auto|auto].
    + intro c. unfold childof. rewrite filter_In, Z.eqb_eq. split.
      * intros [K1 K2]. split; auto. apply (bi_node _ _ _ _ B). eapply pre_incl; eauto.
      * intros [K1 K2]. split; auto. apply (bi_lt _ _ _ _ B h); auto.
        pose proof (child_not_root c h Nh K2) as Dr. pose proof (lev_par c K1 Dr). rewrite K2 in H. lia.
Qed.

Lemma binv_step : forall i path ch sz h, binv i path ch sz -> vget path i = Ok h -> h <> r ->
  exists path' ch' sz',
    (let '(path', size') :=
          match imap_get sz (parent ps h) with
          | Some s => (path, imap_set sz (parent ps h) (s + imap_at sz h))
          | None => (path ++ [parent ps h], imap_set sz (parent ps h) (imap_at sz h))
          end in
        let* ch0 := vget ch (parent ps h) in
        let* children' := vset ch (parent ps h) (ch0 ++ [h]) in
        Ok (path', children', size')) = Ok (path', ch', sz') /\
    binv (i + 1) path' ch' sz'.
Proof.
  intros i path ch sz h B E Dr.
  pose proof (vt_L _ _ _ V) as VL.
  pose proof (bi_node _ _ _ _ B h (vget_In _ _ _ _ E)) as Nh.
  pose proof (binv_size _ _ _ _ _ B E) as Hsz.
  pose proof (vt_parent _ _ _ V h Nh Dr) as Pb.
  pose proof (lev_par h Nh Dr) as Lp.
  set (p := parent ps h) in *.
  assert (Np : node ps p) by (unfold node; lia).
  assert (Hat : imap_at sz h = vlen (leavesof L ps h)) by (unfold imap_at; rewrite Hsz; reflexivity).
  
  rewrite (vrepr_get _ _ _ _ p (bi_ch _ _ _ _ B) Np).
  destruct (vrepr_set _ _ _ _ p (childof p (pre i path) ++ [h]) (bi_ch _ _ _ _ B) Np) as [ch' [Ech Rch]].
  (* path' *)
  pose (path' := if existsb (fun x => x =? p) path then path else path ++ [p]).
  assert (Inp : existsb (fun x => x =? p) path = true <-> In p path).
  { rewrite existsb_exists. split; [intros [x [K1 K2]]; apply Z.eqb_eq in K2; subst; auto|].
    intro K; exists p; split; auto. apply Z.eqb_refl. }
  assert (Pin : In p path').
  { unfold path'. destruct (existsb _ path) eqn:K; [apply Inp; auto|apply in_or_app; right; left; auto]. }
  assert (Pin' : forall x, In x path' <-> In x path \/ x = p).
  { intro x. unfold path'. destruct (existsb _ path) eqn:K.
    - split; [auto|]. intros [K3|K3]; [auto|]. subst x. apply Inp; auto.
    - rewrite in_app_iff. simpl. intuition. }
  assert (Pget : forall k x, vget path' k = Ok x -> vget path k = Ok x \/ (x = p /\ k = vlen path /\ ~ In p path)).
  { intros k x K. unfold path' in K. destruct (existsb _ path) eqn:K2; auto.
    assert (~ In p path) by (intro; apply Inp in H; congruence).
    destruct (Z_lt_ge_dec k (vlen path)).
    - rewrite vget_app_l in K; auto.
    - rewrite vget_app_r in K by lia. right. pose proof (vget_inv _ _ _ _ K). unfold vlen in H0 at 3. simpl in H0.
      replace (k - vlen path) with 0 in K by lia. cbv [vget] in K. simpl in K. inversion K; subst. repeat split; auto; lia. }
  assert (Pget2 : forall k x, vget path k = Ok x -> vget path' k = Ok x).
  { intros k x K. unfold path'. destruct (existsb _ path); auto. rewrite vget_app_l; auto.
    pose proof (vget_inv _ _ _ _ K); lia. }
  assert (Plen : vlen path <= vlen path').
  { unfold path'. destruct (existsb _ path); [lia|]. rewrite vlen_app. unfold vlen at 3; simpl; lia. }
  pose proof (bi_i _ _ _ _ B) as Hi.
  assert (Ppre : pre i path' = pre i path).
  { unfold path'. destruct (existsb _ path); auto. apply pre_app. lia. }
  assert (Ppre1 : pre (i + 1) path' = pre i path ++ [h]).
  { rewrite (pre_succ _ path' i h); [rewrite Ppre; auto|apply Pget2; auto]. }
  assert (Sorted' : forall a b x y, vget path' a = Ok x -> vget path' b = Ok y -> a <= b -> lev x <= lev y).
  { intros a b x y Ka Kb Hab. destruct (Pget _ _ Ka) as [Ka'|[-> [-> Ka']]]; destruct (Pget _ _ Kb) as [Kb'|[-> [-> Kb']]].
    - apply (bi_sorted _ _ _ _ B a b); auto.
    - rewrite Lp. apply (bi_up _ _ _ _ B); auto. eapply vget_In; eauto.
    - pose proof (vget_inv _ _ _ _ Kb'). lia.
    - lia. }
  (* the next entry exists *)
  destruct (In_vget _ _ _ Pin) as [ip [Eip Hip]].
  assert (Hgt : i < ip).
  { destruct (Z_lt_ge_dec i ip) as [|Hge]; auto. exfalso.
    pose proof (Sorted' ip i p h Eip (Pget2 _ _ E) ltac:(lia)). lia. }
  destruct (vget_ok _ path' (i + 1) ltac:(lia)) as [y Ey].
  assert (Ly1 : lev h <= lev y) by (apply (Sorted' i (i + 1)); auto; lia).
  assert (Ly2 : lev y <= lev h + 1).
  { pose proof (vget_In _ _ _ _ Ey) as K. apply Pin' in K. destruct K as [K| ->]; [|lia].
    apply (bi_up _ _ _ _ B); auto. }
  assert (INpre : forall k, In k (pre (i + 1) path') <-> In k (pre i path) \/ k = h).
  { intro k. rewrite Ppre1, in_app_iff. simpl. split; intros [|]; auto. destruct H; auto; tauto. }
  (* nodes below the level of y are processed *)
  assert (LT : forall k, node ps k -> lev k < lev y -> In k (pre (i + 1) path')).
  { intros k Nk Lk. destruct (Z_lt_ge_dec (lev k) (lev h)) as [Kl|Kl].
    - apply INpre. left. apply (bi_lt _ _ _ _ B h); auto.
    - assert (Ek : lev k = lev h) by lia.
      pose proof (bi_eq _ _ _ _ B h k E Nk Ek) as Kin.
      destruct (In_vget _ _ _ Kin) as [a [Ea Ha]]. apply In_pre. exists a. split; [|apply Pget2; auto].
      destruct (Z_lt_ge_dec a (i + 1)) as [|Ge]; [lia|]. exfalso.
      pose proof (Sorted' (i + 1) a y k Ey (Pget2 _ _ Ea) ltac:(lia)). lia. }
  assert (In' : forall k, In k path' <-> leaf L k \/ (node ps k /\ exists c, In c (pre (i + 1) path') /\ parent ps c = k)).
  { intro k. rewrite Pin'. rewrite (bi_in _ _ _ _ B k). split.
    - intros [[K|[Nk [c [K1 K2]]]]| ->]; auto.
      + right. split; auto. exists c; split; auto. apply INpre; auto.
      + right. split; auto. exists h; split; auto. apply INpre; auto.
    - intros [K|[Nk [c [K1 K2]]]]; auto. apply INpre in K1. destruct K1 as [K1| ->]; [|right; subst; reflexivity].
      left. right. split; auto. exists c; auto. }
  exists path', ch', (match imap_get sz p with
                      | Some s => imap_set sz p (s + imap_at sz h)
                      | None => imap_set sz p (imap_at sz h) end).
  assert (CH : forall q, childof q (pre (i + 1) path') = childof q (pre i path) ++ (if p =? q then [h] else [])).
  { intro q. rewrite Ppre1. unfold childof. rewrite filter_app. simpl. fold p. destruct (p =? q); reflexivity. }
  split.
  - destruct (imap_get sz p) as [s|] eqn:Ep.
    + assert (In p path).
      { destruct (in_dec Z.eq_dec p path); auto. rewrite (bi_nosz _ _ _ _ B p n) in Ep. discriminate. }
      simpl. rewrite Ech. simpl. unfold path'. rewrite (proj2 Inp H). reflexivity.
    + assert (~ In p path).
      { intro K. rewrite (bi_intsz _ _ _ _ B p ltac:(lia) K) in Ep. discriminate. }
      simpl. rewrite Ech. simpl. unfold path'. destruct (existsb _ path); auto. exfalso; apply H, Inp; auto.
  - constructor.
    + lia.
    + unfold path'. destruct (existsb _ path) eqn:K; [apply (bi_nd _ _ _ _ B)|].
      assert (~ In p path) by (intro X; apply Inp in X; congruence).
      apply Permutation_NoDup with (p :: path); [apply Permutation_cons_append|constructor; auto; apply (bi_nd _ _ _ _ B)].
    + intros k K. apply Pin' in K. destruct K as [K| ->]; auto. apply (bi_node _ _ _ _ B); auto.
    + intros k K. apply Pget2. apply (bi_leaves _ _ _ _ B); auto.
    + exact Sorted'.
    + intros x y' K1 K2. rewrite Ey in K2. inversion K2; subst y'. apply Pin' in K1.
      destruct K1 as [K1| ->]; [|lia]. pose proof (bi_up _ _ _ _ B x h K1 E). lia.
    + exact In'.
    + intros y' k K1 Nk Lk. rewrite Ey in K1. inversion K1; subst y'. auto.
    + intros y' k K1 Nk Lk. rewrite Ey in K1. inversion K1; subst y'.
      destruct (Z.eq_dec (lev y) (lev h)) as [Eq|Ne].
      * apply Pin'. left. apply (bi_eq _ _ _ _ B h); auto. lia.
      * pose proof (lev_pos h Nh). apply In'. right. split; auto.
        assert (L <= k < vlen ps).
        { unfold node in Nk. split; [|lia]. destruct (Z_lt_ge_dec k L); [|lia].
          rewrite (lev_leaf k) in Lk by (unfold leaf; lia). lia. }
        destruct (vt_child _ _ _ V k H0) as [c [Nc Pc]]. exists c. split; auto. apply LT; auto.
        pose proof (lev_par c Nc (child_not_root c k Nk Pc)). rewrite Pc in H1. lia.
    + eapply vrepr_ext; [exact Rch|]. intros q Hq. rewrite CH. unfold fupd.
      rewrite (Z.eqb_sym p q). destruct (Z.eqb_spec q p) as [->|]; auto. rewrite app_nil_r; auto.
    + intros q K. assert (q <> p) by (unfold leaf in K; lia).
      destruct (imap_get sz p); rewrite imap_get_set; destruct (Z.eqb_spec q p); try congruence; apply (bi_leafsz _ _ _ _ B); auto.
    + intros q K1 K2. rewrite CH. apply Pin' in K2. destruct (Z.eqb_spec p q) as [->|Npq].
      * destruct (imap_get sz q) as [s|] eqn:Eq; rewrite imap_get_set, Z.eqb_refl; f_equal;
          unfold cnt; rewrite flat_map_app, vlen_app; simpl; rewrite app_nil_r, Hat.
        -- assert (In q path).
           { destruct (in_dec Z.eq_dec q path); auto. rewrite (bi_nosz _ _ _ _ B q n) in Eq. discriminate. }
           rewrite (bi_intsz _ _ _ _ B q K1 H) in Eq. inversion Eq. reflexivity.
        -- assert (~ In q path).
           { intro K. rewrite (bi_intsz _ _ _ _ B q K1 K) in Eq. discriminate. }
           assert (childof q (pre i path) = []).
           { unfold childof. destruct (filter _ _) as [|c l] eqn:F; auto. exfalso. apply H. apply (bi_in _ _ _ _ B).
             right. split; auto. exists c. assert (In c (filter (fun c => parent ps c =? q) (pre i path))) by (rewrite F; left; auto).
             apply filter_In in H0. rewrite Z.eqb_eq in H0. tauto. }
           rewrite H0. simpl. reflexivity.
      * rewrite app_nil_r. destruct K2 as [K2|]; [|congruence].
        destruct (imap_get sz p); rewrite imap_get_set; destruct (Z.eqb_spec q p); try congruence; apply (bi_intsz _ _ _ _ B); auto.
    + intros q K. assert (~ In q path /\ q <> p).
      { split; [intro X; apply K, Pin'; auto|intro X; apply K, Pin'; auto]. }
      destruct (imap_get sz p); rewrite imap_get_set; destruct (Z.eqb_spec q p); try tauto; apply (bi_nosz _ _ _ _ B); tauto.
Qed.

Lemma binv_init : binv 0 (zrange 0 L) (vrep L [] ++ vrep (vlen ps - L) []) (map (fun h => (h, 1)) (zrange 0 L)).
Proof.
  pose proof (vt_L _ _ _ V) as VL.
  assert (E0 : vget (zrange 0 L) 0 = Ok 0) by (rewrite vget_zrange by lia; reflexivity).
  assert (IN : forall a x, vget (zrange 0 L) a = Ok x -> leaf L x).
  { intros a x K. apply vget_In in K. apply In_zrange in K. exact K. }
  constructor.
  - rewrite vlen_zrange; lia.
  - apply NoDup_zrange.
  - intros h K. apply In_zrange in K. unfold node; lia.
  - intros k K. unfold leaf in K. rewrite vget_zrange by lia. f_equal.
  - intros a b x y Ka Kb _. rewrite (lev_leaf x (IN _ _ Ka)), (lev_leaf y (IN _ _ Kb)). lia.
  - intros x y Kx Ky. rewrite (lev_leaf y) by eauto. rewrite (lev_leaf x); [lia|]. apply In_zrange in Kx; exact Kx.
  - intro h. rewrite In_zrange. unfold pre; simpl. split; [intro; left; exact H|].
    intros [K|[_ [c [[] _]]]]; exact K.
  - intros y h Ky Nh Hl. rewrite (lev_leaf y) in Hl by eauto. pose proof (lev_pos h Nh). lia.
  - intros y h Ky Nh Hl. rewrite (lev_leaf y) in Hl by eauto. apply In_zrange. unfold node in Nh.
    destruct (Z_lt_ge_dec h L); [lia|]. exfalso.
    destruct (vt_child _ _ _ V h ltac:(lia)) as [c [Nc Pc]].
    pose proof (lev_par c Nc (child_not_root c h Nh Pc)). rewrite Pc in H. pose proof (lev_pos c Nc). lia.
  - split. { rewrite vlen_app, !vlen_vrep by lia. lia. }
    intros h Hh. unfold pre, childof; simpl. destruct (Z_lt_ge_dec h L).
    + rewrite vget_app_l by (rewrite vlen_vrep by lia; lia). apply vget_vrep; lia.
    + rewrite vget_app_r by (rewrite vlen_vrep by lia; lia). rewrite vlen_vrep by lia. apply vget_vrep; lia.
  - intros h K. rewrite imap_get_init. unfold leaf in K.
    destruct (Z.leb_spec 0 h), (Z.ltb_spec h L); simpl; auto; lia.
  - intros h K1 K2. apply In_zrange in K2. lia.
  - intros h K. rewrite imap_get_init. destruct (Z.leb_spec 0 h), (Z.ltb_spec h L); simpl; auto.
    exfalso; apply K, In_zrange; lia.
Qed.

Lemma binv_loop : forall fuel i path ch sz, binv i path ch sz -> vlen ps - i < Z.of_nat fuel ->
  exists path' ch' sz' j, sp_loop fuel ps i (path, ch, sz) = Ok (path', ch', sz') /\ binv j path' ch' sz' /\ vget path' j = Ok r.
Proof.
  induction fuel as [|fuel IH]; intros i path ch sz B F.
  { pose proof (NoDup_nodes_len ps path (bi_nd _ _ _ _ B) (bi_node _ _ _ _ B)). pose proof (bi_i _ _ _ _ B). lia. }
  destruct (vget_ok _ path i (bi_i _ _ _ _ B)) as [h E].
  pose proof (bi_node _ _ _ _ B h (vget_In _ _ _ _ E)) as Nh.
  cbn [sp_loop]. rewrite E. cbn [bind]. rewrite (parent_vget ps h Nh). cbn [bind].
  destruct (Z.eqb_spec (parent ps h) (-1)) as [Er|Er].
  - apply (valid_root_iff L ps r h V Nh) in Er. subst h. exists path, ch, sz, i. auto.
  - assert (Dr : h <> r) by (intro K; apply Er; apply (valid_root_iff L ps r h V Nh); auto).
    destruct (binv_step i path ch sz h B E Dr) as [path' [ch' [sz' [Eq B']]]].
    destruct (match imap_get sz (parent ps h) with
          | Some s => (path, imap_set sz (parent ps h) (s + imap_at sz h))
          | None => (path ++ [parent ps h], imap_set sz (parent ps h) (imap_at sz h))
          end) as [path1 sz1] eqn:E1.
    apply bind_ok in Eq. destruct Eq as [c0 [Ec0 Eq]]. rewrite Ec0. cbn [bind].
    apply bind_ok in Eq. destruct Eq as [c1 [Ec1 Eq]]. rewrite Ec1. cbn [bind].
    inversion Eq; subst. apply IH; auto. lia.
Qed.

Theorem bfs_well_built : exists m, meta_build L ps = Ok m /\ well_built m /\ m_leaves m = L /\ m_parents m = ps /\ m_root m = r.
Proof.
  pose proof (vt_L _ _ _ V) as VL.
  destruct (binv_loop (sp_fuel L (vlen ps)) 0 _ _ _ binv_init) as [path [ch [sz [i [E [B Er]]]]]].
  { unfold sp_fuel. lia. }
  pose proof (bi_i _ _ _ _ B) as Hi. pose proof (bi_nd _ _ _ _ B) as ND.
  (* the root has the largest level *)
  assert (MAX : forall h, node ps h -> h <> r -> lev h < lev r).
  { intros h Nh. pose proof (vt_reach _ _ _ V h Nh) as Bh. clear - V lev_par Nh Bh VL.
    assert (G : forall x y, below ps x y -> node ps x -> x <> y -> lev x < lev y).
    { intros x y B. induction B as [x|x y Hp B IH]; intros N D; [congruence|].
      assert (Dx : x <> r) by (intro; subst; apply Hp, (vt_rootp _ _ _ V)).
      pose proof (lev_par x N Dx). pose proof (vt_parent _ _ _ V x N Dx).
      destruct (Z.eq_dec (parent ps x) y) as [<-|D2]; [lia|].
      assert (lev (parent ps x) < lev y) by (apply IH; auto; unfold node; lia). lia. }
    intro D; apply G; auto. }
  assert (PRE : forall h, node ps h -> h <> r -> In h (pre i path)).
  { intros h Nh D. apply (bi_lt _ _ _ _ B r); auto. }
  assert (LAST : i = vlen path - 1).
  { destruct (Z.eq_dec i (vlen path - 1)) as [|D]; auto. exfalso.
    destruct (vget_ok _ path (i + 1) ltac:(lia)) as [z Ez].
    assert (z <> r) by (intros ->; pose proof (NoDup_vget _ _ _ _ _ ND Er Ez); lia).
    pose proof (PRE z (bi_node _ _ _ _ B z (vget_In _ _ _ _ Ez)) H) as K. apply In_pre in K.
    destruct K as [k [Hk Ek]]. pose proof (NoDup_vget _ _ _ _ _ ND Ek Ez). lia. }
  assert (ALL : forall h, In h path <-> node ps h).
  { intro h; split; [apply (bi_node _ _ _ _ B)|]. intro Nh. destruct (Z.eq_dec h r) as [->|D].
    - eapply vget_In; eauto.
    - eapply pre_incl; eauto. }
  assert (LEN : vlen path = vlen ps).
  { assert (Permutation path (zrange 0 (vlen ps))).
    { apply NoDup_Permutation; auto; [apply NoDup_zrange|]. intro x. rewrite ALL, In_zrange. reflexivity. }
    apply Permutation_length in H. rewrite zrange_length in H. unfold vlen in *; lia. }
  assert (SPLIT : path = pre i path ++ [r]).
  { rewrite <- (pre_succ _ path i r Er). unfold pre. rewrite firstn_all2; auto. unfold vlen in *; lia. }
  unfold meta_build, meta_build_fuel. unfold sp_init. rewrite E. simpl.
  assert (Er' : vget path (vlen path - 1) = Ok r) by (rewrite <- LAST; auto).
  rewrite Er'. simpl. eexists; split; [reflexivity|]. split; [|auto].
  assert (CHF : forall h, node ps h -> filter (fun c => parent ps c =? h) (pre i path) = filter (fun c => parent ps c =? h) path).
  { intros h Nh. rewrite SPLIT at 2. rewrite filter_app. simpl. rewrite (vt_rootp _ _ _ V).
    destruct (Z.eqb_spec (-1) h); [unfold node in Nh; lia|]. rewrite app_nil_r; auto. }
  destruct ranked as [rank Hr].
  constructor; simpl; auto.
  - intros k K. apply (bi_leaves _ _ _ _ B); auto.
  - rewrite <- LEN. exact Er'.
  - intros a b c h Ea Eb P.
    assert (Nc : node ps c) by (apply ALL; eapply vget_In; eauto).
    assert (Nh : node ps h) by (apply ALL; eapply vget_In; eauto).
    pose proof (lev_par c Nc (child_not_root c h Nh P)) as K. rewrite P in K.
    destruct (Z_lt_ge_dec a b) as [|Hge]; auto. exfalso.
    pose proof (bi_sorted _ _ _ _ B b a h c Eb Ea ltac:(lia)). lia.
  - destruct (bi_ch _ _ _ _ B) as [K _]. exact K.
  - intros h Nh. rewrite (vrepr_get _ _ _ _ h (bi_ch _ _ _ _ B) Nh). unfold childof. f_equal. apply CHF; auto.
  - intros h Nh. destruct (Z_lt_ge_dec h L) as [Lt|Ge].
    + assert (Hl : leaf L h) by (unfold leaf; unfold node in Nh; lia).
      rewrite (bi_leafsz _ _ _ _ B h Hl).
      rewrite (leavesof_leaf ps rank Hr L ltac:(lia) h Hl); [reflexivity|].
      intros c Nc Hp. destruct (Z.eq_dec c r) as [->|D]; [exfalso; apply Hp, (vt_rootp _ _ _ V)|].
      pose proof (vt_parent _ _ _ V c Nc D); lia.
    + rewrite (bi_intsz _ _ _ _ B h ltac:(lia) (proj2 (ALL h) Nh)). unfold cnt, vlen, childof. do 2 f_equal.
      rewrite CHF by auto. symmetry. apply Permutation_length.
      apply (leavesof_children ps rank Hr L ltac:(lia)); auto; [lia|apply NoDup_filter; auto|].
      intro c. rewrite filter_In, Z.eqb_eq, ALL. tauto.
Qed.

End BFS.

Theorem uniform_well_built : forall L ps r, valid_tree L ps r -> uniform_depth L ps r ->
  exists m, meta_build L ps = Ok m /\ well_built m /\ m_leaves m = L /\ m_parents m = ps /\ m_root m = r.
Proof.
  intros L ps r V [D HD]. destruct (valid_depth _ _ _ V) as [depth [D0 [D1 [D2 D3]]]].
  pose proof (vt_L _ _ _ V) as VL.
  assert (BND : forall h, node ps h -> depth h <= Z.of_nat D).
  { (* every node has a leaf below it, at depth D *)
    assert (G : forall h, node ps h -> exists x n, leaf L x /\ Nat.iter n (parent ps) x = h).
    { destruct (valid_rank _ _ _ V) as [rank Hr].
      assert (B : exists M, forall h, node ps h -> - M <= rank h).
      { assert (K : forall l, exists M, forall h, In h l -> - M <= rank h).
        { induction l as [|a l [M IH]]; [exists 0; intros h []|]. exists (Z.max M (- rank a)).
          intros h [<-|K]; [lia|]. specialize (IH h K). lia. }
        destruct (K (zrange 0 (vlen ps))) as [M HM]. exists M. intros h Nh. apply HM, In_zrange. exact Nh. }
      destruct B as [M HM].
      assert (K : forall k h, node ps h -> (Z.to_nat (rank h + M) < k)%nat -> exists x n, leaf L x /\ Nat.iter n (parent ps) x = h).
      { induction k as [|k IH]; intros h Nh Hk; [lia|].
        destruct (Z_lt_ge_dec h L) as [Lt|Ge].
        - exists h, O. split; [unfold leaf; unfold node in Nh; lia|reflexivity].
        - destruct (vt_child _ _ _ V h ltac:(unfold node in Nh; lia)) as [c [Nc Pc]].
          destruct (Hr c Nc) as [_ R]; [rewrite Pc; unfold node in Nh; lia|]. rewrite Pc in R.
          pose proof (HM c Nc). destruct (IH c Nc ltac:(lia)) as [x [n [Hx Ex]]].
          exists x, (S n). split; auto. simpl. rewrite Ex. auto. }
      intros h Nh. apply (K (S (Z.to_nat (rank h + M)))); auto. }
    intros h Nh. destruct (G h Nh) as [x [n [Hx Ex]]].
    destruct (below_iter ps h r (vt_reach _ _ _ V h Nh)) as [k Ek].
    assert (Nat.iter (k + n) (parent ps) x = r).
    { rewrite <- Ek, <- Ex. clear. induction k as [|k IH]; simpl; auto. rewrite IH; auto. }
    assert (k + n = D)%nat by (apply (iter_root _ _ _ V _ _ x); auto).
    rewrite (D3 h k Nh Ek). lia. }
  apply (bfs_well_built L ps r V (fun h => Z.of_nat D - depth h)).
  - intros x Hx. assert (Nx : node ps x) by (unfold node, leaf in *; lia). rewrite (D3 x D Nx (HD x Hx)). lia.
  - intros h Nh Hr. rewrite (D1 h Nh Hr). lia.
  - intros h Nh. specialize (BND h Nh). lia.
Qed.
