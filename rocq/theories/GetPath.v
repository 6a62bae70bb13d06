(** * getpath follows the path of HValuesMetaData. *)
From Coq Require Import Lia.
From Verif Require Import Base BaseFacts Hierarchy SpecTree TreeFacts HierarchyFacts HierarchyStop HierarchyProofs HierCheck RHelpers.

Lemma sp_loop_prefix : forall fuel ps i path ch sz path' ch' sz',
  sp_loop fuel ps i (path, ch, sz) = Ok (path', ch', sz') -> exists u, path' = path ++ u.
Proof.
  induction fuel as [|fuel IH]; intros ps i path ch sz path' ch' sz' E; [discriminate|].
  cbn [sp_loop] in E. apply bind_ok in E. destruct E as [h [_ E]]. apply bind_ok in E. destruct E as [pr [_ E]].
  destruct (pr =? -1). { injection E as <- <- <-. exists []. rewrite app_nil_r; auto. }
  destruct (imap_get sz pr); apply bind_ok in E; destruct E as [c0 [_ E]]; apply bind_ok in E; destruct E as [c1 [_ E]];
    apply IH in E; destruct E as [u ->]; [eauto|]. exists (pr :: u). rewrite <- app_assoc. reflexivity.
Qed.

Definition S1 (x : Z) : Z := x + 1.

Lemma upd_app : forall X (u : list X) x y v, upd (length u) x (u ++ y :: v) = u ++ x :: v.
Proof. induction u; intros; cbn; [reflexivity|]. f_equal. auto. Qed.

Lemma vlen_map : forall X Y (f : X -> Y) l, vlen (map f l) = vlen l.
Proof. intros; unfold vlen; rewrite map_length; auto. Qed.

Lemma vrep_cons : forall X n (x : X), 0 < n -> vrep n x = x :: vrep (n - 1) x.
Proof. intros X n x H. unfold vrep. replace (Z.to_nat n) with (S (Z.to_nat (n - 1))) by lia. reflexivity. Qed.

(** Positions before [i] are never written again. *)
Lemma gp_keep : forall fuel vh i h path path' k x, gp_loop fuel vh i h path = Ok path' -> k < i - 1 -> vget path k = Ok x -> vget path' k = Ok x.
Proof.
  induction fuel as [|fuel IH]; intros vh i h path path' k x E Hk G; [discriminate|].
  cbn [gp_loop] in E. destruct (vlen vh <? i). { injection E as <-. auto. }
  apply bind_ok in E. destruct E as [y [_ E]]. apply bind_ok in E. destruct E as [q [_ E]].
  destruct (existsb _ path). { eapply IH; eauto. }
  apply bind_ok in E. destruct E as [p1 [E1 E]]. eapply IH; eauto; [lia|].
  rewrite (vget_vset _ _ _ _ _ k E1). destruct (Z.eqb_spec k (i - 1)); [lia|auto].
Qed.

Lemma gp_len : forall fuel vh i h path path', gp_loop fuel vh i h path = Ok path' -> vlen path' = vlen path.
Proof.
  induction fuel as [|fuel IH]; intros vh i h path path' E; [discriminate|].
  cbn [gp_loop] in E. destruct (vlen vh <? i). { injection E as <-. auto. }
  apply bind_ok in E. destruct E as [y [_ E]]. apply bind_ok in E. destruct E as [q [_ E]].
  destruct (existsb _ path). { eapply IH; eauto. }
  apply bind_ok in E. destruct E as [p1 [E1 E]]. apply IH in E. rewrite E. eapply vset_len; eauto.
Qed.

(** The loop stops: [h] cannot exceed the length. *)
Lemma gp_fuel : forall fuel vh i h path, 1 <= h <= vlen path + 1 -> vlen path + 1 - h < Z.of_nat fuel -> gp_loop fuel vh i h path <> OutOfFuel.
Proof.
  induction fuel as [|fuel IH]; intros vh i h path Hh F E; [lia|].
  cbn [gp_loop] in E. destruct (vlen vh <? i); [discriminate|].
  destruct (vget path (h - 1)) as [x| |] eqn:Ex; cbn [bind] in E; [|discriminate|eapply vget_not_fuel; eauto].
  pose proof (vget_inv _ _ _ _ Ex).
  destruct (vget vh (x - 1)) as [q| |] eqn:Eq; cbn [bind] in E; [|discriminate|eapply vget_not_fuel; eauto].
  destruct (existsb _ path). { revert E. apply IH; lia. }
  destruct (vset path (i - 1) q) as [p1| |] eqn:Ep; cbn [bind] in E; [|discriminate|eapply vset_not_fuel; eauto].
  pose proof (vset_len _ _ _ _ _ Ep). revert E. apply IH; lia.
Qed.

Section Gp.
Variables (L : Z) (ps : list Z) (r : Z).
Hypothesis V : valid_tree L ps r.

Let n := vlen ps.
Let vh := map S1 ps.

(** The R path when the C++ path is [path]. *)
Let rpath (path : list Z) : list Z := map S1 path ++ vrep (n - vlen path) (-1).

Lemma rpath_in : forall path q, 0 <= q -> (existsb (Z.eqb (S1 q)) (rpath path) = true <-> In q path).
Proof.
  intros path q Hq. rewrite existsb_exists. unfold rpath. split.
  - intros [x [K Ex]]. apply Z.eqb_eq in Ex. subst x. apply in_app_or in K. destruct K as [K|K].
    + apply in_map_iff in K. destruct K as [y [Ey Ky]]. unfold S1 in Ey. replace q with y by lia. auto.
    + unfold vrep in K. apply repeat_spec in K. unfold S1 in K. lia.
  - intro K. exists (S1 q). split; [|apply Z.eqb_refl]. apply in_or_app; left. apply in_map; auto.
Qed.

Lemma rpath_snoc : forall path q, vlen path < n -> vset (rpath path) (vlen path) q = Ok (map S1 path ++ [q] ++ vrep (n - vlen path - 1) (-1)).
Proof.
  intros path q H. pose proof (vlen_nonneg _ path). unfold rpath. rewrite (vrep_cons _ (n - vlen path)) by lia.
  rewrite vset_ok. 2:{ rewrite vlen_app, vlen_map. pose proof (vlen_nonneg _ (vrep (n - vlen path - 1) (-1))). unfold vlen in *. cbn [length]. lia. }
  f_equal. replace (Z.to_nat (vlen path)) with (length (map S1 path)) by (unfold vlen; rewrite map_length, Nat2Z.id; auto).
  apply upd_app.
Qed.

Lemma rpath_get : forall path i h, vget path i = Ok h -> vget (rpath path) i = Ok (S1 h).
Proof.
  intros path i h E. unfold rpath. pose proof (vget_inv _ _ _ _ E). rewrite vget_app_l by (rewrite vlen_map; lia). apply vget_map; auto.
Qed.

Lemma cinv_len : forall v i path ch sz, cinv L ps r v i path ch sz -> vlen path <= n.
Proof. intros v i path ch sz B. exact (NoDup_nodes_len ps path (ci_nd _ _ _ _ _ _ _ _ B) (ci_node _ _ _ _ _ _ _ _ B)). Qed.

Lemma gp_step : forall v i path ch sz h fuel, cinv L ps r v i path ch sz -> vget path i = Ok h -> h <> r -> vlen path < n ->
  exists v' path' ch' sz',
    (forall f, sp_loop (S f) ps i (path, ch, sz) = sp_loop f ps (i + 1) (path', ch', sz')) /\
    cinv L ps r v' (i + 1) path' ch' sz' /\
    gp_loop (S fuel) vh (vlen path + 1) (i + 1) (rpath path) = gp_loop fuel vh (vlen path' + 1) (i + 1 + 1) (rpath path').
Proof.
  intros v i path ch sz h fuel B E Dr Hlt.
  pose proof (ci_node _ _ _ _ _ _ _ _ B h (vget_In _ _ _ _ E)) as Nh.
  pose proof (vt_parent _ _ _ V h Nh Dr) as Pb. pose proof (vt_L _ _ _ V) as VL.
  destruct (cinv_step L ps r V v i path ch sz h B E Dr) as [v' [path' [ch' [sz' [Eq B']]]]].
  assert (Er : parent ps h <> -1) by lia.
  assert (HS : forall f, sp_loop (S f) ps i (path, ch, sz) = sp_loop f ps (i + 1) (path', ch', sz')).
  { intro f. cbn [sp_loop]. rewrite E. cbn [bind]. rewrite (parent_vget ps h Nh). cbn [bind].
    destruct (Z.eqb_spec (parent ps h) (-1)); [contradiction|].
    destruct (match imap_get sz (parent ps h) with
          | Some s => (path, imap_set sz (parent ps h) (s + imap_at sz h))
          | None => (path ++ [parent ps h], imap_set sz (parent ps h) (imap_at sz h))
          end) as [path1 sz1] eqn:E1.
    apply bind_ok in Eq. destruct Eq as [c0 [Ec0 Eq]]. rewrite Ec0. cbn [bind].
    apply bind_ok in Eq. destruct Eq as [c1 [Ec1 Eq]]. rewrite Ec1. cbn [bind]. injection Eq as -> -> ->. reflexivity. }
  exists v', path', ch', sz'. split; [exact HS|]. split; [exact B'|].
  cbn [gp_loop]. replace (vlen vh) with n by (unfold vh; rewrite vlen_map; auto).
  destruct (Z.ltb_spec n (vlen path + 1)); [lia|].
  replace (i + 1 - 1) with i by lia. rewrite (rpath_get _ _ _ E). cbn [bind].
  replace (S1 h - 1) with h by (unfold S1; lia). unfold vh at 1. rewrite (vget_map _ _ S1 ps h (parent ps h)) by (apply parent_vget; auto). cbn [bind].
  destruct (imap_get sz (parent ps h)) as [s|] eqn:Ep.
  - assert (K : In (parent ps h) path).
    { destruct (in_dec Z.eq_dec (parent ps h) path) as [|K]; auto. rewrite (ci_nosz _ _ _ _ _ _ _ _ B _ K) in Ep. discriminate. }
    rewrite (proj2 (rpath_in path (parent ps h) ltac:(lia)) K).
    apply bind_ok in Eq. destruct Eq as [c0 [_ Eq]]. apply bind_ok in Eq. destruct Eq as [c1 [_ Eq]]. injection Eq as <- <- <-. reflexivity.
  - assert (K : ~ In (parent ps h) path).
    { intro K. rewrite (ci_sz _ _ _ _ _ _ _ _ B _ K) in Ep. discriminate. }
    destruct (existsb (Z.eqb (S1 (parent ps h))) (rpath path)) eqn:Ex; [exfalso; apply K, (rpath_in path (parent ps h)); [lia|auto]|].
    apply bind_ok in Eq. destruct Eq as [c0 [_ Eq]]. apply bind_ok in Eq. destruct Eq as [c1 [_ Eq]]. injection Eq as <- <- <-.
    replace (vlen path + 1 - 1) with (vlen path) by lia. rewrite rpath_snoc by lia. cbn [bind].
    rewrite vlen_app. replace (vlen [parent ps h]) with 1 by reflexivity. f_equal.
    unfold rpath. rewrite map_app, <- app_assoc, vlen_app. cbn [map app]. replace (n - (vlen path + vlen [parent ps h])) with (n - vlen path - 1) by (cbn; lia). reflexivity.
Qed.

Lemma gp_full : forall fuel v i path ch sz path' ch' sz' f2, cinv L ps r v i path ch sz ->
  sp_loop fuel ps i (path, ch, sz) = Ok (path', ch', sz') -> vlen path' = n -> n - i < Z.of_nat f2 ->
  gp_loop f2 vh (vlen path + 1) (i + 1) (rpath path) = Ok (map S1 path').
Proof.
  induction fuel as [|fuel IH]; intros v i path ch sz path' ch' sz' f2 B E Hn F; [discriminate|].
  pose proof (cinv_len _ _ _ _ _ B) as Hle. pose proof (ci_i _ _ _ _ _ _ _ _ B) as Hi.
  destruct f2 as [|f2]; [lia|].
  destruct (Z.eq_dec (vlen path) n) as [Eqn|Ne].
  - destruct (sp_loop_prefix _ _ _ _ _ _ _ _ _ E) as [u ->]. rewrite vlen_app in Hn. pose proof (vlen_nonneg _ u).
    destruct u; [|unfold vlen in Hn; cbn [length] in Hn; unfold vlen in Eqn; lia]. rewrite app_nil_r.
    cbn [gp_loop]. replace (vlen vh) with n by (unfold vh; rewrite vlen_map; auto).
    destruct (Z.ltb_spec n (vlen path + 1)); [|lia]. f_equal. unfold rpath. replace (n - vlen path) with 0 by lia. cbn. apply app_nil_r.
  - destruct (vget_ok _ path i Hi) as [h Eh]. pose proof (ci_node _ _ _ _ _ _ _ _ B h (vget_In _ _ _ _ Eh)) as Nh.
    destruct (Z.eq_dec h r) as [->|Dr].
    + exfalso. cbn [sp_loop] in E. rewrite Eh in E. cbn [bind] in E. rewrite (parent_vget ps r Nh) in E. cbn [bind] in E.
      rewrite (vt_rootp _ _ _ V) in E. cbn in E. injection E as <- _ _. lia.
    + destruct (gp_step v i path ch sz h f2 B Eh Dr ltac:(lia)) as (v' & p1 & c1 & s1 & H1 & B1 & H2).
      rewrite H2. rewrite H1 in E. eapply IH; eauto. lia.
Qed.

Lemma gp_short : forall fuel v i path ch sz path' ch' sz' f2 p, cinv L ps r v i path ch sz ->
  sp_loop fuel ps i (path, ch, sz) = Ok (path', ch', sz') -> vlen path' < n ->
  gp_loop f2 vh (vlen path + 1) (i + 1) (rpath path) = Ok p -> In 0 p.
Proof.
  induction fuel as [|fuel IH]; intros v i path ch sz path' ch' sz' f2 p B E Hn G; [discriminate|].
  pose proof (ci_i _ _ _ _ _ _ _ _ B) as Hi.
  destruct f2 as [|f2]; [discriminate|].
  assert (Hlt : vlen path < n).
  { destruct (sp_loop_prefix _ _ _ _ _ _ _ _ _ E) as [u ->]. rewrite vlen_app in Hn. pose proof (vlen_nonneg _ u). lia. }
  destruct (vget_ok _ path i Hi) as [h Eh]. pose proof (ci_node _ _ _ _ _ _ _ _ B h (vget_In _ _ _ _ Eh)) as Nh.
  destruct (Z.eq_dec h r) as [->|Dr].
  - cbn [gp_loop] in G. replace (vlen vh) with n in G by (unfold vh; rewrite vlen_map; auto).
    destruct (Z.ltb_spec n (vlen path + 1)); [lia|].
    replace (i + 1 - 1) with i in G by lia. rewrite (rpath_get _ _ _ Eh) in G. cbn [bind] in G.
    replace (S1 r - 1) with r in G by (unfold S1; lia). unfold vh at 1 in G.
    rewrite (vget_map _ _ S1 ps r (parent ps r)) in G by (apply parent_vget; auto). cbn [bind] in G.
    rewrite (vt_rootp _ _ _ V) in G. change (S1 (-1)) with 0 in G.
    destruct (existsb (Z.eqb 0) (rpath path)) eqn:Ex.
    + exfalso. apply existsb_exists in Ex. destruct Ex as [x [K Ex]]. apply Z.eqb_eq in Ex. subst x.
      unfold rpath in K. apply in_app_or in K. destruct K as [K|K].
      * apply in_map_iff in K. destruct K as [y [Ey Ky]]. pose proof (ci_node _ _ _ _ _ _ _ _ B y Ky) as Ny. unfold S1, node in *. lia.
      * unfold vrep in K. apply repeat_spec in K. discriminate.
    + replace (vlen path + 1 - 1) with (vlen path) in G by lia. rewrite rpath_snoc in G by lia. cbn [bind] in G.
      eapply vget_In. eapply gp_keep; [exact G| |].
      * instantiate (1 := vlen path). lia.
      * rewrite vget_app_r by (rewrite vlen_map; lia). rewrite vlen_map. replace (vlen path - vlen path) with 0 by lia. reflexivity.
  - destruct (gp_step v i path ch sz h f2 B Eh Dr Hlt) as (v' & p1 & c1 & s1 & H1 & B1 & H2).
    rewrite H2 in G. rewrite H1 in E. eapply IH; eauto.
Qed.

Lemma rpath_init : zrange 1 (L + 1) ++ vrep (vlen vh - L) (-1) = rpath (zrange 0 L).
Proof.
  pose proof (vt_L _ _ _ V) as VL. unfold rpath. rewrite vlen_zrange by lia. replace (vlen vh) with n by (unfold vh; rewrite vlen_map; auto).
  f_equal; [|f_equal; lia]. apply vget_ext; [rewrite vlen_map, !vlen_zrange by lia; lia|].
  intros i Hi. rewrite vlen_zrange in Hi by lia.
  rewrite vget_zrange by lia. rewrite (vget_map _ _ S1 _ i (0 + i)) by (apply vget_zrange; lia). f_equal. unfold S1. lia.
Qed.

Theorem getpath_prf : forall m, meta_build L ps = Ok m ->
  (vlen (m_path m) = n -> r_getpath vh L = Ok (map S1 (m_path m))) /\
  (vlen (m_path m) < n -> forall p, r_getpath vh L = Ok p -> In 0 p).
Proof.
  intros m E. pose proof (vt_L _ _ _ V) as VL. unfold meta_build, meta_build_fuel in E. apply bind_ok in E. destruct E as [[[path ch] sz] [E Er]].
  apply bind_ok in Er. destruct Er as [x [_ Er]]. injection Er as <-. cbn [m_path].
  unfold r_getpath. rewrite rpath_init. unfold sp_init in E.
  replace (L + 1) with (vlen (zrange 0 L) + 1) by (rewrite vlen_zrange by lia; lia). change 1 with (0 + 1) at 2 4. 
  split.
  - intro H. eapply gp_full; [apply cinv_init; auto|exact E|exact H|]. unfold vh. rewrite map_length. unfold n, vlen. lia.
  - intros H p G. eapply gp_short; [apply cinv_init; auto|exact E|exact H|exact G].
Qed.

Lemma getpath_stops : r_getpath vh L <> OutOfFuel.
Proof.
  pose proof (vt_L _ _ _ V) as VL. unfold r_getpath. 
  assert (H : vlen (zrange 1 (L + 1) ++ vrep (vlen vh - L) (-1)) = n).
  { replace (vlen vh) with n by (unfold vh; rewrite vlen_map; auto). rewrite vlen_app, vlen_zrange, vlen_vrep by (unfold n; lia). lia. }
  apply gp_fuel; rewrite H; [unfold n; lia|]. unfold vh. rewrite map_length. unfold n, vlen. lia.
Qed.
End Gp.
