(** * Lemmas for pjdump2micro: the hierarchy of the containers. *)
From Coq Require Import Lia Sorting.Sorted Permutation Reals Lra.
From Verif Require Import Base BaseFacts Arith RApi SpecR RFacts SpecTree SpecParts SpecMacro RHelpers MacroFacts HMacroFacts Slicer SpecSlicer SlicerFacts SpecPj PjFacts GetPath.

(** The position of a name in the list of nodes. *)
Definition idx (H : list Z) (q : Z) : Z := match r_match q H with Ok i => i | _ => 0 end.

Lemma idx_get : forall H q, In q H -> vget H (idx H q - 1) = Ok q /\ 1 <= idx H q <= vlen H.
Proof. intros H q I. unfold idx. destruct (r_match_in q H I) as (i & E). rewrite E. destruct (r_match_get _ _ _ E). auto. Qed.

Lemma find_pair : forall (f : Z * Z -> crow) cs x, (forall p, cr_res (f p) = fst p) -> NoDup (map fst cs) ->
  forall q, In (x, q) cs -> find (fun c => cr_res c =? x) (map f cs) = Some (f (x, q)).
Proof.
  intros f cs x Hf N q I. induction cs as [|p cs IH]; [destruct I|]. cbn [map] in *. inversion N as [|? ? Hx N']; subst. cbn [find]. rewrite Hf.
  destruct I as [->|I]; [cbn [fst]; rewrite Z.eqb_refl; auto|]. destruct (Z.eqb_spec (fst p) x) as [E|E]; [|auto].
  exfalso. apply Hx. rewrite E. change x with (fst (x, q)). apply in_map. auto.
Qed.

Lemma find_none_pair : forall (f : Z * Z -> crow) cs x, (forall p, cr_res (f p) = fst p) -> ~ In x (map fst cs) -> find (fun c => cr_res c =? x) (map f cs) = None.
Proof.
  intros f cs x Hf H. induction cs as [|p cs IH]; cbn; auto. rewrite Hf. destruct (Z.eqb_spec (fst p) x) as [E|E]; [exfalso; apply H; left; auto|].
  apply IH. intro K. apply H. right. auto.
Qed.

Section Tree.
Context (cs : list (Z * Z)) (H : list Z).
Hypothesis Nc : NoDup (map fst cs).
Hypothesis Hp : forall x q, In (x, q) cs -> In q H.

Definition rowat (done : list Z) (p : Z * Z) : crow := mkCR (fst p) (snd p) (if existsb (Z.eqb (fst p)) done then idx H (snd p) else -1).

Lemma index_loop : forall l done, mfold (fun x rs =>
    match find (fun c => cr_res c =? x) rs with
    | None => Ok rs
    | Some c0 =>
        let* i := r_match (cr_parent c0) H in
        Ok (map (fun c => if cr_res c =? x then mkCR (cr_res c) (cr_parent c) i else c) rs)
    end) l (map (rowat done) cs) = Ok (map (rowat (done ++ l)) cs).
Proof.
  induction l as [|x l IH]; intro done; cbn [mfold].
  - rewrite app_nil_r. reflexivity.
  - assert (Q : match find (fun c => cr_res c =? x) (map (rowat done) cs) with
               | None => Ok (map (rowat done) cs)
               | Some c0 => let* i := r_match (cr_parent c0) H in Ok (map (fun c => if cr_res c =? x then mkCR (cr_res c) (cr_parent c) i else c) (map (rowat done) cs))
               end = Ok (map (rowat (done ++ [x])) cs)).
    { destruct (in_dec Z.eq_dec x (map fst cs)) as [I|I].
      - apply in_map_iff in I. destruct I as ([x' q] & E & I). cbn in E. subst x'. rewrite (find_pair (rowat done) cs x) with (q := q) by (auto; reflexivity). cbn [rowat cr_parent fst snd].
        destruct (r_match_in q H (Hp _ _ I)) as (i & Ei). rewrite Ei. cbn [bind]. f_equal. rewrite map_map. apply map_ext_in. intros [y p] Iy. cbn [rowat cr_res cr_parent fst snd].
        unfold rowat. cbn [fst snd]. rewrite existsb_app. cbn [existsb]. rewrite orb_false_r. destruct (Z.eqb_spec y x) as [->|D].
        + rewrite orb_true_r. assert (p = q) as ->.
          { clear -Nc I Iy. induction cs as [|c l IH]; [destruct I|]. cbn in Nc. inversion Nc as [|? ? Hx N']; subst. destruct I as [->|I], Iy as [E|Iy]; try congruence; auto; exfalso; apply Hx.
            - change (fst (x, q)) with (fst (x, p)). apply in_map. auto. - subst c. change (fst (x, p)) with (fst (x, q)). apply in_map. auto. }
          unfold idx. rewrite Ei. reflexivity.
        + rewrite orb_false_r. reflexivity.
      - rewrite find_none_pair by (auto; reflexivity). f_equal. apply map_ext_in. intros [y p] Iy. unfold rowat. cbn [fst snd]. rewrite existsb_app. cbn [existsb].
        destruct (Z.eqb_spec y x) as [->|D]; [exfalso; apply I; change x with (fst (x, p)); apply in_map; auto|]. rewrite !orb_false_r. reflexivity. }
    rewrite Q. cbn [bind]. rewrite IH, <- app_assoc. reflexivity.
Qed.

Lemma pm_index_prf : pm_index H (map (fun '(x, q) => mkCR x q (-1)) cs) = Ok (map (rowat H) cs).
Proof.
  unfold pm_index. rewrite (map_ext (fun '(x, q) => mkCR x q (-1)) (rowat [])) by (intros [x q]; reflexivity). rewrite index_loop. reflexivity.
Qed.

Hypothesis Hc : forall x, In x H -> In x (map fst cs).

Lemma pm_hierarchy_prf : forall root q0 rest, cs = (root, q0) :: rest -> exists vh, pm_hierarchy H cs = Ok vh /\ vlen vh = vlen H /\
  forall i x, vget H i = Ok x -> (x = root -> vget vh i = Ok 0) /\ (x <> root -> forall q, In (x, q) cs -> vget vh i = Ok (idx H q)).
Proof.
  intros root q0 rest E. unfold pm_hierarchy. rewrite pm_index_prf. cbn [bind]. replace (map (rowat H) cs) with (map (rowat H) ((root, q0) :: rest)) by (rewrite E; reflexivity). cbn [map rowat fst snd cr_res cr_parent].
  set (rs := mkCR root q0 0 :: map (rowat H) rest).
  set (f := fun p : Z * Z => mkCR (fst p) (snd p) (if fst p =? root then 0 else idx H (snd p))).
  assert (Er : forall x, In x H -> forall q, In (x, q) cs -> find (fun c => cr_res c =? x) rs = Some (if x =? root then mkCR root q0 0 else mkCR x q (idx H q))).
  { intros x Ix q Iq. unfold rs. cbn [find cr_res]. rewrite (Z.eqb_sym root x). destruct (Z.eqb_spec x root) as [->|D]; auto. rewrite E in Iq. destruct Iq as [Iq|Iq]; [congruence|].
    assert (Nr : NoDup (map fst rest)) by (rewrite E in Nc; cbn in Nc; inversion Nc; auto). rewrite (find_pair (rowat H) rest x (fun _ => eq_refl) Nr q Iq). f_equal. unfold rowat. cbn [fst snd].
    rewrite (proj2 (existsb_exists _ _)); auto. exists x. split; auto. apply Z.eqb_refl. }
  destruct (mmap_total _ _ (fun x => match find (fun c => cr_res c =? x) rs with None => UB | Some c => Ok (cr_index c) end) H) as (vh & Ev).
  { intros x Ix. pose proof (Hc x Ix) as J. apply in_map_iff in J. destruct J as ([x' q] & Ex & J). cbn in Ex. subst x'. rewrite (Er x Ix q J). eauto. }
  exists vh. split; [exact Ev|]. pose proof (proj1 (mmap_Forall2 _ _ _ _ _) Ev) as F. destruct (F2_vget _ _ _ _ _ F) as (L & G). split; auto.
  intros i x Gi. destruct (G i x Gi) as (y & Gy & Ey). pose proof (vget_In _ _ _ _ Gi) as Ix. split.
  - intros ->. assert (J : In (root, q0) cs) by (rewrite E; left; auto). rewrite (Er root Ix q0 J), Z.eqb_refl in Ey. cbn in Ey. injection Ey as <-. auto.
  - intros D q J. rewrite (Er x Ix q J) in Ey. destruct (Z.eqb_spec x root); [congruence|]. cbn in Ey. injection Ey as <-. auto.
Qed.
End Tree.

(** An answer means that all nodes are containers. *)
Lemma pm_index_names : forall H l rs rs', mfold (fun x rs =>
    match find (fun c => cr_res c =? x) rs with
    | None => Ok rs
    | Some c0 =>
        let* i := r_match (cr_parent c0) H in
        Ok (map (fun c => if cr_res c =? x then mkCR (cr_res c) (cr_parent c) i else c) rs)
    end) l rs = Ok rs' -> map cr_res rs' = map cr_res rs.
Proof.
  intros H l. induction l as [|x l IH]; intros rs rs' E; cbn [mfold] in E; [injection E as <-; auto|].
  destruct (find (fun c => cr_res c =? x) rs) as [c0|]; [|cbn [bind] in E; apply IH; auto].
  destruct (r_match (cr_parent c0) H) as [i| |]; try discriminate. cbn [bind] in E. rewrite (IH _ _ E), map_map. apply map_ext. intro c. destruct (cr_res c =? x); auto.
Qed.

Lemma find_none_names : forall (rs : list crow) x, ~ In x (map cr_res rs) -> find (fun c => cr_res c =? x) rs = None.
Proof.
  intros rs x H. induction rs as [|c rs IH]; cbn; auto. destruct (Z.eqb_spec (cr_res c) x) as [E|E]; [exfalso; apply H; left; auto|]. apply IH. intro K. apply H. right. auto.
Qed.

Lemma pm_hierarchy_needs : forall H cs vh x, pm_hierarchy H cs = Ok vh -> In x H -> is_container cs x.
Proof.
  intros H cs vh x E I. unfold pm_hierarchy in E. destruct (pm_index H _) as [rs| |] eqn:Ei; try discriminate. cbn [bind] in E. unfold pm_index in Ei. apply pm_index_names in Ei.
  rewrite map_map in Ei. rewrite (map_ext _ fst) in Ei by (intros [y q]; reflexivity). destruct rs as [|c rs']; [discriminate|].
  destruct (in_dec Z.eq_dec x (map fst cs)) as [J|J]; [apply in_map_iff in J; destruct J as ([y q] & Ey & J); cbn in Ey; subst; exists q; auto|]. exfalso.
  pose proof (proj1 (mmap_Forall2 _ _ _ _ _) E) as F. destruct (In_vget _ _ _ I) as (i & Gi & _). destruct (proj2 (F2_vget _ _ _ _ _ F) i x Gi) as (y & _ & Ey).
  rewrite find_none_names in Ey; [discriminate|]. cbn [map cr_res] in *. rewrite Ei. auto.
Qed.

(** ** The tree *)
Lemma iter_r : forall X (f : X -> X) d x, Nat.iter (S d) f x = Nat.iter d f (f x).
Proof. intros X f d. induction d as [|d IH]; intro x; [reflexivity|]. change (f (Nat.iter (S d) f x) = f (Nat.iter d f (f x))). rewrite IH. reflexivity. Qed.

Lemma above_last : forall cs d x y, above cs d x y -> x = y \/ exists c, In (c, y) cs /\ (c = x \/ exists z, In (z, c) cs).
Proof.
  intros cs d x y A. induction A as [x|d x q y I A IH]; auto. right. destruct IH as [->|(c & Ic & Kc)]; [exists x; auto|]. exists c. split; auto. right. destruct Kc as [->|K]; [exists x; auto|auto].
Qed.

Lemma tree_prf : forall cs (P : Z -> Prop) root space parents, tree_of cs P root -> lists P space -> lists (is_parent cs) parents -> (forall x, P x -> ~ is_parent cs x) -> space <> [] ->
  let nodes := space ++ rev parents in
  NoDup nodes /\ exists vh ro, pm_hierarchy nodes cs = Ok vh /\ vlen vh = vlen nodes /\ vget nodes ro = Ok root /\ (no_empty cs P -> valid_tree (vlen space) (from0 vh) ro) /\
    (forall i x, vget nodes (i - 1) = Ok x -> (x = root /\ vget vh (i - 1) = Ok 0) \/ (x <> root /\ exists q j, In (x, q) cs /\ vget nodes (j - 1) = Ok q /\ vget vh (i - 1) = Ok j)) /\
    (forall D, (forall x, P x -> above (tl cs) D x root) -> uniform_depth (vlen space) (from0 vh) ro) /\ 2 <= vlen vh.
Proof.
  intros cs P root space parents (q0 & rest & Ec & Nc & Hpc & Hxc & Hab) (Ss & Is) (Sp & Ip) Dis Hne nodes.
  assert (Nn : NoDup nodes).
  { unfold nodes. apply NoDup_app2.
    - apply sorted_NoDup; auto. - apply NoDup_rev, sorted_NoDup; auto.
    - intros x I J. apply in_rev in J. apply Ip in J. apply Is in I. exact (Dis x I J). }
  assert (In_n : forall x, In x nodes <-> P x \/ is_parent cs x) by (intro x; unfold nodes; rewrite in_app_iff, <- in_rev, Is, Ip; tauto).
  split; auto.
  assert (Hp : forall x q, In (x, q) cs -> In q nodes) by (intros x q I; apply In_n; right; exists x; auto).
  assert (Hc : forall x, In x nodes -> In x (map fst cs)).
  { intros x I. apply In_n in I. assert (K : is_container cs x) by (destruct I; auto). destruct K as (q & K). change x with (fst (x, q)). apply in_map. auto. }
  destruct (pm_hierarchy_prf cs nodes Nc Hp Hc root q0 rest Ec) as (vh & Ev & Lv & Gv).
  assert (Rp : is_parent cs root).
  { destruct (Hab q0) as (d & A); [right; exists root; rewrite Ec; left; auto|]. destruct (above_last _ _ _ _ A) as [E|(c & Ic & _)]; [exists root; rewrite Ec; left; congruence|exists c; rewrite Ec; right; auto]. }
  assert (Ir : In root nodes) by (apply In_n; auto).
  destruct (In_vget _ _ _ Ir) as (ro & Gro & Bro). exists vh, ro. split; auto. split; auto. split; auto.
  assert (Nrest : ~ In root (map fst rest)) by (rewrite Ec in Nc; cbn in Nc; inversion Nc; auto).
  assert (NR : forall x q, In (x, q) rest -> x <> root) by (intros x q I ->; apply Nrest; change root with (fst (root, q)); apply in_map; auto).
  assert (Rc : forall x q, In (x, q) rest -> In (x, q) cs) by (intros x q I; rewrite Ec; right; auto).
  assert (Lf : vlen (from0 vh) = vlen nodes) by (unfold from0; rewrite vlen_map; auto).
  assert (Pr : forall i, vget nodes i = Ok root -> parent (from0 vh) i = -1).
  { intros i G. unfold parent, from0. rewrite (vget_map _ _ (fun x => x - 1) _ _ 0); auto. apply (proj1 (Gv i root G)); auto. }
  assert (Pn : forall i x q, vget nodes i = Ok x -> x <> root -> In (x, q) cs -> parent (from0 vh) i = idx nodes q - 1).
  { intros i x q G D I. unfold parent, from0. rewrite (vget_map _ _ (fun x => x - 1) _ _ (idx nodes q)); auto. apply (proj2 (Gv i x G)); auto. }
  assert (Hs : forall i x, vget nodes i = Ok x -> (vlen space <= i <-> is_parent cs x)).
  { intros i x G. pose proof (vget_inv _ _ _ _ G) as B. destruct (Z.lt_ge_cases i (vlen space)) as [K|K].
    - unfold nodes in G. rewrite vget_app_l in G by lia. apply vget_In, Is in G. split; [lia|]. intro Q. exfalso. eapply Dis; eauto.
    - split; auto. intros _. unfold nodes in G. rewrite vget_app_r in G by lia. apply vget_In, in_rev, Ip in G. auto. }
  assert (Up0 : forall d x y, above rest d x y -> y = root -> forall i, vget nodes i = Ok x -> below (from0 vh) i ro /\ Nat.iter d (parent (from0 vh)) i = ro).
  { intros d x y A. induction A as [x|d x q y I A IH]; intros Ey i G.
    - subst x. rewrite (NoDup_vget _ _ _ _ _ Nn G Gro). split; [constructor|reflexivity].
    - subst y. assert (Iq : In q nodes) by (apply (Hp x); auto). destruct (idx_get nodes q Iq) as (Gq & Bq). pose proof (Pn i x q G (NR _ _ I) (Rc _ _ I)) as E.
      destruct (IH eq_refl (idx nodes q - 1) Gq) as (IH1 & IH2). split; [|rewrite iter_r, E; auto]. apply below_up; rewrite E; [lia|auto]. }
  assert (Up : forall d x, above rest d x root -> forall i, vget nodes i = Ok x -> below (from0 vh) i ro /\ Nat.iter d (parent (from0 vh)) i = ro) by (intros d x A; apply (Up0 d x root A); auto).
  assert (Sp0 : 0 < vlen space) by (destruct space; [congruence|unfold vlen; cbn; lia]).
  assert (Ln : vlen nodes = vlen space + vlen parents) by (unfold nodes; rewrite vlen_app; unfold vlen; rewrite rev_length; auto).
  assert (Lp : 1 <= vlen parents). { apply Ip in Rp. destruct parents; [destruct Rp|unfold vlen; cbn; lia]. }
  split; [|split; [|split; [|lia]]].
  - intro Hfull. constructor.
    + lia.
    + unfold node. lia.
    + apply Pr. auto.
    + intros h Bh D0. unfold node in *. rewrite Lf in *. destruct (vget_ok _ nodes h Bh) as (x & G). assert (D : x <> root) by (intros ->; apply D0; apply (NoDup_vget _ _ _ _ _ Nn G Gro)).
      pose proof (Hc x (vget_In _ _ _ _ G)) as Ix. apply in_map_iff in Ix. destruct Ix as ([x' q] & Ex & Ix). cbn in Ex. subst x'. rewrite (Pn h x q G D Ix).
      destruct (idx_get nodes q (Hp _ _ Ix)) as (Gq & Bq). split; [apply (Hs _ _ Gq); exists x; auto|lia].
    + intros h Bh. rewrite Lf in Bh. destruct (vget_ok _ nodes h ltac:(lia)) as (x & G). assert (Px : is_parent cs x) by (apply (Hs h x G); lia).
      assert (Hch : exists c, In (c, x) rest /\ (P c \/ is_parent cs c)).
      { destruct (Hfull x Px) as (y & d & Py & A). rewrite Ec in A. cbn [tl] in A. destruct (above_last _ _ _ _ A) as [->|(c & Ic & Kc)]; [exfalso; eapply Dis; eauto|].
        exists c. split; auto. destruct Kc as [->|(z & Iz)]; auto. right. exists z. auto. }
      destruct Hch as (c & Ic & Kc). assert (Icn : In c nodes) by (apply In_n; auto). destruct (In_vget _ _ _ Icn) as (i & Gi & Bi). exists i. unfold node. rewrite Lf. split; auto.
      rewrite (Pn i c x Gi (NR _ _ Ic) (Rc _ _ Ic)). destruct (idx_get nodes x (Hp _ _ (Rc _ _ Ic))) as (Gx & _). apply (NoDup_vget _ _ _ _ _ Nn Gx G).
    + intros h Hh. unfold node in Hh. rewrite Lf in Hh. destruct (vget_ok _ nodes h Hh) as (x & G). destruct (Hab x) as (d & A); [apply In_n; apply (vget_In _ _ _ _ G)|]. apply (Up d x A h G).
  - intros i x G. destruct (Z.eq_dec x root) as [->|D]; [left; split; auto; apply (proj1 (Gv _ _ G)); auto|]. right. split; auto.
    pose proof (Hc x (vget_In _ _ _ _ G)) as Ix. apply in_map_iff in Ix. destruct Ix as ([x' q] & Ex & Ix). cbn in Ex. subst x'. exists q, (idx nodes q). split; auto. split; [apply (idx_get nodes q (Hp _ _ Ix))|].
    apply (proj2 (Gv _ _ G)); auto.
  - intros D HD. exists D. intros i Hi. unfold leaf in Hi. destruct (vget_ok _ nodes i ltac:(lia)) as (x & G). apply (Up D x); auto. rewrite Ec in HD. cbn [tl] in HD. apply HD.
    unfold nodes in G. rewrite vget_app_l in G by lia. apply vget_In, Is in G. auto.
Qed.
