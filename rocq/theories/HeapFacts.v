(** * The pointer-level computeBestPartition computes what the value-level one does (ordered and hierarchical). *)
From Coq Require Import Lia.
From Verif Require Import Base BaseFacts Arith Quality Utm Hierarchy Values Qualities Partitions Partitioners TradeoffHeap SpecHeap.

(** ** Relating two computations *)
Lemma rsim_bind : forall X Y X' Y' (R : X -> Y -> Prop) (Q : X' -> Y' -> Prop) x y f g,
  rsim R x y -> (forall a b, R a b -> rsim Q (f a) (g b)) -> rsim Q (bind x f) (bind y g).
Proof. intros X Y X' Y' R Q [a| |] [b| |] f g H K; simpl in *; auto; tauto. Qed.

Lemma rsim_weaken : forall X Y (R Q : X -> Y -> Prop) x y, rsim R x y -> (forall a b, R a b -> Q a b) -> rsim Q x y.
Proof. intros X Y R Q [a| |] [b| |] H K; simpl in *; auto. Qed.

Lemma F2_length : forall X Y (R : X -> Y -> Prop) u v, Forall2 R u v -> length u = length v.
Proof. intros X Y R u v H. induction H; simpl; auto. Qed.

Lemma F2_impl : forall X Y (R Q : X -> Y -> Prop) u v, (forall a b, R a b -> Q a b) -> Forall2 R u v -> Forall2 Q u v.
Proof. intros X Y R Q u v H K. induction K; constructor; auto. Qed.

Lemma F2_len : forall X Y (R : X -> Y -> Prop) u v, Forall2 R u v -> vlen u = vlen v.
Proof. intros X Y R u v H. unfold vlen. rewrite (F2_length _ _ _ _ _ H). auto. Qed.

Lemma F2_nth : forall X Y (R : X -> Y -> Prop) u v n, Forall2 R u v ->
  match nth_error u n, nth_error v n with Some a, Some b => R a b | None, None => True | _, _ => False end.
Proof. intros X Y R u v n H. revert n. induction H; intros [|n]; simpl; auto. apply IHForall2. Qed.

Lemma rsim_vget : forall X Y (R : X -> Y -> Prop) u v i, Forall2 R u v -> rsim R (vget u i) (vget v i).
Proof.
  intros X Y R u v i H. unfold vget. destruct (i <? 0); [exact Logic.I|]. pose proof (F2_nth _ _ _ _ _ (Z.to_nat i) H) as N.
  destruct (nth_error u (Z.to_nat i)), (nth_error v (Z.to_nat i)); simpl; auto.
Qed.

Lemma F2_of_vget : forall X Y (R : X -> Y -> Prop) (u : list X) (v : list Y), vlen u = vlen v ->
  (forall k a b, vget u k = Ok a -> vget v k = Ok b -> R a b) -> Forall2 R u v.
Proof.
  intros X Y R u. induction u as [|a u IH]; intros [|b v] L H; unfold vlen in L; simpl in L; try lia; constructor.
  - apply (H 0); auto.
  - apply IH; [unfold vlen; lia|]. intros k x y Hx Hy. pose proof (vget_inv _ _ _ _ Hx).
    apply (H (k + 1)); apply vget_nth; (split; [lia|]); replace (Z.to_nat (k + 1)) with (S (Z.to_nat k)) by lia; simpl.
    + apply vget_nth in Hx. apply Hx.
    + apply vget_nth in Hy. apply Hy.
Qed.

Lemma F2_upd : forall X Y (R : X -> Y -> Prop) u v n x y, Forall2 R u v -> R x y -> Forall2 R (upd n x u) (upd n y v).
Proof. intros X Y R u v n x y H K. revert n. induction H; intros [|n]; simpl; constructor; auto. Qed.

Lemma rsim_vset : forall X Y (R : X -> Y -> Prop) u v i x y, Forall2 R u v -> R x y -> rsim (Forall2 R) (vset u i x) (vset v i y).
Proof.
  intros X Y R u v i x y H K. unfold vset. rewrite (F2_length _ _ _ _ _ H). destruct ((i <? 0) || (Z.of_nat (length v) <=? i)); simpl; auto.
  apply F2_upd; auto.
Qed.

Lemma rsim_mfold : forall I X Y (R : X -> Y -> Prop) (f : I -> X -> res X) (g : I -> Y -> res Y) l x y,
  (forall i a b, In i l -> R a b -> rsim R (f i a) (g i b)) -> R x y -> rsim R (mfold f l x) (mfold g l y).
Proof.
  intros I X Y R f g l. induction l as [|i l IH]; intros x y H K; simpl; auto.
  eapply rsim_bind; [apply H; simpl; auto|]. intros a b N. apply IH; auto. intros; apply H; simpl; auto.
Qed.

Lemma rsim_mmap : forall I X Y (R : X -> Y -> Prop) (f : I -> res X) (g : I -> res Y) l,
  (forall i, In i l -> rsim R (f i) (g i)) -> rsim (Forall2 R) (mmap f l) (mmap g l).
Proof.
  intros I X Y R f g l. induction l as [|i l IH]; intro H; simpl; [constructor|].
  eapply rsim_bind; [apply H; simpl; auto|]. intros a b K. eapply rsim_bind; [apply IH; intros; apply H; simpl; auto|].
  intros r s N. simpl. constructor; auto.
Qed.

Lemma rsim_eq : forall X (R : X -> X -> Prop) x, (forall a, x = Ok a -> R a a) -> rsim R x x.
Proof. intros X R [a| |] H; simpl; auto. Qed.

Lemma rsim_path : forall X Y (R : X -> Y -> Prop) path a n (f : Z -> X -> res X) (g : Z -> Y -> res Y) x y,
  (forall h s t, R s t -> rsim R (f h s) (g h t)) -> R x y ->
  rsim (fun s t => R (fst s) (fst t) /\ snd s = snd t) (path_loop path a n f x) (path_loop path a n g y).
Proof.
  intros X Y R path a n f g x y H K. unfold path_loop. apply (rsim_bind _ _ _ _ eq).
  { apply rsim_eq. auto. } intros h h' <-. apply rsim_mfold; [|auto]. intros i [s k] [t k'] _ [J E]. cbn [fst snd] in *. subst k'.
  eapply rsim_bind; [apply H, J|]. intros s' t' J'. apply (rsim_bind _ _ _ _ eq); [apply rsim_eq; auto|]. intros q q' <-. simpl. auto.
Qed.

(** ** Matrices *)
Lemma rsim_u_get : forall X Y (R : X -> Y -> Prop) u v i j, urel R u v -> rsim R (u_get u i j) (u_get v i j).
Proof. intros X Y R u v i j (E1 & E2 & H). unfold u_get. rewrite E1. apply rsim_vget, H. Qed.

Lemma rsim_u_set : forall X Y (R : X -> Y -> Prop) u v i j x y, urel R u v -> R x y -> rsim (urel R) (u_set u i j x) (u_set v i j y).
Proof.
  intros X Y R u v i j x y (E1 & E2 & H) K. unfold u_set. rewrite E1. eapply rsim_bind; [apply rsim_vset; [exact H|exact K]|].
  intros d d' N. simpl. unfold urel. simpl. auto.
Qed.

Lemma rsim_mm_get : forall X Y (R : X -> Y -> Prop) ms ms' h i j, Forall2 (urel R) ms ms' -> rsim R (mm_get ms h i j) (mm_get ms' h i j).
Proof. intros. unfold mm_get. eapply rsim_bind; [apply rsim_vget; eassumption|]. intros a b K. apply rsim_u_get, K. Qed.

Section S.
Context (A : arith).
Notation quality := (quality A).
Notation tradeoff := (tradeoff A).
Notation heap := (heap A).
Notation tobj := (tobj A).

Definition ext (hp hp' : heap) : Prop := exists l, hp' = hp ++ l.

Lemma ext_refl : forall hp, ext hp hp.
Proof. intro hp. exists []. symmetry. apply app_nil_r. Qed.
Lemma ext_trans : forall a b c, ext a b -> ext b c -> ext a c.
Proof. intros a b c [l ->] [l' ->]. exists (l ++ l'). symmetry. apply app_assoc. Qed.
Lemma ext_app : forall hp l, ext hp (hp ++ l).
Proof. intros. exists l. auto. Qed.

Lemma vget_ext_heap : forall hp hp' a (q : quality), ext hp hp' -> vget hp a = Ok q -> vget hp' a = Ok q.
Proof. intros hp hp' a q [l ->] H. rewrite vget_app_l; auto. apply vget_inv in H. lia. Qed.

(** The table pointer [a] denotes the quality [q]. *)
Definition tab (hp : heap) (a : Z) (q : quality) : Prop := vget hp a = Ok q.
Definition obj (hp : heap) (o : tobj) (x : tradeoff) : Prop := to_val A hp o = Ok x.

Lemma obj_ext : forall hp hp' o x, ext hp hp' -> obj hp o x -> obj hp' o x.
Proof.
  intros hp hp' o x E H. unfold obj, to_val in *. apply bind_ok in H. destruct H as (q & H1 & H2).
  rewrite (vget_ext_heap _ _ _ _ E H1). exact H2.
Qed.

Lemma obj_iff : forall hp o x, obj hp o x <-> vget hp (to_q o) = Ok (t_quality x) /\ to_v o = t_value x.
Proof.
  intros hp o [q v]. unfold obj, to_val. cbn [t_quality t_value]. split.
  - intro H. apply bind_ok in H. destruct H as (q' & H1 & H2). inversion H2; subst. auto.
  - intros [H1 H2]. rewrite H1. simpl. rewrite H2. auto.
Qed.

Lemma vget_last : forall X (l : list X) x, vget (l ++ [x]) (vlen l) = Ok x.
Proof. intros. rewrite vget_app_r by lia. replace (vlen l - vlen l) with 0 by lia. reflexivity. Qed.

Lemma upd_last : forall X (l : list X) x y, upd (length l) y (l ++ [x]) = l ++ [y].
Proof. induction l; intros; simpl; auto. f_equal; auto. Qed.

Lemma vset_last : forall X (l : list X) x y, vset (l ++ [x]) (vlen l) y = Ok (l ++ [y]).
Proof.
  intros. rewrite vset_ok by (rewrite vlen_app; unfold vlen; simpl; lia). unfold vlen. rewrite Nat2Z.id, upd_last. auto.
Qed.

Lemma to_set_ok : forall hp o qa p q, vget hp qa = Ok q ->
  to_set A hp o qa p = Ok (hp ++ [mkQ (gain q) (loss q)], mkTO A (vlen hp) (t_value (t_set A q p))) /\
  obj (hp ++ [mkQ (gain q) (loss q)]) (mkTO A (vlen hp) (t_value (t_set A q p))) (t_set A q p).
Proof.
  intros hp o qa p q H. split.
  - unfold to_set. rewrite H. cbn [bind h_alloc]. rewrite vget_last. cbn [bind]. destruct q; reflexivity.
  - apply obj_iff. cbn [to_q to_v]. rewrite vget_last. auto.
Qed.

(** [+=] on a tradeoff whose Quality is the last one allocated. *)
Lemma to_add_last : forall hp q v o b y, obj hp b y -> o = mkTO A (vlen hp) v ->
  to_add A (hp ++ [q]) o b = Ok (hp ++ [q_add A q (t_quality y)], mkTO A (vlen hp) (n_add A v (t_value y))) /\
  obj (hp ++ [q_add A q (t_quality y)]) (mkTO A (vlen hp) (n_add A v (t_value y))) (t_add A (mkT q v) y).
Proof.
  intros hp q v o b y Hb ->. pose proof (obj_ext _ _ _ _ (ext_app hp [q]) Hb) as Hb'. apply obj_iff in Hb'. destruct Hb' as [H1 H2]. split.
  - unfold to_add. cbn [to_q to_v]. rewrite vget_last, H1. cbn [bind]. rewrite vset_last. cbn [bind]. rewrite H2. auto.
  - apply obj_iff. cbn [to_q to_v]. rewrite vget_last. auto.
Qed.

(** ** Totals *)
Definition tparts {K : Type} (hp : heap) (l : list (K * Z)) (l' : list (K * quality)) : Prop :=
  Forall2 (fun a b => fst a = fst b /\ tab hp (snd a) (snd b)) l l'.

Lemma tparts_ext : forall K hp hp' (l : list (K * Z)) l', ext hp hp' -> tparts hp l l' -> tparts hp' l l'.
Proof. intros K hp hp' l l' E H. eapply F2_impl; [|exact H]. intros a b [H1 H2]. split; auto. eapply vget_ext_heap; eauto. Qed.

Lemma pn_total_ok : forall K hp (l : list (K * Z)) l', tparts hp l l' ->
  pn_total A hp l = Ok (hp ++ [sum_quality A (map snd l')], vlen hp).
Proof.
  intros K hp l l' H. unfold pn_total. cbn [h_alloc]. unfold sum_quality.
  assert (G : forall q, mfold (fun kx hp0 => let* t := vget hp0 (vlen hp) in let* q := vget hp0 (snd kx) in vset hp0 (vlen hp) (q_add A t q)) l (hp ++ [q])
    = Ok (hp ++ [fold_left (q_add A) (map snd l') q])).
  { induction H as [|a b l l' [H1 H2] H IH]; intro q; cbn [mfold map fold_left]; auto.
    rewrite vget_last. cbn [bind]. rewrite (vget_ext_heap _ _ _ _ (ext_app hp [q]) H2). cbn [bind]. rewrite vset_last. cbn [bind]. apply IH. }
  rewrite G. auto.
Qed.

(** ** Ordered *)
Section O.
Variables (hp0 : heap) (t : utm Z) (tq : utm quality) (p : par A).
Hypothesis T : urel (tab hp0) t tq.

Definition RO (s : oh_state A) (s' : list Z * list tradeoff) : Prop :=
  let '(hp, _, cut, tr) := s in ext hp0 hp /\ cut = fst s' /\ Forall2 (obj hp) tr (snd s').

Lemma F2_obj_ext : forall hp hp' tr tr', ext hp hp' -> Forall2 (obj hp) tr tr' -> Forall2 (obj hp') tr tr'.
Proof. intros hp hp' tr tr' E H. eapply F2_impl; [|exact H]. intros. eapply obj_ext; eauto. Qed.

Lemma oh_try_sim : forall i c s s', RO s s' -> rsim RO (oh_try A t p i c s) (ob_try A tq p i c s').
Proof.
  intros i c [[[hp tx] cut] tr] [cut' tr'] (E & Ec & Ht). cbn [fst snd] in *. subst cut'. unfold oh_try, ob_try.
  eapply rsim_bind; [apply rsim_u_get, T|]. intros qa q Hq. pose proof (vget_ext_heap _ _ _ _ E Hq) as Hq'.
  destruct (to_set_ok hp tx qa p q Hq') as [-> O1]. cbn [bind].
  eapply rsim_bind; [apply rsim_vget, Ht|]. intros nx x Hn.
  destruct (to_add_last hp (mkQ (gain q) (loss q)) (t_value (t_set A q p)) _ nx x Hn eq_refl) as [-> O2]. cbn [bind]. clear O1.
  set (hp' := hp ++ [_]) in *. assert (E' : ext hp hp') by apply ext_app.
  change (mkT (mkQ (gain q) (loss q)) (t_value (t_set A q p))) with (t_set A q p) in O2.
  eapply rsim_bind; [apply rsim_vget, Ht|]. intros cu y Hy. pose proof (obj_ext _ _ _ _ E' Hy) as Hy'.
  unfold obj in O2, Hy'. rewrite O2. cbn [bind]. rewrite Hy'. cbn [bind]. destruct (t_gtb A (t_add A (t_set A q p) x) y).
  - eapply rsim_bind with (R := eq); [apply rsim_eq; auto|]. intros c1 c2 <-.
    eapply rsim_bind; [apply rsim_vset; [apply (F2_obj_ext _ _ _ _ E' Ht)|]|].
    { unfold to_copy. cbn [to_q to_v]. exact O2. }
    intros tr1 tr2 H. simpl. split; [eapply ext_trans; eauto|auto].
  - simpl. split; [eapply ext_trans; eauto|]. split; auto. eapply F2_obj_ext; eauto.
Qed.

Lemma rsim_vget_vset : forall (hp hp' : heap) tr tr' i (X Y : Type) (Q : X -> Y -> Prop) f g y,
  Forall2 (obj hp') tr tr' ->
  (forall o tr1', vget tr i = Ok o -> vset tr' i y = Ok tr1' -> rsim Q (f o) (g tr1')) ->
  rsim Q (let* o := vget tr i in f o) (let* tr1' := vset tr' i y in g tr1').
Proof.
  intros hp hp' tr tr' i X Y Q f g y H K. destruct (Z_lt_dec i 0) as [L|L]; [|destruct (Z_lt_dec i (vlen tr)) as [L'|L']].
  - rewrite vget_out, vset_out by lia. exact Logic.I.
  - destruct (vget_ok _ tr i ltac:(lia)) as [o Eo]. pose proof (F2_len _ _ _ _ _ H) as Hl.
    pose proof (vset_ok _ tr' i y ltac:(lia)) as Ev. rewrite Eo, Ev. cbn [bind]. eapply K; eauto.
  - pose proof (F2_len _ _ _ _ _ H). rewrite vget_out, vset_out by lia. exact Logic.I.
Qed.

Lemma oh_line_sim : forall size i s s', RO s s' -> rsim RO (oh_line A t p size i s) (ob_line A tq p size i s').
Proof.
  intros size i [[[hp tx] cut] tr] [cut' tr'] (E & Ec & Ht). cbn [fst snd] in *. subst cut'. unfold oh_line, ob_line.
  eapply rsim_bind; [apply rsim_u_get, T|]. intros qa q Hq. pose proof (vget_ext_heap _ _ _ _ E Hq) as Hq'.
  apply (rsim_vget_vset hp hp); [exact Ht|]. intros o tr1' Eo Ev. destruct (to_set_ok hp o qa p q Hq') as [-> O1]. cbn [bind].
  set (hp' := hp ++ [_]) in *. assert (E' : ext hp hp') by apply ext_app. set (o' := mkTO A _ _) in *.
  pose proof (rsim_vset _ _ (obj hp') tr tr' i o' (t_set A q p) (F2_obj_ext _ _ _ _ E' Ht) O1) as S. rewrite Ev in S.
  destruct (vset tr i o') as [tr1| |]; simpl in S; try tauto. cbn [bind].
  apply rsim_mfold; [intros; apply oh_try_sim; auto|]. simpl. split; [eapply ext_trans; eauto|auto].
Qed.

Lemma fresh_objs : forall hp (base : Z -> Z) n l, (forall i, 0 <= i < n -> vget (hp ++ l) (base i) = Ok (q_zero A)) ->
  Forall2 (obj (hp ++ l)) (map (fun i => mkTO A (base i) (n_zero A)) (zrange 0 n)) (vrep n (t_zero A)).
Proof.
  intros hp base n l H. destruct (Z_le_gt_dec 0 n) as [Hn|Hn].
  2:{ rewrite zrange_empty by lia. unfold vrep. replace (Z.to_nat n) with O by lia. constructor. }
  assert (G : forall k, 0 <= k -> k <= n -> Forall2 (obj (hp ++ l)) (map (fun i => mkTO A (base i) (n_zero A)) (zrange 0 k)) (vrep k (t_zero A))).
  { intros k Hk. pattern k. apply natlike_ind; auto; clear k Hk; [constructor|]. intros k Hk IH Hl. rewrite <- Z.add_1_r.
    rewrite zrange_snoc, map_app by lia. unfold vrep. replace (Z.to_nat (k + 1)) with (Z.to_nat k + 1)%nat by lia. rewrite repeat_app.
    apply Forall2_app; [apply IH; lia|]. constructor; [|constructor]. apply obj_iff. cbn. split; auto. apply H. lia. }
  apply G; lia.
Qed.

Lemma oh_tables_sim : rsim RO (oh_tables A hp0 t p) (ob_tables A tq p).
Proof.
  destruct T as (E1 & E2 & Td). unfold oh_tables, ob_tables. rewrite E1. cbn [h_alloc]. apply rsim_mfold; [intros; apply oh_line_sim; auto|].
  simpl. split; [|split; auto].
  - rewrite <- app_assoc. apply ext_app.
  - rewrite <- app_assoc. apply fresh_objs. intros i Hi. rewrite vget_app_r, vget_app_l.
    + replace (vlen hp0 + i - vlen hp0) with i by lia. apply vget_vrep. lia.
    + rewrite vlen_vrep by lia. lia.
    + lia.
Qed.

Definition ckey (x : opart A) : (Z * Z) * quality := ((op_start x, op_end x), op_quality x).

Lemma oh_loop_sim : forall fuel cuts i,
  rsim (fun l x => tparts hp0 l (map ckey x)) (oh_loop fuel cuts t i) (on_loop A fuel cuts tq i).
Proof.
  induction fuel as [|fuel IH]; intros cuts i; cbn [oh_loop on_loop]; [exact Logic.I|]. destruct ((0 <=? i) && (i <? vlen cuts)); [|constructor].
  eapply rsim_bind with (R := eq); [apply rsim_eq; auto|]. intros c c' <-. eapply rsim_bind; [apply rsim_u_get, T|]. intros qa q Hq.
  eapply rsim_bind; [apply IH|]. intros l x H. simpl. constructor; auto.
Qed.

(** What a returned pointer-level partition says, in terms of the value-level one. *)
Theorem oh_best_sim : rsim (fun r x => let '(hp, y) := r in
    ext hp0 hp /\ pn_choice y = on_cuts x /\ pn_par y = on_param x /\ tab hp (pn_qual y) (on_quality x) /\ vlen hp0 <= pn_qual y /\
    tparts hp0 (pn_parts y) (map ckey (on_parts x)))
  (oh_best A hp0 t p) (o_best A tq p).
Proof.
  unfold oh_best, o_best. eapply rsim_bind; [apply oh_tables_sim|]. intros [[[hp tx] cut] tr] [cut' tr'] (E & Ec & Ht). cbn [fst snd] in *. subst cut'.
  unfold on_make. eapply rsim_bind; [apply oh_loop_sim|]. intros l x H. rewrite (pn_total_ok _ hp l _ (tparts_ext _ _ _ _ _ E H)). simpl.
  rewrite map_map. change (map (fun x0 => snd (ckey x0)) x) with (map op_quality x).
  repeat (split; auto).
  - eapply ext_trans; [exact E|apply ext_app].
  - unfold tab. apply vget_last.
  - destruct E as [k ->]. rewrite vlen_app. pose proof (vlen_nonneg _ k). lia.
Qed.
End O.

(** ** [+=] on any tradeoff *)
Lemma ext_keep : forall hp0 hp : heap, vlen hp0 <= vlen hp -> (forall k, 0 <= k < vlen hp0 -> vget hp k = vget hp0 k) -> ext hp0 hp.
Proof.
  intros hp0 hp L H. exists (skipn (length hp0) hp). rewrite <- (firstn_skipn (length hp0) hp) at 1. f_equal.
  assert (E : vlen (firstn (length hp0) hp) = vlen hp0). { unfold vlen in *. rewrite firstn_length. lia. }
  apply vget_ext; auto. intros k Hk. rewrite <- H by lia. rewrite <- (firstn_skipn (length hp0) hp) at 2. rewrite vget_app_l; auto; lia.
Qed.
Lemma ext_len : forall hp0 hp : heap, ext hp0 hp -> vlen hp0 <= vlen hp.
Proof. intros hp0 hp [l ->]. rewrite vlen_app. pose proof (vlen_nonneg _ l). lia. Qed.
Lemma ext_vget : forall (hp0 hp : heap) k, ext hp0 hp -> 0 <= k < vlen hp0 -> vget hp k = vget hp0 k.
Proof. intros hp0 hp k [l ->] H. apply vget_app_l. lia. Qed.

Lemma to_add_any : forall hp a b x y, obj hp a x -> obj hp b y -> exists hp',
  to_add A hp a b = Ok (hp', mkTO A (to_q a) (n_add A (to_v a) (to_v b))) /\ vlen hp' = vlen hp /\
  obj hp' (mkTO A (to_q a) (n_add A (to_v a) (to_v b))) (t_add A x y) /\
  forall k, k <> to_q a -> vget hp' k = vget hp k.
Proof.
  intros hp a b x y Ha Hb. apply obj_iff in Ha. apply obj_iff in Hb. destruct Ha as [A1 A2], Hb as [B1 B2]. unfold to_add.
  rewrite A1, B1. cbn [bind]. pose proof (vget_inv _ _ _ _ A1) as B. rewrite vset_ok by auto. cbn [bind]. eexists. split; [reflexivity|].
  split; [unfold vlen; rewrite upd_length; auto|]. split.
  - apply obj_iff. cbn [to_q to_v]. rewrite vget_upd, Z.eqb_refl, A2, B2 by auto. auto.
  - intros k Hk. rewrite vget_upd by auto. destruct (Z.eqb_spec k (to_q a)); congruence.
Qed.

Lemma obj_other : forall hp hp' a o x, (forall k, k <> a -> vget hp' k = vget hp k) -> to_q o <> a -> obj hp o x -> obj hp' o x.
Proof. intros hp hp' a o x H N K. apply obj_iff in K. apply obj_iff. rewrite H; auto. Qed.

(** ** Hierarchical *)
Section H.
Variables (hp0 : heap) (t : list Z) (tq : list quality) (m : meta) (p : par A).
Hypothesis T : Forall2 (tab hp0) t tq.
Notation n0 := (vlen hp0).

Definition RH (s : hh_state A) (s' : hb_state A) : Prop :=
  let '(hp, tr, tc, agg) := s in let '(tr', tc', agg') := s' in
  ext hp0 hp /\ agg = agg' /\ vlen tr = vlen tr' /\ Forall2 (obj hp) tc tc' /\
  n0 + 2 * vlen tc <= vlen hp /\ (forall k o, vget tc k = Ok o -> to_q o = n0 + 2 * k + 1).

(** The node's own tradeoff is known. *)
Definition RHat (h : Z) (s : hh_state A) (s' : hb_state A) : Prop :=
  RH s s' /\ let '(hp, tr, tc, agg) := s in let '(tr', tc', agg') := s' in
  rsim (obj hp) (vget tr h) (vget tr' h).

Lemma hh_toParent_sim : forall h hp tr tc agg tr' tc' agg', RHat h (hp, tr, tc, agg) (tr', tc', agg') ->
  rsim (fun r tc'' => RH (fst r, tr, snd r, agg) (tr', tc'', agg')) (hh_toParent A m h hp tr tc) (hb_toParent A m h tr' tc').
Proof.
  intros h hp tr tc agg tr' tc' agg' [(E & Ea & El & Hc & Hl & Hq) Hr]. unfold hh_toParent, hb_toParent.
  eapply rsim_bind with (R := eq); [apply rsim_eq; auto|]. intros g g' <-.
  destruct (Z_lt_dec g 0) as [N|N]; [rewrite (vget_out _ tc), (vget_out _ tc') by lia; exact Logic.I|].
  destruct (Z_lt_dec g (vlen tc)) as [N'|N']; [|pose proof (F2_len _ _ _ _ _ Hc); rewrite (vget_out _ tc), (vget_out _ tc') by lia; exact Logic.I].
  destruct (vget_ok _ tc g ltac:(lia)) as [x Ex]. pose proof (rsim_vget _ _ _ _ _ g Hc) as Sx. rewrite Ex in *.
  destruct (vget tc' g) as [x'| |] eqn:Ex'; simpl in Sx; try tauto. cbn [bind].
  eapply rsim_bind; [exact Hr|]. intros y y' Hy.
  destruct (to_add_any hp x y x' y' Sx Hy) as (hp' & -> & Hlen & Ho & Hk). cbn [bind].
  rewrite vset_ok by (split; lia). rewrite vset_ok by (rewrite <- (F2_len _ _ _ _ _ Hc); lia). cbn [bind rsim RH fst snd].
  pose proof (Hq _ _ Ex) as Ax. split; [|split; auto; split; auto; split; [|split]].
  - apply ext_keep; [rewrite Hlen; apply ext_len; auto|]. intros k Hk'. rewrite Hk by (rewrite Ax; lia). apply ext_vget; auto.
  - assert (G : Forall2 (obj hp') (upd (Z.to_nat g) (mkTO A (to_q x) (n_add A (to_v x) (to_v y))) tc) (upd (Z.to_nat g) (t_add A x' y') tc')); auto.
    pose proof (F2_len _ _ _ _ _ Hc) as Lc. clear Hr Hl.
    assert (G : forall k o o', vget (upd (Z.to_nat g) (mkTO A (to_q x) (n_add A (to_v x) (to_v y))) tc) k = Ok o ->
      vget (upd (Z.to_nat g) (t_add A x' y') tc') k = Ok o' -> obj hp' o o').
    { intros k o o'. rewrite !vget_upd by lia. destruct (Z.eqb_spec k g) as [->|Ne].
      - intros [= <-] [= <-]. exact Ho.
      - intros K1 K2. pose proof (rsim_vget _ _ _ _ _ k Hc) as Sk. rewrite K1, K2 in Sk. simpl in Sk.
        eapply obj_other; eauto. rewrite (Hq _ _ K1), Ax. lia. }
    apply F2_of_vget; auto. unfold vlen in *. rewrite !upd_length. auto.
  - rewrite Hlen. unfold vlen in *. rewrite upd_length. lia.
  - intros k o. rewrite vget_upd by lia. destruct (Z.eqb_spec k g) as [->|Ne]; [intros [= <-]; auto|apply Hq].
Qed.

Lemma hh_set_sim : forall h hp tr tc agg tr' tc' agg' (X Y : Type) (Q : X -> Y -> Prop) f g,
  RH (hp, tr, tc, agg) (tr', tc', agg') ->
  (forall hp1 tr1 tr1', RHat h (hp1, tr1, tc, agg) (tr1', tc', agg') -> rsim Q (f hp1 tr1) (g tr1')) ->
  rsim Q (let* qa := vget t h in let* o := vget tr h in let* r := to_set A hp o qa p in let '(hp, o) := r in let* tr := vset tr h o in f hp tr)
         (let* q := vget tq h in let* tr := vset tr' h (t_set A q p) in g tr).
Proof.
  intros h hp tr tc agg tr' tc' agg' X Y Q f g (E & Ea & El & Hc & Hl & Hq) K.
  eapply rsim_bind; [apply rsim_vget, T|]. intros qa q Hqa. pose proof (vget_ext_heap _ _ _ _ E Hqa) as Hq'.
  destruct (Z_lt_dec h 0) as [N|N]; [rewrite vget_out, vset_out by lia; exact Logic.I|].
  destruct (Z_lt_dec h (vlen tr)) as [N'|N']; [|rewrite vget_out, vset_out by lia; exact Logic.I].
  destruct (vget_ok _ tr h ltac:(lia)) as [o ->]. cbn [bind]. destruct (to_set_ok hp o qa p q Hq') as [-> O1]. cbn [bind].
  rewrite !vset_ok by lia. cbn [bind]. apply K. split.
  - cbn [RH]. split; [eapply ext_trans; [exact E|apply ext_app]|]. split; auto. split; [unfold vlen in *; rewrite !upd_length; auto|].
    split; [eapply F2_obj_ext; [apply ext_app|exact Hc]|]. split; auto. rewrite vlen_app. pose proof (vlen_nonneg _ [mkQ (gain q) (loss q)]). lia.
  - rewrite !vget_upd by lia. rewrite Z.eqb_refl. exact O1.
Qed.

Lemma hh_leaf_sim : forall h s s', RH s s' -> rsim RH (hh_leaf A t m p h s) (hb_leaf A tq m p h s').
Proof.
  intros h [[[hp tr] tc] agg] [[tr' tc'] agg'] Hs. unfold hh_leaf, hb_leaf. eapply hh_set_sim; [exact Hs|].
  intros hp1 tr1 tr1' H1. eapply rsim_bind; [apply (hh_toParent_sim _ _ _ _ _ _ _ _ H1)|]. intros [hp2 tc2] tc2' H2. exact H2.
Qed.

Lemma hh_decide_sim : forall h s s', RH s s' -> rsim (RHat h) (hh_decide A t p h s) (hb_decide A tq p h s').
Proof.
  intros h [[[hp tr] tc] agg] [[tr' tc'] agg'] Hs. unfold hh_decide, hb_decide. eapply hh_set_sim; [exact Hs|]. clear hp tr tr' Hs.
  intros hp tr tr' [H1 Hr]. pose proof H1 as (E & Ea & El & Hc & Hl & Hq). subst agg'.
  destruct (vget tr h) as [x| |] eqn:Ex, (vget tr' h) as [x'| |] eqn:Ex'; simpl in Hr; try tauto; cbn [bind]; try exact Logic.I.
  eapply rsim_bind; [apply rsim_vget, Hc|]. intros c c' Oc. unfold obj in Hr, Oc. rewrite Hr. cbn [bind]. rewrite Oc. cbn [bind].
  destruct (t_ltb A x' c').
  - eapply rsim_bind with (R := eq); [apply rsim_eq; auto|]. intros a1 a2 <-. apply vget_inv in Ex. rewrite !vset_ok by lia. simpl.
    split.
    + repeat (split; auto). unfold vlen in *; rewrite !upd_length; auto.
    + rewrite !vget_upd by lia. rewrite Z.eqb_refl. simpl. exact Oc.
  - split; [exact H1|]. rewrite Ex, Ex'. exact Hr.
Qed.

Lemma hh_node_sim : forall h s s', RH s s' -> rsim RH (hh_node A t m p h s) (hb_node A tq m p h s').
Proof.
  intros h s s' Hs. unfold hh_node, hb_node. eapply rsim_bind; [apply hh_decide_sim, Hs|].
  intros [[[hp tr] tc] agg] [[tr' tc'] agg'] H1. eapply rsim_bind; [apply (hh_toParent_sim _ _ _ _ _ _ _ _ H1)|]. intros [hp2 tc2] tc2' H2. exact H2.
Qed.

Lemma hh_tables_sim : rsim RH (hh_tables A hp0 t m p) (hb_tables A tq m p).
Proof.
  unfold hh_tables, hb_tables. set (n := m_hsize m).
  assert (H0 : RH (hp0 ++ vrep (2 * n) (q_zero A), map (fun h => mkTO A (n0 + 2 * h) (n_zero A)) (zrange 0 n),
                   map (fun h => mkTO A (n0 + 2 * h + 1) (n_zero A)) (zrange 0 n), vrep n true)
                  (vrep n (t_zero A), vrep n (t_zero A), vrep n true)).
  { cbn [RH]. split; [apply ext_app|]. split; auto. split; [unfold vlen, vrep; rewrite map_length, zrange_length, repeat_length; f_equal; lia|].
    split; [|split].
    - apply (fresh_objs hp0 (fun h => n0 + 2 * h + 1)). intros i Hi. rewrite vget_app_r by lia. apply vget_vrep. lia.
    - rewrite vlen_app. unfold vlen, vrep. rewrite map_length, zrange_length, repeat_length. lia.
    - intros k o Hk. pose proof (vget_inv _ _ _ _ Hk) as B. unfold vlen in B. rewrite map_length, zrange_length in B.
      rewrite (vget_map _ _ _ _ k k) in Hk; [|rewrite vget_zrange by lia; f_equal; lia]. inversion Hk. reflexivity. }
  eapply rsim_bind; [apply rsim_path with (R := RH); [intros; apply hh_leaf_sim; auto|exact H0]|]. intros [s h] [s' h'] [Hs Eh]. cbn [fst snd] in *.
  eapply rsim_bind; [apply rsim_path with (R := RH); [intros; apply hh_node_sim; auto|exact Hs]|]. clear s s' h h' Hs Eh.
  intros [s h] [s' h'] [Hs Eh]. cbn [fst snd] in *. subst h'. eapply rsim_weaken; [apply hh_decide_sim, Hs|]. intros a b [K _]. exact K.
Qed.

Definition hkey (x : hpart A) : (Z * Z) * quality := ((hp_h x, hp_size x), hp_quality x).

Lemma tparts_concat : forall K hp (l : list (list (K * Z))) l', Forall2 (tparts hp) l l' -> tparts hp (concat l) (concat l').
Proof. intros K hp l l' H. induction H; simpl; [constructor|]. apply Forall2_app; auto. Qed.

Lemma hh_sub_sim : forall fuel agg h,
  rsim (fun l x => tparts hp0 l (map hkey x)) (hh_sub fuel agg t m h) (hn_sub A fuel agg tq m h).
Proof.
  induction fuel as [|fuel IH]; intros agg h; cbn [hh_sub hn_sub]; [exact Logic.I|].
  eapply rsim_bind with (R := eq); [apply rsim_eq; auto|]. intros a a' <-. destruct a.
  - eapply rsim_bind; [apply rsim_vget, T|]. intros qa q Hq. simpl. constructor; [split; auto|constructor].
  - eapply rsim_bind with (R := eq); [apply rsim_eq; auto|]. intros ch ch' <-.
    eapply rsim_bind; [apply rsim_mmap; intros; apply IH|]. intros ls xs H. simpl. rewrite concat_map. apply tparts_concat.
    clear - H. induction H; simpl; constructor; auto.
Qed.

Theorem hh_best_sim : rsim (fun r x => let '(hp, y) := r in
    ext hp0 hp /\ pn_choice y = hn_agg x /\ pn_par y = hn_param x /\ tab hp (pn_qual y) (hn_quality x) /\ vlen hp0 <= pn_qual y /\
    tparts hp0 (pn_parts y) (map hkey (hn_parts x)))
  (hh_best A hp0 t m p) (h_best A tq m p).
Proof.
  unfold hh_best, h_best. eapply rsim_bind; [apply hh_tables_sim|]. intros [[[hp tr] tc] agg] [[tr' tc'] agg'] (E & Ea & _). cbn [snd] in *. subst agg'.
  unfold hn_make. eapply rsim_bind; [apply hh_sub_sim|]. intros l x H. rewrite (pn_total_ok _ hp l _ (tparts_ext _ _ _ _ _ E H)). simpl.
  rewrite map_map. change (map (fun x0 => snd (hkey x0)) x) with (map hp_quality x).
  repeat (split; auto).
  - eapply ext_trans; [exact E|apply ext_app].
  - unfold tab. apply vget_last.
  - apply ext_len, E.
Qed.
End H.

End S.
