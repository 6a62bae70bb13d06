(** * Proofs for the R interface. *)
From Coq Require Import Lia Sorting.Sorted.
From Verif Require Import Base BaseFacts Arith Quality Hierarchy Values Search SpecData SpecSearch RApi SpecR.

Lemma F2_vget : forall X Y (P : X -> Y -> Prop) a l, Forall2 P a l -> vlen l = vlen a /\ forall i x, vget a i = Ok x -> exists y, vget l i = Ok y /\ P x y.
Proof.
  intros X Y P a l F. induction F as [|x y a l0 Hxy F [IHl IH]].
  - split; auto. intros i x Hx. apply vget_inv in Hx. cbn in Hx. lia.
  - split. { unfold vlen in *. cbn [length]. lia. }
    intros i x0 Hx. apply vget_nth in Hx. destruct Hx as [Hi Hx]. destruct (Z.to_nat i) as [|j] eqn:Ej; cbn in Hx.
    + inversion Hx; subst. exists y. split; auto. apply vget_nth. rewrite Ej. auto.
    + destruct (IH (Z.of_nat j) x0) as (y0 & E1 & E2). { apply vget_nth. split; [lia|]. rewrite Nat2Z.id. auto. }
      exists y0. split; auto. apply vget_nth. split; auto. rewrite Ej. cbn. apply vget_nth in E1. rewrite Nat2Z.id in E1. apply E1.
Qed.

Lemma mmap_zrange : forall Y (f : Z -> res Y) n, 0 <= n -> (forall i, 0 <= i < n -> exists y, f i = Ok y) ->
  exists l, mmap f (zrange 0 n) = Ok l /\ vlen l = n /\ forall i, 0 <= i < n -> exists y, vget l i = Ok y /\ f i = Ok y.
Proof.
  intros Y f n Hn H. destruct (mmap_total _ _ f (zrange 0 n)) as (l & E). { intros x Hx. apply In_zrange in Hx. auto. }
  exists l. split; auto. apply mmap_Forall2 in E.
  destruct (F2_vget _ _ _ _ _ E) as [L Gi]. rewrite vlen_zrange in L by lia. split; [lia|]. intros i Hi. apply Gi.
  rewrite vget_zrange by lia. f_equal.
Qed.

Lemma Forall_vget : forall X (P : X -> Prop) l, (forall i x, vget l i = Ok x -> P x) -> Forall P l.
Proof. intros X P l H. apply Forall_forall. intros x Hx. destruct (In_nth_error _ _ Hx) as (n & En). apply (H (Z.of_nat n) x). apply vget_nth. split; [lia|]. rewrite Nat2Z.id. auto. Qed.

Section M.
Context (A : arith).

Lemma micro_prf : forall (micro : rarray A) d0 d1 d2, r_cube micro d0 d1 d2 ->
  exists m, convertToMicroModel A micro = Ok m /\ vlen m = d0 /\ rect3 m d1 d2 /\
    forall i j k, 0 <= i < d0 -> 0 <= j < d1 -> 0 <= k < d2 -> exists x, vget3 m i j k = Ok x /\ r_at micro (i + 1) (j + 1) (k + 1) = Ok x.
Proof.
  intros micro d0 d1 d2 (Ed & H0 & H1 & H2 & Hl). unfold convertToMicroModel, r_at. rewrite Ed. cbn -[zrange]. cbn [bind].
  assert (C : forall i j k, 0 <= i < d0 -> 0 <= j < d1 -> 0 <= k < d2 -> exists x, cube_at A micro d0 d1 d2 i j k = Ok x /\
    vget (ra_data micro) ((i + 1 - 1) + (j + 1 - 1) * d0 + (k + 1 - 1) * (d0 * d1)) = Ok x).
  { intros i j k Hi Hj Hk. unfold cube_at.
    replace (0 <=? i) with true by (symmetry; apply Z.leb_le; lia). replace (i <? d0) with true by (symmetry; apply Z.ltb_lt; lia).
    replace (0 <=? j) with true by (symmetry; apply Z.leb_le; lia). replace (j <? d1) with true by (symmetry; apply Z.ltb_lt; lia).
    replace (0 <=? k) with true by (symmetry; apply Z.leb_le; lia). replace (k <? d2) with true by (symmetry; apply Z.ltb_lt; lia). cbn [andb].
    replace ((i + 1 - 1) + (j + 1 - 1) * d0 + (k + 1 - 1) * (d0 * d1)) with (i + j * d0 + k * d0 * d1) by ring.
    destruct (vget_ok _ (ra_data micro) (i + j * d0 + k * d0 * d1)) as (x & Ex).
    { rewrite Hl. split. { assert (0 <= j * d0) by nia. assert (0 <= k * d0 * d1) by nia. lia. }
      assert (i + j * d0 <= d0 * d1 - 1) by nia. assert (k * d0 * d1 <= (d2 - 1) * (d0 * d1)) by nia. lia. }
    exists x. auto. }
  assert (C1 : forall i j, 0 <= i < d0 -> 0 <= j < d1 -> exists l, mmap (fun k => cube_at A micro d0 d1 d2 i j k) (zrange 0 d2) = Ok l /\ vlen l = d2 /\
    forall k, 0 <= k < d2 -> exists y, vget l k = Ok y /\ cube_at A micro d0 d1 d2 i j k = Ok y).
  { intros i j Hi Hj. apply mmap_zrange; [lia|]. intros k Hk. destruct (C i j k Hi Hj Hk) as (x & Ex & _). eauto. }
  assert (C2 : forall i, 0 <= i < d0 -> exists l, mmap (fun j => mmap (fun k => cube_at A micro d0 d1 d2 i j k) (zrange 0 d2)) (zrange 0 d1) = Ok l /\ vlen l = d1 /\
    forall j, 0 <= j < d1 -> exists y, vget l j = Ok y /\ mmap (fun k => cube_at A micro d0 d1 d2 i j k) (zrange 0 d2) = Ok y).
  { intros i Hi. apply mmap_zrange; [lia|]. intros j Hj. destruct (C1 i j Hi Hj) as (x & Ex & _). eauto. }
  destruct (mmap_zrange _ (fun i => mmap (fun j => mmap (fun k => cube_at A micro d0 d1 d2 i j k) (zrange 0 d2)) (zrange 0 d1)) d0 ltac:(lia)) as (m & Em & Lm & Gm).
  { intros i Hi. destruct (C2 i Hi) as (x & Ex & _). eauto. }
  exists m. split; [exact Em|]. split; [exact Lm|]. split.
  - apply Forall_vget. intros i x Hx. pose proof (vget_inv _ _ _ _ Hx) as Hi. rewrite Lm in Hi. destruct (Gm i Hi) as (x' & E1 & E2).
    rewrite Hx in E1. inversion E1; subst x'. destruct (C2 i Hi) as (l & E3 & L3 & G3). rewrite E2 in E3. inversion E3; subst l. split; auto.
    apply Forall_vget. intros j y Hy. pose proof (vget_inv _ _ _ _ Hy) as Hj. rewrite L3 in Hj. destruct (G3 j Hj) as (y' & E4 & E5).
    rewrite Hy in E4. inversion E4; subst y'. destruct (C1 i j Hi Hj) as (l & E6 & L6 & _). rewrite E5 in E6. inversion E6; subst l. auto.
  - intros i j k Hi Hj Hk. destruct (Gm i Hi) as (x & E1 & E2). destruct (C2 i Hi) as (l & E3 & L3 & G3). rewrite E2 in E3. inversion E3; subst l.
    destruct (G3 j Hj) as (y & E4 & E5). destruct (C1 i j Hi Hj) as (l & E6 & L6 & G6). rewrite E5 in E6. inversion E6; subst l.
    destruct (G6 k Hk) as (z & E7 & E8). destruct (C i j k Hi Hj Hk) as (w & E9 & E10). rewrite E8 in E9. inversion E9; subst w.
    exists z. split; [|exact E10]. unfold vget3, vget2. rewrite E1. cbn [bind]. rewrite E4. cbn [bind]. exact E7.
Qed.

(** ** Frames *)
Section G.
Context {Pn Tu Row : Type} (best : par A -> res Pn) (qual : Pn -> quality A) (tuples : Pn -> list Tu) (row : Tu -> Row) (rd : num A -> num A).
Hypothesis irr : forall p, p_ltb A p p = false.

Lemma same_refl : forall p, same A p p = true.
Proof. intro p. unfold same. rewrite irr. auto. Qed.

Lemma sorted_same : forall l p q, StronglySorted (plt A) l -> In p l -> In q l -> same A p q = true -> p = q.
Proof.
  intros l p q S. induction S as [|x l S IH F]; intros Hp Hq E; [destruct Hp|]. rewrite Forall_forall in F. unfold same in E.
  destruct Hp as [->|Hp], Hq as [->|Hq]; auto.
  - specialize (F q Hq). unfold plt in F. rewrite F in E. discriminate.
  - specialize (F p Hp). unfold plt in F. rewrite F in E. rewrite andb_comm in E. discriminate.
Qed.

Lemma rows_tuples : forall (f : Pn -> list Row) (l : list (par A * Pn)), StronglySorted (plt A) (map fst l) -> forall p x, In (p, x) l ->
  rows_at A p (concat (map (fun kx => map (fun t => (fst kx, t)) (f (snd kx))) l)) = f x.
Proof.
  intros f l S p x Hx.
  assert (N : forall l', (forall q y, In (q, y) l' -> same A p q = false) -> rows_at A p (concat (map (fun kx => map (fun t => (fst kx, t)) (f (snd kx))) l')) = []).
  { induction l' as [|[q y] l' IH]; intro H; [reflexivity|]. cbn [map concat fst snd]. unfold rows_at in *. rewrite filter_app, map_app, IH by (intros; eapply H; right; eauto).
    rewrite app_nil_r. pose proof (H q y (or_introl eq_refl)) as E. induction (f y) as [|t r IHr]; [reflexivity|]. cbn [map filter fst]. rewrite E. exact IHr. }
  assert (Y : forall l', map snd (filter (fun r : par A * Row => same A p (fst r)) (map (fun t => (p, t)) l')) = l').
  { induction l' as [|t r IH]; [reflexivity|]. cbn [map filter fst]. rewrite same_refl. cbn [map snd]. f_equal. exact IH. }
  assert (D : forall a b, plt A a b -> same A a b = false /\ same A b a = false).
  { intros a b H. unfold same, plt in *. rewrite H. split; auto. rewrite andb_comm. auto. }
  induction l as [|[q y] l IH]; [destruct Hx|]. cbn [map concat fst snd] in *. unfold rows_at in *. rewrite filter_app, map_app.
  inversion S as [|? ? S' F]; subst. rewrite Forall_forall in F. destruct Hx as [Hx|Hx].
  - inversion Hx; subst. rewrite Y. rewrite N; [apply app_nil_r|]. intros q y0 Hq. apply (D p q). apply F. apply (in_map fst _ _ Hq).
  - rewrite IH by auto. assert (E : same A p q = false). { apply (D q p). apply F. apply (in_map fst _ _ Hx). }
    clear - E. induction (f y) as [|t r IHr]; [reflexivity|]. cbn [map filter fst app]. rewrite E. exact IHr.
Qed.

Lemma popt_listed : forall (st : @pstate A Pn Tu) p, s_getP A st P_OPT = Ok p -> In p (ps_list st).
Proof.
  intros st p H. unfold s_getP in H. cbn in H. unfold s_popt in H.
  assert (G : forall l acc r, mfold (fun p sp => let '(score, popt) := sp in
                     let* q := fmap_at A (ps_qual st) p in
                     if n_leb A (s_score A q) score then Ok (s_score A q, Some p) else Ok (score, popt)) l acc = Ok r -> 
            forall p, snd r = Some p -> snd acc = Some p \/ In p l).
  { induction l as [|x l IH]; intros acc r E p0 Hr; cbn [mfold] in E.
    - inversion E; subst. auto.
    - destruct acc as [sc po]. apply bind_ok in E. destruct E as (acc' & E1 & E2). destruct (IH _ _ E2 p0 Hr) as [K|K]; [|right; right; auto].
      apply bind_ok in E1. destruct E1 as (q & Eq & E1). destruct (n_leb A (s_score A q) sc); inversion E1; subst; cbn in *; auto.
      inversion K; subst. right; left; auto. }
  apply bind_ok in H. destruct H as (r & E & H). destruct (snd r) as [p0|] eqn:Er; [|discriminate]. inversion H; subst.
  destruct (G _ _ _ E p Er) as [K|K]; [discriminate|auto].
Qed.

Lemma frames_prf : forall mn mx (st : @pstate A Pn Tu) r, mn = p_zero A ->
  results_agree A best qual mn mx (ps_list st) (ps_parts st) (ps_qual st) ->
  ps_tuples st = concat (map (fun kx => map (fun t => (fst kx, t)) (tuples (snd kx))) (ps_parts st)) ->
  r_frames A rd row st = Ok r ->
  frames_ok A mx r /\ map fst (rr_quals r) = ps_list st /\ s_getP A st P_OPT = Ok (rr_popt r) /\ s_auc A st = Ok (rr_auc r) /\
  rr_quals r = map (fun pq => (fst pq, (rd (gain (snd pq)), rd (loss (snd pq))))) (ps_qual st) /\
  forall p, In p (map fst (rr_quals r)) -> exists x, best p = Ok x /\ rows_at A p (rr_parts r) = map row (tuples x) /\
    In (p, (rd (gain (qual x)), rd (loss (qual x)))) (rr_quals r).
Proof.
  intros mn mx st r Emn (S & Hh & Hb & Kp & Kq & Bp & Bq) T E. unfold r_frames in E.
  apply bind_ok in E. destruct E as (po & Eo & E). apply bind_ok in E. destruct E as (au & Ea & E). inversion E; subst r. clear E. cbn [rr_quals rr_parts rr_popt rr_auc].
  assert (Kl : map fst (map (fun pq : par A * quality A => (fst pq, (rd (gain (snd pq)), rd (loss (snd pq))))) (ps_qual st)) = ps_list st).
  { rewrite map_map. cbn [fst]. exact Kq. }
  assert (Pe : map (fun pt => (fst pt, row (snd pt))) (ps_tuples st) = concat (map (fun kx => map (fun t => (fst kx, t)) (map row (tuples (snd kx)))) (ps_parts st))).
  { rewrite T, concat_map, map_map. f_equal. apply map_ext. intros [k x]. rewrite !map_map. reflexivity. }
  assert (Rw : forall p x, In (p, x) (ps_parts st) -> rows_at A p (map (fun pt => (fst pt, row (snd pt))) (ps_tuples st)) = map row (tuples x)).
  { intros p x Hx. rewrite Pe. apply (rows_tuples (fun x => map row (tuples x))); auto. rewrite Kp. auto. }
  split; [|split; [exact Kl|split; [exact Eo|split; [exact Ea|split; [reflexivity|]]]]].
  - unfold frames_ok. cbn [rr_quals rr_parts rr_popt]. rewrite Kl. split; [exact S|]. split; [subst mn; exact Hh|]. split; [subst mn; exact Hb|]. split; [|apply (popt_listed st _ Eo)].
    rewrite Pe at 1. f_equal. rewrite <- Kp, map_map. apply map_ext_in. intros [k x] Hk. cbn [fst snd]. rewrite (Rw k x Hk). reflexivity.
  - intros p Hp. rewrite Kl, <- Kp in Hp. apply in_map_iff in Hp. destruct Hp as ([p' x] & Ep & Hx). cbn in Ep. subst p'. exists x. split; [apply (Bp p x Hx)|]. split; [apply Rw; auto|].
    assert (Hq : In p (map fst (ps_qual st))). { rewrite Kq, <- Kp. apply (in_map fst _ _ Hx). }
    apply in_map_iff in Hq. destruct Hq as ([p' q] & Ep & Hq). cbn in Ep. subst p'. destruct (Bq p q Hq) as (x' & Ex' & Eq). rewrite (Bp p x Hx) in Ex'. inversion Ex'; subst x'.
    apply in_map_iff. exists (p, q). split; auto. cbn. rewrite Eq. auto.
Qed.
End G.
End M.
