(** * getP, computePOpt, computeAUC, and the degenerate range. *)
From Coq Require Import Reals Lra Lia Sorting.Sorted.
From Verif Require Import Base BaseFacts Arith Quality Partitioners Search SpecSearch SearchFacts SearchProofs SearchReal.

Definition score (q : quality RA) : R := dist2 (gain q) (loss q).

Section M.
Context {Pn Tu : Type}.
Notation pstate := (@pstate RA Pn Tu).

(** A state whose quality list has the listed parameters as its keys. *)
Definition keyed (st : pstate) : Prop := map fst (ps_qual st) = ps_list st /\ StronglySorted Rlt (ps_list st).

Lemma SSorted_R : forall l : list R, StronglySorted Rlt l <-> StronglySorted (SpecSearch.plt RA) l.
Proof.
  intro l. induction l as [|a l IH]; split; intro H; constructor; inversion H as [|? ? H1 H2]; subst; try (apply IH; auto).
  - eapply Forall_impl; [|exact H2]. intros b Hb. apply plt_RA. auto.
  - eapply Forall_impl; [|exact H2]. intros b Hb. apply plt_RA. auto.
Qed.

Lemma qual_at : forall (qs : list (R * quality RA)) p q, StronglySorted Rlt (map fst qs) -> In (p, q) qs -> fmap_at RA qs p = Ok q.
Proof.
  intros qs p q S H. unfold fmap_at. rewrite (fmap_get_In RA (fun _ => True) 0%R (real_bisectable 0%R) qs p q); auto.
  - apply Forall_forall. auto.
  - apply SSorted_R. auto.
Qed.

Definition opt_inv (pre : list (R * quality RA)) (sp : R * option R) : Prop :=
  match snd sp with
  | None => fst sp = IZR RAND_MAX /\ forall p q, In (p, q) pre -> (IZR RAND_MAX < score q)%R
  | Some r => exists l1 q l2, pre = l1 ++ (r, q) :: l2 /\ fst sp = score q /\ (score q <= IZR RAND_MAX)%R /\
      (forall p q', In (p, q') l1 -> (score q <= score q')%R) /\ (forall p q', In (p, q') l2 -> (score q < score q')%R)
  end.

Lemma opt_loop : forall (qs : list (R * quality RA)), StronglySorted Rlt (map fst qs) ->
  exists sp, mfold (fun p sp => let '(score, popt) := sp in
                     let* q := fmap_at RA qs p in
                     if n_leb RA (s_score RA q) score then Ok (s_score RA q, Some p) else Ok (score, popt))
                  (map fst qs) (n_ofZ RA RAND_MAX, None) = Ok sp /\ opt_inv qs sp.
Proof.
  intros qs S.
  assert (H : forall post pre sp0, qs = pre ++ post -> opt_inv pre sp0 ->
    exists sp, mfold (fun p sp => let '(score, popt) := sp in
                     let* q := fmap_at RA qs p in
                     if n_leb RA (s_score RA q) score then Ok (s_score RA q, Some p) else Ok (score, popt))
                  (map fst post) sp0 = Ok sp /\ opt_inv qs sp).
  { induction post as [|[p q] post IH]; intros pre [s o] E Iv.
    - rewrite app_nil_r in E. subst pre. exists (s, o). auto.
    - cbn [map mfold fst]. rewrite (qual_at qs p q); auto; [|rewrite E; apply in_or_app; simpl; auto]. cbn [bind].
      change (s_score RA q) with (score q). cbn [n_leb RA RP]. unfold Rleb.
      destruct (Rle_dec (score q) s) as [L|L]; cbn [bind]; apply (IH (pre ++ [(p, q)])); try (rewrite <- app_assoc; exact E).
      + unfold opt_inv in *. cbn [fst snd] in *. exists pre, q, []. split; auto. split; auto. destruct o as [r|].
        * destruct Iv as (l1 & q0 & l2 & -> & -> & L0 & F1 & F2). split; [lra|]. split; [|intros ? ? []].
          intros p' q' Hp. apply in_app_or in Hp. destruct Hp as [Hp|[Hp|Hp]].
          -- specialize (F1 _ _ Hp). lra.
          -- inversion Hp; subst. lra.
          -- specialize (F2 _ _ Hp). lra.
        * destruct Iv as [-> F]. split; auto. split; [|intros ? ? []]. intros p' q' Hp. specialize (F _ _ Hp). lra.
      + unfold opt_inv in *. cbn [fst snd] in *. destruct o as [r|].
        * destruct Iv as (l1 & q0 & l2 & -> & -> & L0 & F1 & F2). exists l1, q0, (l2 ++ [(p, q)]).
          split; [rewrite <- app_assoc; auto|]. split; auto. split; auto. split; auto.
          intros p' q' Hp. apply in_app_or in Hp. destruct Hp as [Hp|[Hp|[]]]; [eauto|]. inversion Hp; subst. lra.
        * destruct Iv as [-> F]. split; auto. intros p' q' Hp. apply in_app_or in Hp. destruct Hp as [Hp|[Hp|[]]]; [eauto|].
          inversion Hp; subst. lra. }
  destruct (H qs [] (IZR RAND_MAX, None)) as (sp & E & Iv); auto.
  - split; auto. intros ? ? [].
  - exists sp. split; auto.
Qed.

Lemma popt_spec : forall st : pstate, keyed st ->
  (forall p q, In (p, q) (ps_qual st) -> (score q <= IZR RAND_MAX)%R ->
     exists l1 r qr l2, s_getP RA st P_OPT = Ok r /\ ps_qual st = l1 ++ (r, qr) :: l2 /\
       (forall p' q', In (p', q') l1 -> (score qr <= score q')%R) /\ (forall p' q', In (p', q') l2 -> (score qr < score q')%R)) /\
  ((forall p q, In (p, q) (ps_qual st) -> (IZR RAND_MAX < score q)%R) -> s_getP RA st P_OPT = UB).
Proof.
  intros st [K S]. assert (S' := S). rewrite <- K in S'. destruct (opt_loop (ps_qual st) S') as ([s o] & E & Iv).
  change (par RA) with R in *. rewrite K in E.
  assert (EP : s_getP RA st P_OPT = match o with Some p => Ok p | None => UB end).
  { unfold s_getP. simpl (P_OPT =? P_MIN). simpl (P_OPT =? P_MAX). simpl (P_OPT =? P_OPT). unfold s_popt.
    match goal with |- bind ?e _ = _ => replace e with (@Ok (num RA * option (par RA)) (s, o)) by (symmetry; exact E) end.
    cbn [bind snd]. auto. }
  unfold opt_inv in Iv. cbn [fst snd] in Iv. split.
  - intros p q H L. destruct o as [r|].
    + destruct Iv as (l1 & q0 & l2 & Eq & _ & _ & F1 & F2). exists l1, r, q0, l2. auto.
    + destruct Iv as [_ F]. specialize (F _ _ H). lra.
  - intro F. destruct o as [r|]; auto. destruct Iv as (l1 & q0 & l2 & Eq & _ & L & _).
    assert (In (r, q0) (ps_qual st)) by (rewrite Eq; apply in_or_app; simpl; auto). specialize (F _ _ H). lra.
Qed.

(** ** Area under the curve *)
Definition pts (qs : list (R * quality RA)) : list (R * R) := map (fun pq => (gain (snd pq), loss (snd pq))) qs.

Lemma trap_cons : forall g0 l0 g1 l1 r, trapezoids ((g0, l0) :: (g1, l1) :: r) = ((g1 - g0) * (l1 + l0) / 2 + trapezoids ((g1, l1) :: r))%R.
Proof. reflexivity. Qed.

Lemma trap_snoc : forall l g0 l0 g1 l1, trapezoids (l ++ [(g0, l0); (g1, l1)]) = (trapezoids (l ++ [(g0, l0)]) + (g1 - g0) * (l1 + l0) / 2)%R.
Proof.
  induction l as [|[g l'] l IH]; intros g0 l0 g1 l1.
  - simpl. lra.
  - destruct l as [|[g' l''] l].
    + simpl. lra.
    + change (((g, l') :: (g', l'') :: l) ++ [(g0, l0); (g1, l1)]) with ((g, l') :: (g', l'') :: (l ++ [(g0, l0); (g1, l1)])).
      rewrite trap_cons. change ((g', l'') :: l ++ [(g0, l0); (g1, l1)]) with (((g', l'') :: l) ++ [(g0, l0); (g1, l1)]).
      rewrite IH. change (((g, l') :: (g', l'') :: l) ++ [(g0, l0)]) with ((g, l') :: (g', l'') :: (l ++ [(g0, l0)])).
      rewrite trap_cons. simpl app. lra.
Qed.

Lemma auc_loop : forall (qs : list (R * quality RA)) x l, StronglySorted Rlt (map fst qs) -> qs = x :: l ->
  for_up 0 (vlen (map fst qs) - 1)
      (fun i auc =>
         let* p1 := vget (map fst qs) (i + 1) in
         let* p0 := vget (map fst qs) i in
         let* q1 := fmap_at RA qs p1 in
         let* q0 := fmap_at RA qs p0 in
         Ok (n_float RA (n_add RA auc
               (n_div RA (n_mul RA (n_sub RA (gain q1) (gain q0)) (n_add RA (loss q1) (loss q0))) (n_ofZ RA 2)))))
      (n_zero RA) = Ok (trapezoids (pts qs)).
Proof.
  intros qs x l S Ex.
  destruct (for_up_inv R (fun i auc =>
         let* p1 := vget (map fst qs) (i + 1) in
         let* p0 := vget (map fst qs) i in
         let* q1 := fmap_at RA qs p1 in
         let* q0 := fmap_at RA qs p0 in
         Ok (n_float RA (n_add RA auc
               (n_div RA (n_mul RA (n_sub RA (gain q1) (gain q0)) (n_add RA (loss q1) (loss q0))) (n_ofZ RA 2)))))
     (fun i auc => auc = trapezoids (pts (firstn (Z.to_nat (i + 1)) qs))) 0 (vlen (map fst qs) - 1) (n_zero RA)) as (r & E & Er).
  - subst qs. unfold vlen. simpl length. lia.
  - intros i auc Hi ->. unfold vlen in Hi. rewrite map_length in Hi.
    set (k := Z.to_nat i). assert (Ek : i = Z.of_nat k) by (unfold k; lia).
    destruct (nth_error qs k) as [[p0 q0]|] eqn:N0; [|apply nth_error_None in N0; lia].
    destruct (nth_error qs (Datatypes.S k)) as [[p1 q1]|] eqn:N1; [|apply nth_error_None in N1; lia].
    assert (V0 : vget (map fst qs) i = Ok p0).
    { apply vget_nth. split; [lia|]. fold k. rewrite nth_error_map, N0. auto. }
    assert (V1 : vget (map fst qs) (i + 1) = Ok p1).
    { apply vget_nth. split; [lia|]. replace (Z.to_nat (i + 1)) with (Datatypes.S k) by lia. rewrite nth_error_map, N1. auto. }
    rewrite V1. cbn [bind]. rewrite V0. cbn [bind].
    rewrite (qual_at qs p1 q1 S (nth_error_In _ _ N1)). cbn [bind]. rewrite (qual_at qs p0 q0 S (nth_error_In _ _ N0)). cbn [bind].
    eexists. split; [reflexivity|].
    replace (Z.to_nat (i + 1 + 1)) with (Datatypes.S (Datatypes.S k)) by lia. replace (Z.to_nat (i + 1)) with (Datatypes.S k) by lia.
    assert (FS : forall j y, nth_error qs j = Some y -> firstn (Datatypes.S j) qs = firstn j qs ++ [y]).
    { clear. revert qs. induction qs as [|z qs IH]; intros [|j] y H; simpl in *; try discriminate; [inversion H; auto|].
      f_equal. apply IH; auto. }
    rewrite (FS _ _ N1), (FS _ _ N0). unfold pts. rewrite !map_app, <- app_assoc. simpl map. simpl app at 3.
    symmetry. apply trap_snoc.
  - subst qs. simpl. auto.
  - etransitivity; [exact E|]. rewrite Er. f_equal. f_equal. f_equal. apply firstn_all2. unfold vlen. rewrite map_length. lia.
Qed.

Lemma auc_spec : forall st : pstate, keyed st -> ps_list st <> [] ->
  s_auc RA st = Ok (1 - trapezoids (pts (ps_qual st)))%R.
Proof.
  intros st [K S] N. destruct (ps_qual st) as [|x l] eqn:E; [rewrite <- K in N; contradiction|].
  unfold s_auc. rewrite E, <- K. rewrite <- K in S. pose proof (auc_loop (x :: l) x l S eq_refl) as H.
  cbn [map]. cbv iota. change (fst x :: map fst l) with (map fst (x :: l)).
  match goal with |- bind ?e _ = _ => replace e with (@Ok (num RA) (trapezoids (pts (x :: l)))) by (symmetry; exact H) end.
  reflexivity.
Qed.

(** Points with non-decreasing gain in [0,1] and loss in [0,1]. *)
Definition curve (l : list (R * R)) : Prop :=
  StronglySorted Rle (map fst l) /\ Forall (fun gl => (0 <= fst gl <= 1 /\ 0 <= snd gl <= 1)%R) l.

Lemma trap_range : forall l g0 l0, curve ((g0, l0) :: l) -> (0 <= trapezoids ((g0, l0) :: l) <= 1 - g0)%R.
Proof.
  induction l as [|[g1 l1] l IH]; intros g0 l0 [S F]; inversion F as [|? ? F1 F2]; subst; cbn [fst snd] in F1.
  - simpl. lra.
  - rewrite trap_cons. inversion S as [|? ? S1 S2]; subst. inversion S2 as [|? ? S3 _]; subst. cbn [fst] in S3.
    inversion F2 as [|? ? F3 _]; subst. cbn [fst snd] in F3.
    destruct (IH g1 l1) as [H1 H2]; [split; auto|].
    assert (0 <= (g1 - g0) * (l1 + l0) / 2 <= g1 - g0)%R by nra. lra.
Qed.

Lemma auc_range : forall st : pstate, keyed st -> ps_list st <> [] -> curve (pts (ps_qual st)) ->
  exists a, s_auc RA st = Ok a /\ (0 <= a <= 1)%R.
Proof.
  intros st K N C. rewrite (auc_spec st K N). eexists. split; [reflexivity|].
  destruct (ps_qual st) as [|[p [g l]] r] eqn:E.
  - simpl. lra.
  - pose proof (trap_range (pts r) g l C). change (pts ((p, mkQ g l) :: r)) with ((g, l) :: pts r).
    destruct C as [_ F]. inversion F as [|? ? F1 _]; subst. cbn [fst snd gain] in F1. change (num RA) with R in *. lra.
Qed.

End M.

(** ** min = max *)
Lemma search_degenerate : forall A Pn Tu (best : par A -> res Pn) pn_param eqb pn_quality (pn_tuples : Pn -> list Tu)
  fuel prev th p x, p_ltb A p p = false -> best p = Ok x -> eqb x x = true ->
  s_computeBestPartitions A best pn_param eqb pn_quality pn_tuples false (S fuel) prev th p p = Ok (mkPS A [p] [] [] []) /\
  s_computeBestPartitions A best pn_param eqb pn_quality pn_tuples true (S fuel) prev th p p = UB.
Proof.
  intros A Pn Tu best pn_param eqb pn_quality pn_tuples fuel prev th p x Hp E Ex.
  unfold s_computeBestPartitions, cleared. rewrite E. cbn [bind app fmap_set s_add]. rewrite Ex. cbn [negb andb bind app fmap_set].
  rewrite Hp. unfold s_dedup. cbn [fst].
  replace (vlen [p; p]) with 2 by reflexivity.
  split; rewrite for_down_step by lia; rewrite for_down_empty || idtac; unfold s_dedup1 at 1; simpl (2 - 1);
    unfold fmap_at; cbn;
    change (nth_error [p; p] (Pos.to_nat 1)) with (Some p); cbn [bind]; rewrite ?Hp; cbn [bind]; rewrite ?Hp, ?Ex; reflexivity.
Qed.

Lemma popt_degenerate : forall A Pn Tu p, p_ltb A p p = false ->
  s_getP A (mkPS A [p] [] [] [] : @pstate A Pn Tu) P_OPT = UB /\ s_getP A (mkPS A [p] [] [] [] : @pstate A Pn Tu) P_MAX = Ok p.
Proof. intros A Pn Tu p H. split; reflexivity. Qed.

Lemma getP_unsearched : forall A Pn Tu, s_getP A (ps_empty A : @pstate A Pn Tu) P_MAX = UB /\
  s_getP A (ps_empty A : @pstate A Pn Tu) P_OPT = UB /\ s_auc A (ps_empty A : @pstate A Pn Tu) = UB /\
  s_getP A (ps_empty A : @pstate A Pn Tu) P_MIN = Ok (p_zero A).
Proof. intros. repeat split. Qed.
