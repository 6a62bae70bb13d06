(** * C74: what parsepjdump and pjdump2micro make of a file, in terms of its lines alone. *)
From Coq Require Import Lia Sorting.Sorted Reals Lra.
From Verif Require Import Base BaseFacts Arith SpecTree RApi SpecR SpecParts InfoFacts SpecMacro RHelpers MacroFacts Slicer SpecSlicer SpecPj SpecFile PjFacts P_RApi P_Pj.

Lemma In_state : forall file w, In w (states (fst (r_parse file))) <-> exists r t s e d v, w = mkDR NState r t s e d v 0 /\ In (LState r t s e d v) file.
Proof.
  intros file w. unfold states. rewrite filter_In. unfold r_parse. cbn [fst]. rewrite in_flat_map. split.
  - intros ((l & I & J) & N). destruct l; cbn in J; try tauto; destruct J as [<-|[]]; [|discriminate]. exists res, type, s, e, d, value. auto.
  - intros (r & t & s & e & d & v & -> & I). split; [|reflexivity]. exists (LState r t s e d v). split; [exact I|cbn; auto].
Qed.

Lemma In_container : forall file x q, In (x, q) (snd (r_parse file)) <-> says_parent file x q.
Proof.
  intros file x q. unfold r_parse, says_parent. cbn [snd]. rewrite in_flat_map. split.
  - intros (l & I & J). destruct l; cbn in J; try tauto; destruct J as [E|[]]. injection E as -> ->. exact I.
  - intro I. exists (LContainer q x). split; [exact I|cbn; auto].
Qed.

Lemma file_span_trace : forall file t0 t1, file_span file t0 t1 -> trace_span (states (fst (r_parse file))) t0 t1.
Proof.
  intros file t0 t1 ((r & t & e & d & v & I) & (r' & t' & s' & d' & v' & I') & B). split; [|split].
  - exists (mkDR NState r t t0 e d v 0). split; [apply In_state; eauto 10|reflexivity].
  - exists (mkDR NState r' t' s' t1 d' v' 0). split; [apply In_state; eauto 10|reflexivity].
  - intros w Iw. apply In_state in Iw as (r1 & t2 & s & e1 & d1 & v1 & -> & J). cbn. eauto.
Qed.

Lemma file_ok_rows : forall file, file_ok file -> forall w, In w (states (fst (r_parse file))) -> row_ok w.
Proof. intros file O w I. apply In_state in I as (r & t & s & e & d & v & -> & J). exact (O _ _ _ _ _ _ J). Qed.

Lemma inside_line : forall file t0 t1 n r v k, line_inside file t0 t1 n r v k <->
  exists w, In w (states (fst (r_parse file))) /\ dr_res w = r /\ dr_state w = v /\ inside t0 t1 n w k.
Proof.
  intros. split.
  - intros (B & t & s & e & d & x & I & Bx & Ax). exists (mkDR NState r t s e d v 0). split; [apply In_state; eauto 10|]. cbn. repeat split; auto; try apply B. exists x. auto.
  - intros (w & I & <- & <- & B & x & Bx & Ax). apply In_state in I as (r & t & s & e & d & v & -> & J). cbn in *. split; auto. exists t, s, e, d, x. auto.
Qed.

Lemma file_time_in : forall file r v lo hi, time_in (states (fst (r_parse file))) r v lo hi = file_time file r v lo hi.
Proof.
  intros. unfold time_in, file_time, states, r_parse. cbn [fst]. induction file as [|l file IH]; [reflexivity|]. cbn [flat_map]. rewrite !filter_app, Rsum_app, Rsum_cons, IH. f_equal.
  destruct l as [r' t s e d v'| | |]; cbn [filter dr_nature dr_res dr_state]; try reflexivity. destruct ((r' =? r) && (v' =? v)); [rewrite Rsum_cons|]; unfold Rsum; cbn; lra.
Qed.

Lemma above_file : forall file d x y, file_above file d x y <-> above (snd (r_parse file)) d x y.
Proof.
  intros. split; intro H; induction H; try constructor.
  - apply above_S with q; auto. apply In_container. auto.
  - apply fabove_S with q; auto. apply In_container. auto.
Qed.

Lemma parse_app : forall f1 f2, snd (r_parse (f1 ++ f2)) = snd (r_parse f1) ++ snd (r_parse f2).
Proof. intros. unfold r_parse. cbn [snd]. apply flat_map_app. Qed.

Lemma names_NoDup : forall file, ForallOrdPairs (fun l l' => forall q x q' x', l = LContainer q x -> l' = LContainer q' x' -> x <> x') file -> NoDup (map fst (snd (r_parse file))).
Proof.
  induction 1 as [|l file F _ IH]; [constructor|]. change (l :: file) with ([l] ++ file). rewrite parse_app, map_app. destruct l as [| |q x|]; try exact IH.
  cbn. constructor; auto. intro I. apply in_map_iff in I as ((x' & q') & E & I). cbn in E. subst x'. apply In_container in I. rewrite Forall_forall in F. exact (F _ I q x q' x eq_refl eq_refl eq_refl).
Qed.

Lemma none_before : forall before, (forall q x, ~ In (LContainer q x) before) -> snd (r_parse before) = [].
Proof.
  intros before H. destruct (snd (r_parse before)) as [|(x & q) l] eqn:E; auto. exfalso. apply (H q x), In_container. rewrite E. left. reflexivity.
Qed.

Lemma file_tree_of : forall file rest (P Q : Z -> Prop) root, (forall x, P x <-> Q x) -> file_tree file rest P root ->
  tree_of (snd (r_parse file)) Q root /\ snd (r_parse rest) = tl (snd (r_parse file)).
Proof.
  intros file rest P Q root PQ ((before & q0 & -> & Nb) & Nd & Hp & Hc & Ha).
  assert (E : snd (r_parse (before ++ LContainer q0 root :: rest)) = (root, q0) :: snd (r_parse rest)).
  { rewrite parse_app, (none_before before Nb). reflexivity. }
  split; [|rewrite E; reflexivity]. exists q0, (snd (r_parse rest)). split; [exact E|]. split; [apply names_NoDup; exact Nd|]. split; [|split].
  - intros q (c & I). apply In_container in I. destruct (Hp _ _ I) as (q' & J). exists q'. apply In_container. exact J.
  - intros x Hx. destruct (Hc x (proj2 (PQ x) Hx)) as (q & J). exists q. apply In_container. exact J.
  - intros x Hx. destruct (Ha x) as (d & A).
    + destruct Hx as [Hx|(c & I)]; [left; apply PQ; auto|right; exists c; apply In_container; exact I].
    + exists d. apply above_file. exact A.
Qed.

Lemma lists_ext : forall (P Q : Z -> Prop) l, (forall x, P x <-> Q x) -> lists P l -> lists Q l.
Proof. intros P Q l H (S & I). split; auto. intro x. rewrite I. apply H. Qed.

Lemma seen_file : forall file t0 t1 n r, seen (states (fst (r_parse file))) t0 t1 n r <-> exists v k, line_inside file t0 t1 n r v k.
Proof.
  intros. split.
  - intros (w & k & I & E & J). exists (dr_state w), k. apply inside_line. eauto.
  - intros (v & k & L). apply inside_line in L as (w & I & E & _ & J). exists w, k. auto.
Qed.
Lemma seen_state_file : forall file t0 t1 n v, seen_state (states (fst (r_parse file))) t0 t1 n v <-> exists r k, line_inside file t0 t1 n r v k.
Proof.
  intros. split.
  - intros (w & k & I & E & J). exists (dr_res w), k. apply inside_line. eauto.
  - intros (r & k & L). apply inside_line in L as (w & I & _ & E & J). exists w, k. auto.
Qed.

(** Without a hierarchy. *)
Theorem C74_flat : forall file n t0 t1, file_ok file -> file_span file t0 t1 -> (t0 < t1)%R -> (exists r v k, line_inside file t0 t1 n r v k) ->
  exists mm K, r_pjdump2micro (r_parse file) n true false = Ok mm /\
    (exists r v, line_inside file t0 t1 n r v K) /\ (forall r v k, line_inside file t0 t1 n r v k -> k <= K) /\
    lists (fun r => exists v k, line_inside file t0 t1 n r v k) (mm_space mm) /\ lists (fun v => exists r k, line_inside file t0 t1 n r v k) (mm_type mm) /\
    mm_time mm = upto K /\ mm_hierarchy mm = [0] /\ r_cube (mm_data mm) (vlen (mm_space mm)) (vlen (mm_type mm)) K /\
    forall i j k r v, vget (mm_space mm) (i - 1) = Ok r -> vget (mm_type mm) (j - 1) = Ok v -> 1 <= k <= K ->
      r_at (mm_data mm) i j k = Ok (file_time file r v (slice_lo t0 t1 n k) (slice_hi t0 t1 n k) / (t1 - t0))%R.
Proof.
  intros file n t0 t1 O S T (r & v & k & L).
  destruct (C68_states_flat (fst (r_parse file)) (snd (r_parse file)) n t0 t1 (file_span_trace _ _ _ S) (file_ok_rows _ O) T) as (mm & K & E & (w & I & J) & Km & Ls & Lt & Ht & Hh & C & G).
  { exists r. apply seen_file. eauto. }
  rewrite <- surjective_pairing in E. exists mm, K. split; auto. split; [exists (dr_res w), (dr_state w); apply inside_line; eauto|].
  split; [intros r' v' k' L'; apply inside_line in L' as (w' & I' & _ & _ & J'); eauto|].
  split; [eapply lists_ext; [|exact Ls]; intro; apply seen_file|]. split; [eapply lists_ext; [|exact Lt]; intro; apply seen_state_file|].
  repeat (split; [assumption|]). intros. rewrite <- file_time_in. auto.
Qed.
Print Assumptions C74_flat.

(** With the hierarchy. [P] are the resources of some slice that are not named as a parent. *)
Theorem C74_tree : forall file rest n t0 t1 root, file_ok file -> file_span file t0 t1 -> (t0 < t1)%R ->
  let P := fun r => (exists v k, line_inside file t0 t1 n r v k) /\ ~ (exists c, says_parent file c r) in (exists r, P r) -> file_tree file rest P root ->
  exists mm K, r_pjdump2micro (r_parse file) n true true = Ok mm /\
    (exists r v, line_inside file t0 t1 n r v K) /\ (forall r v k, line_inside file t0 t1 n r v k -> k <= K) /\
    lists P (mm_space mm) /\ lists (fun v => exists r k, line_inside file t0 t1 n r v k) (mm_type mm) /\ mm_time mm = upto K /\
    r_cube (mm_data mm) (vlen (mm_space mm)) (vlen (mm_type mm)) K /\
    (forall i j k r v, vget (mm_space mm) (i - 1) = Ok r -> vget (mm_type mm) (j - 1) = Ok v -> 1 <= k <= K ->
      r_at (mm_data mm) i j k = Ok (file_time file r v (slice_lo t0 t1 n k) (slice_hi t0 t1 n k) / (t1 - t0))%R) /\
    (exists parents, lists (fun q => exists c, says_parent file c q) parents /\ mm_nodes mm = mm_space mm ++ rev parents) /\ NoDup (mm_nodes mm) /\
    vlen (mm_hierarchy mm) = vlen (mm_nodes mm) /\ In root (mm_nodes mm) /\
    (forall i x, vget (mm_nodes mm) (i - 1) = Ok x -> (x = root /\ vget (mm_hierarchy mm) (i - 1) = Ok 0) \/
         (x <> root /\ exists q j, says_parent file x q /\ vget (mm_nodes mm) (j - 1) = Ok q /\ vget (mm_hierarchy mm) (i - 1) = Ok j)) /\
    forall D, (forall q, (exists c, says_parent file c q) -> exists x d, P x /\ file_above rest d x q) -> (forall x, P x -> file_above rest D x root) ->
      exists ro, vget (mm_nodes mm) ro = Ok root /\ r_tree (mm_hierarchy mm) (vlen (mm_space mm)) ro.
Proof.
  intros file rest n t0 t1 root O S T P HP Tr. set (Q := fun r => seen (states (fst (r_parse file))) t0 t1 n r /\ ~ is_parent (snd (r_parse file)) r).
  assert (Pp : forall q, is_parent (snd (r_parse file)) q <-> exists c, says_parent file c q).
  { intro q. unfold is_parent. split; intros (c & I); exists c; apply In_container; exact I. }
  assert (PQ : forall x, P x <-> Q x) by (intro x; unfold P, Q; rewrite seen_file, Pp; tauto).
  destruct (file_tree_of file rest P Q root PQ Tr) as (TQ & Er).
  destruct (C68_states (fst (r_parse file)) (snd (r_parse file)) n t0 t1 root (file_span_trace _ _ _ S) (file_ok_rows _ O) T) as (mm & K & E & (w & I & J) & Km & Ls & Lt & Ht & C & G & (ps & Lp & En) & Nd & ro & Gro & _ & Lv & Hn & Ut).
  { destruct HP as (r & HP). exists r. apply PQ in HP. exact HP. }
  { exact TQ. }
  rewrite <- surjective_pairing in E. exists mm, K. split; auto. split; [exists (dr_res w), (dr_state w); apply inside_line; eauto|].
  split; [intros r' v' k' L'; apply inside_line in L' as (w' & I' & _ & _ & J'); eauto|].
  split; [eapply lists_ext; [|exact Ls]; intro; symmetry; apply PQ|]. split; [eapply lists_ext; [|exact Lt]; intro; apply seen_state_file|].
  repeat (split; [assumption|]). split; [intros; rewrite <- file_time_in; auto|]. split.
  { exists ps. split; auto. eapply lists_ext; [|exact Lp]. apply Pp. }
  split; auto. split; auto. split; [eapply vget_In; eauto|]. split.
  { intros i x Gx. destruct (Hn i x Gx) as [A|(D & q & j & Iq & A)]; auto. right. split; auto. exists q, j. split; [apply In_container; exact Iq|exact A]. }
  intros D Nf U. exists ro. split; auto. apply (Ut D).
  - intros q Hq. apply Pp in Hq. destruct (Nf q Hq) as (x & d & Px & A). exists x, d. split; [apply PQ; exact Px|]. rewrite <- Er. apply above_file. exact A.
  - intros x Px. rewrite <- Er. apply above_file, U, PQ. exact Px.
Qed.
Print Assumptions C74_tree.

(** ** Counters *)

Lemma In_variable : forall file w, In w (variables (fst (r_parse file))) <-> exists r t s e d v, w = mkDR NVariable r t s e d 0 v /\ In (LVariable r t s e d v) file.
Proof.
  intros file w. unfold variables. rewrite filter_In. unfold r_parse. cbn [fst]. rewrite in_flat_map. split.
  - intros ((l & I & J) & N). destruct l; cbn in J; try tauto; destruct J as [<-|[]]; [discriminate|]. exists res, type, s, e, d, value. auto.
  - intros (r & t & s & e & d & v & -> & I). split; [|reflexivity]. exists (LVariable r t s e d v). split; [exact I|cbn; auto].
Qed.

Lemma file_span_v_trace : forall file t0 t1, file_span_v file t0 t1 -> trace_span (variables (fst (r_parse file))) t0 t1.
Proof.
  intros file t0 t1 ((r & t & e & d & v & I) & (r' & t' & s' & d' & v' & I') & B). split; [|split].
  - exists (mkDR NVariable r t t0 e d 0 v). split; [apply In_variable; eauto 10|reflexivity].
  - exists (mkDR NVariable r' t' s' t1 d' 0 v'). split; [apply In_variable; eauto 10|reflexivity].
  - intros w Iw. apply In_variable in Iw as (r1 & t2 & s & e1 & d1 & v1 & -> & J). cbn. eauto.
Qed.

Definition quad (w : drow) : R * R * R * R := (dr_start w, dr_end w, dr_dur w, dr_num w).

Lemma measures_trace : forall file r t, measures file r t = map quad (filter (fun w => (dr_res w =? r) && (dr_type w =? t)) (variables (fst (r_parse file)))).
Proof.
  intros. unfold measures, variables, r_parse. cbn [fst]. induction file as [|l file IH]; [reflexivity|]. cbn [flat_map]. rewrite !filter_app, map_app, IH. f_equal.
  destruct l as [|r' t' s e d v| |]; cbn [filter dr_nature dr_res dr_type]; try reflexivity. destruct ((r' =? r) && (t' =? t)); reflexivity.
Qed.

Lemma combine_map : forall X Y (f : X -> Y) a b, combine (map f a) (map f b) = map (fun p => (f (fst p), f (snd p))) (combine a b).
Proof. intros X Y f a. induction a as [|x a IH]; intros [|y b]; cbn; auto. rewrite IH. reflexivity. Qed.

Lemma rates_steps : forall file r t, rates file r t = map (fun p => (dr_start (fst p), dr_end (fst p), rate p)) (steps (variables (fst (r_parse file))) r t).
Proof.
  intros. unfold rates, steps. rewrite measures_trace. set (g := filter _ _). replace (tl (map quad g)) with (map quad (tl g)) by (destruct g; reflexivity). rewrite combine_map, map_map. reflexivity.
Qed.

Lemma file_mean_rate : forall file r t lo hi, mean_rate (variables (fst (r_parse file))) r t lo hi = file_mean file r t lo hi.
Proof. intros. unfold mean_rate, file_mean. rewrite rates_steps, !Rsum_map. reflexivity. Qed.

Lemma file_measured_iff : forall file t0 t1 n r t k, measured (variables (fst (r_parse file))) t0 t1 n r t k <-> file_measured file t0 t1 n r t k.
Proof.
  intros. split.
  - intros (p & I & B & x & J). split; auto. exists (dr_start (fst p)), (dr_end (fst p)), (rate p), x. split; [|exact J]. rewrite rates_steps. apply in_map_iff. exists p. auto.
  - intros (B & s & e & y & x & I & J). rewrite rates_steps in I. apply in_map_iff in I as (p & E & I). injection E as <- <- <-. exists p. split; auto. split; auto. exists x. exact J.
Qed.

Lemma file_counter_value : forall file t0 t1 n r t k y, file_counter file t0 t1 n r t k y -> y = counter_value (variables (fst (r_parse file))) t0 t1 n r t k.
Proof.
  intros file t0 t1 n r t k y H. unfold counter_value. unfold file_counter in H. rewrite <- file_measured_iff in H. destruct (ClassicalDedekindReals.sig_not_dec _) as [N|N].
  - apply Classical_Prop.NNPP in N. destruct H as [(_ & ->)|(M & _)]; [|tauto]. rewrite file_mean_rate. reflexivity.
  - destruct H as [(M & _)|(_ & ->)]; [tauto|reflexivity].
Qed.

Lemma pj_counter : forall trace n enable mm, r_pjdump2micro trace n false enable = Ok mm -> exists df, r_slicercounter (variables (fst trace)) n = Ok df.
Proof.
  intros trace n enable mm E. unfold r_pjdump2micro in E. cbn [fst snd] in E.
  change (filter (fun w => match dr_nature w with NState => false | NVariable => true end) (fst trace)) with (variables (fst trace)) in E.
  destruct (r_slicercounter _ _) as [df| |]; try discriminate. eauto.
Qed.

Section Counters.
Variables (file : list pjline) (n : Z) (t0 t1 : R).

Lemma counted_file : forall r, counted (variables (fst (r_parse file))) t0 t1 n r <-> exists t k, file_measured file t0 t1 n r t k.
Proof. intro r. unfold counted. split; intros (t & k & M); exists t, k; apply file_measured_iff; exact M. Qed.
Lemma counter_type_file : forall t, counter_type (variables (fst (r_parse file))) t0 t1 n t <-> exists r k, file_measured file t0 t1 n r t k.
Proof. intro r. unfold counter_type. split; intros (t & k & M); exists t, k; apply file_measured_iff; exact M. Qed.

Lemma sum_ext_value : forall (val : Z -> Z -> Z -> R) K all t, (forall r t k, file_counter file t0 t1 n r t k (val r t k)) ->
  Rsum (fun r' => Rsum (fun k' => counter_value (variables (fst (r_parse file))) t0 t1 n r' t k') (upto K)) all = Rsum (fun r' => Rsum (fun k' => val r' t k') (upto K)) all.
Proof. intros val K all t H. apply Rsum_ext. intros r _. apply Rsum_ext. intros k _. symmetry. apply file_counter_value, H. Qed.
End Counters.

(** Counters, without a hierarchy; [val r t k] is the value of the counter [t] of [r] in slice [k] (it exists and is unique). *)
Theorem C74_counters_flat : forall file n t0 t1 mm val, file_span_v file t0 t1 -> (forall r t k, file_counter file t0 t1 n r t k (val r t k)) ->
  r_pjdump2micro (r_parse file) n false false = Ok mm -> exists K,
    (exists r t, file_measured file t0 t1 n r t K) /\ (forall r t k, file_measured file t0 t1 n r t k -> k <= K) /\
    lists (fun r => exists t k, file_measured file t0 t1 n r t k) (mm_space mm) /\ lists (fun t => exists r k, file_measured file t0 t1 n r t k) (mm_type mm) /\
    mm_time mm = upto K /\ mm_hierarchy mm = [0] /\ r_cube (mm_data mm) (vlen (mm_space mm)) (vlen (mm_type mm)) K /\
    forall i j k r t, vget (mm_space mm) (i - 1) = Ok r -> vget (mm_type mm) (j - 1) = Ok t -> 1 <= k <= K ->
      r_at (mm_data mm) i j k = Ok (val r t k / Rsum (fun r' => Rsum (fun k' => val r' t k') (upto K)) (mm_space mm))%R.
Proof.
  intros file n t0 t1 mm val S V E. destruct (pj_counter _ _ _ _ E) as (df & Ed).
  destruct (C68_counters_flat (fst (r_parse file)) (snd (r_parse file)) n t0 t1 df (file_span_v_trace _ _ _ S) Ed) as (mm' & K & E' & (r & t & M) & Km & Ls & Lt & Ht & Hh & C & G).
  rewrite <- surjective_pairing in E'. rewrite E in E'. injection E' as <-. exists K. split; [exists r, t; apply file_measured_iff; auto|].
  split; [intros r' t' k' M'; apply file_measured_iff in M'; eauto|].
  split; [eapply lists_ext; [|exact Ls]; intro; apply counted_file|]. split; [eapply lists_ext; [|exact Lt]; intro; apply counter_type_file|].
  repeat (split; [assumption|]). intros i j k r' t' G1 G2 B. rewrite (G i j k r' t' G1 G2 B). rewrite (sum_ext_value file n t0 t1 val) by auto. rewrite (file_counter_value _ _ _ _ _ _ _ _ (V r' t' k)). reflexivity.
Qed.
Print Assumptions C74_counters_flat.

(** Counters, with the hierarchy: the sum ranges over [all] resources measured, those that are parents included. *)
Theorem C74_counters_tree : forall file rest n t0 t1 root mm val all, file_span_v file t0 t1 -> (forall r t k, file_counter file t0 t1 n r t k (val r t k)) ->
  lists (fun r => exists t k, file_measured file t0 t1 n r t k) all ->
  let P := fun r => (exists t k, file_measured file t0 t1 n r t k) /\ ~ (exists c, says_parent file c r) in (exists r, P r) -> file_tree file rest P root ->
  r_pjdump2micro (r_parse file) n false true = Ok mm -> exists K,
    (exists r t, file_measured file t0 t1 n r t K) /\ (forall r t k, file_measured file t0 t1 n r t k -> k <= K) /\
    lists P (mm_space mm) /\ lists (fun t => exists r k, file_measured file t0 t1 n r t k) (mm_type mm) /\ mm_time mm = upto K /\
    r_cube (mm_data mm) (vlen (mm_space mm)) (vlen (mm_type mm)) K /\
    (forall i j k r t, vget (mm_space mm) (i - 1) = Ok r -> vget (mm_type mm) (j - 1) = Ok t -> 1 <= k <= K ->
      r_at (mm_data mm) i j k = Ok (val r t k / Rsum (fun r' => Rsum (fun k' => val r' t k') (upto K)) all)%R) /\
    (exists parents, lists (fun q => exists c, says_parent file c q) parents /\ mm_nodes mm = mm_space mm ++ rev parents) /\ NoDup (mm_nodes mm) /\
    vlen (mm_hierarchy mm) = vlen (mm_nodes mm) /\ In root (mm_nodes mm) /\
    (forall i x, vget (mm_nodes mm) (i - 1) = Ok x -> (x = root /\ vget (mm_hierarchy mm) (i - 1) = Ok 0) \/
         (x <> root /\ exists q j, says_parent file x q /\ vget (mm_nodes mm) (j - 1) = Ok q /\ vget (mm_hierarchy mm) (i - 1) = Ok j)) /\
    forall D, (forall q, (exists c, says_parent file c q) -> exists x d, P x /\ file_above rest d x q) -> (forall x, P x -> file_above rest D x root) ->
      exists ro, vget (mm_nodes mm) ro = Ok root /\ r_tree (mm_hierarchy mm) (vlen (mm_space mm)) ro.
Proof.
  intros file rest n t0 t1 root mm val all S V La P HP Tr E. destruct (pj_counter _ _ _ _ E) as (df & Ed).
  set (Q := fun r => counted (variables (fst (r_parse file))) t0 t1 n r /\ ~ is_parent (snd (r_parse file)) r).
  assert (Pp : forall q, is_parent (snd (r_parse file)) q <-> exists c, says_parent file c q).
  { intro q. unfold is_parent. split; intros (c & I); exists c; apply In_container; exact I. }
  assert (PQ : forall x, P x <-> Q x) by (intro x; unfold P, Q; rewrite counted_file, Pp; tauto).
  destruct (file_tree_of file rest P Q root PQ Tr) as (TQ & Er).
  destruct (C68_counters (fst (r_parse file)) (snd (r_parse file)) n t0 t1 df root (file_span_v_trace _ _ _ S) Ed) as (mm' & K & E' & (r0 & v0 & M) & Km & Ls & Lt & Ht & C & G & (ps & Lp & En) & Nd & ro & Gro & _ & Lv & Hn & Ut).
  { destruct HP as (r & HP). exists r. apply PQ in HP. exact HP. }
  { exact TQ. }
  rewrite <- surjective_pairing in E'. rewrite E in E'. injection E' as <-. exists K. split; [exists r0, v0; apply file_measured_iff; auto|].
  split; [intros r' t' k' M'; apply file_measured_iff in M'; eauto|].
  split; [eapply lists_ext; [|exact Ls]; intro; symmetry; apply PQ|]. split; [eapply lists_ext; [|exact Lt]; intro; apply counter_type_file|].
  repeat (split; [assumption|]). split.
  { intros i j k r t G1 G2 B. assert (La' : lists (counted (variables (fst (r_parse file))) t0 t1 n) all) by (eapply lists_ext; [|exact La]; intro; symmetry; apply counted_file). rewrite (G all i j k r t La' G1 G2 B).
    rewrite (sum_ext_value file n t0 t1 val) by auto. rewrite (file_counter_value _ _ _ _ _ _ _ _ (V r t k)). reflexivity. }
  split.
  { exists ps. split; auto. eapply lists_ext; [|exact Lp]. apply Pp. }
  split; auto. split; auto. split; [eapply vget_In; eauto|]. split.
  { intros i x Gx. destruct (Hn i x Gx) as [A|(D & q & j & Iq & A)]; auto. right. split; auto. exists q, j. split; [apply In_container; exact Iq|exact A]. }
  intros D Nf U. exists ro. split; auto. apply (Ut D).
  - intros q Hq. apply Pp in Hq. destruct (Nf q Hq) as (x & d & Px & A). exists x, d. split; [apply PQ; exact Px|]. rewrite <- Er. apply above_file. exact A.
  - intros x Px. rewrite <- Er. apply above_file, U, PQ. exact Px.
Qed.
Print Assumptions C74_counters_tree.

(** The values exist. *)
Theorem C74_value_exists : forall file t0 t1 n, exists val : Z -> Z -> Z -> R, forall r t k y, file_counter file t0 t1 n r t k y <-> y = val r t k.
Proof.
  intros. exists (fun r t k => counter_value (variables (fst (r_parse file))) t0 t1 n r t k). intros r t k y. split; [apply file_counter_value|]. intros ->.
  unfold file_counter, counter_value. rewrite <- file_measured_iff, <- file_mean_rate. destruct (ClassicalDedekindReals.sig_not_dec _) as [N|N]; [apply Classical_Prop.NNPP in N|]; auto.
Qed.
Print Assumptions C74_value_exists.
