(** * The hypotheses of C74 are met by concrete files. *)
From Coq Require Import Lia Sorting.Sorted Reals Lra.
From Verif Require Import Base BaseFacts Arith RApi SpecR SpecParts Slicer SpecSlicer P_Slicer SpecPj SpecFile PjFacts P_RApi P_Counter P_Pj P_PjExamples P_File.

Definition ex_rest : list pjline := tl (ex_file []).

Lemma ex_leaf : forall r, ((exists v k, line_inside (ex_file []) 10 14 2 r v k) /\ ~ (exists c, says_parent (ex_file []) c r)) <-> leafP (snd (r_parse (ex_file []))) r.
Proof.
  intro r. unfold leafP, is_parent. rewrite <- seen_file. fold ex_states. split; intros (A & B); split; auto; intros (c & I); apply B; exists c; apply In_container; exact I.
Qed.

Example C74_nonvacuous :
  let file := ex_file [] in let P := fun r => (exists v k, line_inside file 10 14 2 r v k) /\ ~ (exists c, says_parent file c r) in
  file_ok file /\ file_span file 10 14 /\ (forall r, P r <-> r = 1 \/ r = 2) /\ file_tree file ex_rest P 20 /\
  (forall q, (exists c, says_parent file c q) -> exists x d, P x /\ file_above ex_rest d x q) /\ (forall x, P x -> file_above ex_rest 2 x 20).
Proof.
  intros file P. destruct ex_tree as (T & Nf & U & L1 & L2).
  assert (L : forall x, P x <-> x = 1 \/ x = 2).
  { intro x. unfold P, file. rewrite ex_leaf. split; [intros (S & _); apply ex_seen; exact S|]. intros [->| ->]; auto. }
  assert (Pq : forall q, (exists c, says_parent file c q) -> q = 20 \/ q = 10 \/ q = 11).
  { intros q (c & I). unfold says_parent, file in I. cbn in I. intuition congruence. }
  assert (A : forall d x y, above (snd (r_parse ex_rest)) d x y -> file_above ex_rest d x y) by (intros; apply above_file; auto).
  assert (H2 : forall x, P x -> file_above ex_rest 2 x 20) by (intros x Px; apply A, U; apply ex_leaf; exact Px).
  split. { intros r t s e d v I. unfold file in I. cbn in I. repeat (destruct I as [I|I]; [try discriminate I; injection I as <- <- <- <- <- <-; lra|]). destruct I. }
  split. { split; [exists 1, 5, 13%R, 3%R, 1; cbn; auto 12|]. split; [exists 1, 5, 13%R, 1%R, 2; cbn; auto 12|]. intros r t s e d v I. unfold file in I. cbn in I. repeat (destruct I as [I|I]; [try discriminate I; injection I as <- <- <- <- <- <-; lra|]). destruct I. }
  split; [exact L|]. split.
  { split; [exists [], 20; split; [reflexivity|intros q x []]|]. split.
    { unfold file, ex_file. cbn [app]. repeat (constructor; [repeat (constructor; [intros; try discriminate; congruence|]); constructor|]). constructor. }
    split; [|split].
    - intros x q H. destruct (Pq q) as [->|[->| ->]]; [exists x; auto|exists 20|exists 20|exists 20]; unfold says_parent, file; cbn; auto 10.
    - intros x Px. apply L in Px. destruct Px as [->| ->]; [exists 10|exists 11]; unfold says_parent, file; cbn; auto 10.
    - intros x [Px|H]; [exists 2%nat; auto|]. destruct (Pq x H) as [->|[->| ->]]; [exists 0%nat; constructor|exists 1%nat; apply fabove_S with 20; [cbn; auto|constructor]|exists 1%nat; apply fabove_S with 20; [cbn; auto|constructor]]. }
  split; [|exact H2].
  intros q H. destruct (Pq q H) as [->|[->| ->]].
  - exists 1, 2%nat. split; [apply L; auto|apply H2, L; auto].
  - exists 1, 1%nat. split; [apply L; auto|apply fabove_S with 10; [cbn; auto|constructor]].
  - exists 2, 1%nat. split; [apply L; auto|apply fabove_S with 11; [cbn; auto 10|constructor]].
Qed.

(** A file of counters; pjdump2micro returns, with the two slices that have a measure. *)
Definition ex_cfile : list pjline := [LVariable 1 1 0 1 (1 - 0) 0; LVariable 1 1 1 2 (2 - 1) 4; LVariable 1 1 2 3 (3 - 2) 2].

Example C74_counters_nonvacuous : exists mm, file_span_v ex_cfile 0 3 /\ r_pjdump2micro (r_parse ex_cfile) 3 false false = Ok mm /\ mm_space mm = [1] /\ mm_type mm = [1] /\ mm_time mm = [1; 2].
Proof.
  assert (Ev : variables (fst (r_parse ex_cfile)) = ex_counters) by reflexivity.
  assert (Sp : file_span_v ex_cfile 0 3).
  { split; [exists 1, 1, 1%R, (1 - 0)%R, 0%R; cbn; auto|]. split; [exists 1, 1, 2%R, (3 - 2)%R, 2%R; cbn; auto|]. intros r t s e d v I. cbn in I. repeat (destruct I as [I|I]; [injection I as <- <- <- <- <- <-; lra|]). destruct I. }
  destruct C67_nonvacuous as (Hs & _ & _ & o & E & _). rewrite <- Ev in E.
  destruct (C68_counters_flat (fst (r_parse ex_cfile)) (snd (r_parse ex_cfile)) 3 0 3 o (file_span_v_trace _ _ _ Sp) E) as (mm & K & Em & (rK & tK & MK) & Km & Ls & Lt & Ht & _). rewrite Ev in *.
  rewrite <- surjective_pairing in Em.
  assert (U : forall r t k, measured ex_counters 0 3 3 r t k <-> r = 1 /\ t = 1 /\ 1 <= k <= 2).
  { intros r t k. unfold measured. rewrite ex_steps. split.
    - intros (p & I & ((B1 & B2) & u & J1 & J2)). destruct (r =? 1) eqn:Er; [|destruct I]. destruct (t =? 1) eqn:Et; [|destruct I]. apply Z.eqb_eq in Er. apply Z.eqb_eq in Et. cbn [andb] in I. split; auto. split; auto.
      unfold slice_lo, slice_hi in J2. rewrite minus_IZR in J2. assert (Q : (IZR k < 3)%R) by (destruct I as [<-|[<-|[]]]; cbn in *; lra). apply lt_IZR in Q. lia.
    - intros (-> & -> & B). cbn [Z.eqb Pos.eqb andb]. assert (K12 : k = 1 \/ k = 2) by lia. destruct K12 as [->| ->].
      + exists (ex_cnt 1 1 0 1 0, ex_cnt 1 1 1 2 4). split; [left; auto|]. split; [lia|]. exists 0.5%R. unfold slice_lo, slice_hi. cbn. lra.
      + exists (ex_cnt 1 1 1 2 4, ex_cnt 1 1 2 3 2). split; [right; left; auto|]. split; [lia|]. exists 1.5%R. unfold slice_lo, slice_hi. cbn. lra. }
  exists mm. split; [exact Sp|]. split; [exact Em|]. split; [|split].
  - apply (lists_unique _ _ _ Ls). split; [repeat constructor|]. intro x. unfold counted. split; [intros [<-|[]]; exists 1, 1; apply U; lia|intros (t & k & M); apply U in M; left; lia].
  - apply (lists_unique _ _ _ Lt). split; [repeat constructor|]. intro x. unfold counter_type. split; [intros [<-|[]]; exists 1, 1; apply U; lia|intros (t & k & M); apply U in M; left; lia].
  - rewrite Ht. assert (K = 2) as -> by (pose proof (Km 1 1 2 ltac:(apply U; lia)); apply U in MK; lia). reflexivity.
Qed.
