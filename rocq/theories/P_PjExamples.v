(** * The hypotheses of C68 and C69 are met by concrete traces; the whole way from a file to the frames of haggregate. *)
From Coq Require Import Lia Sorting.Sorted Reals Lra.
From Verif Require Import Base BaseFacts Arith SpecTree RApi SpecR SpecParts SpecMacro RHelpers MacroFacts HMacroFacts Slicer SpecSlicer SlicerFacts P_Slicer SpecPj PjFacts PjTree P_RApi P_Pj P_EmptyTrace.

(** A file with a machine (20), two processes (10 and 11) with a thread each (1 and 2) and three states; [idle] are the lines of a third process with a thread that does nothing. *)
Definition ex_file (idle : list pjline) : list pjline :=
  [LContainer 20 20; LContainer 20 10; LContainer 20 11; LContainer 10 1; LContainer 11 2] ++ idle ++
  [LState 1 5 10 13 3 1; LOther; LState 1 5 13 14 1 2; LState 2 5 11 12 1 1].
Definition ex_idle : list pjline := [LContainer 20 12; LContainer 12 3].
Definition ex_states : list drow := states (fst (r_parse (ex_file []))).

Lemma ex_states_idle : states (fst (r_parse (ex_file ex_idle))) = ex_states.
Proof. reflexivity. Qed.

Lemma ex_span : trace_span ex_states 10 14 /\ (forall w, In w ex_states -> row_ok w).
Proof.
  split.
  - split; [exists (mkDR NState 1 5 10 13 3 1 0); cbn; auto|]. split; [exists (mkDR NState 1 5 13 14 1 2 0); cbn; auto|]. intros w [<-|[<-|[<-|[]]]]; cbn; lra.
  - intros w [<-|[<-|[<-|[]]]]; unfold row_ok; cbn; lra.
Qed.

Lemma ex_seen : forall r, seen ex_states 10 14 2 r <-> r = 1 \/ r = 2.
Proof.
  intro r. split.
  - intros (w & k & [<-|[<-|[<-|[]]]] & <- & _); cbn; auto.
  - intros [->| ->].
    + exists (mkDR NState 1 5 10 13 3 1 0), 1. split; [cbn; auto|]. split; auto. split; [lia|]. exists 11%R. unfold slice_lo, slice_hi. cbn. lra.
    + exists (mkDR NState 2 5 11 12 1 1 0), 1. split; [cbn; auto|]. split; auto. split; [lia|]. exists 11.5%R. unfold slice_lo, slice_hi. cbn. lra.
Qed.

Definition leafP (cs : list (Z * Z)) (r : Z) : Prop := seen ex_states 10 14 2 r /\ ~ is_parent cs r.

Lemma parent_in : forall cs q, is_parent cs q -> In q (map snd cs).
Proof. intros. apply is_parent_map. auto. Qed.


Lemma ex_tree : let cs := snd (r_parse (ex_file [])) in tree_of cs (leafP cs) 20 /\ no_empty cs (leafP cs) /\ (forall x, leafP cs x -> above (tl cs) 2 x 20) /\ leafP cs 1 /\ leafP cs 2.
Proof.
  cbn zeta. set (cs := snd (r_parse (ex_file []))).
  assert (L : forall x, leafP cs x <-> x = 1 \/ x = 2).
  { intro x. unfold leafP. rewrite ex_seen. split; [tauto|]. intro Q. split; auto. intro H. apply parent_in in H. cbn in H. lia. }
  assert (A : forall x, leafP cs x -> above (tl cs) 2 x 20).
  { intros x Q. apply L in Q. destruct Q as [->| ->]; [apply above_S with 10|apply above_S with 11]; cbn; auto; apply above_S with 20; cbn; auto; constructor. }
  assert (Pq : forall q, is_parent cs q -> q = 20 \/ q = 10 \/ q = 11) by (intros q H; apply parent_in in H; cbn in H; intuition).
  split.
  { exists 20, (tl cs). split; auto. split; [cbn; repeat constructor; cbn; lia|]. split; [|split].
    - intros q H. apply Pq in H. destruct H as [->|[->| ->]]; exists 20; cbn; auto.
    - intros x Q. apply L in Q. destruct Q as [->| ->]; [exists 10|exists 11]; cbn; auto 10.
    - intros x [Q|H]; [exists 2%nat; auto|]. apply Pq in H. destruct H as [->|[->| ->]]; [exists 0%nat; constructor|exists 1%nat; apply above_S with 20; [cbn; auto|constructor]|exists 1%nat; apply above_S with 20; [cbn; auto|constructor]]. }
  split.
  { intros q H. apply Pq in H. destruct H as [->|[->| ->]].
    - exists 1, 2%nat. split; [apply L; auto|apply A, L; auto].
    - exists 1, 1%nat. split; [apply L; auto|apply above_S with 10; [cbn; auto|constructor]].
    - exists 2, 1%nat. split; [apply L; auto|apply above_S with 11; [cbn; auto|constructor]]. }
  split; auto. split; apply L; auto.
Qed.

(** The way from the file to an array and a hierarchy that haggregate and daggregate handle. *)
Example C68_nonvacuous : exists mm K ro, r_pjdump2micro (r_parse (ex_file [])) 2 true true = Ok mm /\ mm_space mm = [1; 2] /\ mm_type mm = [1; 2] /\ mm_nodes mm = [1; 2; 20; 11; 10] /\
  r_cube (mm_data mm) 2 2 K /\ 1 <= K /\ r_at (mm_data mm) 1 1 1 = Ok (1 / 2)%R /\ r_tree (mm_hierarchy mm) 2 ro /\ mm_hierarchy mm = [5; 4; 0; 3; 3].
Proof.
  destruct ex_span as (S & O). destruct ex_tree as (T & Nf & U & L1 & L2). set (cs := snd (r_parse (ex_file []))) in *.
  destruct (C68_states (fst (r_parse (ex_file []))) cs 2 10 14 20 S O ltac:(lra) (ex_intro _ 1 L1) T) as (mm & K & E & (wK & IK & JK) & Km & Ls & Lt & _ & C & G & (ps & Lp & En) & Nd & ro & Gro & V & Lv & Hn & Ut).
  exists mm, K, ro. split; [exact E|].
  assert (Es : mm_space mm = [1; 2]).
  { apply (lists_unique _ _ _ Ls). split; [repeat constructor; lia|]. intro x. cbn. split; [|intros (Q & _); apply ex_seen in Q; lia]. intros [<-|[<-|[]]]; auto. }
  assert (Et : mm_type mm = [1; 2]).
  { apply (lists_unique _ _ _ Lt). split; [repeat constructor; lia|]. intro x. cbn. split.
    - intros [<-|[<-|[]]].
      + exists (mkDR NState 1 5 10 13 3 1 0), 1. split; [cbn; auto|]. split; auto. split; [lia|]. exists 11%R. unfold slice_lo, slice_hi. cbn. lra.
      + exists (mkDR NState 1 5 13 14 1 2 0), 2. split; [cbn; auto|]. split; auto. split; [lia|]. exists 13.5%R. unfold slice_lo, slice_hi. cbn. lra.
    - intros (w & k & [<-|[<-|[<-|[]]]] & <- & _); cbn; auto. }
  assert (Ep : ps = [10; 11; 20]).
  { apply (lists_unique _ _ _ Lp). split; [repeat constructor; lia|]. intro x. rewrite <- is_parent_map. cbn. lia. }
  rewrite Es, Et, Ep in *. assert (En' : mm_nodes mm = [1; 2; 20; 11; 10]) by exact En. rewrite En' in *.
  split; auto. split; auto. split; auto. split; [exact C|]. assert (HK : 1 <= K) by (pose proof (proj1 JK); lia). split; auto. split.
  { rewrite (G 1 1 1 1 1) by (reflexivity || lia). f_equal. unfold time_in, slice_lo, slice_hi, overlap, Rmax, Rmin. cbn. repeat (destruct (Rle_dec _ _)); lra. }
  split; [apply (Ut 2%nat); auto|].
  assert (Q : forall i x, vget [1; 2; 20; 11; 10] (i - 1) = Ok x -> exists j, vget (mm_hierarchy mm) (i - 1) = Ok j /\ (x = 20 /\ j = 0 \/ x <> 20 /\ exists q, In (x, q) cs /\ vget [1; 2; 20; 11; 10] (j - 1) = Ok q)).
  { intros i x Gx. destruct (Hn i x Gx) as [(-> & H)|(D & q & j & I & Gj & H)]; [exists 0; auto|exists j; split; auto; right; split; auto; exists q; auto]. }
  assert (J : forall j q, vget [1; 2; 20; 11; 10] (j - 1) = Ok q -> j = 1 /\ q = 1 \/ j = 2 /\ q = 2 \/ j = 3 /\ q = 20 \/ j = 4 /\ q = 11 \/ j = 5 /\ q = 10).
  { intros j q H. pose proof (vget_inv _ _ _ _ H) as B. unfold vlen in B. cbn in B. assert (j = 1 \/ j = 2 \/ j = 3 \/ j = 4 \/ j = 5) as [->|[->|[->|[->| ->]]]] by lia; cbn in H; injection H as <-; auto 10. }
  destruct (mm_hierarchy mm) as [|h1 [|h2 [|h3 [|h4 [|h5 [|h6 hh]]]]]] eqn:Eh; unfold vlen in Lv; cbn in Lv; try lia.
  destruct (Q 1 1 eq_refl) as (j1 & G1 & K1), (Q 2 2 eq_refl) as (j2 & G2 & K2), (Q 3 20 eq_refl) as (j3 & G3 & K3), (Q 4 11 eq_refl) as (j4 & G4 & K4), (Q 5 10 eq_refl) as (j5 & G5 & K5).
  cbn in G1, G2, G3, G4, G5. injection G1 as ->. injection G2 as ->. injection G3 as ->. injection G4 as ->. injection G5 as ->.
  destruct K1 as [(K1 & _)|(_ & q1 & I1 & Gq1)]; [lia|]. destruct K2 as [(K2 & _)|(_ & q2 & I2 & Gq2)]; [lia|]. destruct K3 as [(_ & ->)|(K3 & _)]; [|lia].
  destruct K4 as [(K4 & _)|(_ & q4 & I4 & Gq4)]; [lia|]. destruct K5 as [(K5 & _)|(_ & q5 & I5 & Gq5)]; [lia|].
  assert (C1 : forall x q, In (x, q) cs -> x = 20 /\ q = 20 \/ x = 10 /\ q = 20 \/ x = 11 /\ q = 20 \/ x = 1 /\ q = 10 \/ x = 2 /\ q = 11) by (intros x q I; cbn in I; intuition congruence).
  apply C1 in I1, I2, I4, I5. apply J in Gq1, Gq2, Gq4, Gq5.
  assert (j1 = 5) by lia. assert (j2 = 4) by lia. assert (j4 = 3) by lia. assert (j5 = 3) by lia. subst. reflexivity.
Qed.

(** With the idle process in the file. *)
Example C69_nonvacuous : exists mm, r_pjdump2micro (r_parse (ex_file ex_idle)) 2 true true = Ok mm /\
  (forall rd strict fuel th r, r_haggregate RA rd strict fuel (mm_data mm) (mm_hierarchy mm) th <> Ok r) /\
  (forall rd strict fuel th r, r_daggregate RA rd strict fuel (mm_data mm) (mm_hierarchy mm) th <> Ok r).
Proof.
  destruct ex_span as (S & O). set (cs := snd (r_parse (ex_file ex_idle))) in *.
  assert (L : forall x, leafP cs x <-> x = 1 \/ x = 2).
  { intro x. unfold leafP. rewrite ex_seen. split; [tauto|]. intro Q. split; auto. intro H. apply parent_in in H. cbn in H. lia. }
  assert (Pq : forall q, is_parent cs q -> q = 20 \/ q = 10 \/ q = 11 \/ q = 12) by (intros q H; apply parent_in in H; cbn in H; intuition).
  assert (A1 : forall q, q = 10 \/ q = 11 \/ q = 12 -> above (tl cs) 1 q 20) by (intros q [->|[->| ->]]; (apply above_S with 20; [cbn; auto 10|constructor])).
  refine (C69_trace (fst (r_parse (ex_file ex_idle))) cs 2 10 14 20 12 S O ltac:(lra) (ex_intro _ 1 (proj2 (L 1) (or_introl eq_refl))) _ _ _).
  - exists 20, (tl cs). split; auto. split; [cbn; repeat constructor; cbn; lia|]. split; [|split].
    + intros q H. apply Pq in H. destruct H as [->|[->|[->| ->]]]; exists 20; cbn; auto 10.
    + intros x Q. apply L in Q. destruct Q as [->| ->]; [exists 10|exists 11]; cbn; auto 10.
    + intros x [Q|H]; [apply L in Q; exists 2%nat; destruct Q as [->| ->]; [apply above_S with 10|apply above_S with 11]; try (cbn; auto 10; fail); apply A1; auto|].
      apply Pq in H. destruct H as [->|H]; [exists 0%nat; constructor|exists 1%nat; apply A1; auto].
  - exists 3. cbn. auto 10.
  - intros x d Q H. apply L in Q.
    assert (N : forall d x y, above (tl cs) d x y -> y = 12 -> x = 12 \/ x = 3).
    { clear. intros d x y H. induction H as [x|d x q y I H IH]; auto. intro E. destruct (IH E) as [->| ->]; cbn in I; intuition congruence. }
    pose proof (N d x 12 H eq_refl). lia.
Qed.
