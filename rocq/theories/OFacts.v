(** * OPartitioner over any arithmetic: what the tables contain, and the partition tiles the axis. *)
From Coq Require Import Lia.
From Verif Require Import Base BaseFacts Arith Quality Utm UtmFacts Partitions Partitioners SpecParts.

Section M.
Context (A : arith).
Notation quality := (quality A).
Notation tradeoff := (tradeoff A).

Variables (t : utm quality) (n : Z) (q : Z -> Z -> quality) (p : par A).
Hypothesis Ht : urepr t n q.

(** Value of cutting after c when the suffix values are T. *)
Definition ocand (T : Z -> tradeoff) (i c : Z) : tradeoff := t_add A (t_set A (q i c) p) (T (c + 1)).

Definition ostep (T : Z -> tradeoff) (i : Z) (ct : Z * tradeoff) (c : Z) : Z * tradeoff :=
  if t_gtb A (ocand T i c) (snd ct) then (c, ocand T i c) else ct.

(** Candidates are tried in this order: the whole rest, then cuts i, i+1, ...; a later one must be better. *)
Definition oline (T : Z -> tradeoff) (i : Z) : Z * tradeoff :=
  fold_left (ostep T i) (zrange i (n - 1)) (n - 1, t_set A (q i (n - 1)) p).

Lemma oline_ext : forall T T' i, (forall k, i < k < n -> T k = T' k) -> oline T i = oline T' i.
Proof.
  intros T T' i H. unfold oline.
  assert (G : forall l s, (forall c, In c l -> i <= c < n - 1) -> fold_left (ostep T i) l s = fold_left (ostep T' i) l s).
  { induction l as [|c l IH]; intros s Hl; simpl; auto.
    assert (E : ostep T i s c = ostep T' i s c).
    { unfold ostep, ocand. rewrite (H (c + 1)); auto. specialize (Hl c (or_introl eq_refl)). lia. }
    rewrite E. apply IH. intros; apply Hl; right; auto. }
  apply G. intros c K. apply In_zrange in K. exact K.
Qed.

Lemma oline_range : forall T i, 0 <= i < n -> i <= fst (oline T i) < n.
Proof.
  intros T i Hi. unfold oline.
  assert (G : forall l s, (forall c, In c l -> i <= c < n - 1) -> i <= fst s < n -> i <= fst (fold_left (ostep T i) l s) < n).
  { induction l as [|c l IH]; intros s Hl Hs; simpl; auto. apply IH; [intros; apply Hl; right; auto|].
    unfold ostep. destruct (t_gtb A (ocand T i c) (snd s)); simpl; auto.
    specialize (Hl c (or_introl eq_refl)). lia. }
  apply G; simpl; [|lia]. intros c K; apply In_zrange in K; exact K.
Qed.

Lemma ob_line_ok : forall i cut tr C T, 0 <= i < n -> vrepr cut n C -> vrepr tr n T -> C i = n - 1 ->
  exists cut' tr', ob_line A t p n i (cut, tr) = Ok (cut', tr') /\
    vrepr cut' n (fupd C i (fst (oline T i))) /\ vrepr tr' n (fupd T i (snd (oline T i))).
Proof.
  intros i cut tr C T Hi RC RT HC. unfold ob_line.
  rewrite (urepr_get _ _ _ _ i (n - 1) Ht) by lia. cbn [bind].
  destruct (vrepr_set _ _ _ _ i (t_set A (q i (n - 1)) p) RT Hi) as [tr1 [E1 R1]]. rewrite E1. cbn [bind].
  set (X := fun c => fold_left (ostep T i) (zrange i c) (n - 1, t_set A (q i (n - 1)) p)).
  destruct (for_up_inv _ (ob_try A t p i)
    (fun c st => vrepr (fst st) n (fupd C i (fst (X c))) /\ vrepr (snd st) n (fupd T i (snd (X c))))
    i (n - 1) (cut, tr1)) as [[cut' tr'] [E [I1 I2]]].
  - lia.
  - intros c [cu tt] Hc [J1 J2]. simpl in J1, J2. unfold ob_try.
    rewrite (urepr_get _ _ _ _ i c Ht) by lia. cbn [bind].
    rewrite (vrepr_get _ _ _ _ (c + 1) J2) by lia. cbn [bind].
    rewrite fupd_other by lia.
    rewrite (vrepr_get _ _ _ _ i J2) by lia. cbn [bind]. rewrite fupd_same.
    assert (XS : X (c + 1) = ostep T i (X c) c).
    { unfold X. rewrite zrange_snoc by lia. rewrite fold_left_app. reflexivity. }
    rewrite XS. unfold ostep. fold (ocand T i c).
    destruct (t_gtb A (ocand T i c) (snd (X c))).
    + destruct (vrepr_set _ _ _ _ i c J1 Hi) as [cu' [Ec Rc]]. rewrite Ec. cbn [bind].
      destruct (vrepr_set _ _ _ _ i (ocand T i c) J2 Hi) as [tt' [Et Rt]]. rewrite Et. cbn [bind].
      eexists; split; [reflexivity|]. simpl. split; (eapply vrepr_ext; [eassumption|]); intros k Hk; unfold fupd;
        destruct (k =? i); reflexivity.
    + eexists; split; [reflexivity|]. simpl. auto.
  - simpl. unfold X. rewrite zrange_empty by lia. simpl. split; [|exact R1].
    eapply vrepr_ext; [exact RC|]. intros k Hk. unfold fupd. destruct (Z.eqb_spec k i); subst; auto.
  - exists cut', tr'. split; [exact E|]. split; [exact I1|exact I2].
Qed.

Lemma ob_tables_ok : exists cut tr C T, ob_tables A t p = Ok (cut, tr) /\ vrepr cut n C /\ vrepr tr n T /\
  forall i, 0 <= i < n -> (C i, T i) = oline T i.
Proof.
  destruct Ht as (Hn & Hs & _). unfold ob_tables. rewrite Hs.
  destruct (for_down_inv _ (ob_line A t p n)
     (fun i st => exists C T, vrepr (fst st) n C /\ vrepr (snd st) n T /\
        (forall k, 0 <= k < i -> C k = n - 1) /\ (forall k, i <= k < n -> (C k, T k) = oline T k))
     n 0 (vrep n (n - 1), vrep n (t_zero A))) as [[cut tr] [E [C [T [RC [RT [_ H]]]]]]].
  - lia.
  - intros i [cut tr] Hi [C [T [RC [RT [H1 H2]]]]]. simpl in RC, RT.
    destruct (ob_line_ok i cut tr C T Hi RC RT (H1 i ltac:(lia))) as [cut' [tr' [E [RC' RT']]]].
    exists (cut', tr'). split; [exact E|].
    exists (fupd C i (fst (oline T i))), (fupd T i (snd (oline T i))). split; [exact RC'|]. split; [exact RT'|]. split.
    + intros k Hk. rewrite fupd_other by lia. apply H1; lia.
    + intros k Hk. destruct (Z.eq_dec k i) as [->|D].
      * rewrite !fupd_same. rewrite <- surjective_pairing. apply oline_ext. intros a Ha. rewrite fupd_other by lia; auto.
      * rewrite !fupd_other by auto. rewrite H2 by lia. apply oline_ext. intros a Ha. rewrite fupd_other by lia; auto.
  - exists (fun _ => n - 1), (fun _ => t_zero A). simpl. split; [apply vrepr_vrep; lia|]. split; [apply vrepr_vrep; lia|].
    split; [auto|]. intros k Hk; lia.
  - exists cut, tr, C, T. auto.
Qed.

(** The parts visited from i: part [i, C i], then from C i + 1. *)
Inductive ochain (C : Z -> Z) : Z -> list (Z * Z) -> Prop :=
| oc_nil : ochain C n []
| oc_cons : forall i r, i <= C i < n -> ochain C (C i + 1) r -> ochain C i ((i, C i) :: r).

Definition mkopart (ab : Z * Z) : opart A := mkOPart A (fst ab) (snd ab) (q (fst ab) (snd ab)).

Lemma on_loop_ok : forall cut C, vrepr cut n C -> (forall i, 0 <= i < n -> i <= C i < n) ->
  forall fuel i, 0 <= i <= n -> n - i < Z.of_nat fuel ->
  exists l, on_loop A fuel cut t i = Ok (map mkopart l) /\ ochain C i l.
Proof.
  intros cut C RC HC. induction fuel as [|fuel IH]; intros i Hi F; [lia|].
  cbn [on_loop]. destruct RC as [LC GC]. rewrite LC.
  destruct (Z.eq_dec i n) as [->|D].
  - replace (n <? n) with false by (symmetry; apply Z.ltb_irrefl). rewrite andb_false_r.
    exists []. split; auto. constructor.
  - replace (0 <=? i) with true by (symmetry; apply Z.leb_le; lia).
    replace (i <? n) with true by (symmetry; apply Z.ltb_lt; lia). cbn [andb].
    rewrite GC by lia. cbn [bind]. pose proof (HC i ltac:(lia)).
    rewrite (urepr_get _ _ _ _ i (C i) Ht) by lia. cbn [bind].
    destruct (IH (C i + 1) ltac:(lia) ltac:(lia)) as [l [E O]]. rewrite E. cbn [bind].
    exists ((i, C i) :: l). split; [reflexivity|]. constructor; auto.
Qed.

Lemma ochain_tiles : forall C i l, ochain C i l -> tiles i n l.
Proof. intros C i l H; induction H; constructor; auto. Qed.

(** Everything about [o_best] in one statement. *)
Lemma o_best_ok : exists x C T l, o_best A t p = Ok x /\
  on_parts x = map mkopart l /\ ochain C 0 l /\ on_param x = p /\ on_table x = t /\
  on_quality x = sum_quality A (map (fun ab => q (fst ab) (snd ab)) l) /\
  forall i, 0 <= i < n -> (C i, T i) = oline T i.
Proof.
  destruct ob_tables_ok as (cut & tr & C & T & E & RC & RT & H).
  unfold o_best. rewrite E. cbn [bind fst]. unfold on_make.
  assert (HC : forall i, 0 <= i < n -> i <= C i < n).
  { intros i Hi. pose proof (oline_range T i Hi) as K. rewrite <- (H i Hi) in K. exact K. }
  destruct Ht as (Hn & _).
  destruct (on_loop_ok cut C RC HC (S (length cut)) 0 ltac:(lia)) as [l [El O]].
  { destruct RC as [LC _]. unfold vlen in LC. lia. }
  rewrite El. cbn [bind]. eexists; exists C, T, l. split; [reflexivity|]. simpl.
  repeat split; auto. f_equal. rewrite map_map. apply map_ext. reflexivity.
Qed.

End M.
