(** * A checker for valid trees, used only to discharge the hypotheses of concrete examples. *)
From Verif Require Import Base BaseFacts Hierarchy SpecTree TreeFacts.
From Coq Require Import Lia Bool.

Definition valid_treeb (L : Z) (ps : list Z) (r : Z) : bool :=
  (0 <? L) && (L <=? vlen ps) && (0 <=? r) && (r <? vlen ps) && (parent ps r =? -1) &&
  forallb (fun h => (h =? r) || ((L <=? parent ps h) && (parent ps h <? vlen ps))) (zrange 0 (vlen ps)) &&
  forallb (fun h => existsb (fun c => parent ps c =? h) (zrange 0 (vlen ps))) (zrange L (vlen ps)) &&
  forallb (fun h => belowb ps h r) (zrange 0 (vlen ps)).

Lemma climb_sound : forall n ps x h, climb n ps x h = true -> below ps x h.
Proof.
  induction n as [|n IH]; intros ps x h; cbn [climb].
  - rewrite orb_false_r. intro E. apply Z.eqb_eq in E. subst. constructor.
  - intro E. apply orb_true_iff in E. destruct E as [E|E]; [apply Z.eqb_eq in E; subst; constructor|].
    destruct (Z.eqb_spec (parent ps x) (-1)) as [|D]; [discriminate|]. apply below_up; auto.
Qed.

Lemma valid_treeb_ok : forall L ps r, valid_treeb L ps r = true -> valid_tree L ps r.
Proof.
  intros L ps r E. unfold valid_treeb in E. rewrite !andb_true_iff in E.
  destruct E as [[[[[[[E1 E2] E3] E4] E5] E6] E7] E8].
  apply Z.ltb_lt in E1, E4. apply Z.leb_le in E2, E3. apply Z.eqb_eq in E5.
  rewrite forallb_forall in E6, E7, E8. constructor; auto.
  - split; auto.
  - intros h Nh D. specialize (E6 h (proj2 (In_zrange _ _ _) Nh)). apply orb_true_iff in E6. destruct E6 as [K|K].
    + apply Z.eqb_eq in K; contradiction.
    + apply andb_true_iff in K. destruct K as [K1 K2]. apply Z.leb_le in K1. apply Z.ltb_lt in K2. auto.
  - intros h Hh. specialize (E7 h (proj2 (In_zrange _ _ _) Hh)). apply existsb_exists in E7. destruct E7 as (c & Hc & K).
    apply Z.eqb_eq in K. apply In_zrange in Hc. exists c; auto.
  - intros h Nh. apply (climb_sound (length ps)). apply E8. apply In_zrange. auto.
Qed.

Definition uniformb (D : nat) (L : Z) (ps : list Z) (r : Z) : bool :=
  forallb (fun x => Nat.iter D (parent ps) x =? r) (zrange 0 L).

Lemma uniformb_ok : forall D L ps r, uniformb D L ps r = true -> uniform_depth L ps r.
Proof.
  intros D L ps r E. exists D. intros x Hx. unfold uniformb in E. rewrite forallb_forall in E.
  apply Z.eqb_eq. apply E. apply In_zrange; auto.
Qed.
