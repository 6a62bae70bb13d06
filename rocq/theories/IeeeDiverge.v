(** * Divergence of the search with a threshold below 2^-24. *)
From Coq Require Import Reals Lra Lia.
From Flocq Require Import Core BinarySingleNaN.
From Verif Require Import Base BaseFacts Arith Quality Utm UtmProofs Hierarchy Partitions Partitioners Search Ieee SpecIeee IeeeFacts.

(** 1/2 + 2^-k and 1/2 as floats. *)
Definition hp (k : Z) : f32 := binary_normalize 24 128 prec32 emax32 mode_NE (2 ^ (k - 1) + 1) (- k) false.
Definition half32c : f32 := binary_normalize 24 128 prec32 emax32 mode_NE 1 (-1) false.

Section G.
Context (lg : f80 -> f80) {Pn Tu : Type} (best : f32 -> res Pn) (pn_param : Pn -> f32) (eqb : Pn -> Pn -> bool)
  (pn_quality : Pn -> quality (IA lg)) (pn_tuples : Pn -> list Tu).
Context (best_ok : forall p, exists x, best p = Ok x /\ pn_param x = p).
Notation add := (s_add (IA lg) best pn_param eqb).
Context (th : f32) (T : tiny32 th).

Definition diverge (p q : f32) : Prop := forall x y, best p = Ok x -> best q = Ok y -> forall fuel st, add fuel th x y st = OutOfFuel.

Lemma wide_tiny : forall d : f32, is_finite d = true -> (bpow radix2 (-24) <= B2R d)%R -> Bltb th d = true.
Proof. intros d Fd H. destruct T as [Ft Rt]. apply ltb32; auto. lra. Qed.

(** Going right: the left half has equal ends. *)
Lemma div_right : forall p q c, mid32 p q = c -> is_finite (Bminus mode_NE q p) = true -> (bpow radix2 (-24) <= B2R (Bminus mode_NE q p))%R ->
  (forall x y, best p = Ok x -> best q = Ok y -> eqb x y = false) ->
  (forall x y, best p = Ok x -> best c = Ok y -> eqb x y = true) -> diverge c q -> diverge p q.
Proof.
  intros p q c Em Fd Wd N Eq Dv x y Ex Ey fuel st. destruct (best_ok p) as (x' & Ex' & Px). destruct (best_ok q) as (y' & Ey' & Py).
  assert (x' = x) by congruence. assert (y' = y) by congruence. subst x' y'.
  destruct fuel as [|fuel]; [reflexivity|]. cbn [s_add]. rewrite (N x y Ex Ey). unfold s_wide, s_mid. cbn [p_ltb p_add p_half p_sub IA par]. rewrite Px, Py.
  rewrite wide_tiny by auto. fold (mid32 p q). rewrite Em. cbn [negb andb].
  destruct (best_ok c) as (z & Ez & Pz). rewrite Ez. cbn [bind].
  destruct fuel as [|fuel]; [reflexivity|]. cbn [s_add]. rewrite (Eq x z Ex Ez). cbn [negb andb bind]. destruct st as [l ps].
  apply (Dv z y Ez Ey (S fuel)).
Qed.

(** Going left. *)
Lemma div_left : forall p q c, mid32 p q = c -> is_finite (Bminus mode_NE q p) = true -> (bpow radix2 (-24) <= B2R (Bminus mode_NE q p))%R ->
  (forall x y, best p = Ok x -> best q = Ok y -> eqb x y = false) -> diverge p c -> diverge p q.
Proof.
  intros p q c Em Fd Wd N Dv x y Ex Ey fuel st. destruct (best_ok p) as (x' & Ex' & Px). destruct (best_ok q) as (y' & Ey' & Py).
  assert (x' = x) by congruence. assert (y' = y) by congruence. subst x' y'.
  destruct fuel as [|fuel]; [reflexivity|]. cbn [s_add]. rewrite (N x y Ex Ey). unfold s_wide, s_mid. cbn [p_ltb p_add p_half p_sub IA par]. rewrite Px, Py.
  rewrite wide_tiny by auto. fold (mid32 p q). rewrite Em. cbn [negb andb].
  destruct (best_ok c) as (z & Ez & Pz). rewrite Ez. cbn [bind]. rewrite (Dv x z Ex Ez). reflexivity.
Qed.

(** Stuck: the midpoint is the left bound. *)
Lemma div_stuck : forall p q, mid32 p q = p -> is_finite (Bminus mode_NE q p) = true -> (bpow radix2 (-24) <= B2R (Bminus mode_NE q p))%R ->
  (forall x y, best p = Ok x -> best q = Ok y -> eqb x y = false) -> (forall x, eqb x x = true) -> diverge p q.
Proof.
  intros p q Em Fd Wd N Rf x y Ex Ey fuel. destruct (best_ok p) as (x' & Ex' & Px). destruct (best_ok q) as (y' & Ey' & Py).
  assert (x' = x) by congruence. assert (y' = y) by congruence. subst x' y'.
  induction fuel as [|fuel IH]; [reflexivity|]. intros st. cbn [s_add]. rewrite (N x y Ex Ey). unfold s_wide, s_mid. cbn [p_ltb p_add p_half p_sub IA par]. rewrite Px, Py.
  rewrite wide_tiny by auto. fold (mid32 p q). rewrite Em. cbn [negb andb]. rewrite Ex. cbn [bind].
  destruct fuel as [|fuel]; [reflexivity|]. cbn [s_add]. rewrite (Rf x). cbn [negb andb bind]. destruct st as [l ps]. apply IH.
Qed.
End G.


Definition b24 : f32 := binary_normalize 24 128 prec32 emax32 mode_NE 1 (-24) false.
Lemma b24_R : B2R b24 = bpow radix2 (-24).
Proof. unfold B2R. cbn. unfold F2R. cbn. lra. Qed.

Lemma feq : forall x y : f32, B2SF x = B2SF y -> x = y.
Proof. intros x y H. apply B2SF_inj. exact H. Qed.

Lemma wide_check : forall p q : f32, is_finite (Bminus mode_NE q p) = true -> Bleb b24 (Bminus mode_NE q p) = true ->
  (bpow radix2 (-24) <= B2R (Bminus mode_NE q p))%R.
Proof.
  intros p q F H. rewrite Bleb_correct in H by (auto; reflexivity). rewrite <- b24_R.
  destruct (Rle_bool_spec (B2R b24) (B2R (Bminus mode_NE q p))); [auto|discriminate].
Qed.

Definition differ {Pn} (best : f32 -> res Pn) (eqb : Pn -> Pn -> bool) (p q : f32) : bool :=
  match best p, best q with Ok x, Ok y => negb (eqb x y) | _, _ => false end.
Definition same {Pn} (best : f32 -> res Pn) (eqb : Pn -> Pn -> bool) (p q : f32) : bool :=
  match best p, best q with Ok x, Ok y => eqb x y | _, _ => false end.
Lemma differ_ok : forall Pn (best : f32 -> res Pn) eqb p q, differ best eqb p q = true -> forall x y, best p = Ok x -> best q = Ok y -> eqb x y = false.
Proof. intros Pn best eqb p q H x y Ex Ey. unfold differ in H. rewrite Ex, Ey in H. destruct (eqb x y); auto. Qed.
Lemma same_ok : forall Pn (best : f32 -> res Pn) eqb p q, same best eqb p q = true -> forall x y, best p = Ok x -> best q = Ok y -> eqb x y = true.
Proof. intros Pn best eqb p q H x y Ex Ey. unfold same in H. rewrite Ex, Ey in H. auto. Qed.

(** If the result changes between 1/2 and 1/2 + 2^-24, is the same at 0 and 1/2, and at all the 1/2 + 2^-k differs from the one
    at 1/2, the search from 0 to 1 never ends. *)
Definition changes_at_half {Pn} (best : f32 -> res Pn) (eqb : Pn -> Pn -> bool) : bool :=
  forallb (fun k => differ best eqb half32c (hp k)) (zrange 2 25) && differ best eqb half32c (int32 1) &&
  same best eqb (B754_zero false) half32c && differ best eqb (B754_zero false) (int32 1).

Lemma changes_diverge : forall lg Pn (best : f32 -> res Pn) pn_param eqb, (forall p, exists x, best p = Ok x /\ pn_param x = p) ->
  (forall x, eqb x x = true) -> changes_at_half best eqb = true -> forall th, tiny32 th ->
  diverge lg best pn_param eqb th (B754_zero false) (int32 1).
Proof.
  intros lg Pn best pn_param eqb Ok1 Rf Ch th T. unfold changes_at_half in Ch. apply andb_prop in Ch. destruct Ch as [Ch C4]. apply andb_prop in Ch. destruct Ch as [Ch C3].
  apply andb_prop in Ch. destruct Ch as [C1 C2]. rewrite forallb_forall in C1.
  assert (K : forall k, 2 <= k <= 24 -> diverge lg best pn_param eqb th half32c (hp k)).
  { assert (L : forall k, In k (zrange 2 25) <-> 2 <= k < 25) by (intro; apply In_zrange).
    assert (St : forall k, In k (zrange 2 24) -> mid32 half32c (hp k) = hp (k + 1) /\ is_finite (Bminus mode_NE (hp k) half32c) = true /\ Bleb b24 (Bminus mode_NE (hp k) half32c) = true).
    { assert (A : forallb (fun k => match B2SF (mid32 half32c (hp k)), B2SF (hp (k + 1)) with
           | SpecFloat.S754_finite s m e, SpecFloat.S754_finite s' m' e' => Bool.eqb s s' && Pos.eqb m m' && Z.eqb e e' | _, _ => false end
           && is_finite (Bminus mode_NE (hp k) half32c) && Bleb b24 (Bminus mode_NE (hp k) half32c)) (zrange 2 24) = true) by (vm_compute; reflexivity).
      rewrite forallb_forall in A. intros k Hk. specialize (A k Hk). apply andb_prop in A. destruct A as [A A3]. apply andb_prop in A. destruct A as [A A2].
      split; [|split; auto]. apply feq. destruct (B2SF (mid32 half32c (hp k))), (B2SF (hp (k + 1))); try discriminate.
      apply andb_prop in A. destruct A as [A A5]. apply andb_prop in A. destruct A as [A A4].
      apply eqb_prop in A. apply Pos.eqb_eq in A4. apply Z.eqb_eq in A5. subst. reflexivity. }
    intros k Hk. replace k with (24 - Z.of_nat (Z.to_nat (24 - k))) by lia. assert (Hn : (Z.to_nat (24 - k) <= 22)%nat) by lia. revert Hn.
    generalize (Z.to_nat (24 - k)). clear k Hk. induction n as [|n IH]; intros Hn.
    - replace (24 - Z.of_nat 0) with 24 by lia. assert (E1 : is_finite (Bminus mode_NE (hp 24) half32c) = true) by (vm_compute; reflexivity).
      apply (div_stuck lg best pn_param eqb Ok1 th T); [apply feq; vm_compute; reflexivity|auto|apply wide_check; [auto|vm_compute; reflexivity]| |auto].
      apply differ_ok. apply C1. apply L. lia.
    - destruct (St (24 - Z.of_nat (S n))) as (S1 & S2 & S3); [apply In_zrange; lia|].
      apply (div_left lg best pn_param eqb Ok1 th T _ _ _ S1 S2); [apply wide_check; auto|apply differ_ok; apply C1; apply L; lia|].
      replace (24 - Z.of_nat (S n) + 1) with (24 - Z.of_nat n) by lia. apply IH. lia. }
  apply (div_right lg best pn_param eqb Ok1 th T (B754_zero false) (int32 1) half32c); [apply feq; vm_compute; reflexivity|vm_compute; reflexivity| | | |].
  - apply wide_check; vm_compute; reflexivity.
  - apply differ_ok; auto.
  - apply same_ok; auto.
  - apply (div_left lg best pn_param eqb Ok1 th T _ _ (hp 2)); [apply feq; vm_compute; reflexivity|vm_compute; reflexivity| | |].
    + apply wide_check; vm_compute; reflexivity.
    + apply differ_ok; auto.
    + apply K. lia.
Qed.

Lemma search_diverge : forall lg Pn Tu (best : f32 -> res Pn) pn_param eqb (pn_quality : Pn -> quality (IA lg)) (pn_tuples : Pn -> list Tu),
  (forall p, exists x, best p = Ok x /\ pn_param x = p) -> (forall x, eqb x x = true) -> changes_at_half best eqb = true -> forall th, tiny32 th ->
  forall strict fuel prev, s_computeBestPartitions (IA lg) best pn_param eqb pn_quality pn_tuples strict fuel prev th (B754_zero false) (int32 1) = OutOfFuel.
Proof.
  intros lg Pn Tu best pn_param eqb pn_quality pn_tuples Ok1 Rf Ch th T strict fuel prev. unfold s_computeBestPartitions.
  destruct (Ok1 (B754_zero false)) as (x & Ex & _). destruct (Ok1 (int32 1)) as (y & Ey & _). rewrite Ex. cbn [bind]. rewrite Ey. cbn [bind].
  rewrite (changes_diverge lg Pn best pn_param eqb Ok1 Rf Ch th T x y Ex Ey). reflexivity.
Qed.
