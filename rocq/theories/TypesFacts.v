(** * Components added up: gains grow, losses shrink. *)
From Coq Require Import Reals Lra Lia.
From Verif Require Import Base BaseFacts Arith SpecTree SpecParts SpecInfo SpecData SpecTypes Hierarchy InfoFacts OInfo OReal P_Sym.
Local Open Scope R_scope.

Lemma add_cons : forall x y a b, add_row (x :: a) (y :: b) = (x + y) :: add_row a b. Proof. reflexivity. Qed.
Lemma add_len : forall a b, length a = length b -> length (add_row a b) = length a.
Proof. intros a b E. unfold add_row. rewrite map_length, combine_length, E. apply Nat.min_id. Qed.
Lemma add_nonneg : forall a b, nonneg a -> nonneg b -> nonneg (add_row a b).
Proof.
  induction a as [|x a IH]; intros b Ha Hb; [constructor|]. destruct b as [|y b]; [constructor|]. rewrite add_cons. inversion Ha; inversion Hb; subst. constructor; [lra|]. apply IH; auto.
Qed.
Lemma add_total : forall a b, length a = length b -> total (add_row a b) = total a + total b.
Proof.
  induction a as [|x a IH]; intros b E; destruct b as [|y b]; try discriminate; [cbn [add_row combine map]; change (add_row [] []) with (@nil R); rewrite total_nil; lra|].
  rewrite add_cons, !total_cons, IH by (cbn in E; lia). lra.
Qed.
Lemma add_xl : forall A B, 0 < A -> 0 < B -> forall a b, length a = length b -> nonneg a -> nonneg b ->
  total a * ln A - Rsum xl a + (total b * ln B - Rsum xl b) <= (total a + total b) * ln (A + B) - Rsum xl (add_row a b).
Proof.
  intros A B HA HB. induction a as [|x a IH]; intros b E Ha Hb; destruct b as [|y b]; try discriminate.
  - change (add_row [] []) with (@nil R). rewrite !total_nil, !Rsum_nil. lra.
  - rewrite add_cons, !total_cons, !Rsum_cons. inversion Ha; inversion Hb; subst. specialize (IH b ltac:(cbn in E; lia) ltac:(assumption) ltac:(assumption)).
    pose proof (phi_super x y A B ltac:(assumption) ltac:(assumption) HA HB) as K. unfold phi in K. lra.
Qed.
Lemma add_zero : forall a b, length a = length b -> (forall v, In v a -> v = 0) -> add_row a b = b.
Proof.
  induction a as [|x a IH]; intros b E Z; destruct b as [|y b]; try discriminate; [reflexivity|]. rewrite add_cons, IH by (cbn in E; auto; intros; apply Z; right; assumption). rewrite (Z x (or_introl eq_refl)). f_equal. lra.
Qed.
Lemma add_comm : forall a b, add_row a b = add_row b a.
Proof. induction a as [|x a IH]; intros [|y b]; try reflexivity. rewrite !add_cons, IH. f_equal. lra. Qed.

Lemma gain_add : forall a b, length a = length b -> nonneg a -> nonneg b -> gain_of a + gain_of b <= gain_of (add_row a b).
Proof.
  intros a b E Ha Hb. pose proof (total_nonneg a Ha) as TA. pose proof (total_nonneg b Hb) as TB.
  destruct (Rle_lt_or_eq_dec _ _ TA) as [PA|PA].
  - destruct (Rle_lt_or_eq_dec _ _ TB) as [PB|PB].
    + rewrite !gain_of_xl by auto using add_nonneg. rewrite add_total by exact E. rewrite !xl_pos by lra. pose proof (add_xl _ _ PA PB a b E Ha Hb) as K.
      pose proof ln2_pos. unfold Rdiv. rewrite <- Rmult_plus_distr_r. apply Rmult_le_compat_r; [left; apply Rinv_0_lt_compat; assumption|]. lra.
    + pose proof (total_zero b Hb (eq_sym PB)) as Z. rewrite add_comm, add_zero by auto. destruct (zero_gain b Z) as [-> _]. lra.
  - pose proof (total_zero a Ha (eq_sym PA)) as Z. rewrite add_zero by auto. destruct (zero_gain a Z) as [-> _]. lra.
Qed.
Lemma loss_add : forall a b, length a = length b -> nonneg a -> nonneg b -> loss_of (add_row a b) <= loss_of a + loss_of b.
Proof.
  intros a b E Ha Hb. pose proof (gain_add a b E Ha Hb) as K. unfold loss_of, vlen. rewrite add_total, add_len, <- E by exact E. lra.
Qed.
Lemma add_mult : forall c x y, add_row (map (Rmult x) c) (map (Rmult y) c) = map (Rmult (x + y)) c.
Proof. induction c as [|v c IH]; intros x y; [reflexivity|]. cbn [map]. rewrite add_cons, IH. f_equal. lra. Qed.
Lemma gain_mult : forall c x, 0 <= x -> nonneg c -> gain_of (map (Rmult x) c) = x * gain_of c /\ loss_of (map (Rmult x) c) = x * loss_of c.
Proof.
  intros c x Hx Hc. destruct (Rle_lt_or_eq_dec _ _ Hx) as [Px|<-]; [split; [apply gain_scal|apply loss_scal]; auto|].
  destruct (zero_gain (map (Rmult 0) c)) as [-> ->]; [intros v I; apply in_map_iff in I; destruct I as (u & <- & _); lra|]. split; lra.
Qed.

(** ** One way of reading cells out of a component. *)
Section G.
Variables (X : Type) (add : X -> X -> X) (zero : X) (ok : X -> Prop) (cell : X -> list R) (N : nat).
Hypothesis Hz : ok zero.
Hypothesis Ha : forall a b, ok a -> ok b -> ok (add a b).
Hypothesis Hc : forall a b, ok a -> ok b -> cell (add a b) = add_row (cell a) (cell b).
Hypothesis Hl : forall a, ok a -> length (cell a) = N.
Hypothesis Hn : forall a, ok a -> nonneg (cell a).
Hypothesis H0 : forall v, In v (cell zero) -> v = 0.

Lemma sum_ok : forall g, Forall ok g -> ok (fold_right add zero g).
Proof. intros g H. induction H; [exact Hz|]. cbn [fold_right]. auto. Qed.
Lemma types_le : forall g, Forall ok g -> Rsum (fun x => gain_of (cell x)) g <= gain_of (cell (fold_right add zero g)) /\ loss_of (cell (fold_right add zero g)) <= Rsum (fun x => loss_of (cell x)) g.
Proof.
  intros g H. induction H as [|x g Hx H IH]; [cbn [fold_right]; destruct (zero_gain _ H0) as [-> ->]; rewrite !Rsum_nil; lra|].
  cbn [fold_right]. rewrite !Rsum_cons, Hc by auto using sum_ok. pose proof (sum_ok g H) as So.
  pose proof (gain_add (cell x) (cell (fold_right add zero g)) ltac:(rewrite !Hl by auto; reflexivity) ltac:(auto) ltac:(auto)).
  pose proof (loss_add (cell x) (cell (fold_right add zero g)) ltac:(rewrite !Hl by auto; reflexivity) ltac:(auto) ltac:(auto)). lra.
Qed.
Lemma types_eq : forall g c, Forall ok g -> nonneg c -> length c = N -> (forall x, In x g -> exists a, 0 <= a /\ cell x = map (Rmult a) c) ->
  Rsum (fun x => gain_of (cell x)) g = gain_of (cell (fold_right add zero g)) /\ Rsum (fun x => loss_of (cell x)) g = loss_of (cell (fold_right add zero g)).
Proof.
  intros g c H Nc Lc M.
  assert (K : exists a, 0 <= a /\ cell (fold_right add zero g) = map (Rmult a) c /\ Rsum (fun x => gain_of (cell x)) g = a * gain_of c /\ Rsum (fun x => loss_of (cell x)) g = a * loss_of c).
  { induction H as [|x g Hx H IH].
    - exists 0. cbn [fold_right]. rewrite !Rsum_nil. repeat split; try lra. pose proof (Hl zero Hz) as Lz. revert c Nc Lc M. generalize N Lz H0. clear. generalize (cell zero). 
      intro l. induction l as [|v l IH]; intros k Lk Z c Nc Lc M; destruct c as [|w c]; cbn in *; try congruence; [subst; discriminate..|]. f_equal; [rewrite (Z v); auto; lra|].
      apply (IH (length l)); auto; [inversion Nc; assumption|congruence|intros ? []].
    - destruct IH as (a & Pa & Ea & G1 & G2); [intros; apply M; right; assumption|]. destruct (M x (or_introl eq_refl)) as (b & Pb & Eb). exists (b + a).
      cbn [fold_right]. rewrite !Rsum_cons, Hc by auto using sum_ok. rewrite Ea, Eb, add_mult, G1, G2. destruct (gain_mult c b Pb Nc) as [-> ->]. repeat split; lra. }
  destruct K as (a & Pa & Ea & -> & ->). rewrite Ea. destruct (gain_mult c a Pa Nc) as [-> ->]. auto.
Qed.
End G.

Lemma Rsum_group : forall X (f : X -> R) (gs : list (list X)) (s : list X -> X), (forall g, In g gs -> Rsum f g <= f (s g)) -> Rsum f (concat gs) <= Rsum f (map s gs).
Proof.
  intros X f gs s H. rewrite Rsum_concat, Rsum_map. apply Rsum_le. exact H.
Qed.
