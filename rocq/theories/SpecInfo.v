(** * Specification vocabulary for gain and loss (no proofs, independent of the algorithms).

    Information-theoretic gain and loss of replacing the values of a list by their aggregate. *)
From Coq Require Import Reals.
From Verif Require Import Base SpecParts.

Definition log2 (x : R) : R := (ln x / ln 2)%R.

(** v*log2(v), with the usual value 0 at 0. *)
Definition xlog2 (v : R) : R := if Rlt_dec 0 v then (v * log2 v)%R else 0%R.

Definition total (l : list R) : R := Rsum (fun v => v) l.

(** S*log2(S) minus the sum of the v*log2(v), where S is the sum of the values (0 when S <= 0). *)
Definition gain_of (l : list R) : R :=
  if Rlt_dec 0 (total l) then (total l * log2 (total l) - Rsum xlog2 l)%R else 0%R.

(** S*log2(number of values) minus the gain. *)
Definition loss_of (l : list R) : R := (total l * log2 (IZR (vlen l)) - gain_of l)%R.

(** Elements i, i+1, ..., j of a vector. *)
Definition slice {X : Type} (r : list X) (i j : Z) : list X := firstn (Z.to_nat (j - i + 1)) (skipn (Z.to_nat i) r).

(** Non-negative data. *)
Definition nonneg (l : list R) : Prop := Forall (fun v => (0 <= v)%R) l.
