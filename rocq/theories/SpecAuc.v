(** * Specification vocabulary for POpt and AUC as R shows them (no proofs). *)
From Coq Require Import List ZArith Reals.
From Flocq Require Import Core BinarySingleNaN.
From Verif Require Import Base Arith Quality Ieee Search SpecSearch SpecNum.
Import ListNotations.

(** A row (p, gain, loss) of Qualities in which gain and loss are finite and between -1 and 2 (exactly, they are between 0 and 1). *)
Definition sane_row (x : f32 * (f80 * f80)) : Prop :=
  let '(_, (g, l)) := x in is_finite g = true /\ is_finite l = true /\ (-1 <= B2R g <= 2)%R /\ (-1 <= B2R l <= 2)%R.

(** The points (gain, loss) of the rows. *)
Definition points (quals : list (f32 * (f80 * f80))) : list (R * R) := map (fun '(_, (g, l)) => (B2R g, B2R l)) quals.

(** [p] is listed, and no other row is nearer to gain 1 and loss 0, up to 2^-43 in the squared distance. *)
Definition nearest_shown (quals : list (f32 * (f80 * f80))) (p : f32) : Prop :=
  exists g l, In (p, (g, l)) quals /\
    forall p' g' l', In (p', (g', l')) quals -> (dist2 (B2R g) (B2R l) <= dist2 (B2R g') (B2R l') + bpow radix2 (-43))%R.

(** Total variation of a list of numbers: the sum of the |x(i+1)-x(i)|. *)
Fixpoint variation (l : list R) : R :=
  match l with
  | x :: ((y :: _) as r) => (Rabs (y - x) + variation r)%R
  | _ => 0%R
  end.

(** What C83 says of the rows of Qualities, POpt and AUC: POpt is a listed parameter whose row is the nearest to gain 1 and loss 0 up to 2^-43,
    and (with at most 2^20 rows) AUC is one minus the area under the shown curve, up to n * 2^-19 * (V + 1) for n rows and gains of total variation V. *)
Definition summary_ok (quals : list (f32 * (f80 * f80))) (popt : f32) (auc : f80) : Prop :=
  nearest_shown quals popt /\
  ((vlen quals <= 1048576)%Z -> within (IZR (vlen quals) * (bpow radix2 (-19) * (variation (map fst (points quals)) + 1))) auc (1 - trapezoids (points quals))).
