(** * Specification vocabulary for near-optimality in floating point (no proofs). *)
From Coq Require Import ZArith Reals.
From Flocq Require Import Core BinarySingleNaN.
From Verif Require Import Base Arith Quality Ieee SpecParts.

(** A finite long double of absolute value at most [B]. *)
Definition fin_le (B : R) (x : f80) : Prop := is_finite x = true /\ (Rabs (B2R x) <= B)%R.

(** Both numbers of a quality are finite and at most [B]. *)
Definition qual_le (B : R) {lg} (q : quality (IA lg)) : Prop := fin_le B (gain q) /\ fin_le B (loss q).

(** The bound is a normal number, far from the limits of the format. *)
Definition sane_bound (B : R) : Prop := (bpow radix2 (-16000) <= B <= bpow radix2 16000)%R.

(** The weights of gain and loss for the float parameter [p]: p, and 1-p rounded to float. *)
Definition wgain (p : f32) : R := B2R p.
Definition wloss (p : f32) : R := B2R (Bminus mode_NE (int32 1) p).

(** Exact value of a list of qualities (no rounding): sum of a*gain-b*loss. *)
Definition exact_value (a b : R) {lg} (l : list (quality (IA lg))) : R :=
  Rsum (fun q : quality (IA lg) => a * B2R (gain q : f80) - b * B2R (loss q : f80))%R l.
Definition exact_gain {lg} (l : list (quality (IA lg))) : R := Rsum (fun q : quality (IA lg) => B2R (gain q : f80)) l.
Definition exact_loss {lg} (l : list (quality (IA lg))) : R := Rsum (fun q : quality (IA lg) => B2R (loss q : f80)) l.

(** The error allowed for partitions of at most [n] parts whose gains and losses are at most [B]: n^2 B / 2^59. *)
Definition slack (n : Z) (B : R) : R := (IZR (n * n) * B * bpow radix2 (-59))%R.
