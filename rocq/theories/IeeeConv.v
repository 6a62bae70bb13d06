(** * Widening a float to long double is exact. *)
From Coq Require Import ZArith Reals Lia Lra.
From Flocq Require Import Core BinarySingleNaN.
From Verif Require Import Base Ieee.

Lemma F32_F80 : forall x, generic_format radix2 (FLT_exp (-149) 24) x -> generic_format radix2 (FLT_exp (-16445) 64) x.
Proof. intros x H. apply (generic_inclusion_mag radix2 (FLT_exp (-149) 24)); auto. intros _. unfold FLT_exp. lia. Qed.

Lemma to80_exact : forall x : f32, is_finite x = true -> B2R (to80 x) = B2R x /\ is_finite (to80 x) = true.
Proof.
  intros x Hx. pose proof (generic_format_B2R 24 128 x) as Fx. change (SpecFloat.fexp 24 128) with (FLT_exp (-149) 24) in Fx.
  pose proof (abs_B2R_lt_emax 24 128 x) as Bx. destruct x as [s| | |s m e B]; try discriminate; [split; reflexivity|].
  unfold to80, conv.
  pose proof (binary_normalize_correct 64 16384 prec80 emax80 mode_NE (cond_Zopp s (Zpos m)) e s) as K. cbv zeta in K.
  change (F2R {| Fnum := cond_Zopp s (Zpos m); Fexp := e |}) with (B2R (B754_finite s m e B : f32)) in K.
  change (SpecFloat.fexp 64 16384) with (FLT_exp (-16445) 64) in K.
  rewrite round_generic in K; [|auto with typeclass_instances|apply F32_F80; exact Fx].
  rewrite Rlt_bool_true in K.
  - destruct K as (K1 & K2 & _). split; auto.
  - eapply Rlt_trans; [exact Bx|]. apply bpow_lt. lia.
Qed.
