(** * Arith: the arithmetic the library computes with.

    src/lpaggreg/headers/lpglobal.h:17  [typedef long double lp_quality_type].
    Every algorithm is modelled over an arbitrary record of operations, so that the structural
    theorems hold for every arithmetic (IEEE with rounding, infinities and NaN included). *)
From Coq Require Import Reals.
From Verif Require Import Base.

Record arith : Type := mkArith {
  num : Type;                        (* lp_quality_type / double *)
  n_zero : num;
  n_one : num;
  n_add : num -> num -> num;
  n_sub : num -> num -> num;
  n_mul : num -> num -> num;
  n_div : num -> num -> num;
  n_log : num -> num;                (* cmath log *)
  n_ofZ : Z -> num;                  (* conversion from int *)
  n_ltb : num -> num -> bool;        (* a < b *)
  n_leb : num -> num -> bool;        (* a <= b *)
  n_eqb : num -> num -> bool;        (* a == b *)
  n_abs : num -> num;                (* std::abs *)
  n_prec : num;                      (* LP_PRECISION, src/lpaggreg/headers/lpglobal.h:6 *)
  n_float : num -> num;              (* conversion to float (and back) *)
  par : Type;                        (* float: the parameter p *)
  p_zero : par;
  p_ltb : par -> par -> bool;        (* a < b on float *)
  p_add : par -> par -> par;
  p_sub : par -> par -> par;
  p_half : par -> par;               (* x/2 on float *)
  p_compl : par -> par;              (* 1-x on float *)
  p_num : par -> num                 (* float -> long double *)
}.

(** Exact real arithmetic: the ideal instance. *)
Definition Rltb (x y : R) : bool := if Rlt_dec x y then true else false.
Definition Rleb (x y : R) : bool := if Rle_dec x y then true else false.
Definition Reqb (x y : R) : bool := if Req_EM_T x y then true else false.

(** Parameters (the C++ [float] p) with their real value; the arithmetic on them may round. *)
Record params : Type := mkParams {
  pp : Type;
  pp_zero : pp;
  pp_ltb : pp -> pp -> bool;
  pp_add : pp -> pp -> pp;
  pp_sub : pp -> pp -> pp;
  pp_half : pp -> pp;
  pp_compl : pp -> pp;
  pp_num : pp -> R
}.

(** Exact real qualities with an arbitrary kind of parameters (src/lpaggreg/headers/lpglobal.h:6 for the precision). *)
Definition RP (P : params) : arith := {|
  num := R; n_zero := 0%R; n_one := 1%R;
  n_add := Rplus; n_sub := Rminus; n_mul := Rmult; n_div := Rdiv;
  n_log := ln; n_ofZ := IZR; n_ltb := Rltb; n_leb := Rleb; n_eqb := Reqb;
  n_abs := Rabs; n_prec := (/ IZR 10000000000000)%R; n_float := (fun x => x);
  par := pp P; p_zero := pp_zero P; p_ltb := pp_ltb P; p_add := pp_add P; p_sub := pp_sub P;
  p_half := pp_half P; p_compl := pp_compl P; p_num := pp_num P
|}.

(** Real parameters. *)
Definition Rpar : params := {|
  pp := R; pp_zero := 0%R; pp_ltb := Rltb; pp_add := Rplus; pp_sub := Rminus;
  pp_half := (fun x => (x / 2)%R); pp_compl := (fun x => (1 - x)%R); pp_num := (fun x => x) |}.

(** Exact real arithmetic throughout. *)
Definition RA : arith := RP Rpar.
