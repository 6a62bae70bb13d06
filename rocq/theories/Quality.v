(** * Quality, Tradeoff and the complexity functions. *)
From Verif Require Import Base Arith.

Section M.
Context (A : arith).

(** src/lpaggreg/sources/complexity.cpp:38-40 [entropy]; [ln] is [log(2.0)] (src/lpaggreg/headers/complexity.h:47). *)
Definition c_ln2 : num A := n_log A (n_ofZ A 2).
Definition entropy (val : num A) : num A :=
  n_div A (n_mul A val (n_log A val)) c_ln2.

(** src/lpaggreg/sources/complexity.cpp:42-47 [entropyReduction]. *)
Definition entropyReduction (val ent : num A) : num A :=
  if n_ltb A (n_zero A) val then n_sub A (entropy val) ent else n_zero A.

(** src/lpaggreg/sources/complexity.cpp:49-51 [divergence]; [size] is a C++ int. *)
Definition divergence (size : Z) (value ent : num A) : num A :=
  n_sub A (n_div A (n_mul A value (n_log A (n_ofZ A size))) c_ln2) (entropyReduction value ent).

(** src/lpaggreg/headers/quality.h:14-57 class Quality; src/lpaggreg/sources/quality.cpp:8-31: the constructor, the
    getters and the setters are the record constructor and its projections. [operator<<] (100-104) is not modelled. *)
Record quality : Type := mkQ { gain : num A; loss : num A }.

(** src/lpaggreg/sources/quality.cpp:3-6 default constructor. *)
Definition q_zero : quality := mkQ (n_zero A) (n_zero A).

(** src/lpaggreg/sources/quality.cpp:33-41 [addToGain], [addToLoss]. *)
Definition q_addGain (q : quality) (g : num A) : quality := mkQ (n_add A (gain q) g) (loss q).
Definition q_addLoss (q : quality) (l : num A) : quality := mkQ (gain q) (n_add A (loss q) l).

(** src/lpaggreg/sources/quality.cpp:43-65 compound operators and 67-85 binary operators: componentwise. *)
Definition q_add (a b : quality) : quality := mkQ (n_add A (gain a) (gain b)) (n_add A (loss a) (loss b)).
Definition q_sub (a b : quality) : quality := mkQ (n_sub A (gain a) (gain b)) (n_sub A (loss a) (loss b)).
Definition q_mul (a b : quality) : quality := mkQ (n_mul A (gain a) (gain b)) (n_mul A (loss a) (loss b)).
Definition q_div (a b : quality) : quality := mkQ (n_div A (gain a) (gain b)) (n_div A (loss a) (loss b)).

(** [std::max(a,b)] is [(a<b)?b:a]. *)
Definition n_max (a b : num A) : num A := if n_ltb A a b then b else a.

(** src/lpaggreg/sources/quality.cpp:87-93 [operator==]. Both tolerance tests are on the gain, as in the source. *)
Definition q_eqb (a b : quality) : bool :=
  let precision := n_mul A (n_div A (n_max (n_add A (gain a) (gain b)) (n_add A (loss a) (loss b)))
                                    (n_ofZ A 2)) (n_prec A) in
  (n_eqb A (gain a) (gain b) && n_eqb A (loss a) (loss b))
  || (n_ltb A (n_abs A (n_sub A (gain a) (gain b))) precision
      && n_ltb A (n_abs A (n_sub A (gain a) (gain b))) precision).

(** src/lpaggreg/sources/quality.cpp:95-98 [operator!=]. *)
Definition q_neb (a b : quality) : bool := negb (q_eqb a b).

(** src/lpaggreg/headers/tradeoff.h:11-37 class Tradeoff. The quality pointer is modelled by its value; copies made
    by the implicit copy assignment share the pointer in C++ (see TradeoffHeap.v for the justification). The getters
    src/lpaggreg/sources/tradeoff.cpp:16-25 and the constructor 39-42 are the record's projections and constructor. *)
Record tradeoff : Type := mkT { t_quality : quality; t_value : num A }.

(** src/lpaggreg/sources/tradeoff.cpp:3-6 [computePIC]; [1-p] is computed in float, then widened. *)
Definition pic (q : quality) (p : par A) : num A :=
  n_sub A (n_mul A (p_num A p) (gain q)) (n_mul A (p_num A (p_compl A p)) (loss q)).

(** src/lpaggreg/sources/tradeoff.cpp:27-31 default constructor. *)
Definition t_zero : tradeoff := mkT q_zero (n_zero A).

(** src/lpaggreg/sources/tradeoff.cpp:9-13 [set] (and 45-49, the constructor with p). *)
Definition t_set (q : quality) (p : par A) : tradeoff := mkT (mkQ (gain q) (loss q)) (pic q p).

(** src/lpaggreg/sources/tradeoff.cpp:52-56 constructor from a quality only. *)
Definition t_ofQ (q : quality) : tradeoff := mkT (mkQ (gain q) (loss q)) (n_zero A).

(** src/lpaggreg/sources/tradeoff.cpp:59-84 compound operators. *)
Definition t_add (a b : tradeoff) : tradeoff := mkT (q_add (t_quality a) (t_quality b)) (n_add A (t_value a) (t_value b)).
Definition t_sub (a b : tradeoff) : tradeoff := mkT (q_sub (t_quality a) (t_quality b)) (n_sub A (t_value a) (t_value b)).
Definition t_mul (a b : tradeoff) : tradeoff := mkT (q_mul (t_quality a) (t_quality b)) (n_mul A (t_value a) (t_value b)).
Definition t_div (a b : tradeoff) : tradeoff := mkT (q_div (t_quality a) (t_quality b)) (n_div A (t_value a) (t_value b)).

(** src/lpaggreg/sources/tradeoff.cpp:87-124 binary operators: a fresh zero Quality, [+=] the first operand's, then the
    operator with the second's. (The source defines them in the global namespace, not in [lpaggreg].) *)
Definition t_plus (a b : tradeoff) : tradeoff :=
  mkT (q_add (q_add q_zero (t_quality a)) (t_quality b)) (n_add A (t_value a) (t_value b)).
Definition t_minus (a b : tradeoff) : tradeoff :=
  mkT (q_sub (q_add q_zero (t_quality a)) (t_quality b)) (n_sub A (t_value a) (t_value b)).
Definition t_times (a b : tradeoff) : tradeoff :=
  mkT (q_mul (q_add q_zero (t_quality a)) (t_quality b)) (n_mul A (t_value a) (t_value b)).
Definition t_over (a b : tradeoff) : tradeoff :=
  mkT (q_div (q_add q_zero (t_quality a)) (t_quality b)) (n_div A (t_value a) (t_value b)).

(** src/lpaggreg/sources/tradeoff.cpp:127-137 [operator==], [operator!=]: values only. *)
Definition t_eqb (a b : tradeoff) : bool := n_eqb A (t_value a) (t_value b).
Definition t_neb (a b : tradeoff) : bool := negb (t_eqb a b).

(** src/lpaggreg/sources/tradeoff.cpp:140-146 [operator>]. *)
Definition t_gtb (a b : tradeoff) : bool :=
  n_ltb A (t_value b) (t_value a)
  || (n_eqb A (t_value a) (t_value b)
      && (n_ltb A (gain (t_quality b)) (gain (t_quality a))
          || (n_eqb A (gain (t_quality a)) (gain (t_quality b))
              && n_ltb A (loss (t_quality a)) (loss (t_quality b))))).

(** src/lpaggreg/sources/tradeoff.cpp:149-164 [operator<=], [operator<], [operator>=]. *)
Definition t_leb (a b : tradeoff) : bool := negb (t_gtb a b).
Definition t_ltb (a b : tradeoff) : bool := negb (t_gtb a b || t_eqb a b).
Definition t_geb (a b : tradeoff) : bool := negb (t_ltb a b).

End M.

Arguments gain {A} q.
Arguments loss {A} q.
Arguments mkQ {A} gain loss.
Arguments t_quality {A} t.
Arguments t_value {A} t.
Arguments mkT {A} t_quality t_value.
