(** * Specification of the parameter search, independent of its code. *)
From Coq Require Import Sorting.Sorted.
From Verif Require Import Base Arith.

(** [x] is directly followed by [y] in [l]. *)
Definition neighbours {X : Type} (l : list X) (x y : X) : Prop := exists l1 l2, l = l1 ++ x :: y :: l2.

Section S.
Context (A : arith).
Notation par := (par A).
Definition plt (a b : par) : Prop := p_ltb A a b = true.

(** On the parameters satisfying [D], [<] is a strict order and, as long as [b-a > th], the midpoint
    [a+(b-a)/2] is such a parameter strictly between [a] and [b]. *)
Record bisectable (D : par -> Prop) (th : par) : Prop := mkBis {
  bis_irr : forall a, D a -> ~ plt a a;
  bis_trans : forall a b c, D a -> D b -> D c -> plt a b -> plt b c -> plt a c;
  bis_mid : forall a b, D a -> D b -> plt a b -> plt th (p_sub A b a) ->
    let m := p_add A a (p_half A (p_sub A b a)) in D m /\ plt a m /\ plt m b }.

Section G.
Context {Pn : Type} (best : par -> res Pn) (eqb : Pn -> Pn -> bool).

(** [bisect th a b l]: bisecting [a,b] down to the threshold evaluates exactly the parameters [l], in order. *)
Inductive bisect (th : par) : par -> par -> list par -> Prop :=
| bis_same : forall a b x y, best a = Ok x -> best b = Ok y -> eqb x y = true -> bisect th a b []
| bis_near : forall a b x y, best a = Ok x -> best b = Ok y -> ~ plt th (p_sub A b a) -> bisect th a b []
| bis_split : forall a b x y l1 l2, best a = Ok x -> best b = Ok y -> eqb x y = false ->
    plt th (p_sub A b a) ->
    bisect th a (p_add A a (p_half A (p_sub A b a))) l1 ->
    bisect th (p_add A a (p_half A (p_sub A b a))) b l2 ->
    bisect th a b (l1 ++ p_add A a (p_half A (p_sub A b a)) :: l2).

(** [changes p l r]: going through the parameters [l] from [p] on, [r] are those whose partition differs from that of the
    parameter just before. *)
Inductive changes : par -> list par -> list par -> Prop :=
| ch_nil : forall p, changes p [] []
| ch_same : forall p q l r x y, best p = Ok x -> best q = Ok y -> eqb y x = true -> changes q l r -> changes p (q :: l) r
| ch_diff : forall p q l r x y, best p = Ok x -> best q = Ok y -> eqb y x = false -> changes q l r -> changes p (q :: l) (q :: r).

(** The listed parameters increase strictly and start with [mn]; the maps have exactly these keys; under each
    parameter [p] one finds what computeBestPartition(p) returns, and its quality. *)
Definition results_agree {Q : Type} (qual : Pn -> Q) (mn mx : par)
  (plist : list par) (parts : list (par * Pn)) (quals : list (par * Q)) : Prop :=
  StronglySorted plt plist /\ hd_error plist = Some mn /\
  (forall p, In p plist -> p = mn \/ p = mx \/ plt mn p /\ plt p mx) /\
  map fst parts = plist /\ map fst quals = plist /\
  (forall p x, In (p, x) parts -> best p = Ok x) /\
  (forall p q, In (p, q) quals -> exists x, best p = Ok x /\ q = qual x).

End G.
End S.

(** The plane of (gain, loss): squared distance to the ideal point (1,0). *)
From Coq Require Import Reals.
Definition dist2 (g l : R) : R := ((g - 1) * (g - 1) + l * l)%R.

(** Area under the curve of the points (gain, loss), by trapezoids. *)
Fixpoint trapezoids (l : list (R * R)) : R :=
  match l with
  | (g0, l0) :: (((g1, l1) :: _) as r) => ((g1 - g0) * (l1 + l0) / 2 + trapezoids r)%R
  | _ => 0%R
  end.
