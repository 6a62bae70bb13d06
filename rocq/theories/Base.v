(** * Base: result monad, checked vectors, loops (no proofs here).

    Models the C++ runtime notions the code of /repo relies on:
    - [UB]         an out-of-range [vector::operator[]], a null dereference, the use of an
                   uninitialised variable or an integer division by zero;
    - [OutOfFuel]  a loop or a recursion that has not finished within the given fuel.
    C++ [int]/[unsigned] values are unbounded [Z] unless a definition says otherwise. *)
From Coq Require Export ZArith List Bool.
Export ListNotations.
#[global] Open Scope Z_scope.

Inductive res (X : Type) : Type :=
| Ok (x : X)
| UB
| OutOfFuel.
Arguments Ok {X} x.
Arguments UB {X}.
Arguments OutOfFuel {X}.

Definition bind {X Y : Type} (e : res X) (k : X -> res Y) : res Y :=
  match e with
  | Ok x => k x
  | UB => UB
  | OutOfFuel => OutOfFuel
  end.

Notation "'let*' x := e 'in' k" := (bind e (fun x => k))
  (at level 200, x pattern, e at level 100, k at level 200, right associativity).

(** [std::vector<T>::operator[](i)] read; out of range is undefined behaviour. *)
Definition vget {X : Type} (v : list X) (i : Z) : res X :=
  if i <? 0 then UB
  else match nth_error v (Z.to_nat i) with
       | Some x => Ok x
       | None => UB
       end.

Fixpoint upd {X : Type} (n : nat) (x : X) (v : list X) : list X :=
  match v, n with
  | [], _ => []
  | _ :: r, O => x :: r
  | y :: r, S n' => y :: upd n' x r
  end.

(** [v[i] = x]; out of range is undefined behaviour. *)
Definition vset {X : Type} (v : list X) (i : Z) (x : X) : res (list X) :=
  if (i <? 0) || (Z.of_nat (length v) <=? i) then UB
  else Ok (upd (Z.to_nat i) x v).

Definition vlen {X : Type} (v : list X) : Z := Z.of_nat (length v).

(** [vector<T>(n, x)]. *)
Definition vrep {X : Type} (n : Z) (x : X) : list X := repeat x (Z.to_nat n).

(** The integers [a, a+1, ..., b-1]. *)
Definition zrange (a b : Z) : list Z :=
  map (fun k => a + Z.of_nat k) (seq 0 (Z.to_nat (b - a))).

Fixpoint mfold {I S : Type} (f : I -> S -> res S) (l : list I) (s : S) : res S :=
  match l with
  | [] => Ok s
  | x :: r => let* s' := f x s in mfold f r s'
  end.

(** [for (i = a; i < b; i++) body]. *)
Definition for_up {S : Type} (a b : Z) (body : Z -> S -> res S) (s : S) : res S :=
  mfold body (zrange a b) s.

(** [for (i = a-1; i >= b; i--) body]. *)
Definition for_down {S : Type} (a b : Z) (body : Z -> S -> res S) (s : S) : res S :=
  mfold body (rev (zrange b a)) s.

(** Collects the results of [f] in order ([push_back] in a loop). *)
Fixpoint mmap {I Y : Type} (f : I -> res Y) (l : list I) : res (list Y) :=
  match l with
  | [] => Ok []
  | x :: r => let* y := f x in let* ys := mmap f r in Ok (y :: ys)
  end.

(** [std::map<int,int>]: association list (first binding wins; keys are unique by construction). *)
Fixpoint imap_get (m : list (Z * Z)) (k : Z) : option Z :=
  match m with
  | [] => None
  | (k', v) :: r => if k =? k' then Some v else imap_get r k
  end.

Fixpoint imap_set (m : list (Z * Z)) (k v : Z) : list (Z * Z) :=
  match m with
  | [] => [(k, v)]
  | (k', v') :: r => if k =? k' then (k', v) :: r else (k', v') :: imap_set r k v
  end.

(** [std::map<int,int>::operator[](k)] as a read: a missing key yields the default value 0. *)
Definition imap_at (m : list (Z * Z)) (k : Z) : Z :=
  match imap_get m k with Some v => v | None => 0 end.
