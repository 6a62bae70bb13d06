(** * The parameter search with a counter of computeBestPartition calls.

    The same lines as Search.v; the extra component counts how often [best] (computeBestPartition) is called. *)
From Verif Require Import Base Arith Quality Utm Hierarchy Partitions Partitioners Search.

Section M.
Context (A : arith).
Notation par := (par A).
Notation quality := (quality A).
Section Generic.
Context {Pn Tu : Type}.
Context (best : par -> res Pn) (pn_param : Pn -> par) (pn_eqb : Pn -> Pn -> bool)
        (pn_quality : Pn -> quality) (pn_tuples : Pn -> list Tu).

(** One call (src/lpaggreg/sources/opartitioner.cpp:21, 24, 73; src/lpaggreg/sources/hpartitioner.cpp:22, 25, 94; src/lpaggreg/sources/dpartitioner.cpp:21, 24, 109): the counter grows by one. *)
Definition called (p : par) (n : Z) : res (Pn * Z) := let* x := best p in Ok (x, n + 1).

(** src/lpaggreg/sources/opartitioner.cpp:68-79, src/lpaggreg/sources/hpartitioner.cpp:89-100, src/lpaggreg/sources/dpartitioner.cpp:104-115 [addBestQualities]. *)
Fixpoint s_addc (fuel : nat) (th : par) (a b : Pn) (st : list par * list (par * Pn)) (n : Z) : res ((list par * list (par * Pn)) * Z) :=
  match fuel with
  | O => OutOfFuel
  | S fuel' =>
      if negb (pn_eqb a b) && s_wide A th (pn_param a) (pn_param b) then
        let x := s_mid A (pn_param a) (pn_param b) in
        let* cn := called x n in
        let '(c, n) := cn in
        let* r := s_addc fuel' th a c st n in
        let '((l, ps), n) := r in
        s_addc fuel' th c b (l ++ [x], fmap_set A ps x c) n
      else Ok (st, n)
  end.

(** src/lpaggreg/sources/opartitioner.cpp:13-42, src/lpaggreg/sources/hpartitioner.cpp:14-43, src/lpaggreg/sources/dpartitioner.cpp:13-42 [computeBestPartitions]. *)
Definition s_searchc (strict : bool) (fuel : nat) (prev : pstate A (Pn := Pn) (Tu := Tu)) (th mn mx : par) : res (pstate A (Pn := Pn) (Tu := Tu) * Z) :=
  let l := cleared (ps_list prev) in
  let ps := cleared (ps_parts prev) in
  let ts := cleared (ps_tuples prev) in
  let qs := cleared (ps_qual prev) in
  let* an := called mn 0 in
  let '(a, n) := an in
  let l := l ++ [mn] in
  let ps := fmap_set A ps mn a in
  let* bn := called mx n in
  let '(b, n) := bn in
  let* r := s_addc fuel th a b (l, ps) n in
  let '((l, ps), n) := r in
  let* st := s_dedup A pn_eqb strict (l ++ [mx], fmap_set A ps mx b) in
  let '(l, ps) := st in
  Ok (mkPS A l ps (s_tuples A pn_tuples ps ts) (s_quals A pn_quality ps qs), n).
End Generic.

Definition o_searchc strict fuel (t : utm quality) prev th mn mx :=
  s_searchc (Tu := (Z * Z * num A * num A)%type) (o_best A t) on_param (on_eqb A) on_quality (o_tuples A) strict fuel prev th mn mx.
Definition h_searchc strict fuel (t : list quality) (m : meta) prev th mn mx :=
  s_searchc (Tu := (Z * Z * num A * num A)%type) (h_best A t m) hn_param (hn_eqb A) hn_quality (h_tuples A) strict fuel prev th mn mx.
Definition d_searchc strict fuel (t : list (utm quality)) (m : meta) prev th mn mx :=
  s_searchc (Tu := (Z * Z * Z * Z * num A * num A)%type) (d_best A t m) dn_param (dn_eqb A) dn_quality (d_tuples A) strict fuel prev th mn mx.
End M.
