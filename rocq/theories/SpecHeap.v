(** * Specification vocabulary for the pointer-level model (no proofs). *)
From Verif Require Import Base Arith Quality Utm Hierarchy Partitions TradeoffHeap.

(** Two calls behave alike: both return, with results related by [R], or both fail in the same way. *)
Definition rsim {X Y : Type} (R : X -> Y -> Prop) (x : res X) (y : res Y) : Prop :=
  match x, y with
  | Ok a, Ok b => R a b
  | UB, UB => True
  | OutOfFuel, OutOfFuel => True
  | _, _ => False
  end.

(** Matrices of the same size with related cells. *)
Definition urel {X Y : Type} (R : X -> Y -> Prop) (u : utm X) (v : utm Y) : Prop :=
  u_size u = u_size v /\ u_elements u = u_elements v /\ Forall2 R (u_data u) (u_data v).

Section S.
Context (A : arith).

(** The Quality object at address [a] has the contents [q]. *)
Definition points (hp : heap A) (a : Z) (q : quality A) : Prop := vget hp a = Ok q.

(** No Quality object that exists in [hp] has changed. *)
Definition untouched (hp hp' : heap A) : Prop := forall a q, points hp a q -> points hp' a q.

(** A partition returned by the pointer-level code, seen from heap [hp], against the value-level partition with choices
    [c], parameter [p], parts [keys] and total [tot]; [look k] is the quality the table now holds for the part [k]. *)
Definition shows {C K : Type} (hp : heap A) (y : hpn A C K) (c : C) (p : par A) (keys : list K) (tot : quality A) (look : K -> res (quality A)) : Prop :=
  pn_choice y = c /\ pn_par y = p /\ map fst (pn_parts y) = keys /\ points hp (pn_qual y) tot /\
  forall k a, In (k, a) (pn_parts y) -> exists q, points hp a q /\ look k = Ok q.

(** Log entries of a session (Session.v): the partition was obtained from table number [fst e]; [tabs] are the value-level
    tables as they are at the end of the session, and [snd e'] is the partition as computed at the time of the call. *)
Definition o_reports (hp : heap A) (tabs : list (utm (quality A))) (e : Z * hpn A (list Z) (Z * Z)) (e' : Z * opartition A) : Prop :=
  fst e = fst e' /\ exists t, vget tabs (fst e) = Ok t /\
  shows hp (snd e) (on_cuts (snd e')) (on_param (snd e')) (map (fun x => (op_start x, op_end x)) (on_parts (snd e'))) (on_quality (snd e'))
        (fun k => u_get t (fst k) (snd k)).
Definition h_reports (hp : heap A) (tabs : list (list (quality A))) (e : Z * hpn A (list bool) (Z * Z)) (e' : Z * hpartition A) : Prop :=
  fst e = fst e' /\ exists t, vget tabs (fst e) = Ok t /\
  shows hp (snd e) (hn_agg (snd e')) (hn_param (snd e')) (map (fun x => (hp_h x, hp_size x)) (hn_parts (snd e'))) (hn_quality (snd e'))
        (fun k => vget t (fst k)).
Definition d_reports (hp : heap A) (tabs : list (list (utm (quality A)))) (e : Z * hpn A (list (utm Z)) (Z * Z * (Z * Z))) (e' : Z * dpartition A) : Prop :=
  fst e = fst e' /\ exists t, vget tabs (fst e) = Ok t /\
  shows hp (snd e) (dn_cuts (snd e')) (dn_param (snd e'))
        (map (fun x => (dp_h x, dp_hsize x, (dp_start x, dp_end x))) (dn_parts (snd e'))) (dn_quality (snd e'))
        (fun k => mm_get t (fst (fst k)) (fst (snd k)) (snd (snd k))).
End S.
