(** What C106 says *)
From Verif Require Import Base FauxModel.
Local Open Scope nat_scope.

(** a mesh of a rank that fits together *)
Record rank_ok (R : frank) : Prop := {
  ro_gel : length (fr_gel R) = length (fr_els R); ro_gpsn : length (fr_gpsn R) = fr_npsn R; ro_gfac : length (fr_gfac R) = fr_nfac R;
  ro_psn : forall e j, In e (fr_els R) -> In j (fe_psn e) -> j < fr_npsn R;
  ro_fac : forall e j, In e (fr_els R) -> In j (fe_fac e) -> j < fr_nfac R }.
(** element [k], or potential-space node, facet [k] of an element, of a rank, where the space is defined on the element *)
Definition own_el (R : frank) (k : nat) : Prop := exists e, nth_error (fr_els R) k = Some e /\ fe_def e = true.
Definition own_psn (R : frank) (k : nat) : Prop := exists e, In e (fr_els R) /\ fe_def e = true /\ In k (fe_psn e).
Definition own_fac (R : frank) (k : nat) : Prop := exists e, In e (fr_els R) /\ fe_def e = true /\ In k (fe_fac e).
(** node [k] of rank [R] is node [k'] of some rank on which it is a node of an element with the space defined; [ids] = the global numbers *)
Definition relevant (own : frank -> nat -> Prop) (ids : frank -> list nat) (Rs : list frank) (R : frank) (k : nat) : Prop :=
  exists R' k', In R' Rs /\ own R' k' /\ nth k' (ids R') 0 = nth k (ids R) 0.
(** the relevant ones of [n] nodes are numbered 0, 1, ... in increasing order; [a2r], [r2a] translate; the others have number -1 *)
Record numbering (n : nat) (rel : nat -> Prop) (cnt : nat) (a2r : nat -> res Z) (r2a : nat -> res nat) : Prop := {
  nu_back : forall i, i < cnt -> exists k, r2a i = Ret k /\ k < n /\ rel k /\ a2r k = Ret (Z.of_nat i);
  nu_there : forall k, k < n -> rel k -> exists i, i < cnt /\ a2r k = Ret (Z.of_nat i) /\ r2a i = Ret k;
  nu_not : forall k, k < n -> rel k \/ (~ rel k /\ a2r k = Ret (-1)%Z);
  nu_order : forall i i' k k', i < i' -> i' < cnt -> r2a i = Ret k -> r2a i' = Ret k' -> k < k' }.
