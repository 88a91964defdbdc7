(** Specification vocabulary for sparse matrices (independent of the kernels). *)
From Verif Require Import Base SparseModel.

(** commutative monoid of entries *)
Record CMon {E : Type} (e0 : E) (eadd : E -> E -> E) : Prop := mkCMon {
  cm_0 : forall a, eadd e0 a = a; cm_comm : forall a b, eadd a b = eadd b a;
  cm_assoc : forall a b c, eadd a (eadd b c) = eadd (eadd a b) c }.
(** product of entries, additive in both arguments *)
Record Bilin {EA EB EC : Type} (a0 : EA) (aadd : EA -> EA -> EA) (b0 : EB) (badd : EB -> EB -> EB)
  (c0 : EC) (cadd : EC -> EC -> EC) (mul : EA -> EB -> EC) : Prop := mkBilin {
  bl_0l : forall b, mul a0 b = c0; bl_0r : forall a, mul a b0 = c0;
  bl_l : forall a a' b, mul (aadd a a') b = cadd (mul a b) (mul a' b);
  bl_r : forall a b b', mul a (badd b b') = cadd (mul a b) (mul a b') }.
Section Entries.
  Context {E : Type} (e0 : E) (eadd : E -> E -> E).
  (** entry (i,j): sum of the values stored in row i for column j, zero if there is none *)
  Definition rent (r : srow E) (j : nat) : E := fold_right (fun p s => if fst p =? j then eadd (snd p) s else s) e0 r.
  Definition sent (A : smat E) (i j : nat) : E := rent (nth i A []) j.
  (** sum_{k<n} f k *)
  Fixpoint sumN (n : nat) (f : nat -> E) : E := match n with 0 => e0 | S m => eadd (sumN m f) (f m) end.
End Entries.
(** all stored columns are below w *)
Definition width_ok {E} (w : nat) (A : smat E) : Prop := forall r p, In r A -> In p r -> fst p < w.
(** what a merge of column arrays must do for columns below w: strictly ascending union of strictly ascending inputs *)
Definition merge_spec (w : nat) (merge : list (list nat) -> res (list nat)) : Prop :=
  forall rows, (forall r, In r rows -> StronglySorted lt r) -> (forall r c, In r rows -> In c r -> c < w) ->
  exists out, merge rows = Ret out /\ StronglySorted lt out /\ (forall c, In c out <-> exists r, In r rows /\ In c r).
