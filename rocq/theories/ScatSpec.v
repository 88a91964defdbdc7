(** What C105 says; node_tables, numbers, values_agree, lowest: DataSpec.v; same_vertex: GESpec.v *)
From Verif Require Import Base EQCModel EQCProps GCModel GCProps GEModel GESpec GECheck DataSpec.
Local Open Scope nat_scope.

(** numbers of nodes [EN] and cross nodes [CN] of all classes of all ranks: a class has the same numbers on all its ranks *)
Record counts_fit (H : list (list (list nat))) (EN CN : list (list nat)) : Prop := {
  cf_rows : forall r, r < length H -> length (nth r EN []) = length (nth r H []) /\ length (nth r CN []) = length (nth r H []);
  cf_same : forall r r' j j', r < length H -> r' < length H -> j < length (nth r H []) -> j' < length (nth r' H []) -> same_class r (row H r j) r' (row H r' j') ->
    nth j (nth r EN []) 0 = nth j' (nth r' EN []) 0 /\ nth j (nth r CN []) 0 = nth j' (nth r' CN []) 0 }.
(** consecutive numbers from [s] on, [counts] k of them in class k *)
Definition consecutive (s : nat) (counts : list nat) : list (list nat) := map (fun k => seq (s + list_sum (firstn k counts)) (nth k counts 0)) (seq 0 (length counts)).
(** nodes are numbered class by class, then the cross nodes class by class *)
Definition layout (H : list (list (list nat))) (EN CN : list (list nat)) : list (list (list nat)) :=
  numbers H (map (fun r => consecutive 0 (nth r EN [])) (seq 0 (length H))) (map (fun r => consecutive (list_sum (nth r EN [])) (nth r CN [])) (seq 0 (length H))).
Definition all_nodes (EN CN : list (list nat)) (r : nat) : nat := list_sum (nth r EN []) + list_sum (nth r CN []).
