(** Vocabulary for the statements about coarse loops; independent of the model's functions. *)
From Verif Require Import Base LoopModel LoopSpec LoopProps.
Import ListNotations.

(** how often the edge a -> b is run through, runs b -> a counted negatively: the flow of an edge list *)
Definition runs (es : list edge4) (a b : pt) : nat := length (filter (fun e => pteqb (fst e) a && pteqb (snd e) b) es).
Definition net (es : list edge4) (a b : pt) : Z := (Z.of_nat (runs es a b) - Z.of_nat (runs es b a))%Z.
(** the flow of a sum of vertex loops with the given coefficients *)
Fixpoint loop_sum (ss : list Z) (ls : list (list pt)) (a b : pt) : Z :=
  match ss, ls with s :: ss', l :: ls' => (s * net (steps l) a b + loop_sum ss' ls' a b)%Z | _, _ => 0%Z end.
(** a coarse loop: a simple cycle with at least three edges that starts at its smallest vertex *)
Definition coarse_loop (l : list pt) : Prop := simple_cycle l /\ (4 <= length l)%nat /\ forall v, In v l -> ptltb v (hd (0, 0)%Z l) = false.
