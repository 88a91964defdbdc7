(** Vocabulary for the statements about loops; independent of the model. *)
From Verif Require Import Base.
Import ListNotations.

(** members with two ends: [l] runs head to tail from [s] to [e] *)
Fixpoint trail {T P : Type} (src dst : T -> P) (s : P) (l : list T) (e : P) : Prop :=
  match l with
  | [] => s = e
  | x :: l' => src x = s /\ trail src dst (dst x) l' e
  end.
(** how often the members of [l] touch the vertex [v] *)
Definition touches {T P : Type} (eqb : P -> P -> bool) (src dst : T -> P) (l : list T) (v : P) : nat :=
  length (filter (fun x => eqb (src x) v) l) + length (filter (fun x => eqb (dst x) v) l).

(** the directed edges a vertex list runs through *)
Definition steps {A} (l : list A) : list (A * A) := combine l (tl l).
Definition proper {A} (eqb : A -> A -> bool) (es : list (A * A)) : list (A * A) := filter (fun e => negb (eqb (fst e) (snd e))) es.
(** as many edges leave [v] as enter it: the flow along the edges has no divergence *)
Definition balanced {A} (eqb : A -> A -> bool) (es : list (A * A)) : Prop :=
  forall v, length (filter (fun e => eqb (fst e) v) es) = length (filter (fun e => eqb (snd e) v) es).
(** [A; ...; A] without any other repetition *)
Definition simple_cycle {A} (l : list A) : Prop :=
  exists a m, l = a :: m ++ [a] /\ m <> [] /\ NoDup (m ++ [a]).
(** [l'] has the members of [l] in another order, some of them turned around *)
Definition reordered {T} (flip : T -> T) (l l' : list T) : Prop :=
  exists l0, Permutation l0 l /\ Forall2 (fun a b => b = a \/ b = flip a) l0 l'.
(** no vertex set separates the members of [l] *)
Definition one_piece {T P : Type} (src dst : T -> P) (l : list T) : Prop :=
  forall f : P -> bool, (forall x, In x l -> f (src x) = f (dst x)) -> forall x y, In x l -> In y l -> f (src x) = f (src y).
Definition closed_trail {T P : Type} (src dst : T -> P) (l : list T) : Prop := l <> [] /\ exists s, trail src dst s l s.
