(** Specification vocabulary for multigrid cycles (textbook form), independent of the model of AMGMatrix. *)
From Verif Require Import Base AGroup LinAlg LinTools GSSpec.

Section Spec.
  Context {B : Blk}.
  Local Notation vec := (list (X B)).

  (** one non-coarsest level: size, matrix, pre-smoothing correction C, post-smoothing correction C',
      restriction R to the next coarser level, prolongation P from it *)
  Record slevel := mkSL { sl_n : nat; sl_A : vec -> vec; sl_C : vec -> vec; sl_C' : vec -> vec;
                          sl_R : vec -> vec; sl_P : vec -> vec }.
  (** one smoothing step x <- x + C (b - A x) *)
  Definition step (A C : vec -> vec) (x b : vec) : vec := x +v C (b -v A x).

  Section Cycles.
    Variable nc : nat.
    Variable c : vec -> vec.
    (** size of the finest level of a list of levels *)
    Definition topsize (ls : list slevel) : nat := match ls with [] => nc | l :: _ => sl_n l end.

    (** textbook V-cycle with start value x (the coarsest level is just solved) *)
    Fixpoint vcycle (ls : list slevel) (x b : vec) : vec :=
      match ls with
      | [] => c b
      | l :: t =>
          let x1 := step (sl_A l) (sl_C l) x b in
          let x2 := x1 +v sl_P l (vcycle t (vzero (topsize t)) (sl_R l (b -v sl_A l x1))) in
          step (sl_A l) (sl_C' l) x2 b
      end.
    (** textbook W-cycle: two recursive calls with a post- and a pre-smoothing step in between *)
    Fixpoint wcycle (ls : list slevel) (x b : vec) : vec :=
      match ls with
      | [] => c b
      | l :: t =>
          let x1 := step (sl_A l) (sl_C l) x b in
          let x2 := x1 +v sl_P l (wcycle t (vzero (topsize t)) (sl_R l (b -v sl_A l x1))) in
          let x3 := step (sl_A l) (sl_C' l) x2 b in
          let x4 := step (sl_A l) (sl_C l) x3 b in
          let x5 := x4 +v sl_P l (wcycle t (vzero (topsize t)) (sl_R l (b -v sl_A l x4))) in
          step (sl_A l) (sl_C' l) x5 b
      end.
    (** "big smoother" cycle: a V-cycle from this level is used as pre- and post-smoother *)
    Fixpoint bscycle (ls : list slevel) (x b : vec) : vec :=
      match ls with
      | [] => c b
      | l :: t =>
          let x1 := vcycle ls x b in
          let x2 := x1 +v sl_P l (bscycle t (vzero (topsize t)) (sl_R l (b -v sl_A l x1))) in
          vcycle ls x2 b
      end.
    (** restrict to the coarsest level, solve there, prolongate back *)
    Fixpoint coarse_only (ls : list slevel) (b : vec) : vec :=
      match ls with
      | [] => c b
      | l :: t => sl_P l (coarse_only t (sl_R l b))
      end.

    (** all maps are linear between spaces of the right sizes *)
    Fixpoint linear_levels (ls : list slevel) : Prop :=
      match ls with
      | [] => lin nc nc c
      | l :: t => lin (sl_n l) (sl_n l) (sl_A l) /\ lin (sl_n l) (sl_n l) (sl_C l) /\ lin (sl_n l) (sl_n l) (sl_C' l) /\
                  lin (sl_n l) (topsize t) (sl_R l) /\ lin (topsize t) (sl_n l) (sl_P l) /\ linear_levels t
      end.
    (** symmetric matrices, R = P^T, post-smoothing adjoint to pre-smoothing, symmetric coarse solve *)
    Fixpoint symmetric_levels (ls : list slevel) : Prop :=
      match ls with
      | [] => adj nc nc c c
      | l :: t => adj (sl_n l) (sl_n l) (sl_A l) (sl_A l) /\ adj (sl_n l) (sl_n l) (sl_C l) (sl_C' l) /\
                  adj (sl_n l) (topsize t) (sl_R l) (sl_P l) /\ symmetric_levels t
      end.
    (** Galerkin hierarchy ([Ac]: matrix of the coarsest level): R A P is the matrix of the next level *)
    Definition topmat (Ac : vec -> vec) (ls : list slevel) : vec -> vec :=
      match ls with [] => Ac | l :: _ => sl_A l end.
    Fixpoint galerkin_levels (Ac : vec -> vec) (ls : list slevel) : Prop :=
      match ls with
      | [] => True
      | l :: t => (forall y, length y = topsize t -> sl_R l (sl_A l (sl_P l y)) = topmat Ac t y) /\ galerkin_levels Ac t
      end.
    (** no smoother increases the energy J_l(x) = <A_l x,x> - 2<b,x> of its level *)
    Definition no_increase (le : K B -> K B -> Prop) (n : nat) (A C : vec -> vec) : Prop :=
      forall x b, length x = n -> length b = n -> le (energy A b (step A C x b)) (energy A b x).
    Fixpoint smoothers_no_increase (le : K B -> K B -> Prop) (ls : list slevel) : Prop :=
      match ls with
      | [] => True
      | l :: t => no_increase le (sl_n l) (sl_A l) (sl_C l) /\ no_increase le (sl_n l) (sl_A l) (sl_C' l) /\
                  smoothers_no_increase le t
      end.
  End Cycles.
End Spec.
Arguments slevel B : clear implicits.
