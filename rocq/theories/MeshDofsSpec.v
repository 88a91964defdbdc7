(** What C102 says, without the model's arrays *)
From Verif Require Import Base MeshDofsModel.
Local Open Scope nat_scope.

(** the number of dofs of edge e after the calls: SetNDOF sets it, AddDOF adds one; 0 before *)
Fixpoint count_from (calls : list call) (e c : nat) : nat :=
  match calls with
  | [] => c
  | AddDOF e' :: calls => count_from calls e (if e' =? e then S c else c)
  | SetNDOF e' k :: calls => count_from calls e (if e' =? e then k else c)
  end.
Definition count_of (calls : list call) (e : nat) : nat := count_from calls e 0.
Definition call_in (n : nat) (c : call) : Prop := match c with AddDOF e => e < n | SetNDOF e _ => e < n end.
(** the number of dofs of the edges 0 .. e-1 *)
Definition dofs_before (cnt : nat -> nat) (e : nat) : nat := list_sum (map cnt (seq 0 e)).
(** the n edges have cnt 0, cnt 1, .. dofs, numbered one edge after the other *)
Definition numbered (n : nat) (cnt : nat -> nat) (off : list nat) : Prop := length off = S n /\ forall e, e <= n -> nth e off 0 = dofs_before cnt e.
(** d is dof number l of edge e *)
Definition dof_of (n : nat) (cnt : nat -> nat) (e l d : nat) : Prop := e < n /\ l < cnt e /\ d = dofs_before cnt e + l.
