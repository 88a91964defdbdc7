(** What C104 says *)
From Verif Require Import Base GramModel MeshDofsModel MeshDofsSpec GramSpec PresModel.
From Coq Require Import Reals.
Local Open Scope R_scope.

Definition sum (l : list R) : R := fold_right Rplus 0 l.
(** the fine dofs of coarse edge ce: those of the fine edges that become it *)
Definition facet_dofs (S : setting) (cntf : nat -> nat) (ce : nat) : list nat := flat_map (fun fe => map (fun l => (dofs_before cntf fe + l)%nat) (seq 0 (cntf fe))) (nth ce (c2f S) []).
(** the size of a vector on a list of dofs *)
Definition size_on (ds : list nat) (x : nat -> R) : R := sqrt (sum (map (fun d => x d * x d) ds)).
(** a row of the prolongation (columns, values) times a coarse vector *)
Definition apply_row (row : list nat * list R) (x : nat -> R) : R := sum (map (fun cv => snd cv * x (fst cv)) (combine (fst row) (snd row))).
Definition prolongate (prol : list (list nat * list R)) (x : nat -> R) (d : nat) : R := apply_row (nth d prol ([], [])) x.
Definition unit_vec (c c' : nat) : R := if (c' =? c)%nat then 1 else 0.
(** -1 if fine edge fe and coarse edge ce do not start in the same coarse vertex *)
Definition orient (S : setting) (ce fe : nat) : R := if (nth (fst (nth fe (f_edges S) (0, 0)%nat)) (v_map S) (-1) =? Z.of_nat (fst (nth ce (c_edges S) (0, 0)%nat)))%Z then 1 else -1.
Definition flow_of (S : setting) (fe : nat) : R := nth fe (f_flow S) 0.
Definition facet (S : setting) (ce : nat) : Prop := (ce < length (c2f S))%nat /\ nth ce (dofed S) false = true.

(** a mesh with nf fine edges, cntf e dofs on edge e, whose fine edges become at most one coarse edge; the coarse edges with dofs come from fine edges with dofs, not all of flow 0 *)
Definition setting_ok (S : setting) (nf : nat) (cntf : nat -> nat) : Prop :=
  numbered nf cntf (f_off S) /\ (forall v, In v (pres S) -> length v = dofs_before cntf nf) /\
  length (dofed S) = length (c2f S) /\ length (c_edges S) = length (c2f S) /\ length (f_edges S) = nf /\ length (f_flow S) = nf /\
  NoDup (concat (c2f S)) /\
  (forall ce fe, In fe (nth ce (c2f S) []) -> (fe < nf)%nat /\ (fst (nth fe (f_edges S) (0, 0)%nat) < length (v_map S))%nat) /\
  (forall ce fe, facet S ce -> In fe (nth ce (c2f S) []) -> (0 < cntf fe)%nat) /\
  (forall ce, facet S ce -> exists fe, In fe (nth ce (c2f S) []) /\ flow_of S fe <> 0).
