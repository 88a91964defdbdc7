(** Independent description of the edge connectivity and of the auxiliary matrix (C74). *)
From Verif Require Import Base LinAlg.
Local Open Scope nat_scope.

(** what QuickSort by the first component does *)
Definition sortn_ok (sortn : list (nat * nat) -> list (nat * nat)) : Prop :=
  forall l, Permutation l (sortn l) /\ StronglySorted (fun a b => fst a <= fst b) (sortn l).

(** edge number e joins v and w *)
Definition joins (edges : list (nat * nat)) (e v w : nat) : Prop :=
  nth_error edges e = Some (v, w) \/ nth_error edges e = Some (w, v).
(** the edges join two different vertices, and no two edges the same ones *)
Definition simple_mesh (NV : nat) (edges : list (nat * nat)) : Prop :=
  (forall a b, In (a, b) edges -> a < NV /\ b < NV /\ a <> b) /\
  (forall e e' v w, joins edges e v w -> joins edges e' v w -> e = e').

(** rows of an edge connectivity matrix: ascending neighbours with the numbers of the joining edges *)
Definition connectivity (NV : nat) (edges : list (nat * nat)) (econ : list (list (nat * nat))) : Prop :=
  length econ = NV /\
  (forall v, v < NV -> StronglySorted lt (map fst (nth v econ []))) /\
  (forall v w e, v < NV -> In (w, e) (nth v econ []) <-> joins edges e v w).

(** the nodes of the classes the process is master of, given as (master?, nodes) *)
Definition mastered (eqcs : list (bool * list nat)) : list nat := concat (map snd (filter fst eqcs)).
(** all nodes of the classes exist *)
Definition classes_in (n : nat) (eqcs : list (bool * list nat)) : Prop := forall q v, In q eqcs -> In v (snd q) -> v < n.

Section Spec.
  Context {B : Blk}.
  Local Notation M := (M B). Local Notation K := (K B). Local Notation X := (X B).
  Definition xsumf {A} (f : A -> X) (l : list A) : X := fold_right (fun a s => xadd (f a) s) x0 l.
  Definition ksumf {A} (f : A -> K) (l : list A) : K := fold_right (fun a s => kadd (f a) s) k0 l.

  (** [blk e i j]: the 2x2 block matrix of edge e, rows and columns in the order of its ends. *)
  Variable blk : nat -> nat -> nat -> M.
  Variable edges : list (nat * nat).
  (** component V of the edge matrix of e, applied to u *)
  Definition edge_action (u : list X) (V e : nat) : X :=
    match nth_error edges e with
    | None => x0
    | Some (a, b) =>
        if V =? a then xadd (act (blk e 0 0) (ent u a)) (act (blk e 0 1) (ent u b))
        else if V =? b then xadd (act (blk e 1 0) (ent u a)) (act (blk e 1 1) (ent u b)) else x0
    end.
  (** u^T (edge matrix) u *)
  Definition edge_energy (u : list X) (e : nat) : K :=
    match nth_error edges e with
    | None => k0
    | Some (a, b) => kadd (dot (edge_action u a e) (ent u a)) (dot (edge_action u b e) (ent u b))
    end.
  (** the edges of a list without an excluded end *)
  Definition not_excluded (excl : option (nat -> bool)) (e : nat) : bool :=
    match excl with
    | None => true
    | Some ex => match nth_error edges e with None => true | Some (a, b) => negb (ex a) && negb (ex b) end
    end.
End Spec.
