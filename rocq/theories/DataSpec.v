(** Specification for C99-C101: data attached to the nodes of a distributed mesh. *)
From Verif Require Import Base EQCModel EQCProps GCModel GCProps GEModel GESpec GECheck.
Local Open Scope nat_scope.

Definition sumZ (l : list Z) : Z := fold_right Z.add 0%Z l.
(** class 0 of every rank is the local one *)
Definition local_first (H : list (list (list nat))) : Prop := forall r, r < length H -> nth 0 (nth r H []) [] = [].
(** tables of nodes of all ranks by class: [n] r = number of nodes of rank [r], each in exactly one class; a class has the same number of nodes on all its ranks.
    [at_vertex], [same_vertex] of GESpec.v are used for all kinds of nodes *)
Record node_tables (H T : list (list (list nat))) (n : nat -> nat) : Prop := {
  nt_all : length T = length H;
  nt_rows : forall r, r < length H -> length (nth r T []) = length (nth r H []);
  nt_numbers : forall r, r < length H -> Permutation (concat (nth r T [])) (seq 0 (n r));
  nt_same : forall r r' j j', r < length H -> r' < length H -> j < length (nth r H []) -> j' < length (nth r' H []) -> same_class r (row H r j) r' (row H r' j') -> length (row T r j) = length (row T r' j') }.
(** value of node [v] of rank [r] *)
Definition val (data : list (list Z)) (r v : nat) : Z := nth v (nth r data []) 0%Z.
Definition size (data : list (list Z)) (r : nat) : nat := length (nth r data []).
Definition values_agree (H T : list (list (list nat))) (data : list (list Z)) : Prop :=
  forall r v r' v', r < length H -> r' < length H -> same_vertex H T r v r' v' -> val data r v = val data r' v'.
(** sum over all ranks of the values of the node that is [v] on rank [r] ([same_vertex_b] decides [same_vertex], GECheck.v, DataProofs.v) *)
Definition total (H T : list (list (list nat))) (data : list (list Z)) (r v : nat) : Z :=
  sumZ (map (fun r' => sumZ (map (fun v' => if same_vertex_b H T r v r' v' then val data r' v' else 0%Z) (seq 0 (size data r')))) (seq 0 (length H))).
(** numbers of the nodes of all ranks by class: nodes, then cross nodes *)
Definition numbers (H E X : list (list (list nat))) : list (list (list nat)) :=
  map (fun r => map (fun k => nth k (nth r E []) [] ++ nth k (nth r X []) []) (seq 0 (length (nth r H [])))) (seq 0 (length H)).
(** one value per node *)
Definition sizes_fit (H : list (list (list nat))) (n : nat -> nat) (data : list (list Z)) : Prop := length data = length H /\ forall r, r < length H -> size data r = n r.
(** no lower rank has the node *)
Definition lowest (H T : list (list (list nat))) (r v : nat) : Prop := forall q v', q < length H -> same_vertex H T r v q v' -> r <= q.
