(** Specification for C97, C98: the edges of a distributed mesh. *)
From Verif Require Import Base EQCModel EQCProofs EQCProofs2 EQCProps GCModel GCProps GEModel.
Local Open Scope nat_scope.

Section Spec.
  (** classes and vertices of all ranks *)
  Variables (H V : list (list (list nat))).
  (** [v] is vertex [l] of class [j] of rank [r] *)
  Definition at_vertex (r v j l : nat) : Prop := j < length (nth r H []) /\ l < length (row V r j) /\ nth l (row V r j) 0 = v.
  (** vertex [v] of rank [r] is vertex [v'] of rank [r'] *)
  Definition same_vertex (r v r' v' : nat) : Prop := exists j j' l, at_vertex r v j l /\ at_vertex r' v' j' l /\ same_class r (row H r j) r' (row H r' j').
  (** an edge is (first vertex, second vertex, number) *)
  Definition same_ends (r r' : nat) (e e' : fedge) : Prop := same_vertex r (fst (fst e)) r' (fst (fst e')) /\ same_vertex r (snd (fst e)) r' (snd (fst e')).
  (** edges [EI], cross edges [EC] of all ranks by class *)
  Definition rank_edges (EI EC : list (list (list fedge))) (r : nat) : list fedge := concat (nth r EI []) ++ concat (nth r EC []).
  Record edge_tables (EI EC : list (list (list fedge))) : Prop := {
    et_all : length EI = length H /\ length EC = length H;
    et_rows : forall r, r < length H -> length (nth r EI []) = length (nth r H []) /\ length (nth r EC []) = length (nth r H []);
    (* numbered class by class, cross edges last *)
    et_numbers : forall r, r < length H -> map snd (rank_edges EI EC r) = seq 0 (length (rank_edges EI EC r));
    (* the first vertex is smaller; no two edges with the same vertices *)
    et_order : forall r e, r < length H -> In e (rank_edges EI EC r) -> fst (fst e) < snd (fst e);
    et_once : forall r, r < length H -> NoDup (map fst (rank_edges EI EC r));
    (* an edge of a class has both vertices in the class *)
    et_inner : forall r j e, r < length H -> j < length (nth r H []) -> In e (row EI r j) -> (exists l, at_vertex r (fst (fst e)) j l) /\ (exists l, at_vertex r (snd (fst e)) j l);
    (* a cross edge connects two classes; it belongs to the ranks that both of them have in common *)
    et_cross : forall r j e, r < length H -> j < length (nth r H []) -> In e (row EC r j) -> exists j0 l0 j1 l1, at_vertex r (fst (fst e)) j0 l0 /\ at_vertex r (snd (fst e)) j1 l1 /\ j0 <> j1 /\
      forall x, shares r (row H r j) x <-> shares r (row H r j0) x /\ shares r (row H r j1) x;
    (* all ranks of a class list the same edges in the same order *)
    et_same : forall r r' j j', r < length H -> r' < length H -> j < length (nth r H []) -> j' < length (nth r' H []) -> same_class r (row H r j) r' (row H r' j') ->
      Forall2 (same_ends r r') (row EI r j) (row EI r' j') /\ Forall2 (same_ends r r') (row EC r j) (row EC r' j') }.
End Spec.
(** two classes with a member in group [g]: the groups that meet both are the groups that meet a third class of [g] *)
Definition groups_closed (H : list (list (list nat))) (groups : list (list nat)) : Prop :=
  forall g k j k' j', g < length groups -> is_class H groups g k j -> is_class H groups g k' j' -> exists k2 j2, is_class H groups g k2 j2 /\
    forall q, q < length groups -> (meets groups q (rk groups g k2) (row H (rk groups g k2) j2) <-> meets groups q (rk groups g k) (row H (rk groups g k) j) /\ meets groups q (rk groups g k') (row H (rk groups g k') j')).
(** tables of the redistributed mesh of one group: vertices of a class, edges of a class, cross edges of a class *)
Definition new_verts (C : ceqch) (R : cverts) : list (list nat) := map (fun c => seq (nth c (v_dsp R) 0) (nth (c + 1) (v_dsp R) 0 - nth c (v_dsp R) 0)) (seq 0 (length (c_tab C))).
Definition edge_nr (E : cedges) (i : nat) : fedge := (match nth i (e_edges E) None with Some p => p | None => (0, 0) end, i).
Definition new_inner (C : ceqch) (E : cedges) : list (list fedge) := map (fun c => map (edge_nr E) (seq (nth c (e_ie E) 0) (nth (c + 1) (e_ie E) 0 - nth c (e_ie E) 0))) (seq 0 (length (c_tab C))).
Definition new_cross (C : ceqch) (E : cedges) : list (list fedge) := map (fun c => map (edge_nr E) (seq (last (e_ie E) 0 + nth c (e_ce E) 0) (nth (c + 1) (e_ce E) 0 - nth c (e_ce E) 0))) (seq 0 (length (c_tab C))).
