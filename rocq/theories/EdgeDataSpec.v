(** Specification for C101: data of the edges of a distributed mesh. *)
From Verif Require Import Base EQCModel EQCProps GCModel GCProps GEModel GESpec GECheck DataSpec.
Local Open Scope nat_scope.

Definition edges (EI EC : list (list (list fedge))) (r : nat) : nat := length (rank_edges EI EC r).
(** all ranks of an edge have the same value *)
Definition edge_values_agree (H V : list (list (list nat))) (EI EC : list (list (list fedge))) (data : list (list Z)) : Prop :=
  forall r r' e e', r < length H -> r' < length H -> In e (rank_edges EI EC r) -> In e' (rank_edges EI EC r') -> same_ends H V r r' e e' -> val data r (snd e) = val data r' (snd e').
(** sum over all ranks of the values of the edge that is [e] on rank [r] ([same_ends_b] decides [same_ends]) *)
Definition edge_total (H V : list (list (list nat))) (EI EC : list (list (list fedge))) (data : list (list Z)) (r : nat) (e : fedge) : Z :=
  sumZ (map (fun r' => sumZ (map (fun e' => if same_ends_b H V r r' e e' then val data r' (snd e') else 0%Z) (rank_edges EI EC r'))) (seq 0 (length H))).
(** edge [p] of group [g] of the new mesh connects the images of the vertices of edge [e] of rank [r] *)
Definition becomes (H V : list (list (list nat))) (groups : list (list nat)) (Rs : list cverts) (Es : list cedges) (r : nat) (e : fedge) (g p : nat) : Prop :=
  exists k v k' v' a b, k < length (grp groups g) /\ k' < length (grp groups g) /\ same_vertex H V r (fst (fst e)) (rk groups g k) v /\ same_vertex H V r (snd (fst e)) (rk groups g k') v' /\
    image (nth g Rs (mkV [] [] [])) k v = Some a /\ image (nth g Rs (mkV [] [] [])) k' v' = Some b /\
    (nth p (e_edges (nth g Es (mkE [] [] [] [] [] []))) None = Some (a, b) \/ nth p (e_edges (nth g Es (mkE [] [] [] [] [] []))) None = Some (b, a)).
(** a member of group [g] has the edge *)
Definition member_has (H V : list (list (list nat))) (groups : list (list nat)) (EI EC : list (list (list fedge))) (r : nat) (e : fedge) (g : nat) : Prop :=
  exists k e', k < length (grp groups g) /\ In e' (rank_edges EI EC (rk groups g k)) /\ same_ends H V r (rk groups g k) e e'.
