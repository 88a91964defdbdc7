(** Independent description of the coarse mesh data (C75). *)
From Verif Require Import Base LinAlg AuxSpec.
Local Open Scope nat_scope.

(** coarse number of a node, None if the node is not mapped *)
Definition target (map : list Z) (v : nat) : option nat :=
  match nth_error map v with Some c => if (c <? 0)%Z then None else Some (Z.to_nat c) | None => None end.
(** a node map into NC coarse nodes *)
Definition map_into (NC : nat) (map : list Z) : Prop := forall c, In c map -> c = (-1)%Z \/ (0 <= c < Z.of_nat NC)%Z.

(** An edge and vertex map that belong together: an edge is mapped exactly when its ends are mapped to different coarse vertices,
    and then to an edge joining these. *)
Definition maps_fit (NV NCV NCE : nat) (edges : list (nat * nat)) (cedges : list (nat * nat)) (vmap emap : list Z) : Prop :=
  length vmap = NV /\ length emap = length edges /\ length cedges = NCE /\ map_into NCV vmap /\ map_into NCE emap /\
  forall e a b, nth_error edges e = Some (a, b) -> a < NV /\ b < NV /\
    match target emap e with
    | None => target vmap a = target vmap b \/ target vmap a = None \/ target vmap b = None
    | Some ce => exists A C, target vmap a = Some A /\ target vmap b = Some C /\ joins cedges ce A C
    end.

(** the mapped end of an edge that has exactly one: a connection to a vertex without coarse representative *)
Definition ground_of (edges : list (nat * nat)) (vmap emap : list Z) (e : nat) : option nat :=
  match target emap e, nth_error edges e with
  | None, Some (a, b) =>
      match target vmap a, target vmap b with Some A, None => Some A | None, Some A => Some A | _, _ => None end
  | _, _ => None
  end.
(** o = Some k *)
Definition hits (o : option nat) (k : nat) : bool := match o with Some j => j =? k | None => false end.

Section Spec.
  Context {B : Blk}.
  Local Notation K := (K B). Local Notation X := (X B).
  Definition xminus (x y : X) : X := xadd x (xopp y).
  Definition nrm2 (x : X) : K := dot x x.

  (** the fine vector belonging to a coarse one: the value of the coarse vertex, 0 for vertices that are not mapped *)
  Definition interp (vmap : list Z) (U : nat -> X) (v : nat) : X := match target vmap v with Some A => U A | None => x0 end.

  (** w |u_a - u_b|^2 *)
  Definition edge_en (edges : list (nat * nat)) (w : nat -> K) (u : nat -> X) (e : nat) : K :=
    match nth_error edges e with Some (a, b) => kmul (w e) (nrm2 (xminus (u a) (u b))) | None => k0 end.
  (** w |u_v|^2 *)
  Definition vert_en (w : nat -> K) (u : nat -> X) (v : nat) : K := kmul (w v) (nrm2 (u v)).
End Spec.

(** What one process of a distributed mesh holds: classes of its vertices and edges (with the flag "I am master"), node maps,
    edges, cumulated data, numbers of coarse vertices and edges, and the global numbers of all of these nodes. *)
Record share (B : Blk) : Type := mkShare {
  s_eqv : list (bool * list nat); s_eqe : list (bool * list nat);
  s_vmap : list Z; s_emap : list Z; s_edges : list (nat * nat);
  s_vd : list (K B * K B); s_ed : list (K B); s_ncv : nat; s_nce : nat;
  s_gv : nat -> nat; s_ge : nat -> nat; s_gcv : nat -> nat; s_gce : nat -> nat }.
Arguments s_eqv {B}. Arguments s_eqe {B}. Arguments s_vmap {B}. Arguments s_emap {B}. Arguments s_edges {B}. Arguments s_vd {B}.
Arguments s_ed {B}. Arguments s_ncv {B}. Arguments s_nce {B}. Arguments s_gv {B}. Arguments s_ge {B}. Arguments s_gcv {B}.
Arguments s_gce {B}.

Section Global.
  Context {B : Blk}.
  Local Notation K := (K B). Local Notation X := (X B).
  (** the mesh as a whole *)
  Variables NV NCV NCE : nat.
  Variables edges cedges : list (nat * nat).
  Variables vmap emap : list Z.
  Variables vw ew : nat -> K.

  (** the share of a process agrees with the mesh: numbers exist, the data, the ends of the edges and the maps are the global ones;
      a process has no coarse vertex twice *)
  Definition share_ok (s : share B) : Prop :=
    let nv := length (s_vmap s) in
    classes_in nv (s_eqv s) /\ classes_in (length (s_edges s)) (s_eqe s) /\
    length (s_vd s) = nv /\ length (s_emap s) = length (s_edges s) /\ length (s_ed s) = length (s_edges s) /\
    map_into (s_ncv s) (s_vmap s) /\ map_into (s_nce s) (s_emap s) /\
    (forall a b, In (a, b) (s_edges s) -> a < nv /\ b < nv) /\
    (forall v d, nth_error (s_vd s) v = Some d -> fst d = vw (s_gv s v)) /\
    (forall v, v < nv -> target vmap (s_gv s v) = option_map (s_gcv s) (target (s_vmap s) v)) /\
    (forall e w, nth_error (s_ed s) e = Some w -> w = ew (s_ge s e)) /\
    (forall e a b, nth_error (s_edges s) e = Some (a, b) -> joins edges (s_ge s e) (s_gv s a) (s_gv s b)) /\
    (forall e, e < length (s_edges s) -> target emap (s_ge s e) = option_map (s_gce s) (target (s_emap s) e)) /\
    (forall k, k < s_ncv s -> s_gcv s k < NCV) /\ (forall k, k < s_nce s -> s_gce s k < NCE) /\
    (forall k l, k < s_ncv s -> l < s_ncv s -> s_gcv s k = s_gcv s l -> k = l).

  (** every node has exactly one master *)
  Definition masters_ok (ss : list (share B)) : Prop :=
    Permutation (concat (map (fun s => map (s_gv s) (mastered (s_eqv s))) ss)) (seq 0 NV) /\
    Permutation (concat (map (fun s => map (s_ge s) (mastered (s_eqe s))) ss)) (seq 0 (length edges)).

  (** the value of distributed data at a global node: the sum of the values of the processes *)
  Definition cumulate (gl : share B -> nat -> nat) (parts : list (share B * list K)) (g : nat) : K :=
    ksumf (fun so : share B * list K =>
      ksumf (fun k => if gl (fst so) k =? g then nth k (snd so) k0 else k0) (seq 0 (length (snd so)))) parts.
End Global.
