(** Independent description of matching and agglomeration (C78 - C81). *)
From Coq Require Import QArith.
From Verif Require Import Base AuxSpec CDataSpec SPWModel.
Local Open Scope nat_scope.

(** what the sorting routines and the column lookup are assumed to do *)
Definition sorti_ok (sorti : list Q -> list nat) : Prop :=
  forall ws, Permutation (sorti ws) (seq 0 (length ws)) /\ StronglySorted (fun i j => (nth j ws 0 <= nth i ws 0)%Q) (sorti ws).
Definition sortd_ok (sortd : (nat -> nat) -> list nat -> list nat) : Prop :=
  forall f l, Permutation (sortd f l) l /\ StronglySorted (fun i j => f i <= f j) (sortd f l).
Definition find_ok (find : list nat -> nat -> option nat) : Prop :=
  forall l x, StronglySorted le l -> In x l -> exists p, find l x = Some p /\ nth_error l p = Some x.
Definition oracles_ok (O : oracles) : Prop := sorti_ok (o_sorti O) /\ sortd_ok (o_sortd O) /\ find_ok (o_find O).
(** sensible thresholds *)
Definition config_ok (c : config) : Prop := (0 <= scalRel c)%Q /\ (-1 < absRob c)%Q.

(** *** The choice of a neighbour *)
Definition lesser (a b : Q) : Q := if Qle_bool a b then a else b.
Section Choice.
  Variable c : config.
  Variables (ini rob : nat -> Q) (crob cbig : nat -> Q -> bool) (al : nat -> bool) (neibs : list nat).
  (** m is the largest strength of all neighbours, allowed or not, and at least 0 *)
  Definition top_soc (m : Q) : Prop :=
    (0 <= m)%Q /\ (forall j, j < length neibs -> (ini j <= m)%Q) /\ (m = 0%Q \/ exists j, j < length neibs /\ m = ini j).
  (** position j may be chosen *)
  Definition eligible (m : Q) (j : nat) : Prop :=
    let thr := (scalRel c * m)%Q in let rthr := lesser thr (absRob c) in
    j < length neibs /\ al (nth j neibs 0) = true /\ (thr <= ini j)%Q /\
    (if robustPick c then (rthr <= rob j)%Q else crob j rthr = true) /\
    (checkBig c = true -> cbig j (lesser rthr (absBig c)) = true).
  Definition score (j : nat) : Q := if robustPick c then rob j else ini j.
  (** an eligible neighbour of the largest score, none if there is no eligible one *)
  Definition best_choice (r : option nat) : Prop :=
    exists m, top_soc m /\
    match r with
    | Some n => exists j, eligible m j /\ nth_error neibs j = Some n /\ forall i, eligible m i -> (score i <= score j)%Q
    | None => forall j, ~ eligible m j
    end.
End Choice.

(** *** Meshes, connected sets *)
Definition adjacent (edges : list (nat * nat)) (a b : nat) : Prop := exists e, joins edges e a b.
(** a path inside S *)
Inductive path (edges : list (nat * nat)) (S : nat -> Prop) : nat -> nat -> Prop :=
| path_nil : forall a, S a -> path edges S a a
| path_step : forall a b d, S a -> adjacent edges a b -> path edges S b d -> path edges S a d.
Definition connected (edges : list (nat * nat)) (S : nat -> Prop) : Prop := forall a b, S a -> S b -> path edges S a b.

(** edges join different existing vertices; rows of the edge connectivity are ascending and hold the neighbours and edge numbers *)
Definition mesh_ok (M : lmesh) : Prop :=
  (forall a b, In (a, b) (m_edges M) -> a < m_nv M /\ b < m_nv M /\ a <> b) /\ length (m_econ M) = m_nv M /\
  forall v, v < m_nv M -> StronglySorted le (map fst (nth v (m_econ M) [])) /\
    forall w e, In (w, e) (nth v (m_econ M) []) <-> joins (m_edges M) e v w.

(** class [k] holds exactly the vertices with class number k, every vertex once *)
Definition classes_match (NV : nat) (classes : list (list nat)) (veq : list nat) : Prop :=
  length veq = NV /\ (forall v, v < NV -> In v (nth (nth v veq 0) classes [])) /\
  (forall q v, In v (nth q classes []) -> v < NV /\ nth v veq 0 = q) /\ NoDup (concat classes).

Definition bit (b : option (list bool)) (v : nat) : bool := match b with Some l => nth v l false | None => true end.

(** everything an input has to satisfy *)
Definition input_ok (P : par_info) (I : input) : Prop :=
  let NV := m_nv (i_mesh I) in
  mesh_ok (i_mesh I) /\ classes_match NV (i_classes I) (i_veq I) /\
  (forall f, i_free I = Some f -> length f = NV) /\ (forall s, solid P = Some s -> length s = NV) /\
  NoDup (concat (i_fixed I)) /\ (forall v, In v (concat (i_fixed I)) -> v < NV) /\ (forall a, In a (i_fixed I) -> a <> []) /\
  1 <= i_rounds I /\ (truly_par P = true -> 1 < length (i_classes I)).

(** the vertices that are to be agglomerated: free, coarsened by this process, not in a fixed agglomerate, without dominating
    weight, and not local without any edge *)
Definition takes_part (P : par_info) (I : input) (v : nat) : Prop :=
  v < m_nv (i_mesh I) /\ bit (i_free I) v = true /\
  (truly_par P = true -> match solid P with
                         | Some s => nth v (i_veq I) 0 = 0 \/ nth v s false = true
                         | None => master P (nth v (i_veq I) 0) = true
                         end) /\
  ~ In v (concat (i_fixed I)) /\
  (forall d, i_dominant I = Some d -> d v = false) /\
  ~ (nth v (i_veq I) 0 = 0 /\ forall w, ~ adjacent (m_edges (i_mesh I)) v w).

(** IsLEQ is inclusion of the sets of processes, different classes have different sets, class 0 is the class of one process *)
Definition order_ok (P : par_info) : Prop :=
  (forall a, leq P a a = true) /\ (forall a b d, leq P a b = true -> leq P b d = true -> leq P a d = true) /\
  (forall a b, leq P a b = true -> leq P b a = true -> a = b) /\ (forall a, leq P 0 a = true).
