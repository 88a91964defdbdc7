(** Independent description of the vertex prolongations (C73): how a row acts, which coarse vertices may appear in it, and
    the matrix the auxiliary rows are smoothed with. *)
From Verif Require Import Base LinAlg.
From Coq Require Import QArith.
Local Open Scope nat_scope.

(** what the sorts do: permutation, in order *)
Definition heavier (a b : Z * Q) : Prop := (snd b <= snd a)%Q.
Definition sortw_ok (sortw : list (Z * Q) -> list (Z * Q)) : Prop := forall l, Permutation l (sortw l) /\ StronglySorted heavier (sortw l).
Definition sortz_ok (sortz : list Z -> list Z) : Prop := forall l, Permutation l (sortz l) /\ StronglySorted Z.le (sortz l).

Section Spec.
  Context {B : Blk}.
  Local Notation M := (M B). Local Notation K := (K B). Local Notation X := (X B).

  (** value of a row, applied to a coarse vector *)
  Definition row_apply (row : list (Z * M)) (uc : Z -> X) : X :=
    fold_right (fun p s => xadd (act (snd p) (uc (fst p))) s) x0 row.
  Definition xtotal {A} (f : A -> X) (l : list A) : X := fold_right (fun a s => xadd (f a) s) x0 l.

  (** laws of the dense block operations: product, scalar multiple, identity *)
  Record block_ops (mmul : M -> M -> M) (msc : K -> M -> M) (mid : M) : Prop := {
    bo_mul : forall a b x, act (mmul a b) x = act a (act b x);
    bo_sc : forall c a x, act (msc c a) x = xsc c (act a x);
    bo_id : forall x, act mid x = x
  }.

  Section Values.
    Variable mmul : M -> M -> M.
    Variable VD : Type.
    Variable CalcQs : VD -> VD -> M * M.
    Variable CalcQHh : VD -> VD -> M.
    Variable vmap : nat -> Z.
    Variable fecon : nat -> list (nat * nat).
    Variable fvd : nat -> VD.
    Variable cvd : Z -> VD.
    (** the piecewise prolongated coarse vector: transformed value of the coarse vertex *)
    Definition pwvec (uc : Z -> X) (v : nat) : X := act (CalcQHh (cvd (vmap v)) (fvd v)) (uc (vmap v)).
    (** the two transformations of the edge of V and w (to its midpoint) *)
    Definition Qs (V w : nat) : M * M := CalcQs (fvd V) (fvd w).
    (** contribution of the edge p = (w, e) to row V of the auxiliary matrix, applied to u: Q_V^T E (Q_V u_V - Q_w u_w) *)
    Definition edge_term (em : nat -> M) (u : nat -> X) (V : nat) (p : nat * nat) : X :=
      act (mtr (fst (Qs V (fst p)))) (act (em (snd p)) (xadd (act (fst (Qs V (fst p))) (u V)) (xopp (act (snd (Qs V (fst p))) (u (fst p)))))).
    (** contribution to the diagonal block: Q_V^T E Q_V *)
    Definition diag_term (em : nat -> M) (V : nat) (p : nat * nat) : M :=
      mmul (mmul (mtr (fst (Qs V (fst p)))) (em (snd p))) (fst (Qs V (fst p))).
  End Values.

  Variable vmap : nat -> Z.
  Variable fecon : nat -> list (nat * nat).
  Variable fedge : nat -> nat * nat.
  Variable awt : nat -> Q.
  Variable ceqc : Z -> nat.
  Variable leq : nat -> nat -> bool.

  (** edge connectivity of a vertex: edges join it with other vertices, in ascending order *)
  Definition edges_ok (NV V : nat) : Prop :=
    (forall w e, In (w, e) (fecon V) -> w <> V /\ w < NV /\ (fedge e = (V, w) \/ fedge e = (w, V))) /\
    StronglySorted lt (map fst (fecon V)).
  (** a vertex with a coarse vertex *)
  Definition mapped (v : nat) : Prop := (0 <= vmap v)%Z.
  Definition vmap_ok : Prop := forall v, (-1 <= vmap v)%Z.

  Definition mesh_ok (NV : nat) : Prop := vmap_ok /\ forall V, V < NV -> edges_ok NV V.

  (** coarse neighbours that row V may use: images of neighbours, in an equal or higher equivalence class *)
  Definition candidate (eqc V : nat) (c : Z) : Prop :=
    exists w e, In (w, e) (fecon V) /\ vmap w = c /\ c <> (-1)%Z /\ c <> vmap V /\ leq eqc (ceqc c) = true.
  (** total weight of the edges from V to the fine vertices of c *)
  Definition qsum (l : list Q) : Q := fold_right Qplus 0%Q l.
  Definition weight_to (V : nat) (c : Z) : Q :=
    qsum (map (fun p => awt (snd p)) (filter (fun p => (vmap (fst p) =? c)%Z) (fecon V))).

  (** V is joined with another vertex of its aggregate *)
  Definition has_partner (V : nat) : Prop := exists w e, In (w, e) (fecon V) /\ vmap w = vmap V.
  (** total weight of the chosen coarse neighbours, and a fifth of the weight inside the aggregate *)
  Definition chosen_weight (V : nat) (ris : list Z) : Q :=
    qsum (map (weight_to V) (filter (fun c => negb (c =? vmap V)%Z) ris)).
  (** Columns of a row with at most [maxr] entries and fraction [mpf]; [dg] is the largest edge weight at V: *)
  Record columns_ok (maxr : Z) (mpf dg : Q) (eqc V : nat) (ris : list Z) : Prop := {
    co_asc : StronglySorted Z.lt ris;
    co_own : In (vmap V) ris;
    co_len : (Z.of_nat (length ris) <= maxr)%Z;
    co_cand : forall c, In c ris -> c = vmap V \/ candidate eqc V c;
    (* piecewise without a partner *)
    co_alone : ~ has_partner V -> ris = [vmap V];
    (* strong enough, and the strongest candidates *)
    co_strong : forall c, In c ris -> c <> vmap V ->
      (mpf * dg <= weight_to V c)%Q /\ (mpf * ((1 # 5) * weight_to V (vmap V) + weight_to V c) < weight_to V c \/ mpf < 0 \/ exists e, awt e < 0)%Q /\
      (forall c', candidate eqc V c' -> ~ In c' ris -> weight_to V c' <= weight_to V c)%Q;
    (* the strongest candidate left out (if the row is not full) is too weak *)
    co_complete : has_partner V -> (Z.of_nat (length ris) < maxr)%Z -> forall c, candidate eqc V c -> ~ In c ris ->
      exists c', candidate eqc V c' /\ ~ In c' ris /\ (weight_to V c <= weight_to V c')%Q /\
        (weight_to V c' <= mpf * ((1 # 5) * weight_to V (vmap V) + chosen_weight V ris + weight_to V c') \/ weight_to V c' < mpf * dg)%Q
  }.

  (** rows that are smoothed with the system matrix: local vertices without a partner (piecewise), or all vertices of the
      matrix row have coarse vertices in suitable classes, at most [maxc] different ones *)
  Definition classic_ok (row : list (nat * M)) (maxc : Z) (eqc V : nat) : Prop :=
    eqc = 0 /\ (~ has_partner V \/
      ((forall p, In p row -> mapped (fst p) /\ leq 0 (ceqc (vmap (fst p))) = true) /\
       ((maxc < 0)%Z \/ (Z.of_nat (length (nodup Z.eq_dec (map (fun p => vmap (fst p)) row))) <= maxc)%Z))).
  (** their columns *)
  Record classic_columns_ok (row : list (nat * M)) (V : nat) (ris : list Z) : Prop := {
    cc_asc : StronglySorted Z.lt ris;
    cc_own : In (vmap V) ris;
    cc_alone : ~ has_partner V -> ris = [vmap V];
    cc_cols : has_partner V -> forall c, In c ris <-> exists p, In p row /\ vmap (fst p) = c
  }.
  (** the system matrix: rows of vertices with ascending columns that contain the diagonal *)
  Definition fmat_ok (NV : nat) (A : list (list (nat * M))) : Prop :=
    forall V, V < NV -> StronglySorted lt (map fst (nth V A [])) /\ (exists a, In (V, a) (nth V A [])) /\
      forall p, In p (nth V A []) -> fst p < NV.

  (** neighbours of V whose coarse vertex is a column of the row *)
  Definition used_edges (V : nat) (ris : list Z) : list (nat * nat) :=
    filter (fun p => negb (vmap (fst p) =? -1)%Z && existsb (Z.eqb (vmap (fst p))) ris) (fecon V).
  (** diagonal block of the auxiliary matrix, restricted to the used neighbours *)
  Definition aux_diag (mmul : M -> M -> M) (VD : Type) (CalcQs : VD -> VD -> M * M) (fvd : nat -> VD) (em : nat -> M) (V : nat) (ris : list Z) : M :=
    fold_left (fun s p => madd s (diag_term mmul VD CalcQs fvd em V p)) (used_edges V ris) m0.
End Spec.
