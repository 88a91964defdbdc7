(** Model of the edge connectivity matrix and of the assembling of the auxiliary matrix.
    /repo/src/base/mesh/base_mesh.cpp, /repo/src/base/factory/aux_mat.hpp

    Simplifications.  One process' view: the equivalence classes of the mesh are given as a list of (am I master?, nodes of
    the class) and AllreduceNodalData is a parameter.  Edge numbers are positions in the edge array (fEdge.id), they are kept as
    natural numbers (the code stores them in a SparseMatrix<double>).  The energy is abstract: [rmb e i j] is the block that
    CalcRMBlock hands to lam(i, j, .) for edge e, [vmatr v] is GetVMatrix of the vertex data.  lamAdd is the plain a += b. *)
From Verif Require Import Base ArraysModel LinAlg SparseModel.
Local Open Scope nat_scope.

(** base_mesh.cpp:57-66: the sequence of (row, (neighbour, edge)) generated for counting and for filling *)
Definition econ_items (edges : list (nat * nat)) : list (nat * (nat * nat)) :=
  flat_map (fun ie => [(fst (snd ie), (snd (snd ie), fst ie)); (snd (snd ie), (fst (snd ie), fst ie))]) (numbered edges).
(** TopologicMesh::GetEdgeCM, base_mesh.cpp:35-77; [sortn] is QuickSort by the first component.  The copy of the sorted rows
    into the freshly allocated matrix (68-75) keeps rows and order.  Caching (37) not modelled. *)
Definition GetEdgeCM (sortn : list (nat * nat) -> list (nat * nat)) (nv : nat) (edges : list (nat * nat)) : res (smat nat) :=
  t <- count_fill nv (econ_items edges) ;; Ret (map sortn t).

Section Aux.
  Context {B : Blk}.
  Local Notation M := (M B). Local Notation K := (K B).
  Variable edges : list (nat * nat).
  Variable rmb : nat -> nat -> nat -> M.
  Variable vmatr : nat -> M.

  (** BlockTM::ApplyEQ with master_only = true: base_mesh.hpp:187-203; the nodes of a class: first its own, then the cross ones *)
  Definition master_nodes (eqcs : list (bool * list nat)) : list nat :=
    flat_map (fun q : bool * list nat => if fst q then snd q else []) eqcs.

  (** H1Energy::CalcRMBlock: h1_energy.hpp:236-263; [em e] is GetEMatrix of the edge data *)
  Definition h1_rmb (mneg : M -> M) (em : nat -> M) (e i j : nat) : M := if i =? j then em e else mneg (em e).

  (** the row of vertex k before values are added: aux_mat.hpp:36-53 *)
  Definition ahat_row (neibs : list nat) (k : nat) : res (list (nat * M)) :=
    pos <- merge_pos_in_sorted_array (Z.of_nat k) (map Z.of_nat neibs) ;;
    match pos with
    | None => Err OutOfBounds
    | Some p => Ret (map (fun c => (c, m0)) (firstn p neibs ++ k :: skipn p neibs))
    end.

  (** rvs[find_in_sorted_array(col, ris)] += v in row [r]; -1 is out of bounds *)
  Definition add_at (A : smat M) (r col : nat) (v : M) : res (smat M) :=
    row <- rd A r ;;
    c <- find_in_sorted_array (Z.of_nat col) (map (fun p => Z.of_nat (fst p)) row) ;;
    match c with
    | None => Err OutOfBounds
    | Some k => p <- rd row k ;; row' <- wr row k (fst p, madd (snd p) v) ;; wr A r row'
    end.

  (** the contribution of one edge: aux_mat.hpp:63-99 (CalcRMBlock calls lam for the four blocks) *)
  Definition add_edge (exclude : option (nat -> bool)) (A : smat M) (e : nat) : res (smat M) :=
    ed <- rd edges e ;;
    let '(a, b) := ed in
    if (match exclude with Some ex => ex a || ex b | None => false end) then Ret A
    else
      A <- add_at A a a (rmb e 0 0) ;;
      A <- add_at A a b (rmb e 0 1) ;;
      A <- add_at A b a (rmb e 1 0) ;;
      add_at A b b (rmb e 1 1).

  (** AssembleAhatSparse: aux_mat.hpp:14-111 *)
  Definition AssembleAhatSparse (NV : nat) (econ : smat nat) (eqe eqv : list (bool * list nat)) (inclv : bool)
      (exclude : option (nat -> bool)) : res (smat M) :=
    A <- foldM (fun A k => n <- rd econ k ;; r <- ahat_row (map fst n) k ;; Ret (A ++ [r])) (seq 0 NV) [] ;;
    A <- foldM (add_edge exclude) (master_nodes eqe) A ;;
    if inclv then foldM (fun A v => add_at A v v (vmatr v)) (master_nodes eqv) A else Ret A.

  Section Boost.
    Variable msc : K -> M -> M.
    Variable kdiv : K -> K -> K.
    Variable keqb : K -> K -> bool.
    Variable trace : M -> K.
    (** GetQiToj(data[j], data[k]).GetMQ(fac, mat) *)
    Variable QMQ : nat -> nat -> K -> M -> M.
    Variable vmap : nat -> Z.

    (** one row: aux_mat.hpp:169-222 *)
    Definition boost_row (theta : K) (diag : M) (k : nat) (row : list (nat * M)) : list (nat * M) :=
      if (vmap k =? -1)%Z then row
      else
        let inagg (p : nat * M) := negb (fst p =? k) && (vmap (fst p) =? vmap k)%Z in
        let lsum := fold_left (fun s p => if inagg p then kadd s (trace (snd p)) else s) row k0 in
        if keqb lsum k0 then row
        else map (fun p : nat * M =>
               if fst p =? k then (fst p, madd (snd p) (msc theta diag))
               else if inagg p then
                 (fst p, madd (snd p) (QMQ (fst p) k (kmul (kmul (kopp k1) (kdiv (trace (snd p)) lsum)) theta) diag))
               else p) row.

    (** A(k, k): the stored value (a zero block if there is none) *)
    Definition diag_of (A : smat M) (k : nat) : M :=
      match find (fun p : nat * M => fst p =? k) (nth k A []) with Some p => snd p | None => m0 end.

    (** addInAggregateEdgeBoost: aux_mat.hpp:128-231.  The loop over all FNV rows is inside the ApplyEQ2 callback, so it runs
        once for every class the process is master of; the diagonals are read before. *)
    Definition addInAggregateEdgeBoost (allred : list M -> list M) (exclude : option (nat -> bool)) (FNV : nat) (eqv : list (bool * list nat))
        (theta : K) (A : smat M) : smat M :=
      let diags := allred (map (fun k => if (match exclude with Some ex => ex k | None => false end) then m0 else diag_of A k) (seq 0 FNV)) in
      fold_left (fun A (q : bool * list nat) =>
        if fst q then map (fun k => boost_row theta (nth k diags m0) k (nth k A [])) (seq 0 FNV) else A) eqv A.

    (** AssembleAhatSparseStabSP: aux_mat.hpp:249-268 *)
    Definition AssembleAhatSparseStabSP (NV : nat) (econ : smat nat) (eqe eqv : list (bool * list nat)) (inclv : bool)
        (exclude : option (nat -> bool)) (allred : list M -> list M) (theta : K) : res (smat M) :=
      if inclv then Err Thrown
      else A <- AssembleAhatSparse NV econ eqe eqv inclv exclude ;; Ret (addInAggregateEdgeBoost allred exclude NV eqv theta A).
  End Boost.
End Aux.
