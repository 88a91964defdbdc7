(** Model of data attached to the nodes of a distributed mesh: AttachedNodeData::Cumulate, Distribute, /repo/src/base/mesh/alg_mesh.hpp:38-64,
    BlockTM::AllreduceNodalData, /repo/src/base/mesh/base_mesh.hpp:264-304, GridContractMap::MapNodeData, /repo/src/base/coarsening/grid_contract.hpp:130-254; all ranks at once.

    Values are integers (the code: any type with +=, = 0 and is_zero).  [E], [X] r k = numbers of the nodes of class k on rank r, of its cross nodes.
    Simplifications: the parallel status is the same on all ranks; sum_table reads 0 behind a short row; Send and Recv within a group are replaced by access to the data of the member. *)
From Verif Require Import Base EQCModel ReduceModel GCModel GEModel.
Local Open Scope nat_scope.

(** sum_table, /repo/src/base/distributed/reducetable.hpp:377-395 *)
Definition add_rows (a b : list Z) : list Z := map (fun l => (nth l a 0 + nth l b 0)%Z) (seq 0 (length a)).
Definition sum_table (rows : list (list Z)) : list Z := match rows with [] => [] | r :: rows => fold_left add_rows rows r end.
(** a rank that returns at once, base_mesh.hpp:270-271 *)
Definition returns (apply_loc : bool) (d : list (list nat)) : bool := (length d =? 0) || ((length d =? 1) && negb apply_loc).
Definition nodes_of (E X : list (list (list nat))) (r k : nat) : list nat := nth k (nth r E []) [] ++ nth k (nth r X []) [].
(** the classes with data, :280-286 *)
Definition first_class (apply_loc : bool) : nat := if apply_loc then 0 else 1.
Definition class_rows (apply_loc : bool) (d : list (list nat)) (E X : list (list (list nat))) (av : list Z) (r : nat) : res (list (list Z)) :=
  if returns apply_loc d then Ret [] else
  mapM (fun k => if k <? first_class apply_loc then Ret [] else mapM (rd av) (nodes_of E X r k)) (seq 0 (length d)).
Definition write_rows (apply_loc : bool) (d : list (list nat)) (E X : list (list (list nat))) (red : list (list Z)) (av : list Z) (r : nat) : res (list Z) :=
  if returns apply_loc d then Ret av else
  foldM (fun av k => row <- rd red k ;; ' (av, _) <- foldM (fun '(av, c) i => x <- rd row c ;; av <- wr av i x ;; Ret (av, S c)) (nodes_of E X r k) (av, 0) ;; Ret av)
    (seq (first_class apply_loc) (length d - first_class apply_loc)) av.
Definition AllreduceNodalData (H E X : list (list (list nat))) (red : list (list Z) -> list Z) (apply_loc : bool) (data : list (list Z)) : res (list (list Z)) :=
  tabs <- mapM (fun r => av <- rd data r ;; class_rows apply_loc (nth r H []) E X av r) (seq 0 (length H)) ;;
  out <- ReduceTable (map (fun d => if returns apply_loc d then [] else d) H) tabs (fun _ _ rows => red rows) ;;
  mapM (fun r => av <- rd data r ;; rows <- rd out r ;; write_rows apply_loc (nth r H []) E X rows av r) (seq 0 (length H)).

(** data of all ranks; is it distributed? *)
Record adata := mkA { a_dist : bool; a_val : list (list Z) }.
Definition Cumulate (H E X : list (list (list nat))) (A : adata) : res adata :=
  if a_dist A then v <- AllreduceNodalData H E X sum_table false (a_val A) ;; Ret (mkA false v) else Ret A.
(** ApplyEQ2 runs over all classes *)
Definition Distribute (H E X : list (list (list nat))) (A : adata) : res adata :=
  v <- (if a_dist A then Ret (a_val A) else
    mapM (fun r => av <- rd (a_val A) r ;;
      foldM (fun av k => d <- rd (nth r H []) k ;; if is_master r d then Ret av else foldM (fun av i => wr av i 0%Z) (nodes_of E X r k) av) (seq 0 (length (nth r H []))) av) (seq 0 (length H))) ;;
  Ret (mkA true v).

(** *** MapNodeData *)
(** it_vals, grid_contract.hpp:162-169 *)
Definition put_values (dist : bool) (m : list (option nat)) (buf : list Z) (out : list Z) : res (list Z) :=
  foldM (fun out k => i <- map_at m k ;; x <- rd buf k ;; if dist then y <- rd out i ;; wr out i (y + x)%Z else wr out i x) (seq 0 (length m)) out.
(** the members; the leader comes last, :171-185 *)
Definition map_members (dist : bool) (n : nat) (maps : list (list (option nat))) (bufs : list (list Z)) : res (list Z) :=
  foldM (fun out k => m <- rd maps k ;; b <- rd bufs k ;; put_values dist m b out) (seq 1 (length maps - 1) ++ [0]) (repeat 0%Z n).
(** lambda of ReduceTable, :217-238 *)
Definition first_value (a b : list Z) : list Z := map (fun l => if (nth l a 0 =? 0)%Z then nth l b 0%Z else nth l a 0%Z) (seq 0 (length a)).
Definition reduce_values (dist : bool) (rows : list (list Z)) : list Z := match rows with [] => [] | r :: rows => fold_left (if dist then add_rows else first_value) rows r end.
(** all groups: [CT] classes of the new mesh, [NN] numbers of its nodes, [maps] g k maps of the members, [an] annoying nodes by class (no rows at all for vertices) *)
Definition MapNodeData (CT : list (list (list nat))) (groups : list (list nat)) (NN : list nat) (maps : list (list (list (option nat)))) (an : list (list (list nat))) (dist : bool) (data : list (list Z)) : res (list (list Z)) :=
  let gs := seq 0 (length groups) in
  outs <- mapM (fun g => grp <- rd groups g ;; n <- rd NN g ;; m <- rd maps g ;; bufs <- mapM (rd data) grp ;; map_members dist n m bufs) gs ;;
  tabs <- mapM (fun g => a <- rd an g ;; out <- rd outs g ;; mapM (mapM (rd out)) a) gs ;;
  red <- ReduceTable (map (fun x => if length (snd x) =? 0 then [] else fst x) (combine CT an)) tabs (fun _ _ rows => reduce_values dist rows) ;;
  mapM (fun g => a <- rd an g ;; out <- rd outs g ;; rows <- rd red g ;;
    foldM (fun out c => ids <- rd a c ;; row <- rd rows c ;; foldM (fun out j => i <- rd ids j ;; x <- rd row j ;; wr out i x) (seq 0 (length ids)) out) (seq 0 (length a)) out) gs.
(** the vertices of the redistributed mesh, the first part of contract_mesh (GEModel.v), grid_contract.cpp:26-180, 311-390 *)
Definition contract_verts (H : list (list (list nat))) (groups : list (list nat)) (V : list (list (list nat))) : res (list ceqch * list cverts) :=
  let gs := seq 0 (length groups) in
  Cs <- mapM (BuildCEQCH H groups) gs ;;
  Rs <- mapM (fun g => grp <- rd groups g ;; C <- rd Cs g ;; map_vertices grp C (map (fun r => nth r V []) grp)) gs ;;
  Ret (Cs, Rs).
