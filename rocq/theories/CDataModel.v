(** Model of the transfer of vertex and edge weights to the coarse mesh (scalar H1 energy) and of the node maps it uses.
    /repo/src/h1/h1_impl.hpp, /repo/src/base/coarsening/base_coarse.cpp, /repo/src/base/mesh/alg_mesh.hpp

    Simplifications.  One process' view: the equivalence classes of the fine mesh are given as a list of (am I master?, nodes of the
    class) as in AuxModel; edge numbers are positions in the edge array.  Doubles are scalars of an abstract ring.  The vertex data
    is IVec<2,double>: weight and count. *)
From Verif Require Import Base LinAlg SparseModel AuxModel.
Local Open Scope nat_scope.

(** x[i] changed in place, i an int: negative indices are out of bounds *)
Definition modify {W} (f : W -> W) (A : list W) (i : Z) : res (list W) :=
  if (i <? 0)%Z then Err OutOfBounds else x <- rd A (Z.to_nat i) ;; wr A (Z.to_nat i) (f x).

(** BlockTM::Apply with master_only = false: base_mesh.hpp:180-183 (all nodes of the process) *)
Definition all_nodes (eqcs : list (bool * list nat)) : list nat := flat_map (fun q : bool * list nat => snd q) eqcs.

(** BaseCoarseMap::GetMapC2F: base_coarse.cpp:16-30 (the caching by size is not modelled) *)
Definition c2f_items (map : list Z) : list (nat * nat) :=
  flat_map (fun kc : nat * Z => if (snd kc =? -1)%Z then [] else [(Z.to_nat (snd kc), fst kc)]) (numbered map).
Definition GetMapC2F (mapped_NN : nat) (map : list Z) : res (list (list nat)) :=
  if existsb (fun c => (c <? -1)%Z) map then Err OutOfBounds else count_fill mapped_NN (c2f_items map).

(** BaseCoarseMap::SetConcedMap, for one node type: base_coarse.cpp:65-82 *)
Definition SetConcedMap (lmap rmap : list Z) : res (list Z) :=
  foldM (fun cnm k => mid <- rd lmap k ;;
     if (mid =? -1)%Z then Ret (cnm ++ [(-1)%Z])
     else if (mid <? 0)%Z then Err OutOfBounds else r <- rd rmap (Z.to_nat mid) ;; Ret (cnm ++ [r])) (seq 0 (length lmap)) [].

Section H1.
  Context {B : Blk}.
  Local Notation K := (K B).
  Variables vmap emap : list Z.
  Variable edges : list (nat * nat).

  (** H1VData::map_data_impl: h1_impl.hpp:17-43.  [data], [edata]: the cumulated vertex and edge data. *)
  Definition h1_add_vertex (data : list (K * K)) (c : list (K * K)) (v : nat) : res (list (K * K)) :=
    cv <- rd vmap v ;;
    if (cv =? -1)%Z then Ret c
    else d <- rd data v ;; modify (fun x => (kadd (fst x) (fst d), kadd (snd x) (snd d))) c cv.
  Definition h1_add_ground (edata : list K) (c : list (K * K)) (e : nat) : res (list (K * K)) :=
    ce <- rd emap e ;;
    if (ce =? -1)%Z then
      ed <- rd edges e ;;
      cv0 <- rd vmap (fst ed) ;;
      cv1 <- rd vmap (snd ed) ;;
      if (cv0 =? cv1)%Z then Ret c
      else
        cvnr <- rd vmap (if (cv0 =? -1)%Z then snd ed else fst ed) ;;
        w <- rd edata e ;;
        modify (fun x => (kadd (fst x) w, snd x)) c cvnr
    else Ret c.
  Definition H1V_map_data (NCV : nat) (eqv eqe : list (bool * list nat)) (data : list (K * K)) (edata : list K)
      : res (list (K * K)) :=
    c <- foldM (h1_add_vertex data) (master_nodes eqv) (repeat (k0, k0) NCV) ;;
    foldM (h1_add_ground edata) (master_nodes eqe) c.

  (** H1EData::map_data_impl: h1_impl.hpp:46-57; [cumulated]: the parallel status of the fine edge data *)
  Definition h1_add_edge (edata : list K) (c : list K) (e : nat) : res (list K) :=
    cid <- rd emap e ;;
    if (cid =? -1)%Z then Ret c else w <- rd edata e ;; modify (fun x => kadd x w) c cid.
  Definition H1E_map_data (NCE : nat) (cumulated : bool) (eqe : list (bool * list nat)) (edata : list K) : res (list K) :=
    foldM (h1_add_edge edata) (if cumulated then master_nodes eqe else all_nodes eqe) (repeat k0 NCE).
End H1.
