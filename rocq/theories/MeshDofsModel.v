(** Model of the map between the edges of a mesh and their dofs: /repo/src/stokes/hdiv/mesh_dofs.hpp (MeshDOFs) and
    /repo/src/stokes/hdiv/hdiv_stokes_factory_impl.hpp:1857-1956 (ContractMeshDOFs).
    An access outside of an array is [Err OutOfBounds].  Left out: the mesh pointer, printing, the timers; size_t and int are unbounded. *)
From Verif Require Import Base ArraysModel.
Local Open Scope nat_scope.

(** Initialize (mesh_dofs.hpp:31-35): one more offset than edges, all 0 *)
Definition Initialize (n : nat) : list nat := repeat 0 (S n).
(** the calls between Initialize and Finalize: AddDOF (37-45), SetNDOF (47-55) *)
Inductive call : Type := AddDOF (e : nat) | SetNDOF (e k : nat).
Definition do_call (off : list nat) (c : call) : res (list nat) :=
  match c with
  | AddDOF e => x <- rd off (S e) ;; wr off (S e) (x + 1)
  | SetNDOF e k => wr off (S e) k
  end.
(** Finalize (57-63); the same loop is in ContractMeshDOFs, hdiv_stokes_factory_impl.hpp:1917-1920 *)
Definition Finalize (n : nat) (off : list nat) : res (list nat) :=
  foldM (fun off k => b <- rd off (S k) ;; a <- rd off k ;; wr off (S k) (b + a)) (seq 0 n) off.
(** the second way to set up a MeshDOFs (mesh_dofs.hpp:29-63) *)
Definition set_up (n : nat) (calls : list call) : res (list nat) := off <- foldM do_call calls (Initialize n) ;; Finalize n off.

(** GetNDOF() (67-70) *)
Definition GetNDOF_all (off : list nat) : res nat := rd off (length off - 1).
(** GetDOFNrs (72-80): the numbers from .. to *)
Definition GetDOFNrs (off : list nat) (e : nat) : res (list nat) := a <- rd off e ;; b <- rd off (S e) ;; Ret (seq a (b - a)).
(** GetNDOF(edge) (82-90) *)
Definition GetNDOF (off : list nat) (e : nat) : res nat := b <- rd off (S e) ;; a <- rd off e ;; Ret (b - a).
(** EdgeToDOF (92-100) *)
Definition EdgeToDOF (off : list nat) (e l : nat) : res nat := a <- rd off e ;; Ret (a + l).
(** DOFToEdge (102-105); position 0 would give size_t(-1): Err *)
Definition DOFToEdge (off : list nat) (d : nat) : res nat :=
  p <- merge_pos_in_sorted_array (Z.of_nat d) (map Z.of_nat off) ;;
  match p with Some (S p) => Ret p | _ => Err OutOfBounds end.
(** writing the numbers [ds] to the places a, a+1, .. of an array (FlatArray::operator= on a Range) *)
Definition put_range (a : nat) (ds : list nat) (arr : list nat) : res (list nat) :=
  foldM (fun arr i => v <- rd ds i ;; wr arr (a + i) v) (seq 0 (length ds)) arr.
(** SubDOFs (107-121) *)
Definition SubDOFs (off : list nat) (es : list nat) : res (nat * list nat * list nat) :=
  let n := length es in
  offs <- foldM (fun offs k => e <- rd es k ;; c <- GetNDOF off e ;; a <- rd offs k ;; wr offs (S k) (a + c)) (seq 0 n) (repeat 0 (S n)) ;;
  tot <- rd offs n ;;
  nums <- foldM (fun nums k => e <- rd es k ;; ds <- GetDOFNrs off e ;; a <- rd offs k ;; b <- rd offs (S k) ;; put_range a (firstn (b - a) ds) nums) (seq 0 n) (repeat 0 tot) ;;
  Ret (tot, offs, nums).

(** ContractMeshDOFs, hdiv_stokes_factory_impl.hpp:1857-1956, on the master: a member is its edge map (ctrMap.GetNodeMap<NT_EDGE>(kg)) and its offsets (1891-1899: received, or its own) *)
Record member := { m_map : list nat; m_off : list nat }.
(** 1901-1909: the largest number of dofs of the fine edges of a coarse edge *)
Definition count_edge (m : member) (c : list nat) (l : nat) : res (list nat) :=
  ce <- rd (m_map m) l ;; b <- rd (m_off m) (S l) ;; a <- rd (m_off m) l ;; x <- rd c (S ce) ;; wr c (S ce) (Nat.max x (b - a)).
Definition count_member (c : list nat) (m : member) : res (list nat) := foldM (count_edge m) (seq 0 (length (m_map m))) c.
(** 1879-1921 *)
Definition coarse_offsets (nc : nat) (ms : list member) : res (list nat) := c <- foldM count_member ms (repeat 0 (S nc)) ;; Finalize nc c.
(** 1935-1945: dofMap.Range(fOffsets[l], fOffsets[l+1]) = cDOFs; only the first fOffsets[l+1] - fOffsets[l] numbers are copied *)
Definition map_dofs (coff : list nat) (m : member) (dm : list nat) (l : nat) : res (list nat) :=
  ce <- rd (m_map m) l ;; cd <- GetDOFNrs coff ce ;; a <- rd (m_off m) l ;; b <- rd (m_off m) (S l) ;; put_range a (firstn (b - a) cd) dm.
(** 1911, 1924, 1928-1946: the rows of dofMaps have the size of the last offset *)
Definition dof_map (coff : list nat) (m : member) : res (list nat) :=
  tot <- rd (m_off m) (length (m_off m) - 1) ;; foldM (map_dofs coff m) (seq 0 (length (m_map m))) (repeat 0 tot).
Definition ContractMeshDOFs (nc : nat) (ms : list member) : res (list nat * list (list nat)) :=
  coff <- coarse_offsets nc ms ;;
  maps <- foldM (fun out m => dm <- dof_map coff m ;; Ret (out ++ [dm])) ms [] ;;
  Ret (coff, maps).
