(** Further data of a Stokes mesh.
    Models /repo/src/stokes/common/stokes_mesh_impl.hpp:69-148 (LoopBlocks), :151-190 (SetUpDOFedEdges), :222-303 (GetDofedEdgeUDofs)
    and stokes_map_impl.hpp:78-100 (StokesCoarseMap::MapAdditionalDataA).
    Simplifications: a TableCreator is the list of rows it ends with (the loop body runs three times on the same data);
    the edge with number k is entry k of the list of edges (edge.id = k). *)
From Verif Require Import Base ArraysModel SMapModel.
Open Scope Z_scope.
Import ListNotations.

(** *** LoopBlocks *)
(** the unique coarse facets of a loop, :95-108 *)
Definition facet_entry (emap : list Z) (uc : list Z) (c : Z) : res (list Z) :=
  cenr <- rdz emap (Z.abs c - 1) ;;
  if cenr =? -1 then Ret uc else
  o <- merge_pos_in_sorted_array cenr uc ;;
  match o with
  | None => Err OutOfBounds
  | Some pos =>
      same <- (if (0 <? pos)%nat then y <- rd uc (pos - 1) ;; Ret (y =? cenr) else Ret false) ;;
      if same : bool then Ret uc else Ret (array_insert pos cenr uc)
  end.
Definition facets (emap : list Z) (loop : list Z) : res (list Z) := foldM (facet_entry emap) loop [].
(** TableCreator::Add(b, x): the table has as many rows as the largest row number needs *)
Definition tc_add (t : list (list nat)) (b : nat) (x : nat) : list (list nat) :=
  let t' := t ++ repeat [] (S b - length t) in upd t' b (nth b t' [] ++ [x]).
Definition bstate := (nat * list Z * list (list nat))%type. (* cntblocks, ce2block, cblocks *)
(** :111-115 and :117-121 *)
Definition block_facet (flnr : nat) (st : bstate) (cenr : Z) : res bstate :=
  let '(cnt, c2b, t) := st in
  b <- rdz c2b cenr ;;
  if b =? -1 then c2b' <- wr c2b (Z.to_nat cenr) (Z.of_nat cnt) ;; Ret (S cnt, c2b', tc_add t cnt flnr)
  else if b <? 0 then Err OutOfBounds else Ret (cnt, c2b, tc_add t (Z.to_nat b) flnr).
(** one fine loop, :92-126; the case of a single facet is the loop over the facets with one round *)
Definition block_loop (emap : list Z) (st : bstate * nat) (loop : list Z) : res (bstate * nat) :=
  let '(s, flnr) := st in
  uc <- facets emap loop ;;
  s' <- (match uc with
         | [] => let '(cnt, c2b, t) := s in Ret (S cnt, c2b, tc_add t cnt flnr)
         | _ => foldM (block_facet flnr) uc s
         end) ;;
  Ret (s', S flnr).
Definition all_blocks (emap : list Z) (nce : nat) (loops : list (list Z)) : res (list (list nat)) :=
  ' (s, _) <- foldM (block_loop emap) loops ((O, repeat (-1) nce, []), O) ;; Ret (snd s).
(** :130-147: no blocks if all of them are single loops *)
Definition LoopBlocks (emap : list Z) (nce : nat) (loops : list (list Z)) : res (list (list nat)) :=
  t <- all_blocks emap nce loops ;;
  Ret (if existsb (fun b => (1 <? length b)%nat) t then t else []).

(** *** SetUpDOFedEdges: (dofed_edges, dof2e, e2dof) *)
(** notgg; && does not look at the second vertex when the first one is no ghost *)
Definition notgg (gv : list bool) (e : nat * nat) : res bool :=
  a <- rd gv (fst e) ;; if a : bool then b <- rd gv (snd e) ;; Ret (negb b) else Ret true.
Definition dof_entry (gv : list bool) (st : nat * list bool * list Z) (e : nat * nat) : res (nat * list bool * list Z) :=
  let '(cnt, des, e2d) := st in
  n <- notgg gv e ;;
  Ret (if n : bool then (S cnt, des ++ [true], e2d ++ [Z.of_nat cnt]) else (cnt, des ++ [false], e2d ++ [-1])).
Definition d2e_entry (des : list bool) (e2d : list Z) (d2e : list nat) (k : nat) : res (list nat) :=
  b <- rd des k ;; if b : bool then d <- rdz e2d (Z.of_nat k) ;; if d <? 0 then Err OutOfBounds else wr d2e (Z.to_nat d) k else Ret d2e.
Definition SetUpDOFedEdges (dummy : bool) (gvs : option (list bool)) (edges : list (nat * nat)) : res (list bool * list nat * list Z) :=
  match gvs with
  | None =>
      if negb dummy then Err Thrown else
      Ret (repeat true (length edges), seq 0 (length edges), map Z.of_nat (seq 0 (length edges)))
  | Some gv =>
      ' (cnt, des, e2d) <- foldM (dof_entry gv) edges (O, [], []) ;;
      d2e <- foldM (d2e_entry des e2d) (seq 0 (length edges)) (repeat O cnt) ;;
      Ret (des, d2e, e2d)
  end.

(** *** GetDofedEdgeUDofs on all processes (more than one): the table of distant processes of the dofed edges *)
(** what one process knows; [m_segs]: for eqc = 1, 2, ... first the edges inside of the class, then the cross edges,
    with GetDistantProcs(eqc) (ApplyEQ2, base_mesh.hpp:205-213) *)
Record meshd := mkM {
  m_all : list Z;                          (* eqc_h.GetDistantProcs() *)
  m_segs : list (list Z * list nat);
  m_gvs : list bool;                       (* GetGhostVerts() *)
  m_edges : list (nat * nat)
}.
Definition flags (des : list bool) (es : list nat) : res (list Z) := mapM (fun e => b <- rd des e ;; Ret (if b : bool then 1 else 0)) es.
(** send_data, :248-270 *)
Definition de_send (M : meshd) (des : list bool) : res (list (list Z)) :=
  fl <- mapM (fun s => flags des (snd s)) (m_segs M) ;;
  send_table (m_all M) (map fst (m_segs M)) fl.
(** the table creator cdps, :277-292 *)
Definition cdps_edge (des : list bool) (e2d : list Z) (row : list Z) (p : Z) (st : nat * list (list Z)) (e : nat) : res (nat * list (list Z)) :=
  let '(pr, t) := st in
  x <- rd row pr ;;
  ok <- (if x =? 1 then rd des e else Ret false) ;;
  if ok : bool then d <- rdz e2d (Z.of_nat e) ;; if d <? 0 then Err OutOfBounds else t' <- addrow t (Z.to_nat d) [p] ;; Ret (S pr, t')
  else Ret (S pr, t).
Definition cdps_proc (all : list Z) (recv : list (list Z)) (des : list bool) (e2d : list Z) (es : list nat) (st : list nat * list (list Z)) (p : Z) : res (list nat * list (list Z)) :=
  let '(perow, t) := st in
  kp <- posn p all ;; row <- rd recv kp ;; pr <- rd perow kp ;;
  ' (pr, t) <- foldM (cdps_edge des e2d row p) es (pr, t) ;;
  perow <- wr perow kp pr ;;
  Ret (perow, t).
Definition cdps_seg (all : list Z) (recv : list (list Z)) (des : list bool) (e2d : list Z) (st : list nat * list (list Z)) (s : list Z * list nat) : res (list nat * list (list Z)) :=
  foldM (cdps_proc all recv des e2d (snd s)) (fst s) st.
Definition GetDofedEdgeUDofs (W : list meshd) (r : nat) : res (list (list Z)) :=
  ds <- mapM (fun M => SetUpDOFedEdges false (Some (m_gvs M)) (m_edges M)) W ;;
  sent <- mapM (fun x => de_send (fst x) (fst (fst (snd x)))) (combine W ds) ;;
  recv <- exchange (map m_all W) sent r ;;
  mine <- rd sent r ;;
  if negb (sizes_ok mine recv) then Err OutOfBounds else
  M <- rd W r ;; d <- rd ds r ;;
  let '(des, d2e, e2d) := d in
  ' (_, t) <- foldM (cdps_seg (m_all M) recv des e2d) (m_segs M) (repeat O (length (m_all M)), repeat [] (length d2e)) ;;
  Ret t.

(** *** MapAdditionalDataA: ghost vertices of the coarse mesh *)
Definition cgv_entry (vmap : list Z) (st : nat * list bool) (g : bool) : res (nat * list bool) :=
  let '(k, cgv) := st in
  if g then v <- rd vmap k ;; if v =? -1 then Ret (S k, cgv) else if v <? 0 then Err OutOfBounds else cgv' <- wr cgv (Z.to_nat v) true ;; Ret (S k, cgv')
  else Ret (S k, cgv).
Definition coarse_ghosts (fgv : list bool) (vmap : list Z) (ncv : nat) : res (list bool) :=
  ' (_, cgv) <- foldM (cgv_entry vmap) fgv (O, repeat false ncv) ;; Ret cgv.
