(** Model of the preserved vectors and the facet part of the prolongation of the Stokes AMG:
    /repo/src/stokes/hdiv/preserved_vectors_impl.hpp:461-737 (computeCFBufferSize, computeCFProlBlocks, Finalize, ReadProlBlockFromBuffer) and
    /repo/src/stokes/hdiv/hdiv_stokes_factory_impl.hpp:222-281 (computeSpecialVecs), 283-316 and 389-483 (facet rows of the prolongation, flow of the coarse edges).

    double is modelled by R (GramModel.v).  One process; [order] is the order in which ApplyEQ visits the coarse edges.  [heap tag e h w] is the uninitialised h x w matrix number tag taken for edge e.
    The running counters of the loops over the fine edges of a coarse edge and their dofs (totalFine, rowOff, c, countRow) are modelled by appending to lists.
    Left out: the rows of dofs inside of agglomerates and of Dirichlet edges, the graph (perow): a facet row has as many entries as the coarse edge has dofs (330-336); debug output. *)
From Verif Require Import Base GramModel MeshDofsModel.
From Coq Require Import Reals.
Local Open Scope R_scope.

Record setting := { f_off : list nat (* offsets of the fine MeshDOFs *); c2f : list (list nat) (* fine edges of a coarse edge *); dofed : list bool (* coarse edges with dofs *);
  f_edges : list (nat * nat); c_edges : list (nat * nat); v_map : list Z; f_flow : list R (* flow[0] of the fine edges *); pres : list (list R) (* the fine preserved vectors *) }.
Section Pres.
Context (S : setting) (heap : nat -> nat -> nat -> nat -> list (list R)) (order : list nat).
Let nc := length (c2f S).
(** nPreserved; nSpecial is 1; preservedOnEdge = maxDOFsPerEdge *)
Let np := length (pres S).
Let mx := (1 + np)%nat.

(** the std::accumulate of preserved_vectors_impl.hpp:495-496, 553-554 *)
Definition n_fine (ce : nat) : res nat := fes <- rd (c2f S) ce ;; foldM (fun s fe => n <- GetNDOF (f_off S) fe ;; Ret (s + n)%nat) fes 0%nat.
(** computeCFBufferSize, 461-505: offsets and total size *)
Definition computeCFBufferSize : res (list nat * nat) :=
  foldM (fun st ce => let (offs, tot) := st : list nat * nat in
    offs <- wr offs ce tot ;; d <- rd (dofed S) ce ;;
    if d : bool then n <- n_fine ce ;; Ret (offs, (tot + (1 + mx * np + n * mx))%nat) else Ret (offs, tot)) order (repeat 0%nat nc, 0%nat).

(** hdiv_stokes_factory_impl.hpp:264: vmap[fEdge.v[0]] != cEdge.v[0] *)
Definition flips (ce fe : nat) : res bool :=
  fed <- rd (f_edges S) fe ;; ced <- rd (c_edges S) ce ;; v <- rd (v_map S) (fst fed) ;; Ret (negb (v =? Z.of_nat (fst ced))%Z).
(** computeSpecialVecs, 245-280: column 0; an edge without dofs is an exception *)
Definition special_col (ce : nat) (fes : list nat) : res (list R) :=
  foldM (fun c fe => n <- GetNDOF (f_off S) fe ;;
    match n with
    | O => Err Thrown
    | Datatypes.S n => fl <- rd (f_flow S) fe ;; fp <- flips ce fe ;; Ret (c ++ (if Bool.eqb (if Rlt_dec fl 0 then true else false) fp then 1 else -1) :: repeat 0 n)
    end) fes [].
(** preserved_vectors_impl.hpp:562-581: one column *)
Definition pres_col (fes : list nat) (vec : list R) : res (list R) :=
  foldM (fun c fe => n <- GetNDOF (f_off S) fe ;; foldM (fun c ll => d <- EdgeToDOF (f_off S) fe ll ;; x <- rd vec d ;; Ret (c ++ [x])) (seq 0 n) c) fes [].
(** 604-617, and hdiv_stokes_factory_impl.hpp:438-475 *)
Definition fine_flow (ce : nat) (fes : list nat) : res (list R) :=
  foldM (fun c fe => fl <- rd (f_flow S) fe ;; fp <- flips ce fe ;; n <- GetNDOF (f_off S) fe ;;
    Ret (c ++ map (fun ll => (if fp : bool then -1 else 1) * (if (ll =? 0)%nat then fl else 0)) (seq 0 n))) fes [].
(** 551-625: number of fine dofs, number of coarse dofs, P, W of one coarse edge *)
Definition block (ce : nat) : res (nat * nat * list (list R) * list (list R)) :=
  fes <- rd (c2f S) ce ;; h <- n_fine ce ;;
  c0 <- special_col ce fes ;;
  cols <- foldM (fun cs vec => c <- pres_col fes vec ;; Ret (cs ++ [c])) (pres S) [] ;;
  f <- fine_flow ce fes ;;
  r <- computePWZF f (c0 :: cols) 1 (heap 0 ce h mx) (heap 1 ce mx mx) ;;
  match r with (m, P, W) => Ret (h, m, P, W) end.
(** writing the values xs to the places a, a+1, .. *)
Definition put_list (a : nat) (xs : list R) (arr : list R) : res (list R) := foldM (fun arr i => x <- rd xs i ;; wr arr (a + i) x) (seq 0 (length xs)) arr.
Definition at2 (A : list (list R)) (i j : nat) : R := nth i (nth j A []) 0.
(** 650-671: what is put in the buffer for one coarse edge *)
Definition chunk (h m : nat) (P W : list (list R)) : list R :=
  INR h :: flat_map (fun k => map (fun j => at2 P k j) (seq 0 m)) (seq 0 h) ++ flat_map (fun j => map (fun k => at2 W k (1 + j)) (seq 0 m)) (seq 0 np).
(** computeCFProlBlocks, 510-673: the numbers of coarse dofs and the buffer *)
Definition computeCFProlBlocks (offs : list nat) (cofs : list nat) (buf : list R) : res (list nat * list R) :=
  foldM (fun st ce => let (cofs, buf) := st : list nat * list R in
    d <- rd (dofed S) ce ;;
    if d : bool then
      b <- block ce ;;
      match b with (h, m, P, W) => cofs <- do_call cofs (SetNDOF ce m) ;; o <- rd offs ce ;; buf <- put_list o (chunk h m P W) buf ;; Ret (cofs, buf) end
    else Ret (cofs, buf)) order (cofs, buf).
(** int n = buffer[..] *)
Definition to_int (x : R) : nat := Z.to_nat (Int_part x).
(** Finalize, 676-720: reading the coarse preserved vectors *)
Definition read_vecs (offs cofs : list nat) (buf : list R) (vecs : list (list R)) : res (list (list R)) :=
  foldM (fun vecs ce =>
    d <- rd (dofed S) ce ;;
    if d : bool then
      n <- GetNDOF cofs ce ;; o <- rd offs ce ;; x <- rd buf o ;; ds <- GetDOFNrs cofs ce ;;
      st <- foldM (fun st k => let (vecs, bo) := st : list (list R) * nat in
        data <- foldM (fun l i => y <- rd buf (bo + i) ;; Ret (l ++ [y])) (seq 0 n) [] ;;
        v <- rd vecs k ;; v <- foldM (fun v i => t <- rd ds i ;; y <- rd data i ;; wr v t y) (seq 0 (length ds)) v ;; vecs <- wr vecs k v ;; Ret (vecs, (bo + n)%nat)) (seq 0 np) (vecs, (o + 1 + to_int x * n)%nat) ;;
      Ret (fst st)
    else Ret vecs) order vecs.
(** ReadProlBlockFromBuffer, 723-737: entry i, t of the nRows x nCols matrix (row after row) *)
Definition prol_entry (offs cofs : list nat) (buf : list R) (ce i t : nat) : res R :=
  o <- rd offs ce ;; n <- GetNDOF cofs ce ;; rd buf (o + 1 + i * n + t).
(** hdiv_stokes_factory_impl.hpp:389-481: the rows of the fine dofs of a coarse edge and its flow[0]; a row is its columns and values *)
Definition prol_rows (offs cofs : list nat) (buf : list R) (st : list (list nat * list R) * list R) : res (list (list nat * list R) * list R) :=
  foldM (fun st ce => let (prol, flow) := st : list (list nat * list R) * list R in
    d <- rd (dofed S) ce ;;
    if d : bool then
      fes <- rd (c2f S) ce ;; n <- GetNDOF cofs ce ;; ds <- GetDOFNrs cofs ce ;; f <- fine_flow ce fes ;;
      st <- foldM (fun st fe => n_fe <- GetNDOF (f_off S) fe ;;
        foldM (fun st l => let (prol, row) := st : list (list nat * list R) * nat in
          d <- EdgeToDOF (f_off S) fe l ;;
          vals <- foldM (fun vs t => y <- prol_entry offs cofs buf ce row t ;; Ret (vs ++ [y])) (seq 0 n) [] ;;
          prol <- wr prol d (ds, vals) ;; Ret (prol, Datatypes.S row)) (seq 0 n_fe) st) fes (prol, 0%nat) ;;
      col0 <- foldM (fun c i => y <- prol_entry offs cofs buf ce i 0 ;; Ret (c ++ [y])) (seq 0 (snd st)) [] ;;
      flow <- wr flow ce (dot col0 f) ;;
      Ret (fst st, flow)
    else Ret (prol, flow)) order st.
(** the whole of part I (283-483): offsets of the coarse dofs, coarse preserved vectors, rows of the prolongation, flow[0] of the coarse edges *)
Definition coarsen_facets : res (list nat * list (list R) * list (list nat * list R) * list R) :=
  ot <- computeCFBufferSize ;; let (offs, tot) := ot : list nat * nat in
  cb <- computeCFProlBlocks offs (Initialize nc) (repeat 0 tot) ;; let (cofs, buf) := cb : list nat * list R in
  cofs <- Finalize nc cofs ;;
  tot <- GetNDOF_all cofs ;;
  vecs <- read_vecs offs cofs buf (repeat (repeat 0 tot) np) ;;
  nf <- GetNDOF_all (f_off S) ;;
  pf <- prol_rows offs cofs buf (repeat ([], []) nf, repeat 0 nc) ;;
  Ret (cofs, vecs, fst pf, snd pf).
End Pres.
