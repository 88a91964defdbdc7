(** Model of the redistribution step CtrMap, /repo/src/base/coarsening/dof_contract.cpp (class: dof_contract.hpp:12-78).

    A group of ranks hands its dofs over to the first of them, the master (number 0 of the group here).  The group is
    modelled as a whole: the lists below have one entry per member of the group, entry 0 is the master.  The messages go
    between the master and one member only, one in each direction and call, so that a message is handed over directly;
    the completion order of NG_MPI_Waitany is an argument of the model.  A message that is sent without a receive or
    expected without a send is [Err Thrown] (the program hangs or the message is taken for the next one), a message
    longer than the receive buffer [Err OutOfBounds] (MPI truncation), reading a buffer cell no message has filled
    [Err Uninit].
    Simplifications: exact arithmetic; BaseVector::Cumulate (communication over the whole communicator) happens before
    the calls below, which take the cumulated content, and so does BaseVector::Distribute (local: entries of dofs owned by
    another rank become zero), so that the calls for distributed vectors take the distributed content; timers and the TAU hooks are dropped. *)
From Verif Require Import Base ArraysModel LinAlg SparseModel MergeModel BlockModel.
Open Scope nat_scope.

(** members of CtrMap that matter, dof_contract.hpp:66-75: [dof_maps] (only on the master), the index lists of
    [NG_MPI_types] and the row sizes of [buffers] on the master, the size of [buffers[0]] on each member *)
Record ctr := mkCtr { dof_maps : list (list nat); mpi_types : list (list nat); buffers : list nat; mem_buffers : list nat }.
(** the constructor, dof_contract.cpp:9-19: communication buffers are not set up *)
Definition CtrMap (maps : list (list nat)) : ctr := mkCtr maps [] [] (map (fun _ => 0) maps).

(** SetUpMPIStuff, dof_contract.cpp:507-547; [ns] = GetNDofLocal() of the group members.  If the master's buffer table
    already has one row per member, nothing happens on the master; the others have a table with one row and set it up
    (for a group of one rank there are no others). *)
Definition SetUpMPIStuff (ns : list nat) (c : ctr) : ctr :=
  let mem := ns in
  if length (buffers c) =? length (dof_maps c) then mkCtr (dof_maps c) (mpi_types c) (buffers c) mem
  else mkCtr (dof_maps c) (dof_maps c) (map (fun kp => match fst kp with 0 => 0 | _ => length (snd kp) end) (numbered (dof_maps c))) mem.

Section Transfer.
  Context {B : Blk}.
  Notation vec := (list (X B)).
  (** the receives posted by the master, 81-93, with the data that arrives: for every kp >= 1 the (filled part of the)
      buffer row, None for members that take no part *)
  Definition post_recv (c : ctr) (fines : list vec) (kp : nat) : res (option vec) :=
    map <- rd (dof_maps c) kp ;;
    msg <- rd fines kp ;;
    if 0 <? length map then
      size <- rd (buffers c) kp ;;
      if 0 <? length msg then (if length msg <=? size then Ret (Some msg) else Err OutOfBounds) else Err Thrown
    else (_ <- rd (buffers c) kp ;; if 0 <? length msg then Err Thrown else Ret None).
  Fixpoint mapM {A C} (f : A -> res C) (l : list A) : res (list C) :=
    match l with [] => Ret [] | a :: t => y <- f a ;; t <- mapM f t ;; Ret (y :: t) end.
  (** [for (j : Range(map)) fvc(map[j]) += fac * buf[j]], 94-95 and 101-104 *)
  Definition add_mapped (fac : K B) (map : list nat) (buf : vec) (fvc : vec) : res vec :=
    foldM (fun fvc jm => b <- (match nth_error buf (fst jm) with Some b => Ret b | None => Err Uninit end) ;;
                         v <- rd fvc (snd jm) ;; wr fvc (snd jm) (xadd v (xsc fac b))) (numbered map) fvc.
  (** CtrMap::AddF2C, 65-110; [fines]: the fine vectors after Distribute, [fvc]: the coarse vector of the master after
      Distribute, [order]: the order in which Waitany reports the requests *)
  Definition AddF2C (c : ctr) (order : list nat) (fac : K B) (fines : list vec) (fvc : vec) : res vec :=
    bufs <- mapM (post_recv c fines) (seq 1 (length (dof_maps c) - 1)) ;;
    loc_map <- rd (dof_maps c) 0 ;;
    fvf <- rd fines 0 ;;
    fvc <- add_mapped fac loc_map fvf fvc ;;
    foldM (fun fvc kp => map <- rd (dof_maps c) kp ;;
                         b <- rd bufs (kp - 1) ;;
                         match b with Some buf => add_mapped fac map buf fvc | None => Err Thrown end) order fvc.
  (** CtrMap::TransferF2C, 47-62: the coarse vector (of size nc) is set to zero and marked distributed first *)
  Definition TransferF2C (c : ctr) (order : list nat) (nc : nat) (fines : list vec) : res vec := AddF2C c order k1 fines (vzero nc).

  (** Isend of one element of type NG_MPI_types[kp] at the start of the coarse vector, 140-145 and 189-194: the
      entries at the indices of the type *)
  Definition send_part (c : ctr) (fvc : vec) (kp : nat) : res (option vec) :=
    map <- rd (dof_maps c) kp ;;
    if 0 <? length map then ty <- rd (mpi_types c) kp ;; msg <- mapM (rd fvc) ty ;; Ret (Some msg) else Ret None.
  (** a receive of [n] entries (no receive for n = 0) meets a message: number of filled entries *)
  Definition meet (n : nat) (msg : option vec) : res vec :=
    match msg with
    | Some m => if n =? 0 then Err Thrown else if length m <=? n then Ret m else Err OutOfBounds
    | None => if n =? 0 then Ret [] else Err Thrown
    end.
  (** a member in TransferC2F, 126-133: the message goes straight into the vector, entries behind it stay *)
  Definition recv_into (msg : option vec) (x : vec) : res vec := m <- meet (length x) msg ;; Ret (m ++ skipn (length m) x).
  (** a member in AddC2F, 172-183: the message goes into buffers[0] *)
  Definition recv_add (size : nat) (fac : K B) (msg : option vec) (x : vec) : res vec :=
    if length x =? 0 then (_ <- meet 0 msg ;; Ret x)
    else m <- (match msg with Some m => if length m <=? size then Ret m else Err OutOfBounds | None => Err Thrown end) ;;
         foldM (fun x k => if k <? size then b <- (match nth_error m k with Some b => Ret b | None => Err Uninit end) ;;
                                             v <- rd x k ;; wr x k (xadd v (xsc fac b))
                           else Err OutOfBounds) (seq 0 (length x)) x.
  (** the master's own part, 146-148 and 196-199 *)
  Definition loc_set (map : list nat) (fvc fvf : vec) : res vec :=
    foldM (fun x jm => v <- rd fvc (snd jm) ;; wr x (fst jm) v) (numbered map) fvf.
  Definition loc_add (fac : K B) (map : list nat) (fvc fvf : vec) : res vec :=
    foldM (fun x jm => v <- rd fvc (snd jm) ;; o <- rd x (fst jm) ;; wr x (fst jm) (xadd o (xsc fac v))) (numbered map) fvf.
  (** CtrMap::TransferC2F, 113-159; [fvc]: the coarse vector after Cumulate, [fines]: old contents of the fine vectors *)
  Definition TransferC2F (c : ctr) (fines : list vec) (fvc : vec) : res (list vec) :=
    loc_map <- rd (dof_maps c) 0 ;;
    f0 <- rd fines 0 ;;
    f0 <- loc_set loc_map fvc f0 ;;
    rest <- mapM (fun kp => x <- rd fines kp ;; m <- send_part c fvc kp ;; recv_into m x) (seq 1 (length (dof_maps c) - 1)) ;;
    Ret (f0 :: rest).
  (** CtrMap::AddC2F, 162-213; both vectors after Cumulate *)
  Definition AddC2F (c : ctr) (fac : K B) (fines : list vec) (fvc : vec) : res (list vec) :=
    loc_map <- rd (dof_maps c) 0 ;;
    f0 <- rd fines 0 ;;
    f0 <- loc_add fac loc_map fvc f0 ;;
    rest <- mapM (fun kp => x <- rd fines kp ;; m <- send_part c fvc kp ;; size <- rd (mem_buffers c) kp ;; recv_add size fac m x)
                 (seq 1 (length (dof_maps c) - 1)) ;;
    Ret (f0 :: rest).
End Transfer.

(** insertion of an index into a list of indices ordered by their keys *)
Fixpoint ins_key (key : nat -> nat) (i : nat) (l : list nat) : list nat :=
  match l with [] => [i] | j :: t => if key i <=? key j then i :: l else j :: ins_key key i t end.
(** QuickSortI(data, inds) of ngcore applied to inds = 0..n-1: afterwards the data read through the indices is ascending.
    (For data without duplicates there is only one such order; modelled by insertion.) *)
Definition QuickSortI (data : list nat) : list nat := fold_right (ins_key (fun i => nth i data 0)) [] (seq 0 (length data)).

Section Assemble.
  Context {E : Type} (e0 : E) (eadd : E -> E -> E).
  Notation mat := (smat E).
  (** 616-631 QS_COL_VAL: the index order is applied in place to columns and values (cells are swapped together); the
      loop is the one of ApplyPermutation, utils_arrays_tables.hpp:163-177 *)
  Definition QS_COL_VAL (r : srow E) : res (srow E) :=
    ' p <- ApplyPermutation r (map Z.of_nat (QuickSortI (cols r))) ;; Ret (fst p).
  (** 641-646, 659-663, 669-673: columns to the new numbers; the flag tells whether somewhere a column is smaller than
      the previous one (the first one is compared with 0) *)
  Definition remap (map : list nat) (r : srow E) : res (srow E * bool) :=
    ' p <- foldM (fun st e => let '(out, last, needs) := st in
                              c <- rd map (fst e) ;; Ret (out ++ [(c, snd e)], c, needs || (c <? last))) r ([], 0, false) ;;
    let '(out, _, needs) := p in Ret (out, needs).
  (** 594-601: row i of the reverse map lists the (k, j) such that row j of matrix k goes to row i *)
  Definition reverse_items (maps : list (list nat)) : list (nat * (nat * nat)) :=
    flat_map (fun km => map (fun jd => (snd jd, (fst km, fst jd))) (numbered (snd km))) (numbered maps).
  Definition reverse_map (cndof : nat) (maps : list (list nat)) : res (list (list (nat * nat))) := count_fill cndof (reverse_items maps).
  Definition nze (A : mat) : nat := list_sum (map (@length _) A).
  Definition get_row (mats : list mat) (km jm : nat) : res (srow E) := A <- rd mats km ;; rd A jm.
  Definition set_row (mats : list mat) (km jm : nat) (r : srow E) : res (list mat) := A <- rd mats km ;; A <- wr A jm r ;; wr mats km A.
  (** one source row of a merge, 654-679: the rows of received matrices are renumbered in place (a pointer to them is kept,
      [Some]), those of the own matrix in mc_buffer ([None]: pointer to mc_buffer) *)
  Definition merge_source (maps : list (list nat)) (st : list mat * list nat * list (option (list nat))) (s : nat * nat)
    : res (list mat * list nat * list (option (list nat))) :=
    let '(mats, mc, ptrs) := st in
    let '(km, jm) := s in
    map <- rd maps km ;;
    r <- get_row mats km jm ;;
    ' p <- remap map r ;;
    let '(r', needs) := p in
    if negb (km =? 0) then
      r'' <- (if needs : bool then QS_COL_VAL r' else Ret r') ;;
      mats <- set_row mats km jm r'' ;;
      Ret (mats, mc, ptrs ++ [Some (cols r'')])
    else Ret (mats, (if needs then sort_nat (cols r') else cols r'), ptrs ++ [None]).
  (** one row of the symbolic phase, 633-682; state: matrices, colnr_buffer so far ([cap] entries allocated), perow *)
  Definition sym_row (maps : list (list nat)) (rmap : list (list (nat * nat))) (cap : nat)
    (st : list mat * list nat * list nat) (rownr : nat) : res (list mat * list nat * list nat) :=
    let '(mats, buf, perow) := st in
    rm <- rd rmap rownr ;;
    match rm with
    | [] => Ret (mats, buf, perow ++ [0])
    | [(km, jm)] =>
        dmap <- rd maps km ;;
        r <- get_row mats km jm ;;
        ' p <- remap dmap r ;;
        let '(r', needs) := p in
        let cs := if needs : bool then sort_nat (cols r') else cols r' in
        if length buf + length cs <=? cap then Ret (mats, buf ++ cs, perow ++ [length cs]) else Err OutOfBounds
    | _ =>
        ' p <- foldM (merge_source maps) rm (mats, [], []) ;;
        let '(mats, mc, ptrs) := p in
        cs <- MergeCols (map (fun o => match o with Some l => l | None => mc end) ptrs) ;;
        if length buf + length cs <=? cap then Ret (mats, buf ++ cs, perow ++ [length cs]) else Err OutOfBounds
    end.
  (** find_in_sorted_array(c, ris) used as an index *)
  Definition find_pos (c : nat) (ris : list nat) : res nat :=
    ' o <- find_in_sorted_array (Z.of_nat c) (map Z.of_nat ris) ;;
    match o with Some p => Ret p | None => Err OutOfBounds end.
  (** values of a row that comes from one matrix only, 696-709: the cells are not initialised *)
  Definition fill_single (dmap ris : list nat) (r : srow E) : res (list E) :=
    cells <- foldM (fun cells e => c <- rd dmap (fst e) ;; pos <- find_pos c ris ;; wr cells pos (Some (snd e))) r (repeat None (length ris)) ;;
    freeze_row cells.
  (** values of the other rows, 710-722: rows of received matrices are already renumbered *)
  Definition fill_multi (maps : list (list nat)) (mats : list mat) (ris : list nat) (rm : list (nat * nat)) : res (list E) :=
    foldM (fun vals s => let '(km, jm) := s in
             dmap <- rd maps km ;;
             r <- get_row mats km jm ;;
             foldM (fun vals e => c <- (if km =? 0 then rd dmap (fst e) else Ret (fst e)) ;;
                                  pos <- find_pos c ris ;; v <- rd vals pos ;; wr vals pos (eadd v (snd e))) r vals)
          rm (repeat e0 (length ris)).
  (** one row of the fill phase, 689-723; state: rows so far, position in colnr_buffer *)
  Definition fill_row (maps : list (list nat)) (mats : list mat) (rmap : list (list (nat * nat))) (buf perow : list nat)
    (st : mat * nat) (rownr : nat) : res (mat * nat) :=
    let '(out, pos) := st in
    n <- rd perow rownr ;;
    ris <- mapM (fun j => rd buf (pos + j)) (seq 0 n) ;;
    rm <- rd rmap rownr ;;
    vals <- (match rm with
             | [(km, jm)] => dmap <- rd maps km ;; r <- get_row mats km jm ;; fill_single dmap ris r
             | _ => fill_multi maps mats ris rm
             end) ;;
    Ret (out ++ [combine ris vals], pos + n).
  (** CtrMap::DoAssembleMatrix on the master, 560-729, for the matrices of the group members ([mats], number 0 is the own
      one) and [cndof] dofs after the redistribution *)
  Definition AssembleMatrix (cndof : nat) (maps : list (list nat)) (mats : list mat) : res mat :=
    rmap <- reverse_map cndof maps ;;
    cap <- foldM (fun s k => A <- rd mats k ;; Ret (s + nze A)) (seq 0 (length maps)) 0 ;;
    ' p <- foldM (sym_row maps rmap cap) (seq 0 cndof) (mats, [], []) ;;
    let '(mats, buf, perow) := p in
    ' q <- foldM (fill_row maps mats rmap buf perow) (seq 0 cndof) ([], 0) ;;
    Ret (fst q).

  (** get_rows of SwapWithProl, dof_contract.cpp:361-397: rows [dmap] of P (width [w]) with the columns renumbered by the
      ascending list of columns that occur; result: that list and the chunk *)
  Definition get_rows (w : nat) (P : mat) (dmap : list nat) : res (list nat * mat) :=
    ' p <- foldM (fun st rownr => let '(space, cnt) := st in
               r <- rd P rownr ;;
               foldM (fun st e => let '(space, cnt) := st in
                        b <- rd space (fst e) ;;
                        if b : bool then Ret (space, cnt) else space <- wr space (fst e) true ;; Ret (space, S cnt)) r (space, cnt))
             dmap (repeat false w, 0) ;;
    let '(space, cnt_cols) := p in
    ' q <- foldM (fun st k => let '(rmap, dm, cnt) := st in
               b <- rd space k ;;
               if b : bool then rmap <- wr rmap k (Z.of_nat cnt) ;; dm <- wr dm cnt (Some k) ;; Ret (rmap, dm, S cnt)
               else Ret (rmap, dm, cnt)) (seq 0 w) (repeat (-1)%Z w, repeat None cnt_cols, 0) ;;
    let '(rmap, dm, _) := q in
    new_dmap <- freeze_row dm ;;
    chunk <- mapM (fun rownr => r <- rd P rownr ;;
               cells <- foldM (fun st e => let '(cells, c) := st in
                         newcol <- rd rmap (fst e) ;;
                         if negb (newcol =? -1)%Z then cells <- wr cells c (Some (Z.to_nat newcol, snd e)) ;; Ret (cells, S c)
                         else Ret (cells, c)) r (repeat None (length r), 0) ;;
               freeze_row (fst cells)) dmap ;;
    Ret (new_dmap, chunk).
  (** SwapWithProl, dof_contract.cpp:313-503: one chunk per group member, the dof maps are replaced, the communication
      buffers and types are not touched *)
  Definition SwapWithProl (w : nat) (P : mat) (c : ctr) : res (ctr * list mat) :=
    l <- mapM (get_rows w P) (dof_maps c) ;;
    Ret (mkCtr (map fst l) (mpi_types c) (buffers c) (mem_buffers c), map snd l).
End Assemble.
