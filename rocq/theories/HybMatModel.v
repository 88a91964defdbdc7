(** Model of the splitting of a distributed sparse matrix into M and G, /repo/src/base/linalg/hybrid_matrix.cpp.

    Ranks are numbered, and partners are addressed by rank instead of by their position kp in ex_procs, as in DccModel.v; ranks that share nothing exchange empty lists.
    The messages (comm.ISend / comm.Recv of whole matrices, :93, :106) are handed over directly: one message per ordered pair of neighbours, all sent before the first receive.
    Rows of a SparseMatrix are (column, value) pairs; the two-pass "count, then fill" idiom is a single append. *)
From Verif Require Import Base AGroup LinAlg ArraysModel EQCModel DccModel.
Local Open Scope nat_scope.

Section Hyb.
  Context {B : Blk}.
  Local Notation M := (M B). Local Notation row := (@row B). Local Notation spmat := (@spmat B).
  Variable dps : list (list (list nat)).
  Notation np := (nranks dps).
  Definition zs (l : list nat) : list Z := map Z.of_nat l.

  (** SPM_DIAG, :52-87: the submatrix on the given dofs *)
  Definition spm_diag (A : spmat) (dofs : list nat) : res spmat :=
    mapM (fun d => row <- rd A d ;;
      foldM (fun acc (p : nat * M) => pos <- find_in_sorted_array (Z.of_nat (fst p)) (zs dofs) ;; Ret (match pos with Some i => acc ++ [(i, snd p)] | None => acc end)) row []) dofs.

  (** which of the received matrices have a row for this dof, :142-152 *)
  Definition next_mats (r : nat) (at_row : list nat) (rownr : nat) : res (list nat * list nat) :=
    foldM (fun (s : list nat * list nat) p =>
      let (matis, at_row) := s in
      let exds := m_ex dps r p in
      ar <- rd at_row p ;;
      if ar =? length exds then Ret (matis, at_row) else
      d <- rd exds ar ;;
      if rownr <? d then Ret (matis, at_row) else
      at_row <- wr at_row p (S ar) ;; Ret (matis ++ [p], at_row)) (seq 0 np) ([], at_row).
  (** the current row of a received matrix, its columns renumbered in place the first time, :157-172 *)
  Definition remap_row (mxd : list nat) (ro : row) : res row := mapM (fun p : nat * M => c <- rd mxd (fst p) ;; Ret (c, snd p)) ro.
  Definition take_row (map_exd : bool) (r : nat) (at_row : list nat) (s : list spmat * list (list nat)) (p : nat) : res (list spmat * list (list nat)) :=
    let (recv, cols) := s in
    mat <- rd recv p ;; a <- rd at_row p ;; ro <- rd mat (a - 1) ;;
    ro <- (if map_exd then remap_row (m_ex dps r p) ro else Ret ro) ;;
    mat <- wr mat (a - 1) ro ;; recv <- wr recv p mat ;; Ret (recv, cols ++ [map fst ro]).
  (** iterate_rowinds for one row, :129-215: the matrices and columns handed to fun, if it is called *)
  Definition visit (map_exd : bool) (r : nat) (A : spmat) (recv : list spmat) (at_row : list nat) (rownr : nat) : res (option (list nat * list nat) * list spmat * list nat) :=
    if negb (is_master dps r rownr) then Ret (None, recv, at_row) else
    arow <- rd A rownr ;;
    let mrowis := filter (is_master dps r) (map fst arow) in
    match dproc dps r rownr with
    | [] => Ret (Some ([], mrowis), recv, at_row)
    | _ :: _ =>
      ' ma <- next_mats r at_row rownr ;;
      let (matis, at_row) := ma : list nat * list nat in
      ' rc <- foldM (take_row map_exd r at_row) matis (recv, []) ;;
      let (recv, cols) := rc : list spmat * list (list nat) in
      merged <- ArraysModel.merge_arrays (map zs (cols ++ [mrowis])) ;;
      Ret (Some (matis, map Z.to_nat merged), recv, at_row)
    end.
  (** first pass: sizes, columns of the received rows renumbered, :217-222 *)
  Definition pass1 (r : nat) (A : spmat) (recv : list spmat) : res (list nat * list spmat * list nat) :=
    foldM (fun (s : list nat * list spmat * list nat) rownr =>
      let '(perow, recv, at_row) := s in
      ' v <- visit true r A recv at_row rownr ;;
      let '(call, recv, at_row) := v : option (list nat * list nat) * list spmat * list nat in
      match call with
      | None => Ret (perow, recv, at_row)
      | Some (_, rowis) => perow <- wr perow rownr (length rowis) ;; Ret (perow, recv, at_row)
      end) (seq 0 (length A)) (repeat 0 (length A), recv, repeat 0 np).
  (** add_vals, :236-246 *)
  Definition add_vals (ris : list nat) (rvs : list M) (ro : row) : res (list M) :=
    foldM (fun rvs (p : nat * M) => pos <- find_in_sorted_array (Z.of_nat (fst p)) (zs ris) ;;
      match pos with Some i => w <- rd rvs i ;; wr rvs i (madd w (snd p)) | None => Ret rvs end) ro rvs.
  (** second pass: columns and values, :228-257; the row must have the allocated size *)
  Definition pass2 (r : nat) (A : spmat) (recv : list spmat) (perow : list nat) : res (spmat * list nat) :=
    foldM (fun (s : spmat * list nat) rownr =>
      let (Mm, at_row) := s in
      ' v <- visit false r A recv at_row rownr ;;
      let '(call, _, at_row) := v : option (list nat * list nat) * list spmat * list nat in
      match call with
      | None => Ret (Mm, at_row)
      | Some (matis, ris) =>
        n <- rd perow rownr ;; if negb (n =? length ris) then Err OutOfBounds else
        arow <- rd A rownr ;; rvs <- add_vals ris (repeat m0 (length ris)) arow ;;
        rvs <- foldM (fun rvs kp => mat <- rd recv kp ;; a <- rd at_row kp ;; ro <- rd mat (a - 1) ;; add_vals ris rvs ro) matis rvs ;;
        Mm <- wr Mm rownr (combine ris rvs) ;; Ret (Mm, at_row)
      end) (seq 0 (length A)) (repeat [] (length A), repeat 0 np).
  (** G: entries between dofs with different masters, :263-302 *)
  Definition masters (r H : nat) : res (list (option nat)) :=
    foldM (fun mo p => foldM (fun mo d => wr mo d (Some p)) (g_ex dps r p) mo) (seq 0 np) (repeat None H).
  Definition oeqb (a b : option nat) : bool := match a, b with None, None => true | Some x, Some y => x =? y | _, _ => false end.
  Definition build_G (r : nat) (A : spmat) : res spmat :=
    mo <- masters r (length A) ;;
    mapM (fun rownr => ro <- rd A rownr ;; mrow <- rd mo rownr ;;
      foldM (fun acc (p : nat * M) => mc <- rd mo (fst p) ;; Ret (if oeqb mc mrow then acc else acc ++ [p])) ro []) (seq 0 (length A)).
  (** DecomposeSparseMatrixHybrid on one rank, given the received matrices, :15-307; no neighbours: M = A, no G, :47-53 *)
  Definition decompose (r : nat) (A : spmat) (recv : list spmat) : res (spmat * option spmat) :=
    if forallb (fun d => match d with [] => true | _ => false end) (nth r dps []) then Ret (A, None) else
    ' p1 <- pass1 r A recv ;;
    let '(perow, recv, _) := p1 : list nat * list spmat * list nat in
    ' p2 <- pass2 r A recv perow ;;
    let (Mm, _) := p2 : spmat * list nat in
    G <- build_G r A ;; Ret (Mm, Some G).
  (** all ranks *)
  Definition Decompose (As : list spmat) : res (list (spmat * option spmat)) :=
    sent <- mapM (fun r => mapM (fun p => spm_diag (nth r As []) (g_ex dps r p)) (seq 0 np)) (seq 0 np) ;;
    mapM (fun r => decompose r (nth r As []) (map (fun p => nth r (nth p sent []) []) (seq 0 np))) (seq 0 np).

  (** HybridBaseMatrix::Mult, :427-447, on cumulated x: M x, + G x if this rank has a G *)
  Definition hyb_mult (MG : spmat * option spmat) (x : list (X B)) : list (X B) :=
    let y := matvec (fst MG) x in match snd MG with Some G => y +v matvec G x | None => y end.
End Hyb.
