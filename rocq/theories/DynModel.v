(** Model of the dynamic block matrix DynBlockSparseMatrix, /repo/src/base/linalg/dyn_block.{hpp,cpp}, dyn_block_impl.hpp,
    and of its smoother DynBlockSmoother, /repo/src/base/smoothers/dyn_block_smoother.{hpp,cpp}.

    Simplifications: exact arithmetic in an arbitrary block algebra (the code is instantiated for double only); index types
    are unbounded naturals; an array that is only ever filled from left to right ([_cols[colOff++] = ...],
    [_rowOffsets[cnt + 1] = ...]) is its filled prefix, with the allocated size as a capacity (a write beyond it is
    [Err OutOfBounds]); NGSolve's QuickSort with the lexicographic comparison is a parameter [qsort], the inner QuickSort is
    insertion sort; CalcInverse is a parameter [minv]; the work buffers of a call are its local variables (their sizes are
    checked); timers are dropped.  MultTrans, MultTransAdd, MultConjTransAdd and the product MatMultAB of two such matrices
    always throw and are not modelled. *)
From Verif Require Import Base ArraysModel LinAlg GSModel SparseModel BlockModel EQCModel CtrModel.
Open Scope nat_scope.

(** dyn_block.cpp:13-38 *)
Fixpoint lexiLess_go (a b : list nat) : bool :=
  match a, b with
  | x :: a', y :: b' => if x <? y then true else if y <? x then false else lexiLess_go a' b'
  | _, _ => false
  end.
Definition lexiLess (a b : list nat) : bool :=
  if length a =? length b then lexiLess_go a b else length a <? length b.

(** [a[cnt++] = v] on an array of size cap *)
Definition push {T} (cap : nat) (l : list T) (v : T) : res (list T) :=
  if length l <? cap then Ret (l ++ [v]) else Err OutOfBounds.
(** FlatArray::Range(lo, hi) *)
Definition range {T} (l : list T) (lo hi : nat) : list T := firstn (hi - lo) (skipn lo l).

(** DynVectorBlocking, dyn_block.hpp:15-107, dyn_block.cpp:43-96: number of blocks, number of scalars, offsets *)
Record blocking := mkBk { bk_size : nat; bk_scal : nat; bk_off : list nat }.
(** GetScalNums, dyn_block.hpp:34-37 *)
Definition scal_nums (bk : blocking) (b : nat) : res (list nat) :=
  lo <- rd (bk_off bk) b ;; hi <- rd (bk_off bk) (S b) ;; Ret (seq lo (hi - lo)).
(** ItScalNums, dyn_block.hpp:53-93: the scalars of the blocks, in order; the lambda gets the position in this list *)
Definition it_nums (bk : blocking) (bs : list nat) : res (list nat) :=
  foldM (fun acc b => s <- scal_nums bk b ;; Ret (acc ++ s)) bs [].

Section Dyn.
  Context {B : Blk}.
  Notation vec := (list (X B)).
  Variable qsort : (nat -> nat -> bool) -> list nat -> list nat.
  (** the stored columns of a row, A.GetRowIndices *)
  Definition rcols (r : @row B) : list nat := map fst r.

  (** DynBlockSparseMatrix, dyn_block.hpp:273-298 *)
  Record dyn := mkDyn {
    d_row : blocking; d_col : blocking; d_num : nat;
    d_rowOff : list nat; d_rows : list nat; d_colOff : list nat; d_cols : list nat; d_dataOff : list nat; d_data : list (M B);
    d_maxC : nat; d_maxR : nat }.

  (** the constructor, dyn_block.cpp:103-136: chunks of consecutive rows with identical columns *)
  Definition row_blocking (A : @spmat B) : res blocking :=
    let n := length A in
    if 0 <? n then
      offs <- foldM (fun offs k => a <- rd A (k - 1) ;; b <- rd A k ;;
                                   if list_eqb (rcols a) (rcols b) then Ret offs else push (S n) offs k) (seq 1 (n - 1)) [0] ;;
      offs <- push (S n) offs n ;;
      Ret (mkBk (length offs - 1) n offs)
    else Ret (mkBk 0 n [0]).

  (** Finalize, dyn_block.cpp:286-299: block of each scalar column *)
  Definition scal2Block (cb : blocking) : res (list (option nat)) :=
    foldM (fun s2b b => cs <- scal_nums cb b ;; foldM (fun s2b c => wr s2b c (Some b)) cs s2b)
          (seq 0 (bk_size cb)) (repeat None (bk_scal cb)).
  Definition cell {T} (l : list (option T)) (i : nat) : res T :=
    o <- rd l i ;; match o with Some v => Ret v | None => Err Uninit end.
  (** columns of the row of A that represents block-row b, A.GetRowIndices(_rowBlocking.GetRepScalRow(b)) *)
  Definition rep_cols (A : @spmat B) (rb : blocking) (b : nat) : res (list nat) :=
    r <- rd (bk_off rb) b ;; a <- rd A r ;; Ret (rcols a).
  (** the same as a total function, for the comparison handed to QuickSort *)
  Definition rep_key (A : @spmat B) (rb : blocking) (b : nat) : list nat := rcols (getrow A (nth b (bk_off rb) 0)).

  (** 322-345: capacity of _cols *)
  Definition max_col_size (A : @spmat B) (rb : blocking) (rows : list nat) : res nat :=
    first <- (if 0 <? bk_scal rb then a <- rd A 0 ;; Ret (length (rcols a)) else Ret 0) ;;
    foldM (fun m k => a <- rd rows (k - 1) ;; b <- rd rows k ;;
                      ca <- rep_cols A rb a ;; cb <- rep_cols A rb b ;;
                      Ret (if list_eqb ca cb then m else m + length cb)) (seq 1 (bk_size rb - 1)) (256 + first).

  Record fin := mkFin { f_rowOff : list nat; f_rows : list nat; f_colOff : list nat; f_cols : list nat;
                        f_dataOff : list nat; f_data : list (M B); f_maxC : nat; f_maxR : nat }.
  (** 410-425: the block columns of a list of scalar columns, consecutive duplicates dropped *)
  Definition push_cols (s2b : list (option nat)) (cap : nat) (scalCols : list nat) (cols : list nat) : res (list nat) :=
    match scalCols with
    | [] => Ret cols
    | c0 :: cs =>
        col <- cell s2b c0 ;;
        cols <- push cap cols col ;;
        ' (cols, _) <- foldM (fun st c => let (cols, col) := st : list nat * nat in
                                          colJ <- cell s2b c ;;
                                          if col =? colJ then Ret (cols, col)
                                          else (cols <- push cap cols colJ ;; Ret (cols, colJ))) cs (cols, col) ;;
        Ret cols
    end.
  (** the lambda getColsVals, 373-440 *)
  Definition getColsVals (A : @spmat B) (rb : blocking) (s2b : list (option nat)) (nze capC nRows : nat) (kBlock : nat) (f : fin) : res fin :=
    lo <- rd (f_rowOff f) kBlock ;; hi <- rd (f_rowOff f) (S kBlock) ;;
    let blockRows := sort_nat (range (f_rows f) lo hi) in
    let rows := firstn lo (f_rows f) ++ blockRows ++ skipn hi (f_rows f) in
    fb <- rd blockRows 0 ;;
    scalCols <- rep_cols A rb fb ;;
    srows <- it_nums rb blockRows ;;
    data <- foldM (fun data r => a <- rd A r ;; foldM (push nze) (map snd a) data) srows (f_data f) ;;
    cols <- push_cols s2b capC scalCols (f_cols f) ;;
    dataOff <- push (S nRows) (f_dataOff f) (length data) ;;
    colOff <- push (S nRows) (f_colOff f) (length cols) ;;
    Ret (mkFin (f_rowOff f) rows colOff cols dataOff data (Nat.max (f_maxC f) (length scalCols)) (Nat.max (f_maxR f) (length srows))).
  (** Finalize, 281-498 *)
  Definition Finalize (A : @spmat B) (rb cb : blocking) : res dyn :=
    s2b <- scal2Block cb ;;
    let nRows := bk_size rb in
    let rows := qsort (fun i j => lexiLess (rep_key A rb i) (rep_key A rb j)) (seq 0 nRows) in
    capC <- max_col_size A rb rows ;;
    let nze := length (concat A) in
    f <- foldM (fun f k => a <- rd (f_rows f) (k - 1) ;; b <- rd (f_rows f) k ;;
                           ca <- rep_cols A rb a ;; cb <- rep_cols A rb b ;;
                           if list_eqb ca cb then Ret f
                           else (rowOff <- push (S nRows) (f_rowOff f) k ;;
                                 getColsVals A rb s2b nze capC nRows (length (f_rowOff f) - 1)
                                   (mkFin rowOff (f_rows f) (f_colOff f) (f_cols f) (f_dataOff f) (f_data f) (f_maxC f) (f_maxR f))))
               (seq 1 (nRows - 1)) (mkFin [0] rows [0] [] [0] [] 0 0) ;;
    f <- (if 0 <? nRows then rowOff <- push (S nRows) (f_rowOff f) nRows ;;
                             Ret (mkFin rowOff (f_rows f) (f_colOff f) (f_cols f) (f_dataOff f) (f_data f) (f_maxC f) (f_maxR f))
          else Ret f) ;;
    f <- (if 0 <? bk_scal rb then getColsVals A rb s2b nze capC nRows (length (f_rowOff f) - 2) f else Ret f) ;;
    Ret (mkDyn rb cb (length (f_rowOff f) - 1) (f_rowOff f) (f_rows f) (f_colOff f) (f_cols f) (f_dataOff f) (f_data f) (f_maxC f) (f_maxR f)).
  (** the constructors, dyn_block.cpp:101-150 (colBlocking given or not) and ConvertToDynSPM, 1203-1209 *)
  Definition DynBlockSparseMatrix (A : @spmat B) (colBlocking : option blocking) : res dyn :=
    rb <- row_blocking A ;;
    Finalize A rb (match colBlocking with None => rb | Some cb => cb end).
  Definition ConvertToDynSPM (A : @spmat B) : res dyn := DynBlockSparseMatrix A None.

  (** GetBlockRows / GetBlockCols, dyn_block.hpp:191-199 *)
  Definition block_rows (D : dyn) (k : nat) : res (list nat) :=
    lo <- rd (d_rowOff D) k ;; hi <- rd (d_rowOff D) (S k) ;; Ret (range (d_rows D) lo hi).
  Definition block_cols (D : dyn) (k : nat) : res (list nat) :=
    lo <- rd (d_colOff D) k ;; hi <- rd (d_colOff D) (S k) ;; Ret (range (d_cols D) lo hi).
  (** FlatMatrix(h, w, _data.Data() + off) *)
  Definition flat_matrix {T} (data : list T) (h w off : nat) : res (list (list T)) :=
    mapM (fun l => mapM (fun j => rd data (off + l * w + j)) (seq 0 w)) (seq 0 h).
  (** reading the entries of a vector into a buffer of size cap *)
  Definition fill (cap : nat) (x : vec) (idx : list nat) : res vec :=
    if length idx <=? cap then mapM (rd x) idx else Err OutOfBounds.
  (** MultiplyBlock, 1064-1121 *)
  Definition MultiplyBlock (D : dyn) (out : X B -> X B -> X B) (x : vec) (y : vec) (k : nat) : res vec :=
    bcols <- block_cols D k ;;
    scols <- it_nums (d_col D) bcols ;;
    smallX <- fill (d_maxC D) x scols ;;
    brows <- block_rows D k ;;
    srows <- it_nums (d_row D) brows ;;
    if 0 <? length scols then
      df <- rd (d_dataOff D) k ;; dn <- rd (d_dataOff D) (S k) ;;
      let nScalRows := (dn - df) / length scols in
      if nScalRows <=? d_maxR D then
        rowVals <- flat_matrix (d_data D) nScalRows (length scols) df ;;
        let smallY := dmul rowVals smallX in
        foldM (fun y lr => s <- rd smallY (fst lr) ;; o <- rd y (snd lr) ;; wr y (snd lr) (out o s)) (numbered srows) y
      else Err OutOfBounds
    else foldM (fun y r => o <- rd y r ;; wr y r (out o x0)) srows y.
  (** MultiplyInternal, dyn_block.hpp:257-267 *)
  Definition MultiplyInternal (D : dyn) (out : X B -> X B -> X B) (x y : vec) : res vec :=
    foldM (MultiplyBlock D out x) (seq 0 (d_num D)) y.
  (** Mult, 962-972; MultAdd, 984-993 *)
  Definition DMult (D : dyn) (x y : vec) : res vec := MultiplyInternal D (fun _ s => s) x y.
  Definition DMultAdd (D : dyn) (s : K B) (x y : vec) : res vec := MultiplyInternal D (fun o v => xadd o (xsc s v)) x y.

  (** *** DynBlockSmoother *)
  Variable minv : @dense B -> @dense B.
  Variable m1 : M B.   (* 1.0 *)
  (** members, dyn_block_smoother.hpp:100-117: the (inverted) diagonal blocks, the block bits, omega *)
  Record dsm := mkDsm { s_A : dyn; s_diag : list (@dense B); s_free : option (list bool); s_omega : K B }.
  (** GetBlockRCV, dyn_block_impl.hpp:9-53 *)
  Definition GetBlockRCV (D : dyn) (k : nat) : res (list nat * list nat * @dense B) :=
    brows <- block_rows D k ;; bcols <- block_cols D k ;;
    srows <- it_nums (d_row D) brows ;; scols <- it_nums (d_col D) bcols ;;
    if (length srows <=? d_maxR D) && (length scols <=? d_maxC D) then
      df <- rd (d_dataOff D) k ;;
      rowBlock <- flat_matrix (d_data D) (length srows) (length scols) df ;;
      Ret (srows, scols, rowBlock)
    else Err OutOfBounds.
  (** diagBlock.Row(l) = 0; diagBlock.Col(l) = 0; diagBlock(l,l) = 1 (182-184) *)
  Definition unit_rc (l : nat) (D : @dense B) : @dense B :=
    map (fun ir => map (fun jv => if (fst ir =? l) || (fst jv =? l) then (if fst ir =? fst jv then m1 else m0) else snd jv) (numbered (snd ir))) (numbered D).
  (** diagBlock(l,l) = 0.0 (204-207) *)
  Definition zero_diag (l : nat) (D : @dense B) : @dense B :=
    map (fun ir => map (fun jv => if (fst ir =? l) && (fst jv =? l) then m0 else snd jv) (numbered (snd ir))) (numbered D).
  (** SetUp, dyn_block_smoother.cpp:48-232, one block: the diagonal block and whether the block is free *)
  Definition setup_block (D : dyn) (freeDofs : option (list bool)) (modDiag : list (M B)) (k : nat) : res (@dense B * bool) :=
    brows <- block_rows D k ;; bcols <- block_cols D k ;;
    srows <- it_nums (d_row D) brows ;; scols <- it_nums (d_col D) bcols ;;
    (* 91-103, 130: _dataOff[k+1] > _dataOff[k] *)
    if (0 <? length scols) && (0 <? length srows) then
      ' (srows, scols, rowBlock) <- GetBlockRCV D k ;;
      (* 143-148 *)
      diagPos <- foldM (fun dp ij => wr dp (fst ij) (Some (snd ij))) (iterate_intersection (map Z.of_nat srows) (map Z.of_nat scols)) (repeat None (length srows)) ;;
      (* 158-169 *)
      diag <- mapM (fun lr => row <- rd rowBlock (fst lr) ;;
                              r <- mapM (fun j => p <- cell diagPos j ;; rd row p) (seq 0 (length srows)) ;;
                              if 0 <? length modDiag then md <- rd modDiag (snd lr) ;; wr r (fst lr) md else Ret r) (numbered srows) ;;
      match freeDofs with
      | None => Ret (minv diag, false)
      | Some fd =>
          (* 175-209 *)
          bits <- mapM (rd fd) srows ;;
          let diag := fold_left (fun d lb => if snd lb : bool then d else unit_rc (fst lb) d) (numbered bits) diag in
          if existsb (fun b => b) bits then
            Ret (fold_left (fun d lb => if snd lb : bool then d else zero_diag (fst lb) d) (numbered bits) (minv diag), true)
          else Ret (diag, false)
      end
    else Ret ([], false).
  (** DynBlockSmoother(A, freeDofs, uRel) and (A, modDiag, freeDofs, uRel), dyn_block_smoother.cpp:20-45 *)
  Definition DynBlockSmoother (D : dyn) (freeDofs : option (list bool)) (modDiag : list (M B)) (uRel : K B) : res dsm :=
    bs <- mapM (setup_block D freeDofs modDiag) (seq 0 (d_num D)) ;;
    Ret (mkDsm D (map fst bs) (match freeDofs with None => None | Some _ => Some (map snd bs) end) uRel).

  (** x(scalRow) += up(l) *)
  Definition add_at (rows : list nat) (up x : vec) : res vec :=
    foldM (fun x lr => u <- rd up (fst lr) ;; o <- rd x (snd lr) ;; wr x (snd lr) (xadd o u)) (numbered rows) x.
  (** matrix of a fixed size times a vector: the sizes have to agree *)
  Definition dmulc (D : @dense B) (h : vec) : res vec :=
    if (length D =? length h) && forallb (fun r => length r =? length h) D then Ret (dmul D h) else Err OutOfBounds.
  (** updateBlockRHS, 239-292 *)
  Definition updateBlockRHS (S : dsm) (b x : vec) (k : nat) : res vec :=
    let D := s_A S in
    bcols <- block_cols D k ;; scols <- it_nums (d_col D) bcols ;;
    smallX <- fill (d_maxC D) x scols ;;
    if 0 <? length scols then
      brows <- block_rows D k ;; srows <- it_nums (d_row D) brows ;;
      smallB <- fill (d_maxR D) b srows ;;
      df <- rd (d_dataOff D) k ;;
      rowBlock <- flat_matrix (d_data D) (length srows) (length scols) df ;;
      let smallR := vsub smallB (dmul rowBlock smallX) in
      diag <- rd (s_diag S) k ;;
      smallUp <- dmulc diag smallR ;;
      add_at srows (vsc (s_omega S) smallUp) x
    else Ret x.
  (** Trans(rowBlock) * up *)
  Definition dmul_t (R : @dense B) (w : nat) (up : vec) : vec :=
    map (fun j => fold_left (fun s p => xadd s (act (mtr (nth j (fst p) m0)) (snd p))) (combine R up) x0) (seq 0 w).
  (** updateBlockRes, 309-344 *)
  Definition updateBlockRes (S : dsm) (xr : vec * vec) (k : nat) : res (vec * vec) :=
    let D := s_A S in let (x, r) := xr in
    brows <- block_rows D k ;; srows <- it_nums (d_row D) brows ;;
    smallR <- fill (d_maxR D) r srows ;;
    diag <- rd (s_diag S) k ;;
    up <- dmulc diag smallR ;;
    let smallUp := vsc (s_omega S) up in
    df <- rd (d_dataOff D) k ;; dn <- rd (d_dataOff D) (Datatypes.S k) ;;
    let nScalCols := (dn - df) / length srows in
    rowBlock <- flat_matrix (d_data D) (length srows) nScalCols df ;;
    let smallResUp := dmul_t rowBlock nScalCols smallUp in
    x <- add_at srows smallUp x ;;
    bcols <- block_cols D k ;; scols <- it_nums (d_col D) bcols ;;
    if nScalCols <=? d_maxC D then
      r <- add_at scols (map xopp smallResUp) r ;;
      Ret (x, r)
    else Err OutOfBounds.
  (** IterateBlocks, 432-464 *)
  Definition dsm_order (S : dsm) (back : bool) : list nat :=
    let nb := d_num (s_A S) in
    filter (fun k => match s_free S with None => true | Some f => nth k f false end)
           (map (fun k => if back then nb - 1 - k else k) (seq 0 nb)).
  Definition SmoothRHS (S : dsm) (back : bool) (x b : vec) : res vec := foldM (updateBlockRHS S b) (dsm_order S back) x.
  Definition SmoothRes (S : dsm) (back : bool) (x r : vec) : res (vec * vec) := foldM (updateBlockRes S) (dsm_order S back) (x, r).
  (** SmoothImpl, 381-429; Smooth / SmoothBack, 359-378 *)
  Definition SmoothImpl (S : dsm) (back : bool) (x b r : vec) (res_updated update_res x_zero : bool) : res (vec * vec) :=
    if update_res then
      if negb res_updated then
        if negb x_zero then
          x <- SmoothRHS S back x b ;;
          (* res = b; res -= A * x, which is MultAdd(-1, x, res) *)
          r <- DMultAdd (s_A S) (kopp k1) x b ;;
          Ret (x, r)
        else SmoothRes S back x b
      else SmoothRes S back x r
    else (x <- SmoothRHS S back x b ;; Ret (x, r)).
End Dyn.
Arguments dyn : clear implicits.
Arguments dsm : clear implicits.
