(** Model of the sparse-matrix kernels in /repo/src/base/linalg/utils_sparseMM.{hpp,cpp} and utils_sparseLA.{hpp,cpp}.

    A sparse matrix with entries of type E is a list of rows; a row is the list of its stored (column, value) pairs in
    storage order (GetRowIndices(k)[j], GetRowValues(k)[j] as one cell).  Simplifications: timers dropped; entry
    arithmetic is exact; a freshly allocated matrix has undefined cells (reading one is [Err Uninit]); accesses outside
    a row or outside the matrix are [Err OutOfBounds]. *)
From Verif Require Import Base.

Section Fill.
  Context {T : Type}.
  (** The count/allocate/fill idiom used by all constructors below and by TableCreator-like code:
      [perow = 0; for (..) perow[row]++;  mat(perow, ..);  perow = 0;  for (..) mat.row(row)[perow[row]++] = item;] *)
  Definition incr (cnt : list nat) (c : nat) : res (list nat) := v <- rd cnt c ;; wr cnt c (S v).
  Definition count_items (n : nat) (items : list (nat * T)) : res (list nat) :=
    foldM (fun cnt p => incr cnt (fst p)) items (repeat 0 n).
  Definition alloc_rows (cnt : list nat) : list (list (option T)) := map (fun c => repeat None c) cnt.
  Definition put (st : list nat * list (list (option T))) (p : nat * T) : res (list nat * list (list (option T))) :=
    let '(cnt, tab) := st in
    pos <- rd cnt (fst p) ;;
    cnt <- wr cnt (fst p) (S pos) ;;
    r <- rd tab (fst p) ;;
    r <- wr r pos (Some (snd p)) ;;
    tab <- wr tab (fst p) r ;;
    Ret (cnt, tab).
  (** using a cell that was never written *)
  Fixpoint freeze_row (r : list (option T)) : res (list T) :=
    match r with
    | [] => Ret []
    | None :: _ => Err Uninit
    | Some v :: t => t <- freeze_row t ;; Ret (v :: t)
    end.
  Fixpoint freeze (tab : list (list (option T))) : res (list (list T)) :=
    match tab with
    | [] => Ret []
    | r :: t => r <- freeze_row r ;; t <- freeze t ;; Ret (r :: t)
    end.
  (** the same item sequence is generated for counting and for filling *)
  Definition count_fill (n : nat) (items : list (nat * T)) : res (list (list T)) :=
    cnt <- count_items n items ;;
    ' p <- foldM put items (repeat 0 n, alloc_rows cnt) ;;
    freeze (snd p).
End Fill.

Definition srow (E : Type) := list (nat * E).
Definition smat (E : Type) := list (srow E).
Definition cols {E} (r : srow E) : list nat := map fst r.

(** rows of a list paired with their number *)
Definition numbered {A} (l : list A) : list (nat * A) := combine (seq 0 (length l)) l.

Section Transpose.
  Context {E F : Type} (tr : E -> F).
  (** the loops [for i : Range(Height)) for (c : GetRowIndices(i))], utils_sparseMM.cpp:58-61 and 67-76 *)
  Definition trans_items (A : smat E) : list (nat * (nat * F)) :=
    flat_map (fun ir => map (fun p => (fst p, (fst ir, tr (snd p)))) (snd ir)) (numbered A).
  (** NGCore BubbleSort(data, slave): for i, for j > i: if (data[i] > data[j]) swap both *)
  Fixpoint bubble_pass (x : nat * F) (l : srow F) : (nat * F) * srow F :=
    match l with
    | [] => (x, [])
    | y :: t => if fst y <? fst x then let '(m, t') := bubble_pass y t in (m, x :: t')
                else let '(m, t') := bubble_pass x t in (m, y :: t')
    end.
  Fixpoint bubble_sort (fuel : nat) (l : srow F) : srow F :=
    match fuel, l with
    | S f, x :: t => let '(m, t') := bubble_pass x t in m :: bubble_sort f t'
    | _, _ => l
    end.
  (** TransposeSPMImpl, utils_sparseMM.cpp:49-86; [w] = mat.Width() *)
  Definition TransposeSPM (w : nat) (A : smat E) : res (smat F) :=
    t <- count_fill w (trans_items A) ;;
    Ret (map (fun r => bubble_sort (length r) r) t).
End Transpose.

Section Product.
  Context {EA EB EC : Type} (mul : EA -> EB -> EC) (c0 : EC) (cadd : EC -> EC -> EC).
  (** MergeArrays of utils_arrays_tables.hpp:701-803 on the column arrays of some rows *)
  Variable merge : list (list nat) -> res (list nat).
  (** [ptrs[j] = matb.GetRowIndices(mata_ci[j])] *)
  Fixpoint get_rows (Bm : smat EB) (ks : list nat) : res (list (srow EB)) :=
    match ks with
    | [] => Ret []
    | k :: t => r <- rd Bm k ;; t <- get_rows Bm t ;; Ret (r :: t)
    end.
  (** symbolic phase for one row, utils_sparseMM.cpp:127-141 and 157-172 (counting and filling do the same merge) *)
  Definition prod_cols (ra : srow EA) (Bm : smat EB) : res (list nat) :=
    rows <- get_rows Bm (cols ra) ;; merge (map cols rows).
  Fixpoint prod_pattern (A : smat EA) (Bm : smat EB) : res (list (list nat)) :=
    match A with
    | [] => Ret []
    | ra :: t => r <- prod_cols ra Bm ;; t <- prod_pattern t Bm ;; Ret (r :: t)
    end.

  (** utils_sparseMM.cpp:186-187: [nhash = 2048; while (nhash < 2*maxci) nhash *= 2;] *)
  Fixpoint nhash_loop (fuel n m : nat) : nat :=
    match fuel with
    | S f => if n <? 2 * m then nhash_loop f (2 * n) m else n
    | O => n
    end.
  Definition nhash_of (maxci : nat) : nat := nhash_loop maxci (2 ^ 11) maxci.
  Definition slot (nhash c : nat) : nat := Nat.land c (nhash - 1).
  (** struct thash { int idx; int pos; }; the array is NOT initialised *)
  Definition hash := list (Z * nat).
  (** 197-202: for k: hash[ci[k] & nhashm1] = (idx = ci[k], pos = k) *)
  Definition hash_fill (nhash : nat) (ci : list nat) (h : hash) : res hash :=
    foldM (fun h kc => wr h (slot nhash (snd kc)) (Z.of_nat (snd kc), fst kc)) (numbered ci) h.
  (** SparseMatrix::operator()(i,col): position of the column in the row (throws if there is none) *)
  Fixpoint position (ci : list nat) (c : nat) : res nat :=
    match ci with
    | [] => Err Thrown
    | x :: t => if x =? c then Ret 0 else p <- position t c ;; Ret (S p)
    end.
  (** 213-224: add one product to the right value *)
  Definition acc_one (nhash : nat) (ci : list nat) (h : hash) (vals : list EC) (p : nat * EC) : res (list EC) :=
    e <- rd h (slot nhash (fst p)) ;;
    pos <- (if (fst e =? Z.of_nat (fst p))%Z then Ret (snd e) else position ci (fst p)) ;;
    v <- rd vals pos ;;
    wr vals pos (cadd v (snd p)).
  (** 203-226: for j over row i of A, for k over row rowb of B *)
  Definition acc_row (nhash : nat) (ra : srow EA) (Bm : smat EB) (ci : list nat) (h : hash) (vals : list EC) : res (list EC) :=
    foldM (fun vals pa => rb <- rd Bm (fst pa) ;;
                          foldM (fun vals pb => acc_one nhash ci h vals (fst pb, mul (snd pa) (snd pb))) rb vals) ra vals.
  (** numeric phase of one task (a range of rows), 180-228: the hash array lives through the whole range *)
  Fixpoint mult_range (nhash : nat) (jobs : list (srow EA * list nat)) (Bm : smat EB) (h : hash) : res (list (list EC)) :=
    match jobs with
    | [] => Ret []
    | (ra, ci) :: t =>
        h <- hash_fill nhash ci h ;;
        v <- acc_row nhash ra Bm ci h (repeat c0 (length ci)) ;;
        t <- mult_range nhash t Bm h ;;
        Ret (v :: t)
    end.
  Definition maxci_of (pat : list (list nat)) : nat := fold_left (fun m r => Nat.max m (length r)) pat 0.
  (** the rows are cut into ranges of the given lengths; [garbage] is the uninitialised content of each task's hash array *)
  Fixpoint mult_tasks (sizes : list nat) (garbage : nat -> nat -> hash) (jobs : list (srow EA * list nat)) (Bm : smat EB) : res (list (list EC)) :=
    match sizes with
    | [] => match jobs with [] => Ret [] | _ => Err OutOfFuel end
    | s :: ss =>
        let my := firstn s jobs in
        let nh := nhash_of (maxci_of (map snd my)) in
        v <- mult_range nh my Bm (garbage (length ss) nh) ;;
        t <- mult_tasks ss garbage (skipn s jobs) Bm ;;
        Ret (v ++ t)
    end.
  (** MatMultABUpdateValsImpl, utils_sparseMM.cpp:246-320: keeps the pattern of prod, sets all values to zero first *)
  Definition MatMultABUpdateVals (sizes : list nat) (garbage : nat -> nat -> hash) (A : smat EA) (Bm : smat EB) (prod : smat EC) : res (smat EC) :=
    let pat := map cols prod in
    vals <- mult_tasks sizes garbage (combine A pat) Bm ;;
    Ret (map (fun cv => combine (fst cv) (snd cv)) (combine pat vals)).
  (** MatMultABImpl, utils_sparseMM.cpp:101-238 *)
  Definition MatMultAB (sizes : list nat) (garbage : nat -> nat -> hash) (A : smat EA) (Bm : smat EB) : res (smat EC) :=
    pat <- prod_pattern A Bm ;;
    vals <- mult_tasks sizes garbage (combine A pat) Bm ;;
    Ret (map (fun cv => combine (fst cv) (snd cv)) (combine pat vals)).
End Product.

(** RestrictMatrix, utils_sparseMM.hpp:93-109: (PT * A) * P; RestrictMatrixKeepFactor, utils_sparseLA.cpp:478-501:
    PT * (A * P) *)
Section Restrict.
  Context {E : Type} (mul : E -> E -> E) (e0 : E) (eadd : E -> E -> E) (merge : list (list nat) -> res (list nat)).
  Variables (s1 s2 : list nat) (g1 g2 : nat -> nat -> hash).
  Definition RestrictMatrix (PT A P : smat E) : res (smat E) :=
    PTA <- MatMultAB mul e0 eadd merge s1 g1 PT A ;; MatMultAB mul e0 eadd merge s2 g2 PTA P.
  Definition RestrictMatrixKeepFactor (A P PT : smat E) : res (smat E * smat E) :=
    AP <- MatMultAB mul e0 eadd merge s1 g1 A P ;; PTAP <- MatMultAB mul e0 eadd merge s2 g2 PT AP ;; Ret (AP, PTAP).
End Restrict.

(** BuildPermutationMatrix, utils_sparseLA.hpp:373-386 *)
Definition BuildPermutationMatrix {E} (one : E) (sort : list nat) : smat E := map (fun c => [(c, one)]) sort.

(** EmbedSparseMatrix_impl, utils_sparseLA.cpp:785-827: row off+k of the big matrix is row k of the small one.
    perow[off + k] outside the big matrix: out of bounds *)
Definition embed_items {E} (off : nat) (A : smat E) : list (nat * (nat * E)) :=
  flat_map (fun ir => map (fun p => (off + fst ir, p)) (snd ir)) (numbered A).
Definition EmbedSparseMatrix {E} (off bigH : nat) (A : smat E) : res (smat E) :=
  _ <- foldM (fun (u : unit) ir => _ <- rd (repeat 0 bigH) (off + fst ir) ;; Ret u) (numbered A) tt ;;
  count_fill bigH (embed_items off A).

Section Add.
  Context {E S : Type} (eadd : E -> E -> E) (esc : S -> E -> E).
  (** AddSPM, utils_sparseLA.cpp:212-240: pattern of A, values alpha*a_j + beta*b_j position by position *)
  Fixpoint add_row (alpha beta : S) (ra rb : srow E) : res (srow E) :=
    match ra with
    | [] => Ret []
    | (c, a) :: ta =>
        match rb with
        | [] => Err OutOfBounds
        | (_, b) :: tb => t <- add_row alpha beta ta tb ;; Ret ((c, eadd (esc alpha a) (esc beta b)) :: t)
        end
    end.
  Fixpoint AddSPM (alpha beta : S) (A B : smat E) : res (smat E) :=
    match A with
    | [] => Ret []
    | ra :: ta =>
        match B with
        | [] => Err OutOfBounds
        | rb :: tb => r <- add_row alpha beta ra rb ;; t <- AddSPM alpha beta ta tb ;; Ret (r :: t)
        end
    end.

  (** iterate_ABC of utils_arrays_tables.hpp on two ascending column arrays with the three callbacks of
      AddMergeSPM (utils_sparseLA.cpp:186-190).  As written the "only in B" callback reads rvsA[idxB] and the
      "in both" callback adds rvsA[idxA] + rvsA[idxB]; idxB may lie outside the row of A (out of bounds). *)
  Fixpoint merge_rows (fuel : nat) (ra0 : srow E) (ra : srow E) (rb : srow E) (ib : nat) : res (srow E) :=
    match fuel with
    | O => match ra, rb with [], [] => Ret [] | _, _ => Err OutOfFuel end
    | Datatypes.S f =>
        match ra, rb with
        | [], [] => Ret []
        | (ca, va) :: ta, [] => t <- merge_rows f ra0 ta [] ib ;; Ret ((ca, va) :: t)
        | [], (cb, vb) :: tb => x <- rd ra0 ib ;; t <- merge_rows f ra0 [] tb (Datatypes.S ib) ;; Ret ((cb, snd x) :: t)
        | (ca, va) :: ta, (cb, vb) :: tb =>
            if ca =? cb then x <- rd ra0 ib ;; t <- merge_rows f ra0 ta tb (Datatypes.S ib) ;; Ret ((ca, eadd va (snd x)) :: t)
            else if ca <? cb then t <- merge_rows f ra0 ta rb ib ;; Ret ((ca, va) :: t)
            else x <- rd ra0 ib ;; t <- merge_rows f ra0 ra tb (Datatypes.S ib) ;; Ret ((cb, snd x) :: t)
        end
    end.
  (** the row branches of AddMergeSPM, utils_sparseLA.cpp:166-192; alpha and beta are not used *)
  Definition add_merge_row (ra rb : srow E) : res (srow E) :=
    match rb, ra with
    | [], _ => Ret ra
    | _, [] => Ret rb
    | _, _ => merge_rows (length ra + length rb) ra ra rb 0
    end.
  Fixpoint AddMergeSPM (alpha beta : S) (A B : smat E) : res (smat E) :=
    match A with
    | [] => Ret []
    | ra :: ta =>
        match B with
        | [] => Err OutOfBounds
        | rb :: tb => r <- add_merge_row ra rb ;; t <- AddMergeSPM alpha beta ta tb ;; Ret (r :: t)
        end
    end.
End Add.

Section Compress.
  Context {E : Type}.
  (** CompressA_impl, utils_sparseLA.cpp:968-1006: keeps the entries with [abssum_tm(v) > thresh] *)
  Variable keep : E -> bool.
  Definition compress_items (A : smat E) : list (nat * (nat * E)) :=
    flat_map (fun ir => map (fun p => (fst ir, p)) (filter (fun p => keep (snd p)) (snd ir))) (numbered A).
  Definition CompressA (A : smat E) : res (smat E) := count_fill (length A) (compress_items A).
End Compress.
(** abssum_tm(double const &x) { return x; }, utils_sparseLA.cpp:966, over the integers; thresh = t *)
Definition abssum_scal (x : Z) : Z := x.
(** abssum_tm(Mat<N,M>), utils_sparseLA.cpp:955-964: sum of absolute values (entries as a list) *)
Definition abssum_mat (x : list Z) : Z := fold_left (fun s a => (s + Z.abs a)%Z) x 0%Z.

(** createSparseIdentityImpl, utils_sparseLA.cpp:837-867: one entry per selected row, column index 1, value 1.0 *)
Definition createSparseIdentity {E} (one : E) (H : nat) (onRows : option (list bool)) : smat E :=
  map (fun k => if match onRows with None => true | Some b => nth k b false end then [(1, one)] else []) (seq 0 H).

(** Block2SparseMatrix_impl, utils_sparseLA.cpp:509-619, up to the allocation: the offset loops 553-563.  The second
    loop writes rowOff (not colOff) and adds the block widths to totalH (not totalW): rowOff ends up with the column
    offsets shifted by the true height, colOff is never written (None) and totalW stays 0.  Result: rowOff, colOff, totalH, totalW.
    Blocks are given by the heights of the block rows and the widths of the block columns. *)
Definition block_offsets (hs ws : list nat) : res (list (option nat) * list (option nat) * nat * nat) :=
  let rowOff := repeat None (length hs + 1) in
  let colOff := repeat None (length ws + 1) in
  ' p <- foldM (fun st ih => let '(off, tot) := st in off <- wr off (fst ih) (Some tot) ;; Ret (off, tot + snd ih)) (numbered hs) (rowOff, 0) ;;
  let '(rowOff, totalH) := p in
  ' p <- foldM (fun st ih => let '(off, tot) := st in off <- wr off (fst ih) (Some tot) ;; Ret (off, tot + snd ih)) (numbered ws) (rowOff, totalH) ;;
  let '(rowOff, totalH) := p in
  Ret (rowOff, colOff, totalH, 0).
