(** Model of src/base/utils/utils_arrays_tables.hpp.  Array elements are [Z] ("int");
    array indices are [nat] ("size_t"/"int" that stay within the array).
    int/size_t overflow is not modelled, except for the [int] sentinel INT_MAX of MergeArrays1. *)
From Verif Require Import Base.
Local Open Scope Z_scope.

(** utils_arrays_tables.hpp 38-40: linear scan [for (i = first; i < last; i++) if (a[i] == elem) return i] *)
Fixpoint scan_eq (n : nat) (i : nat) (elem : Z) (a : list Z) : res (option nat) :=
  match n with
  | O => Ret None
  | S n' => v <- rd a i ;; if v =? elem then Ret (Some i) else scan_eq n' (S i) elem a
  end.

(** utils_arrays_tables.hpp 27-37: bisection [while (last > first+5)].  Fuel: one unit per iteration. *)
Fixpoint find_loop (fuel : nat) (first last : nat) (elem : Z) (a : list Z) : res (option nat) :=
  match fuel with
  | O => Err OutOfFuel
  | S f =>
      if (first + 5 <? last)%nat then
        let mid := ((last + first) / 2)%nat in
        v <- rd a mid ;;
        if v >? elem then find_loop f first mid elem a
        else if v =? elem then Ret (Some mid)
        else find_loop f (S mid) last elem a
      else scan_eq (last - first) first elem a
  end.

(** utils_arrays_tables.hpp 23-43 [find_in_sorted_array(elem, a)]; [None] is the returned "-1". *)
Definition find_in_sorted_array (elem : Z) (a : list Z) : res (option nat) :=
  find_loop (S (length a)) 0 (length a) elem a.

(** utils_arrays_tables.hpp 88-90: [for (i = first; i < last; i++) if (a[i] > elem) return i] *)
Fixpoint scan_gt (n : nat) (i : nat) (elem : Z) (a : list Z) : res (option nat) :=
  match n with
  | O => Ret None
  | S n' => v <- rd a i ;; if v >? elem then Ret (Some i) else scan_gt n' (S i) elem a
  end.

(** utils_arrays_tables.hpp 79-87 *)
Fixpoint merge_pos_loop (fuel : nat) (first last : nat) (elem : Z) (a : list Z) : res (option nat) :=
  match fuel with
  | O => Err OutOfFuel
  | S f =>
      if (first + 5 <? last)%nat then
        let mid := ((last + first) / 2)%nat in
        v <- rd a mid ;;
        if v <=? elem then merge_pos_loop f mid last elem a
        else w <- rd a (mid - 1) ;;
             if w >? elem then merge_pos_loop f first mid elem a
             else Ret (Some mid)
      else scan_gt (last - first) first elem a
  end.

(** utils_arrays_tables.hpp 68-93 [merge_pos_in_sorted_array]; [None] is size_t(-1). *)
Definition merge_pos_in_sorted_array (elem : Z) (a : list Z) : res (option nat) :=
  let last := length a in
  if (last =? 0)%nat then Ret (Some 0%nat)
  else a0 <- rd a 0 ;;
       if elem <? a0 then Ret (Some 0%nat)
       else al <- rd a (last - 1) ;;
            if elem >=? al then Ret (Some last)
            else merge_pos_loop (S (length a)) 0 last elem a.

(** NGSolve Array::Insert(pos, elem): shift the tail by one *)
Definition array_insert (pos : nat) (elem : Z) (a : list Z) : list Z := firstn pos a ++ elem :: skipn pos a.

(** utils_arrays_tables.hpp 95-103 [insert_into_sorted_array_nodups]: (inserted?, new array) *)
Definition insert_into_sorted_array_nodups (elem : Z) (a : list Z) : res (bool * list Z) :=
  pos <- merge_pos_in_sorted_array elem a ;;
  match pos with
  | None => Ret (false, a)
  | Some p =>
      if (0 <? p)%nat then
        w <- rd a (p - 1) ;;
        if w =? elem then Ret (false, a) else Ret (true, array_insert p elem a)
      else Ret (true, array_insert p elem a)
  end.

(** utils_arrays_tables.hpp 105-109 [insert_into_sorted_array] ([Insert] at size_t(-1) is out of bounds) *)
Definition insert_into_sorted_array (elem : Z) (a : list Z) : res (list Z) :=
  pos <- merge_pos_in_sorted_array elem a ;;
  match pos with None => Err OutOfBounds | Some p => Ret (array_insert p elem a) end.

(** utils_arrays_tables.hpp 111-119 [sorted_insert_unique]: the (flag, pos) pair and the new array *)
Definition sorted_insert_unique (elem : Z) (a : list Z) : res (bool * option nat * list Z) :=
  pos <- merge_pos_in_sorted_array elem a ;;
  match pos with
  | None => Ret (false, None, a)
  | Some p =>
      if (0 <? p)%nat then
        w <- rd a (p - 1) ;;
        if w =? elem then Ret (false, Some p, a) else Ret (true, Some p, array_insert p elem a)
      else Ret (true, Some p, array_insert p elem a)
  end.

(** utils_arrays_tables.hpp 129-146 [removeEntry(pos, a)]: shift the tail down by one, new size *)
Definition removeEntry {A} (pos : nat) (a : list A) : res (list A) :=
  if (pos <? length a)%nat then Ret (firstn pos a ++ skipn (S pos) a) else Err OutOfBounds.

(** utils_arrays_tables.hpp 148-157 [ind_of_max]; [None] is -1 *)
Definition ind_of_max (a : list Z) : option nat :=
  match a with
  | [] => None
  | a0 :: t =>
      Some (snd (fold_left (fun '(mx, k, ind) v => if v >? mx then (v, S k, k) else (mx, S k, ind)) t (a0, 1%nat, 0%nat)))
  end.

(** std swap(a[i], a[j]) *)
Definition swap {A} (a : list A) (i j : nat) : res (list A) :=
  vi <- rd a i ;; vj <- rd a j ;; a1 <- wr a i vj ;; wr a1 j vi.

(** utils_arrays_tables.hpp 169-175 / 187-193: the inner while loop that runs through one cycle.
    [mark] is what is stored into perm[check]: "-1" (ApplyPermutation) or "-1 - perm[check]"
    (ApplyAndKeepPermutation). A negative [from_here] would be an out-of-bounds access. *)
Fixpoint cycle_loop {A} (mark : Z -> Z) (fuel : nat) (i check : nat) (arr : list A) (perm : list Z)
  : res (list A * list Z) :=
  match fuel with
  | O => Err OutOfFuel
  | S f =>
      from_here <- rd perm check ;;
      if from_here =? Z.of_nat i then
        perm' <- wr perm check (mark from_here) ;; Ret (arr, perm')
      else if from_here <? 0 then Err OutOfBounds
      else
        arr' <- swap arr check (Z.to_nat from_here) ;;
        perm' <- wr perm check (mark from_here) ;;
        cycle_loop mark f i (Z.to_nat from_here) arr' perm'
  end.

(** utils_arrays_tables.hpp 163-177 in-place [ApplyPermutation(array, perm)]: final array and (destroyed) perm *)
Definition ApplyPermutation {A} (arr : list A) (perm : list Z) : res (list A * list Z) :=
  foldM (fun '(arr, perm) i =>
           p <- rd perm i ;;
           if p =? -1 then Ret (arr, perm)
           else cycle_loop (fun _ => -1) (S (length arr)) i i arr perm)
        (seq 0 (length arr)) (arr, perm).

(** utils_arrays_tables.hpp 179-199 [ApplyAndKeepPermutation] *)
Definition ApplyAndKeepPermutation {A} (arr : list A) (perm : list Z) : res (list A * list Z) :=
  '(arr', perm') <- foldM (fun '(arr, perm) i =>
           p <- rd perm i ;;
           if p <? 0 then Ret (arr, perm)
           else cycle_loop (fun p => -1 - p) (S (length arr)) i i arr perm)
        (seq 0 (length arr)) (arr, perm) ;;
  perm'' <- foldM (fun perm k => p <- rd perm k ;; wr perm k (- p - 1)) (seq 0 (length arr)) perm' ;;
  Ret (arr', perm'').

(** utils_arrays_tables.hpp 201-212 [InvertPermutation(perm, invPerm)]: writes into the given array *)
Definition InvertPermutation (perm : list Z) (invPerm : list Z) : res (list Z) :=
  foldM (fun inv l => p <- rd perm l ;;
                      if p <? 0 then Err OutOfBounds else wr inv (Z.to_nat p) (Z.of_nat l))
        (seq 0 (length perm)) invPerm.

(** utils_arrays_tables.hpp 215-226 buffered [ApplyPermutation(array, perm, buffer)] (buffer = copy of array) *)
Definition ApplyPermutation_buffered {A} (arr : list A) (perm : list Z) : res (list A) :=
  let buffer := arr in
  foldM (fun arr k => p <- rd perm k ;;
                      if p <? 0 then Err OutOfBounds
                      else v <- rd buffer (Z.to_nat p) ;; wr arr k v)
        (seq 0 (length arr)) arr.

(** utils_arrays_tables.hpp 329-348 two-array [merge_arrays(a, b, out)] (same loop: merge_arrays_lh 306-326).
    The two index cursors are modelled by the remaining suffixes of the arrays. *)
Fixpoint merge_arrays2 (a : list Z) : list Z -> list Z :=
  fix aux (b : list Z) : list Z :=
    match a, b with
    | [], _ => b
    | _, [] => a
    | x :: a', y :: b' =>
        if x =? y then x :: merge_arrays2 a' b'
        else if x <? y then x :: merge_arrays2 a' b
        else y :: aux b'
    end.

(** utils_arrays_tables.hpp 229-285 k-way [merge_arrays(tab_in, out, lam_comp)], lam_comp = "<".
    [tab_in[k]] with its cursor [count[k]] is modelled by the remaining suffix of row k.
    First inner loop (255-266): the minimum [min_datum] over the heads, starting from the current candidate,
    and the set of rows whose head is this minimum. *)
Fixpoint heads_min (rows : list (list Z)) (m : Z) : Z :=
  match rows with
  | [] => m
  | [] :: t => heads_min t m
  | (h :: _) :: t => heads_min t (if h <? m then h else m)
  end.
(** 267-273 advance every row whose head is the minimum *)
Definition advance_min (m : Z) (r : list Z) : list Z :=
  match r with h :: t => if h =? m then t else r | [] => [] end.
(** 246-247, 253, 275-281: the candidate is the head of the first row that is not exhausted *)
Fixpoint first_head (rows : list (list Z)) : option Z :=
  match rows with
  | [] => None
  | [] :: t => first_head t
  | (h :: _) :: _ => Some h
  end.
(** 254 [while (ndone < nrows)], i.e. while some row is not exhausted *)
Fixpoint merge_arrays_loop (fuel : nat) (rows : list (list Z)) : res (list Z) :=
  match first_head rows with
  | None => Ret []
  | Some c =>
      match fuel with
      | O => Err OutOfFuel
      | S f =>
          let m := heads_min rows c in
          rest <- merge_arrays_loop f (map (advance_min m) rows) ;;
          Ret (m :: rest)
      end
  end.
(** 229-285 *)
Definition merge_arrays (rows : list (list Z)) : res (list Z) :=
  merge_arrays_loop (length (concat rows)) rows.

(** utils_arrays_tables.hpp 359-374 [posSortedInSorted(a, b)]; [ib] position of the head of b; result -1 = not found *)
Fixpoint posSortedInSorted_from (a b : list Z) (ib : nat) : list Z :=
  match b with
  | [] => map (fun _ => -1) a
  | y :: b' =>
      match a with
      | [] => []
      | x :: a' => if x =? y then Z.of_nat ib :: posSortedInSorted_from a' b' (S ib)
                   else posSortedInSorted_from a b' (S ib)
      end
  end.
Definition posSortedInSorted (a b : list Z) : list Z := posSortedInSorted_from a b 0.

(** utils_arrays_tables.hpp 439-458 [reduce_table(tab, lam)]: column-wise reduction (sum_table 377-395,
    min_table 397-415, max_table 418-436 are the instances +, min, max) *)
Fixpoint zip_with_check (f : Z -> Z -> Z) (out row : list Z) : res (list Z) :=
  match out, row with
  | [], _ => Ret []
  | _ :: _, [] => Err OutOfBounds
  | x :: o, y :: r => t <- zip_with_check f o r ;; Ret (f x y :: t)
  end.
Definition reduce_table (f : Z -> Z -> Z) (tab : list (list Z)) : res (list Z) :=
  match tab with
  | [] => Ret []
  | r0 :: rest => foldM (zip_with_check f) rest r0
  end.

(** *** Two-pointer iterations over two sorted arrays.  A functor call lam(i1,i2) is recorded in the result list. *)

(** the three calls a functor can get (enum ABC_KIND 508-512, with the unused index -1 dropped) *)
Inductive abc_call : Type := INTERSECTION (i1 i2 : nat) | A_NOT_B (i1 : nat) | B_NOT_A (i2 : nat).

(** utils_arrays_tables.hpp 470-485 [iterate_intersection]; i1, i2: positions of the heads of a, b *)
Fixpoint iterate_intersection_from (a : list Z) (i1 : nat) : list Z -> nat -> list (nat * nat) :=
  fix aux (b : list Z) (i2 : nat) : list (nat * nat) :=
    match a, b with
    | x :: a', y :: b' =>
        if x =? y then (i1, i2) :: iterate_intersection_from a' (S i1) b' (S i2)
        else if x <? y then iterate_intersection_from a' (S i1) b i2
        else aux b' (S i2)
    | _, _ => []
    end.
Definition iterate_intersection (a b : list Z) : list (nat * nat) := iterate_intersection_from a 0 b 0.

(** utils_arrays_tables.hpp 514-533 [iterate_ABC(a, b, lam)] (and the three-functor version 487-506) *)
Fixpoint iterate_ABC_from (a : list Z) (i1 : nat) : list Z -> nat -> list abc_call :=
  fix aux (b : list Z) (i2 : nat) : list abc_call :=
    match a, b with
    | x :: a', y :: b' =>
        if x =? y then INTERSECTION i1 i2 :: iterate_ABC_from a' (S i1) b' (S i2)
        else if x <? y then A_NOT_B i1 :: iterate_ABC_from a' (S i1) b i2
        else B_NOT_A i2 :: aux b' (S i2)
    | _, [] => map A_NOT_B (seq i1 (length a))
    | [], _ => map B_NOT_A (seq i2 (length b))
    end.
Definition iterate_ABC (a b : list Z) : list abc_call := iterate_ABC_from a 0 b 0.

(** utils_arrays_tables.hpp 536-553 [iterate_AC] *)
Fixpoint iterate_AC_from (a : list Z) (i1 : nat) : list Z -> nat -> list abc_call :=
  fix aux (b : list Z) (i2 : nat) : list abc_call :=
    match a, b with
    | x :: a', y :: b' =>
        if x =? y then INTERSECTION i1 i2 :: iterate_AC_from a' (S i1) b' (S i2)
        else if x <? y then A_NOT_B i1 :: iterate_AC_from a' (S i1) b i2
        else aux b' (S i2)
    | _, [] => map A_NOT_B (seq i1 (length a))
    | [], _ => []
    end.
Definition iterate_AC (a b : list Z) : list abc_call := iterate_AC_from a 0 b 0.

(** utils_arrays_tables.hpp 555-588 [partitionAB(subA, bigSet, lh, BS)].  The result arrays have the fixed sizes
    |subA|*BS and (|bigSet|-|subA|)*BS; writing past them is out of bounds, unwritten entries are uninitialised
    (both happen exactly if subA is not a subset). *)
Definition partitionAB (subA bigSet : list Z) (BS : nat) : res (list nat * list nat) :=
  let nA := length subA in
  let calls := iterate_AC bigSet subA in
  let idxA := flat_map (fun c => match c with INTERSECTION i _ => map (fun l => BS * i + l)%nat (seq 0 BS) | _ => [] end) calls in
  let idxB := flat_map (fun c => match c with A_NOT_B i => map (fun l => BS * i + l)%nat (seq 0 BS) | _ => [] end) calls in
  let capA := (nA * BS)%nat in
  let capB := ((length bigSet - nA) * BS)%nat in
  if (capA <? length idxA)%nat || (capB <? length idxB)%nat then Err OutOfBounds
  else if (length idxA <? capA)%nat || (length idxB <? capB)%nat then Err Uninit
  else Ret (idxA, idxB).

(** utils_arrays_tables.hpp 590-604 [is_intersect_empty] *)
Fixpoint is_intersect_empty (a : list Z) : list Z -> bool :=
  fix aux (b : list Z) : bool :=
    match a, b with
    | x :: a', y :: b' =>
        if x =? y then false
        else if x <? y then is_intersect_empty a' b
        else aux b'
    | _, _ => true
    end.

(** utils_arrays_tables.hpp 606-621 [intersect_sorted_arrays(a, b, c)] *)
Fixpoint intersect_sorted_arrays (a : list Z) : list Z -> list Z :=
  fix aux (b : list Z) : list Z :=
    match a, b with
    | x :: a', y :: b' =>
        if x =? y then x :: intersect_sorted_arrays a' b'
        else if x <? y then intersect_sorted_arrays a' b
        else aux b'
    | _, _ => []
    end.

(** utils_arrays_tables.hpp 623-638 [iterate_anotb] *)
Fixpoint iterate_anotb_from (a : list Z) (i1 : nat) : list Z -> list nat :=
  fix aux (b : list Z) : list nat :=
    match a, b with
    | x :: a', y :: b' =>
        if x <? y then i1 :: iterate_anotb_from a' (S i1) b
        else if x =? y then iterate_anotb_from a' (S i1) b'
        else aux b'
    | _, [] => seq i1 (length a)
    | [], _ => []
    end.
Definition iterate_anotb (a b : list Z) : list nat := iterate_anotb_from a 0 b.

(** utils_arrays_tables.hpp 640-649 [setMinus] *)
Definition setMinus (a b : list Z) : list Z := map (fun i => nth i a 0) (iterate_anotb a b).

(** *** MergeArrays1, utils_arrays_tables.hpp 660-697 *)
Definition INT_MAX : Z := 2147483647.

(** one row during the merge: the suffix behind [ptrs[i]], [sizes[i]] and [minvals[i]] *)
Record mrow := { mr_ptr : list Z; mr_size : Z; mr_min : Z }.

(** 667-676 *)
Definition mrow_init (r : list Z) : mrow :=
  match r with
  | [] => {| mr_ptr := []; mr_size := 0; mr_min := INT_MAX |}
  | h :: _ => {| mr_ptr := r; mr_size := Z.of_nat (length r); mr_min := h |}
  end.
(** 679-681 *)
Definition mrows_min (rows : list mrow) : Z :=
  match rows with
  | [] => INT_MAX
  | r :: t => fold_left (fun m r => Z.min m (mr_min r)) t (mr_min r)
  end.
(** 683-695, one row: returns the row and by how much nactive decreases *)
Definition mrow_advance (minval : Z) (r : mrow) : res (mrow * Z) :=
  if mr_min r =? minval then
    let p := tl (mr_ptr r) in
    let s := mr_size r - 1 in
    if s =? 0 then Ret ({| mr_ptr := p; mr_size := s; mr_min := INT_MAX |}, 1)
    else v <- rd p 0 ;; Ret ({| mr_ptr := p; mr_size := s; mr_min := v |}, 0)
  else Ret (r, 0).
Fixpoint mrows_advance (minval : Z) (rows : list mrow) : res (list mrow * Z) :=
  match rows with
  | [] => Ret ([], 0)
  | r :: t => '(r', d) <- mrow_advance minval r ;;
              '(t', d') <- mrows_advance minval t ;; Ret (r' :: t', d + d')
  end.
(** 677-696 [while (nactive)]; the calls f(minval) are recorded *)
Fixpoint MergeArrays1_loop (fuel : nat) (nactive : Z) (rows : list mrow) : res (list Z) :=
  if nactive =? 0 then Ret [] else
  match fuel with
  | O => Err OutOfFuel
  | S f =>
      let minval := mrows_min rows in
      '(rows', d) <- mrows_advance minval rows ;;
      rest <- MergeArrays1_loop f (nactive - d) rows' ;;
      Ret (minval :: rest)
  end.
Definition MergeArrays1 (rows : list (list Z)) : res (list Z) :=
  MergeArrays1_loop (length (concat rows))
    (Z.of_nat (length (filter (fun r => negb (length r =? 0)%nat) rows))) (map mrow_init rows).

(** utils_arrays_tables.hpp 9-21 [lex_smaller]: only compares lexicographically for equal sizes *)
Fixpoint lex_loop (a b : list Z) : option bool :=
  match a, b with
  | x :: a', y :: b' => if x <? y then Some true else if negb (x =? y) then Some false else lex_loop a' b'
  | _, _ => None
  end.
Definition lex_smaller (a b : list Z) : bool :=
  let tail := (length a <? length b)%nat in
  if (length a =? length b)%nat
  then match lex_loop a b with Some r => r | None => tail end
  else tail.
