(** Model of MergeArrays (the queue variant for more than 16 rows), /repo/src/base/utils/utils_arrays_tables.hpp:699-803
    (same algorithm: MergeArrays2 in /repo/src/base/linalg/dyn_block.cpp:550-653).

    Simplifications: (ptrs[i], sizes[i]) is the list of the remaining values of row i; the array minvals together with
    nactive is the list of its first nactive elements (reading behind them is out of bounds), the array ranges together
    with nrange is a stack, top = ranges[nrange-1]; the capacities sizes.Size() and sizes.Size()+1 of the two arrays are checked.
    The loop [for (valsrc vs : tmp)] reads a copy of the popped part (in the code tmp is a view of minvals itself, but an
    iteration writes at most to the position it has already read).  int overflow of firstval+otherval is not modelled. *)
From Verif Require Import Base ArraysModel.
Open Scope Z_scope.

Definition nhash1 : Z := 1023.
(** [val & (nhash-1)] *)
Definition hslot (v : Z) : nat := Z.to_nat (Z.land v nhash1).
Notation valsrc := (Z * nat)%type (only parsing).
Definition mval (mv : list valsrc) (k : nat) : Z := fst (nth k mv (0, O)).

(** 722-732 and 784-801: next value of a row that is not known to be in the queue *)
Fixpoint take_next (hashes : list Z) (rem : list Z) : res (option Z * list Z) :=
  match rem with
  | [] => Ret (None, [])
  | v :: t => h <- rd hashes (hslot v) ;; if h =? v then take_next hashes t else Ret (Some v, t)
  end.
(** append to minvals, checking its capacity *)
Definition mpush (cap : nat) (mv : list valsrc) (x : valsrc) : res (list valsrc) :=
  if (length mv <? cap)%nat then Ret (mv ++ [x]) else Err OutOfBounds.
(** 720-733: initial fill *)
Fixpoint ma_init (cap : nat) (srcs : list nat) (hashes : list Z) (rows : list (list Z)) (mv : list valsrc)
  : res (list Z * list (list Z) * list valsrc) :=
  match srcs with
  | [] => Ret (hashes, rows, mv)
  | i :: t =>
      r <- rd rows i ;;
      ' p <- take_next hashes r ;;
      rows <- wr rows i (snd p) ;;
      match fst p with
      | None => ma_init cap t hashes rows mv
      | Some v => mv <- mpush cap mv (v, i) ;; hashes <- wr hashes (hslot v) v ;; ma_init cap t hashes rows mv
      end
  end.
(** 742-750: first value after position lower that differs from firstval (firstval itself if there is none) *)
Fixpoint find_other (firstval : Z) (l : list valsrc) : Z :=
  match l with
  | [] => firstval
  | x :: t => if fst x =? firstval then find_other firstval t else fst x
  end.
(** 765: [while (minvals[l].val > midval) l++] *)
Fixpoint scan_up (fuel : nat) (mv : list valsrc) (mid : Z) (l : nat) : res nat :=
  match fuel with
  | O => Err OutOfFuel
  | S f => x <- rd mv l ;; if fst x >? mid then scan_up f mv mid (S l) else Ret l
  end.
(** 766: [while (minvals[r].val <= midval) r--]; going below 0 reads minvals[-1] *)
Fixpoint scan_down (fuel : nat) (mv : list valsrc) (mid : Z) (r : nat) : res nat :=
  match fuel with
  | O => Err OutOfFuel
  | S f => x <- rd mv r ;; if fst x <=? mid then match r with O => Err OutOfBounds | S r' => scan_down f mv mid r' end else Ret r
  end.
(** 763-769; r is stored as r+1 because r can become -1 *)
Fixpoint partition (fuel : nat) (mv : list valsrc) (mid : Z) (l r1 : nat) : res (list valsrc * nat) :=
  match fuel with
  | O => Err OutOfFuel
  | S f =>
      if (l <? r1)%nat then
        l <- scan_up (S (length mv)) mv mid l ;;
        r <- scan_down (S (length mv)) mv mid (r1 - 1) ;;
        if (l <? r)%nat then mv <- swap mv l r ;; partition f mv mid (S l) r
        else partition f mv mid l (S r)
      else Ret (mv, l)
  end.
(** 736-774: presorting loop *)
Fixpoint presort (fuel cap : nat) (mv : list valsrc) (stack : list (nat * Z)) (lower : nat) : res (list valsrc * list (nat * Z)) :=
  match fuel with
  | O => Err OutOfFuel
  | S f =>
      x <- rd mv lower ;;
      let firstval := fst x in
      let otherval := find_other firstval (skipn (S lower) mv) in
      if firstval =? otherval then
        match stack with
        | [] => Ret (mv, [(O, firstval)])
        | _ => Ret (mv, stack)
        end
      else
        let midval := Z.quot (firstval + otherval) 2 in
        ' p <- partition (S (length mv)) mv midval lower (length mv) ;;
        let '(mv, l) := p in
        if (length stack <? cap + 1)%nat then presort f cap mv ((l, midval) :: stack) l else Err OutOfBounds
  end.
(** 788-798: move the first element of every range the value does not belong to to the end of that range *)
Fixpoint shift (stack : list (nat * Z)) (mv : list valsrc) (prevpos : nat) (vs : valsrc) : res (list valsrc * list (nat * Z)) :=
  match stack with
  | [] => mv <- wr mv prevpos vs ;; Ret (mv, [])
  | (pos, v) :: t =>
      if fst vs <=? v then mv <- wr mv prevpos vs ;; Ret (mv, stack)
      else x <- rd mv pos ;; mv <- wr mv prevpos x ;;
           ' p <- shift t mv pos vs ;;
           Ret (fst p, (S pos, v) :: snd p)
  end.
(** 780-802: replace the popped entries by the next values of their rows *)
Fixpoint refill (cap : nat) (tmp : list valsrc) (hashes : list Z) (rows : list (list Z)) (mv : list valsrc) (stack : list (nat * Z))
  : res (list Z * list (list Z) * list valsrc * list (nat * Z)) :=
  match tmp with
  | [] => Ret (hashes, rows, mv, stack)
  | vs :: t =>
      r <- rd rows (snd vs) ;;
      ' p <- take_next hashes r ;;
      rows <- wr rows (snd vs) (snd p) ;;
      match fst p with
      | None => refill cap t hashes rows mv stack
      | Some v =>
          mv1 <- mpush cap mv (v, snd vs) ;;       (* nactive++; the new cell is the initial hole *)
          ' q <- shift stack mv1 (length mv) (v, snd vs) ;;
          hashes <- wr hashes (hslot v) v ;;
          refill cap t hashes rows (fst q) (snd q)
      end
  end.
(** 734-802: main loop; the values passed to f are collected *)
Fixpoint ma_loop (fuel cap : nat) (hashes : list Z) (rows : list (list Z)) (mv : list valsrc) (stack : list (nat * Z)) : res (list Z) :=
  match fuel with
  | O => match mv with [] => Ret [] | _ => Err OutOfFuel end
  | S f =>
      match mv with
      | [] => Ret []
      | _ =>
          ' p <- presort (S (length mv)) cap mv stack (match stack with [] => O | (i, _) :: _ => i end) ;;
          let '(mv, stack) := p in
          match stack with
          | [] => Err OutOfBounds
          | (last, _) :: stack =>
              x <- rd mv last ;;
              ' q <- refill cap (skipn last mv) hashes rows (firstn last mv) stack ;;
              let '(hashes, rows, mv, stack) := q in
              rest <- ma_loop f cap hashes rows mv stack ;;
              Ret (fst x :: rest)
          end
      end
  end.
Definition MergeArraysQ (rows : list (list Z)) : res (list Z) :=
  let cap := length rows in
  ' p <- ma_init cap (seq 0 cap) (repeat (-1) 1024) rows [] ;;
  let '(hashes, rows', mv) := p in
  ma_loop (length (concat rows)) cap hashes rows' mv [].
(** MergeArrays, 699-803 *)
Definition MergeArrays (rows : list (list Z)) : res (list Z) :=
  if (length rows <=? 16)%nat then MergeArrays1 rows else MergeArraysQ rows.
(** the call MergeArrays(ptrs, sizes, [](int col) {...}) of MatMultABImpl (utils_sparseMM.cpp:136-139, 167-170); the column
    arrays of type int are the non-negative column numbers *)
Definition MergeCols (rows : list (list nat)) : res (list nat) :=
  l <- MergeArrays (map (map Z.of_nat) rows) ;; Ret (map Z.to_nat l).
