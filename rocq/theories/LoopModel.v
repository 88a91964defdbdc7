(** Loops of the Stokes preconditioner: sorting and orienting a loop, cutting coarse loops into simple
    ones and bringing them into a form in which duplicates can be found.
    Models /repo/src/stokes/common/loop_utils.hpp:24-102, 330-394 and loop_utils.cpp:8-127.
    Simplification: a LocalHeap never runs full.  SplitChunk writes the second part of [bnd_arr] with the
    length s1+s2 instead of s2 (loop_utils.cpp:59): the s1 entries behind the array lie in unallocated
    heap memory, and what is read for them lies inside the chunk, so this is not visible in the result. *)
From Verif Require Import Base ArraysModel.
Open Scope Z_scope.
Import ListNotations.

(** ORIENTATION and loopDecode, loop_utils.hpp:15-27: (POSITIVE?, edge number) *)
Definition loopDecode (k : Z) : bool * Z := (0 <? k, Z.abs k - 1).
(** loopEncode, loop_utils.hpp:30-34 *)
Definition loopEncode (vStart vStop enr : Z) : Z := if vStart <? vStop then enr + 1 else - enr - 1.

(** SortAndOrientLoop, loop_utils.hpp:37-102 *)
Section Sort.
  Context {T : Type}.
  Variable flip : T -> T.
  Variable orient : T -> bool -> T -> Z.   (* 1 fits, -1 fits when flipped, 0 does not fit *)
  (** the inner [for (auto k : Range(loop))] of extend_chunk, :61-75 *)
  Fixpoint find_fit (loop : list T) (used : list Z) (k : nat) (curr : T) (flipcurr : bool) : option (nat * Z * T) :=
    match loop, used with
    | x :: loop', u :: used' =>
        if (u =? 0) && negb (orient curr flipcurr x =? 0) then Some (k, orient curr flipcurr x, x)
        else find_fit loop' used' (S k) curr flipcurr
    | _, _ => None
    end.
  (** extend_chunk, :54-78; [inds] holds the cnt entries written so far *)
  Fixpoint extend_chunk (fuel : nat) (loop : list T) (used : list Z) (inds : list nat) (curr : T) (flipcurr : bool) (start_ort : Z)
    : res (list Z * list nat) :=
    match fuel with
    | O => Err OutOfFuel
    | S f =>
        match find_fit loop used 0 curr flipcurr with
        | None => Ret (used, inds)
        | Some (k, ort, x) => used' <- wr used k (ort * start_ort) ;; extend_chunk f loop used' (inds ++ [k]) x (ort <? 0) start_ort
        end
    end.
  (** place to start a chunk, :84-90 *)
  Fixpoint find_unused (loop : list T) (used : list Z) (k : nat) : option (nat * T) :=
    match loop, used with
    | x :: loop', u :: used' => if u =? 0 then Some (k, x) else find_unused loop' used' (S k)
    | _, _ => None
    end.
  (** the chunk loop, :81-96 *)
  Fixpoint chunk_loop (fuel : nat) (loop : list T) (used : list Z) (inds : list nat) (n_chunks : nat) : res (list Z * list nat * nat) :=
    match fuel with
    | O => Err OutOfFuel
    | S f =>
        if (length inds <? length loop)%nat then
          match find_unused loop used 0 with
          | None => Err Uninit
          | Some (k, start) =>
              used1 <- wr used k 1 ;;
              ' (used2, inds2) <- extend_chunk (S (length loop)) loop used1 (inds ++ [k]) start false 1 ;;
              ' (used3, inds3) <- extend_chunk (S (length loop)) loop used2 inds2 start true (-1) ;;
              chunk_loop f loop used3 inds3 (S n_chunks)
          end
        else Ret (used, inds, n_chunks)
    end.
  (** :97-99 *)
  Fixpoint flip_marked (loop : list T) (used : list Z) : list T :=
    match loop, used with
    | x :: loop', u :: used' => (if u =? -1 then flip x else x) :: flip_marked loop' used'
    | _, _ => loop
    end.
  Definition SortAndOrientLoop (loop : list T) : res (nat * list T) :=
    ' (used, inds, n) <- chunk_loop (S (length loop)) loop (repeat 0 (length loop)) [] 0 ;;
    ' (loop', _) <- ApplyPermutation (flip_marked loop used) (map Z.of_nat inds) ;;
    Ret (n, loop').
End Sort.

(** a vertex as (eqc id, number in the eqc), IVec<2,int>; a directed edge as IVec<4,int> *)
Definition pt := (Z * Z)%type.
Definition pteqb (a b : pt) : bool := (fst a =? fst b) && (snd a =? snd b).
(** [smaller], loop_utils.cpp:20-23, and operator< of IVec<2,int> (utils_arrays_tables/ngcore, C07) *)
Definition ptltb (a b : pt) : bool := if fst a =? fst b then snd a <? snd b else fst a <? fst b.
Definition edge4 := (pt * pt)%type.

(** the two instances: a tuple IVec<4,int> (stokes_pc.cpp:328-350) and a signed edge number (stokes_pc.cpp:692-745) *)
Definition flip4 (e : edge4) : edge4 := (snd e, fst e).
Definition orient4 (a : edge4) (flipA : bool) (b : edge4) : Z :=
  let p := if flipA then fst a else snd a in
  if pteqb p (fst b) then 1 else if pteqb p (snd b) then -1 else 0.
Definition sortTup4Loop (l : list edge4) : res (nat * list edge4) := SortAndOrientLoop flip4 orient4 l.

Definition code_ends (edges : list (nat * nat)) (c : Z) : nat * nat := nth (Z.to_nat (Z.abs c - 1)) edges (O, O).
Definition orient_code (edges : list (nat * nat)) (cA : Z) (flipA : bool) (cB : Z) : Z :=
  let endA := if xorb (cA <? 0) flipA then fst (code_ends edges cA) else snd (code_ends edges cA) in
  if (endA =? fst (code_ends edges cB))%nat then 1 else if (endA =? snd (code_ends edges cB))%nat then -1 else 0.
(** localTransformLoop, stokes_pc.cpp:692-745; an edge number -1 is None *)
Definition localTransformLoop (edges : list (nat * nat)) (enrs : list (option nat)) : res (list Z) :=
  codes <- (fix go l := match l with [] => Ret [] | None :: _ => Err Thrown | Some e :: l' => r <- go l' ;; Ret (1 + Z.of_nat e :: r) end) enrs ;;
  ' (n, out) <- SortAndOrientLoop Z.opp (orient_code edges) codes ;;
  if (1 <? n)%nat then Err Thrown else Ret out.

(** SplitChunk, loop_utils.cpp:8-70.  [sorti] is QuickSortI(chunk, inds, smaller), QuickSort(specinds) is [zsort]. *)
Fixpoint ins_nat (a : nat) (l : list nat) : list nat :=
  match l with [] => [a] | b :: l' => if (a <=? b)%nat then a :: l else b :: ins_nat a l' end.
Definition sort_nat (l : list nat) : list nat := fold_right ins_nat [] l.
(** [while ( (j < S) && (chunk[inds[j]] == chunk[inds[k]]) ) j++], :38-40 *)
Fixpoint group_end (fuel : nat) (chunk : list pt) (inds : list nat) (v : pt) (j : nat) : res nat :=
  match fuel with
  | O => Err OutOfFuel
  | S f =>
      if (j <? length chunk)%nat then
        i <- rd inds j ;; w <- rd chunk i ;;
        if pteqb w v then group_end f chunk inds v (S j) else Ret j
      else Ret j
  end.
(** the loop over k up to the first value that has to be split, :37-52: the sorted positions of that value *)
Fixpoint find_group (m : nat) (chunk : list pt) (inds : list nat) (k : nat) : res (option (list nat)) :=
  match m with
  | O => Ret None
  | S m' =>
      i <- rd inds k ;; v <- rd chunk i ;;
      j <- group_end (S (length chunk)) chunk inds v (S k) ;;
      let sss := (j - k)%nat in
      if (sss <? 2)%nat then find_group m' chunk inds (S k)
      else let specinds := sort_nat (firstn sss (skipn k inds)) in
           if (sss =? 2)%nat && (nth 0 specinds O =? 0)%nat && (nth 1 specinds O =? length chunk - 1)%nat then find_group m' chunk inds (S k)
           else Ret (Some specinds)
  end.
(** chunk.Range(a, b+1) *)
Definition range_incl {A} (l : list A) (a b : nat) : list A := firstn (S b - a) (skipn a l).
Fixpoint pieces {A} (l : list A) (sp : list nat) : list (list A) :=
  match sp with a :: ((b :: _) as sp') => range_incl l a b :: pieces l sp' | _ => [] end.
(** the split that goes over the end of the array, :54-59 *)
Definition bnd_arr (closed : bool) (chunk : list pt) (sp : list nat) : list pt :=
  skipn (last sp O) chunk ++ firstn (nth 0 sp O + (if closed then 0 else 1)) (skipn (if closed then 1 else 0) chunk).
Fixpoint split_rec (sorti : list pt -> list nat) (fuel : nat) (chunk : list pt) (out : list (list pt)) : res (list (list pt)) :=
  match fuel with
  | O => Err OutOfFuel
  | S f =>
      match chunk with
      | [] | [_] => Ret out
      | a :: b :: rest =>
          if (match rest with [] => true | _ => false end) && pteqb a b then Ret out else
          let closed := pteqb a (last chunk a) in
          g <- find_group (length chunk - 1) chunk (sorti chunk) 0 ;;
          match g with
          | None => Ret (out ++ [chunk])
          | Some sp =>
              out <- split_rec sorti f (bnd_arr closed chunk sp) out ;;
              foldM (fun o p => split_rec sorti f p o) (pieces chunk sp) out
          end
      end
  end.
Definition SplitChunk (sorti : list pt -> list nat) (chunk : list pt) (out : list (list pt)) : res (list (list pt)) :=
  split_rec sorti (2 * length chunk + 2) chunk out.

(** SimpleLoopsFromChunks, loop_utils.cpp:72-127.  A used tuple has its first entry negated. *)
Definition mark (e : edge4) : edge4 := ((- fst (fst e), snd (fst e)), snd e).
Definition open_entry (e : edge4) : bool := 0 <? fst (fst e).
(** look for a new edge to start from, :92-106: the tables after the search and the found edge *)
Fixpoint find_start_row (row : list edge4) : option (edge4 * list edge4) :=
  match row with
  | [] => None
  | e :: row' => if open_entry e then Some (e, mark e :: row') else match find_start_row row' with None => None | Some (x, r) => Some (x, e :: r) end
  end.
Fixpoint find_start (data : list (list edge4)) : option (edge4 * list (list edge4)) :=
  match data with
  | [] => None
  | r :: data' => match find_start_row r with
                  | Some (x, r') => Some (x, r' :: data')
                  | None => match find_start data' with None => None | Some (x, d) => Some (x, r :: d) end
                  end
  end.
(** one entry of the pass, :111-128: new sub_chunk, new entry, whether it was used *)
Definition visit (sub : list pt) (e : edge4) : res (list pt * edge4 * nat) :=
  if open_entry e then
    match sub with
    | [] => Err OutOfBounds
    | s :: _ =>
        if pteqb (fst e) (last sub s) then Ret (sub ++ [snd e], mark e, 1%nat)
        else if pteqb (snd e) s then Ret (fst e :: sub, mark e, 1%nat)
        else Ret (sub, e, O)
    end
  else Ret (sub, e, O).
Fixpoint visit_row (sub : list pt) (row : list edge4) : res (list pt * list edge4 * nat) :=
  match row with
  | [] => Ret (sub, [], O)
  | e :: row' => ' (sub1, e1, n1) <- visit sub e ;; ' (sub2, r, n2) <- visit_row sub1 row' ;; Ret (sub2, e1 :: r, (n1 + n2)%nat)
  end.
Fixpoint visit_rows (sub : list pt) (data : list (list edge4)) : res (list pt * list (list edge4) * nat) :=
  match data with
  | [] => Ret (sub, [], O)
  | r :: data' => ' (sub1, r1, n1) <- visit_row sub r ;; ' (sub2, d, n2) <- visit_rows sub1 data' ;; Ret (sub2, r1 :: d, (n1 + n2)%nat)
  end.
(** the while loop, :89-133 *)
Fixpoint sl_loop (sorti : list pt -> list nat) (fuel tot : nat) (data : list (list edge4)) (sub : list pt) (ndone : nat) (out : list (list pt))
  : res (list (list edge4) * list pt * list (list pt)) :=
  match fuel with
  | O => Err OutOfFuel
  | S f =>
      if (ndone <? tot)%nat then
        let '(data, sub, ndone) :=
          match sub with
          | _ :: _ => (data, sub, ndone)
          | [] => match find_start data with None => (data, [], ndone) | Some (e, d) => (d, [fst e; snd e], S ndone) end
          end in
        if (ndone =? tot)%nat then Ret (data, sub, out) else
        ' (sub, data, n) <- visit_rows sub data ;;
        if (n =? 0)%nat then out <- SplitChunk sorti sub out ;; sl_loop sorti f tot data [] ndone out
        else sl_loop sorti f tot data sub (ndone + n) out
      else Ret (data, sub, out)
  end.
Definition SimpleLoopsFromChunks (sorti : list pt -> list nat) (fuel : nat) (data : list (list edge4)) : res (list (list edge4) * list (list pt)) :=
  ' (data, sub, out) <- sl_loop sorti fuel (length (concat data)) data [] 0 [] ;;
  out <- (match sub with [] => Ret out | _ => SplitChunk sorti sub out end) ;;
  Ret (map (map mark) data, out).

(** rotateVLoop, loop_utils.hpp:330-394 *)
Fixpoint find_min (l : list pt) (j nsi : nat) (v : pt) : nat :=
  match l with [] => nsi | x :: l' => if ptltb x v then find_min l' (S j) j x else find_min l' (S j) nsi v end.
Definition rotateVLoop (slk : list pt) : res (list pt) :=
  match slk with
  | [] => Err OutOfBounds
  | s0 :: _ =>
      let n := length slk in
      if pteqb s0 (last slk s0) then
        let nsi := find_min slk 0 0 s0 in
        flip <- (if (0 <? nsi)%nat && (nsi + 1 <? n)%nat
                 then a <- rd slk (nsi + 1) ;; b <- rd slk (nsi - 1) ;; Ret (ptltb a b)
                 else (if (n <? 2)%nat then Err OutOfBounds else a <- rd slk (n - 2) ;; b <- rd slk 1 ;; Ret (ptltb a b))) ;;
        if flip : bool then Ret (rev (firstn nsi (skipn 1 slk)) ++ rev (skipn nsi slk))
        else if (nsi =? 0)%nat then Ret slk
        else Ret (skipn nsi slk ++ firstn nsi (skipn 1 slk))
      else if ptltb (last slk s0) s0 then Ret (rev slk) else Ret slk
  end.
