(** Model of the MIS agglomeration, /repo/src/base/coarsening/mis_agg_impl.hpp:92-853 (FormAgglomerates_impl), on one rank.

    Simplifications: all floating point data (edge matrices, diagonals, strength of connection, desirability) only enters through comparisons; the outcome of each
    comparison is given by an oracle, indexed by the number of the CalcSOC call, so that every strength function (and every value of the options that influence it) is covered.
    QuickSort / QuickSortI are oracles that return some permutation.  The loops over intersections of sorted arrays (iterate_intersection, iterate_anotb,
    intersect_sorted_arrays; C05) are written as membership tests.  agg_diag, ecw and printing are left out. *)
From Verif Require Import Base ArraysModel.
Local Open Scope nat_scope.

(** agglomerator.hpp:43-69; the id is the position in the array of agglomerates *)
Record agg := mkAgg { ctr : nat; mems : list nat }.
(** Agglomerate::AddSort, agglomerator.hpp:67 *)
Definition add_sort (v : nat) (a : list nat) : res (list nat) := r <- insert_into_sorted_array (Z.of_nat v) (map Z.of_nat a) ;; Ret (map Z.to_nat r).

(** the local mesh: adjacency (edge connectivity matrix), equivalence class of every vertex, IsLEQ and IsMasterOfEQC; optional solid / free vertices and fixed agglomerates *)
Record graph := mkGraph {
  NV : nat; adj : list (list nat); eqc : list nat; leq : nat -> nat -> bool; master : nat -> bool;
  solid : option (list bool); free : option (list bool); fixed : list (list nat); dist2 : bool }.

(** the oracles: is the strength above the threshold; which candidate is the most desirable; order of the traces; order by number of edges *)
Record oracle := mkOracle { o_soc : nat -> bool; o_pick : nat -> nat -> nat; o_trace : nat -> nat -> list nat; o_sort : nat -> list Z -> list nat -> list nat }.

Record st := mkSt { marked : list bool; v2a : list (option nat); dist : list Z; aggs : list agg; calls : nat }.
Definition ask (O : oracle) (s : st) : bool * st := (o_soc O (calls s), mkSt (marked s) (v2a s) (dist s) (aggs s) (S (calls s))).

(** is_mine, is_mine_eq, mis_agg_impl.hpp:164-168 *)
Definition is_mine (G : graph) (v : nat) : res bool :=
  match solid G with Some b => rd b v | None => e <- rd (eqc G) v ;; Ret (master G e) end.

(** may_check_neib, :479-480 *)
Definition may_check (G : graph) (s : st) (veq N : nat) : res bool :=
  m <- rd (marked s) N ;; if m then Ret false else e <- rd (eqc G) N ;; Ret (leq G e veq).
(** :499-503, 548-551, 758-762, 773-778: mark, enter into the maps, add_v_to_agg (:427-464) *)
Definition add_member (s : st) (k N : nat) (d : Z) : res st :=
  va <- wr (v2a s) N (Some k) ;; di <- wr (dist s) N d ;; ma <- wr (marked s) N true ;;
  a <- rd (aggs s) k ;; ms <- add_sort N (mems a) ;; ag <- wr (aggs s) k (mkAgg (ctr a) ms) ;;
  Ret (mkSt ma va di ag (calls s)).

(** first neighbour, :491-509; the positions [js] in the row, ordered by trace *)
Fixpoint first_neib (O : oracle) (G : graph) (k veq : nat) (row js : list nat) (s : st) : res (option nat * st) :=
  match js with
  | [] => Ret (None, s)
  | j :: js =>
      N <- rd row j ;; c <- may_check G s veq N ;;
      if c then
        let '(ok, s) := ask O s in
        if ok then s <- add_member s k N 1 ;; Ret (Some j, s) else first_neib O G k veq row js s
      else first_neib O G k veq row js s
  end.

Definition mem (x : nat) (l : list nat) : bool := existsb (Nat.eqb x) l.
(** number of edges into the agglomerate: +1 for the common neighbours, :528-532, 552-556 *)
Definition bump (row rowN : list nat) (cnt : list Z) : list Z :=
  map (fun p => if (snd p =? -1)%Z then snd p else if mem (fst p) rowN then (snd p + 1)%Z else snd p) (combine row cnt).
(** no longer consider what is not a neighbour of the first member, :534-543: new counts and how many were locked out *)
Definition lock (row rowN : list nat) (cnt : list Z) : list Z * nat :=
  (map (fun p => if mem (fst p) rowN then snd p else (-1)%Z) (combine row cnt),
   length (filter (fun p => negb (mem (fst p) rowN) && negb (snd p =? -1)%Z) (combine row cnt))).
(** QuickSort(qsis.Part(fv, n), by count) *)
Definition sort_part (O : oracle) (s : st) (cnt : list Z) (fv n : nat) (qs : list nat) : list nat :=
  firstn fv qs ++ o_sort O (calls s) cnt (firstn n (skipn fv qs)) ++ skipn (fv + n) qs.
(** the while loop, :546-563: the qss best candidates are qs[fv .. fv+qss) *)
Fixpoint grow (O : oracle) (G : graph) (k : nat) (row : list nat) (fv qss : nat) (qs : list nat) (cnt : list Z) (cm : nat) (s : st) : res (nat * st) :=
  match qss with
  | 0 => Ret (cm, s)
  | S q =>
      j <- rd qs (fv + q) ;; N <- rd row j ;;
      let '(ok, s) := ask O s in
      cnt <- wr cnt j (-1)%Z ;;
      if ok then
        s <- add_member s k N 1 ;; rowN <- rd (adj G) N ;;
        let cnt := bump row rowN cnt in
        grow O G k row fv q (sort_part O s cnt fv q qs) cnt (S cm) s
      else grow O G k row fv q qs cnt cm s
  end.
(** :518-526: candidates and their counts *)
Fixpoint candidates (G : graph) (s : st) (veq : nat) (row : list nat) (j : nat) : res (list nat * list Z) :=
  match row with
  | [] => Ret ([], [])
  | N :: row =>
      c <- may_check G s veq N ;; ' p <- candidates G s veq row (S j) ;;
      Ret (if c : bool then (j :: fst p, 1%Z :: snd p) else (fst p, (-1)%Z :: snd p))
  end.

(** init_agglomerate, :468-574 *)
Definition start_agg (s : st) (v : nat) : res st :=
  ma <- wr (marked s) v true ;; va <- wr (v2a s) v (Some (length (aggs s))) ;; di <- wr (dist s) v 0%Z ;;
  Ret (mkSt ma va di (aggs s ++ [mkAgg v [v]]) (calls s)).
Definition undo_agg (s : st) (k : nat) : res st :=
  a <- rd (aggs s) k ;;
  s <- foldM (fun s m => va <- wr (v2a s) m None ;; di <- wr (dist s) m (-1)%Z ;; ma <- wr (marked s) m false ;; Ret (mkSt ma va di (aggs s) (calls s))) (mems a) s ;;
  Ret (mkSt (marked s) (v2a s) (dist s) (firstn k (aggs s)) (calls s)).
Definition grow_agg (O : oracle) (G : graph) (k veq : nat) (row : list nat) (s : st) : res (nat * st) :=
  ' (first, s) <- first_neib O G k veq row (o_trace O (calls s) (length row)) s ;;
  match first with
  | None => Ret (1, s)
  | Some j1 =>
      ' (qs, cnt) <- candidates G s veq row 0 ;;
      N1 <- rd row j1 ;; row1 <- rd (adj G) N1 ;;
      let cnt := bump row row1 cnt in
      let '(cnt, inc) := if dist2 G then (cnt, 0) else lock row row1 cnt in
      let n := length qs in
      let qs := sort_part O s cnt 0 n qs in
      grow O G k row inc (n - inc) qs cnt 2 s
  end.
Definition init_agglomerate (O : oracle) (G : graph) (v veq : nat) (force : bool) (s : st) : res (bool * st) :=
  let k := length (aggs s) in
  s <- start_agg s v ;; row <- rd (adj G) v ;;
  ' (cm, s) <- grow_agg O G k veq row s ;;
  if force || (2 <=? cm) then Ret (true, s) else s <- undo_agg s k ;; Ret (false, s).

(** check_v, :578-591 *)
Fixpoint neib_in_agg (G : graph) (s : st) (myeq : nat) (row : list nat) : res bool :=
  match row with
  | [] => Ret false
  | n :: row =>
      m <- rd (marked s) n ;; e <- rd (eqc G) n ;; a <- rd (v2a s) n ;;
      if m && leq G myeq e && (match a with Some _ => true | None => false end) then Ret true else neib_in_agg G s myeq row
  end.
Definition check_v (O : oracle) (G : graph) (s : st) (v : nat) : res st :=
  myeq <- rd (eqc G) v ;; m <- rd (marked s) v ;;
  if m : bool then Ret s
  else row <- rd (adj G) v ;; b <- neib_in_agg G s myeq row ;;
       if b : bool then Ret s else ' p <- init_agglomerate O G v myeq false s ;; Ret (snd p).
(** the order of the first loop, :694-708: by number of neighbours, within a bucket descending *)
Definition bucket_order (G : graph) : list nat :=
  let deg v := length (nth v (adj G) []) in
  flat_map (fun d => filter (fun v => deg v =? d) (rev (seq 0 (NV G)))) (seq 0 (S (fold_right (fun v m => Nat.max m (deg v)) 0 (seq 0 (NV G))))).

(** second loop, :737-833 *)
(** neighbouring agglomerates that v could join, :790-821 *)
Fixpoint neib_aggs (O : oracle) (G : graph) (veq : nat) (row : list nat) (cand notake : list nat) (s : st) : res (list nat * st) :=
  match row with
  | [] => Ret (cand, s)
  | n :: row =>
      m <- rd (marked s) n ;; d <- rd (dist s) n ;;
      if m && (d <=? (if dist2 G then 2 else 1))%Z then
        a <- rd (v2a s) n ;;
        match a with
        | None => neib_aggs O G veq row cand notake s
        | Some k =>
            ag <- rd (aggs s) k ;; e <- rd (eqc G) (ctr ag) ;;
            if leq G veq e && negb (mem k notake) && negb (mem k cand) then
              let '(ok, s) := ask O s in
              if ok then neib_aggs O G veq row (cand ++ [k]) notake s else neib_aggs O G veq row cand (notake ++ [k]) s
            else neib_aggs O G veq row cand notake s
        end
      else neib_aggs O G veq row cand notake s
  end.
Fixpoint min_dist (s : st) (ms row : list nat) (d : Z) : res Z :=
  match row with [] => Ret d | n :: row => if mem n ms then x <- rd (dist s) n ;; min_dist s ms row (Z.min d x) else min_dist s ms row d end.
Definition join_v (O : oracle) (G : graph) (s : st) (v : nat) : res st :=
  veq <- rd (eqc G) v ;; m <- rd (marked s) v ;; mine <- is_mine G v ;;
  if m || negb mine then Ret s
  else
    row <- rd (adj G) v ;;
    match row with
    | [N] =>                                                                            (* hanging vertex, :745-786 *)
        Neq <- rd (eqc G) N ;; a <- rd (v2a s) N ;;
        match a with
        | Some k =>
            ' (can, s) <- (if leq G veq Neq then Ret (ask O s) else Ret (false, s)) ;;
            if can : bool then d <- rd (dist s) N ;; add_member s k v (1 + d) else ' p <- init_agglomerate O G v veq true s ;; Ret (snd p)
        | None =>
            mineN <- is_mine G N ;;
            if mineN && leq G veq Neq then
              ' p <- init_agglomerate O G N Neq true s ;; let s := snd p in
              a <- rd (v2a s) N ;; m <- rd (marked s) v ;;
              if m : bool then Ret s else match a with Some k => add_member s k v 1 | None => Err OutOfBounds end
            else ' p <- init_agglomerate O G v veq true s ;; Ret (snd p)
        end
    | _ =>
        ' (cand, s) <- neib_aggs O G veq row [] [] s ;;
        match cand with
        | [] => ' p <- init_agglomerate O G v veq true s ;; Ret (snd p)
        | _ =>
            k <- rd cand (o_pick O (calls s) (length cand)) ;; ag <- rd (aggs s) k ;; d <- min_dist s (mems ag) row 1000 ;; add_member s k v (1 + d)
        end
    end.

(** what is marked from the start: fixed agglomerates :183-189, vertices that are not mine :192-202, Dirichlet vertices :594-604 *)
Definition is_fixed (G : graph) (v : nat) : bool := existsb (mem v) (fixed G).
Definition foreign (G : graph) (v : nat) : bool :=
  let e := nth v (eqc G) 0 in
  match solid G with Some b => (0 <? e) && negb (nth v b false) | None => negb (master G e) end.
Definition dirichlet (G : graph) (v : nat) : bool := match free G with Some f => negb (nth v f false) | None => false end.
Definition blocked (G : graph) (v : nat) : bool := is_fixed G v || foreign G v || dirichlet G v.
Definition init_state (G : graph) : st :=
  mkSt (map (blocked G) (seq 0 (NV G))) (repeat None (NV G)) (repeat (-1)%Z (NV G)) [] 0.
(** fixed agglomerates, :837-852 *)
Definition add_fixed (s : st) (f : list nat) : res st :=
  let k := length (aggs s) in
  c <- rd f 0 ;; va <- wr (v2a s) c (Some k) ;;
  ' p <- foldM (fun p m => va <- wr (fst p) m (Some k) ;; ms <- add_sort m (snd p) ;; Ret (va, ms)) (skipn 1 f) (va, [c]) ;;
  Ret (mkSt (marked s) (fst p) (dist s) (aggs s ++ [mkAgg c (snd p)]) (calls s)).
(** the loop over the vertices of the classes visits the vertices in ascending order; master_only (= no solid vertices) is part of is_mine *)
Definition FormAgglomerates (O : oracle) (G : graph) : res (list agg * list (option nat)) :=
  s <- foldM (check_v O G) (bucket_order G) (init_state G) ;;
  s <- foldM (join_v O G) (seq 0 (NV G)) s ;;
  s <- foldM add_fixed (fixed G) s ;;
  Ret (aggs s, v2a s).
