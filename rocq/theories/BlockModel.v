(** Model of the block Gauss-Seidel smoother BSmoother, /repo/src/base/smoothers/block_gssmoother.{hpp,cpp} 16-497.
    Same simplifications as GSModel.v.  The dense inverse (CalcInverse / CalcPseudoInverseTryNormal) is a parameter
    [minv]; NGSolve's greedy ComputeColoring is a parameter [coloring]; QuickSort is insertion sort. *)
From Verif Require Import Base AGroup LinAlg LinTools GSModel ArraysModel Shm.
From Coq Require Import ZArith.
Open Scope nat_scope.

(** block_gssmoother.cpp:36-37 QuickSort(row) (NGSolve; any sorting function) *)
Fixpoint ins_nat (a : nat) (l : list nat) : list nat :=
  match l with [] => [a] | b :: l' => if a <=? b then a :: l else b :: ins_nat a l' end.
Definition sort_nat (l : list nat) : list nat := fold_right ins_nat [] l.

(** ngcore TableCreator: row c of the table = the k with key k = c, in the order they were added; the table has n rows
    (block_gssmoother.cpp:187-193) *)
Definition table_of (n : nat) (key : list nat) : list (list nat) :=
  map (fun c => filter (fun k => nth k key 0 =? c) (seq 0 (length key))) (seq 0 n).

Section Model.
  Context {B : Blk}.
  Local Notation X := (X B). Local Notation M := (M B). Local Notation K := (K B).
  Local Notation vec := (list X).
  (** FlatMatrix<TM> *)
  Definition dense := list (list M).

  (** block_gssmoother.cpp:94-107, 129-135: D(i,j) = A(block_dofs[i], block_dofs[j]); if md is given, D(i,i) = md[block_dofs[i]].
      (For BS>1 the code copies to a scalar matrix and back; the entries are the same.) *)
  Definition diag_block (A : @spmat B) (md : list M) (bl : list nat) : dense :=
    map (fun i => map (fun j => if (i =? j) && negb (length md =? 0) then nth (nth i bl 0) md m0
                                else entry A (nth i bl 0) (nth j bl 0))
                      (seq 0 (length bl))) (seq 0 (length bl)).

  (** block_gssmoother.cpp:157-183: block dofs plus all columns of their rows, kept sorted and unique *)
  Definition ext_add (dnums : list Z) (col : nat) : res (list Z) :=
    pos <- find_in_sorted_array (Z.of_nat col) dnums ;;
    match pos with None => insert_into_sorted_array (Z.of_nat col) dnums | Some _ => Ret dnums end.
  Definition ext_block (A : @spmat B) (bl : list nat) : res (list Z) :=
    foldM (fun dnums dof => foldM ext_add (map fst (getrow A dof)) dnums) bl (map Z.of_nat bl).
  Definition ext_blocks (A : @spmat B) (blocks : list (list nat)) : res (list (list Z)) :=
    foldM (fun acc bl => e <- ext_block A bl ;; Ret (acc ++ [e])) blocks [].

  (** block_gssmoother.hpp:27-36 *)
  Record BSmoother := mkBS {
    bs_A : @spmat B; bs_blocks : list (list nat); bs_dinv : list dense;
    bs_parallel : bool; bs_colors : list (list nat) }.

  (** BSmoother::BSmoother, block_gssmoother.cpp:16-214. [coloring ext] = (bcarray, maxcolor) *)
  Definition bs_make (minv : dense -> dense) (coloring : list (list Z) -> list nat * nat)
    (A : @spmat B) (blocks0 : list (list nat)) (parallel : bool) (md : list M) : res BSmoother :=
    let blocks := map sort_nat blocks0 in
    let dinv := map (fun bl => minv (diag_block A md bl)) blocks in
    if parallel then
      ext <- ext_blocks A blocks ;;
      let (bcarray, maxcolor) := if length blocks =? 0 then ([], 0) else coloring ext in
      Ret (mkBS A blocks dinv true (table_of (S maxcolor) bcarray))
    else Ret (mkBS A blocks dinv false []).

  (** D * h for a dense block matrix *)
  Definition dmul (D : dense) (h : vec) : vec :=
    map (fun r => fold_left (fun s p => xadd s (act (fst p) (snd p))) (combine r h) x0) D.
  (** fx(block_dofs) *)
  Definition gather (bl : list nat) (x : vec) : vec := map (ent x) bl.
  (** fx(block_dofs) += up *)
  Definition scatter (bl : list nat) (up x : vec) : vec := fold_left (fun x p => vinc x (fst p) (snd p)) (combine bl up) x.

  (** lambda of Smooth_impl, block_gssmoother.cpp:308-331 *)
  Definition block_rhs (A : @spmat B) (bl : list nat) (D : dense) (b x : vec) : vec :=
    if 0 <? length bl then
      let hr := map (fun jj => xadd (ent b jj) (xopp (row_times (getrow A jj) x))) bl in
      scatter bl (dmul D hr) x
    else x.
  (** lambda of SmoothRES_impl, block_gssmoother.cpp:372-387; state (x, res) *)
  Definition block_res (A : @spmat B) (bl : list nat) (D : dense) (s : vec * vec) : vec * vec :=
    let (x, res) := s in
    if 0 <? length bl then
      let hup := dmul D (gather bl res) in
      (scatter bl hup x,
       fold_left (fun res p => add_row_trans (getrow A (fst p)) (xopp (snd p)) res) (combine bl hup) res)
    else (x, res).

  (** the phases of IterateBlocks, block_gssmoother.cpp:217-275: the blocks of one phase may be processed concurrently.
      use_sl2 only selects the loop primitive.  Not parallel: every block is its own phase. *)
  Definition bs_phases (S : BSmoother) (reverse : bool) : list (list nat) :=
    if bs_parallel S then
      let nc := length (bs_colors S) in
      map (fun J => nth (if reverse then nc - 1 - J else J) (bs_colors S) []) (seq 0 nc)
    else
      let nb := length (bs_blocks S) in
      map (fun k => [if reverse then nb - 1 - k else k]) (seq 0 nb).
  Definition bs_order (S : BSmoother) (reverse : bool) : list nat := concat (bs_phases S reverse).

  (** Smooth_impl :283-334 / SmoothRES_impl :358-388 with the blocks of a phase taken in table order (one thread) *)
  Definition bs_rhs (S : BSmoother) (steps : nat) (reverse : bool) (x b : vec) : vec :=
    Nat.iter steps (fun x =>
      fold_left (fun x k => block_rhs (bs_A S) (nth k (bs_blocks S) []) (nth k (bs_dinv S) []) b x) (bs_order S reverse) x) x.
  Definition bs_res (S : BSmoother) (steps : nat) (reverse : bool) (x res : vec) : vec * vec :=
    Nat.iter steps (fun s =>
      fold_left (fun s k => block_res (bs_A S) (nth k (bs_blocks S) []) (nth k (bs_dinv S) []) s) (bs_order S reverse) s) (x, res).

  (** BSmoother::Smooth :436-466 / SmoothBack :468-497 *)
  Definition bs_smooth (S : BSmoother) (back : bool) : @smooth_fun B :=
    fun x b res res_updated update_res x_zero =>
      if update_res then
        if res_updated then bs_res S 1 back x res
        else bs_res S 1 back x (calc_residuum (matvec (bs_A S)) x b x_zero)
      else (bs_rhs S 1 back x b, res).

  (** BSmoother::MultAdd :411-433, blocks one after the other *)
  Definition bs_multadd (S : BSmoother) (s : K) (b x : vec) : vec :=
    fold_left (fun x k => let bl := nth k (bs_blocks S) [] in
                          scatter bl (vsc s (dmul (nth k (bs_dinv S) []) (gather bl b))) x)
              (seq 0 (length (bs_blocks S))) x.

  (** *** the same block updates as tasks on shared memory: cell (true,i) is x(i), cell (false,i) is res(i).
      b, the matrix and the inverses are never written and are not cells; hxmax / hymax are private to the task. *)
  Definition loc := (bool * nat)%type.
  Definition loc_eqb (a b : loc) : bool := Bool.eqb (fst a) (fst b) && (snd a =? snd b).
  Definition task := prog X loc.
  (** A.RowTimesVector(jj, fx): reads fx(col) entry by entry *)
  Fixpoint t_row (r : @row B) (acc : X) (k : X -> task) : task :=
    match r with [] => k acc | p :: r' => Rd (true, fst p) (fun v => t_row r' (xadd acc (act (snd p) v)) k) end.
  (** the loop computing hr, :313-317 *)
  Fixpoint t_hr (A : @spmat B) (b : vec) (bl : list nat) (k : vec -> task) : task :=
    match bl with
    | [] => k []
    | jj :: bl' => t_row (getrow A jj) x0 (fun s => t_hr A b bl' (fun hs => k (xadd (ent b jj) (xopp s) :: hs)))
    end.
  (** hr = fres(block_dofs), :378 *)
  Fixpoint t_gather (bl : list nat) (k : vec -> task) : task :=
    match bl with [] => k [] | i :: bl' => Rd (false, i) (fun v => t_gather bl' (fun hs => k (v :: hs))) end.
  (** v(i) += u for a list of updates: read, add, write *)
  Fixpoint t_upd (c : bool) (l : list (nat * X)) (k : task) : task :=
    match l with [] => k | p :: l' => Rd (c, fst p) (fun v => Wr (c, fst p) (xadd v (snd p)) (t_upd c l' k)) end.
  Definition t_block_rhs (A : @spmat B) (bl : list nat) (D : dense) (b : vec) : task :=
    if 0 <? length bl then t_hr A b bl (fun hr => t_upd true (combine bl (dmul D hr)) Done) else Done.
  Fixpoint t_rows (A : @spmat B) (l : list (nat * X)) (k : task) : task :=
    match l with
    | [] => k
    | p :: l' => t_upd false (map (fun q => (fst q, act (mtr (snd q)) (xopp (snd p)))) (getrow A (fst p))) (t_rows A l' k)
    end.
  Definition t_block_res (A : @spmat B) (bl : list nat) (D : dense) : task :=
    if 0 <? length bl then
      t_gather bl (fun hr => let hup := dmul D hr in t_rows A (combine bl hup) (t_upd true (combine bl hup) Done))
    else Done.
  (** the parallel loops of one sweep *)
  Definition par_rhs (S : BSmoother) (reverse : bool) (b : vec) : list (list task) :=
    map (map (fun k => t_block_rhs (bs_A S) (nth k (bs_blocks S) []) (nth k (bs_dinv S) []) b)) (bs_phases S reverse).
  Definition par_res (S : BSmoother) (reverse : bool) : list (list task) :=
    map (map (fun k => t_block_res (bs_A S) (nth k (bs_blocks S) []) (nth k (bs_dinv S) []))) (bs_phases S reverse).
  (** MultAdd :411-433: ONE parallel loop over all blocks, no colouring *)
  Definition par_multadd (S : BSmoother) (s : K) (b : vec) : list task :=
    map (fun k => let bl := nth k (bs_blocks S) [] in
                  t_upd true (combine bl (vsc s (dmul (nth k (bs_dinv S) []) (gather bl b)))) Done)
        (seq 0 (length (bs_blocks S))).
  (** shared memory holding x and res *)
  Definition mem_of (x res : vec) : loc -> X := fun l => ent (if fst l then x else res) (snd l).
End Model.
Arguments BSmoother : clear implicits.
