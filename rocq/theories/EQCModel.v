(** Model of the hierarchy of equivalence classes of shared vertices, /repo/src/base/distributed/eqchierarchy.{hpp,cpp}.

    A class is a set of ranks; each rank stores, for each of its classes, the sorted list of the *other* ranks (dist_procs).  The collective set-up is a function of the tables of all ranks.
    MPI messages with the same tag between two ranks are matched in the order in which they are sent (non-overtaking), so that a channel is a list.
    Simplifications: QuickSort is insertion sort; Array::Contains / Pos / find_in_sorted_array on these short lists are membership tests (find_in_sorted_array is C01);
    timers, output and the commented-out sub-communicators are left out. *)
From Verif Require Import Base.
Local Open Scope nat_scope.

Definition AMG_TAG_BASE : nat := 1020. (* mpiwrap_extension.hpp:12 *)
Definition has (p : nat) (l : list nat) : bool := existsb (Nat.eqb p) l.
Fixpoint list_eqb (a b : list nat) : bool :=
  match a, b with [], [] => true | x :: a, y :: b => (x =? y) && list_eqb a b | _, _ => false end.
(** QuickSort *)
Section Sort.
  Context {A : Type} (less : A -> A -> bool).
  Fixpoint insert_by (x : A) (l : list A) : list A := match l with [] => [x] | y :: l' => if less x y then x :: l else y :: insert_by x l' end.
  Definition sort_by (l : list A) : list A := fold_right insert_by [] l.
End Sort.

(** the comparison of SetupFromDPs, eqchierarchy.cpp:546-557 *)
Fixpoint lex_less (a b : list nat) : bool :=
  match a, b with x :: a, y :: b => if x <? y then true else if y <? x then false else lex_less a b | _, _ => false end.
Definition dps_less (a b : list nat) : bool := if length b <? length a then false else if length a <? length b then true else lex_less a b.

(** merge / merge_arrays, eqchierarchy.cpp:369-384, 653-672 *)
Fixpoint merge_arrays (a : list nat) : list nat -> list nat :=
  fix aux (b : list nat) : list nat :=
    match a, b with
    | x :: a', y :: b' => if x =? y then x :: merge_arrays a' b' else if x <? y then x :: merge_arrays a' b else y :: aux b'
    | [], _ => b
    | _, [] => a
    end.
(** intersect_arrays, eqchierarchy.cpp:718-738 *)
Fixpoint intersect_arrays (a : list nat) : list nat -> list nat :=
  fix aux (b : list nat) : list nat :=
    match a, b with
    | x :: a', y :: b' => if x =? y then x :: intersect_arrays a' b' else if x <? y then intersect_arrays a' b else aux b'
    | _, _ => []
    end.

(** *** SetupFromInitialDPs, eqchierarchy.cpp:348-535 *)
(** is the merged class contained in a class, is it new, :394-407; [is_new] ends the loop *)
Fixpoint scan (mdp : list nat) (rows : list (list nat)) (valid : bool) : bool * bool :=
  match rows with
  | [] => (valid, true)
  | r :: rows =>
      let seq := forallb (fun p => has p r) mdp in
      if seq && (length r =? length mdp) then (true, false) else scan mdp rows (valid || seq)
  end.
(** local merge loop, :386-415; the bounds of the loops grow with the list *)
Fixpoint merge_inner (fuel e1 e2 : nat) (nd : list (list nat)) : res (list (list nat)) :=
  match fuel with
  | 0 => Err OutOfFuel
  | S f =>
      if e2 <? e1 then
        a <- rd nd e1 ;; b <- rd nd e2 ;;
        let m := merge_arrays a b in
        let '(valid, is_new) := scan m nd false in
        merge_inner f e1 (S e2) (if valid && is_new then nd ++ [m] else nd)
      else Ret nd
  end.
Fixpoint merge_outer (fuel e1 : nat) (nd : list (list nat)) : res (list (list nat)) :=
  match fuel with
  | 0 => Err OutOfFuel
  | S f => if e1 <? length nd then nd <- merge_inner fuel e1 0 nd ;; merge_outer f (S e1) nd else Ret nd
  end.
(** exchange, :420-489: what rank [me] gets from rank [from] is the new classes of [from] that contain [me]; own rank replaced by the sender's, sorted, appended if not there *)
Definition swap_rank (me from : nat) (row : list nat) : list nat := sort_by Nat.ltb (map (fun p => if p =? me then from else p) row).
Definition add_class (nd : list (list nat)) (c : list nat) : list (list nat) := if existsb (list_eqb c) nd then nd else nd ++ [c].
Definition receive (me from : nat) (news : list (list nat)) (nd : list (list nat)) : list (list nat) :=
  fold_left (fun nd row => add_class nd (swap_rank me from row)) (filter (has me) news) nd.
(** all neighbours of a rank, :356-365 *)
Definition neighbours (dps : list (list nat)) : list nat := sort_by Nat.ltb (nodup Nat.eq_dec (concat dps)).
(** pairwise intersection until nothing changes, :490-523 *)
Fixpoint isect_inner (fuel k j : nat) (nd : list (list nat)) (changed : bool) : res (list (list nat) * bool) :=
  match fuel with
  | 0 => Err OutOfFuel
  | S f =>
      if j <? length nd then
        rk <- rd nd k ;; rj <- rd nd j ;;
        let c := sort_by Nat.ltb (filter (fun p => has p rj) rk) in
        if existsb (list_eqb c) nd then isect_inner f k (S j) nd changed else isect_inner f k (S j) (nd ++ [c]) true
      else Ret (nd, changed)
  end.
Fixpoint isect_outer (fuel k : nat) (nd : list (list nat)) (changed : bool) : res (list (list nat) * bool) :=
  match fuel with
  | 0 => Err OutOfFuel
  | S f => if k <? length nd then ' (nd, changed) <- isect_inner fuel k 0 nd changed ;; isect_outer f (S k) nd changed else Ret (nd, changed)
  end.
Fixpoint isect_loop (fuel fi : nat) (nd : list (list nat)) : res (list (list nat)) :=
  match fuel with
  | 0 => Err OutOfFuel
  | S f => ' (nd, changed) <- isect_outer fi 0 nd false ;; if changed then isect_loop f fi nd else Ret nd
  end.
(** all ranks together; [W] r = the initial table of rank r.  Each loop of rank r gets twice the number of subsets of its neighbours as fuel *)
Definition loop_fuel (dps : list (list nat)) : nat := 2 * 2 ^ length (neighbours dps) + 2.
Fixpoint mapM {A B} (f : A -> res B) (l : list A) : res (list B) := match l with [] => Ret [] | x :: l => y <- f x ;; ys <- mapM f l ;; Ret (y :: ys) end.
Definition SetupFromInitialDPs (W : list (list (list nat))) : res (list (list (list nat))) :=
  merged <- mapM (fun dps => merge_outer (loop_fuel dps) 0 dps) W ;;
  mapM (fun me =>
    let dps := nth me W [] in
    let recv := fold_left (fun nd from => receive me from (skipn (length (nth from W [])) (nth from merged [])) nd) (neighbours dps) (nth me merged []) in
    isect_loop (loop_fuel dps) (loop_fuel dps) recv) (seq 0 (length W)).

(** *** SetupFromDPs, eqchierarchy.cpp:537-770 *)
(** dist_procs: the classes, sorted, :539-583 *)
Definition dist_procs (dps : list (list nat)) : list (list nat) := sort_by dps_less dps.
(** constructor with do_cutunion, eqchierarchy.cpp:135-138, 159-162: completion, then sorting, on all ranks *)
Definition EQCHierarchy (W : list (list (list nat))) : res (list (list (list nat))) := W' <- SetupFromInitialDPs W ;; Ret (map dist_procs W').
(** IsMasterOfEQC, eqchierarchy.hpp:69-70 (also :607, :619) *)
Definition is_master (rank : nat) (dps : list nat) : bool := match dps with [] => true | p :: _ => rank <? p end.
(** GetMasterOfEQC, eqchierarchy.hpp:66-67 *)
Definition master_of (rank : nat) (dps : list nat) : nat := match dps with [] => rank | p :: _ => Nat.min rank p end.
(** nblocks_loc, :604-608 *)
Definition nblocks_loc (rank : nat) (dps : list (list nat)) : nat := length (filter (fun d => match d with [] => false | p :: _ => rank <? p end) dps).
Definition sum (l : list nat) : nat := fold_right Nat.add 0 l.
(** tagbase_loc, :614-616 *)
Definition tagbase (np rank : nat) (nblocks : list nat) : nat := AMG_TAG_BASE + np + sum (firstn rank nblocks).
(** ids given by the rank itself, :618-628; None: to be received *)
Fixpoint own_ids (rank tag : nat) (dps : list (list nat)) : list (option nat) * nat :=
  match dps with
  | [] => ([], tag)
  | [] :: dps => let '(l, t) := own_ids rank tag dps in (Some (AMG_TAG_BASE + rank) :: l, t)
  | (p :: d) :: dps => if rank <? p then let '(l, t) := own_ids rank (S tag) dps in (Some tag :: l, t) else let '(l, t) := own_ids rank tag dps in (None :: l, t)
  end.
(** the messages from [src] to [dst], in the order in which they are sent, :625-626 *)
Definition sent (np : nat) (tabs : list (list (list nat))) (nblocks : list nat) (src dst : nat) : list nat :=
  let d := nth src tabs [] in
  flat_map (fun p => match fst p, snd p with r :: _, Some i => if (src <? r) && has dst (fst p) then [i] else [] | _, _ => [] end)
    (combine d (fst (own_ids src (tagbase np src nblocks) d))).
(** receives of rank [me], :629-630: one channel per source; a receive without a matching message never ends ([Err OutOfBounds]) *)
Fixpoint recv_ids (chan : list (list nat)) (dps : list (list nat)) (ids : list (option nat)) : res (list nat) :=
  match dps, ids with
  | [], [] => Ret []
  | d :: dps, Some i :: ids => l <- recv_ids chan dps ids ;; Ret (i :: l)
  | d :: dps, None :: ids =>
      src <- rd d 0 ;; c <- rd chan src ;;
      match c with [] => Err OutOfBounds | i :: c => chan <- wr chan src c ;; l <- recv_ids chan dps ids ;; Ret (i :: l) end
  | _, _ => Err OutOfBounds
  end.
Definition nblocks_of (tabs : list (list (list nat))) : list nat := map (fun r => nblocks_loc r (nth r tabs [])) (seq 0 (length tabs)).
Definition eqc_ids (tabs : list (list (list nat))) (me : nat) : res (list nat) :=
  let np := length tabs in let nb := nblocks_of tabs in
  recv_ids (map (fun src => sent np tabs nb src me) (seq 0 np)) (nth me tabs []) (fst (own_ids me (tagbase np me nb) (nth me tabs []))).
(** neqcs_glob before and after subtracting the base, :634-645; starts from the tag base *after* the own classes *)
Definition ids_size (tabs : list (list (list nat))) (me : nat) : nat :=
  let np := length tabs in let nb := nblocks_of tabs in
  snd (own_ids me (tagbase np me nb) (nth me tabs [])) + sum (skipn me nb).
Definition neqcs_glob (tabs : list (list (list nat))) (me : nat) : nat := ids_size tabs me - AMG_TAG_BASE.
(** idf_2_ind, :638-642; -1 is None *)
Definition idf_2_ind (tabs : list (list (list nat))) (me : nat) (ids : list nat) : res (list (option nat)) :=
  foldM (fun a k => i <- rd ids k ;; wr a i (Some k)) (seq 0 (length (nth me tabs []))) (repeat None (ids_size tabs me)).

(** *** merge, intersection, order; on the sorted classes of one rank *)
(** the last class equal to [arr], :684-687, 749-752 *)
Definition find_last (dp : list (list nat)) (arr : list nat) : option nat :=
  fold_left (fun pos k => if list_eqb (nth k dp []) arr then Some k else pos) (seq 0 (length dp)) None.
(** the loops over eqc1 <= eqc2 that fill a symmetric matrix, :677-692, 742-757 *)
Definition fill_sym (f : list nat -> list nat -> list nat) (dp : list (list nat)) : res (list (option nat)) :=
  let n := length dp in
  foldM (fun M e1 => foldM (fun M e2 =>
    a <- rd dp e1 ;; b <- rd dp e2 ;; let pos := find_last dp (f a b) in
    M <- wr M (e1 + n * e2) pos ;; wr M (e2 + n * e1) pos) (seq e1 (n - e1)) M) (seq 0 n) (repeat None (n * n)).
Definition mat_merge (dp : list (list nat)) : res (list (option nat)) := fill_sym merge_arrays dp.
Definition mat_intersect (dp : list (list nat)) : res (list (option nat)) := fill_sym intersect_arrays dp.
(** hierarchic_order, :694-713 *)
Definition subset_test (d1 d2 : list nat) : bool :=
  match d2, d1 with [], _ :: _ => false | _, _ => forallb (fun p => has p d2) d1 end.
Definition hierarchic_order (dp : list (list nat)) : res (list bool) :=
  let n := length dp in
  foldM (fun H e1 => foldM (fun H e2 => a <- rd dp e1 ;; b <- rd dp e2 ;; if subset_test a b then wr H (e1 * n + e2) true else Ret H) (seq 0 n) H) (seq 0 n) (repeat false (n * n)).
(** accessors, eqchierarchy.hpp:86-119 (row-major FlatMatrix of width neqcs) *)
Definition FindEQCWithDPs (dp : list (list nat)) (a : list nat) : option nat :=
  find (fun k => list_eqb (nth k dp []) a) (seq 0 (length dp)).
Definition IsLEQ (dp : list (list nat)) (e1 e2 : nat) : res bool := H <- hierarchic_order dp ;; rd H (e1 * length dp + e2).
Definition GetCommonEQC (dp : list (list nat)) (e1 e2 : nat) : res (option nat) := M <- mat_intersect dp ;; rd M (e1 * length dp + e2).
Definition GetMergedEQC (dp : list (list nat)) (e1 e2 : nat) : res (option nat) := M <- mat_merge dp ;; rd M (e1 * length dp + e2).
Definition IsMergeValid (dp : list (list nat)) (e1 e2 : nat) : res bool := r <- GetMergedEQC dp e1 e2 ;; Ret (match r with None => false | Some _ => true end).

(** *** constructors *)
(** EQCHierarchy(pardofs, .., max_nd, select), :85-140: the classes found, in the order of their first dof; class 0 is the local one.
    [dp] k = distant ranks of dof k *)
Definition from_pardofs (ndof max_nd : nat) (select : nat -> bool) (dp : nat -> list nat) : list (list nat) :=
  fold_left (fun cl k => if negb (select k) then cl else match dp k with [] => cl | _ => if existsb (list_eqb (dp k)) (skipn 1 cl) then cl else cl ++ [dp k] end)
    (seq 0 max_nd) (if 0 <? ndof then [[]] else []).
(** EQCHierarchy(ma, nts, ..), :34-76: as above for the nodes of several types; [index_of_block] is looked up with the *current* node type, :57 *)
Definition from_mesh (nn : nat -> nat) (dp : nat -> nat -> list nat) (nts : list nat) : list (list nat) :=
  let has_any := existsb (fun nt => 0 <? nn nt) nts in
  let step nt (blocks : list (nat * nat)) k :=
    match dp nt k with [] => blocks | _ => if existsb (fun b => list_eqb (dp nt (snd b)) (dp nt k)) (skipn 1 blocks) then blocks else blocks ++ [(nt, k)] end in
  let blocks := fold_left (fun bl nt => fold_left (step nt) (seq 0 (nn nt)) bl) nts (if has_any then [(0, 0)] else []) in
  match blocks with [] => [] | _ :: bl => [] :: map (fun b => dp (fst b) (snd b)) bl end.

(** ScatterEQCData / ScatterEQCArray, eqchierarchy.hpp:147-201: the master's entry is sent to the other members; [data] r k = entry of class k on rank r.
    As above one channel per pair; received in the order of the receiver's classes *)
Definition scatter_sent {T} (tabs : list (list (list nat))) (data : list (list T)) (src dst : nat) : list T :=
  flat_map (fun p => match fst p with r :: _ => if (src <? r) && has dst (fst p) then [snd p] else [] | [] => [] end) (combine (nth src tabs []) (nth src data [])).
Fixpoint scatter_recv {T} (me : nat) (chan : list (list T)) (dps : list (list nat)) (row : list T) : res (list T) :=
  match dps, row with
  | [], [] => Ret []
  | d :: dps, x :: row =>
      match d with
      | [] => l <- scatter_recv me chan dps row ;; Ret (x :: l)
      | p :: _ =>
          if me <? p then l <- scatter_recv me chan dps row ;; Ret (x :: l)
          else c <- rd chan p ;; match c with [] => Err OutOfBounds | y :: c => chan <- wr chan p c ;; l <- scatter_recv me chan dps row ;; Ret (y :: l) end
      end
  | _, _ => Err OutOfBounds
  end.
Definition ScatterEQCData {T} (tabs : list (list (list nat))) (data : list (list T)) (me : nat) : res (list T) :=
  scatter_recv me (map (fun src => scatter_sent tabs data src me) (seq 0 (length tabs))) (nth me tabs []) (nth me data []).

(** GetEQCOfID, eqchierarchy.hpp:75-77; -1 is None *)
Definition GetEQCOfID (tabs : list (list (list nat))) (me id : nat) : res (option nat) := ids <- eqc_ids tabs me ;; t <- idf_2_ind tabs me ids ;; rd t id.
Definition GetEQCID (tabs : list (list (list nat))) (me k : nat) : res nat := ids <- eqc_ids tabs me ;; rd ids k. (* eqchierarchy.hpp:72-73 *)
