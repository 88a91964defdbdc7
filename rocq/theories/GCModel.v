(** Model of the redistribution of the topological mesh, /repo/src/base/coarsening/grid_contract.cpp (BuildCEQCH, BuildNodeMaps) and the grouping of processes.

    [H] r = class table of rank r (dist_procs, EQCModel); [groups] j = ranks merged into the new rank j; the first one is the group master.
    A message between a member and its master is the value sent.  The rank of the master of group j in the new communicator is j (CreateSubCommunicatorGlobal).
    Simplifications: QuickSort is insertion sort; Array::Pos giving -1 is [Err OutOfBounds] (it is used as an index); timers and output are left out. *)
From Verif Require Import Base EQCModel.
Local Open Scope nat_scope.

(** Array::Pos / search of a row *)
Fixpoint pos_by {A} (eqb : A -> A -> bool) (x : A) (l : list A) (i : nat) : res nat :=
  match l with [] => Err OutOfBounds | y :: l => if eqb y x then Ret i else pos_by eqb x l (S i) end.

(** *** PartitionProcsMETIS, grid_contract.cpp:20-204, everything except METIS *)
(** TableCreator<int> cgs without a size: the number of rows is the largest row index + 1 *)
Definition table_of (adds : list (nat * nat)) : list (list nat) :=
  map (fun j => map snd (filter (fun a => fst a =? j) adds)) (seq 0 (fold_left (fun n a => Nat.max n (S (fst a))) adds 0)).
(** the smallest rank of each part, :164-173; [first]: 1 if rank 0 is kept apart *)
Definition min_ranks (np nparts first : nat) (partition : list nat) : res (list nat) :=
  foldM (fun a k => p <- rd partition k ;; o <- rd a p ;; wr a p (Nat.min o k)) (seq first (np - first)) (repeat np nparts).
(** QuickSortI of the parts by their smallest rank and the inverse, :174-175 *)
Definition part_order (arra : list nat) : res (list nat) :=
  let arrb := sort_by (fun a b => nth a arra 0 <? nth b arra 0) (seq 0 (length arra)) in
  foldM (fun a k => b <- rd arrb k ;; wr a b k) (seq 0 (length arra)) arra.
(** :164-190; [partition] = result of METIS *)
Definition groups_of_partition (np nparts : nat) (sep_p0 : bool) (partition : list nat) : res (list (list nat)) :=
  let first := if sep_p0 then 1 else 0 in
  arra <- min_ranks np nparts first partition ;;
  arra <- part_order arra ;;
  adds <- mapM (fun p => q <- rd partition p ;; a <- rd arra q ;; Ret (if sep_p0 then a + 1 else a, p)) (seq first (np - first)) ;;
  Ret (table_of (if sep_p0 then (0, 0) :: adds else adds)).
(** one part, or rank 0 and all others, :32-39 *)
Definition trivial_groups (np nparts : nat) : res (list (list nat)) :=
  let perow := upd (repeat 0 nparts) 0 1 in
  l <- rd perow (nparts - 1) ;;
  let perow := upd perow (nparts - 1) (l + (np - 1)) in
  let groups := map (fun n => repeat 0 n) perow in
  r0 <- rd groups 0 ;; r0 <- wr r0 0 0 ;; let groups := upd groups 0 r0 in
  let start := if nparts =? 1 then 1 else 0 in
  foldM (fun g k => r <- rd g (nparts - 1) ;; r <- wr r (start + k) (k + 1) ;; wr g (nparts - 1) r) (seq 0 (np - 1)) groups.
Definition PartitionProcs (np nparts : nat) (sep_p0 : bool) (metis : list nat) : res (list (list nat)) :=
  if (nparts =? 1) || (sep_p0 && (nparts =? 2)) then trivial_groups np nparts else groups_of_partition np nparts sep_p0 metis.

(** *** BuildCEQCH, grid_contract.cpp:909-1070 *)
(** proc_map, :917-923; None: not written *)
Definition proc_map (np : nat) (groups : list (list nat)) : res (list (option nat)) :=
  foldM (fun pm g => row <- rd groups g ;; foldM (fun pm p => wr pm p (Some g)) row pm) (seq 0 (length groups)) (repeat None np).
Definition pm_at (pm : list (option nat)) (p : nat) : res nat :=
  o <- rd pm p ;; match o with Some g => Ret g | None => Err Uninit end.
(** gids, :974-985 *)
Definition add_id (g : list nat) (i : nat) : list nat := if has i g then g else g ++ [i].
Definition merge_ids (all_ids : list (list nat)) : list nat :=
  match all_ids with [] => [] | a :: l => sort_by Nat.ltb (fold_left (fun g ids => fold_left add_id ids g) l a) end.
(** all (member, class of the member) pairs, the loops at :1000-1003, 1010-1012 *)
Definition slots (tabs : list (list (list nat))) : list (nat * nat) :=
  flat_map (fun j => map (fun l => (j, l)) (seq 0 (length (nth j tabs [])))) (seq 0 (length tabs)).
(** sizes of the rows of mmems, :998-1006 *)
Definition mmems_sizes (tabs : list (list (list nat))) (om : list (list nat)) (mneqcs : nat) : res (list nat) :=
  foldM (fun sz s => t <- rd tabs (fst s) ;; d <- rd t (snd s) ;; o <- rd om (fst s) ;; m <- rd o (snd s) ;; wr sz m (length d + 1)) (slots tabs) (repeat 0 mneqcs).
(** a row of mmems: the distant ranks, then the rank of the member at the end, :1013-1015 *)
Definition mmems_row (row d : list nat) (rank : nat) : res (list nat) :=
  row <- foldM (fun row i => x <- rd d i ;; wr row i x) (seq 0 (length d)) row ;;
  if length row =? 0 then Err OutOfBounds else wr row (length row - 1) rank.
(** mmems, :1009-1019 *)
Definition make_mmems (group : list nat) (tabs : list (list (list nat))) (om : list (list nat)) (sz : list nat) : res (list (list nat)) :=
  mm <- foldM (fun mm s => t <- rd tabs (fst s) ;; d <- rd t (snd s) ;; o <- rd om (fst s) ;; m <- rd o (snd s) ;; rank <- rd group (fst s) ;;
    row <- rd mm m ;; row <- mmems_row row d rank ;; wr mm m row) (slots tabs) (map (fun n => repeat 0 n) sz) ;;
  Ret (map (sort_by Nat.ltb) mm).
(** crs_dps, :1021-1030 *)
Definition crs_dps (pm : list (option nat)) (me : nat) (dps : list nat) : res (list nat) :=
  out <- foldM (fun out p => dcr <- pm_at pm p ;; Ret (if negb (dcr =? me) && negb (has dcr out) then out ++ [dcr] else out)) dps [] ;;
  Ret (sort_by Nat.ltb out).
(** is there an equal row already, :1036-1041; l is incremented once more after the row was found *)
Fixpoint scan_c (rows : list (list nat)) (cd : list nat) (l : nat) (is_new : bool) : bool * nat :=
  match rows with
  | [] => (is_new, l)
  | r :: rows => if is_new then scan_c rows cd (S l) (negb (list_eqb r cd)) else (is_new, l)
  end.
(** merged -> contracted classes in the order in which they are found, :1031-1046 *)
Definition contract_classes (pm : list (option nat)) (me : nat) (mmems : list (list nat)) : res (list nat * list (list nat)) :=
  foldM (fun '(mc, ceqcs) mems =>
    cd <- crs_dps pm me mems ;;
    let '(is_new, l) := scan_c ceqcs cd 0 true in
    Ret (mc ++ [if is_new then l else l - 1], if is_new then ceqcs ++ [cd] else ceqcs)) mmems ([], []).
Record ceqch := mkC { c_om : list (list nat); c_mmems : list (list nat); c_mc : list nat; c_oc : list (list nat); c_tab : list (list nat) }.
(** on the master of group [me]; the EQCHierarchy sorts the table and does not complete it (do_cutunion = false), :1055 *)
Definition BuildCEQCH (H : list (list (list nat))) (groups : list (list nat)) (me : nat) : res ceqch :=
  pm <- proc_map (length H) groups ;;
  group <- rd groups me ;;
  tabs <- mapM (fun r => rd H r) group ;;
  all_ids <- mapM (eqc_ids H) group ;;
  let gids := merge_ids all_ids in
  om <- mapM (mapM (fun i => pos_by Nat.eqb i gids 0)) all_ids ;;
  sz <- mmems_sizes tabs om (length gids) ;;
  mmems <- make_mmems group tabs om sz ;;
  ' (mc, ceqcs) <- contract_classes pm me mmems ;;
  let ctab := dist_procs ceqcs in
  remap <- mapM (fun set => pos_by list_eqb set ctab 0) ceqcs ;;
  mc <- mapM (fun c => rd remap c) mc ;;
  oc <- mapM (mapM (fun m => rd mc m)) om ;;
  Ret (mkC om mmems mc oc ctab).

(** *** BuildNodeMaps, grid_contract.cpp:356-905: vertices *)
(** cut_min, :414-421; None is -1 *)
Fixpoint cut_min (a : list nat) : list nat -> option nat :=
  fix aux (b : list nat) : option nat :=
    match a, b with
    | x :: a', y :: b' => if x <? y then cut_min a' b else if y <? x then aux b' else Some x
    | _, _ => None
    end.
Definition oeqb (a b : option nat) : bool := match a, b with Some x, Some y => x =? y | None, None => true | _, _ => false end.
(** the class tables of the members' meshes: [tab] k j = entries of class j of member k; same loops as [slots] *)
Definition tslots {A} (tab : list (list (list A))) : list (nat * nat) :=
  flat_map (fun k => map (fun j => (k, j)) (seq 0 (length (nth k tab [])))) (seq 0 (length tab)).
Definition at2 {A} (t : list (list A)) (s : nat * nat) : res A := row <- rd t (fst s) ;; rd row (snd s).
(** v_dsp before the summation and the block sizes, :440-455 *)
Definition count_verts (group : list nat) (C : ceqch) (sender : list (option nat)) (evs : list (list (list nat))) : res (list nat * list nat) :=
  foldM (fun '(dsp, fst_v) s =>
    vs <- at2 evs s ;; m <- at2 (c_om C) s ;; sd <- rd sender m ;; r <- rd group (fst s) ;;
    if oeqb (Some r) sd then
      c <- at2 (c_oc C) s ;; o <- rd dsp (c + 1) ;; dsp <- wr dsp (c + 1) (o + length vs) ;;
      fst_v <- wr fst_v m (length vs) ;; Ret (dsp, fst_v)
    else Ret (dsp, fst_v)) (tslots evs) (repeat 0 (length (c_tab C) + 1), repeat 0 (length (c_mc C))).
(** summation, :457-461 *)
Definition sum_up (dsp : list nat) (n : nat) : res (list nat) :=
  foldM (fun d k => a <- rd d k ;; b <- rd d (k + 1) ;; wr d (k + 1) (b + a)) (seq 0 n) dsp.
(** first number of each merged class, :475-481 *)
Definition first_numbers (C : ceqch) (dsp : list nat) (fst_v : list nat) : res (list nat) :=
  ' (f, _) <- foldM (fun '(f, sz) m =>
    c <- rd (c_mc C) m ;; bs <- rd f m ;; d <- rd dsp c ;; z <- rd sz c ;; f <- wr f m (d + z) ;; sz <- wr sz c (z + bs) ;; Ret (f, sz))
    (seq 0 (length (c_mc C))) (fst_v, repeat 0 (length (c_tab C))) ;;
  Ret f.
(** the map of one member, :483-500; None is -1 *)
Definition vertex_map (om : list nat) (first_v : list nat) (evs : list (list nat)) : res (list (option nat)) :=
  foldM (fun vm j => vs <- rd evs j ;; m <- rd om j ;; f <- rd first_v m ;;
    foldM (fun vm l => v <- rd vs l ;; wr vm v (Some (f + l))) (seq 0 (length vs)) vm) (seq 0 (length evs)) (repeat None (length (concat evs))).
(** number of vertices, displacements of the classes, and the maps *)
Definition senders (group : list nat) (C : ceqch) : list (option nat) := map (fun mems => cut_min mems group) (c_mmems C). (* :428-433 *)
Record cverts := mkV { v_dsp : list nat; v_first : list nat; v_maps : list (list (option nat)) }.
Definition map_vertices (group : list nat) (C : ceqch) (evs : list (list (list nat))) : res cverts :=
  ' (dsp, fv) <- count_verts group C (senders group C) evs ;;
  dsp <- sum_up dsp (length (c_tab C)) ;;
  first_v <- first_numbers C dsp fv ;;
  maps <- mapM (fun k => om <- rd (c_om C) k ;; ev <- rd evs k ;; vertex_map om first_v ev) (seq 0 (length group)) ;;
  Ret (mkV dsp first_v maps).
