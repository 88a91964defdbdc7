(** Model of the level setup loop of the AMG factory (/repo/src/base/factory/base_factory.cpp:214-434, 447-517 (outcome only), 520-675,
    nodal_factory_impl.hpp:20-39, 124-176) and of the grouping of the ranks for redistribution
    (/repo/src/base/coarsening/grid_contract.cpp:20-202, 909-934).

    Simplifications: meshes are represented by their global measure (GetNNGlobal, the same number on all ranks); what the coarsening algorithm, METIS,
    the sort of the group numbers, the local fractions and the goals return is an arbitrary environment, one value per level; doubles are rationals
    (NaN = None); matrices, dof-maps and logging are not part of this model (C32, C33 are about them).  The condition that f_lev and c_lev have different matrices
    (base_factory.cpp:285) holds whenever the meshes differ, as AssembleMatrix creates a new one. *)
From Verif Require Import Base.
From Coq Require Import QArith Qround Qminmax.
Local Open Scope nat_scope.

(** *** TableCreator without a given size: Add(row, value) enlarges the table *)
Fixpoint tc_add (t : list (list nat)) (k v : nat) : list (list nat) :=
  match t, k with
  | [], 0 => [[v]]
  | [], S k => [] :: tc_add [] k v
  | r :: t, 0 => (r ++ [v]) :: t
  | r :: t, S k => r :: tc_add t k v
  end.

(** *** PartitionProcsMETIS, grid_contract.cpp:20-202.  [part]: what METIS returns, [arrb]: the index array after QuickSortI(arra, arrb) *)
Definition min_ranks (p nparts from : nat) (part : list nat) : res (list nat) :=                     (* :169-177 *)
  foldM (fun arra k => q <- rd part k ;; old <- rd arra q ;; wr arra q (Nat.min old k)) (seq from (p - from)) (repeat p nparts).
Definition inverse_perm (arra arrb : list nat) (nparts : nat) : res (list nat) :=                    (* :179, second statement *)
  foldM (fun a k => i <- rd arrb k ;; wr a i k) (seq 0 nparts) arra.
Definition PartitionProcs (p nparts : nat) (sep_p0 : bool) (part : list nat) (sort : list nat -> list nat) : res (list (list nat)) :=
  if (nparts =? 1) || (sep_p0 && (nparts =? 2)) then                                                (* :33-40 *)
    Ret (if nparts =? 1 then [0 :: seq 1 (p - 1)] else [[0]; seq 1 (p - 1)])
  else
    arra <- min_ranks p nparts (if sep_p0 then 1 else 0) part ;;
    let arrb := sort arra in
    arra <- inverse_perm arra arrb nparts ;;
    (if sep_p0                                                                                      (* :180-193 *)
     then foldM (fun t k => q <- rd part k ;; g <- rd arra q ;; Ret (tc_add t (g + 1) k)) (seq 1 (p - 1)) (tc_add [] 0 0)
     else foldM (fun t k => q <- rd part k ;; g <- rd arra q ;; Ret (tc_add t g k)) (seq 0 p) []).

(** *** BuildCEQCH, grid_contract.cpp:915-934: group of a rank, is it the group's master, its rank in the new communicator *)
Definition proc_map (p : nat) (groups : list (list nat)) : res (list nat) :=
  foldM (fun m g => row <- rd groups g ;; foldM (fun m r => wr m r g) row m) (seq 0 (length groups)) (repeat 0 p).
Definition contract_rank (p r : nat) (groups : list (list nat)) : res (option nat) :=
  m <- proc_map p groups ;; g <- rd m r ;; my <- rd groups g ;; h <- rd my 0 ;;
  Ret (if h =? r then Some g else None).

(** *** options, base_factory.hpp:89-125 *)
Record options := mkOpts {
  max_n_levels : nat; min_meas : nat; max_meas : nat;
  enable_redist : bool; enable_static_redist : bool; rdaf : Q; first_rdaf : Q; rdaf_scale : Q;
  rd_crs_thresh : Q; rd_loc_thresh : Q; rd_pfac : Q; rd_min_nv_th : nat; rd_min_nv_gl : nat; rd_seq_nv : nat; rd_loc_gl : Q }.

Definition Qltb (a b : Q) : bool := negb (Qle_bool b a).
Definition natQ (n : nat) : Q := inject_Z (Z.of_nat n).
(** min2(a, b) = (a < b) ? a : b *)
Definition qmin2 (a b : Q) : Q := if Qltb a b then a else b.

(** *** FindRDFac, base_factory.cpp:566-618; [locfrac] = ComputeLocFrac (NaN for an empty mesh), [nf] = AllReduce(number of neighbours)/2; result None = NaN *)
Definition loc_fac (NP NF : nat) (F goal : Q) : Q :=
  if NF =? 0 then                                                         (* FF = (1 - F) / 0 *)
    if Qltb F 1 then (1 # 2)%Q else (1 # 8)%Q                             (* +inf (NP/2 > 0), or NaN, or -inf *)
  else
    let FF := ((1 - F) / natQ NF)%Q in
    if Qltb goal (F + natQ (NP / 2) * FF)%Q then (1 # 2)%Q
    else if Qltb goal (F + natQ (NP / 4 * 5) * FF)%Q then (1 # 4)%Q else (1 # 8)%Q.
Definition FindRDFac (O : options) (size : nat) (idle : bool) (meas : nat) (locfrac : option Q) (nf : nat) : option Q :=
  if size <=? (if idle then 2 else 1) then Some 1%Q
  else if meas <? rd_seq_nv O then Some (-1 # 1)%Q
  else
    let base :=                                                           (* min2(rd_pfac, meas / rd_min_nv_gl / size) *)
      if rd_min_nv_gl O =? 0 then if meas =? 0 then None else Some (rd_pfac O)
      else Some (qmin2 (rd_pfac O) (natQ meas / natQ (rd_min_nv_gl O) / natQ size)%Q) in
    let withloc := match locfrac with
      | Some F => if Qltb F (rd_loc_thresh O) then
                    match base with                                       (* min2(NaN, y) = y *)
                    | Some b => Some (qmin2 b (loc_fac size nf F (rd_loc_gl O)))
                    | None => Some (loc_fac size nf F (rd_loc_gl O)) end
                  else base
      | None => base end in
    match withloc with Some b => Some (qmin2 (1 # 2)%Q b) | None => None end.

(** std::round: half away from zero *)
Definition qround (x : Q) : Z := if Qle_bool 0 x then Qfloor (x + (1 # 2))%Q else Z.opp (Qfloor (- x + (1 # 2))%Q).
(** number of groups, nodal_factory_impl.hpp:144-148; converting NaN to int is undefined *)
Definition n_groups (size : nat) (idle : bool) (fac : option Q) : res nat :=
  match fac with
  | None => Err Uninit
  | Some f => Ret (if Qeq_bool f (-1 # 1)%Q then if idle then 2 else 1
                   else Z.to_nat (Z.max 2 (1 + qround (natQ (size - 1) * f)%Q)))
  end.

(** *** the environment of one setup *)
Record environ := mkEnv {
  e_goal : nat -> nat;                       (* ComputeGoal *)
  e_coarse : nat -> option nat;              (* BuildCoarseMap: None = no map, otherwise the measure of the coarse mesh *)
  e_free : nat -> bool;                      (* the coarse mesh has a free_nodes array *)
  e_locfrac : nat -> option Q;               (* ComputeLocFrac of the coarse mesh *)
  e_nf : nat -> nat;                         (* AllReduce(GetDistantProcs().Size()) / 2 *)
  e_part : nat -> nat -> nat -> list nat;    (* METIS, for (level, size, nparts) *)
  e_sort : list nat -> list nat }.           (* QuickSortI: the sorted index array *)

Record state := mkState { st_need_rd : bool; st_first_used : bool; st_last : nat }.

(** *** TryCoarseStep, base_factory.cpp:520-563 *)
Definition TryCoarseStep (O : options) (E : environ) (lev meas : nat) : option nat :=
  match e_coarse E lev with
  | None => None
  | Some c =>
      let cfac := if meas =? 0 then 0%Q else (natQ c / natQ meas)%Q in
      if (c <? meas) && (negb (enable_redist O) || Qltb cfac (rd_crs_thresh O)) then Some c else None
  end.

(** *** TryContractStep, base_factory.cpp:621-675, for the rank [rank] of [size]: None = no contraction; otherwise the new state, the size of the new communicator and
    the rank in it (None = dropped out).  rd_map is built from the number of groups. *)
Definition pow_int (q : Q) (e : Z) : Q := Qpower q e.
Definition static_goal (O : options) (s : state) (lev : nat) : nat :=
  let none := Qeq_bool (first_rdaf O) (-1 # 1)%Q in
  let af := if negb (st_first_used s) && negb none then first_rdaf O
            else (pow_int (rdaf_scale O) (Z.of_nat lev - (if none then 0 else 1)) * rdaf O)%Q in
  Nat.max (Z.to_nat (Qfloor ((if Qltb (9 # 10) af then (9 # 10) else af) * natQ (st_last s))%Q)) (Nat.max (rd_seq_nv O) 1).
Definition TryContractStep (O : options) (E : environ) (idle : bool) (lev meas size rank : nat) (s : state) : res (option (state * nat * option nat)) :=
  if negb (enable_redist O) || negb ((if idle then 2 else 1) <? size) then Ret None
  else
    let want := st_need_rd s in
    let want := if want then want else match e_locfrac E lev with Some F => Qltb F (rd_loc_thresh O) | None => false end in
    let want := if want then want else meas <? size * rd_min_nv_th O in
    let want := if negb want && enable_static_redist O then meas <? static_goal O s lev else want in
    if negb want then Ret None
    else
      ng <- n_groups size idle (FindRDFac O size idle meas (e_locfrac E lev) (e_nf E lev)) ;;
      groups <- PartitionProcs size ng idle (e_part E lev size (if idle then ng - 1 else ng)) (e_sort E) ;;
      nr <- contract_rank size rank groups ;;
      if e_free E lev then Err Thrown
      else Ret (Some (mkState false true meas, length groups, nr)).

(** *** DoStep and RSU, base_factory.cpp:246-434.  What a rank has at the end: the levels below the current one (None = a level in which it does not take part,
    otherwise measure, size and own rank), and the number of steps that were added to the dof-map. *)
Definition level := option (nat * nat * nat).
Fixpoint RSU (fuel : nat) (O : options) (E : environ) (idle : bool) (lev meas size rank : nat) (s : state) : res (list level * nat) :=
  match fuel with
  | 0 => Err OutOfFuel
  | S fuel =>
      let s := if lev =? 0 then mkState (st_need_rd s) (st_first_used s) meas else s in
      match TryCoarseStep O E lev meas with
      | None => Ret ([], 0)                                                             (* c_lev->cap->mesh == f_lev->cap->mesh *)
      | Some c =>
          let mfac := if meas =? 0 then 0%Q else (natQ c / natQ meas)%Q in
          let s := mkState (st_need_rd s || (e_goal E lev <? c) || Qltb (rd_crs_thresh O) mfac) (st_first_used s) (st_last s) in
          ctr <- (if enable_redist O then TryContractStep O E idle lev c size rank s else Ret None) ;;
          let '(s, size', rank') := match ctr with None => (s, size, Some rank) | Some (s', sz, r) => (s', sz, r) end in
          (* the group masters find out whether the coarse mesh is any good, AllReduce tells the others *)
          if (c =? 0) || (c <? min_meas O) || (c =? meas) then Ret ([], 0)
          else match rank' with
               | None => Ret ([None], 1)                                                (* dropped out *)
               | Some r' =>
                   if (lev + 2 =? max_n_levels O) || (c <=? max_meas O) then Ret ([Some (c, size', r')], 1)
                   else ' p <- RSU fuel O E idle (lev + 1) c size' r' s ;; Ret (Some (c, size', r') :: fst p, S (snd p))
               end
      end
  end.
(** SetUpLevels, base_factory.cpp:214-240 and InitState: all levels, the finest one included *)
Definition SetUpLevels (fuel : nat) (O : options) (E : environ) (idle : bool) (meas size rank : nat) : res (list level * nat) :=
  ' p <- RSU fuel O E idle 0 meas size rank (mkState false false meas) ;; Ret (Some (meas, size, rank) :: fst p, snd p).
