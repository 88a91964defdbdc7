(** Model of agglomeration by successive pairwise matching (SPW).
    /repo/src/base/coarsening/spw_agg_impl.hpp (and base_coarse.cpp through CDataModel)

    Simplifications.  One process' view; the code contains no communication.  Doubles are rationals.  The strength of connection
    functions are arbitrary: [o_ini O r v j], [o_rob O r v j] are calcInitSOC / calcRobSOC for the j-th neighbour of v in round r, and
    [o_crob], [o_cbig] are checkRobSOC / checkBigSOC (they depend on the data of the round only).  QuickSortI by descending weight
    is any function [o_sorti], QuickSort of the neighbours by degree any function [o_sortd], the lookup of a column in a matrix row
    any function [o_find]; the theorems assume their contracts.  A vertex map is a list of int.  Timers, printing, the LocalHeap and
    the data maps (SPWAggData::Map, 424-630) are left out; so are the "allowed edges", which are mapped but never looked at. *)
From Coq Require Import QArith.
From Verif Require Import Base SparseModel AuxModel CDataModel.
From Verif Require CtrModel.
Local Open Scope nat_scope.

Definition mapM {A C} := @CtrModel.mapM A C.

(** std::max / std::min / < on doubles *)
Definition qlt (a b : Q) : bool := negb (Qle_bool b a).
Definition qmax (a b : Q) : Q := if qlt a b then b else a.
Definition qmin (a b : Q) : Q := if qlt b a then b else a.

(** the parts of SPWConfig used here: spw_agg.hpp:89-128, set in SPWAgglomerator::Initialize, spw_agg_impl.hpp:1380-1411 *)
Record config := mkCfg { robustPick : bool; checkBig : bool; scalRel : Q; absRob : Q; absBig : Q }.

Record oracles := mkO {
  o_ini : nat -> nat -> nat -> Q; o_rob : nat -> nat -> nat -> Q;
  o_crob : nat -> nat -> nat -> Q -> bool; o_cbig : nat -> nat -> nat -> Q -> bool;
  o_sorti : list Q -> list nat; o_sortd : (nat -> nat) -> list nat -> list nat; o_find : list nat -> nat -> option nat }.

(** the loop over the sorted neighbours: spw_agg_impl.hpp:725-772 *)
Fixpoint pick (neibs : list nat) (ws : list Q) (wthr : Q) (viable : nat -> bool) (idxs : list nat) : res (option nat) :=
  match idxs with
  | [] => Ret None
  | idx :: t =>
      neib <- rd neibs idx ;; w <- rd ws idx ;;
      if qlt w wthr then Ret None
      else if viable idx then Ret (Some neib) else pick neibs ws wthr viable t
  end.

(** FindNeib3Step: spw_agg_impl.hpp:637-775; None stands for -1 *)
Definition FindNeib3Step (c : config) (sorti : list Q -> list nat) (ini rob : nat -> Q) (crob cbig : nat -> Q -> bool)
    (allowed : nat -> res bool) (neibs : list nat) : res (option nat) :=
  ws0 <- mapM (fun jn : nat * nat => a <- allowed (snd jn) ;; Ret (if a then ini (fst jn) else (-1)%Q)) (numbered neibs) ;;
  let mx := fold_left (fun m j => qmax m (ini j)) (seq 0 (length neibs)) 0%Q in
  let scalThr := (scalRel c * mx)%Q in
  let ws := if robustPick c then map (fun jw : nat * Q => if qlt (snd jw) scalThr then (-1)%Q else rob (fst jw)) (numbered ws0) else ws0 in
  let robThr := qmin scalThr (absRob c) in
  let bigThr := qmin robThr (absBig c) in
  let wthr := if robustPick c then robThr else scalThr in
  pick neibs ws wthr (fun idx => (robustPick c || crob idx robThr) && (negb (checkBig c) || cbig idx bigThr)) (sorti ws).

(** the state of a matching iteration *)
Record mst := mkMst { vm : list Z; hd : list bool; cnt : nat }.

(** createPair: spw_agg_impl.hpp:1098-1122 (cvOff = 0) *)
Definition createPair (getNeib : list bool -> nat -> res (option nat)) (s : mst) (v : nat) : res mst :=
  n <- getNeib (hd s) v ;;
  let cV := Z.of_nat (cnt s) in
  ' (m, h) <- match n with
              | Some w => m <- wr (vm s) w cV ;; h <- wr (hd s) w true ;; Ret (m, h)
              | None => Ret (vm s, hd s)
              end ;;
  m <- wr m v cV ;; h <- wr h v true ;; Ret (mkMst m h (S (cnt s))).

(** the neighbours of lower degree that are not handled: spw_agg_impl.hpp:961-986 *)
Definition low_deg (econ : smat nat) (s : list bool) (row : srow nat) : res (list nat) :=
  foldM (fun acc j => n <- Ret (fst j) ;; b <- rd s n ;;
    if b then Ret acc else r <- rd econ n ;; Ret (if length r <? length row then acc ++ [n] else acc)) row [].
(** one vertex of IterateVertsRev: spw_agg_impl.hpp:955-1012 *)
Definition iter_vertex (prefer : bool) (econ : smat nat) (sortd : (nat -> nat) -> list nat -> list nat) (lam : mst -> nat -> res mst)
    (s : mst) (v : nat) : res mst :=
  b <- rd (hd s) v ;;
  if b then Ret s
  else
    s <- (if prefer then
            row <- rd econ v ;;
            ld <- low_deg econ (hd s) row ;;
            foldM (fun s w => b <- rd (hd s) w ;; if b then Ret s else lam s w) (sortd (fun n => length (nth n econ [])) ld) s
          else Ret s) ;;
    b <- rd (hd s) v ;; if b then Ret s else lam s v.

(** The equivalence classes as seen by the process: IsTrulyParallel, IsLEQ, IsMasterOfEQC, solid vertices (optional) *)
Record par_info := mkPar { truly_par : bool; leq : nat -> nat -> bool; master : nat -> bool; solid : option (list bool) }.

(** which neighbours may be matched: spw_agg_impl.hpp:1178-1196 (solid), 1213-1237 (not solid), 1254 (serial);
    [veq]: class of the vertices (GetEQCOfNode, resp. the array v2eq) *)
Definition allow_match (P : par_info) (veq : list nat) (h : list bool) (v n : nat) : res bool :=
  b <- rd h n ;;
  if b then Ret false
  else if negb (truly_par P) then Ret true
  else match solid P with
  | Some s =>
      sb <- rd s n ;;
      if sb then ei <- rd veq v ;; ej <- rd veq n ;; Ret ((ei =? 0) || (ej =? 0) || leq P ei ej || leq P ej ei)
      else Ret false
  | None =>
      ei <- rd veq v ;; ej <- rd veq n ;;
      if ej =? 0 then Ret true
      else if ei =? 0 then Ret (master P ej)
      else Ret (master P ej && (leq P ei ej || leq P ej ei))
  end.

(** FindNeighborToMatch: spw_agg_impl.hpp:778-867 *)
Definition FindNeighborToMatch (c : config) (O : oracles) (r : nat) (econ : smat nat) (allowed : nat -> nat -> res bool) (v : nat)
    : res (option nat) :=
  row <- rd econ v ;;
  FindNeib3Step c (o_sorti O) (o_ini O r v) (o_rob O r v) (o_crob O r v) (o_cbig O r v) (allowed v) (map fst row).

(** PairingIteration: spw_agg_impl.hpp:1072-1262.  [order]: the vertices in the order of the iteration (IterateVertsReverseParOrder,
    1016-1051: classes and their vertices backwards; IterateVertsSimpleReverse, 1054-1069). *)
Definition PairingIteration (c : config) (O : oracles) (P : par_info) (r : nat) (prefer : bool) (econ : smat nat) (veq : list nat)
    (order : list nat) (m : list Z) (h : list bool) : res mst :=
  foldM (iter_vertex prefer econ (o_sortd O)
           (createPair (fun h v => FindNeighborToMatch c O r econ (allow_match P veq h) v))) order (mkMst m h 0).
Definition par_order (classes : list (list nat)) : list nat := flat_map (fun vs => rev vs) (rev classes).

(** *** LocCoarseMap::FinishUp *)
(** std::set<int>::insert and QuickSort on ints *)
Fixpoint set_insert (x : nat) (l : list nat) : list nat :=
  match l with [] => [x] | y :: t => if x <? y then x :: y :: t else if x =? y then l else y :: set_insert x t end.
Fixpoint ins (x : nat) (l : list nat) : list nat := match l with [] => [x] | y :: t => if x <=? y then x :: y :: t else y :: ins x t end.
Fixpoint qsort (l : list nat) : list nat := match l with [] => [] | x :: t => ins x (qsort t) end.
(** coarse neighbours larger than c of one fine vertex: spw_agg_impl.hpp:118-128, 149-157 *)
Definition crs_neibs (econ : smat nat) (vmap : list Z) (c v : nat) : res (list nat) :=
  row <- rd econ v ;;
  foldM (fun acc j => z <- rd vmap (fst j) ;; Ret (if (Z.of_nat c <? z)%Z then acc ++ [Z.to_nat z] else acc)) row [].
(** the neighbours handed to lam: spw_agg_impl.hpp:105-169 *)
Definition crs_row (econ : smat nat) (vmap : list Z) (c : nat) (fvs : list nat) : res (list nat) :=
  match fvs with
  | [v] => l <- crs_neibs econ vmap c v ;; Ret (qsort l)
  | _ => foldM (fun s v => l <- crs_neibs econ vmap c v ;; Ret (fold_left (fun s x => set_insert x s) l s)) fvs []
  end.
Record lmesh := mkMesh { m_nv : nat; m_edges : list (nat * nat); m_econ : smat nat }.
(** coarse edges, edge connectivity (count and fill), edge map: spw_agg_impl.hpp:171-246 *)
Definition crs_edges (econ : smat nat) (vmap : list Z) (c2f : list (list nat)) : res (list (nat * nat)) :=
  ls <- mapM (fun cv : nat * list nat => l <- crs_row econ vmap (fst cv) (snd cv) ;; Ret (map (fun d => (fst cv, d)) l)) (numbered c2f) ;;
  Ret (concat ls).
Definition crs_emap (find : list nat -> nat -> option nat) (cecon : smat nat) (edges : list (nat * nat)) (vmap : list Z) : res (list Z) :=
  mapM (fun ed : nat * nat =>
    z0 <- rd vmap (fst ed) ;; z1 <- rd vmap (snd ed) ;;
    if negb (z0 =? -1)%Z && negb (z1 =? -1)%Z && negb (z0 =? z1)%Z then
      if (z0 <? 0)%Z then Err OutOfBounds else
      row <- rd cecon (Z.to_nat z0) ;;
      match find (map fst row) (Z.to_nat z1) with
      | Some p => x <- rd row p ;; Ret (Z.of_nat (snd x))
      | None => Ret 0%Z
      end
    else Ret (-1)%Z) edges.
(** FinishUp without the class numbers: spw_agg_impl.hpp:53-67, 97-246 *)
Definition FinishUp (find : list nat -> nat -> option nat) (M : lmesh) (NC : nat) (vmap : list Z) : res (list (list nat) * lmesh * list Z) :=
  c2f <- GetMapC2F NC vmap ;;
  ce <- crs_edges (m_econ M) vmap c2f ;;
  econ <- count_fill NC (econ_items ce) ;;
  emap <- crs_emap find econ (m_edges M) vmap ;;
  Ret (c2f, mkMesh NC ce econ, emap).
(** the class of the coarse vertices, first map: spw_agg_impl.hpp:70-95; [classes]: vertices of the classes, class 0 is skipped.
    With only one class the array stays empty and is never used. *)
Definition first_v2eq (lq : nat -> nat -> bool) (classes : list (list nat)) (NC : nat) (vmap : list Z) : res (list nat) :=
  foldM (fun eq (qv : nat * nat) =>
    z <- rd vmap (snd qv) ;;
    if (z =? -1)%Z then Ret eq
    else if (z <? 0)%Z then Err OutOfBounds
    else e <- rd eq (Z.to_nat z) ;; wr eq (Z.to_nat z) (if e =? 0 then fst qv else if lq (fst qv) e then e else fst qv))
    (flat_map (fun qvs : nat * list nat => if fst qvs =? 0 then [] else map (fun v => (fst qvs, v)) (snd qvs)) (numbered classes)) (repeat 0 NC).

(** *** Concatenation *)
Record conc := mkConc { c_n : nat; c_vmap : list Z; c_aggs : list (list nat); c_eq : list nat }.
(** spw_agg_impl.hpp:293-320 *)
Definition conc_eq (lq : nat -> nat -> bool) (eq : list nat) (aggs2 : list (list nat)) : res (list nat) :=
  mapM (fun agg : list nat =>
    a0 <- rd agg 0 ;; e <- rd eq a0 ;;
    foldM (fun e v => l <- rd eq v ;; Ret (if lq e l then l else e)) (tl agg) e) aggs2.
(** LocCoarseMap::ConcatenateProper: spw_agg_impl.hpp:256-330 *)
Definition ConcatenateProper (P : par_info) (C : conc) (NC : nat) (rmap : list Z) (aggs2 : list (list nat)) : res conc :=
  m <- SetConcedMap (c_vmap C) rmap ;;
  its <- mapM (fun ka : nat * list nat => ls <- mapM (fun v => rd (c_aggs C) v) (snd ka) ;; Ret (map (fun v => (fst ka, v)) (concat ls))) (numbered aggs2) ;;
  aggs <- count_fill NC (concat its) ;;
  eq <- (if truly_par P then conc_eq (leq P) (c_eq C) aggs2 else Ret []) ;;
  Ret (mkConc NC m aggs eq).
(** LocCoarseMap::ConcatenateVMap: spw_agg_impl.hpp:332-373 *)
Definition ConcatenateVMap (C : conc) (NC : nat) (rmap : list Z) : res conc :=
  m <- SetConcedMap (c_vmap C) rmap ;;
  its <- mapM (fun ka : nat * list nat => z <- rd rmap (fst ka) ;;
            if (z =? -1)%Z then Ret [] else if (z <? 0)%Z then Err OutOfBounds else Ret (map (fun v => (Z.to_nat z, v)) (snd ka))) (numbered (c_aggs C)) ;;
  aggs <- count_fill NC (concat its) ;;
  Ret (mkConc NC m aggs []).

(** *** JoiningIteration: spw_agg_impl.hpp:1265-1362 *)
Definition allow_join (P : par_info) (veq : list nat) (joinable : list bool) (v n : nat) : res bool :=
  b <- rd joinable n ;;
  if negb b then Ret false
  else if negb (truly_par P) then Ret true
  else ei <- rd veq v ;; ej <- rd veq n ;; Ret (master P ej && (leq P ei ej || leq P ej ei)).
(** FindNeighborToJoin: spw_agg_impl.hpp:870-940 (never with the agglomerate wide check) *)
Definition FindNeighborToJoin (c : config) (O : oracles) (r : nat) (econ : smat nat) (allowed : nat -> nat -> res bool) (v : nat)
    : res (option nat) :=
  row <- rd econ v ;;
  FindNeib3Step (mkCfg (robustPick c) false (scalRel c) (absRob c) (absBig c)) (o_sorti O) (o_ini O r v) (o_rob O r v) (o_crob O r v) (o_cbig O r v)
    (allowed v) (map fst row).
Definition JoiningIteration (c : config) (O : oracles) (P : par_info) (r : nat) (econ : smat nat) (veq : list nat) (NV : nat)
    (m : list Z) (h : list bool) : res mst :=
  s <- foldM (fun s k => b <- rd h k ;;
         if b then m <- wr (vm s) k (Z.of_nat (cnt s)) ;; Ret (mkMst m (hd s) (S (cnt s))) else Ret s) (seq 0 NV) (mkMst m h 0) ;;
  foldM (iter_vertex false econ (o_sortd O) (fun s v =>
      a <- FindNeighborToJoin c O r econ (allow_join P veq h) v ;;
      s <- match a with
           | Some n => z <- rd (vm s) n ;; m <- wr (vm s) v z ;; Ret (mkMst m (hd s) (cnt s))
           | None => m <- wr (vm s) v (Z.of_nat (cnt s)) ;; Ret (mkMst m (hd s) (S (cnt s)))
           end ;;
      h <- wr (hd s) v true ;; Ret (mkMst (vm s) h (cnt s)))) (rev (seq 0 NV)) s.

(** *** SPWAgglomerator::FormAgglomerates_impl *)
Record input := mkIn {
  i_mesh : lmesh; i_classes : list (list nat); i_veq : list nat; i_free : option (list bool); i_fixed : list (list nat);
  i_dominant : option (nat -> bool) (* CheckVertexWeight if vert_thresh > 0 *); i_rounds : nat; i_orphan : bool }.

Definition mark (vs : list nat) (h : list bool) : res (list bool) := foldM (fun h v => wr h v true) vs h.
(** the vertices that take no part: spw_agg_impl.hpp:1493-1611 (the writes of -1 to the map, which holds -1 already, are left out) *)
Definition init_handled (P : par_info) (I : input) : res (list bool) :=
  let NV := m_nv (i_mesh I) in
  let h := repeat false NV in
  h <- match i_free I with
       | Some f => foldM (fun h v => b <- rd f v ;; if b then Ret h else wr h v true) (seq 0 NV) h
       | None => Ret h
       end ;;
  h <- (if truly_par P then
          match solid P with
          | Some s => foldM (fun h v => b <- rd s v ;; if b then Ret h else wr h v true) (concat (tl (i_classes I))) h
          | None => foldM (fun h qvs => if master P (fst qvs) then Ret h else mark (snd qvs) h) (numbered (i_classes I)) h
          end
        else Ret h) ;;
  h <- mark (concat (i_fixed I)) h ;;
  h <- match i_dominant I with
       | Some d => foldM (fun h v => b <- rd h v ;; if negb b && d v then wr h v true else Ret h) (seq 0 NV) h
       | None => Ret h
       end ;;
  match i_classes I with
  | [] => Ret h
  | loc :: _ => foldM (fun (h : list bool) v => b <- rd h v ;; if b then Ret h else row <- rd (m_econ (i_mesh I)) v ;;
                   if length row =? 0 then wr h v true else Ret h) loc h
  end.

(** the rounds after the first: spw_agg_impl.hpp:1650-1759.  State: concatenated map, current mesh, the last map if it is not yet
    concatenated. *)
Definition rst := (conc * lmesh * option (nat * list Z))%type.
Definition one_round (c : config) (O : oracles) (P : par_info) (I : input) (s : rst) (r : nat) : res rst :=
  let '(C, M, pend) := s in
  let total := i_rounds I + (if i_orphan I then 1 else 0) in
  ' (C, M) <- match pend with
              | None => Ret (C, M)
              | Some (nc, rm) =>
                  ' (c2f, M', _) <- FinishUp (o_find O) M nc rm ;;
                  C' <- ConcatenateProper P C nc rm c2f ;; Ret (C', M')
              end ;;
  let n := m_nv M in
  if r <? i_rounds I then
    ms <- PairingIteration c O P r false (m_econ M) (c_eq C) (rev (seq 0 n)) (repeat (-1)%Z n) (repeat false n) ;;
    if r =? total - 1 then C' <- ConcatenateVMap C (cnt ms) (vm ms) ;; Ret (C', M, None)
    else Ret (C, M, Some (cnt ms, vm ms))
  else
    let big := map (fun a : list nat => 1 <? length a) (c_aggs C) in
    if existsb negb big then
      ms <- JoiningIteration c O P r (m_econ M) (c_eq C) n (repeat (-1)%Z n) big ;;
      if cnt ms <? n then C' <- ConcatenateVMap C (cnt ms) (vm ms) ;; Ret (C', M, None) else Ret (C, M, None)
    else Ret (C, M, None).

(** set_agg: spw_agg_impl.hpp:1777-1808 *)
Record agglomerate := mkAgg { a_id : nat; a_ctr : nat; a_mems : list nat }.
Definition set_agg (P : par_info) (veq : list nat) (st : list agglomerate * list Z) (vs : list nat) : res (list agglomerate * list Z) :=
  let '(aggs, v2a) := st in
  let id := length aggs in
  v0 <- rd vs 0 ;; e0 <- rd veq v0 ;;
  ' (ctr, _, v2a) <- foldM (fun cev v =>
      let '(ctr, ce, v2a) := cev in
      e <- rd veq v ;;
      v2a <- wr v2a v (Z.of_nat id) ;;
      Ret (if negb (e =? 0) && negb (ce =? e) && leq P ce e then (v, e, v2a) else (ctr, ce, v2a))) vs (v0, e0, v2a) ;;
  Ret (aggs ++ [mkAgg id ctr vs], v2a).

(** spw_agg_impl.hpp:1438-1831; numRounds is at least 1 (1384) *)
Definition FormAgglomerates (c : config) (O : oracles) (P : par_info) (I : input) : res (list agglomerate * list Z) :=
  let M := i_mesh I in let NV := m_nv M in
  let total := i_rounds I + (if i_orphan I then 1 else 0) in
  h <- init_handled P I ;;
  ms <- PairingIteration c O P 0 true (m_econ M) (i_veq I) (par_order (i_classes I)) (repeat (-1)%Z NV) h ;;
  c2f <- GetMapC2F (cnt ms) (vm ms) ;;
  C <- (if 1 <? total then
          ' (c2f, M', _) <- FinishUp (o_find O) M (cnt ms) (vm ms) ;;
          eq <- (if 1 <? length (i_classes I) then first_v2eq (leq P) (i_classes I) (cnt ms) (vm ms) else Ret []) ;;
          ' (C, _, _) <- foldM (one_round c O P I) (seq 1 (total - 1)) (mkConc (cnt ms) (vm ms) c2f eq, M', None) ;;
          Ret C
        else Ret (mkConc (cnt ms) (vm ms) c2f [])) ;;
  st <- foldM (set_agg P (i_veq I)) (map qsort (c_aggs C)) ([], repeat (-1)%Z NV) ;;
  foldM (set_agg P (i_veq I)) (i_fixed I) st.
