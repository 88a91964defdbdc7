(** Model of the vertex prolongations: piecewise (PWProlMap), smoothed with the system matrix where possible and with the
    auxiliary matrix elsewhere (SemiAuxSProlMap), its improvement step (ImproveSProlRow), and the purely auxiliary smoothed
    prolongation (AuxSProlMap).  /repo/src/base/factory/vertex_factory_impl.hpp

    Simplifications.  One process' view: [master V] says whether the process is master of the fine vertex V; the rows of the
    other vertices are received from their masters (ScatterEQCData), which is not modelled: they are left empty.  The
    AllreduceNodalData(max) of the diagonal weights is a parameter.  Mesh data (vertex map, edge connectivity, energy data)
    are total functions (no bounds checks for them); positions inside rows are checked.  Row values are block matrices of an
    abstract block algebra, approximate weights are rationals.  QuickSort is a parameter ([sortw], [sortz]) with a
    contract.  Work arrays that are reset at the start of each vertex (cols, trow, tcv, une) are locals; printing left out. *)
From Verif Require Import Base ArraysModel LinAlg SparseModel.
From Coq Require Import QArith Qminmax.
Local Open Scope nat_scope.

Section Prol.
  Context {B : Blk}.
  Local Notation M := (M B). Local Notation K := (K B).
  (** dense block expressions: product, scalar multiple, identity (SetIdentity) *)
  Variable mmul : M -> M -> M.
  Variable msc : K -> M -> M.
  Variable mid : M.
  (** a -= b *)
  Definition msub (a b : M) : M := madd a (msc (kopp k1) b).

  (** energy: CalcQs (for two vertex data), CalcQHh, GetQiToj(..).MQ on a matrix *)
  Variable VD : Type.
  Variable CalcQs : VD -> VD -> M * M.
  Variable CalcQHh : VD -> VD -> M.
  Variable QiToj_MQ : VD -> VD -> K -> M -> M.

  (** meshes: vertex map (-1: no coarse vertex), edge connectivity (neighbour, edge number), edges, data *)
  Variable vmap : nat -> Z.
  Variable fecon : nat -> list (nat * nat).
  Variable fedge : nat -> nat * nat.
  Variable fvd : nat -> VD.
  Variable cvd : Z -> VD.
  Variable emat : nat -> M.       (* ENERGY::GetEMatrix(fedata[e]) *)
  Variable awt : nat -> Q.        (* ENERGY::GetApproxWeight(fedata[e]) *)
  (** equivalence classes: of coarse vertices, order *)
  Variable ceqc : Z -> nat.
  Variable leq : nat -> nat -> bool.
  (** QuickSort with a[1] > b[1]; QuickSort of integers *)
  Variable sortw : list (Z * Q) -> list (Z * Q).
  Variable sortz : list Z -> list Z.

  (** PWProlMap: vertex_factory_impl.hpp:1598-1659; rows of the prolongation (column, value) *)
  Definition PWProlMap (NV : nat) : smat M :=
    map (fun v => if (vmap v =? -1)%Z then [] else [(Z.to_nat (vmap v), CalcQHh (cvd (vmap v)) (fvd v))]) (seq 0 NV).

  (** SparseMatrixTM::operator()(row, col): the stored value, a zero block if there is none *)
  Definition pwprol (pw : smat M) (v : nat) (col : Z) : M :=
    match find (fun p : nat * M => (Z.of_nat (fst p) =? col)%Z) (nth v pw []) with Some p => snd p | None => m0 end.

  (** diagonal weights: largest approximate weight of an edge at a vertex. 1953-1961 / 2490-2496; [allred]: AllreduceNodalData *)
  Definition diag_weights (allred : list Q -> list Q) (FNV FNE : nat) : list Q :=
    allred (fold_left (fun w e =>
      let w := upd w (fst (fedge e)) (Qmax (nth (fst (fedge e)) w 0%Q) (awt e)) in
      upd w (snd (fedge e)) (Qmax (nth (snd (fedge e)) w 0%Q) (awt e))) (seq 0 FNE) (repeat 0%Q FNV)).

  (** number of neighbours that map to the same coarse vertex *)
  Definition nniscv (V : nat) : nat := length (filter (fun p => (vmap (fst p) =? vmap V)%Z) (fecon V)).

  (** get_cols_classic: 1919-1951; [fmat] is the system matrix; (false, _) where the aux variant has to be used *)
  Definition get_cols_classic (fmat : smat M) (maxc : Z) (eqc V : nat) : res (bool * list Z) :=
    if negb (eqc =? 0) then Ret (false, [])
    else if nniscv V =? 0 then Ret (true, [vmap V])
    else
      ' (ok, brk, cls) <- foldM (fun st (p : nat * M) =>
          let '(ok, brk, cls) := (st : bool * bool * list Z) in
          if brk then Ret st
          else let cvj := vmap (fst p) in
               if negb (cvj =? -1)%Z then
                 if negb (leq eqc (ceqc cvj)) then Ret (false, true, cls)
                 else ' (_, cls') <- insert_into_sorted_array_nodups cvj cls ;; Ret (ok, brk, cls')
               else Ret (false, brk, cls)) (nth V fmat []) (true, false, []) ;;
      (* size_t <= int: a negative bound wraps to a huge one *)
      Ret (ok && ((maxc <? 0)%Z || (Z.of_nat (length cls) <=? maxc)%Z), cls).

  (** weights of the coarse neighbours. 1981-2002 / 2503-2526: (trow, tcv, in_wt) *)
  Definition coarse_weights (EQ V : nat) : res (list (Z * Q) * list Z * Q) :=
    foldM (fun st p =>
      let '(trow, tcv, in_wt) := (st : list (Z * Q) * list Z * Q) in
      let cov := vmap (fst p) in
      if (cov =? -1)%Z then Ret st
      else if (cov =? vmap V)%Z then Ret (trow, tcv, (in_wt + awt (snd p))%Q)
      else if leq EQ (ceqc cov) then
        match find (fun i => (nth i tcv 0 =? cov)%Z) (seq 0 (length tcv)) with
        | None => Ret (trow ++ [(cov, awt (snd p))], tcv ++ [cov], in_wt)
        | Some pos => t <- rd trow pos ;; trow' <- wr trow pos (fst t, (snd t + awt (snd p))%Q) ;; Ret (trow', tcv, in_wt)
        end
      else Ret st) (fecon V) ([], [], 0%Q).

  (** the loop that adds the strongest coarse neighbours. 2008-2015 / 2533-2539 *)
  Fixpoint add_cols (mpf dgwt : Q) (trow : list (Z * Q)) (n j : nat) (cw : Q) (cls : list Z) : res (list Z) :=
    match n with
    | O => Ret cls
    | S n' =>
        t <- rd trow j ;;
        let cw := (cw + snd t)%Q in
        if negb (negb (Qle_bool (snd t) (mpf * cw)%Q)) || negb (Qle_bool (mpf * dgwt)%Q (snd t)) then Ret cls
        else add_cols mpf dgwt trow n' (S j) cw (cls ++ [fst t])
    end.
  (** size_t max_adds = min2(MAX_PER_ROW-1, int(trow.Size())): a negative minimum wraps around, so that the loop runs off the
      end of trow unless it breaks before *)
  Definition max_adds (maxr : Z) (trow : list (Z * Q)) : nat :=
    let m := Z.min (maxr - 1) (Z.of_nat (length trow)) in
    if (m <? 0)%Z then S (length trow) else Z.to_nat m.

  (** get_cols_aux: 1964-2018 (columns unsorted) *)
  Definition get_cols_aux (maxr : Z) (mpf : Q) (dg : list Q) (EQ V : nat) : res (list Z) :=
    if (vmap V =? -1)%Z then Ret []
    else if nniscv V =? 0 then Ret [vmap V]
    else
      ' (trow, tcv, in_wt) <- coarse_weights EQ V ;;
      let trow := sortw trow in
      add_cols mpf (nth V dg 0%Q) trow (max_adds maxr trow) 0 ((1 # 5) * in_wt)%Q [vmap V].

  (** options and decisions of SemiAuxSProlMap. 1850-1897 *)
  Record opts : Type := mkOpts {
    o_maxr : Z; o_maxc : Z; o_mpf : Q; o_omega : K; o_aux_only : bool; o_improve : nat
  }.

  (** itg: the graph row of a vertex and whether the classic variant is used; [None] for skipped vertices.
      2022-2051 ([fmat] = None: have_fmat is false) *)
  Definition graph_row (O : opts) (fmat : option (smat M)) (dg : list Q) (eqc V : nat) : res (option (bool * list Z)) :=
    if (vmap V =? -1)%Z then Ret None
    else
      ' (ok, cls) <- (match fmat with
                      | Some A => if o_aux_only O then Ret (false, []) else get_cols_classic A (o_maxc O) eqc V
                      | None => Ret (false, [])
                      end) ;;
      if ok then Ret (Some (true, cls))
      else c <- get_cols_aux (o_maxr O) (o_mpf O) dg eqc V ;; Ret (Some (false, sortz c)).

  (** rvs[colind] += x, with colind from find_in_sorted_array (-1 is out of bounds) *)
  Definition add_to (rvs : list M) (c : option nat) (x : M) : res (list M) :=
    match c with
    | None => Err OutOfBounds
    | Some k => v <- rd rvs k ;; wr rvs k (madd v x)
    end.
  Definition mneg (x : M) : M := msc (kopp k1) x.

  (** fill_sprol_classic: 2065-2140; [cinv] is the inversion of the diagonal block (CalcInverse, or scaling with the trace and
      pseudo inverse) *)
  Definition fill_classic (cinv : M -> M) (omega : K) (fmat pw : smat M) (V : nat) (ris : list Z) : res (list M) :=
    match ris with
    | [] => Ret []
    | [c] => Ret [pwprol pw V c]
    | _ =>
      let row := nth V fmat [] in
      dp <- find_in_sorted_array (Z.of_nat V) (map (fun p => Z.of_nat (fst p)) row) ;;
      d <- match dp with None => Err OutOfBounds | Some k => p <- rd row k ;; Ret (cinv (snd p)) end ;;
      foldM (fun rvs (p : nat * M) =>
        let fvj := fst p in
        let col := vmap fvj in
        colind <- find_in_sorted_array col ris ;;
        match colind with
        | None => Ret rvs
        | Some _ =>
            rvs <- (if fvj =? V then add_to rvs colind (pwprol pw fvj col) else Ret rvs) ;;
            let od_pwp := mmul (snd p) (pwprol pw fvj col) in
            add_to rvs colind (mneg (mmul (msc omega d) od_pwp))
        end) row (repeat m0 (length ris))
    end.

  (** the used fine neighbours and the vertex itself (edge -1 as None), in ascending order. 2163-2193: (list, dcol) *)
  Definition used_neibs (V : nat) (ris : list Z) : res (list (nat * option nat) * nat) :=
    ' (l, dcol) <- foldM (fun st (p : nat * nat) =>
        let '(l, dcol) := (st : list (nat * option nat) * option nat) in
        let cvj := vmap (fst p) in
        if (cvj =? -1)%Z then Ret st
        else
          pos <- find_in_sorted_array cvj ris ;;
          match pos with
          | None => Ret st
          | Some _ =>
              let '(l, dcol) :=
                if (match dcol with None => true | Some _ => false end) && (V <? fst p)
                then (l ++ [(V, None)], Some (length l)) else (l, dcol) in
              Ret (l ++ [(fst p, Some (snd p))], dcol)
          end) (fecon V) ([], None) ;;
    match dcol with
    | Some d => Ret (l, d)
    | None => Ret (l ++ [(V, None)], length l)
    end.

  (** rmrow: the row of the auxiliary matrix restricted to the used neighbours. 2196-2213 *)
  Definition aux_row (V : nat) (uf : list (nat * option nat)) (dcol : nat) : res (list M) :=
    foldM (fun rm j =>
      if j =? dcol then Ret rm
      else
        p <- rd uf j ;;
        match snd p with
        | None => Err OutOfBounds
        | Some e =>
            let '(v0, v1) := fedge e in
            let '(vl, vo) := if V =? v0 then (v0, v1) else (v1, v0) in
            let '(Qij, Qji) := CalcQs (fvd vl) (fvd vo) in
            let QM := mmul (mtr Qij) (emat e) in
            a <- rd rm j ;; rm <- wr rm j (msub a (mmul QM Qji)) ;;
            b <- rd rm dcol ;; wr rm dcol (madd b (mmul QM Qij))
        end) (seq 0 (length uf)) (repeat m0 (length uf)).

  (** fill_sprol_aux: 2143-2289.  [inv1]: for blocks, the trace scaling 1/trace factor applied to the row, and the inversion of
      the (scaled) diagonal; for BS == 1 the factor is k1 (no scaling) and the inversion is CalcInverse. *)
  Definition fill_aux (trinv : M -> K) (pinv : M -> M) (omega : K) (pw : smat M) (V : nat) (ris : list Z) : res (list M) :=
    match ris with
    | [] => Ret []
    | [c] => Ret [pwprol pw V c]
    | _ =>
      ' (uf, dcol) <- used_neibs V ris ;;
      rm <- aux_row V uf dcol ;;
      d0 <- rd rm dcol ;;
      let s := trinv d0 in
      let rm := map (msc s) rm in
      let d := pinv (msc s d0) in
      foldM (fun rvs j =>
        p <- rd uf j ;;
        let fvj := fst p in
        let col := vmap fvj in
        colind <- find_in_sorted_array col ris ;;
        rvs <- (if fvj =? V then add_to rvs colind (pwprol pw fvj col) else Ret rvs) ;;
        r <- rd rm j ;;
        let od_pwp := mmul r (pwprol pw fvj col) in
        add_to rvs colind (mneg (mmul (msc omega d) od_pwp))) (seq 0 (length uf)) (repeat m0 (length ris))
    end.

  (** one row of the smoothed prolongation *)
  Definition sprol_row (O : opts) (cinv : M -> M) (trinv : M -> K) (pinv : M -> M) (fmat : option (smat M)) (dg : list Q)
      (pw : smat M) (eqc V : nat) : res (list (Z * M)) :=
    g <- graph_row O fmat dg eqc V ;;
    match g with
    | None => Ret []
    | Some (classic, ris) =>
        rvs <- (if (classic : bool) then fill_classic cinv (o_omega O) (match fmat with Some A => A | None => [] end) pw V ris
                else fill_aux trinv pinv (o_omega O) pw V ris) ;;
        Ret (combine ris rvs)
    end.

  (** SemiAuxSProlMap without the improvement iterations: 2053-2300 *)
  Definition SemiAuxSProlMap (O : opts) (cinv : M -> M) (trinv : M -> K) (pinv : M -> M) (allred : list Q -> list Q)
      (master : nat -> bool) (eqc_of : nat -> nat) (fmat : option (smat M)) (FNV FNE : nat) : res (list (list (Z * M))) :=
    let pw := PWProlMap FNV in
    let dg := diag_weights allred FNV FNE in
    foldM (fun rows V =>
      r <- (if master V then sprol_row O cinv trinv pinv fmat dg pw (eqc_of V) V else Ret []) ;;
      Ret (rows ++ [r])) (seq 0 FNV) [].

  (** ImproveSProlRow with extCols = { vmap[fvnr] }: the update of the row values. 1744-1831; [dInv]: inverted diagonal block,
      [apRow]: row of A*P *)
  Definition ImproveSProlRow (omega : K) (dInv : M) (extCol : Z) (prolCols : list Z) (apRow : list (Z * M)) : res (list M) :=
    ext <- find_in_sorted_array extCol prolCols ;;
    let apCols := map fst apRow in
    foldM (fun up c =>
      match c with
      | INTERSECTION idxAP idxP =>
          p <- rd apRow idxAP ;; v <- rd up idxP ;; wr up idxP (msub v (mmul (msc omega dInv) (snd p)))
      | A_NOT_B idxAP =>
          p <- rd apRow idxAP ;;
          let upVal := mmul dInv (snd p) in
          add_to up ext (QiToj_MQ (cvd extCol) (cvd (fst p)) (kopp omega) upVal)
      | B_NOT_A _ => Ret up
      end) (iterate_AC apCols prolCols) (repeat m0 (length prolCols)).

  (** one improvement iteration of a row (rows with one entry are left alone). 2371-2420; [cinv] inverts the diagonal block *)
  Definition improve_row (omega : K) (cinv : M -> M) (A : smat M) (AP : list (list (Z * M))) (V : nat) (row : list (Z * M))
    : res (list (Z * M)) :=
    if 1 <? length row then
      let arow := nth V A [] in
      dp <- find_in_sorted_array (Z.of_nat V) (map (fun p => Z.of_nat (fst p)) arow) ;;
      d <- match dp with None => Err OutOfBounds | Some k => p <- rd arow k ;; Ret (cinv (snd p)) end ;;
      up <- ImproveSProlRow omega d (vmap V) (map fst row) (nth V AP []) ;;
      Ret (combine (map fst row) (map (fun q => madd (fst q) (snd q)) (combine (map snd row) up)))
    else Ret row.

  (** AuxSProlMap, graph: the coarse vertices a vertex prolongates from. 2498-2570 *)
  Definition aux_graph_row (maxr : Z) (mpf : Q) (dg : list Q) (EQ V : nat) : res (list Z) :=
    if (vmap V =? -1)%Z then Ret []
    else
      ' (trow, tcv, in_wt) <- coarse_weights EQ V ;;
      let trow := sortw trow in
      fin <- add_cols mpf (nth V dg 0%Q) trow (max_adds maxr trow) 0 ((1 # 5) * in_wt)%Q [vmap V] ;;
      let fin := sortz fin in
      if length fin =? 1 then Ret fin
      else if nniscv V =? 0 then Ret [vmap V] else Ret fin.

  (** row of RM: 2578-2680.  [emod] is the edge matrix the code uses (regularised for edges inside the aggregate if blocks,
      bounded below by 1e-8 if scalar); [cinv]: CalcInverse.  The used neighbours with the vertex itself, ascending, are those
      of [used_neibs] (collected, then QuickSort by vertex number). *)
  Definition rm_row (emod : nat -> nat -> M) (cinv : M -> M) (omega : K) (V : nat) (grow : list Z) : res (list (nat * M)) :=
    if length grow =? 1 then Ret [(V, mid)]
    else
      ' (uf, dcol) <- used_neibs V grow ;;
      if length uf =? 1 then Ret [(V, mid)]
      else
        rvs <- foldM (fun rm j =>
          if j =? dcol then Ret rm
          else
            p <- rd uf j ;;
            match snd p with
            | None => Err OutOfBounds
            | Some e =>
                let '(v0, v1) := fedge e in
                let '(vl, vo) := if V =? v0 then (v0, v1) else (v1, v0) in
                let '(Qij, Qji) := CalcQs (fvd vl) (fvd vo) in
                let QM := mmul (mtr Qij) (emod V e) in
                rm <- wr rm j (mmul QM Qji) ;;
                b <- rd rm dcol ;; wr rm dcol (madd b (mmul QM Qij))
            end) (seq 0 (length uf)) (repeat m0 (length uf)) ;;
        d0 <- rd rvs dcol ;;
        let d := cinv d0 in
        Ret (map (fun q => let '(j, (v, r)) := (q : nat * ((nat * option nat) * M)) in
                   (fst v, if j =? dcol then msub mid (mmul (msc omega d) r) else mmul (msc omega d) r))
                 (combine (seq 0 (length uf)) (combine uf rvs))).
End Prol.
