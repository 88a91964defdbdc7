(** Model of the transfer of vertex and edge data to the coarse mesh for the elasticity energy.
    /repo/src/elasticity/elasticity_impl.hpp

    Simplifications as in CDataModel and EnergyModel (one process' view; exact arithmetic; a Mat is a function of two indices).
    AllreduceNodalData is a parameter (for one process it does nothing).  [G]: old content of the static local matrix Q. *)
From Verif Require Import Base SparseModel CDataModel EnergyModel.
From Verif Require AuxModel.
Local Open Scope nat_scope.

Section ECData.
  Context {F : Fld}.
  Variable d3 : bool.
  Local Notation mat := (@mat F). Local Notation vdata := (@vdata F).
  Variable G : mat.
  Variables vmap emap : list Z.

  (** ElastVData::operator=(double 0): elasticity_mesh.hpp:37 *)
  Definition zero_vd : vdata := mkVD (fun _ => f0) mzero f0.

  (** AttachedEVD::map_data, data of the coarse vertices of one class: elasticity_impl.hpp:143-165 *)
  Definition evd_class (aggs : list (list nat)) (data : list vdata) (c : list vdata) (q : bool * list nat) : res (list vdata) :=
    foldM (fun c cV =>
      if fst q then
        agg <- rd aggs cV ;; fV <- rd agg 0 ;; d <- rd data fV ;; wr c cV (mkVD (pos d) (wt d) (rsc d))
      else wr c cV zero_vd) (snd q) c.
  (** weights of the other members: elasticity_impl.hpp:181-191; [ctr v]: ctrs.Test(v) *)
  Definition evd_add (data : list vdata) (ctr : nat -> bool) (c : list vdata) (v : nat) : res (list vdata) :=
    cv <- rd vmap v ;;
    if negb (cv =? -1)%Z && negb (ctr v) then
      d <- rd data v ;;
      modify (fun x => mkVD (pos x) (AddQtMQ d3 f1 (wt x) (CalcQHh d3 x d G) (wt d)) (rsc x)) c cv
    else Ret c.
  (** AttachedEVD::map_data: elasticity_impl.hpp:110-194; [eqcv], [eqv]: classes of the coarse and of the fine vertices *)
  Definition EVD_map_data (NCV : nat) (eqcv eqv : list (bool * list nat)) (ctr : nat -> bool) (data : list vdata) : res (list vdata) :=
    aggs <- GetMapC2F NCV vmap ;;
    c <- foldM (evd_class aggs data) eqcv (repeat zero_vd NCV) ;;
    foldM (evd_add data ctr) (AuxModel.master_nodes eqv) c.

  (** AttachedEED::map_data, one edge: elasticity_impl.hpp:51-72 *)
  Definition eed_add (edges cedges : list (nat * nat)) (fvd cvd : list vdata) (fed : list mat) (st : list mat * list mat) (e : nat)
      : res (list mat * list mat) :=
    cenr <- rd emap e ;;
    fedge <- rd edges e ;;
    fE <- rd fed e ;;
    if negb (cenr =? -1)%Z then
      if (cenr <? 0)%Z then Err OutOfBounds else
      cedge <- rd cedges (Z.to_nat cenr) ;;
      cA <- rd cvd (fst cedge) ;; cB <- rd cvd (snd cedge) ;;
      fA <- rd fvd (fst fedge) ;; fB <- rd fvd (snd fedge) ;;
      let QHh := CalcQHh d3 (CalcMPData cA cB) (CalcMPData fA fB) G in
      let FMQ := mmul (DPV d3) fE QHh in
      ced <- modify (fun x => madd x (mmul (DPV d3) (mtr QHh) FMQ)) (fst st) cenr ;;
      Ret (ced, snd st)
    else
      cv0 <- rd vmap (fst fedge) ;;
      cv1 <- rd vmap (snd fedge) ;;
      if negb (cv0 =? cv1)%Z then
        let '(l, l') := if (cv0 =? -1)%Z then (snd fedge, fst fedge) else (fst fedge, snd fedge) in
        cvnr <- rd vmap l ;;
        vl <- rd fvd l ;; vl' <- rd fvd l' ;;
        add <- modify (fun x => AddQtMQ d3 f1 x (CalcQij d3 vl vl' G) fE) (snd st) cvnr ;;
        Ret (fst st, add)
      else Ret st.
  (** AttachedEED::map_data: elasticity_impl.hpp:23-79.  Result: coarse edge data and the coarse vertex data with changed weights. *)
  Definition EED_map_data (allred : list mat -> list mat) (NCV NCE : nat) (eqe : list (bool * list nat))
      (edges cedges : list (nat * nat)) (fvd cvd : list vdata) (fed : list mat) : res (list mat * list vdata) :=
    st <- foldM (eed_add edges cedges fvd cvd fed) (AuxModel.master_nodes eqe) (repeat mzero NCE, repeat mzero NCV) ;;
    let add_cvw := allred (snd st) in
    cvd' <- foldM (fun c k => a <- rd add_cvw k ;; x <- rd c k ;; wr c k (mkVD (pos x) (madd (wt x) a) (rsc x))) (seq 0 NCV) cvd ;;
    Ret (fst st, cvd').
End ECData.
