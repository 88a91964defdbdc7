(** Model of the DOF maps between AMG levels: /repo/src/base/coarsening/dof_map.{hpp,cpp}.

    Simplifications: one process (parallel status, UniversalDofs only as the number of dofs); one block type for all
    levels (the code has Mat<H,W> per step; which branch of ProlMap::Concatenate is taken for two given block types
    is the oracle [cmode]); printing, timers and DynBlockProlMap dropped.  A null pointer dereference is [Err Uninit]. *)
From Verif Require Import Base LinAlg SparseModel MergeModel.
Open Scope nat_scope.

Section DofMap.
  Context {B : Blk}.
  Variable mmul : M B -> M B -> M B.
  Variable tasks : nat -> list nat.          (* how n rows are cut into parallel tasks *)
  Variable garbage : nat -> nat -> hash.     (* uninitialised hash arrays of the sparse product *)
  Notation vec := (list (X B)).
  Notation mat := (smat (M B)).

  (** ProlMap (hpp:251-340), ConcDMS (hpp:171-203), MultiDofMapStep (hpp:380-414).
      Prol nc P PT: nc = mapped dofs, PT = None: null pointer.  Conc subs bufs: bufs = the temporary vectors (arbitrary
      content, overwritten by every transfer), None: not allocated. *)
  Inductive step : Type :=
  | Prol (nc : nat) (P : mat) (PT : option mat)
  | Conc (subs : list step) (bufs : option (list vec))
  | Multi (maps : list step).

  Definition mult (A C : mat) : res mat := MatMultAB mmul m0 madd MergeCols (tasks (length A)) garbage A C.
  (** ProlMap::BuildPT, dof_map.cpp:795-801 *)
  Definition build_pt (nc : nat) (P : mat) (PT : option mat) : res mat :=
    match PT with Some t => Ret t | None => TransposeSPM mtr nc P end.

  (** GetMappedUDofs().GetND() *)
  Fixpoint mapped_nd (st : step) : nat :=
    match st with
    | Prol nc _ _ => nc
    | Conc subs _ => (fix last (l : list step) : nat := match l with [] => 0 | [s] => mapped_nd s | _ :: t => last t end) subs
    | Multi maps => match maps with [] => 0 | s :: _ => mapped_nd s end
    end.

  (** TransferF2C / AddF2C.  [fin] says what happens to the target vector: overwritten (fun v => v) for TransferF2C,
      fun v => x_coarse + fac * v for AddF2C.
      ProlMap: dof_map.cpp:641-683; ConcDMS: 373-410 (only the last sub-step writes to x_coarse); MultiDofMapStep: 1038-1052. *)
  Section Walks.
    Variable go : (vec -> vec) -> step -> vec -> res vec.
    (** ConcDMS::TransferF2C / AddF2C from sub-step 1 on: 380-388, 399-409 *)
    Fixpoint walk (fin : vec -> vec) (l : nat) (rest : list step) (bufs : list vec) {struct rest} : res vec :=
      match rest with
      | [] => Err OutOfBounds
      | [s] => v <- rd bufs (length bufs - 1) ;; go fin s v
      | s :: t => v <- rd bufs (l - 1) ;; r <- go (fun v => v) s v ;; bufs <- wr bufs l r ;; walk fin (S l) t bufs
      end.
    (** ConcDMS::TransferC2F / AddC2F from the last sub-step down to sub-step 1: 418-430, 443-455 *)
    Fixpoint down (x : vec) (l : nat) (rest : list step) (bufs : list vec) {struct rest} : res (list vec) :=
      match rest with
      | [] => Err OutOfBounds
      | [s] => r <- go (fun v => v) s x ;; wr bufs (length bufs - 1) r
      | s :: t => bufs <- down x (S l) t bufs ;; v <- rd bufs l ;; r <- go (fun v => v) s v ;; wr bufs (l - 1) r
      end.
  End Walks.
  Fixpoint f2c (fin : vec -> vec) (st : step) (x : vec) {struct st} : res vec :=
    match st with
    | Prol _ _ PT => match PT with Some PT => Ret (fin (matvec PT x)) | None => Err Uninit end
    | Multi maps => match maps with [] => Err OutOfBounds | s :: _ => f2c fin s x end
    | Conc subs bufs =>
        match subs with
        | [] => Err OutOfBounds
        | s :: t =>
            match t with
            | [] => f2c fin s x
            | _ =>
              match bufs with
              | None => Err OutOfBounds
              | Some bufs => v <- f2c (fun v => v) s x ;; bufs <- wr bufs 0 v ;; walk (fun f s v => f2c f s v) fin 1 t bufs
              end
            end
        end
    end.
  (** TransferC2F / AddC2F: ProlMap 686-724, ConcDMS 413-458 (only sub-step 0 writes to x_fine), MultiDofMapStep 1055-1069 *)
  Fixpoint c2f (fin : vec -> vec) (st : step) (x : vec) {struct st} : res vec :=
    match st with
    | Prol _ P _ => Ret (fin (matvec P x))
    | Multi maps => match maps with [] => Err OutOfBounds | s :: _ => c2f fin s x end
    | Conc subs bufs =>
        match subs with
        | [] => Err OutOfBounds
        | s :: t =>
            match t with
            | [] => c2f fin s x
            | _ =>
              match bufs with
              | None => Err OutOfBounds
              | Some bufs => bufs <- down (fun f s v => c2f f s v) x 1 t bufs ;; v <- rd bufs 0 ;; c2f fin s v
              end
            end
        end
    end.
  Definition TransferF2C := f2c (fun v => v).
  Definition TransferC2F := c2f (fun v => v).
  Definition AddF2C (fac : K B) (st : step) (x_fine x_coarse : vec) : res vec := f2c (fun v => x_coarse +v vsc fac v) st x_fine.
  Definition AddC2F (fac : K B) (st : step) (x_fine x_coarse : vec) : res vec := c2f (fun v => x_fine +v vsc fac v) st x_coarse.

  (** a loop over an array of steps that stops at the first failure *)
  Section Loop.
    Context {T U : Type} (f : T -> res U).
    Fixpoint mapR (l : list T) : res (list U) := match l with [] => Ret [] | s :: t => s <- f s ;; t <- mapR t ;; Ret (s :: t) end.
  End Loop.
  (** Finalize: ProlMap 621-632, ConcDMS 349-370, MultiDofMapStep 1030-1035 *)
  Fixpoint finalize (st : step) : res step :=
    match st with
    | Prol nc P PT => PT <- build_pt nc P PT ;; Ret (Prol nc P (Some PT))
    | Conc subs bufs =>
        subs <- mapR finalize subs ;;
        Ret (Conc subs (match bufs with
                        | Some b => Some b
                        | None => if 1 <? length subs then Some (map (fun s => vzero (mapped_nd s)) (removelast subs)) else None
                        end))
    | Multi maps =>
        maps <- mapR finalize maps ;;
        Ret (Multi maps)
    end.
  (** the loops ConcDMS::AssembleMatrix 461-469 and DOFMap::AssembleMatrices 167-174: last_mat is passed from step to step *)
  Section Chain.
    Variable asm : step -> mat -> res (mat * step).
    Fixpoint asm_chain (l : list step) (A : mat) : res (list mat * list step) :=
      match l with
      | [] => Ret ([A], [])
      | s :: t => ' p <- asm s A ;; ' q <- asm_chain t (fst p) ;; Ret (A :: fst q, snd p :: snd q)
      end.
  End Chain.
  (** AssembleMatrix: ProlMap 804-823, ConcDMS 461-469, MultiDofMapStep 1126-1131.  Returns the coarse matrix and the
      step (a ProlMap is finalised on the way, dof_map.cpp:818) *)
  Fixpoint assemble (st : step) (A : mat) {struct st} : res (mat * step) :=
    match st with
    | Prol nc P PT =>
        PT <- build_pt nc P PT ;;
        C <- RestrictMatrix mmul m0 madd MergeCols (tasks (length PT)) (tasks (length PT)) garbage garbage PT A P ;;
        Ret (C, Prol nc P (Some PT))
    | Conc subs bufs =>
        ' q <- asm_chain assemble subs A ;;
        Ret (last (fst q) A, Conc (snd q) bufs)
    | Multi maps => match maps with
                    | [] => Err OutOfBounds
                    | s :: t => ' p <- assemble s A ;; Ret (fst p, Multi (snd p :: t))
                    end
    end.

  (** for two prolongations: None = block types do not fit (nullptr), Some true = the product branch 760-771 (result not
      finalised), Some false = ConcatenateFromLeft 727-746 (result finalised) *)
  Variable cmode : mat -> mat -> option bool.
  Section Multis.
    Variables (can : step -> step -> res bool) (conc : step -> step -> res (option step)) (omaps : list step).
    (** the loop 1076-1080 over the maps of a MultiDofMapStep and those of the other one *)
    Fixpoint can_all (k : nat) (l : list step) (cc : bool) {struct l} : res bool :=
      match l with
      | [] => Ret cc
      | s :: t => o <- rd omaps k ;; c <- can s o ;; can_all (S k) t (cc && c)
      end.
    (** the loop 1093-1096 *)
    Fixpoint conc_all (k : nat) (l : list step) {struct l} : res (list step) :=
      match l with
      | [] => Ret []
      | s :: t => o <- rd omaps k ;; c <- conc s o ;; t <- conc_all (S k) t ;;
                  match c with Some c => Ret (c :: t) | None => Err Uninit end
      end.
  End Multis.
  (** CanConcatenate: only MultiDofMapStep overrides the default [false], dof_map.cpp:1072-1085, hpp:52 *)
  Fixpoint can_concatenate (st other : step) {struct st} : res bool :=
    match st with
    | Multi maps =>
        match other with
        | Multi omaps =>
            can_all can_concatenate omaps 0 maps (length omaps =? length maps)
        | _ => match maps with [s] => can_concatenate s other | _ => Ret false end
        end
    | _ => Ret false
    end.
  (** Concatenate: ProlMap 749-779, MultiDofMapStep 1088-1103, default nullptr (hpp:53) *)
  Fixpoint concatenate (st other : step) {struct st} : res (option step) :=
    match st with
    | Prol _ P _ =>
        match other with
        | Prol nc2 P2 _ =>
            match cmode P P2 with
            | None => Ret None
            | Some nofin =>
                PP <- mult P P2 ;;
                if nofin : bool then Ret (Some (Prol nc2 PP None))
                else PT <- TransposeSPM mtr nc2 PP ;; Ret (Some (Prol nc2 PP (Some PT)))
            end
        | _ => Ret None
        end
    | Conc _ _ => Ret None
    | Multi maps =>
        cc <- can_concatenate st other ;;
        if cc : bool then
          match other with
          | Multi omaps =>
              c <- conc_all concatenate omaps 0 maps ;;
              Ret (Some (Multi c))
          | _ => match maps with [s] => concatenate s other | _ => Ret None end
          end
        else Ret None
    end.

  (** MakeSingleStep2, dof_map.cpp:17-41: inner loop 26-32 (returns the merged step and the new k) ... *)
  Fixpoint ms2_inner (fuel : nat) (steps : list step) (cur : step) (k j : nat) : res (step * nat) :=
    match fuel with
    | 0 => Err OutOfFuel
    | S f => if j <? length steps then
               o <- rd steps j ;; c <- concatenate cur o ;;
               match c with Some c => ms2_inner f steps c (S k) (S j) | None => Ret (cur, k) end
             else Ret (cur, k)
    end.
  (** ... and outer loop 23-34 *)
  Fixpoint ms2_outer (fuel : nat) (steps : list step) (k : nat) (acc : list step) : res (list step) :=
    match fuel with
    | 0 => Err OutOfFuel
    | S f => if k <? length steps then
               s <- rd steps k ;;
               ' p <- ms2_inner (S (length steps)) steps s k (S k) ;;
               ms2_outer f steps (S (snd p)) (acc ++ [fst p])
             else Ret acc
    end.
  Definition MakeSingleStep2 (steps : list step) : res (option step) :=
    if length steps =? 0 then Ret None
    else subs <- ms2_outer (S (length steps)) steps 0 [] ;;
         Ret (Some (match subs with [s] => s | _ => Conc subs None end)).
  (** GetSimpleSteps 44-64 (GetMap(0) of an empty MultiDofMapStep is out of bounds) *)
  Fixpoint GetSimpleSteps (st : step) : res (list step) :=
    match st with
    | Conc subs _ => l <- mapR GetSimpleSteps subs ;; Ret (concat l)
    | Multi maps => match maps with [] => Err OutOfBounds | s :: _ => GetSimpleSteps s end
    | Prol _ _ _ => Ret [st]
    end.
  (** MakeSingleStep3 67-79 *)
  Definition MakeSingleStep3 (steps : list step) : res (option step) := l <- mapR GetSimpleSteps steps ;; MakeSingleStep2 (concat l).

  (** *** DOFMap, hpp:87-165 *)
  Record dofmap := mkDM { dm_steps : list step; dm_fin : bool; dm_vecs : list (option vec) }.
  Definition dm_new : dofmap := mkDM [] false [].
  (** CreateVector of a step: GetUDofs().CreateVector(); only its existence matters, content arbitrary *)
  Definition dm_Finalize (d : dofmap) : dofmap :=                          (* 92-109, serial: nsteps_glob = -1 *)
    if (length (dm_steps d) =? 0) || dm_fin d then d
    else mkDM (dm_steps d) true (map (fun _ => Some []) (dm_steps d) ++ [None]).
  Definition dm_AddStep (d : dofmap) (s : step) : res dofmap :=            (* 112-119 *)
    if dm_fin d then Err Thrown else Ret (mkDM (dm_steps d ++ [s]) (dm_fin d) (dm_vecs d)).
  Definition dm_PrependStep (d : dofmap) (s : step) : res dofmap :=        (* 122-129 *)
    if dm_fin d then Err Thrown else Ret (mkDM (s :: dm_steps d) (dm_fin d) (dm_vecs d)).
  Definition dm_ReplaceStep (d : dofmap) (k : nat) (s : step) : res dofmap := (* 132-156: not guarded *)
    st <- wr (dm_steps d) k s ;; Ret (mkDM st (dm_fin d) (dm_vecs d)).
  (** AssembleMatrices 159-178 *)
  Definition dm_AssembleMatrices (d : dofmap) (A : mat) : res (list mat * dofmap) :=
    let d := dm_Finalize d in
    ' p <- asm_chain assemble (dm_steps d) A ;; Ret (fst p, mkDM (snd p) (dm_fin d) (dm_vecs d)).
  (** SubMap 206-217 *)
  Definition dm_SubMap (d : dofmap) (from : nat) (to : option nat) : res dofmap :=
    let kmax := match to with None => length (dm_steps d) | Some t => t end in
    foldM (fun sm k => s <- rd (dm_steps d) k ;; dm_AddStep sm s) (seq from (kmax - from)) dm_new.
  (** [vecs.Range(la+1, lb)]: a vector that was never created is a null pointer *)
  Fixpoint get_vecs (l : list (option vec)) : res (list vec) :=
    match l with [] => Ret [] | Some v :: t => t <- get_vecs t ;; Ret (v :: t) | None :: _ => Err Uninit end.
  (** ConcStep 220-258.  Returns the step and the map (which it finalises) *)
  Definition dm_ConcStep (d : dofmap) (la lb : nat) (symbolic : bool) : res (option step * dofmap) :=
    let d := dm_Finalize d in
    let '(la, lb) := if lb <? la then (lb, la) else (la, lb) in
    if la + 1 =? lb then s <- rd (dm_steps d) la ;; Ret (Some s, d)
    else if length (dm_steps d) <? lb then Err OutOfBounds
    else if symbolic then
      v <- get_vecs (firstn (lb - (la + 1)) (skipn (la + 1) (dm_vecs d))) ;;
      Ret (Some (Conc (firstn (lb - la) (skipn la (dm_steps d))) (match v with [] => None | _ => Some v end)), d)
    else s <- MakeSingleStep3 (firstn (lb - la) (skipn la (dm_steps d))) ;; Ret (s, d).
  (** TransferAtoB 181-203; vout: content of the output vector before the call *)
  Definition dm_TransferAtoB (d : dofmap) (la lb : nat) (vin vout : vec) : res (vec * dofmap) :=
    if la =? lb then Ret (vin, d)
    else
      let maxlev := length (dm_steps d) in
      let lla := Nat.min la maxlev in let llb := Nat.min lb maxlev in
      if lla =? llb then Ret (vout, d)
      else
        let c2f := lb <? la in
        let '(lla, llb) := if c2f then (llb, lla) else (lla, llb) in
        ' p <- dm_ConcStep d lla llb true ;;
        match fst p with
        | None => Err Uninit
        | Some s => v <- (if c2f then TransferC2F s vin else TransferF2C s vin) ;; Ret (v, snd p)
        end.
  (** single steps, hpp:125-135 *)
  Definition dm_F2C (d : dofmap) (l : nat) (x : vec) : res vec := s <- rd (dm_steps d) l ;; TransferF2C s x.
  Definition dm_C2F (d : dofmap) (l : nat) (x : vec) : res vec := s <- rd (dm_steps d) l ;; TransferC2F s x.
End DofMap.
Arguments Prol {B}. Arguments Conc {B}. Arguments Multi {B}.
