(** Model of the MPI-parallel smoother, /repo/src/base/smoothers/hybrid_base_smoother.cpp, for all ranks at once, and of its Gauss-Seidel kernels, gssmoother.cpp:604-861.

    Every rank executes the same list of instructions of NetModel.v (all ranks are called with the same flags); the exchange calls are those of DccModel.v.
    A stage kernel is one instruction (its rows are not interleaved with the communication thread).
    x comes in CUMULATED (x.Cumulate(), :326, :425 is a no-op then); b and res come with a parallel status.
    The right-hand-side kernels use res as a work vector only; the model leaves it alone. *)
From Verif Require Import Base AGroup LinAlg GSModel NetModel DccModel.
Local Open Scope nat_scope.

(** hybrid_base_smoother.hpp: SMOOTH_STAGE *)
Inductive stage := LOC_PART_1 | EX_PART | LOC_PART_2.
(** a rank's vectors: x, b, res, _stashedGx *)
Record hvec {B : Blk} := mkHv { hx : list (X B); hb : list (X B); hr : list (X B); hg : list (X B) }.
Arguments hvec : clear implicits.

Section HybSm.
  Context {B : Blk}.
  Local Notation vec := (list (X B)). Local Notation spmat := (@spmat B). Local Notation hvec := (hvec B).
  Definition set_x (v : hvec) (w : vec) : hvec := mkHv _ w (hb v) (hr v) (hg v).
  Definition set_b (v : hvec) (w : vec) : hvec := mkHv _ (hx v) w (hr v) (hg v).
  Definition set_r (v : hvec) (w : vec) : hvec := mkHv _ (hx v) (hb v) w (hg v).
  Definition set_g (v : hvec) (w : vec) : hvec := mkHv _ (hx v) (hb v) (hr v) w.
  (** the vector the kernels work with: res, b or _stashedGx *)
  Inductive which := WRes | WB | WGx.
  Definition getw (w : which) (v : hvec) : vec := match w with WRes => hr v | WB => hb v | WGx => hg v end.
  Definition putw (w : which) (v : hvec) (u : vec) : hvec := match w with WRes => set_r v u | WB => set_b v u | WGx => set_g v u end.

  Variable dps : list (list (list nat)).
  Variable MG : nat -> spmat * option spmat.                                     (* GetM(), GetG() on each rank *)
  Variable kres : stage -> bool -> nat -> vec -> vec -> vec -> bool -> vec * vec. (* SmoothStageRes(stage, backward?, rank, x, b, res, x_zero) -> x, res *)
  Variable krhs : stage -> bool -> nat -> vec -> vec -> bool -> vec.             (* SmoothStageRHS(stage, backward?, rank, x, b, x_zero) -> x *)
  Variable nsteps : nat.                                                         (* _numLocSteps *)

  (** how the communication is overlapped with a stage, :106-226.
      [Thread p]: the background thread runs the job while the main thread runs the stage; p r = number of job instructions done on rank r before the stage *)
  Inductive comm := Sync | Overlap | Thread (p1 p2 : nat -> nat).
  (** _overlapComm, _commInThread *)
  Definition mode (overlap in_thread : bool) (p1 p2 : nat -> nat) : comm := if overlap then if in_thread then Thread p1 p2 else Overlap else Sync.
  (** all ways of running a stage f besides the job *)
  Definition slot (f : nat -> hvec -> hvec) (now : nat -> bool) : instr hvec (X B) := IVec (fun r v => if now r then f r v else v).
  Fixpoint beside (f : nat -> hvec -> hvec) (p : nat -> nat) (done : nat) (job : list (instr hvec (X B))) : list (instr hvec (X B)) :=
    match job with
    | [] => [slot f (fun r => done <=? p r)]
    | i :: job => slot f (fun r => p r =? done) :: i :: beside f p (S done) job
    end.

  Section Stages.
    Variable w : which.
    (** callSM, :524-534 *)
    Definition callSM (back : bool) (st : stage) (xz : bool) (r : nat) (v : hvec) : hvec :=
      match w with
      | WRes => let (x, res) := kres st back r (hx v) (hb v) (hr v) xz in set_r (set_x v x) res
      | _ => set_x v (krhs st back r (hx v) (getw w v) xz)
      end.
    Definition P1 (back : bool) : stage := if back then LOC_PART_2 else LOC_PART_1.
    Definition P2 (back : bool) : stage := if back then LOC_PART_1 else LOC_PART_2.
    Notation get := (getw w). Notation put := (putw w).
    Definition waitD2C : list (instr hvec (X B)) := [IWaitSend D2C; IWaitRecv D2C].
    (** StartDIS2CO(rb); stage; FinishDIS2CO(rb): :106-163, :536-546 *)
    Definition d2c_stage (cm : comm) (need : bool) (f : nat -> hvec -> hvec) : list (instr hvec (X B)) :=
      if negb need then [IVec f] else
      match cm with
      | Sync => fst (StartDIS2CO dps get put DISTRIBUTED) ++ waitD2C ++ [IVec f] ++ [iApplyM dps get put]
      | Overlap => fst (StartDIS2CO dps get put DISTRIBUTED) ++ [IVec f] ++ waitD2C ++ [iApplyM dps get put]
      | Thread p1 _ => beside f p1 0 (fst (StartDIS2CO dps get put DISTRIBUTED) ++ waitD2C) ++ [iApplyM dps get put]
      end.
    (** StartCO2CU(x); stage; FinishCO2CU(x): :166-226, :567-573 *)
    Definition applyC2C : list (instr hvec (X B)) := fst (ApplyCO2CU dps hx set_x DISTRIBUTED) ++ FinishCO2CU.
    Definition c2c_stage (cm : comm) (f : nat -> hvec -> hvec) : list (instr hvec (X B)) :=
      match cm with
      | Sync => fst (StartCO2CU dps hx DISTRIBUTED) ++ applyC2C ++ [IVec f]
      | Overlap => fst (StartCO2CU dps hx DISTRIBUTED) ++ [IVec f] ++ applyC2C
      | Thread _ p2 => beside f p2 0 (fst (StartCO2CU dps hx DISTRIBUTED) ++ applyC2C)
      end.
    (** the loop over the local steps, :550-560, with the x_zero flag of the stages *)
    Fixpoint loc_steps (back : bool) (n : nat) (xz : bool) : list (stage * bool) * bool :=
      match n with
      | O => ([], xz)
      | S n => let (l, xz') := loc_steps back n false in ((P2 back, xz) :: (EX_PART, false) :: (P1 back, false) :: l, xz')
      end.
    (** CallStageKernelsImpl, :502-574 *)
    Definition call_stages (cm : comm) (back xz need : bool) : list (instr hvec (X B)) :=
      let (l, xz') := loc_steps back (nsteps - 1) xz in
      d2c_stage cm need (callSM back (P1 back) xz) ++
      map (fun s => IVec (callSM back (fst s) (snd s))) ((EX_PART, xz) :: l) ++
      c2c_stage cm (callSM back (P2 back) xz').
  End Stages.

  (** HasGGlobal: some rank has a G, hybrid_matrix.cpp:355-362 *)
  Definition hasG : bool := existsb (fun r => match snd (MG r) with Some _ => true | None => false end) (seq 0 (nranks dps)).
  (** G x, if this rank has a G *)
  Definition multG (r : nat) (x : vec) (y : vec) (sub : bool) : vec :=
    match snd (MG r) with Some G => if sub then y -v matvec G x else y +v matvec G x | None => y end.
  Definition is_dist (s : pstatus) : bool := match s with DISTRIBUTED => true | CUMULATED => false end.
  (** BaseVector::Distribute (NGSolve): on a cumulated vector the entries of all but the lowest rank are set to zero *)
  Definition distribute (s : pstatus) (r : nat) (u : vec) : vec := if is_dist s then u else map (fun k => if is_master dps r k then ent u k else x0) (seq 0 (length u)).

  (** SmoothImplRES, :291-402; [str]: status of res *)
  Definition SmoothImplRES (cm : comm) (back xz : bool) (str : pstatus) : list (instr hvec (X B)) :=
    let stash := negb xz && hasG in
    (if stash then [IVec (fun r v => set_g v (multG r (hx v) (vzero (length (hx v))) false))] else []) ++
    call_stages WRes cm back xz (is_dist str) ++
    (if hasG then [IVec (fun r v => let u := if stash then hr v +v hg v else hr v in set_r v (multG r (hx v) u true))] else []).
  (** SmoothImplRHS, :405-500; [stb]: status of b *)
  Definition SmoothImplRHS (cm : comm) (back xz : bool) (stb : pstatus) : list (instr hvec (X B)) :=
    if negb xz && hasG then
      IVec (fun r v => let b := distribute stb r (hb v) in set_g (set_b v b) (multG r (hx v) b true)) :: call_stages WGx cm back xz true
    else call_stages WB cm back xz (is_dist stb).
  (** SmoothImpl, :246-289 *)
  Definition SmoothImpl (cm : comm) (back : bool) (stb str : pstatus) (res_updated update_res xz : bool) : list (instr hvec (X B)) :=
    if update_res then
      if negb res_updated then
        if negb xz then SmoothImplRHS cm back xz stb ++ [IVec (fun r v => set_r v (multG r (hx v) (distribute stb r (hb v) -v matvec (fst (MG r)) (hx v)) true))]
        else IVec (fun r v => set_r v (hb v)) :: SmoothImplRES cm back xz stb
      else SmoothImplRES cm back xz str
    else SmoothImplRHS cm back xz stb.
End HybSm.

(** *** Gauss-Seidel kernels *)
Section HybGS.
  Context {B : Blk}.
  Local Notation vec := (list (X B)). Local Notation spmat := (@spmat B). Local Notation M := (M B).
  Variables (dps : list (list (list nat))) (r : nat) (Mr : spmat) (minv : M -> M) (mod_diag : list M) (subset : option (list bool)) (symm_loc : bool).
  (** HybridGSSmoother::Finalize, gssmoother.cpp:625-706 (with ParallelDofs): dofs this rank is master of and does not share / shares, split index *)
  Definition loc_dofs : list bool := map (fun k => is_master dps r k && match dproc dps r k with [] => true | _ => false end && is_free subset k) (seq 0 (length Mr)).
  Definition ex_dofs : list bool := map (fun k => is_master dps r k && match dproc dps r k with [] => false | _ => true end && is_free subset k) (seq 0 (length Mr)).
  Definition split_scan (f : list bool) : nat :=
    let half := num_set f / 2 in
    let fix go (f : list bool) (k cnt : nat) : nat := match f with [] => 0 | b :: f => if b then if cnt =? half then k else go f (S k) (S cnt) else go f (S k) cnt end in go f 0 0.
  Definition split_ind : nat := match subset with None => length Mr / 2 | Some _ => split_scan loc_dofs end.
  Definition jac_loc : GSS3 B := gss3_make minv Mr mod_diag (Some loc_dofs).
  Definition jac_ex : option (GSS4 B) := if num_set ex_dofs =? 0 then None else Some (gss4_make minv Mr mod_diag (Some ex_dofs)).
  (** SmoothStageRHS, :709-776 *)
  Definition gs_krhs (st : stage) (back : bool) (x b : vec) : vec :=
    let N := length Mr in
    if symm_loc then
      match st with
      | LOC_PART_1 => gss3_rhs jac_loc 0 N x b false
      | EX_PART => match jac_ex with None => x | Some J => gss4_rhs J (gss4_rhs J x b false) b true end
      | LOC_PART_2 => gss3_rhs jac_loc 0 N x b true
      end
    else
      match st with
      | EX_PART => match jac_ex with None => x | Some J => gss4_rhs J x b back end
      | LOC_PART_1 => gss3_rhs jac_loc 0 split_ind x b back
      | LOC_PART_2 => gss3_rhs jac_loc split_ind N x b back
      end.
  (** SmoothStageRes, :779-846 *)
  Definition gs_kres (st : stage) (back : bool) (x res : vec) : vec * vec :=
    let N := length Mr in
    if symm_loc then
      match st with
      | LOC_PART_1 => gss3_res jac_loc 0 N x res false
      | EX_PART => match jac_ex with None => (x, res) | Some J => let (x, res) := gss4_res J x res false in gss4_res J x res true end
      | LOC_PART_2 => gss3_res jac_loc 0 N x res true
      end
    else
      match st with
      | EX_PART => match jac_ex with None => (x, res) | Some J => gss4_res J x res back end
      | LOC_PART_1 => gss3_res jac_loc 0 split_ind x res back
      | LOC_PART_2 => gss3_res jac_loc split_ind N x res back
      end.
End HybGS.

(** HybridGSSmoother's constructor passes (_overlap, _in_thread, _nsteps_loc), gssmoother.cpp:604-622, to HybridSmoother(A, numLocSteps, commInThread, overlapComm), hybrid_smoother.cpp:230-250 *)
Definition gs_settings (overlap in_thread : bool) (nsteps_loc : nat) : nat * bool * bool :=   (* numLocSteps, commInThread, overlapComm *)
  (if overlap then 1 else 0, in_thread, negb (nsteps_loc =? 0)).
