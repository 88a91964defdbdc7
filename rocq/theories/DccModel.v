(** Model of the vector exchange, /repo/src/base/linalg/dcc_map.cpp, for all ranks at once.

    [dps] r k = pardofs->GetDistantProcs(k) on rank r (increasing, without r itself); the number of local dofs is the number of rows.
    Vector entries are blocks (block_size scalars are always moved together, :222-241).
    Partners are numbered by rank instead of by position kp in ex_procs: ranks that share nothing have empty lists and no requests.
    Index bounds: dof numbers in the lists come from the loop over the local dofs; the buffers have the size of the lists (:24-36). *)
From Verif Require Import Base AGroup LinAlg EQCModel NetModel.
Local Open Scope nat_scope.

Section Dcc.
  Context {B : Blk}.
  Local Notation X := (X B).
  Variable dps : list (list (list nat)).
  Definition nranks : nat := length dps.
  Definition ndof (r : nat) : nat := length (nth r dps []).
  Definition dproc (r k : nat) : list nat := nth k (nth r dps []) [].

  (** BasicDCCMap::CalcDOFMasters, :488-540: master iff no distant rank is lower *)
  Definition is_master (r k : nat) : bool := match dproc r k with [] => true | d0 :: _ => negb (d0 <? r) end.
  (** ghost dofs by master, and master dofs by rank having a copy *)
  Definition g_ex (r p : nat) : list nat := filter (fun k => negb (is_master r k) && match dproc r k with [] => false | d0 :: _ => p =? d0 end) (seq 0 (ndof r)).
  Definition m_ex (r p : nat) : list nat := filter (fun k => is_master r k && has p (dproc r k)) (seq 0 (ndof r)).
  (** which requests exist, :42-62 *)
  Definition dcc_sends (k : kind) (r q : nat) : bool := match k with D2C => 0 <? length (g_ex r q) | C2C => 0 <? length (m_ex r q) end.
  Definition dcc_recvs (k : kind) (q r : nat) : bool := match k with D2C => 0 <? length (m_ex q r) | C2C => 0 <? length (g_ex q r) end.

  (** BufferG, :259-270 with iterate_buf_vec :206-243: buf = vec, vec = 0 *)
  Definition BufferG (r : nat) (v : list X) : list X * list (list X) :=
    fold_left (fun '(v, bufs) p =>
      let '(v, buf) := fold_left (fun '(v, buf) d => (upd v d x0, buf ++ [ent v d])) (g_ex r p) (v, []) in (v, bufs ++ [buf])) (seq 0 nranks) (v, []).
  (** ApplyM, :273-284: vec += buf *)
  Definition ApplyM (r : nat) (v : list X) (bufs : list (list X)) : list X :=
    fold_left (fun v p => fold_left (fun v q => vinc v (fst q) (snd q)) (combine (m_ex r p) (nth p bufs [])) v) (seq 0 nranks) v.
  (** BufferM, :287-298: buf = vec *)
  Definition BufferM (r : nat) (v : list X) : list (list X) := map (fun p => map (ent v) (m_ex r p)) (seq 0 nranks).
  (** ApplyG, :301-312: vec = buf *)
  Definition ApplyG (r : nat) (v : list X) (bufs : list (list X)) : list X :=
    fold_left (fun v p => fold_left (fun v q => upd v (fst q) (snd q)) (combine (g_ex r p) (nth p bufs [])) v) (seq 0 nranks) v.

  (** *** the calls, as instructions for a rank; the parallel status is the same on all ranks *)
  Inductive pstatus := DISTRIBUTED | CUMULATED.
  Section Calls.
    Context {V : Type} (get : V -> list X) (put : V -> list X -> V).   (* which vector of the rank *)
    Definition iBufferG : instr V X := IG (fun r v _ => let '(w, b) := BufferG r (get v) in (put v w, b)).
    Definition iApplyM : instr V X := IM (fun r v b => (put v (ApplyM r (get v) b), b)).
    Definition iBufferM : instr V X := IM (fun r v _ => (v, BufferM r (get v))).
    Definition iApplyG : instr V X := IG (fun r v b => (put v (ApplyG r (get v) b), b)).
    (** StartDIS2CO :78-104, ApplyDIS2CO :107-120, FinishDIS2CO :123-132 *)
    Definition StartDIS2CO (st : pstatus) : list (instr V X) * pstatus :=
      match st with DISTRIBUTED => ([iBufferG; IStart D2C], DISTRIBUTED) | CUMULATED => ([iBufferG], DISTRIBUTED) end.
    Definition ApplyDIS2CO (st : pstatus) : list (instr V X) * pstatus :=
      match st with DISTRIBUTED => ([IWaitRecv D2C; iApplyM], DISTRIBUTED) | CUMULATED => ([], DISTRIBUTED) end.
    Definition FinishDIS2CO : list (instr V X) := [IWaitSend D2C].
    (** StartCO2CU :135-150, ApplyCO2CU :153-167, FinishCO2CU :170-178 *)
    Definition StartCO2CU (st : pstatus) : list (instr V X) * pstatus :=
      match st with DISTRIBUTED => ([iBufferM; IStart C2C], DISTRIBUTED) | CUMULATED => ([], CUMULATED) end.
    Definition ApplyCO2CU (st : pstatus) : list (instr V X) * pstatus :=
      match st with DISTRIBUTED => ([IWaitRecv C2C; iApplyG], CUMULATED) | CUMULATED => ([], CUMULATED) end.
    Definition FinishCO2CU : list (instr V X) := [IWaitSend C2C].
    (** the three calls one after another *)
    Definition DIS2CO (st : pstatus) : list (instr V X) * pstatus :=
      let (p1, st) := StartDIS2CO st in let (p2, st) := ApplyDIS2CO st in (p1 ++ p2 ++ FinishDIS2CO, st).
    Definition CO2CU (st : pstatus) : list (instr V X) * pstatus :=
      let (p1, st) := StartCO2CU st in let (p2, st) := ApplyCO2CU st in (p1 ++ p2 ++ FinishCO2CU, st).
  End Calls.
End Dcc.
