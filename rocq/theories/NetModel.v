(** Ranks exchanging messages through persistent MPI requests, for an arbitrary schedule.
    Models how /repo/src/base/linalg/dcc_map.cpp:20-66 sets up its requests and how :84-190 starts and waits for them.

    Every rank has vectors [V] and two families of buffers: one per partner for the dofs it is a ghost of (g_buffer) and one for the dofs it is master of (m_buffer).
    [D2C]: g_send / m_recv, tag +4, :53,59: g_buffer of the ghost to m_buffer of the master.  [C2C]: m_send / g_recv, tag +5, :54,58: the other way round.
    MPI: a started send takes the data out of the buffer at some later time ([LI]: handed over to the library, the request is complete), a started receive writes the buffer at some later time ([LD]);
    messages with the same source, destination and tag do not overtake each other.  Touching a buffer of an active request, or starting requests on buffers in use, is an error ([UB]). *)
From Verif Require Import Base.
Local Open Scope nat_scope.

Inductive kind := D2C | C2C.
Definition keqb (a b : kind) : bool := match a, b with D2C, D2C => true | C2C, C2C => true | _, _ => false end.

Section Net.
  Context {V A : Type}.
  Definition msg := list A.
  (** what a rank executes; by its type an instruction can only touch what it is given *)
  Inductive instr :=
  | IVec (f : nat -> V -> V)                                  (* vectors only *)
  | IG (f : nat -> V -> list msg -> V * list msg)             (* vectors and g_buffer *)
  | IM (f : nat -> V -> list msg -> V * list msg)             (* vectors and m_buffer *)
  | IStart (k : kind)                                         (* NG_MPI_Startall of the sends and of the receives *)
  | IWaitSend (k : kind) | IWaitRecv (k : kind).              (* MyMPI_WaitAll *)

  Variables (np : nat) (sends recvs : kind -> nat -> nat -> bool).   (* sends k r q: r has a send request to q; recvs k q r: q has a receive request from r *)
  Record net := mkNet {
    pc : nat -> list instr; vec : nat -> V; gb : nat -> list msg; mb : nat -> list msg;
    sact : kind -> nat -> nat -> bool; ract : kind -> nat -> nat -> bool;   (* active requests *)
    chan : kind -> nat -> nat -> list msg }.                                (* chan k r q: on the way from r to q *)
  Inductive label := LE (r : nat) | LI (k : kind) (r q : nat) | LD (k : kind) (r q : nat).
  Inductive outcome := Stuck | Go (s : net) | UB.

  Definition set1 {T} (f : nat -> T) (i : nat) (v : T) : nat -> T := fun j => if j =? i then v else f j.
  Definition set3 {T} (f : kind -> nat -> nat -> T) (k : kind) (i j : nat) (v : T) : kind -> nat -> nat -> T :=
    fun k' i' j' => if keqb k' k && (i' =? i) && (j' =? j) then v else f k' i' j'.
  Definition setrow {T} (f : kind -> nat -> nat -> T) (k : kind) (i : nat) (v : nat -> T) : kind -> nat -> nat -> T :=
    fun k' i' j' => if keqb k' k && (i' =? i) && (j' <? np) then v j' else f k' i' j'.
  Definition any (f : nat -> bool) : bool := existsb f (seq 0 np).
  Definition used_g (s : net) (r : nat) : bool := any (sact s D2C r) || any (ract s C2C r).
  Definition used_m (s : net) (r : nat) : bool := any (ract s D2C r) || any (sact s C2C r).

  Definition exec1 (l : label) (s : net) : outcome :=
    match l with
    | LE r =>
      if np <=? r then Stuck else
      match pc s r with
      | [] => Stuck
      | i :: P =>
        let s1 := mkNet (set1 (pc s) r P) (vec s) (gb s) (mb s) (sact s) (ract s) (chan s) in
        match i with
        | IVec f => Go (mkNet (pc s1) (set1 (vec s) r (f r (vec s r))) (gb s) (mb s) (sact s) (ract s) (chan s))
        | IG f => if used_g s r then UB else
            let (v, b) := f r (vec s r) (gb s r) in Go (mkNet (pc s1) (set1 (vec s) r v) (set1 (gb s) r b) (mb s) (sact s) (ract s) (chan s))
        | IM f => if used_m s r then UB else
            let (v, b) := f r (vec s r) (mb s r) in Go (mkNet (pc s1) (set1 (vec s) r v) (gb s) (set1 (mb s) r b) (sact s) (ract s) (chan s))
        | IStart k => if used_g s r || used_m s r then UB else
            Go (mkNet (pc s1) (vec s) (gb s) (mb s) (setrow (sact s) k r (sends k r)) (setrow (ract s) k r (recvs k r)) (chan s))
        | IWaitSend k => if any (sact s k r) then Stuck else Go s1
        | IWaitRecv k => if any (ract s k r) then Stuck else Go s1
        end
      end
    | LI k r q =>
      if (r <? np) && (q <? np) && sact s k r q then
        let m := nth q (match k with D2C => gb s r | C2C => mb s r end) [] in
        Go (mkNet (pc s) (vec s) (gb s) (mb s) (set3 (sact s) k r q false) (ract s) (set3 (chan s) k r q (chan s k r q ++ [m])))
      else Stuck
    | LD k r q =>
      if (r <? np) && (q <? np) && ract s k q r then
        match chan s k r q with
        | [] => Stuck
        | m :: c =>
          Go (mkNet (pc s) (vec s)
               (match k with D2C => gb s | C2C => set1 (gb s) q (upd (gb s q) r m) end)
               (match k with D2C => set1 (mb s) q (upd (mb s q) r m) | C2C => mb s end)
               (sact s) (set3 (ract s) k q r false) (set3 (chan s) k r q c))
        end
      else Stuck
    end.

  (** equality of states (functions are compared pointwise) *)
  Definition seq_net (s t : net) : Prop :=
    (forall r, pc s r = pc t r) /\ (forall r, vec s r = vec t r) /\ (forall r, gb s r = gb t r) /\ (forall r, mb s r = mb t r) /\
    (forall k r q, sact s k r q = sact t k r q) /\ (forall k r q, ract s k r q = ract t k r q) /\ (forall k r q, chan s k r q = chan t k r q).
  Definition step (s t : net) : Prop := exists l u, exec1 l s = Go u /\ seq_net u t.
  (** a run of the whole machine of n steps, for any schedule *)
  Inductive steps : nat -> net -> net -> Prop :=
  | steps_0 s t : seq_net s t -> steps 0 s t
  | steps_S n s t u : step s t -> steps n t u -> steps (S n) s u.
  Definition start (P : list instr) (v : nat -> V) (g m : nat -> list msg) : net :=
    mkNet (fun r => if r <? np then P else []) v g m (fun _ _ _ => false) (fun _ _ _ => false) (fun _ _ _ => []).
  Definition finished (s : net) : Prop := forall r, r < np -> pc s r = [].

  (** *** the same program executed in lockstep, all messages delivered at once *)
  Record lst := mkLst { lv : nat -> V; lg : nat -> list msg; lm : nat -> list msg }.
  Definition inbox (f : nat -> list msg) (wants : nat -> bool) (q : nat) (old : list msg) : list msg :=
    fold_left (fun b r => if wants r then upd b r (nth q (f r) []) else b) (seq 0 np) old.
  Definition onr {T} (f old : nat -> T) : nat -> T := fun r => if r <? np then f r else old r.
  Definition lock1 (i : instr) (s : lst) : lst :=
    match i with
    | IVec f => mkLst (onr (fun r => f r (lv s r)) (lv s)) (lg s) (lm s)
    | IG f => mkLst (onr (fun r => fst (f r (lv s r) (lg s r))) (lv s)) (onr (fun r => snd (f r (lv s r) (lg s r))) (lg s)) (lm s)
    | IM f => mkLst (onr (fun r => fst (f r (lv s r) (lm s r))) (lv s)) (lg s) (onr (fun r => snd (f r (lv s r) (lm s r))) (lm s))
    | IStart D2C => mkLst (lv s) (lg s) (onr (fun q => inbox (lg s) (recvs D2C q) q (lm s q)) (lm s))
    | IStart C2C => mkLst (lv s) (onr (fun q => inbox (lm s) (recvs C2C q) q (lg s q)) (lg s)) (lm s)
    | IWaitSend _ | IWaitRecv _ => s
    end.
  Definition lockstep (P : list instr) (s : lst) : lst := fold_left (fun s i => lock1 i s) P s.

  (** static check of a program: buffers are touched and requests started only after the waits that free them *)
  Record flags := mkFl { fgs : bool; fmr : bool; fms : bool; fgr : bool }.   (* g_send, m_recv, m_send, g_recv possibly active *)
  Fixpoint check (P : list instr) (a : flags) : bool :=
    match P with
    | [] => true
    | i :: P =>
      match i with
      | IVec _ => check P a
      | IG _ => negb (fgs a) && negb (fgr a) && check P a
      | IM _ => negb (fmr a) && negb (fms a) && check P a
      | IStart D2C => negb (fgs a || fmr a || fms a || fgr a) && check P (mkFl true true false false)
      | IStart C2C => negb (fgs a || fmr a || fms a || fgr a) && check P (mkFl false false true true)
      | IWaitSend D2C => check P (mkFl false (fmr a) (fms a) (fgr a))
      | IWaitSend C2C => check P (mkFl (fgs a) (fmr a) false (fgr a))
      | IWaitRecv D2C => check P (mkFl (fgs a) false (fms a) (fgr a))
      | IWaitRecv C2C => check P (mkFl (fgs a) (fmr a) (fms a) false)
      end
    end.
  Definition safe (P : list instr) : bool := check P (mkFl false false false false).
End Net.
Arguments instr : clear implicits. Arguments msg : clear implicits.
