(** Model of the background communication thread, class BackgroundMPIThread,
    /repo/src/base/smoothers/hybrid_base_smoother.cpp:11-67, as a transition system of two threads.
    One step = one access under the mutex, one lock / unlock, or one part of cv.wait: cv.wait(lk, pred) is
    while(!pred()) wait(lk), where wait(lk) atomically releases the mutex and joins the wait set, and re-acquires the mutex
    after it was woken. notify_one wakes an arbitrary member of the wait set (nothing if it is empty); spurious wake-ups are allowed.
    The job (thread_exec_fun) is opaque, does not use the object itself, and has a begin and an end event.
    Simplifications: memory is sequentially consistent; the destructor's unsynchronised writes are steps of their own
    (in C++ they are data races on top of what is shown here); exceptions thrown by a job are not modelled. *)
From Verif Require Import Base.

(** the two threads *)
Inductive tid := Main | Worker.
(** what the owning thread calls: StartInThread :51-57, WaitForThread :59-63, the destructor :30 *)
Inductive cmd := CStart (j : nat) | CWait | CDestroy.
(** observable events *)
Inductive event := Submitted (j : nat) | Begin (j : nat) | End (j : nat) | WaitReturned | Joined.

(** program points of thread_fpf, :32-48 *)
Inductive wpc :=
| WTest      (* while( !end_thread ) *)
| WLock      (* unique_lock lk(glob_mut) *)
| WPred      (* cv.wait: evaluate thread_ready, mutex held *)
| WPark      (* cv.wait: release and block, atomically *)
| WSleep     (* in the wait set *)
| WRelock    (* woken, re-acquire the mutex *)
| WCheck     (* if (!end_thread && !thread_done) *)
| WRun       (* inside thread_exec_fun() *)
| WAfter     (* thread_exec_fun = noop; thread_done = true; thread_ready = false; cv.notify_one() *)
| WUnlock    (* ~unique_lock *)
| WExit.     (* loop left *)
(** program points of the owner *)
Inductive mpc :=
| MIdle                  (* between calls *)
| MLockS (j : nat)       (* StartInThread: lock_guard *)
| MSet (j : nat)         (* thread_done = false; thread_ready = true; thread_exec_fun = f; cv.notify_one() *)
| MUnlockS               (* ~lock_guard *)
| MLockW                 (* WaitForThread: unique_lock *)
| MPredW | MParkW | MSleepW | MRelockW   (* cv.wait(lk, thread_done) *)
| MUnlockW
| MD1 | MD2 | MD3 | MD4  (* destructor: thread_ready = true | end_thread = true | notify_one | join *)
| MGone.                 (* destroyed *)

(** member variables :14-18 (fn = None is the empty function), mutex, program points, calls still to be made *)
Record state := mkSt { lock : option tid; ready : bool; done : bool; ended : bool; fn : option nat; w : wpc; m : mpc; todo : list cmd }.
(** constructor :21-27: thread_ready = true, thread_done = false, end_thread = false, thread_exec_fun = [](){} *)
Definition init (script : list cmd) : state := mkSt None true false false None WTest MIdle script.

Definition set_lock s l := mkSt l (ready s) (done s) (ended s) (fn s) (w s) (m s) (todo s).
Definition set_w s p := mkSt (lock s) (ready s) (done s) (ended s) (fn s) p (m s) (todo s).
Definition set_m s p := mkSt (lock s) (ready s) (done s) (ended s) (fn s) (w s) p (todo s).
Definition set_flags s r d e f := mkSt (lock s) r d e f (w s) (m s) (todo s).
Definition set_todo s t := mkSt (lock s) (ready s) (done s) (ended s) (fn s) (w s) (m s) t.

Definition w_asleep s := match w s with WSleep => true | _ => false end.
Definition m_asleep s := match m s with MSleepW => true | _ => false end.
(** wake a sleeping thread *)
Definition wake (t : tid) s := match t with Main => if m_asleep s then set_m s MRelockW else s | Worker => if w_asleep s then set_w s WRelock else s end.
(** condition_variable::notify_one; [c] resolves the choice when both threads sleep *)
Definition notify_one (c : tid) s :=
  if w_asleep s then if m_asleep s then wake c s else wake Worker s else wake Main s.

(** one step of the background thread; None = blocked or finished *)
Definition w_next (c : tid) (s : state) : option (state * list event) :=
  match w s with
  | WTest => Some (set_w s (if ended s then WExit else WLock), [])
  | WLock | WRelock => match lock s with None => Some (set_w (set_lock s (Some Worker)) WPred, []) | Some _ => None end
  | WPred => Some (set_w s (if ready s then WCheck else WPark), [])
  | WPark => Some (set_w (set_lock s None) WSleep, [])
  | WSleep => None
  | WCheck => if negb (ended s) && negb (done s) then Some (set_w s WRun, match fn s with Some j => [Begin j] | None => [] end)
              else Some (set_w s WUnlock, [])
  | WRun => Some (set_w s WAfter, match fn s with Some j => [End j] | None => [] end)
  | WAfter => Some (set_w (notify_one c (set_flags s false true (ended s) None)) WUnlock, [])
  | WUnlock => Some (set_w (set_lock s None) WTest, [])
  | WExit => None
  end.
(** one step of the owner *)
Definition m_next (c : tid) (s : state) : option (state * list event) :=
  match m s with
  | MIdle => match todo s with
             | [] => None
             | CStart j :: r => Some (set_m (set_todo s r) (MLockS j), [])
             | CWait :: r => Some (set_m (set_todo s r) MLockW, [])
             | CDestroy :: r => Some (set_m (set_todo s r) MD1, [])
             end
  | MLockS j => match lock s with None => Some (set_m (set_lock s (Some Main)) (MSet j), []) | Some _ => None end
  | MSet j => Some (set_m (notify_one c (set_flags s true false (ended s) (Some j))) MUnlockS, [Submitted j])
  | MUnlockS => Some (set_m (set_lock s None) MIdle, [])
  | MLockW | MRelockW => match lock s with None => Some (set_m (set_lock s (Some Main)) MPredW, []) | Some _ => None end
  | MPredW => Some (set_m s (if done s then MUnlockW else MParkW), [])
  | MParkW => Some (set_m (set_lock s None) MSleepW, [])
  | MSleepW => None
  | MUnlockW => Some (set_m (set_lock s None) MIdle, [WaitReturned])
  | MD1 => Some (set_m (set_flags s true (done s) (ended s) (fn s)) MD2, [])
  | MD2 => Some (set_m (set_flags s (ready s) (done s) true (fn s)) MD3, [])
  | MD3 => Some (set_m (notify_one c s) MD4, [])
  | MD4 => match w s with WExit => Some (set_m s MGone, [Joined]) | _ => None end
  | MGone => None
  end.

(** a scheduler's decision: who makes the next step (and whom a notify_one wakes), or which sleeping thread wakes up spuriously *)
Inductive choice := Go (t c : tid) | Spurious (t : tid).
Definition next (ch : choice) (s : state) : option (state * list event) :=
  match ch with
  | Go Main c => m_next c s
  | Go Worker c => w_next c s
  | Spurious Main => if m_asleep s then Some (wake Main s, []) else None
  | Spurious Worker => if w_asleep s then Some (wake Worker s, []) else None
  end.
(** finite executions under arbitrary schedules *)
Inductive exec : state -> list choice -> list event -> state -> Prop :=
| exec_nil s : exec s [] [] s
| exec_snoc s cs t s1 ch s2 e : exec s cs t s1 -> next ch s1 = Some (s2, e) -> exec s (cs ++ [ch]) (t ++ e) s2.
