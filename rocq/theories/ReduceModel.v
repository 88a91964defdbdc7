(** Model of ReduceTable, /repo/src/base/distributed/reducetable.hpp:20-573, for all ranks at once.

    [dps] r k = get_dps(k) on rank r, [tabs] r k = row k of table_in on rank r; [lam] r k = the call of lambda for row k on rank r, so that lambda need not be deterministic.
    Messages: each stage sends at most one message (or one pair) per pair of ranks; both sides decide by themselves whether there is one.
    If only one side takes part the program hangs or misinterprets later messages: [Err Thrown].
    Left out: progress of MPI (receives are posted before the blocking sends), timers, the unused displacement arrays. *)
From Verif Require Import Base EQCModel.
Local Open Scope nat_scope.

(** one message: does the receiver wait for it, does the sender send it, contents, the receiver's initial value *)
Definition msg {A} (waits sends : bool) (x old : A) : res A :=
  match waits, sends with true, true => Ret x | false, false => Ret old | _, _ => Err Thrown end.
(** gather of the rows for one master, :125-233: sizes, then the blocks one after another *)
Definition transfer {A} (expected : nat) (blocks : list (list A)) : res (list nat * list A) :=
  ' (tot, nb) <- msg (0 <? expected) (0 <? length blocks) (length (concat blocks), length blocks) (0, 0) ;;
  sizes <- msg (0 <? nb) (0 <? length blocks) (map (@length A) blocks) (repeat 0 nb) ;;
  data <- msg (0 <? tot) (0 <? length (concat blocks)) (concat blocks) [] ;;
  Ret (sizes, data).
(** scatter of the results of one master, :407-530: the sizes are only sent if there is any data *)
Definition transfer_back {A} (expected : nat) (blocks : list (list A)) : res (list nat * list A) :=
  ' (tot, nb) <- msg (0 <? expected) (0 <? length blocks) (length (concat blocks), length blocks) (0, 0) ;;
  sizes <- msg (0 <? tot) (0 <? length (concat blocks)) (map (@length A) blocks) (repeat 0 nb) ;;
  data <- msg (0 <? tot) (0 <? length (concat blocks)) (concat blocks) [] ;;
  Ret (sizes, data).
(** FlatArray(bs, &data[displ]) *)
Definition slice {A} (data : list A) (displ bs : nat) : res (list A) :=
  if displ + bs <=? length data then Ret (firstn bs (skipn displ data)) else Err OutOfBounds.
(** Array::Pos *)
Fixpoint pos_of (p : nat) (l : list nat) : nat := match l with [] => 0 | x :: l => if x =? p then 0 else S (pos_of p l) end.

Section Reduce.
  Context {T TR : Type}.
  Variables (dps : list (list (list nat))) (tabs : list (list (list T))) (lam : nat -> nat -> list (list T) -> list TR).
  Definition np : nat := length tabs.
  Definition nrows (r : nat) : nat := length (nth r tabs []).
  Definition dp (r k : nat) : list nat := nth k (nth r dps []) [].
  Definition trow (r k : nat) : list T := nth k (nth r tabs []) [].

  (** proc-tables, :60-90 *)
  Definition master_of_rows (me p : nat) : list nat :=
    filter (fun k => match dp me k with [] => p =? me | d0 :: _ => if me <? d0 then p =? me else p =? d0 end) (seq 0 (nrows me)).
  Definition slave_of_rows (me p : nat) : list nat :=
    filter (fun k => match dp me k with [] => false | d0 :: _ => (me <? d0) && has p (dp me k) end) (seq 0 (nrows me)).
  (** what [me] receives from the higher ranks, :94-233 *)
  Definition gather (me : nat) : res (list (list nat * list T)) :=
    mapM (fun p => if me <? p then transfer (length (slave_of_rows me p)) (map (trow p) (master_of_rows p me)) else Ret ([], [])) (seq 0 np).
  (** all data of one row, :266-315; [s], [displ]: blocks and entries consumed per rank *)
  Definition pick_row (me : nat) (G : list (list nat * list T)) (k : nat) (st : list nat * list nat) : res (list (list T) * (list nat * list nat)) :=
    let d := dp me k in
    if match d with [] => false | d0 :: _ => d0 <? me end then Ret ([], st) else
    let all_procs := sort_by Nat.ltb (me :: d) in
    u <- wr (repeat [] (S (length d))) (pos_of me all_procs) (trow me k) ;;
    foldM (fun '(u, (s, displ)) p =>
      ' (sizes, data) <- rd G p ;;
      c <- rd s p ;; bs <- rd sizes c ;; s <- wr s p (S c) ;;
      o <- rd displ p ;;
      row <- (if bs =? 0 then Ret [] else slice data o bs) ;;
      u <- wr u (pos_of p all_procs) row ;;
      displ <- wr displ p (o + bs) ;;
      Ret (u, (s, displ))) d (u, st).
  (** all rows and the calls of lambda, :252-340; the rows of other masters stay empty *)
  Definition reduce_rank (me : nat) : res (list (list TR)) :=
    G <- gather me ;;
    ' (out, _) <- foldM (fun '(out, st) k => ' (u, st) <- pick_row me G k st ;; Ret (out ++ [match u with [] => [] | _ => lam me k u end], st)) (seq 0 (nrows me)) ([], (repeat 0 np, repeat 0 np)) ;;
    Ret out.
  (** scatter and the resulting table, :345-572; None: the size is still -1 *)
  Definition finish_rank (red : list (list (list TR))) (me : nat) : res (list (list TR)) :=
    own <- rd red me ;;
    R <- mapM (fun p => if p <? me then transfer_back (length (master_of_rows me p)) (map (fun k => nth k (nth p red []) []) (slave_of_rows p me)) else Ret ([], [])) (seq 0 np) ;;
    out <- foldM (fun out p =>
      ' (sizes, data) <- rd R p ;;
      ' (out, _) <- foldM (fun '(out, displ) k =>
        bs <- rd sizes k ;; i <- rd (master_of_rows me p) k ;;
        row <- (if bs =? 0 then Ret [] else slice data displ bs) ;;
        out <- wr out i (Some row) ;; Ret (out, displ + bs)) (seq 0 (length (master_of_rows me p))) (out, 0) ;; Ret out) (seq 0 me) (repeat None (nrows me)) ;;
    out <- foldM (fun out i => row <- rd own i ;; wr out i (Some row)) (master_of_rows me me) out ;;
    mapM (fun o => match o with Some row => Ret row | None => Err Uninit end) out.
  Definition ReduceTable : res (list (list (list TR))) :=
    red <- mapM reduce_rank (seq 0 np) ;; mapM (finish_rank red) (seq 0 np).
End Reduce.
