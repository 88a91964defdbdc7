(** Model of the iterative solver LinearSolver / AMGAsLinearSolver, /repo/src/base/solve/LinearSolver.{hpp,cpp}.

    Simplifications: exact arithmetic; errors are values of an arbitrary type with the operations the code uses (product,
    comparison); one process (Distribute and SetParallelStatus do nothing); output is dropped; the virtual functions DoIteration
    and ComputeError are parameters, DoIteration may keep state (the work vectors of the AMG) and fail; int overflow of
    1 + max_steps is not modelled.  The members check_error and save_errs are [option bool]: the constructor leaves them
    uninitialised, reading an uninitialised one is [Err Uninit]. *)
From Verif Require Import Base LinAlg AMGModel.
From Coq Require Import ZArith.
Open Scope nat_scope.

Section LS.
  Context {B : Blk}.
  Notation vec := (list (X B)).
  Variables (E : Type) (emul : E -> E -> E) (elt : E -> E -> bool) (ezero em1 : E).
  Variables (W : Type) (A : vec -> vec).
  Variable DoIteration : vec -> vec -> vec -> W -> res (vec * vec * W).
  Variable ComputeError : vec -> E.   (* of the residual; LinearSolver.cpp:108-112 *)

  (** members, LinearSolver.hpp:39-54 *)
  Record solver := mkLS { ls_max : Z; ls_check : option bool; ls_rtol : E; ls_print : bool; ls_save : option bool;
                          ls_converged : bool; ls_needed : Z; ls_errors : list (option E) }.
  (** LinearSolver.cpp:9-18: the other members are not initialised (their value is never read before Solve writes it,
      except for check_error and save_errs) *)
  Definition LinearSolver (max_steps : Z) (rtol : E) (print : bool) : solver := mkLS max_steps None rtol print None false 0 [].
  (** LinearSolver.hpp:21-23 *)
  Definition SetSaveErrors (b : bool) (S : solver) := mkLS (ls_max S) (ls_check S) (ls_rtol S) (ls_print S) (Some b) (ls_converged S) (ls_needed S) (ls_errors S).
  Definition SetMaxIterations (m : Z) (S : solver) := mkLS m (ls_check S) (ls_rtol S) (ls_print S) (ls_save S) (ls_converged S) (ls_needed S) (ls_errors S).
  Definition SetRelTolerance (r : E) (S : solver) := mkLS (ls_max S) (ls_check S) r (ls_print S) (ls_save S) (ls_converged S) (ls_needed S) (ls_errors S).

  Definition init {T} (o : option T) : res T := match o with Some v => Ret v | None => Err Uninit end.
  (** Array<double>::SetSize: the old entries stay, new ones are uninitialised *)
  Definition SetSize {T} (n : Z) (l : list (option T)) : res (list (option T)) :=
    if (n <? 0)%Z then Err OutOfBounds else Ret (firstn (Z.to_nat n) l ++ repeat None (Z.to_nat n - length l)).
  (** the loop, 86-101; fuel = number of steps left.  Result: x, res, current error, number of steps (curr_iter), converged, errors *)
  Fixpoint loop (b : vec) (compute save check : bool) (rtol ie : E) (fuel : nat) (it : nat) (x r : vec) (ce : E) (errs : list (option E)) (w : W)
    : res (vec * vec * nat * bool * list (option E) * W) :=
    match fuel with
    | 0 => Ret (x, r, it, false, errs, w)
    | S fuel' =>
        ' (x, r, w) <- DoIteration x b r w ;;
        let ce := if compute then ComputeError r else ce in
        errs <- (if save then wr errs (1 + it) (Some ce) else Ret errs) ;;
        if check && elt ce (emul rtol ie) then Ret (x, r, S it, true, errs, w)
        else loop b compute save check rtol ie fuel' (S it) x r ce errs w
    end.
  (** Solve(x, b, res, initialize, is_x_zero, is_res_updated), 29-105 *)
  Definition Solve (S : solver) (x b r : vec) (initialize is_x_zero is_res_updated : bool) (w : W) : res (vec * vec * solver * W) :=
    check <- init (ls_check S) ;;
    let check_err := check && elt ezero (ls_rtol S) in
    save <- init (ls_save S) ;;
    let compute := ls_print S || check_err || save in
    let x := if initialize then vzero (length x) else x in
    let r := if negb is_res_updated then (if negb is_x_zero then b -v A x else b) else r in
    let ie := if compute then ComputeError r else em1 in
    errs <- (if save then (errs <- SetSize (1 + ls_max S) (ls_errors S) ;; wr errs 0 (Some ie)) else Ret (ls_errors S)) ;;
    ' (x, r, it, conv, errs, w) <- loop b compute save check (ls_rtol S) ie (Z.to_nat (ls_max S)) 0 x r ie errs w ;;
    (* 103 *)
    Ret (x, r, mkLS (ls_max S) (ls_check S) (ls_rtol S) (ls_print S) (ls_save S) conv (if conv : bool then Z.of_nat it + 1 else -1) errs, w).
  (** Solve(x, b, initialize, is_x_zero), 21-26: with the work vector *)
  Definition Solve4 (S : solver) (x b work_res : vec) (initialize is_x_zero : bool) (w : W) : res (vec * vec * solver * W) :=
    Solve S x b work_res initialize is_x_zero false w.
  (** Mult, 121-125; MultTrans, 128-131, calls it *)
  Definition LSMult (S : solver) (b x work_res : vec) (w : W) : res (vec * vec * solver * W) := Solve4 S x b work_res true false w.
  (** MultAdd, 134-140; MultTransAdd, 143-146, calls it *)
  Definition LSMultAdd (S : solver) (s : K B) (b x work_x work_res : vec) (w : W) : res (vec * vec * vec * solver * W) :=
    ' (work_x, work_res, S, w) <- LSMult S b work_x work_res w ;;
    Ret (x +v vsc s work_x, work_x, work_res, S, w).
End LS.
Arguments solver : clear implicits.

(** AMGAsLinearSolver::DoIteration, LinearSolver.cpp:175-179 *)
Definition AMGIteration {B : Blk} (a : AMGMatrix B) (x b r : list (X B)) (w : wspace B) : res (list (X B) * list (X B) * wspace B) :=
  SmoothVFromLevel a 0 x b r true true false w.
