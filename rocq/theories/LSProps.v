(** Property C71: the iterative solver LinearSolver / AMGAsLinearSolver. *)
From Verif Require Import Base AGroup LinAlg LinTools GSSpec Instances.
From Verif Require Import AMGSpec AMGModel AMGInput AMGProofs AMGProofs2 AMGProofs3 AMGProps LSModel.
From Coq Require Import ZArith Lia QArith Qcanon.
Open Scope nat_scope.

(** ** Specification *)
Section Spec.
  Context {B : Blk}.
  Notation vec := (list (X B)).
  (** the iterates of a stationary iteration x <- cyc b x *)
  Fixpoint iterate (cyc : vec -> vec -> vec) (b : vec) (j : nat) (x : vec) : vec :=
    match j with 0 => x | S j' => cyc b (iterate cyc b j' x) end.
  Context {E : Type} (emul : E -> E -> E) (elt : E -> E -> bool) (A : vec -> vec) (norm : vec -> E) (cyc : vec -> vec -> vec).
  (** error of the j-th iterate; the stopping criterion "norm of the residual below rtol times the initial one" *)
  Definition err_of (b x0 : vec) (j : nat) : E := norm (b -v A (iterate cyc b j x0)).
  Definition stops (rtol : E) (b x0 : vec) (j : nat) : Prop := elt (err_of b x0 j) (emul rtol (err_of b x0 0)) = true.
  (** what a run of at most max steps from x0 has to deliver: k is the number of steps done *)
  Record run_of (rtol : E) (check save : bool) (max : nat) (b x0 : vec) (k : nat) (x r : vec) (converged : bool) (needed : Z) (errors : list (option E)) : Prop := mkRun {
    run_max : k <= max;
    run_first : check = true -> forall j, 1 <= j < k -> ~ stops rtol b x0 j;
    run_conv : converged = true <-> check = true /\ 1 <= k /\ stops rtol b x0 k;
    run_all : converged = false -> k = max;
    run_x : x = iterate cyc b k x0;
    run_r : r = b -v A x;
    (** one more than the steps that were done *)
    run_needed : needed = if converged then (Z.of_nat k + 1)%Z else (-1)%Z;
    run_errs : save = true -> length errors = S max /\ forall j, j <= k -> nth_error errors j = Some (Some (err_of b x0 j)) }.
  (** "one iteration replaces x by cyc b x and keeps the residual up to date"; the state w (work vectors) stays good *)
  Definition iteration_contract {W : Type} (n : nat) (DoIteration : vec -> vec -> vec -> W -> res (vec * vec * W)) (good : W -> Prop) : Prop :=
    forall x b w, length x = n -> length b = n -> good w -> length (cyc b x) = n /\
      exists w', DoIteration x b (b -v A x) w = Ret (cyc b x, b -v A (cyc b x), w') /\ good w'.
End Spec.

Section P.
  Context {B : Blk}.
  Notation vec := (list (X B)).
  Variables (E : Type) (emul : E -> E -> E) (elt : E -> E -> bool) (ezero em1 : E).
  Variables (W : Type) (A : vec -> vec).
  Variable DoIteration : vec -> vec -> vec -> W -> res (vec * vec * W).
  Variable norm : vec -> E.
  Variables (n : nat) (cyc : vec -> vec -> vec) (good : W -> Prop).
  Hypothesis IC : iteration_contract A cyc n DoIteration good.
  Notation iter := (iterate cyc).
  Notation err := (err_of A norm cyc).
  Notation stop := (stops emul elt A norm cyc).

  Lemma iter_len b x0 j w : length x0 = n -> length b = n -> good w -> length (iter b j x0) = n.
  Proof. intros H Hb G. induction j as [|j IH]; auto. cbn [iterate]. apply (IC (iter b j x0) b w); auto. Qed.

  (* the errors array during the run: entries up to [it] are final *)
  Definition errs_ok (b x0 : vec) (it : nat) (errs : list (option E)) : Prop := forall j, j <= it -> nth_error errs j = Some (Some (err b x0 j)).

  Lemma loop_ok b x0 compute save check rtol :
    length x0 = n -> length b = n -> (check = true -> compute = true) -> (save = true -> compute = true) ->
    forall fuel it x r ce errs w ie,
    good w -> x = iter b it x0 -> r = b -v A x ->
    (compute = true -> ie = err b x0 0) ->
    (save = true -> it + fuel < length errs /\ errs_ok b x0 it errs) ->
    (check = true -> forall j, 1 <= j <= it -> ~ stop rtol b x0 j) ->
    exists k conv errs' w', loop E emul elt W DoIteration norm b compute save check rtol ie fuel it x r ce errs w
        = Ret (iter b k x0, b -v A (iter b k x0), k, conv, errs', w') /\ good w' /\
      it <= k <= it + fuel /\ (conv = true -> it < k) /\
      (check = true -> forall j, 1 <= j < k -> ~ stop rtol b x0 j) /\
      (conv = true <-> check = true /\ 1 <= k /\ stop rtol b x0 k) /\
      (conv = false -> k = it + fuel) /\
      length errs' = length errs /\
      (save = true -> errs_ok b x0 k errs').
  Proof.
    intros Hx0 Hb CC SC. induction fuel as [|fuel IH]; intros it x r ce errs w ie G Ex Er Ei Hs Hn.
    - cbn [loop]. exists it, false, errs, w. subst x r. split; auto. split; auto. split; [lia|]. split; [discriminate|].
      split; [intros C j Hj; apply Hn; auto; lia|]. split; [|split; [lia|split; auto; intros H; apply Hs; auto]].
      split; [discriminate|]. intros (C & H1 & H2). exfalso. apply (Hn C it); auto; lia.
    - cbn [loop]. subst x r.
      destruct (IC (iter b it x0) b w) as (Ln & w' & Q & G'); auto. { apply (iter_len b x0 it w); auto. }
      rewrite Q. cbn [bind]. cbv beta zeta. change (cyc b (iter b it x0)) with (iter b (S it) x0).
      assert (Ece : compute = true -> (if compute then norm (b -v A (iter b (S it) x0)) else ce) = err b x0 (S it)) by (intros ->; reflexivity).
      set (ce' := if compute then norm (b -v A (iter b (S it) x0)) else ce) in *.
      assert (Herr : exists errs', (if save then wr errs (1 + it) (Some ce') else Ret errs) = Ret errs' /\ length errs' = length errs /\
                (save = true -> errs_ok b x0 (S it) errs')).
      { destruct save; [|exists errs; split; auto; split; auto; discriminate].
        destruct (Hs eq_refl) as [Hl He]. exists (upd errs (1 + it) (Some ce')). split; [apply wr_ok; lia|]. split; [apply upd_length|].
        intros _ j Hj. destruct (Nat.eq_dec j (1 + it)) as [->|Nj].
        - rewrite nth_error_upd_eq by lia. rewrite Ece by auto. reflexivity.
        - rewrite nth_error_upd_neq by lia. apply He. lia. }
      destruct Herr as (errs' & -> & Le & Ho). cbn [bind].
      destruct (check && elt ce' (emul rtol ie)) eqn:Cv.
      + apply Bool.andb_true_iff in Cv. destruct Cv as [C Cv]. rewrite (Ece (CC C)), (Ei (CC C)) in Cv.
        exists (S it), true, errs', w'. split; auto. split; auto. split; [lia|]. split; [lia|].
        split; [intros _ j Hj; apply Hn; auto; lia|]. split; [split; auto; intros _; split; auto; split; auto; lia|]. split; [discriminate|]. split; auto.
      + destruct (IH (S it) (iter b (S it) x0) (b -v A (iter b (S it) x0)) ce' errs' w' ie) as (k & conv & errs2 & w2 & Q2 & G2 & R1 & R2 & R3 & R4 & R5 & R6 & R7); auto.
        * intros S1. destruct (Hs S1) as [Hl _]. split; [lia|auto].
        * intros C j Hj. destruct (Nat.eq_dec j (S it)) as [->|Nj]; [|apply Hn; auto; lia].
          intros St. unfold stops in St. rewrite C, (Ece (CC C)), (Ei (CC C)), St in Cv. discriminate.
        * exists k, conv, errs2, w2. rewrite Q2. split; auto. split; auto. split; [lia|]. split; [intros H; specialize (R2 H); lia|]. split; auto. split; auto. split; [intros H; specialize (R5 H); lia|].
          split; [congruence|auto].
  Qed.

  Lemma Solve_ok (S : solver E) (c s : bool) (x b r : vec) (initialize is_x_zero is_res_updated : bool) w x0 :
    ls_check E S = Some c -> ls_save E S = Some s -> (0 <= ls_max E S)%Z ->
    (c = true -> elt ezero (ls_rtol E S) = true \/ ls_print E S = true \/ s = true) ->
    x0 = (if initialize then vzero (length x) else x) ->
    length x = n -> length b = n -> good w ->
    (is_res_updated = true -> r = b -v A x0) -> (is_x_zero = true -> A x0 = vzero n) ->
    (forall v : vec, length v = n -> v -v vzero n = v) ->
    exists k w' S', Solve E emul elt ezero em1 W A DoIteration norm S x b r initialize is_x_zero is_res_updated w
        = Ret (iter b k x0, b -v A (iter b k x0), S', w') /\ good w' /\
      run_of emul elt A norm cyc (ls_rtol E S) c s (Z.to_nat (ls_max E S)) b x0 k (iter b k x0) (b -v A (iter b k x0)) (ls_converged E S') (ls_needed E S') (ls_errors E S') /\
      ls_max E S' = ls_max E S /\ ls_check E S' = ls_check E S /\ ls_rtol E S' = ls_rtol E S /\ ls_print E S' = ls_print E S /\ ls_save E S' = ls_save E S.
  Proof.
    intros Hc Hs Hm Hcomp Ex Hx Hb G Hru Hxz V0. unfold Solve. rewrite Hc, Hs. cbn [init bind]. cbv zeta. rewrite <- Ex.
    assert (Hx0 : length x0 = n) by (rewrite Ex; destruct initialize; auto; unfold vzero; rewrite repeat_length; auto).
    assert (Er : (if negb is_res_updated then if negb is_x_zero then b -v A x0 else b else r) = b -v A x0).
    { destruct is_res_updated; cbn [negb]; auto. destruct is_x_zero; cbn [negb]; auto. rewrite (Hxz eq_refl), V0; auto. }
    rewrite Er.
    set (compute := ls_print E S || c && elt ezero (ls_rtol E S) || s).
    assert (CC : c = true -> compute = true).
    { intros C. unfold compute. destruct (Hcomp C) as [H|[H|H]]; rewrite ?C, H; cbn; rewrite ?Bool.orb_true_r; auto. }
    assert (SC : s = true -> compute = true) by (intros H; unfold compute; rewrite H, Bool.orb_true_r; auto).
    set (ie := if compute then norm (b -v A x0) else em1).
    assert (Ei : compute = true -> ie = err b x0 0) by (intros H; unfold ie; rewrite H; reflexivity).
    assert (Herr : exists errs, (if s then errs <- SetSize (1 + ls_max E S) (ls_errors E S) ;; wr errs 0 (Some ie) else Ret (ls_errors E S)) = Ret errs /\
              (s = true -> length errs = Datatypes.S (Z.to_nat (ls_max E S)) /\ errs_ok b x0 0 errs)).
    { destruct s; [|eexists; split; [reflexivity|discriminate]]. unfold SetSize. destruct (Z.ltb_spec (1 + ls_max E S) 0) as [H|H]; [lia|]. cbn [bind].
      set (l := firstn _ _ ++ _). assert (Ll : length l = Datatypes.S (Z.to_nat (ls_max E S))).
      { unfold l. rewrite app_length, firstn_length, repeat_length. lia. }
      exists (upd l 0 (Some ie)). split; [apply wr_ok; lia|]. intros _. rewrite upd_length. split; auto.
      intros j Hj. replace j with 0 by lia. rewrite nth_error_upd_eq by lia. rewrite Ei by (apply SC; auto). reflexivity. }
    destruct Herr as (errs & -> & Ho). cbn [bind].
    destruct (loop_ok b x0 compute s c (ls_rtol E S) Hx0 Hb CC SC (Z.to_nat (ls_max E S)) 0 x0 (b -v A x0) ie errs w ie)
      as (k & conv & errs' & w' & Q & G' & R1 & R2 & R3 & R4 & R5 & R6 & R7); auto.
    { intros H. destruct (Ho H) as [H1 H2]. split; auto. lia. } { intros; lia. }
    rewrite Q. cbn [bind]. exists k, w'. eexists. split; [reflexivity|]. split; auto. cbn [ls_converged ls_needed ls_errors ls_max ls_check ls_rtol ls_print ls_save].
    split; [|auto]. constructor; auto; try lia.
    intros H. destruct (Ho H) as [H1 _]. split; [lia|exact (R7 H)].
  Qed.
End P.

(** ** C71: Solve runs the iteration until the first iterate that meets the stopping criterion, at most max_steps times, and hands back the
    true residual, the convergence flag and the errors of all iterates -- for every iteration that honours the contract, all flags,
    matrices, right hand sides and start values, provided the error check either is off or has an error to look at. *)
Theorem C71_solve :
  forall (B : Blk) (L : BlkLaws B) (E : Type) (emul : E -> E -> E) (elt : E -> E -> bool) (ezero em1 : E) (W : Type) (A : list (X B) -> list (X B))
    (DoIteration : list (X B) -> list (X B) -> list (X B) -> W -> res (list (X B) * list (X B) * W)) (norm : list (X B) -> E) n cyc (good : W -> Prop),
  iteration_contract A cyc n DoIteration good -> A (vzero n) = vzero n ->
  forall (s : solver E) (check save : bool) (x b r : list (X B)) (initialize is_x_zero is_res_updated : bool) w,
  let x0 := if initialize then vzero n else x in
  ls_check E s = Some check -> ls_save E s = Some save -> (0 <= ls_max E s)%Z ->
  (check = true -> elt ezero (ls_rtol E s) = true \/ ls_print E s = true \/ save = true) ->
  length x = n -> length b = n -> good w ->
  (is_res_updated = true -> r = b -v A x0) -> (is_x_zero = true -> x0 = vzero n) ->
  exists k x' r' s' w',
    Solve E emul elt ezero em1 W A DoIteration norm s x b r initialize is_x_zero is_res_updated w = Ret (x', r', s', w') /\ good w' /\
    run_of emul elt A norm cyc (ls_rtol E s) check save (Z.to_nat (ls_max E s)) b x0 k x' r' (ls_converged E s') (ls_needed E s') (ls_errors E s') /\
    ls_max E s' = ls_max E s /\ ls_check E s' = ls_check E s /\ ls_rtol E s' = ls_rtol E s /\ ls_print E s' = ls_print E s /\ ls_save E s' = ls_save E s.
Proof.
  intros B L E emul elt ezero em1 W A DoIteration norm n cyc good IC A0 s c sv x b r i xz ru w x0 Hc Hs Hm Hcomp Hx Hb G Hru Hxz.
  destruct (Solve_ok E emul elt ezero em1 W A DoIteration norm n cyc good IC s c sv x b r i xz ru w x0) as (k & w' & s' & Q & G' & R & T); auto.
  - unfold x0. rewrite Hx. reflexivity.
  - intros H. rewrite (Hxz H). exact A0.
  - intros v Hv. vx L n.
  - exists k, (iterate cyc b k x0), (b -v A (iterate cyc b k x0)), s', w'. auto.
Qed.
Print Assumptions C71_solve.

(** C71: Mult starts from zero and depends neither on the vector it is given for the result nor on the work vector; MultAdd adds s times
    that result to x.  MultTrans and MultTransAdd are the same functions. *)
Theorem C71_mult :
  forall (B : Blk) (L : BlkLaws B) (E : Type) (emul : E -> E -> E) (elt : E -> E -> bool) (ezero em1 : E) (W : Type) (A : list (X B) -> list (X B))
    (DoIteration : list (X B) -> list (X B) -> list (X B) -> W -> res (list (X B) * list (X B) * W)) (norm : list (X B) -> E) n cyc (good : W -> Prop),
  iteration_contract A cyc n DoIteration good ->
  forall (s : solver E) (check save : bool) (b : list (X B)) w0, good w0 ->
  ls_check E s = Some check -> ls_save E s = Some save -> (0 <= ls_max E s)%Z ->
  (check = true -> elt ezero (ls_rtol E s) = true \/ ls_print E s = true \/ save = true) -> length b = n ->
  exists k, k <= Z.to_nat (ls_max E s) /\ let y := iterate cyc b k (vzero n) in
    (forall x work w, length x = n -> good w -> exists work' s' w',
       LSMult E emul elt ezero em1 W A DoIteration norm s b x work w = Ret (y, work', s', w') /\ good w' /\
       run_of emul elt A norm cyc (ls_rtol E s) check save (Z.to_nat (ls_max E s)) b (vzero n) k y work' (ls_converged E s') (ls_needed E s') (ls_errors E s')) /\
    (forall t x work_x work w, length work_x = n -> good w -> exists work' s' w',
       LSMultAdd E emul elt ezero em1 W A DoIteration norm s t b x work_x work w = Ret (x +v vsc t y, y, work', s', w') /\ good w').
Proof.
  intros B L E emul elt ezero em1 W A DoIteration norm n cyc good IC s c sv b w0 G0 Hc Hs Hm Hcomp Hb.
  assert (V0 : forall v : list (X B), length v = n -> v -v vzero n = v) by (intros v Hv; vx L n).
  assert (M : forall x work w, length x = n -> good w -> exists k work' s' w',
       LSMult E emul elt ezero em1 W A DoIteration norm s b x work w = Ret (iterate cyc b k (vzero n), work', s', w') /\ good w' /\
       run_of emul elt A norm cyc (ls_rtol E s) c sv (Z.to_nat (ls_max E s)) b (vzero n) k (iterate cyc b k (vzero n)) work' (ls_converged E s') (ls_needed E s') (ls_errors E s')).
  { intros x work w Hx G. unfold LSMult, Solve4.
    destruct (Solve_ok E emul elt ezero em1 W A DoIteration norm n cyc good IC s c sv x b work true false false w (vzero n)) as (k & w' & s' & Q & G' & R & T); auto; try discriminate.
    exists k, (b -v A (iterate cyc b k (vzero n))), s', w'. auto. }
  (* the number of steps is the same in all runs *)
  assert (U : forall k1 k2 x1 x2 r1 r2 c1 c2 n1 n2 e1 e2,
    run_of emul elt A norm cyc (ls_rtol E s) c sv (Z.to_nat (ls_max E s)) b (vzero n) k1 x1 r1 c1 n1 e1 ->
    run_of emul elt A norm cyc (ls_rtol E s) c sv (Z.to_nat (ls_max E s)) b (vzero n) k2 x2 r2 c2 n2 e2 -> k1 = k2).
  { assert (Q : forall k1 k2 x1 x2 r1 r2 c1 c2 n1 n2 e1 e2,
    run_of emul elt A norm cyc (ls_rtol E s) c sv (Z.to_nat (ls_max E s)) b (vzero n) k1 x1 r1 c1 n1 e1 ->
    run_of emul elt A norm cyc (ls_rtol E s) c sv (Z.to_nat (ls_max E s)) b (vzero n) k2 x2 r2 c2 n2 e2 -> ~ k1 < k2).
    { intros k1 k2 x1 x2 r1 r2 c1 c2 n1 n2 e1 e2 H1 H2 Lt. pose proof (run_max _ _ _ _ _ _ _ _ _ _ _ _ _ _ _ _ _ H2) as M2.
      destruct c1.
      - destruct (proj1 (run_conv _ _ _ _ _ _ _ _ _ _ _ _ _ _ _ _ _ H1) eq_refl) as (C & P & S).
        apply (run_first _ _ _ _ _ _ _ _ _ _ _ _ _ _ _ _ _ H2 C k1); auto.
      - pose proof (run_all _ _ _ _ _ _ _ _ _ _ _ _ _ _ _ _ _ H1 eq_refl). lia. }
    intros k1 k2 x1 x2 r1 r2 c1 c2 n1 n2 e1 e2 H1 H2.
    pose proof (Q _ _ _ _ _ _ _ _ _ _ _ _ H1 H2). pose proof (Q _ _ _ _ _ _ _ _ _ _ _ _ H2 H1). lia. }
  destruct (M (vzero n) [] w0) as (k & work0 & s0 & w0' & _ & _ & R0); auto. { unfold vzero. apply repeat_length. }
  exists k. split; [apply (run_max _ _ _ _ _ _ _ _ _ _ _ _ _ _ _ _ _ R0)|]. cbv zeta. split.
  - intros x work w Hx G. destruct (M x work w Hx G) as (k' & work' & s' & w' & Q & G' & R).
    assert (k' = k) by (eapply U; eassumption). subst k'. exists work', s', w'. auto.
  - intros t x wx work w Hx G. destruct (M wx work w Hx G) as (k' & work' & s' & w' & Q & G' & R).
    assert (k' = k) by (eapply U; eassumption). subst k'. exists work', s', w'. unfold LSMultAdd. rewrite Q. cbn [bind]. auto.
Qed.
Print Assumptions C71_mult.

(** C71 for AMGAsLinearSolver: the iterates are the textbook V-cycles with start value (C28), for every hierarchy and every smoother that honours the contract *)
Theorem C71_amg_iteration :
  forall (B : Blk) (L : BlkLaws B) (a : AMGMatrix B) nc (l : slevel B) (coarse : list (slevel B)),
  amg_ok a nc (l :: coarse) ->
  iteration_contract (sl_A l) (fun b x => vcycle nc (coarse_solve a nc) (l :: coarse) x b) (sl_n l) (AMGIteration a) (ws_ok nc (l :: coarse)).
Proof.
  intros B L a nc l coarse AO x b w Hx Hb G.
  pose proof (ao_lin _ _ _ AO) as HL.
  assert (LA : length (sl_A l x) = sl_n l) by (destruct HL as (LA & _); apply LA; auto).
  split; [apply (vcyc_len a nc (l :: coarse) HL x b); auto|].
  destruct (C28_v_cycle_from_level B L a nc [] l coarse x b (b -v sl_A l x) true true false w AO G) as (x' & r' & w' & Q & Ex & R & G').
  { split; [|split; [|split; [|split]]]; auto; try discriminate. rewrite vsub_length; [auto|congruence]. }
  exists w'. unfold AMGIteration. cbn [length app] in Q. rewrite Q, (R eq_refl), Ex. auto.
Qed.
Print Assumptions C71_amg_iteration.

(** C71: a solver cannot be used the way its interface suggests: the constructor leaves the flags that switch error checking and error
    recording uninitialised and no public function sets the first one, so whatever setters are called, Solve reads an uninitialised flag. *)
Inductive setting (E : Type) := set_save (b : bool) | set_max (m : Z) | set_rtol (r : E).
Definition apply_setting {E} (s : solver E) (c : setting E) : solver E :=
  match c with set_save _ b => SetSaveErrors E b s | set_max _ m => SetMaxIterations E m s | set_rtol _ r => SetRelTolerance E r s end.
Theorem C71_fresh_solver_refuted :
  forall (B : Blk) (E : Type) (emul : E -> E -> E) (elt : E -> E -> bool) (ezero em1 : E) (W : Type) (A : list (X B) -> list (X B))
    (DoIteration : list (X B) -> list (X B) -> list (X B) -> W -> res (list (X B) * list (X B) * W)) (norm : list (X B) -> E)
    max rtol print (settings : list (setting E)) x b r initialize is_x_zero is_res_updated w,
  Solve E emul elt ezero em1 W A DoIteration norm (fold_left apply_setting settings (LinearSolver E max rtol print)) x b r initialize is_x_zero is_res_updated w
    = Err Uninit.
Proof.
  intros B E emul elt ezero em1 W A DoIteration norm max rtol print cs x b r i xz ru w.
  assert (H : forall s : solver E, ls_check E s = None -> ls_check E (fold_left apply_setting cs s) = None).
  { induction cs as [|c cs IH]; intros s Hs; auto. cbn [fold_left]. apply IH. destruct c; exact Hs. }
  unfold Solve. rewrite H by reflexivity. reflexivity.
Qed.
Print Assumptions C71_fresh_solver_refuted.

(** C71: with tolerance 0 ("never stop early"), error checking on and neither printing nor recording, no error is computed: initial and current
    error are both -1, and because of -1 < 0 * -1 the solver stops after one step and reports convergence, whatever the residual is. *)
Theorem C71_no_error_computed :
  forall (B : Blk) (E : Type) (emul : E -> E -> E) (elt : E -> E -> bool) (ezero em1 : E) (W : Type) (A : list (X B) -> list (X B))
    (DoIteration : list (X B) -> list (X B) -> list (X B) -> W -> res (list (X B) * list (X B) * W)) (norm : list (X B) -> E)
    (s : solver E) x b r w x' r' w',
  ls_check E s = Some true -> ls_save E s = Some false -> ls_print E s = false -> elt ezero (ls_rtol E s) = false -> (1 <= ls_max E s)%Z ->
  elt em1 (emul (ls_rtol E s) em1) = true ->
  DoIteration x b r w = Ret (x', r', w') ->
  exists s', Solve E emul elt ezero em1 W A DoIteration norm s x b r false false true w = Ret (x', r', s', w') /\ ls_converged E s' = true /\ ls_needed E s' = 2%Z.
Proof.
  intros B E emul elt ezero em1 W A DoIteration norm s x b r w x' r' w' Hc Hs Hp Hr Hm He HD.
  unfold Solve. rewrite Hc, Hs. cbn [init bind negb]. cbv zeta. rewrite Hp, Hr. cbn [andb orb bind].
  destruct (Z.to_nat (ls_max E s)) as [|m] eqn:Q; [lia|]. cbn [loop]. rewrite HD. cbn [bind]. cbv beta zeta. cbn [bind]. rewrite He. cbn [andb bind].
  eexists. split; [reflexivity|]. auto.
Qed.
Print Assumptions C71_no_error_computed.

(** ** Examples: the 4-2-1 hierarchy of AMGProps, squared norm of the residual, tolerance 1/10000 *)
Definition ls_norm (r : list (X QcBlk)) : Qc := vdot (B:=QcBlk) r r.
Definition ls_lt (a b : Qc) : bool := if Qclt_le_dec a b then true else false.
Definition ls_ex (check save : bool) (max : Z) : solver Qc := mkLS Qc max (Some check) (Q2Qc (1 # 10000)) false (Some save) false 0 [].
Definition ls_sol (s : solver Qc) (init : bool) := Solve Qc Qcmult ls_lt (Q2Qc 0) (Q2Qc (-1)) (wspace QcBlk) (matvec h_A4) (AMGIteration (gs_amg (B:=QcBlk) Qcinv h_qs h_inv 0))
  ls_norm s (map Q2Qc [1; 0; 0; 2]%Q : list Qc) (map Q2Qc [1; 0; 0; 0]%Q) (vzero (B:=QcBlk) 4) init false false h_ws.
Definition ls_obs (r : res (list Qc * list Qc * solver Qc * wspace QcBlk)) :=
  ok_map (fun p => let '(x, r, s, w) := p in (ls_converged Qc s, ls_needed Qc s, length (ls_errors Qc s), match ls_errors Qc s with Some e :: _ => Some (this e) | _ => None end)) r.
(** the hypotheses of C71_solve hold for it ... *)
Example C71_ex_contract : let a := gs_amg (B:=QcBlk) Qcinv h_qs h_inv 0 in exists l coarse,
  map (gs_spec (B:=QcBlk) Qcinv) h_qs = l :: coarse /\ sl_n l = 4 /\ sl_A l = matvec h_A4 /\
  iteration_contract (sl_A l) (fun b x => vcycle 1 (coarse_solve a 1) (l :: coarse) x b) 4 (AMGIteration a) (ws_ok 1 (l :: coarse)) /\ ws_ok 1 (l :: coarse) h_ws.
Proof.
  intros a. destruct (C26_ex_all 0) as (AO & _). fold a in AO. pose proof C28_ex_ws as WS. remember (map (gs_spec (B:=QcBlk) Qcinv) h_qs) as ls eqn:E.
  unfold h_qs in E. cbn [map] in E. rewrite E in *. eexists. eexists. split; [reflexivity|]. split; [reflexivity|]. split; [reflexivity|]. split; [|exact WS].
  exact (C71_amg_iteration QcBlk QcLaws a 1 _ _ AO).
Qed.
(** ... it stops by itself after two steps of at most ten and reports three; the errors array has eleven entries *)
Example C71_ex_run : ls_obs (ls_sol (ls_ex true true 10) false) = Ret (true, 3%Z, 11, Some 22%Q).
Proof. vm_compute. reflexivity. Qed.
Example C71_ex_off : ls_obs (ls_sol (ls_ex false false 2) true) = Ret (false, (-1)%Z, 0, None).
Proof. vm_compute. reflexivity. Qed.
(** with tolerance 0 it reports convergence after one step *)
Example C71_ex_zero_tolerance : ls_lt (Q2Qc 0) (Q2Qc 0) = false /\ ls_lt (Q2Qc (-1)) (Qcmult (Q2Qc 0) (Q2Qc (-1))) = true /\
  ls_obs (ls_sol (mkLS Qc 10 (Some true) (Q2Qc 0) false (Some false) false 0 []) false) = Ret (true, 2%Z, 0, None).
Proof. split; [|split]; vm_compute; reflexivity. Qed.
