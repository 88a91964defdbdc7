(** Properties C39 and C40: the background communication thread. *)
From Verif Require Import Base ThreadModel ThreadProofs.
From Coq Require Import Lia.

(** *** C39: for all schedules, all numbers of rounds, all choices of notify_one and all spurious wake-ups *)

(** what has run is always an initial part of "job 1 from begin to end, job 2 from begin to end, ..." *)
Theorem C39_jobs_once_and_in_order :
  forall script schedule trace s, polite false script = true -> exec (init script) schedule trace s ->
  exists rest, ran trace ++ rest = full (submitted trace).
Proof.
  intros script cs t s HP H. pose proof (inv_exec _ _ _ _ HP H) as [_ _ _ _ HT _]. unfold t_inv in HT.
  destruct (done s). exists []. rewrite app_nil_r. apply HT. destruct (fn s) as [j|].
  - destruct HT as (js & -> & ->). rewrite full_app. destruct (w s); try (exists [Begin j; End j]; now rewrite app_nil_r).
    + exists [End j]. now rewrite <- app_assoc.
    + exists []. now rewrite app_nil_r.
  - destruct HT as (-> & ->). now exists [].
Qed.
Print Assumptions C39_jobs_once_and_in_order.

(** when WaitForThread returns, every job handed over before has run, from begin to end, exactly once *)
Theorem C39_wait_returns_after_the_job :
  forall script schedule before after s, polite false script = true ->
  exec (init script) schedule (before ++ WaitReturned :: after) s ->
  ran before = full (submitted before).
Proof. intros script cs t1 t2 s HP H. eapply wait_done; eauto. Qed.
Print Assumptions C39_wait_returns_after_the_job.

(** the jobs handed over are those of the script, in its order *)
Fixpoint jobs (cs : list cmd) : list nat := match cs with [] => [] | CStart j :: cs => j :: jobs cs | _ :: cs => jobs cs end.
Definition in_flight (p : mpc) : list nat := match p with MLockS j | MSet j => [j] | _ => [] end.
Theorem C39_submitted_as_called :
  forall script schedule trace s, exec (init script) schedule trace s -> submitted trace ++ in_flight (m s) ++ jobs (todo s) = jobs script.
Proof.
  intros script cs t s H. remember (init script) as s0. induction H; subst; auto. specialize (IHexec eq_refl). rewrite <- IHexec.
  rewrite submitted_app, <- app_assoc. f_equal. clear - H0. destruct s1 as [l r d en f wp mp td].
  destruct ch as [[] c|[]]; cbn in H0; unfold m_next, w_next, notify_one, wake, w_asleep, m_asleep in H0; cbn in H0.
  - destruct mp; try discriminate; repeat match type of H0 with context[match ?x with _ => _ end] => destruct x; try discriminate end; injection H0 as <- <-; reflexivity.
  - destruct wp; try discriminate; try (repeat match type of H0 with context[match ?x with _ => _ end] => destruct x; try discriminate end; injection H0 as <- <-; reflexivity).
    destruct mp; injection H0 as <- <-; reflexivity.
  - destruct mp; try discriminate; injection H0 as <- <-; reflexivity.
  - destruct wp; try discriminate; injection H0 as <- <-; reflexivity.
Qed.
Print Assumptions C39_submitted_as_called.

(** no deadlock: a state in which neither thread can move is one in which all calls have returned and all jobs are done *)
Theorem C39_no_deadlock :
  forall script schedule trace s, polite false script = true -> exec (init script) schedule trace s ->
  (forall t c, next (Go t c) s = None) ->
  todo s = [] /\ m s = MIdle /\ submitted trace = jobs script /\ ran trace = full (jobs script).
Proof.
  intros script cs t s HP H HN. pose proof (inv_exec _ _ _ _ HP H) as I. destruct (stuck _ _ I HN) as (H1 & H2 & _ & H4).
  pose proof (C39_submitted_as_called _ _ _ _ H) as HS. rewrite H1, H2 in HS. cbn in HS. rewrite app_nil_r in HS. rewrite <- HS. auto.
Qed.
Print Assumptions C39_no_deadlock.

(** no livelock: the number of steps is bounded, up to spurious wake-ups *)
Theorem C39_every_schedule_ends :
  forall script schedule trace s, polite false script = true -> exec (init script) schedule trace s ->
  length (filter is_go schedule) <= 40 * length script + 16 + 3 * length (filter (fun c => negb (is_go c)) schedule).
Proof. intros script cs t s HP H. pose proof (exec_bound _ _ _ _ HP H). unfold gos, spurs in *. lia. Qed.
Print Assumptions C39_every_schedule_ends.

(** executing a schedule *)
Fixpoint run (cs : list choice) (s : state) : option (state * list event) :=
  match cs with [] => Some (s, []) | ch :: cs => match next ch s with None => None | Some (s1, e) =>
    match run cs s1 with None => None | Some (s2, t) => Some (s2, e ++ t) end end end.
Lemma exec_cons s ch s1 e cs t s2 : next ch s = Some (s1, e) -> exec s1 cs t s2 -> exec s (ch :: cs) (e ++ t) s2.
Proof.
  intros H0 H. induction H. rewrite app_nil_r. change [ch] with ([] ++ [ch]). change e with ([] ++ e). econstructor; eauto. constructor.
  rewrite app_comm_cons, app_assoc. econstructor; eauto.
Qed.
Lemma run_exec cs : forall s s' t, run cs s = Some (s', t) -> exec s cs t s'.
Proof.
  induction cs as [|ch cs IH]; cbn; intros s s' t H. injection H as <- <-. constructor.
  destruct (next ch s) as [[s1 e]|] eqn:E; [|discriminate]. destruct (run cs s1) as [[s2 t2]|] eqn:E2; [|discriminate].
  injection H as <- <-. eapply exec_cons; eauto.
Qed.
Definition M := Go Main Main. Definition W := Go Worker Main.

(** the promise is needed: a second StartInThread without a wait in between drops the first job *)
Theorem C39_start_without_wait_drops_a_job :
  exists schedule s, exec (init [CStart 1; CStart 2; CWait]) schedule [Submitted 1; Submitted 2; Begin 2; End 2; WaitReturned] s.
Proof. exists ([M;M;M;M] ++ [M;M;M;M] ++ repeat W 7 ++ repeat M 4). eexists. apply run_exec. vm_compute. reflexivity. Qed.
Print Assumptions C39_start_without_wait_drops_a_job.

(** three rounds, the owner has to sleep in the second one, one spurious wake-up *)
Example C39_run : exists schedule s, polite false [CWait; CStart 7; CWait; CStart 8; CWait; CStart 9] = true /\
  exec (init [CWait; CStart 7; CWait; CStart 8; CWait; CStart 9]) schedule
    [WaitReturned; Submitted 7; Begin 7; End 7; WaitReturned; Submitted 8; Begin 8; End 8; WaitReturned; Submitted 9] s.
Proof.
  exists (repeat W 11 ++ repeat M 4 ++ repeat M 4 ++ repeat M 4 ++ [Spurious Main] ++ [M;M;M] ++ repeat W 10 ++ repeat M 3
          ++ repeat M 4 ++ repeat W 6 ++ repeat M 4 ++ repeat M 3). eexists.
  split; [reflexivity|]. apply run_exec. vm_compute. reflexivity.
Qed.

(** *** C40: destruction *)
(** from the moment the destructor reaches t->join(), a worker in one of these situations never ends by itself *)
Definition lost (s : state) : Prop :=
  w s = WPark \/ w s = WSleep \/ (ready s = false /\ (w s = WLock \/ w s = WRelock \/ w s = WPred)).
(** lock discipline and destructor progress, for every script *)
Definition d_inv s := lock_ok s /\ match m s with MD3 | MD4 | MGone => ended s = true | _ => ended s = false /\ w s <> WExit end.
Lemma d_inv_next ch s s' e : d_inv s -> next ch s = Some (s', e) -> d_inv s'.
Proof.
  intros (HL & HE) HN. destruct s as [l r d en f wp mp td]. unfold d_inv, lock_ok in *. cbn in *.
  destruct ch as [[] c|[]]; cbn in HN; unfold m_next, w_next, notify_one, wake, w_asleep, m_asleep in HN; cbn in HN.
  - destruct mp; cbn in HN; try discriminate; try (match type of HN with context[match wp with _ => _ end] => destruct wp; cbn in HN; try discriminate end);
    repeat match type of HN with context[match ?x with _ => _ end] => destruct x; try discriminate end;
    injection HN as <- <-; cbn in *; repeat split; try tauto; try congruence; try (destruct HL; discriminate); try (destruct HE; discriminate);
    destruct l as [[]|]; try tauto; destruct HL; try discriminate; auto.
  - assert (EW : forall p, p <> WExit -> match mp with MD3 | MD4 | MGone => en = true | _ => en = false /\ wp <> WExit end ->
       match mp with MD3 | MD4 | MGone => en = true | _ => en = false /\ p <> WExit end) by (intros p Hp; destruct mp; tauto).
    destruct wp; cbn in HN; try discriminate.
    + injection HN as <- <-; cbn. destruct en; cbn; (split; [destruct l as [[]|]; assumption|]); [destruct mp; auto; destruct HE; discriminate|now apply EW].
    + destruct l; try discriminate. injection HN as <- <-; cbn. split; [tauto|now apply EW].
    + injection HN as <- <-; cbn. destruct r; cbn; (split; [destruct l as [[]|]; assumption|now apply EW]).
    + injection HN as <- <-; cbn. split; [destruct l as [[]|]; destruct HL; try discriminate; auto|now apply EW].
    + destruct l; try discriminate. injection HN as <- <-; cbn. split; [tauto|now apply EW].
    + destruct (negb en && negb d); injection HN as <- <-; cbn; (split; [destruct l as [[]|]; assumption|now apply EW]).
    + injection HN as <- <-; cbn. split; [destruct l as [[]|]; assumption|now apply EW].
    + destruct l as [[]|]; try (destruct HL; discriminate). destruct HL as (_ & HL).
      destruct mp; cbn in HN, HL; try discriminate; injection HN as <- <-; cbn; (split; [split; reflexivity|]); try (split; [apply HE|discriminate]); exact HE.
    + injection HN as <- <-; cbn. split; [destruct l as [[]|]; destruct HL; try discriminate; auto|now apply EW].
  - destruct mp; try discriminate. injection HN as <- <-. cbn in *. destruct l as [[]|]; tauto.
  - destruct wp; try discriminate. injection HN as <- <-. cbn in *. destruct l as [[]|]; repeat split; try tauto; destruct mp; try tauto; split; try tauto; discriminate.
Qed.
Lemma d_inv_exec script cs t s : exec (init script) cs t s -> d_inv s.
Proof.
  intros H. remember (init script) as s0. induction H; subst; [|eapply d_inv_next; eauto]. split; cbn; auto. split; auto. discriminate.
Qed.
Definition d_rank s := (match m s with MD4 => 1 | _ => 0 end) + match w s with WExit => 0 | WTest => 1 | WUnlock => 2 | WAfter => 3 | WRun => 4 | WCheck => 5 | WPred => 6 | WLock | WRelock => 7 | _ => 0 end.
Lemma d_next t c s s' e : d_inv s -> (m s = MD4 \/ m s = MGone) -> ~ lost s -> next (Go t c) s = Some (s', e) ->
  d_inv s' /\ (m s' = MD4 \/ m s' = MGone) /\ ~ lost s' /\ S (d_rank s') <= d_rank s.
Proof.
  intros HD HM HL HN. split; [eapply d_inv_next; eauto|]. destruct HD as (H1 & H2). destruct s as [l r d en f wp mp td]. unfold lost, d_rank, lock_ok in *. cbn in *.
  destruct t; cbn in HN; unfold m_next, w_next, notify_one, wake, w_asleep, m_asleep in HN; cbn in HN.
  - destruct HM as [->| ->]; cbn in HN; try discriminate. destruct wp; try discriminate. injection HN as <- <-. cbn. intuition (try discriminate; lia).
  - assert (E : en = true) by (destruct HM as [->| ->]; exact H2). subst en. clear H2.
    destruct wp; cbn in HN; try discriminate; try tauto; try (destruct l; try discriminate);
      try (destruct r; [|exfalso; apply HL; tauto]); destruct HM as [->| ->]; cbn in HN; injection HN as <- <-; cbn in *; intuition (try discriminate; lia).
Qed.
(** unless the worker is in one of those situations, join returns, under every schedule (without spurious wake-ups) *)
Theorem C40_join_returns_partial :
  forall script schedule0 trace0 s, exec (init script) schedule0 trace0 s -> m s = MD4 -> ~ lost s ->
  forall schedule trace s', (forall ch, In ch schedule -> is_go ch = true) -> exec s schedule trace s' ->
  length schedule <= 8 /\ ((forall t c, next (Go t c) s' = None) -> m s' = MGone /\ w s' = WExit).
Proof.
  intros script cs0 t0 s H0 HM HL cs t s' HG H. pose proof (d_inv_exec _ _ _ _ H0) as HD.
  assert (G : d_inv s' /\ (m s' = MD4 \/ m s' = MGone) /\ ~ lost s' /\ length cs + d_rank s' <= d_rank s).
  { induction H as [|s cs t s1 ch s2 e H IH HN]. repeat split; auto. apply HD. apply HD.
    destruct IH as (I1 & I2 & I3 & I4); auto. { intros ch' Hc. apply HG, in_or_app; auto. }
    specialize (HG ch ltac:(apply in_or_app; right; now left)). destruct ch as [u c|]; [|discriminate].
    destruct (d_next _ _ _ _ _ I1 I2 I3 HN) as (J1 & J2 & J3 & J4). rewrite app_length. cbn [length]. repeat split; auto; try apply J1. lia. }
  destruct G as (G1 & G2 & G3 & G4). split.
  - unfold d_rank in *. rewrite HM in G4. destruct (w s); lia.
  - intros HN. pose proof (HN Main Main) as N1. pose proof (HN Worker Main) as N2. destruct G1 as (L1 & L2).
    destruct s' as [l r d en f wp mp td]. unfold lost, lock_ok in *; cbn in *. unfold m_next, w_next in *; cbn in *.
    destruct wp; try discriminate; try tauto; try (destruct l as [[]|]; try discriminate; destruct G2 as [->| ->]; destruct L1; discriminate).
    destruct (negb en && negb d); discriminate.
    destruct G2 as [->| ->]; auto. discriminate.
Qed.
Print Assumptions C40_join_returns_partial.
(** in those situations join never returns *)
Theorem C40_lost_means_hang :
  forall script schedule0 trace0 s, exec (init script) schedule0 trace0 s -> m s = MD4 -> lost s ->
  forall schedule trace s', (forall ch, In ch schedule -> is_go ch = true) -> exec s schedule trace s' -> m s' = MD4 /\ trace = [].
Proof.
  intros script cs0 t0 s H0 HM HL cs t s' HG H. clear H0.
  assert (G : (m s' = MD4 /\ lost s' /\ t = []) /\ (ready s = false \/ w s = WPark \/ w s = WSleep)).
  { split; [|unfold lost in HL; tauto]. induction H as [|s cs t s1 ch s2 e H IH HN]; auto.
    destruct IH as (I1 & I2 & ->); auto. { intros ch' Hc. apply HG, in_or_app; auto. }
    specialize (HG ch ltac:(apply in_or_app; right; now left)). destruct ch as [u c|]; [|discriminate]. clear - I1 I2 HN.
    destruct s1 as [l r d en f wp mp td]. unfold lost in *. cbn in *. subst mp. destruct u; unfold m_next, w_next in HN; cbn in HN.
    - destruct wp; try discriminate. exfalso. intuition discriminate.
    - destruct wp; try discriminate; try (destruct l; discriminate); try (exfalso; intuition discriminate);
        try (destruct l; try discriminate); try (destruct r; [exfalso; intuition discriminate|]); cbn in HN; injection HN as <- <-; cbn; auto 10. }
  tauto.
Qed.
Print Assumptions C40_lost_means_hang.
(** and such states are reachable: (1) lost wake-up, although every job was waited for: the worker has found thread_ready == false and
    not yet gone to sleep when the destructor sets its flags and notifies; (2) a job is still running when the destructor starts: the worker
    resets thread_ready after the destructor has set it, and goes back to sleep although it was notified *)
Theorem C40_shutdown_refuted :
  (exists schedule trace s, exec (init [CStart 0; CWait; CDestroy]) schedule trace s /\ m s = MD4 /\ lost s /\ ran trace = full [0]) /\
  (exists schedule trace s, exec (init [CStart 0; CDestroy]) schedule trace s /\ m s = MD4 /\ lost s).
Proof.
  split.
  - exists ([M;M;M;M] ++ repeat W 7 ++ repeat M 4 ++ repeat W 3 ++ repeat M 4). eexists _, _. split; [apply run_exec; vm_compute; reflexivity|]. cbn. unfold lost. cbn. auto.
  - exists ([M;M;M;M] ++ repeat W 4 ++ [M;M] ++ repeat W 7 ++ [M;M]). eexists _, _. split; [apply run_exec; vm_compute; reflexivity|]. cbn. unfold lost. cbn. auto 10.
Qed.
Print Assumptions C40_shutdown_refuted.
(** the hypotheses of C40_join_returns_partial: the worker sleeps when the destructor starts *)
Example C40_ok : exists schedule trace s, exec (init [CStart 0; CWait; CDestroy]) schedule trace s /\ m s = MD4 /\ ~ lost s.
Proof.
  exists ([M;M;M;M] ++ repeat W 11 ++ repeat M 4 ++ repeat M 4). eexists _, _. split; [apply run_exec; vm_compute; reflexivity|]. split; auto.
  unfold lost. cbn. intuition discriminate.
Qed.
(** a job that is pending when the destructor runs may never start *)
Example C40_pending_job_dropped : exists schedule s, exec (init [CStart 5; CDestroy]) schedule [Submitted 5; Joined] s.
Proof. exists ([M;M;M;M] ++ [M;M;M;M] ++ repeat W 1 ++ [M]). eexists. apply run_exec. vm_compute. reflexivity. Qed.
