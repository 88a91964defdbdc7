(** Invariants and termination measure of the background thread model. *)
From Verif Require Import Base ThreadModel.
From Coq Require Import Lia.

(** the jobs handed over in a trace *)
Fixpoint submitted (t : list event) : list nat := match t with [] => [] | Submitted j :: t => j :: submitted t | _ :: t => submitted t end.
(** the job events of a trace *)
Fixpoint ran (t : list event) : list event := match t with [] => [] | (Begin _ | End _) as e :: t => e :: ran t | _ :: t => ran t end.
(** every job of the list run to completion, once, one after the other *)
Definition full (js : list nat) : list event := flat_map (fun j => [Begin j; End j]) js.
(** no destruction, and WaitForThread is called between two StartInThread; [p]: a Start is outstanding *)
Fixpoint polite (p : bool) (cs : list cmd) : bool :=
  match cs with [] => true | CStart _ :: cs => negb p && polite true cs | CWait :: cs => polite false cs | CDestroy :: _ => false end.

Lemma submitted_app a b : submitted (a ++ b) = submitted a ++ submitted b.
Proof. induction a as [|[] a IH]; simpl; auto. now rewrite IH. Qed.
Lemma ran_app a b : ran (a ++ b) = ran a ++ ran b.
Proof. induction a as [|[] a IH]; simpl; auto; now rewrite IH. Qed.
Lemma full_app a b : full (a ++ b) = full a ++ full b.
Proof. apply flat_map_app. Qed.

Definition w_holds p := match p with WPred | WPark | WCheck | WRun | WAfter | WUnlock => true | _ => false end.
Definition m_holds p := match p with MSet _ | MUnlockS | MPredW | MParkW | MUnlockW => true | _ => false end.
Definition lock_ok s := match lock s with
  | None => w_holds (w s) = false /\ m_holds (m s) = false
  | Some Worker => w_holds (w s) = true /\ m_holds (m s) = false
  | Some Main => w_holds (w s) = false /\ m_holds (m s) = true end.
Definition m_running p := match p with MD1 | MD2 | MD3 | MD4 | MGone => false | _ => true end.
(** what the worker's program point implies *)
Definition w_inv s := match w s with WPark | WSleep => ready s = false | WCheck | WRun | WAfter => ready s = true | WExit => False | _ => True end.
(** the trace so far *)
Definition t_inv s t :=
  if done s then ran t = full (submitted t) /\ fn s = None else
  match fn s with
  | None => submitted t = [] /\ ran t = []
  | Some j => exists js, submitted t = js ++ [j] /\
      ran t = full js ++ match w s with WRun => [Begin j] | WAfter => [Begin j; End j] | _ => [] end
  end.
Definition clean s t := done s = true \/ submitted t = [].
Definition m_inv s t := match m s with
  | MIdle => exists p, polite p (todo s) = true /\ (p = false -> clean s t)
  | MLockS _ | MSet _ => polite true (todo s) = true /\ clean s t
  | MUnlockS => polite true (todo s) = true
  | MLockW | MPredW | MRelockW => polite false (todo s) = true
  | MParkW | MSleepW => polite false (todo s) = true /\ done s = false
  | MUnlockW => polite false (todo s) = true /\ done s = true
  | _ => False end.
Record inv s t : Prop := mkInv { i_lock : lock_ok s; i_end : ended s = false; i_rd : ready s = negb (done s); i_w : w_inv s; i_t : t_inv s t; i_m : m_inv s t }.

Lemma inv_init script : polite false script = true -> inv (init script) [].
Proof. intros H. split; cbn; auto. exists false. split; auto. intros _. now right. Qed.

Ltac smash := repeat match goal with
  | H : _ /\ _ |- _ => destruct H
  | H : exists _, _ |- _ => destruct H
  | H : Some _ = Some _ |- _ => injection H as H
  | H : (_, _) = (_, _) |- _ => injection H as H
  end; subst.

Lemma inv_next ch s t s' e : inv s t -> next ch s = Some (s', e) -> inv s' (t ++ e).
Proof.
  intros [HL HE HR HW HT HM] HN. destruct s as [l r d en f wp mp td]. cbn in *. subst r en.
  destruct ch as [[] c|[]]; cbn in HN; unfold m_next, w_next, m_asleep, w_asleep in HN; cbn in HN.
  - (* owner *)
    destruct mp; cbn in HN, HM; try contradiction; try discriminate.
    + destruct HM as (p & HM & HC). destruct td as [|[]]; try discriminate; smash; cbn in HM; rewrite ?app_nil_r.
      * apply Bool.andb_true_iff in HM as (HM1 & HM2). destruct p; try discriminate. specialize (HC eq_refl). split; auto; unfold m_inv; cbn; split; auto.
      * split; auto.
    + destruct l; try discriminate. smash. rewrite app_nil_r. unfold lock_ok in HL; cbn in HL. split; auto; unfold lock_ok; cbn; tauto.
    + destruct HM as (HP & HC). unfold notify_one, wake, w_asleep, m_asleep in HN; cbn in HN.
      unfold lock_ok in HL; cbn in HL. destruct l as [[]|]; try (destruct HL; discriminate). destruct HL as (HL & _).
      assert (ET : ran t = full (submitted t)).
      { unfold t_inv in HT; cbn in HT. destruct HC as [HC|HC]; cbn in HC. subst d. apply HT.
        rewrite HC. cbn. destruct d; [now rewrite HC in HT|]. destruct f; [|tauto]. destruct HT as (js & E & _). rewrite HC in E. now destruct js. }
      destruct wp; try discriminate; cbn in HN; smash; (split; unfold lock_ok, w_inv, m_inv, t_inv in *; cbn in *; auto;
        try discriminate; exists (submitted t); rewrite submitted_app, ran_app; cbn; rewrite !app_nil_r; auto).
    + smash. rewrite app_nil_r. unfold lock_ok in HL; cbn in HL. destruct l as [[]|]; try (destruct HL; discriminate).
      split; unfold lock_ok, m_inv in *; cbn in *; auto; try tauto. exists true. split; auto. discriminate.
    + destruct l; try discriminate. smash. rewrite app_nil_r. split; unfold lock_ok, m_inv in *; cbn in *; auto; tauto.
    + smash. rewrite app_nil_r. destruct d; split; unfold lock_ok, m_inv in *; cbn in *; auto.
    + smash. rewrite app_nil_r. split; unfold lock_ok, m_inv in *; cbn in *; auto; destruct l as [[]|]; try tauto; try (destruct HL; discriminate).
    + destruct l; try discriminate. smash. rewrite app_nil_r. split; unfold lock_ok, m_inv in *; cbn in *; auto; tauto.
    + smash. unfold lock_ok in HL; cbn in HL. destruct l as [[]|]; try (destruct HL; discriminate).
      split; unfold lock_ok, m_inv, w_inv, t_inv, clean in *; cbn in *; auto; try tauto.
      * rewrite submitted_app, ran_app. cbn. rewrite !app_nil_r. auto.
      * exists false. auto.
  - (* worker *)
    destruct wp; cbn in HN; try discriminate.
    + smash. rewrite app_nil_r. split; unfold lock_ok, m_inv, w_inv, t_inv in *; cbn in *; auto.
    + destruct l; try discriminate. smash. rewrite app_nil_r. split; unfold lock_ok, m_inv, w_inv, t_inv in *; cbn in *; auto; tauto.
    + smash. rewrite app_nil_r. destruct d; split; unfold lock_ok, m_inv, w_inv, t_inv in *; cbn in *; auto.
    + smash. rewrite app_nil_r. split; unfold lock_ok, m_inv, w_inv, t_inv in *; cbn in *; auto; destruct l as [[]|]; try tauto; destruct HL; discriminate.
    + destruct l; try discriminate. smash. rewrite app_nil_r. split; unfold lock_ok, m_inv, w_inv, t_inv in *; cbn in *; auto; tauto.
    + unfold w_inv in HW; cbn in HW. destruct d; try discriminate. cbn in HN. smash. split; unfold lock_ok, m_inv, w_inv, t_inv, clean in *; cbn in *; auto.
      * destruct f as [j|].
        -- destruct HT as (js & E1 & E2). exists js. rewrite submitted_app, ran_app, E1, E2. cbn. rewrite !app_nil_r. auto.
        -- now rewrite app_nil_r.
      * destruct f as [j|]; rewrite ?app_nil_r; auto. rewrite submitted_app. cbn. rewrite app_nil_r. auto.
    + unfold w_inv in HW; cbn in HW. destruct d; try discriminate. smash. split; unfold lock_ok, m_inv, w_inv, t_inv, clean in *; cbn in *; auto.
      * destruct f as [j|].
        -- destruct HT as (js & E1 & E2). exists js. rewrite submitted_app, ran_app, E1, E2. cbn. rewrite !app_nil_r. rewrite <- app_assoc. auto.
        -- now rewrite app_nil_r.
      * destruct f as [j|]; rewrite ?app_nil_r; auto. rewrite submitted_app. cbn. rewrite app_nil_r. auto.
    + unfold w_inv in HW; cbn in HW. destruct d; try discriminate. unfold notify_one, wake, w_asleep, m_asleep in HN. cbn in HN.
      assert (ET : ran t = full (submitted t)).
      { unfold t_inv in HT; cbn in HT. destruct f as [j|]; [|destruct HT as (-> & ->); reflexivity].
        destruct HT as (js & -> & ->). rewrite full_app. reflexivity. }
      unfold lock_ok in HL; cbn in HL. destruct l as [[]|]; try (destruct HL; discriminate).
      destruct mp; try contradiction; try (destruct HL; discriminate); smash; rewrite app_nil_r;
        split; unfold lock_ok, m_inv, w_inv, t_inv, clean in *; cbn in *; auto; try tauto.
      destruct HM as (p & H1 & H2). exists p. auto.
    + smash. rewrite app_nil_r. split; unfold lock_ok, m_inv, w_inv, t_inv in *; cbn in *; auto; destruct l as [[]|]; try tauto; destruct HL; discriminate.
  - (* spurious wake-ups *)
    destruct mp; try discriminate. cbn in HN. smash. rewrite app_nil_r. split; unfold lock_ok, m_inv, w_inv, t_inv in *; cbn in *; auto; tauto.
  - destruct wp; try discriminate. cbn in HN. smash. rewrite app_nil_r. split; unfold lock_ok, m_inv, w_inv, t_inv in *; cbn in *; auto; tauto.
Qed.

Lemma inv_exec script cs t s : polite false script = true -> exec (init script) cs t s -> inv s t.
Proof. intros HP H. remember (init script) as s0. induction H; subst; [now apply inv_init|]. eapply inv_next; eauto. Qed.

(** the trace at a returned wait *)
Lemma wait_done script cs t s : polite false script = true -> exec (init script) cs t s ->
  forall t1 t2, t = t1 ++ WaitReturned :: t2 -> ran t1 = full (submitted t1).
Proof.
  intros HP H. remember (init script) as s0. induction H; subst; intros t1 t2 E. now destruct t1.
  specialize (IHexec eq_refl). pose proof (inv_exec script _ _ _ HP H) as I.
  assert (C : e = [] \/ exists a, e = [a]).
  { clear - H0. destruct s1 as [l r d en f wp mp td]. destruct ch as [[] c|[]]; cbn in H0; unfold m_next, w_next in H0; cbn in H0;
      repeat match type of H0 with context[match ?x with _ => _ end] => destruct x; try discriminate end; injection H0 as <- <-; eauto. }
  destruct C as [->|(a & ->)]. { rewrite app_nil_r in E. now apply (IHexec t1 t2). }
  destruct t2 as [|b t2 _] using rev_ind.
  - apply app_inj_tail in E as (<- & ->).
    assert (D : done s1 = true).
    { clear - I H0. destruct I as [_ _ _ _ _ HM]. destruct s1 as [l r d en f wp mp td]. unfold m_inv in HM; cbn in *.
      destruct ch as [[] c|[]]; cbn in H0; unfold m_next, w_next in H0; cbn in H0;
      destruct mp; destruct wp; cbn in *; repeat match type of H0 with context[match ?x with _ => _ end] => destruct x; try discriminate end; try discriminate; tauto. }
    destruct I as [_ _ _ _ HT _]. unfold t_inv in HT. rewrite D in HT. apply HT.
  - rewrite app_comm_cons, app_assoc in E. apply app_inj_tail in E as (E & _). now apply (IHexec t1 t2).
Qed.

(** *** termination measure *)
Definition w_rank s := if ready s then match w s with WAfter => 11 | WRun => 12 | WCheck => 13 | WPred => 14 | WLock | WRelock => 15 | WTest => 16 | WUnlock => 17 | _ => 0 end
  else match w s with WSleep => 0 | WPark => 1 | WPred => 2 | WLock | WRelock => 3 | WTest => 4 | WUnlock => 5 | _ => 0 end.
Definition m_rank s := match m s with MIdle => 0 | MLockS _ => 31 | MSet _ => 30 | MUnlockS => 1 | MLockW | MRelockW => 3 | MPredW => 2 | MParkW | MUnlockW => 1 | _ => 0 end.
Definition rank s := 40 * length (todo s) + m_rank s + w_rank s.
Lemma rank_go t c s s' e tr : inv s tr -> next (Go t c) s = Some (s', e) -> S (rank s') <= rank s.
Proof.
  intros [HL HE HR HW HT HM] HN. destruct s as [l r d en f wp mp td]. cbn in *. subst r en.
  destruct t; cbn in HN; unfold m_next, w_next, notify_one, wake, m_asleep, w_asleep in HN; cbn in HN; unfold rank, lock_ok, w_inv, m_inv in *; cbn in *.
  - destruct mp; try contradiction; try discriminate; repeat match type of HN with context[match ?x with _ => _ end] => destruct x; try discriminate end;
      injection HN as <- <-; unfold m_rank, w_rank in *; cbn -[Nat.mul] in *; try lia; destruct wp; destruct d; cbn -[Nat.mul] in *; try lia; try tauto; try discriminate; destruct HL; discriminate.
  - destruct wp; try contradiction; try discriminate; destruct d; cbn in *; try discriminate;
      repeat match type of HN with context[match ?x with _ => _ end] => destruct x; try discriminate end;
      injection HN as <- <-; unfold m_rank, w_rank in *; cbn -[Nat.mul] in *; try lia; destruct mp; cbn -[Nat.mul] in *; try lia; try tauto.
Qed.
Lemma rank_sp t s s' e tr : inv s tr -> next (Spurious t) s = Some (s', e) -> rank s' <= 3 + rank s.
Proof.
  intros [HL HE HR HW HT HM] HN. destruct s as [l r d en f wp mp td]. cbn in *. subst r en.
  destruct t; cbn in HN; unfold wake, m_asleep, w_asleep in HN; cbn in HN; [destruct mp|destruct wp]; try discriminate; injection HN as <- <-;
    destruct d; try destruct wp; unfold rank, m_rank, w_rank, w_inv in *; cbn -[Nat.mul] in *; try discriminate; try contradiction; lia.
Qed.
Definition is_go ch := match ch with Go _ _ => true | _ => false end.
Definition gos cs := length (filter is_go cs).
Definition spurs cs := length (filter (fun c => negb (is_go c)) cs).
Lemma exec_bound script cs t s : polite false script = true -> exec (init script) cs t s ->
  gos cs + rank s <= 40 * length script + 16 + 3 * spurs cs.
Proof.
  intros HP H. remember (init script) as s0. induction H; subst. cbn. unfold rank; cbn -[Nat.mul]. lia.
  specialize (IHexec eq_refl). pose proof (inv_exec script _ _ _ HP H) as I. unfold gos, spurs in *. rewrite !filter_app, !app_length.
  destruct ch as [t0 c|t0]; cbn -[Nat.mul next] in *.
  - apply (rank_go _ _ _ _ _ _ I) in H0. lia.
  - apply (rank_sp _ _ _ _ _ I) in H0. lia.
Qed.
(** no deadlock: if no thread can make a step, everything has been done *)
Lemma stuck s t : inv s t -> (forall u c, next (Go u c) s = None) -> todo s = [] /\ m s = MIdle /\ w s = WSleep /\ ran t = full (submitted t).
Proof.
  intros [HL HE HR HW HT HM] HN. pose proof (HN Main Main) as N1. pose proof (HN Worker Main) as N2. clear HN.
  destruct s as [l r d en f wp mp td]. cbn in *. subst r en. unfold m_next, w_next, lock_ok, w_inv, m_inv, t_inv in *; cbn in *.
  destruct wp; try discriminate; try contradiction; destruct l as [[]|]; try discriminate; destruct HL as (HL1 & HL2); try discriminate;
    destruct mp; try contradiction; try discriminate; try (destruct HM; destruct d; discriminate).
  destruct td as [|[]]; try discriminate. destruct d; try discriminate. tauto.
Qed.
