(** Proofs about HybSmModel, part 2: the stages of all ranks, for kernels meeting the local contract. *)
From Verif Require Import Base AGroup LinAlg LinTools GSModel EQCModel ReduceModel NetModel DccModel HybSmModel EQCProofs EQCProofs2 ReduceProofs EQCProps ReduceProps NetProofs DccProofs HybMatProofs HybSmProofs.
Local Open Scope nat_scope.
Local Open Scope vec_scope.

Section Hyb.
  Context {B : Blk} (L : BlkLaws B).
  Local Notation X := (X B). Local Notation vec := (list X). Local Notation spmat := (@spmat B). Local Notation hvec := (hvec B).
  Let LX := lawX B L.
  Variables (dps : list (list (list nat))) (key : nat -> nat -> nat).
  Hypothesis RM : rows_match dps dps key.
  Notation np := (nranks dps). Notation nd r := (ndof dps r).
  Variable MG : nat -> spmat * option spmat.
  Notation Mr r := (fst (MG r)).
  Hypothesis WM : forall r, r < np -> wf_mat (nd r) (nd r) (Mr r).
  Hypothesis HM : forall r k l, r < np -> k < nd r -> l < nd r -> is_master dps r k && is_master dps r l = false -> entry (Mr r) k l = m0.
  Variables (kres : stage -> bool -> nat -> vec -> vec -> vec -> bool -> vec * vec) (krhs : stage -> bool -> nat -> vec -> vec -> bool -> vec) (nsteps : nat).
  (** dofs of a stage *)
  Definition sdof (st : stage) (r k : nat) : bool := is_master dps r k && match st with EX_PART => true | _ => match dproc dps r k with [] => true | _ => false end end.
  Variable C : stage -> bool -> nat -> vec -> vec.
  Hypothesis KRES : forall st back r x b res xz, r < np -> length x = nd r -> length b = nd r -> length res = nd r -> kres st back r x b res xz = (x +v C st back r res, res -v matvec (Mr r) (C st back r res)).
  Hypothesis KRHS : forall st back r x b xz, r < np -> length x = nd r -> length b = nd r -> krhs st back r x b xz = x +v C st back r (b -v matvec (Mr r) x).
  Hypothesis KOP : forall st back r, r < np -> stage_op (nd r) (sdof st r) (C st back r).
  Definition okv (r : nat) (v : hvec) : Prop := length (hx v) = nd r /\ length (hb v) = nd r /\ length (hr v) = nd r /\ length (hg v) = nd r.
  Notation ms r := (is_master dps r).
  Lemma mlen r v : r < np -> length (matvec (Mr r) v) = nd r. Proof. intros. now apply mv_len, WM. Qed.
  Lemma C_op st back r : r < np -> stage_op (nd r) (ms r) (C st back r).
  Proof. intros Hr. apply (stage_weak (nd r) (sdof st r)); auto. intros k Hk E. unfold sdof in E. now apply andb_prop in E as (E & _). Qed.
  Lemma clen st back r v : r < np -> length v = nd r -> length (C st back r v) = nd r. Proof. intros Hr. apply (so_len _ _ _ (KOP st back r Hr)). Qed.
  Lemma get_len w r v : okv r v -> length (getw w v) = nd r. Proof. intros (A1 & A2 & A3 & A4). now destruct w. Qed.
  Lemma put_ok w r v u : okv r v -> length u = nd r -> okv r (putw w v u). Proof. intros (A1 & A2 & A3 & A4) H. destruct w; unfold okv; cbn; auto. Qed.
  Lemma getput w (v : hvec) u : getw w (putw w v u) = u. Proof. now destruct w. Qed.
  Lemma putput w (v : hvec) u u' : putw w (putw w v u) u' = putw w v u'. Proof. now destruct w. Qed.
  Notation call w := (callSM kres krhs w).
  (** the residual a stage sees, its correction, and what it does *)
  Definition seen (w : which) (r : nat) (v : hvec) : vec := match w with WRes => hr v | _ => getw w v -v matvec (Mr r) (hx v) end.
  Lemma seen_len w r v : r < np -> okv r v -> length (seen w r v) = nd r.
  Proof. intros Hr H. pose proof (get_len w r v H). pose proof (mlen r (hx v) Hr). destruct w; cbn [seen getw] in *; auto with len. Qed.
  Lemma call_eq w back st xz r v : r < np -> okv r v -> call w back st xz r v =
    let d := C st back r (seen w r v) in match w with WRes => set_r (set_x v (hx v +v d)) (hr v -v matvec (Mr r) d) | _ => set_x v (hx v +v d) end.
  Proof. intros Hr (A1 & A2 & A3 & A4). unfold callSM. destruct w; cbn [seen getw]. now rewrite KRES. now rewrite KRHS. now rewrite KRHS. Qed.
  Lemma call_ok w back st xz r v : r < np -> okv r v -> okv r (call w back st xz r v).
  Proof.
    intros Hr H. pose proof (seen_len w r v Hr H) as LS. pose proof (clen st back r _ Hr LS) as LC. rewrite call_eq by auto. cbv zeta. pose proof (mlen r (C st back r (seen w r v)) Hr). destruct H as (A1 & A2 & A3 & A4). destruct w; unfold okv; cbn [hx hb hr hg set_x set_r]; (split; [|split; [|split]]); auto with len.
  Qed.

  (** a local stage does not notice changes of the rhs on shared dofs, nor of x on ghosts *)
  Lemma T_comm w back st xz r v (T : vec -> vec) (m : nat -> bool) (z : nat -> X) : r < np -> okv r v ->
    (forall u, length u = nd r -> length (T u) = nd r /\ forall k, k < nd r -> ent (T u) k = if m k then xadd (ent u k) (z k) else x0) ->
    (forall k, k < nd r -> sdof st r k = true -> m k = true /\ z k = x0) -> (forall k, k < nd r -> m k = false -> ms r k = false) ->
    putw w (call w back st xz r v) (T (getw w (call w back st xz r v))) = call w back st xz r (putw w v (T (getw w v))).
  Proof.
    intros Hr H HT HS Hm. pose proof (get_len w r v H) as LG. destruct (HT _ LG) as (T1 & T2). pose proof (put_ok w r v _ H T1) as H'. rewrite !call_eq by auto. cbv zeta. pose proof (mlen r (hx v) Hr) as LMx. pose proof (seen_len w r v Hr H) as LS. pose proof (seen_len w r _ Hr H') as LS'.
    assert (E : C st back r (seen w r (putw w v (T (getw w v)))) = C st back r (seen w r v)).
    { apply (so_dep _ _ _ (KOP st back r Hr)); auto. intros k Hk Ek. destruct (HS k Hk Ek) as (Z1 & Z2). destruct w; cbn [seen putw set_r set_b set_g getw hr hx hb hg] in *.
      - rewrite T2, Z1, Z2 by auto. ag LX.
      - rewrite !(ent_vsub L) by congruence. rewrite T2, Z1, Z2 by auto. ag LX.
      - rewrite !(ent_vsub L) by congruence. rewrite T2, Z1, Z2 by auto. ag LX. }
    rewrite E. set (d := C st back r (seen w r v)) in *. assert (LD : length d = nd r) by (apply clen; auto).
    destruct w; cbn [putw getw set_r set_b set_g set_x hr hx hb hg]; try reflexivity.
    unfold set_r, set_x; cbn [hx hb hr hg]. f_equal. pose proof (mlen r d Hr) as LM. cbn [getw] in *. assert (LR : length (hr v -v matvec (Mr r) d) = nd r) by auto with len. destruct (HT _ LR) as (U1 & U2). apply (vec_ext (nd r)); auto with len. intros k Hk. rewrite U2 by auto. rewrite !(ent_vsub L) by congruence. rewrite T2 by auto. destruct (m k) eqn:Em. ag LX.
    rewrite (mv_ghost L (nd r) (Mr r) (ms r) (WM r Hr) (fun k l => HM r k l Hr)) by auto. ag LX.
  Qed.
  Lemma T_comm_x w back st xz r v (T : vec -> vec) : r < np -> okv r v ->
    (forall u, length u = nd r -> length (T u) = nd r) ->
    (exists o : nat -> option X, (forall u k, length u = nd r -> k < nd r -> ent (T u) k = match o k with Some y => y | None => ent u k end) /\ forall k, k < nd r -> ms r k = true -> o k = None) ->
    set_x (call w back st xz r v) (T (hx (call w back st xz r v))) = call w back st xz r (set_x v (T (hx v))).
  Proof.
    intros Hr H HL (o & T2 & HO). assert (A1 : length (hx v) = nd r) by apply H. pose proof (HL _ A1) as T1. assert (H' : okv r (set_x v (T (hx v)))) by (destruct H as (? & ? & ? & ?); unfold okv; cbn; auto). rewrite !call_eq by auto. cbv zeta. pose proof (seen_len w r v Hr H) as LS.
    assert (E : seen w r (set_x v (T (hx v))) = seen w r v).
    { assert (EM : matvec (Mr r) (T (hx v)) = matvec (Mr r) (hx v)). { apply (mv_dep L (nd r) (Mr r) (ms r) (WM r Hr) (fun k l => HM r k l Hr)). intros k Hk EM. rewrite T2 by auto. now rewrite HO. } destruct w; cbn [seen set_x hr hx getw]; auto; cbn [hb hg]; now rewrite EM. }
    rewrite E. set (d := C st back r (seen w r v)) in *. assert (LD : length d = nd r) by (apply clen; auto).
    assert (EX : T (hx v +v d) = T (hx v) +v d).
    { assert (LR : length (hx v +v d) = nd r) by auto with len. apply (vec_ext (nd r)); auto with len. intros k Hk. rewrite T2 by auto. rewrite !(ent_vadd L) by congruence. rewrite T2 by auto. destruct (o k) eqn:Eo; auto.
      assert (EG : ms r k = false). { destruct (ms r k) eqn:EM; auto. rewrite HO in Eo; auto. discriminate. } rewrite (so_sup _ _ _ (C_op st back r Hr) (seen w r v) k LS Hk EG : ent d k = x0). ag LX. }
    destruct w; cbn [putw getw set_r set_b set_g set_x hr hx hb hg]; now rewrite EX.
  Qed.
  Definition loc (st : stage) : Prop := st <> EX_PART.
  Lemma sdof_loc st r k : loc st -> sdof st r k = true -> ms r k = true /\ dproc dps r k = [].
  Proof. intros HL. unfold sdof. rewrite andb_true_iff. intros (A1 & A2). split; auto. destruct st; [|now destruct HL|]; now destruct (dproc dps r k). Qed.
  Notation commutes f := (commutes np okv f).
  Lemma comm_BufferG w back st xz : loc st -> commutes (call w back st xz) (iBufferG dps (getw w) (putw w)).
  Proof.
    intros HL r v b Hr H. pose proof (get_len w r v H) as LG.
    assert (HT : forall u : vec, length u = nd r -> length (fst (BufferG dps r u)) = nd r /\ forall k, k < nd r -> ent (fst (BufferG dps r u)) k = if ms r k then xadd (ent u k) x0 else x0).
    { intros u Hu. pose proof (BufferG_ok dps key RM r u Hr) as Y. destruct (BufferG dps r u) as [a c]. cbn [fst]. destruct Y as (Y1 & _ & Y3). split; [congruence|]. intros k Hk. rewrite Y3 by auto. unfold ghost. destruct (ms r k); cbn [negb]; auto. ag LX. }
    assert (HB : forall u : vec, snd (BufferG dps r u) = map (fun p => map (ent u) (g_ex dps r p)) (seq 0 np)). { intros u. pose proof (BufferG_ok dps key RM r u Hr) as Y. destruct (BufferG dps r u) as [a c]. cbn [snd]. apply Y. }
    assert (PR : forall v0 : hvec, (let '(a, c) := BufferG dps r (getw w v0) in (putw w v0 a, c)) = (putw w v0 (fst (BufferG dps r (getw w v0))), snd (BufferG dps r (getw w v0)))). { intros v0. now destruct (BufferG dps r (getw w v0)). }
    rewrite !PR. cbn [fst snd]. split; [|split].
    - apply put_ok; auto. now apply HT.
    - apply (T_comm w back st xz r v (fun u => fst (BufferG dps r u)) (ms r) (fun _ => x0)); auto. intros k Hk E. apply sdof_loc in E as (E & _); auto.
    - rewrite !HB. apply map_ext. intros p. apply map_ext_in. intros k Hk. apply in_g in Hk as (Hk & EG & _); auto. rewrite call_eq by auto. cbv zeta. destruct w; cbn [getw set_r set_x hr hb hg] in *; auto. pose proof (seen_len WRes r v Hr H) as LS. pose proof (clen st back r _ Hr LS) as LC. pose proof (mlen r (C st back r (seen WRes r v)) Hr) as LM. rewrite (ent_vsub L) by congruence. rewrite (mv_ghost L (nd r) (Mr r) (ms r) (WM r Hr) (fun k l => HM r k l Hr)) by auto. ag LX.
  Qed.
  Lemma comm_ApplyM w back st xz : loc st -> commutes (call w back st xz) (iApplyM dps (getw w) (putw w)).
  Proof.
    intros HL r v b Hr H. cbn [fst snd]. pose proof (get_len w r v H) as LG. split; [|split; auto].
    - apply put_ok; auto. now apply (ApplyM_inc L).
    - apply (T_comm w back st xz r v (fun u => ApplyM dps r u b) (fun _ => true) (inc_at dps r b)); auto.
      + intros u Hu. destruct (ApplyM_inc L dps r b u Hu) as (A1 & A2). split; auto.
      + intros k Hk E. split; auto. apply sdof_loc in E as (_ & E); auto. apply (inc_zero L). rewrite E. cbn. apply andb_false_r.
      + discriminate.
  Qed.
  Lemma comm_BufferM w back st xz : loc st -> commutes (call w back st xz) (iBufferM dps hx).
  Proof.
    intros HL r v b Hr H. cbn [fst snd]. split; auto. split; auto. unfold BufferM. apply map_ext. intros p. apply map_ext_in. intros k Hk. apply in_m in Hk as (Hk & EM & IP). rewrite call_eq by auto. cbv zeta. pose proof (seen_len w r v Hr H) as LS. pose proof (clen st back r _ Hr LS) as LC. assert (A1 : length (hx v) = nd r) by apply H.
    assert (Z : ent (C st back r (seen w r v)) k = x0). { apply (so_sup _ _ _ (KOP st back r Hr)); auto. destruct (sdof st r k) eqn:E; auto. apply sdof_loc in E as (_ & E); auto. rewrite E in IP. destruct IP. }
    destruct w; cbn [set_r set_x hx]; (rewrite (ent_vadd L) by congruence); rewrite Z; ag LX.
  Qed.
  Lemma comm_ApplyG w back st xz : commutes (call w back st xz) (iApplyG dps hx set_x).
  Proof.
    intros r v b Hr H. cbn [fst snd]. assert (A1 : length (hx v) = nd r) by apply H. split; [|split; auto].
    - destruct (ApplyG_over dps r b (hx v) A1) as (Y & _). destruct H as (? & ? & ? & ?). unfold okv; cbn; auto.
    - apply (T_comm_x w back st xz r v (fun u => ApplyG dps r u b)); auto.
      + intros u Hu. now apply ApplyG_over.
      + exists (over_at dps r b). split. intros u k Hu Hk. now apply ApplyG_over. intros k Hk EM. now apply over_master.
  Qed.

  Ltac fa := repeat (apply Forall_cons; [first [assumption | exact I]|]); apply Forall_nil.
  (** *** the exchanges with a stage besides them *)
  Notation ls P s := (lockstep np (dcc_recvs dps) P s).
  Notation oks := (oks np okv).
  Lemma Forall_l {T} (P : T -> Prop) l : (forall x, In x l -> P x) -> Forall P l. Proof. intros. now apply Forall_forall. Qed.
  Lemma d2c_stage_eqs w cm back st xz s : loc st -> oks s ->
    eqs (ls (d2c_stage dps w cm true (call w back st xz)) s) (lock1 np (dcc_recvs dps) (IVec (call w back st xz)) (ls (fst (DIS2CO dps (getw w) (putw w) DISTRIBUTED)) s)).
  Proof.
    intros HL HO. pose proof (comm_BufferG w back st xz HL) as C1. pose proof (comm_ApplyM w back st xz HL) as C2. assert (OK : forall r v, r < np -> okv r v -> okv r (call w back st xz r v)) by (intros; now apply call_ok).
    set (f := call w back st xz) in *.
    assert (Q : Forall (commutes f) (fst (StartDIS2CO dps (getw w) (putw w) DISTRIBUTED))) by fa.
    assert (W : Forall (commutes f) (waitD2C (B:=B))) by fa.
    assert (M : Forall (commutes f) [iApplyM dps (getw w) (putw w)]) by fa.
    assert (E : ls (fst (DIS2CO dps (getw w) (putw w) DISTRIBUTED)) s = ls ((fst (StartDIS2CO dps (getw w) (putw w) DISTRIBUTED) ++ waitD2C) ++ [iApplyM dps (getw w) (putw w)]) s) by reflexivity.
    rewrite E. unfold d2c_stage. cbn [negb]. destruct cm as [| |p1 p2].
    - rewrite app_assoc. apply (after np (dcc_recvs dps) okv f (_ ++ _)); auto. apply Forall_app; auto.
    - rewrite <- app_assoc. apply (after np (dcc_recvs dps) okv f _ (waitD2C ++ [_])); auto. apply Forall_app; auto.
    - unfold lockstep at 1. rewrite fold_left_app. fold (ls (beside f p1 0 (fst (StartDIS2CO dps (getw w) (putw w) DISTRIBUTED) ++ waitD2C)) s).
      assert (QW : Forall (commutes f) (fst (StartDIS2CO dps (getw w) (putw w) DISTRIBUTED) ++ waitD2C)) by (apply Forall_app; auto).
      pose proof (beside_after np (dcc_recvs dps) okv f OK _ p1 s QW HO) as Y. eapply eqs_trans. apply (lockstep_eqs np (dcc_recvs dps) [iApplyM dps (getw w) (putw w)]). exact Y.
      pose proof (oks_lockstep np (dcc_recvs dps) okv f _ s QW HO) as HO2. set (t := ls (fst (StartDIS2CO dps (getw w) (putw w) DISTRIBUTED) ++ waitD2C) s) in *.
      replace (ls ((fst (StartDIS2CO dps (getw w) (putw w) DISTRIBUTED) ++ waitD2C) ++ [iApplyM dps (getw w) (putw w)]) s) with (ls [iApplyM dps (getw w) (putw w)] t) by (unfold t, lockstep; now rewrite fold_left_app).
      exact (after np (dcc_recvs dps) okv f [] [iApplyM dps (getw w) (putw w)] t (Forall_nil _) M HO2).
  Qed.
  Lemma c2c_stage_eqs w cm back st xz s : loc st -> oks s ->
    eqs (ls (c2c_stage dps cm (call w back st xz)) s) (ls (fst (CO2CU dps hx set_x DISTRIBUTED)) (lock1 np (dcc_recvs dps) (IVec (call w back st xz)) s)).
  Proof.
    intros HL HO. pose proof (comm_BufferM w back st xz HL) as C1. pose proof (comm_ApplyG w back st xz) as C2. assert (OK : forall r v, r < np -> okv r v -> okv r (call w back st xz r v)) by (intros; now apply call_ok).
    set (f := call w back st xz) in *.
    assert (Q : Forall (commutes f) (fst (StartCO2CU dps hx DISTRIBUTED))) by fa.
    assert (W : Forall (commutes f) (applyC2C dps)) by fa.
    assert (QW : Forall (commutes f) (fst (StartCO2CU dps hx DISTRIBUTED) ++ applyC2C dps)) by (apply Forall_app; auto).
    change (fst (CO2CU dps hx set_x DISTRIBUTED)) with (fst (StartCO2CU dps hx DISTRIBUTED) ++ applyC2C (B:=B) dps).
    eapply eqs_trans. 2:{ apply eqs_sym. exact (after np (dcc_recvs dps) okv f [] _ s (Forall_nil _) QW HO). }
    unfold c2c_stage. destruct cm as [| |p1 p2].
    - rewrite app_assoc. pose proof (after np (dcc_recvs dps) okv f _ [] s QW (Forall_nil _) HO) as Y. rewrite !app_nil_r in Y. exact Y.
    - exact (after np (dcc_recvs dps) okv f _ _ s Q W HO).
    - exact (beside_after np (dcc_recvs dps) okv f OK _ p2 s QW HO).
  Qed.

  (** *** all stages of one rank *)
  Notation run_st w back r l v := (fold_left (fun v0 s0 => call w back (fst s0) (snd s0) r v0) l v).
  Notation corr back r l := (seq_corr (nd r) (Mr r) (map (fun s : stage * bool => C (fst s) back r) l)).
  Lemma corr_ops back r (l : list (stage * bool)) c : r < np -> In c (map (fun s : stage * bool => C (fst s) back r) l) -> stage_op (nd r) (ms r) c.
  Proof. intros Hr H. apply in_map_iff in H as (s & <- & _). now apply C_op. Qed.
  Lemma corr_len back r l v : r < np -> length v = nd r -> length (corr back r l v) = nd r.
  Proof. intros Hr Hv. apply (seq_corr_len (nd r) (Mr r) (ms r) (WM r Hr)); auto. intros c Hc. now apply (corr_ops back r l). Qed.
  Lemma run_st_ok w back r l v : r < np -> okv r v -> let d := corr back r l (seen w r v) in
    run_st w back r l v = match w with WRes => set_r (set_x v (hx v +v d)) (hr v -v matvec (Mr r) d) | _ => set_x v (hx v +v d) end.
  Proof.
    intros Hr. revert v. induction l as [|s l IH]; intros v H.
    - cbn [fold_left map seq_corr]. cbv zeta. destruct H as (A1 & A2 & A3 & A4). rewrite (vadd_zero L (nd r)) by auto. rewrite (lin_zero L (nd r) (nd r)) by now apply (matvec_lin L), WM. rewrite (vsub_zero L (nd r)) by auto. destruct v, w; reflexivity.
    - cbn [fold_left map seq_corr]. cbv zeta. pose proof (call_ok w back (fst s) (snd s) r v Hr H) as H1. rewrite IH by auto. clear IH. cbv zeta. rewrite call_eq in * by auto. cbv zeta in *. pose proof (seen_len w r v Hr H) as LS. set (d := C (fst s) back r (seen w r v)) in *. assert (LD : length d = nd r) by (apply clen; auto). pose proof (mlen r d Hr) as LM.
      assert (LN : length (seen w r v -v matvec (Mr r) d) = nd r) by auto with len. pose proof (corr_len back r l _ Hr LN) as LE. pose proof (matvec_lin L (nd r) (nd r) (Mr r) (WM r Hr)) as LL.
      assert (E : seen w r (match w with WRes => set_r (set_x v (hx v +v d)) (hr v -v matvec (Mr r) d) | _ => set_x v (hx v +v d) end) = seen w r v -v matvec (Mr r) d).
      { destruct H as (A1 & A2 & A3 & A4). assert (LMx : length (matvec (Mr r) (hx v)) = nd r) by now apply mlen. destruct w; cbn [seen getw set_r set_x hr hx hb hg]; auto; rewrite (lin_add _ _ _ LL) by auto; apply (vsub_vadd L (nd r)); auto. }
      rewrite E. set (e := corr back r l (seen w r v -v matvec (Mr r) d)) in *. pose proof (mlen r e Hr) as LMe. destruct H as (A1 & A2 & A3 & A4).
      destruct w; cbn [set_r set_x hr hx hb hg]; rewrite ?(lin_add _ _ _ LL) by auto; unfold set_r, set_x; cbn [hx hb hr hg]; f_equal; rewrite ?(vadd_assoc L (nd r)) by auto; auto; symmetry; apply (vsub_vadd L (nd r)); auto.
  Qed.
  Lemma run_st_len w back r l v : r < np -> okv r v -> okv r (run_st w back r l v).
  Proof. intros Hr. revert v. induction l as [|s l IH]; intros v H; cbn [fold_left]; auto. apply IH. now apply call_ok. Qed.
  (** the stages as instructions *)
  Lemma ls_stages w back l (s : @lst hvec X) r : r < np -> lv (ls (map (fun p => IVec (call w back (fst p) (snd p))) l) s) r = run_st w back r l (lv s r).
  Proof.
    intros Hr. revert s. induction l as [|p l IH]; intros s; auto. cbn [map lockstep fold_left]. etransitivity; [apply IH|]. cbn [lock1 lv]. now rewrite onr_at.
  Qed.
  Lemma ls_stages_bufs w back l (s : @lst hvec X) : lg (ls (map (fun p => IVec (call w back (fst p) (snd p))) l) s) = lg s /\ lm (ls (map (fun p => IVec (call w back (fst p) (snd p))) l) s) = lm s.
  Proof. revert s. induction l as [|p l IH]; intros s; auto. cbn [map lockstep fold_left]. destruct (IH (lock1 np (dcc_recvs dps) (IVec (call w back (fst p) (snd p))) s)) as (I1 & I2). split; [etransitivity; [exact I1|reflexivity]|etransitivity; [exact I2|reflexivity]]. Qed.
  (** the order of the stages *)
  Definition order (back : bool) (xz : bool) : list (stage * bool) := let (l, xz') := loc_steps back (nsteps - 1) xz in (P1 back, xz) :: ((EX_PART, xz) :: l) ++ [(P2 back, xz')].
  Lemma P1_loc back : loc (P1 back). Proof. destruct back; discriminate. Qed.
  Lemma P2_loc back : loc (P2 back). Proof. destruct back; discriminate. Qed.
  Notation bufs_ok s := (forall r, r < np -> length (lg s r) = np /\ length (lm s r) = np).
  Lemma call_stages_ok w cm back xz need s : bufs_ok s -> oks s -> let t := ls (call_stages dps kres krhs nsteps w cm back xz need) s in
    exists rho : nat -> vec, (if need then concentrated dps key (fun r => getw w (lv s r)) rho else forall r, rho r = getw w (lv s r)) /\
      let v1 r := putw w (lv s r) (rho r) in let d r := corr back r (order back xz) (seen w r (v1 r)) in
      (forall r, r < np -> okv r (v1 r)) /\
      from_masters dps key (fun r => hx (lv s r) +v d r) (fun r => hx (lv t r)) /\
      forall r, r < np -> lv t r = match w with WRes => set_r (set_x (v1 r) (hx (lv t r))) (rho r -v matvec (Mr r) (d r)) | _ => set_x (v1 r) (hx (lv t r)) end.
  Proof.
    intros HB HO. cbv zeta. unfold call_stages, order. destruct (loc_steps back (nsteps - 1) xz) as [l xz']. set (st2 := (EX_PART, xz) :: l). set (f1 := call w back (P1 back) xz). set (f2 := call w back (P2 back) xz').
    (* the state after the first exchange *)
    assert (S1 : exists s1 rho, bufs_ok s1 /\ (if need then concentrated dps key (fun r => getw w (lv s r)) rho else forall r, rho r = getw w (lv s r)) /\ (forall r, r < np -> lv s1 r = putw w (lv s r) (rho r)) /\ (forall r, r < np -> length (rho r) = nd r) /\
      eqs (ls (d2c_stage dps w cm need f1) s) (lock1 np (dcc_recvs dps) (IVec f1) s1)).
    { destruct need.
      - destruct (d2c_lock L dps key RM (getw w) (putw w) (getput w) (putput w) s HB) as (D1 & D2 & D3 & _). { intros r Hr. apply get_len. now apply HO. } set (s1 := lockstep _ _ _ s) in *. exists s1, (fun r => getw w (lv s1 r)). split; auto. split; auto. split; auto. split. { intros r Hr. now apply D2. } apply d2c_stage_eqs; auto. apply P1_loc.
      - exists s, (fun r => getw w (lv s r)). split; auto. split; auto. split. { intros r Hr. destruct (lv s r), w; reflexivity. } split. { intros r Hr. apply get_len. now apply HO. } apply eqs_refl. }
    destruct S1 as (s1 & rho & B1 & R1 & V1 & LR & E1). exists rho. split; auto.
    assert (OK1 : forall r, r < np -> okv r (putw w (lv s r) (rho r))). { intros r Hr. apply put_ok; auto. } split; auto.
    set (Q2 := map (fun s => IVec (call w back (fst s) (snd s))) st2). unfold lockstep. rewrite !fold_left_app. change (fold_left (fun s i => lock1 np (dcc_recvs dps) i s)) with (lockstep (V:=hvec) (A:=X) np (dcc_recvs dps)) in *.
    set (s2 := ls (d2c_stage dps w cm need f1) s) in *. set (s3 := ls Q2 s2). set (t := ls (c2c_stage dps cm f2) s3).
    (* the state before the second exchange *)
    set (u1 := ls Q2 (lock1 np (dcc_recvs dps) (IVec f1) s1)).
    assert (E3 : eqs s3 u1) by now apply lockstep_eqs.
    assert (U1 : forall r, r < np -> lv u1 r = run_st w back r ((P1 back, xz) :: st2) (lv s1 r)). { intros r Hr. unfold u1, Q2. rewrite ls_stages by auto. cbn [lock1 lv]. now rewrite onr_at. }
    assert (O1 : oks u1). { intros r Hr. rewrite U1 by auto. apply run_st_len; auto. rewrite V1 by auto. now apply OK1. }
    assert (E4 : eqs t (ls (fst (CO2CU dps hx set_x DISTRIBUTED)) (lock1 np (dcc_recvs dps) (IVec f2) u1))). { eapply eqs_trans. { apply (lockstep_eqs np (dcc_recvs dps) (c2c_stage dps cm f2)). exact E3. } apply c2c_stage_eqs; auto. apply P2_loc. }
    set (u2 := lock1 np (dcc_recvs dps) (IVec f2) u1) in *.
    assert (U2 : forall r, r < np -> lv u2 r = run_st w back r ((P1 back, xz) :: st2 ++ [(P2 back, xz')]) (lv s1 r)). { intros r Hr. unfold u2. cbn [lock1 lv]. rewrite onr_at, U1 by auto. change ((P1 back, xz) :: st2 ++ [(P2 back, xz')]) with (((P1 back, xz) :: st2) ++ [(P2 back, xz')]). rewrite fold_left_app. reflexivity. }
    assert (B2 : bufs_ok u2). { intros r Hr. unfold u2. cbn [lock1 lg lm]. destruct (ls_stages_bufs w back st2 (lock1 np (dcc_recvs dps) (IVec f1) s1)) as (X1 & X2). unfold u1, Q2. rewrite X1, X2. now apply B1. }
    set (ord := (P1 back, xz) :: st2 ++ [(P2 back, xz')]) in *.
    assert (O2 : oks u2). { intros r Hr. rewrite U2 by auto. apply run_st_len; auto. rewrite V1 by auto. now apply OK1. }
    destruct (c2c_lock dps key RM hx set_x (fun _ _ => eq_refl) u2 B2) as (_ & C1 & C2 & _). { intros r Hr. now apply O2. } set (u3 := lockstep _ _ _ u2) in *.
    assert (X2 : forall r, r < np -> hx (lv u2 r) = hx (lv s r) +v corr back r ord (seen w r (putw w (lv s r) (rho r)))).
    { intros r Hr. rewrite U2, V1 by auto. rewrite run_st_ok by auto. cbv zeta. destruct w; reflexivity. }
    destruct E4 as (E4 & _). split.
    - intros r Hr. rewrite E4. destruct (C1 r Hr) as (F1 & F2). split; auto. intros k m km Hk Hm Hkm EK EM. rewrite (F2 k m km) by auto. now rewrite X2.
    - intros r Hr. rewrite E4. rewrite C2 at 1 by auto. set (xx := hx (lv u3 r)). rewrite U2, V1, run_st_ok by auto. cbv zeta. fold ord. destruct w; reflexivity.
  Qed.
End Hyb.
