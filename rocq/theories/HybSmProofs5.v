(** Proofs about HybSmModel, part 5: the Gauss-Seidel kernels; adjoints. *)
From Verif Require Import Base AGroup LinAlg LinTools GSModel GSProofs GSProofs2 EQCModel ReduceModel NetModel DccModel HybMatModel HybSmModel SparseSpec SparseProofs3 EQCProofs EQCProofs2 ReduceProofs EQCProps ReduceProps NetProofs DccProofs HybMatProofs HybMatProofs2 HybSmProofs HybSmProofs2 HybSmProofs3 HybSmProofs4.
Local Open Scope nat_scope.
Local Open Scope vec_scope.

Section Kernel.
  Context {B : Blk} (L : BlkLaws B).
  Local Notation X := (X B). Local Notation vec := (list X). Local Notation spmat := (@spmat B). Local Notation M := (M B).
  Let LX := lawX B L.
  Variables (dps : list (list (list nat))) (r n : nat) (Mr : spmat) (minv : M -> M) (mod_diag : list M) (subset : option (list bool)) (symm_loc : bool).
  Hypothesis WM : wf_mat n n Mr.
  Hypothesis SM : sym_mat n Mr.
  Hypothesis HD : length mod_diag = n.
  Notation ld := (loc_dofs dps r Mr subset). Notation ed := (ex_dofs dps r Mr subset). Notation si := (split_ind dps r Mr subset).
  Definition gdiag (k : nat) : M := minv (if length mod_diag =? 0 then entry Mr k k else nth k mod_diag m0).
  (** the dofs a stage goes through *)
  Definition gs_rows (st : stage) (back : bool) : list nat :=
    if symm_loc then
      match st with
      | LOC_PART_1 => sweep (Some ld) n 0 n false
      | EX_PART => sweep (Some ed) n 0 n false ++ sweep (Some ed) n 0 n true
      | LOC_PART_2 => sweep (Some ld) n 0 n true
      end
    else
      match st with
      | EX_PART => sweep (Some ed) n 0 n back
      | LOC_PART_1 => sweep (Some ld) n 0 si back
      | LOC_PART_2 => sweep (Some ld) n si n back
      end.
  Definition gs_C (st : stage) (back : bool) : vec -> vec := gs_op Mr n gdiag (gs_rows st back).
  Lemma LM : length Mr = n. Proof. apply WM. Qed.
  Lemma ld_len : length ld = n. Proof. unfold loc_dofs. rewrite map_length, seq_length. apply WM. Qed.
  Lemma ed_len : length ed = n. Proof. unfold ex_dofs. rewrite map_length, seq_length. apply WM. Qed.
  Lemma scan_le f : forall k cnt h, (fix go (f : list bool) (k cnt : nat) : nat := match f with [] => 0 | b :: f => if b then if cnt =? h then k else go f (S k) (S cnt) else go f (S k) cnt end) f k cnt <= k + length f.
  Proof. induction f as [|b f IH]; intros k cnt h. lia. cbn [length]. destruct b. destruct (cnt =? h). lia. eapply Nat.le_trans. apply IH. lia. eapply Nat.le_trans. apply IH. lia. Qed.
  Lemma si_le : si <= n.
  Proof. pose proof ld_len as E. unfold split_ind. destruct subset. unfold split_scan. eapply Nat.le_trans. apply scan_le. rewrite E. lia. rewrite LM. apply Nat.div_le_upper_bound; lia. Qed.
  Lemma gs_op_dext (d d' : nat -> M) l v : (forall k, In k l -> d k = d' k) -> gs_op Mr n d l v = gs_op Mr n d' l v.
  Proof. revert v. induction l as [|k l IH]; intros v H; auto. cbn [gs_op]. unfold then_op. rewrite (H k) by now left. rewrite IH; auto. intros j Hj. apply H. now right. Qed.
  Lemma gd_eq fds k : k < n -> is_free fds k = true -> g_d (gss3_make minv Mr mod_diag fds) k = gdiag k.
  Proof. intros Hk HF. unfold g_d. rewrite (gss3_d_free minv Mr n) by (auto; apply LM). reflexivity. Qed.
  Lemma sweep_d f first next back v : next <= n -> gs_op Mr n (g_d (gss3_make minv Mr mod_diag (Some f))) (sweep (Some f) n first next back) v = gs_op Mr n gdiag (sweep (Some f) n first next back) v.
  Proof. intros Hn. apply gs_op_dext. intros k Hk. apply gd_eq. now apply (sweep_bound (Some f) n first next back). now apply in_sweep in Hk as (_ & Hk). Qed.
  Lemma rhs3 f first next back x b : length f = n -> next <= n -> length x = n -> length b = n -> gss3_rhs (gss3_make minv Mr mod_diag (Some f)) first next x b back = x +v gs_op Mr n gdiag (sweep (Some f) n first next back) (b -v matvec Mr x).
  Proof. intros Hf Hn Hx Hb. rewrite (gss3_rhs_spec L minv Mr n) by (auto; intros ? [= <-]; auto). now rewrite sweep_d. Qed.
  Lemma res3 f first next back x res : length f = n -> next <= n -> length x = n -> length res = n -> gss3_res (gss3_make minv Mr mod_diag (Some f)) first next x res back =
    (x +v gs_op Mr n gdiag (sweep (Some f) n first next back) res, res -v matvec Mr (gs_op Mr n gdiag (sweep (Some f) n first next back) res)).
  Proof.
    intros Hf Hn Hx Hr. pose proof (matvec_lin L n n Mr WM) as LL. pose proof (lin_len _ _ _ LL x Hx) as LMx. assert (E : residual (matvec Mr) (res +v matvec Mr x) x = res) by (unfold residual; vx L n).
    assert (LB : length (res +v matvec Mr x) = n) by auto with len.
    pose proof (gss3_res_spec L minv Mr n mod_diag (Some f) first next back x (res +v matvec Mr x) WM SM) as Y. cbv zeta in Y. rewrite E in Y. rewrite Y by (auto; intros ? [= <-]; auto). rewrite sweep_d by auto. f_equal.
    set (d := gs_op Mr n gdiag _ res). assert (LD : length d = n) by (apply (gs_op_lin L Mr n gdiag _ WM); auto). pose proof (lin_len _ _ _ LL d LD) as LMd. unfold residual. rewrite (lin_add _ _ _ LL) by auto. vx L n.
  Qed.
  Lemma rows_stage st back k : In k (gs_rows st back) -> k < n /\ sdof dps st r k = true /\ is_free subset k = true.
  Proof.
    pose proof si_le as SI.
    assert (G1 : forall first next bk, next <= n -> In k (sweep (Some ld) n first next bk) -> k < n /\ (is_master dps r k && match dproc dps r k with [] => true | _ => false end && is_free subset k) = true).
    { intros first next bk Hn H. apply in_sweep in H as (H1 & H2). assert (Hk : k < n) by lia. split; auto. unfold is_free at 1 in H2. unfold loc_dofs in H2. rewrite LM in H2. rewrite nth_map_seq in H2 by auto. exact H2. }
    assert (G2 : forall bk, In k (sweep (Some ed) n 0 n bk) -> k < n /\ (is_master dps r k && match dproc dps r k with [] => false | _ => true end && is_free subset k) = true).
    { intros bk H. apply in_sweep in H as (H1 & H2). assert (Hk : k < n) by lia. split; auto. unfold is_free at 1 in H2. unfold ex_dofs in H2. rewrite LM in H2. rewrite nth_map_seq in H2 by auto. exact H2. }
    assert (F1 : forall s, s <> EX_PART -> k < n /\ (is_master dps r k && match dproc dps r k with [] => true | _ => false end && is_free subset k) = true -> k < n /\ sdof dps s r k = true /\ is_free subset k = true).
    { intros s HS (A1 & A2). apply andb_prop in A2 as (A2 & A3). split; auto. split; auto. unfold sdof. destruct s; [exact A2|now destruct HS|exact A2]. }
    assert (F2 : k < n /\ (is_master dps r k && match dproc dps r k with [] => false | _ => true end && is_free subset k) = true -> k < n /\ sdof dps EX_PART r k = true /\ is_free subset k = true).
    { intros (A1 & A2). apply andb_prop in A2 as (A2 & A3). apply andb_prop in A2 as (A2 & _). split; auto. split; auto. unfold sdof. now rewrite A2. }
    unfold gs_rows. destruct symm_loc, st; intros H; try (apply F1; [discriminate|]; eapply G1; [|exact H]; auto); apply F2. apply in_app_or in H as [H|H]; eapply G2; exact H. eapply G2; exact H.
  Qed.
  Lemma gs_C_lin st back : lin n n (gs_C st back). Proof. now apply (gs_op_lin L). Qed.
  Lemma gs_C_op st back : stage_op n (sdof dps st r) (gs_C st back).
  Proof.
    pose proof (gs_C_lin st back) as GL. constructor.
    - intros v Hv. now apply (lin_len _ _ _ GL).
    - intros v w Hv Hw H. assert (E : v = w +v (v -v w)) by vx L n. assert (LS : length (v -v w) = n) by auto with len. rewrite E, (lin_add _ _ _ GL) by auto. replace (gs_C st back (v -v w)) with (@vzero B n). apply (vadd_zero L n); auto. now apply (lin_len _ _ _ GL). symmetry. apply (gs_op_zero L); auto.
      intros k Hk. apply rows_stage in Hk as (K1 & K2 & _). rewrite (ent_vsub L) by congruence. rewrite H by auto. ag LX.
    - intros v k Hv Hk E. apply (gs_op_other L); auto. intros I. apply rows_stage in I as (_ & I & _). congruence.
  Qed.
  Lemma no_ex : num_set ed = 0 -> forall back, sweep (Some ed) n 0 n back = [].
  Proof.
    intros H back. destruct (sweep (Some ed) n 0 n back) as [|k l] eqn:E; auto. assert (I : In k (sweep (Some ed) n 0 n back)) by (rewrite E; now left). apply in_sweep in I as (_ & I). cbn [is_free] in I. rewrite num_set_0 in I by auto. discriminate.
  Qed.
  Lemma ex4 : gss4_diag_ok n mod_diag (Some ed). Proof. now left. Qed.
  Lemma gs_krhs_ok st back x b : length x = n -> length b = n -> gs_krhs dps r Mr minv mod_diag subset symm_loc st back x b = x +v gs_C st back (b -v matvec Mr x).
  Proof.
    intros Hx Hb. pose proof ld_len as L1. pose proof ed_len as L2. pose proof si_le as SI. pose proof (matvec_lin L n n Mr WM) as LL. pose proof (lin_len _ _ _ LL x Hx) as LMx. assert (LS : length (b -v matvec Mr x) = n) by auto with len.
    unfold gs_krhs, gs_C, gs_rows. rewrite LM. unfold jac_loc.
    assert (EX : forall y bk, length y = n -> match jac_ex dps r Mr minv mod_diag subset with None => y | Some J => gss4_rhs J y b bk end = y +v gs_op Mr n gdiag (sweep (Some ed) n 0 n bk) (b -v matvec Mr y)).
    { intros y bk Hy. unfold jac_ex. destruct (Nat.eqb_spec (num_set ed) 0) as [E|E]. { rewrite no_ex by auto. cbn [gs_op]. now rewrite (vadd_zero L n). } rewrite (gss4_rhs_eq minv Mr n mod_diag (Some ed)) by (auto using LM, ex4; intros ? [= <-]; auto). now rewrite rhs3. }
    destruct symm_loc, st; rewrite ?rhs3 by auto; auto.
    set (E1 := sweep (Some ed) n 0 n false). set (E2 := sweep (Some ed) n 0 n true).
    pose proof (EX x false Hx) as X1. fold E1 in X1. pose proof (gs_op_lin L Mr n gdiag E1 WM) as G1. pose proof (gs_op_lin L Mr n gdiag E2 WM) as G2. pose proof (lin_len _ _ _ G1 _ LS) as LC. set (c1 := gs_op Mr n gdiag E1 (b -v matvec Mr x)) in *. assert (LX1 : length (x +v c1) = n) by auto with len. pose proof (EX (x +v c1) true LX1) as X2. fold E2 in X2.
    rewrite (gs_op_app L) by auto. unfold then_op. fold c1. pose proof (lin_len _ _ _ LL c1 LC) as LMc.
    assert (ER : b -v matvec Mr (x +v c1) = b -v matvec Mr x -v matvec Mr c1). { rewrite (lin_add _ _ _ LL) by auto. apply (vsub_vadd L n); auto. }
    rewrite ER in X2. assert (LR1 : length (b -v matvec Mr x -v matvec Mr c1) = n) by auto with len. pose proof (lin_len _ _ _ G2 _ LR1) as LC2. set (c2 := gs_op Mr n gdiag E2 (b -v matvec Mr x -v matvec Mr c1)) in *.
    replace (x +v (c1 +v c2)) with (x +v c1 +v c2) by (clearbody c1 c2; vx L n). rewrite <- X2. destruct (jac_ex dps r Mr minv mod_diag subset) as [J|]. now rewrite X1. exact X1.
  Qed.
  Lemma gs_kres_ok st back x res : length x = n -> length res = n -> gs_kres dps r Mr minv mod_diag subset symm_loc st back x res = (x +v gs_C st back res, res -v matvec Mr (gs_C st back res)).
  Proof.
    intros Hx Hr. pose proof ld_len as L1. pose proof ed_len as L2. pose proof si_le as SI. pose proof (matvec_lin L n n Mr WM) as LL.
    unfold gs_kres, gs_C, gs_rows. rewrite LM. unfold jac_loc.
    assert (EX : forall y s bk, length y = n -> length s = n -> match jac_ex dps r Mr minv mod_diag subset with None => (y, s) | Some J => gss4_res J y s bk end = (y +v gs_op Mr n gdiag (sweep (Some ed) n 0 n bk) s, s -v matvec Mr (gs_op Mr n gdiag (sweep (Some ed) n 0 n bk) s))).
    { intros y s bk Hy Hs. unfold jac_ex. destruct (Nat.eqb_spec (num_set ed) 0) as [E|E]. { rewrite no_ex by auto. cbn [gs_op]. rewrite (lin_zero L n n (matvec Mr) LL). now rewrite (vadd_zero L n), (vsub_zero L n). } rewrite (gss4_res_eq minv Mr n mod_diag (Some ed)) by (auto using LM, ex4; intros ? [= <-]; auto). now rewrite res3. }
    destruct symm_loc, st; rewrite ?res3 by auto; auto.
    set (E1 := sweep (Some ed) n 0 n false). set (E2 := sweep (Some ed) n 0 n true).
    pose proof (EX x res false Hx Hr) as X1. fold E1 in X1. pose proof (gs_op_lin L Mr n gdiag E1 WM) as G1. pose proof (gs_op_lin L Mr n gdiag E2 WM) as G2. pose proof (lin_len _ _ _ G1 _ Hr) as LC. set (c1 := gs_op Mr n gdiag E1 res) in *. pose proof (lin_len _ _ _ LL c1 LC) as LMc. assert (LX1 : length (x +v c1) = n) by auto with len. assert (LR1 : length (res -v matvec Mr c1) = n) by auto with len. pose proof (EX (x +v c1) (res -v matvec Mr c1) true LX1 LR1) as X2. fold E2 in X2.
    rewrite (gs_op_app L) by auto. unfold then_op. fold c1. set (c2 := gs_op Mr n gdiag E2 (res -v matvec Mr c1)) in *. assert (LC2 : length c2 = n) by now apply (lin_len _ _ _ G2). pose proof (lin_len _ _ _ LL c2 LC2) as LMc2.
    rewrite (lin_add _ _ _ LL) by auto. rewrite (vsub_vadd L n) by auto. replace (x +v (c1 +v c2)) with (x +v c1 +v c2) by (clearbody c1 c2; vx L n). rewrite <- X2.
    destruct (jac_ex dps r Mr minv mod_diag subset) as [J|]. rewrite X1. reflexivity. exact X1.
  Qed.
  (** all stages together are one Gauss-Seidel pass over a list of dofs *)
  Definition gs_all (nsteps : nat) (back : bool) : list nat := flat_map (fun st => gs_rows st back) (stages nsteps back).
  Lemma seq_gs l back v : length v = n -> seq_corr n Mr (map (fun st => gs_C st back) l) v = gs_op Mr n gdiag (flat_map (fun st => gs_rows st back) l) v.
  Proof.
    revert v. induction l as [|st l IH]; intros v Hv; auto. cbn [map seq_corr flat_map]. rewrite (gs_op_app L) by auto. unfold then_op. fold (gs_C st back). pose proof (lin_len _ _ _ (gs_C_lin st back) v Hv) as LC. pose proof (lin_len _ _ _ (matvec_lin L n n Mr WM) _ LC). rewrite IH by auto with len. reflexivity.
  Qed.
  (** one local step, plain kernels: backward goes through the same dofs in reverse *)
  Lemma sweep_rev f first next back : sweep f n first next (negb back) = rev (sweep f n first next back).
  Proof. unfold sweep. destruct back; cbn [negb]; auto. now rewrite rev_involutive. Qed.
  Lemma gs_all_rev nsteps : nsteps <= 1 -> symm_loc = false -> gs_all nsteps true = rev (gs_all nsteps false).
  Proof.
    intros Hn HS. unfold gs_all, stages. replace (nsteps - 1) with 0 by lia. cbn [repeat concat app P1 P2 flat_map]. unfold gs_rows. rewrite HS. rewrite !app_nil_r, !rev_app_distr. now rewrite <- !sweep_rev, <- app_assoc.
  Qed.
  Lemma gs_all_bound nsteps back k : In k (gs_all nsteps back) -> k < n /\ is_master dps r k = true.
  Proof.
    intros H. unfold gs_all in H. apply in_flat_map in H as (st & _ & H). apply rows_stage in H as (H1 & H2 & _). split; auto. unfold sdof in H2. now apply andb_prop in H2 as (H2 & _).
  Qed.
End Kernel.

(** M inherits symmetry *)
Section Symm.
  Context {B : Blk} (L : BlkLaws B).
  Local Notation M := (M B). Local Notation spmat := (@spmat B).
  Variables (dps : list (list (list nat))) (key : nat -> nat -> nat) (As : list spmat).
  Notation np := (nranks dps). Notation nd r := (ndof dps r).
  Hypothesis HS : forall r, r < np -> sym_mat (nd r) (nth r As []).
  Lemma mtr_sum n (f : nat -> M) : mtr (sumN m0 madd n f) = sumN m0 madd n (fun k => mtr (f k)).
  Proof. induction n as [|n IH]; cbn [sumN]. apply (mtr_m0 B L). now rewrite (mtr_madd B L), IH. Qed.
  Lemma gent_sym (CM : CMon (@m0 B) madd) g h : gent dps key (fun p => nth p As []) h g = mtr (gent dps key (fun p => nth p As []) g h).
  Proof.
    unfold gent. rewrite mtr_sum. apply sum_ext. intros p Hp. unfold gval. rewrite (sumN_swap m0 madd CM). rewrite mtr_sum. apply sum_ext. intros k Hk. rewrite mtr_sum. apply sum_ext. intros l Hl. rewrite andb_comm. destruct (_ && _). now apply HS. symmetry. apply (mtr_m0 B L).
  Qed.
  Lemma split_sym (CM : CMon (@m0 B) madd) r MG : r < np -> split_ok dps key As r MG -> sym_mat (nd r) (fst MG).
  Proof.
    intros Hr (_ & _ & H & _) i j Hi Hj. rewrite !H by auto. rewrite andb_comm. destruct (_ && _). apply gent_sym; auto. symmetry. apply (mtr_m0 B L).
  Qed.
End Symm.
