(** Properties C15-C20, C24, C56: the smoother contract of the sequential Gauss-Seidel smoothers and of the
    combinators built on it. *)
From Verif Require Import Base AGroup LinAlg LinTools GSSpec GSModel GSProofs GSProofs2 Instances.
From Coq Require Import QArith Qcanon.
Open Scope nat_scope.

(** A symmetric block matrix of dimension n and a free-dof mask that fits it. *)
Definition gs_input {B : Blk} (n : nat) (A : @spmat B) (fds : option (list bool)) : Prop :=
  wf_mat n n A /\ sym_mat n A /\ (forall f, fds = Some f -> length f = n).

(** C15: after Smooth / SmoothBack with update_res the vector res is the true residual b - A x of the new x,
    for every matrix, mask, (replacement) diagonal, right hand side, iterate and flag combination. *)
Theorem C15_gauss_seidel_residual :
  forall (B : Blk) (L : BlkLaws B) n (minv : M B -> M B) (A : @spmat B) repl fds back x b res res_updated x_zero,
  gs_input n A fds -> flags_ok n (matvec A) x b res res_updated x_zero ->
  let (x', res') := gss3_smooth (gss3_make minv A repl fds) back x b res res_updated true x_zero in
  length x' = n /\ length res' = n /\ forall i, i < n -> ent res' i = xadd (ent b i) (xopp (ent (matvec A x') i)).
Proof.
  intros B L n minv A repl fds back x b res ru xz (W & S & HF) F.
  pose proof (matvec_lin L n n A W) as AL. assert (HA : length A = n) by apply W.
  assert (CL : lin n n (gss3_C minv A n repl fds back)) by (apply (gs_op_lin L); auto).
  pose proof (contract_len n (matvec A) _ _ AL CL (gss3_contract L minv A n repl fds back W S HF) x b res ru true xz F) as H.
  destruct (gss3_smooth _ _ _ _ _ _ _ _) as [x' res']. destruct H as (Hx & Hr & _ & E & _).
  destruct F as (_ & Hb & _). repeat split; auto. intros i Hi. rewrite E by auto. unfold residual.
  rewrite (ent_vsub L) by (side_len n). reflexivity.
Qed.
Print Assumptions C15_gauss_seidel_residual.

(** C16: which of the equivalent flag combinations the caller uses (and what is in res when it is not up to date)
    does not change the iterate. *)
Theorem C16_flags_do_not_change_iterate :
  forall (B : Blk) (L : BlkLaws B) n (minv : M B -> M B) (A : @spmat B) repl fds back x b res1 res2 ru1 ru2 ur1 ur2 xz1 xz2,
  gs_input n A fds -> flags_ok n (matvec A) x b res1 ru1 xz1 -> flags_ok n (matvec A) x b res2 ru2 xz2 ->
  fst (gss3_smooth (gss3_make minv A repl fds) back x b res1 ru1 ur1 xz1)
  = fst (gss3_smooth (gss3_make minv A repl fds) back x b res2 ru2 ur2 xz2).
Proof.
  intros B L n minv A repl fds back x b res1 res2 ru1 ru2 ur1 ur2 xz1 xz2 (W & S & HF) F1 F2.
  pose proof (gss3_contract L minv A n repl fds back W S HF) as C.
  pose proof (C x b res1 ru1 ur1 xz1 F1) as H1. pose proof (C x b res2 ru2 ur2 xz2 F2) as H2.
  destruct (gss3_smooth _ _ x b res1 ru1 ur1 xz1). destruct (gss3_smooth _ _ x b res2 ru2 ur2 xz2).
  simpl. destruct H1 as (-> & _). destruct H2 as (-> & _). reflexivity.
Qed.
Print Assumptions C16_flags_do_not_change_iterate.

(** C17: entries of x outside the free-dof set are never changed (any flags, even inconsistent ones; no symmetry needed) *)
Theorem C17_constrained_dofs_untouched :
  forall (B : Blk) (minv : M B -> M B) (A : @spmat B) repl fds back x b res res_updated update_res x_zero k,
  is_free fds k = false ->
  ent (fst (gss3_smooth (gss3_make minv A repl fds) back x b res res_updated update_res x_zero)) k = ent x k.
Proof.
  intros B minv A repl fds back x b res ru ur xz k H. unfold gss3_smooth.
  destruct ru, ur; cbn [fst]; first [now apply gss3_res_constrained | now apply gss3_rhs_constrained].
Qed.
Print Assumptions C17_constrained_dofs_untouched.

(** C17, second half: the sweep relaxes every free dof exactly once, in ascending (Smooth) or descending (SmoothBack) order *)
Theorem C17_every_free_dof_once :
  forall (B : Blk) (minv : M B -> M B) (A : @spmat B) n repl fds,
  length A = n -> (forall f, fds = Some f -> length f = n) ->
  let rows back := filter (is_free fds) (gss3_rows (gss3_make minv A repl fds) 0 n back) in
  rows false = filter (is_free fds) (seq 0 n) /\ rows true = rev (rows false).
Proof.
  intros B minv A n repl fds HA HF rows. unfold rows. rewrite !(gss3_sweep minv A n) by auto.
  unfold sweep. now rewrite Nat.sub_0_r.
Qed.
Print Assumptions C17_every_free_dof_once.

(** C18: a vector whose residual vanishes on the free dofs is left unchanged *)
Theorem C18_solution_is_fixed_point :
  forall (B : Blk) (L : BlkLaws B) n (minv : M B -> M B) (A : @spmat B) repl fds back x b res res_updated update_res x_zero,
  gs_input n A fds -> flags_ok n (matvec A) x b res res_updated x_zero ->
  (forall k, k < n -> is_free fds k = true -> ent (matvec A x) k = ent b k) ->
  fst (gss3_smooth (gss3_make minv A repl fds) back x b res res_updated update_res x_zero) = x.
Proof.
  intros B L n minv A repl fds back x b res ru ur xz (W & S & HF) F Hsol.
  pose proof (gss3_contract L minv A n repl fds back W S HF x b res ru ur xz F) as H.
  destruct (gss3_smooth _ _ _ _ _ _ _ _) as [x' res']. destruct H as (-> & _). simpl.
  destruct F as (Hx & Hb & _). assert (HA : length A = n) by apply W.
  unfold gss3_C. rewrite (gs_op_zero L A n); auto. now apply (vadd_zero L). unfold residual; auto with len.
  intros k Hk. apply in_sweep in Hk as [Hk Hf]. unfold residual. rewrite (ent_vsub L) by (side_len n).
  rewrite Hsol by (auto; lia). ag (lawX B L).
Qed.
Print Assumptions C18_solution_is_fixed_point.

(** C18, converse: with injective diagonal inverses the only fixed points are solutions of the free equations *)
Theorem C18_fixed_point_is_solution :
  forall (B : Blk) (L : BlkLaws B) n (minv : M B -> M B) (A : @spmat B) repl fds back x b res res_updated update_res x_zero,
  gs_input n A fds -> flags_ok n (matvec A) x b res res_updated x_zero ->
  (forall k u, k < n -> is_free fds k = true ->
     act (minv (if length repl =? 0 then entry A k k else nth k repl m0)) u = x0 -> u = x0) ->
  fst (gss3_smooth (gss3_make minv A repl fds) back x b res res_updated update_res x_zero) = x ->
  forall k, k < n -> is_free fds k = true -> ent (matvec A x) k = ent b k.
Proof.
  intros B L n minv A repl fds back x b res ru ur xz (W & S & HF) F Hinj E k Hk Hf.
  pose proof (gss3_contract L minv A n repl fds back W S HF x b res ru ur xz F) as H.
  destruct (gss3_smooth _ _ _ _ _ _ _ _) as [x' res']. destruct H as (H & _). simpl in E. subst x'.
  destruct F as (Hx & Hb & _). assert (HA : length A = n) by apply W.
  assert (HR : length (residual (matvec A) b x) = n) by (unfold residual; auto with len).
  assert (E0 : gss3_C minv A n repl fds back (residual (matvec A) b x) = vzero n).
  { pose proof (gs_op_lin L A n (g_d (gss3_make minv A repl fds)) (sweep fds n 0 n back) W) as GL. fold (gss3_C minv A n repl fds back) in GL.
    apply (vec_ext n); auto with len. intros i Hi. rewrite ent_vzero.
    apply (f_equal (fun v => ent v i)) in H. rewrite (ent_vadd L) in H by (side_len n).
    apply (ag_cancel _ _ _ (lawX B L) (ent x i)). rewrite <- H. ag (lawX B L). }
  unfold gss3_C in E0.
  assert (Ek : ent (residual (matvec A) b x) k = x0).
  { refine (gs_op_zero_inv L A n _ _ _ W HR (sweep_NoDup fds n 0 n back) _ _ E0 k _).
    - intros j Hj. now apply sweep_bound in Hj.
    - intros j u Hj. apply in_sweep in Hj as [Hj Hfj]. unfold g_d. rewrite (gss3_d_free minv A n) by (auto; lia).
      apply Hinj; auto; lia.
    - apply in_sweep. split; auto; lia. }
  unfold residual in Ek. rewrite (ent_vsub L) in Ek by (side_len n).
  apply (ag_cancel _ _ _ (lawX B L) (xopp (ent (matvec A x) k))).
  rewrite (ag_comm _ _ _ (lawX B L) _ (ent b k)), Ek. ag (lawX B L).
Qed.
Print Assumptions C18_fixed_point_is_solution.

(** C19: for a symmetric matrix and symmetric diagonal inverses SmoothBack is the adjoint iteration of Smooth:
    there are linear operators C and C' = C^T such that Smooth does x += C (b - A x) and SmoothBack x += C' (b - A x). *)
Theorem C19_back_is_adjoint :
  forall (B : Blk) (L : BlkLaws B) n (minv : M B -> M B) (A : @spmat B) repl fds,
  gs_input n A fds ->
  (forall a, mtr a = a -> mtr (minv a) = minv a) -> (forall k, k < n -> mtr (nth k repl m0) = nth k repl m0) ->
  let G := gss3_make minv A repl fds in
  exists C C', lin n n C /\ lin n n C' /\
    (forall u v, length u = n -> length v = n -> vdot (C u) v = vdot u (C' v)) /\
    smoother_contract n (matvec A) C (gss3_smooth G false) /\
    smoother_contract n (matvec A) C' (gss3_smooth G true).
Proof.
  intros B L n minv A repl fds (W & S & HF) Hinv Hrepl G.
  exists (gss3_C minv A n repl fds false), (gss3_C minv A n repl fds true).
  split; [apply (gs_op_lin L A n); auto|]. split; [apply (gs_op_lin L A n); auto|]. split; [|split].
  - intros u v Hu Hv. unfold gss3_C.
    assert (E : sweep fds n 0 n true = rev (sweep fds n 0 n false)) by reflexivity. rewrite E.
    apply (gs_op_adj L A n); auto. intros k Hk. apply in_sweep in Hk as [Hk Hf]. split; [lia|].
    unfold g_d. rewrite (gss3_d_free minv A n) by (try apply W; auto; lia). apply Hinv.
    destruct (length repl =? 0); [|apply Hrepl; lia]. symmetry. apply S; lia.
  - intros x b res ru ur xz F. now apply (gss3_contract L).
  - intros x b res ru ur xz F. now apply (gss3_contract L).
Qed.
Print Assumptions C19_back_is_adjoint.

(** C19 in terms of calls only: <Smooth(0,b), c> = <b, SmoothBack(0,c)> *)
Theorem C19_back_is_adjoint_calls :
  forall (B : Blk) (L : BlkLaws B) n (minv : M B -> M B) (A : @spmat B) repl fds b c res1 res2 ur1 ur2,
  gs_input n A fds ->
  (forall a, mtr a = a -> mtr (minv a) = minv a) -> (forall k, k < n -> mtr (nth k repl m0) = nth k repl m0) ->
  length b = n -> length c = n -> length res1 = n -> length res2 = n ->
  let G := gss3_make minv A repl fds in
  vdot (fst (gss3_smooth G false (vzero n) b res1 false ur1 true)) c
  = vdot b (fst (gss3_smooth G true (vzero n) c res2 false ur2 true)).
Proof.
  intros B L n minv A repl fds b c res1 res2 ur1 ur2 I Hi Hr Hb Hc H1 H2 G.
  destruct (C19_back_is_adjoint B L n minv A repl fds I Hi Hr) as (C & C' & CL & CL' & HA & HC & HC').
  assert (F1 : flags_ok n (matvec A) (vzero n) b res1 false true) by (repeat split; auto with len; discriminate).
  assert (F2 : flags_ok n (matvec A) (vzero n) c res2 false true) by (repeat split; auto with len; discriminate).
  specialize (HC _ _ _ _ ur1 _ F1). specialize (HC' _ _ _ _ ur2 _ F2). fold G in HC, HC'.
  destruct (gss3_smooth G false _ _ _ _ _ _). destruct (gss3_smooth G true _ _ _ _ _ _). simpl.
  destruct HC as (-> & _). destruct HC' as (-> & _).
  destruct I as (W & _). pose proof (matvec_lin L n n A W) as AL.
  assert (R : forall q, length q = n -> residual (matvec A) q (vzero n) = q).
  { intros q Hq. unfold residual. rewrite (lin_zero L n n), (vsub_zero L n) by auto. reflexivity. }
  rewrite !R by auto. rewrite !(vzero_add L n) by auto with len. apply HA; auto.
Qed.
Print Assumptions C19_back_is_adjoint_calls.

(** C20: one call of Smooth / SmoothBack never increases the energy <Ax,x> - 2<b,x> (hence never increases the energy
    norm of the error), provided the diagonal used is exactly inverted and dominates half of the matrix diagonal:
    <A_kk u, u> <= 2 <D_k u, u>.  With D_k = A_kk this says that A_kk is positive semidefinite. *)
Theorem C20_energy_never_increases :
  forall (B : Blk) (L : BlkLaws B) (le : K B -> K B -> Prop) (KO : KOrder le)
         n (minv : M B -> M B) (A : @spmat B) repl fds back x b res res_updated update_res x_zero,
  gs_input n A fds -> flags_ok n (matvec A) x b res res_updated x_zero ->
  let D k := if length repl =? 0 then entry A k k else nth k repl m0 in
  (forall k v, k < n -> is_free fds k = true -> act (D k) (act (minv (D k)) v) = v) ->
  (forall k u, k < n -> is_free fds k = true ->
     le (dot (act (entry A k k) u) u) (kadd (dot (act (D k) u) u) (dot (act (D k) u) u))) ->
  let x' := fst (gss3_smooth (gss3_make minv A repl fds) back x b res res_updated update_res x_zero) in
  le (ksub (vdot (matvec A x') x') (kadd (vdot b x') (vdot b x')))
     (ksub (vdot (matvec A x) x) (kadd (vdot b x) (vdot b x))).
Proof.
  intros B L le KO n minv A repl fds back x b res ru ur xz (W & S & HF) F D Hinv Hdom x'.
  unfold x'. pose proof (gss3_contract L minv A n repl fds back W S HF x b res ru ur xz F) as H.
  destruct (gss3_smooth _ _ _ _ _ _ _ _) as [y res']. destruct H as (-> & _). simpl.
  destruct F as (Hx & Hb & _). assert (HA : length A = n) by apply W.
  refine (gs_op_energy L le KO A n _ D b _ x W S _ Hx Hb _ _).
  - intros k Hk. apply in_sweep in Hk as [Hk Hf]. lia.
  - intros k v Hk. apply in_sweep in Hk as [Hk Hf]. unfold g_d. rewrite (gss3_d_free minv A n) by (auto; lia).
    apply Hinv; auto; lia.
  - intros k u Hk. apply in_sweep in Hk as [Hk Hf]. apply Hdom; auto; lia.
Qed.
Print Assumptions C20_energy_never_increases.

(** *** C24: composed smoothers keep the contract *)
(** ProxySmoother (k steps, optionally symmetrised): it satisfies the smoother contract in both directions, and its
    SmoothBack is the adjoint of its Smooth whenever this holds for the wrapped smoother. *)
Theorem C24_proxy :
  forall (B : Blk) (L : BlkLaws B) n (A C C' : list (X B) -> list (X B)) nsteps symm fw bw,
  lin n n A -> lin n n C -> lin n n C' -> adj n n A A -> adj n n C C' ->
  smoother_contract n A C fw -> smoother_contract n A C' bw ->
  exists D D', lin n n D /\ lin n n D' /\ adj n n D D' /\
    smoother_contract n A D (proxy_smooth nsteps symm fw bw false) /\
    smoother_contract n A D' (proxy_smooth nsteps symm fw bw true) /\
    (symm = false -> nsteps <= 1 -> forall r, length r = n -> D r = C r /\ D' r = C' r).
Proof.
  intros B L n A C C' k symm fw bw AL CL CL' HA HC Hf Hb. unfold proxy_smooth. destruct symm.
  - exists (pow_op A (then_op A C C') (k - 1)), (pow_op A (then_op A C C') (k - 1)).
    pose proof (lin_then L n A C C' AL CL CL') as TL.
    pose proof (contract_symm L n A C C' fw bw AL CL CL' Hf Hb) as TS.
    split; [now apply (pow_lin L)|]. split; [now apply (pow_lin L)|]. split; [|split; [|split]].
    + apply (pow_adj L); auto. now apply (symm_adj L).
    + now apply (contract_k L).
    + now apply (contract_k L).
    + discriminate.
  - exists (pow_op A C (k - 1)), (pow_op A C' (k - 1)).
    split; [now apply (pow_lin L)|]. split; [now apply (pow_lin L)|]. split; [|split; [|split]].
    + now apply (pow_adj L).
    + now apply (contract_k L).
    + now apply (contract_k L).
    + intros _ Hk r Hr. replace (k - 1) with 0 by lia. auto.
Qed.
Print Assumptions C24_proxy.

(** Richardson with an arbitrary linear preconditioner: x += omega P (b - A x) *)
Theorem C24_richardson :
  forall (B : Blk) (L : BlkLaws B) n (A P : list (X B) -> list (X B)) omega,
  lin n n A -> lin n n P -> smoother_contract n A (fun r => vsc omega (P r)) (richardson_smooth A P omega).
Proof. intros. now apply (contract_richardson L). Qed.
Print Assumptions C24_richardson.

(** Jacobi: contract, self-adjointness, and constrained dofs are untouched *)
Theorem C24_jacobi :
  forall (B : Blk) (L : BlkLaws B) n (minv : M B -> M B) (A : @spmat B) fds omega,
  wf_mat n n A -> sym_mat n A -> (forall a, mtr a = a -> mtr (minv a) = minv a) ->
  exists C, lin n n C /\ adj n n C C /\ smoother_contract n (matvec A) C (jacobi_smooth minv A fds omega) /\
    forall r k, length r = n -> k < n -> ent (C r) k =
      (if is_free fds k then xsc omega (act (minv (entry A k k)) (ent r k)) else x0).
Proof.
  intros B L n minv A fds om W S Hinv. assert (HA : length A = n) by apply W.
  set (d := jacobi_diag minv A fds). assert (Hd : length d = n) by (unfold d, jacobi_diag; now rewrite map_length, seq_length).
  assert (Ed : forall k, k < n -> nth k d m0 = if is_free fds k then minv (entry A k k) else m0).
  { intros k Hk. unfold d, jacobi_diag. rewrite HA. set (h := fun k => _).
    rewrite (nth_indep _ m0 (h 0)) by now rewrite map_length, seq_length. rewrite map_nth, seq_nth by auto. reflexivity. }
  exists (fun r => vsc om (diag_mult d r)).
  pose proof (diag_lin L n d Hd) as DL. split; [now apply (lin_scale L)|]. split; [|split].
  - apply (scale_adj L). apply (diag_adj L); auto. intros k Hk. rewrite Ed by auto.
    destruct (is_free fds k); [|apply (mtr_m0 B L)]. apply Hinv. symmetry. now apply S.
  - apply (contract_richardson L); auto. now apply (matvec_lin L).
  - intros r k Hr Hk. rewrite (ent_vsc L), (ent_diag n), Ed by auto. destruct (is_free fds k); auto.
    rewrite (act_m0 B L). apply (xsc_0 L).
Qed.
Print Assumptions C24_jacobi.

(** Hiptmair smoother, forward: contract for every flag combination, any order of the two sub-smoothers, with or
    without the stored products A D and D^T A. *)
Theorem C24_hiptmair_forward :
  forall (B : Blk) (L : BlkLaws B) n m (h : HiptMair B) Apot Cp Cr,
  hm_ok n m h Apot Cp Cr -> smoother_contract n (hm_A h) (hm_C h Cp Cr false) (hm_smooth h).
Proof. intros. eapply (contract_hm_smooth L); eauto. Qed.
Print Assumptions C24_hiptmair_forward.

(** Hiptmair smoother, backward: the full statement would be
      [smoother_contract n (hm_A h) (hm_C h Cp Cr true) (hm_smooth_back h)]
    which is FALSE (see [C24_hiptmair_back_refuted]); missing here: potFirst together with x_zero, res not up to date
    and no stored D^T A. *)
Theorem C24_hiptmair_back_partial :
  forall (B : Blk) (L : BlkLaws B) n m (h : HiptMair B) Apot Cp Cr,
  hm_ok n m h Apot Cp Cr ->
  forall x b res res_updated update_res x_zero, flags_ok n (hm_A h) x b res res_updated x_zero ->
  (hm_potfirst h = true -> x_zero = true -> res_updated = false -> hm_DTAR h <> None) ->
  let (x', res') := hm_smooth_back h x b res res_updated update_res x_zero in
  x' = x +v hm_C h Cp Cr true (residual (hm_A h) b x) /\ length res' = n /\
  (update_res = true -> res' = residual (hm_A h) b x').
Proof. intros. eapply (contract_hm_smooth_back L); eauto. Qed.
Print Assumptions C24_hiptmair_back_partial.

(** ... and where both satisfy the contract they are adjoint to each other *)
Theorem C24_hiptmair_adjoint :
  forall (B : Blk) (L : BlkLaws B) n m (h : HiptMair B) Apot Cp Cr,
  hm_ok n m h Apot Cp Cr -> adj n n (hm_A h) (hm_A h) -> adj m n (hm_D h) (hm_DT h) ->
  adj m m (Cp false) (Cp true) -> adj n n (Cr false) (Cr true) ->
  adj n n (hm_C h Cp Cr false) (hm_C h Cp Cr true).
Proof. intros. eapply (hm_adj L); eauto. Qed.
Print Assumptions C24_hiptmair_adjoint.

(** A 1x1 example: all ingredients meet the contract, SmoothBack with x_zero = true does not. *)
Definition ex1_G : GSS3 ZBlk := gss3_make (B:=ZBlk) (fun a => a) [[(0, 1%Z)]] [] None.
Definition ex1_id (x : list (X ZBlk)) : list (X ZBlk) := x.
Definition ex1_hm : HiptMair ZBlk :=
  mkHM true (matvec (B:=ZBlk) [[(0, 1%Z)]]) ex1_id ex1_id None None 1 (gss3_smooth ex1_G) (gss3_smooth ex1_G).
Definition ex1_C (bk : bool) := gss3_C (B:=ZBlk) (fun a => a) [[(0, 1%Z)]] 1 [] None bk.

Lemma ex1_ok : hm_ok 1 1 ex1_hm (matvec (B:=ZBlk) [[(0, 1%Z)]]) ex1_C ex1_C.
Proof.
  assert (W : wf_mat (B:=ZBlk) 1 1 [[(0, 1%Z)]]) by (apply wf_matb_ok; reflexivity).
  assert (S : sym_mat (B:=ZBlk) 1 [[(0, 1%Z)]]) by sym_tac.
  assert (CL : forall bk, lin 1 1 (ex1_C bk)) by (intros; apply (gs_op_lin ZLaws); auto).
  split; auto; try apply (lin_id (B:=ZBlk)); try (apply (matvec_lin ZLaws); auto); try discriminate.
  - intros bk. apply (gss3_contract ZLaws); auto. discriminate.
  - intros bk. apply (gss3_contract ZLaws); auto. discriminate.
Qed.

Theorem C24_hiptmair_back_refuted :
  ~ (forall (B : Blk) (L : BlkLaws B) n m (h : HiptMair B) Apot Cp Cr,
     hm_ok n m h Apot Cp Cr -> smoother_contract n (hm_A h) (hm_C h Cp Cr true) (hm_smooth_back h)).
Proof.
  intros H. specialize (H ZBlk ZLaws 1 1 ex1_hm _ ex1_C ex1_C ex1_ok [0%Z] [1%Z] [0%Z] false true true).
  assert (F : flags_ok (B:=ZBlk) 1 (hm_A ex1_hm) [0%Z] [1%Z] [0%Z] false true) by (repeat split; auto; discriminate).
  specialize (H F). vm_compute in H. destruct H as (H & _). discriminate H.
Qed.
Print Assumptions C24_hiptmair_back_refuted.

(** *** C56: the compressed smoother GSS4 does exactly what GSS3 does on the same subset, if it is given a replacement
    diagonal (the only way the library constructs it) or the subset contains every dof *)
Theorem C56_compressed_equals_uncompressed :
  forall (B : Blk) (minv : M B -> M B) (A : @spmat B) n repl fds x b res back,
  length A = n -> (forall f, fds = Some f -> length f = n) ->
  (length repl = n \/ (repl = [] /\ forall k, k < n -> is_free fds k = true)) ->
  gss4_rhs (gss4_make minv A repl fds) x b back = gss3_rhs (gss3_make minv A repl fds) 0 n x b back /\
  gss4_res (gss4_make minv A repl fds) x res back = gss3_res (gss3_make minv A repl fds) 0 n x res back.
Proof. intros. split; [now apply gss4_rhs_eq | now apply gss4_res_eq]. Qed.
Print Assumptions C56_compressed_equals_uncompressed.

(** without a replacement diagonal the compressed smoother takes the wrong diagonal entry *)
Theorem C56_compressed_own_diagonal_refuted :
  ~ (forall (B : Blk) (L : BlkLaws B) (minv : M B -> M B) (A : @spmat B) n fds x b back,
     gs_input n A fds -> length x = n -> length b = n ->
     gss4_rhs (gss4_make minv A [] fds) x b back = gss3_rhs (gss3_make minv A [] fds) 0 n x b back).
Proof.
  intros H.
  specialize (H ZBlk ZLaws (fun a => a) [[(0, 1%Z)]; [(1, 1%Z)]] 2 (Some [false; true]) [0%Z; 0%Z] [0%Z; 1%Z] false).
  assert (I : gs_input (B:=ZBlk) 2 [[(0, 1%Z)]; [(1, 1%Z)]] (Some [false; true])).
  { split; [apply wf_matb_ok; reflexivity|]. split; [sym_tac|]. intros f E. now inversion E. }
  specialize (H I eq_refl eq_refl). vm_compute in H. discriminate H.
Qed.
Print Assumptions C56_compressed_own_diagonal_refuted.

(** *** Non-vacuity: a 3x3 rational matrix with one constrained dof, and a 2x2-block matrix *)
Definition qc (z : Z) : Qc := Q2Qc (inject_Z z).
Definition ex_A : @spmat QcBlk := [[(0, qc 2); (1, qc (-1))]; [(0, qc (-1)); (1, qc 2); (2, qc (-1))]; [(1, qc (-1)); (2, qc 2)]].
Definition ex_f := Some [false; true; true].
Example ex_gs_input : gs_input 3 ex_A ex_f.
Proof.
  split; [apply wf_matb_ok; reflexivity|]. split; [|intros f E; now inversion E].
  apply symmetric_ok. repeat (constructor; [repeat (constructor; [apply Qc_is_canon; reflexivity|]); constructor|]); constructor.
Qed.
Example ex_flags : flags_ok (B:=QcBlk) 3 (matvec ex_A) (vzero 3) [qc 1; qc 2; qc 3] [qc 7; qc 7; qc 7] false true.
Proof. repeat split; auto; discriminate. Qed.
(** the sweep really changes x: x = (0, 1, 2) and the residual is (2, 2, 0) *)
Example ex_run :
  map this (fst (gss3_smooth (gss3_make (B:=QcBlk) Qcinv ex_A [] ex_f) false (vzero 3) [qc 1; qc 2; qc 3] [qc 7; qc 7; qc 7] false true true))
    = [0#1; 1#1; 2#1]%Q /\
  map this (snd (gss3_smooth (gss3_make (B:=QcBlk) Qcinv ex_A [] ex_f) false (vzero 3) [qc 1; qc 2; qc 3] [qc 7; qc 7; qc 7] false true true))
    = [2#1; 2#1; 0#1]%Q.
Proof. split; vm_compute; reflexivity. Qed.
(** C20's hypotheses: the diagonal is 2 and Qcinv inverts it; C18's converse and C19's hypotheses likewise *)
Example ex_C20_hyp :
  (forall k v, k < 3 -> is_free ex_f k = true -> act (entry ex_A k k) (act (b:=QcBlk) (Qcinv (entry ex_A k k)) v) = v) /\
  (forall k u, k < 3 -> is_free ex_f k = true ->
     Qcle (dot (act (entry ex_A k k) u) u) (kadd (b:=QcBlk) (dot (act (entry ex_A k k) u) u) (dot (act (entry ex_A k k) u) u))) /\
  (forall a : M QcBlk, mtr a = a -> mtr (b:=QcBlk) (Qcinv a) = Qcinv a).
Proof.
  assert (E : forall k, k < 3 -> entry ex_A k k = qc 2).
  { intros k Hk. destruct k as [|[|[|k]]]; try lia; apply Qc_is_canon; reflexivity. }
  split; [|split]; auto.
  - intros k v Hk _. rewrite E by auto. simpl. rewrite Qcmult_assoc, Qcmult_inv_r. apply Qcmult_1_l.
    intros H. apply (f_equal this) in H. discriminate H.
  - intros k u Hk _. rewrite E by auto. simpl.
    rewrite <- (Qcplus_0_r (qc 2 * u * u)) at 1. apply Qcplus_le_compat; [apply Qcle_refl|].
    unfold Qcle, qc, Qcmult, Q2Qc; cbn [this]. rewrite !Qred_correct.
    unfold Qle, inject_Z, Qmult; cbn [Qnum Qden]. assert (0 <= Qnum u * Qnum u)%Z by apply Z.square_nonneg. nia.
Qed.
(** 2x2 blocks, all dofs free, exact inverses of unimodular diagonal blocks *)
Definition ex_B : @spmat Z2Blk :=
  [[(0, ((1,0),(0,1))%Z); (1, ((1,2),(3,4))%Z)]; [(0, ((1,3),(2,4))%Z); (1, ((1,0),(0,1))%Z)]].
Example ex_B_input : gs_input 2 ex_B None.
Proof. split; [apply wf_matb_ok; reflexivity|]. split; [sym_tac|discriminate]. Qed.
Example ex_B_run :
  gss3_smooth (gss3_make (B:=Z2Blk) (fun a => a) ex_B [] None) true (vzero 2) [(1,1)%Z; (0,1)%Z] (vzero 2) false true true
  = ([(-1,-3)%Z; (0,1)%Z], [(0,0)%Z; (10,14)%Z]).
Proof. vm_compute. reflexivity. Qed.
