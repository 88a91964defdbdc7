(** Properties C21, C22, C60: the block Gauss-Seidel smoother. *)
From Verif Require Import Base AGroup LinAlg LinTools GSSpec GSModel GSProofs GSProofs2 ArraysModel Shm BlockModel BlockProofs BlockProofs2 Instances GSProps.
From Coq Require Import Ring Ring_theory ZArith QArith Qcanon.
Open Scope nat_scope.

(** *** specification vocabulary *)
(** symmetric n x n matrix, blocks of dofs below n (any overlap, any order, repetitions and empty blocks allowed) *)
Definition block_input {B : Blk} (n : nat) (A : @spmat B) (blocks : list (list nat)) : Prop :=
  wf_mat n n A /\ sym_mat n A /\ forall bl i, In bl blocks -> In i bl -> i < n.
(** the dense inversion returns a matrix of the same size *)
Definition keeps_size {B : Blk} (minv : @dense B -> @dense B) : Prop := forall m D, dims m D -> dims m (minv D).
(** what ngcore's ComputeColoring promises: one colour per set, at most maxcolor, sets of one colour are disjoint *)
Definition coloring_ok (coloring : list (list Z) -> list nat * nat) : Prop :=
  forall ext bc mc, coloring ext = (bc, mc) ->
    length bc = length ext /\ (forall k, k < length ext -> nth k bc 0 <= mc) /\
    forall k l z, k < l < length ext -> nth k bc 0 = nth l bc 0 -> ~ (In z (nth k ext []) /\ In z (nth l ext [])).

(** *** C21 *)
Theorem C21_block_residual :
  forall (B : Blk) (L : BlkLaws B) n minv coloring (A : @spmat B) blocks par md S back x b res res_updated x_zero,
  block_input n A blocks -> keeps_size minv -> bs_make minv coloring A blocks par md = Ret S ->
  flags_ok n (matvec A) x b res res_updated x_zero ->
  let (x', res') := bs_smooth S back x b res res_updated true x_zero in
  length x' = n /\ length res' = n /\ forall i, i < n -> ent res' i = xadd (ent b i) (xopp (ent (matvec A x') i)).
Proof.
  intros B L n minv coloring A blocks par md S back x b res ru xz (W & HS & Hb) Hm E F.
  destruct (bs_make_ok minv coloring A n blocks par md S Hm W Hb E) as (OK & EA & _). rewrite <- EA in *.
  pose proof (matvec_lin L n n _ W) as AL. assert (HA : length (bs_A S) = n) by apply W.
  pose proof (bs_C_lin L n S back OK) as CL.
  pose proof (contract_len n (matvec (bs_A S)) _ _ AL CL (bs_contract L n S back OK HS) x b res ru true xz F) as H.
  destruct (bs_smooth _ _ _ _ _ _ _ _) as [x' res']. destruct H as (Hx & Hr & _ & Er & _).
  destruct F as (_ & Hbb & _). repeat split; auto. intros i Hi. rewrite Er by auto. unfold residual.
  rewrite (ent_vsub L) by (side_len n). reflexivity.
Qed.
Print Assumptions C21_block_residual.

Theorem C21_block_flags_do_not_change_iterate :
  forall (B : Blk) (L : BlkLaws B) n minv coloring (A : @spmat B) blocks par md S back x b res1 res2 ru1 ru2 ur1 ur2 xz1 xz2,
  block_input n A blocks -> keeps_size minv -> bs_make minv coloring A blocks par md = Ret S ->
  flags_ok n (matvec A) x b res1 ru1 xz1 -> flags_ok n (matvec A) x b res2 ru2 xz2 ->
  fst (bs_smooth S back x b res1 ru1 ur1 xz1) = fst (bs_smooth S back x b res2 ru2 ur2 xz2).
Proof.
  intros B L n minv coloring A blocks par md S back x b res1 res2 ru1 ru2 ur1 ur2 xz1 xz2 (W & HS & Hb) Hm E F1 F2.
  destruct (bs_make_ok minv coloring A n blocks par md S Hm W Hb E) as (OK & EA & _). rewrite <- EA in *.
  pose proof (bs_contract L n S back OK HS) as C.
  pose proof (C x b res1 ru1 ur1 xz1 F1) as H1. pose proof (C x b res2 ru2 ur2 xz2 F2) as H2.
  destruct (bs_smooth _ _ x b res1 ru1 ur1 xz1). destruct (bs_smooth _ _ x b res2 ru2 ur2 xz2).
  simpl. destruct H1 as (-> & _). destruct H2 as (-> & _). reflexivity.
Qed.
Print Assumptions C21_block_flags_do_not_change_iterate.

(** several steps at once: both variants give the same iterate, and the residual variant ends with the true residual *)
Theorem C21_block_steps :
  forall (B : Blk) (L : BlkLaws B) n minv coloring (A : @spmat B) blocks par md S back steps x b,
  block_input n A blocks -> keeps_size minv -> bs_make minv coloring A blocks par md = Ret S ->
  length x = n -> length b = n ->
  let (x', res') := bs_res S steps back x (b -v matvec A x) in
  x' = bs_rhs S steps back x b /\ res' = b -v matvec A x'.
Proof.
  intros B L n minv coloring A blocks par md S back steps x b (W & HS & Hb) Hm E Hx Hbb.
  destruct (bs_make_ok minv coloring A n blocks par md S Hm W Hb E) as (OK & EA & _). rewrite <- EA in *.
  destruct (bs_steps L n S back steps x b OK HS Hx Hbb) as [_ Es]. unfold residual in Es. now rewrite Es.
Qed.
Print Assumptions C21_block_steps.

(** the constructor never fails *)
Theorem C21_block_setup_total :
  forall (B : Blk) minv coloring (A : @spmat B) blocks par md, exists S, bs_make minv coloring A blocks par md = Ret S.
Proof. intros. apply bs_make_total. Qed.
Print Assumptions C21_block_setup_total.

(** dofs in no block are never touched (any flags) *)
Lemma fold_rhs_other {B : Blk} (S : BSmoother B) b ks j : (forall k, ~ In j (b_blk S k)) -> forall x,
  ent (fold_left (fun x k => block_rhs (bs_A S) (b_blk S k) (b_D S k) b x) ks x) j = ent x j.
Proof.
  intros H. induction ks as [|k ks IH]; intros x; simpl; auto. rewrite IH. unfold block_rhs. destruct (0 <? _); auto.
  now apply scatter_other.
Qed.
Lemma fold_res_other {B : Blk} (S : BSmoother B) ks j : (forall k, ~ In j (b_blk S k)) -> forall s,
  ent (fst (fold_left (fun s k => block_res (bs_A S) (b_blk S k) (b_D S k) s) ks s)) j = ent (fst s) j.
Proof.
  intros H. induction ks as [|k ks IH]; intros s; simpl; auto. rewrite IH. destruct s. unfold block_res. destruct (0 <? _); auto.
  simpl. now apply scatter_other.
Qed.
Theorem C21_dofs_outside_blocks_untouched :
  forall (B : Blk) minv coloring (A : @spmat B) blocks par md S back x b res res_updated update_res x_zero j,
  bs_make minv coloring A blocks par md = Ret S -> (forall bl, In bl blocks -> ~ In j bl) ->
  ent (fst (bs_smooth S back x b res res_updated update_res x_zero)) j = ent x j.
Proof.
  intros B minv coloring A blocks par md S back x b res ru ur xz j E Hj.
  assert (EB : bs_blocks S = map sort_nat blocks).
  { unfold bs_make in E. destruct par.
    - destruct (ext_blocks A _); [|discriminate]. cbn [bind] in E. destruct (if _ =? 0 then _ else _). injection E as <-. auto.
    - injection E as <-. auto. }
  assert (H : forall k, ~ In j (b_blk S k)).
  { intros k Hk. unfold b_blk in Hk. rewrite EB in Hk.
    destruct (nth_in_or_default k (map sort_nat blocks) []) as [H|H]; [|now rewrite H in Hk].
    apply in_map_iff in H as (bl & Ebl & H). rewrite <- Ebl in Hk. apply (Permutation_in _ (sort_nat_perm bl)) in Hk. eapply Hj; eauto. }
  unfold bs_smooth, bs_res, bs_rhs. destruct ur; [destruct ru|]; simpl.
  - apply (fold_res_other S (bs_order S back) j H (x, res)).
  - apply (fold_res_other S (bs_order S back) j H (x, _)).
  - now apply (fold_rhs_other S).
Qed.
Print Assumptions C21_dofs_outside_blocks_untouched.

(** a vector that solves the equations of all block dofs is not changed *)
Theorem C21_solution_is_fixed_point :
  forall (B : Blk) (L : BlkLaws B) n minv coloring (A : @spmat B) blocks par md S back x b res res_updated update_res x_zero,
  block_input n A blocks -> keeps_size minv -> bs_make minv coloring A blocks par md = Ret S ->
  flags_ok n (matvec A) x b res res_updated x_zero ->
  (forall bl i, In bl blocks -> In i bl -> ent (matvec A x) i = ent b i) ->
  fst (bs_smooth S back x b res res_updated update_res x_zero) = x.
Proof.
  intros B L n minv coloring A blocks par md S back x b res ru ur xz (W & HS & Hb) Hm E F Hsol.
  destruct (bs_make_ok minv coloring A n blocks par md S Hm W Hb E) as (OK & EA & EB & _).
  pose proof (bs_contract L n S back OK) as C. rewrite EA in C. specialize (C HS x b res ru ur xz F).
  destruct (bs_smooth _ _ _ _ _ _ _ _) as [x' res']. destruct C as (-> & _). simpl.
  destruct F as (Hx & Hbb & _). pose proof (matvec_lin L n n A W) as AL. assert (HA : length A = n) by apply W.
  unfold bs_C. rewrite EA, (seq_op_zero L (matvec A) n); auto. now apply (vadd_zero L).
  - apply (b_C_lins L n S _ OK).
  - unfold residual; auto with len.
  - intros c Hc. apply in_map_iff in Hc as (k & <- & Hk). unfold b_C, bstep.
    assert (Eg : gather (b_blk S k) (residual (matvec A) b x) = vzero (length (b_blk S k))).
    { apply (vec_ext (length (b_blk S k))); auto using gather_length with len. intros i Hi. rewrite ent_vzero.
      unfold gather, ent at 1. rewrite nth_indep with (d' := ent (residual (matvec A) b x) 0) by now rewrite map_length.
      rewrite map_nth. unfold residual. rewrite (ent_vsub L) by (side_len n).
      set (j := nth i (b_blk S k) 0). assert (Hj : In j (b_blk S k)) by now apply nth_In.
      unfold b_blk in Hj. rewrite EB in Hj. destruct (nth_in_or_default k (map sort_nat blocks) []) as [H|H]; [|now rewrite H in Hj].
      apply in_map_iff in H as (bl & Ebl & H). rewrite <- Ebl in Hj. apply (Permutation_in _ (sort_nat_perm bl)) in Hj.
      rewrite (Hsol bl j) by auto. ag (lawX B L). }
    rewrite Eg. pose proof (dmul_lin L _ _ (bo_dims _ _ OK k)) as DL.
    unfold b_D in *. fold (b_blk S k) in DL. rewrite (lin_zero L _ _ _ DL).
    apply (lin_zero L (length (b_blk S k)) n (fun up => scatter (b_blk S k) up (vzero n))). now apply (scatter_lin L).
Qed.
Print Assumptions C21_solution_is_fixed_point.

(** *** the colouring computed in the constructor *)
Lemma FOP_filter_seq (p : nat -> bool) (R : nat -> nat -> Prop) a n :
  (forall k l, a <= k -> k < l < a + n -> p k = true -> p l = true -> R k l) -> ForallOrdPairs R (filter p (seq a n)).
Proof.
  revert a. induction n; intros a H; simpl. constructor.
  assert (IH : ForallOrdPairs R (filter p (seq (S a) n))) by (apply IHn; intros; apply H; auto; lia).
  destruct (p a) eqn:E; auto. constructor; auto. apply Forall_forall. intros l Hl. apply filter_In in Hl as [Hl Hp].
  apply in_seq in Hl. apply H; auto; lia.
Qed.
Lemma colors_sep {B : Blk} minv coloring (A : @spmat B) blocks md S : coloring_ok coloring ->
  bs_make minv coloring A blocks true md = Ret S -> Forall (ForallOrdPairs (sep S)) (bs_colors S).
Proof.
  intros HC E. unfold bs_make in E.
  destruct (ext_blocks_ok A (map sort_nat blocks)) as (es & Ee & F).
  { apply Forall_forall. intros x Hx. apply in_map_iff in Hx as (y & <- & _). apply sort_nat_sorted. }
  rewrite Ee in E. cbn [bind] in E.
  assert (Hl : length es = length (map sort_nat blocks)) by (clear - F; induction F; simpl; auto).
  assert (HE : forall k, k < length es -> forall j, In (Z.of_nat j) (nth k es []) <-> ext_of A (nth k (map sort_nat blocks) []) j).
  { intros k Hk. assert (G : ext_block A (nth k (map sort_nat blocks) []) = Ret (nth k es [])).
    { clear - F Hk. revert k Hk. induction F; intros [|k] Hk; simpl in *; try lia; auto. apply IHF; lia. }
    assert (Hs : StronglySorted Nat.le (nth k (map sort_nat blocks) [])).
    { destruct (nth_in_or_default k (map sort_nat blocks) []) as [H|H].
      - apply in_map_iff in H as (bl & <- & _). apply sort_nat_sorted.
      - rewrite H. constructor. }
    destruct (ext_block_ok A _ Hs) as (e & E1 & _ & HI). rewrite E1 in G. injection G as <-. exact HI. }
  destruct (length (map sort_nat blocks) =? 0) eqn:E0.
  - injection E as <-. cbn [bs_colors]. unfold table_of. simpl. repeat constructor.
  - destruct (coloring es) as [bc mc] eqn:Ec. injection E as <-. destruct (HC _ _ _ Ec) as (H1 & H2 & H3).
    cbn [bs_colors]. unfold table_of. apply Forall_forall. intros row Hrow. apply in_map_iff in Hrow as (c & <- & Hc).
    apply FOP_filter_seq. intros k l Hk Hkl Ek El. apply Nat.eqb_eq in Ek. apply Nat.eqb_eq in El.
    intros j [Hj1 Hj2]. cbn [bs_A bs_blocks b_blk] in Hj1, Hj2. unfold b_blk in Hj1, Hj2. cbn [bs_blocks] in Hj1, Hj2.
    apply (H3 k l (Z.of_nat j)); try lia. split; apply HE; auto; lia.
Qed.
Lemma phases_sep_make {B : Blk} minv coloring (A : @spmat B) blocks par md S back : coloring_ok coloring ->
  bs_make minv coloring A blocks par md = Ret S -> phases_sep S back.
Proof.
  intros HC E. destruct par.
  - pose proof (colors_sep minv coloring A blocks md S HC E) as H.
    assert (HP : bs_parallel S = true).
    { unfold bs_make in E. destruct (ext_blocks A _); [|discriminate]. cbn [bind] in E.
      destruct (if _ =? 0 then _ else _). now injection E as <-. }
    assert (G : forall bk, Forall (ForallOrdPairs (sep S)) (bs_phases S bk)).
    { assert (H0 : bs_phases S false = bs_colors S) by (unfold bs_phases; rewrite HP; apply map_nth_seq').
      intros [|]; [rewrite phases_back; apply Forall_rev|]; now rewrite H0. }
    apply G.
  - apply phases_sep_seq. unfold bs_make in E. now injection E as <-.
Qed.

(** a sweep processes every block exactly once *)
Theorem C22_every_block_exactly_once :
  forall (B : Blk) minv coloring (A : @spmat B) blocks par md S back,
  coloring_ok coloring -> bs_make minv coloring A blocks par md = Ret S ->
  Permutation (concat (bs_phases S back)) (seq 0 (length blocks)).
Proof.
  intros B minv coloring A blocks par md S back HC E.
  assert (G : Permutation (concat (bs_phases S false)) (seq 0 (length blocks))).
  { unfold bs_make in E. destruct par.
    - destruct (ext_blocks_ok A (map sort_nat blocks)) as (es & Ee & F).
      { apply Forall_forall. intros x Hx. apply in_map_iff in Hx as (y & <- & _). apply sort_nat_sorted. }
      rewrite Ee in E. cbn [bind] in E.
      assert (Hl : length es = length blocks).
      { transitivity (length (map sort_nat blocks)). clear - F; induction F; simpl; auto. apply map_length. }
      assert (T : forall bc mc, length bc = length blocks -> (forall k, k < length bc -> nth k bc 0 <= mc) ->
              Permutation (concat (table_of (Datatypes.S mc) bc)) (seq 0 (length blocks))).
      { intros bc mc H1 H2. rewrite <- H1. clear - H2. unfold table_of.
        assert (G : forall m l, (forall k, In k l -> nth k bc 0 < m) ->
          Permutation (concat (map (fun c => filter (fun k => nth k bc 0 =? c) l) (seq 0 m))) l).
        { clear. intros m. induction m; intros l H.
          - destruct l as [|a l]; auto. specialize (H a (or_introl eq_refl)). lia.
          - rewrite seq_S, map_app, concat_app. simpl. rewrite app_nil_r.
            set (lo := filter (fun k => negb (nth k bc 0 =? m)) l).
            assert (E1 : map (fun c => filter (fun k => nth k bc 0 =? c) l) (seq 0 m) = map (fun c => filter (fun k => nth k bc 0 =? c) lo) (seq 0 m)).
            { apply map_ext_in. intros c Hc. apply in_seq in Hc. unfold lo. clear - Hc. induction l; simpl; auto.
              destruct (Nat.eqb_spec (nth a bc 0) c); destruct (Nat.eqb_spec (nth a bc 0) m); simpl; try lia; auto.
              - destruct (Nat.eqb_spec (nth a bc 0) c); [|lia]. now rewrite IHl.
              - destruct (Nat.eqb_spec (nth a bc 0) c); [lia|]. auto. }
            rewrite E1, IHm.
            + unfold lo. clear. induction l as [|a l IH]; simpl; auto. destruct (nth a bc 0 =? m); simpl.
              * rewrite <- Permutation_middle. now apply perm_skip.
              * now apply perm_skip.
            + intros k Hk. unfold lo in Hk. apply filter_In in Hk as [Hk Hn]. specialize (H k Hk).
              destruct (Nat.eqb_spec (nth k bc 0) m); [discriminate|lia]. }
        apply G. intros k Hk. apply in_seq in Hk. specialize (H2 k ltac:(lia)). lia. }
      destruct (length (map sort_nat blocks) =? 0) eqn:E0.
      + apply Nat.eqb_eq in E0. rewrite map_length in E0. injection E as <-. unfold bs_phases. cbn [bs_parallel bs_colors].
        rewrite map_nth_seq'. apply (T [] 0). simpl; lia. simpl; intros; lia.
      + destruct (coloring es) as [bc mc] eqn:Ec. injection E as <-. destruct (HC _ _ _ Ec) as (H1 & H2 & _).
        unfold bs_phases. cbn [bs_parallel bs_colors]. rewrite map_nth_seq'. apply T; [congruence|]. rewrite H1. exact H2.
    - injection E as <-. unfold bs_phases. cbn [bs_parallel bs_blocks]. rewrite map_length.
      assert (G : forall l : list nat, concat (map (fun k => [k]) l) = l) by (induction l; simpl; congruence). rewrite G. auto. }
  destruct back; auto. rewrite phases_back. rewrite <- G.
  clear. generalize (bs_phases S false) as l. induction l; simpl; auto.
  rewrite concat_app. simpl. rewrite app_nil_r, IHl. apply Permutation_app_comm.
Qed.
Print Assumptions C22_every_block_exactly_once.

(** C22: whatever the schedule of the tasks, a parallel sweep leaves exactly the x (and res) of the sequential one.
    [exec_phases] ranges over all interleavings of the single memory accesses of the blocks of one colour. *)
Theorem C22_parallel_sweep_schedule_independent :
  forall (B : Blk) n minv coloring (A : @spmat B) blocks par md S back x b res m',
  wf_mat n n A -> (forall bl i, In bl blocks -> In i bl -> i < n) -> keeps_size minv -> coloring_ok coloring ->
  bs_make minv coloring A blocks par md = Ret S -> length x = n -> length res = n ->
  (exec_phases loc_eqb (mem_of x res) (par_rhs S back b) m' ->
     forall i, i < n -> m' (true, i) = ent (bs_rhs S 1 back x b) i /\ m' (false, i) = ent res i) /\
  (exec_phases loc_eqb (mem_of x res) (par_res S back) m' ->
     forall i, i < n -> m' (true, i) = ent (fst (bs_res S 1 back x res)) i /\ m' (false, i) = ent (snd (bs_res S 1 back x res)) i).
Proof.
  intros B n minv coloring A blocks par md S back x b res m' W Hb Hm HC E Hx Hr.
  destruct (bs_make_ok minv coloring A n blocks par md S Hm W Hb E) as (OK & _).
  pose proof (phases_sep_make minv coloring A blocks par md S back HC E) as HP. split; intros HE i Hi.
  - pose proof (sweep_rhs_exec n S back b x res m' OK HP Hx HE) as H. split; rewrite H; reflexivity.
  - pose proof (sweep_res_exec n S back x res m' OK HP Hx Hr HE) as H. split; rewrite H; reflexivity.
Qed.
Print Assumptions C22_parallel_sweep_schedule_independent.

(** no schedule runs into a data race, none blocks, and all of them end *)
Theorem C22_parallel_sweep_race_free :
  forall (B : Blk) minv coloring (A : @spmat B) blocks par md S back b m phase s,
  coloring_ok coloring -> bs_make minv coloring A blocks par md = Ret S ->
  In phase (par_rhs S back b) \/ In phase (par_res S back) ->
  steps loc_eqb (m, phase) s ->
  ~ race (snd s) /\ (finished (snd s) \/ exists s', step loc_eqb s s') /\ Acc (fun s' s => step loc_eqb s s') s.
Proof.
  intros B minv coloring A blocks par md S back b m phase s HC E HI HS.
  pose proof (phases_sep_make minv coloring A blocks par md S back HC E) as HP. unfold phases_sep in HP.
  split; [|split].
  - destruct HI as [HI|HI]; apply in_map_iff in HI as (ks & <- & Hk); rewrite Forall_forall in HP; specialize (HP ks Hk).
    + eapply (no_race loc_eqb loc_eqb_ok (fps S ks)); [|exact HS]. apply (pool_rhs S b ks HP).
    + eapply (no_race loc_eqb loc_eqb_ok (fps S ks)); [|exact HS]. apply (pool_res S ks HP).
  - destruct s as [m1 ps]. apply progress.
  - apply schedules_end.
Qed.
Print Assumptions C22_parallel_sweep_race_free.

(** the order in which the blocks of one colour are taken does not matter *)
Theorem C22_order_within_colour_irrelevant :
  forall (B : Blk) n minv coloring (A : @spmat B) blocks par md S back x b phases',
  wf_mat n n A -> (forall bl i, In bl blocks -> In i bl -> i < n) -> keeps_size minv -> coloring_ok coloring ->
  bs_make minv coloring A blocks par md = Ret S -> length x = n ->
  Forall2 (@Permutation nat) (bs_phases S back) phases' ->
  fold_left (fun x k => block_rhs A (nth k (bs_blocks S) []) (nth k (bs_dinv S) []) b x) (concat phases') x = bs_rhs S 1 back x b.
Proof.
  intros B n minv coloring A blocks par md S back x b ph W Hb Hm HC E Hx HP.
  destruct (bs_make_ok minv coloring A n blocks par md S Hm W Hb E) as (OK & EA & _).
  pose proof (phases_sep_make minv coloring A blocks par md S back HC E) as HS.
  unfold bs_rhs, bs_order. simpl. rewrite <- EA. symmetry. apply (phases_perm n S b _ _ OK HS HP x Hx).
Qed.
Print Assumptions C22_order_within_colour_irrelevant.

(** *** adjoint and energy *)
(** SmoothBack is the adjoint iteration of Smooth, also for parallel smoothers (which only reverse the order of colours) *)
Theorem C21_block_back_is_adjoint :
  forall (B : Blk) (L : BlkLaws B) n minv coloring (A : @spmat B) blocks par md S,
  block_input n A blocks -> keeps_size minv -> coloring_ok coloring ->
  (forall m D, dims m D -> dsym m D -> dsym m (minv D)) -> (forall k, k < n -> mtr (nth k md m0) = nth k md m0) ->
  bs_make minv coloring A blocks par md = Ret S ->
  exists C C', lin n n C /\ lin n n C' /\
    (forall u v, length u = n -> length v = n -> vdot (C u) v = vdot u (C' v)) /\
    smoother_contract n (matvec A) C (bs_smooth S false) /\
    smoother_contract n (matvec A) C' (bs_smooth S true).
Proof.
  intros B L n minv coloring A blocks par md S (W & HS & Hb) Hm HC Hsym Hmd E.
  destruct (bs_make_ok minv coloring A n blocks par md S Hm W Hb E) as (OK & EA & EB & ED & _).
  pose proof (phases_sep_make minv coloring A blocks par md S true HC E) as HP.
  exists (bs_C n S false), (bs_C n S true). rewrite <- EA in *.
  split; [now apply (bs_C_lin L)|]. split; [now apply (bs_C_lin L)|]. split; [|split; now apply (bs_contract L)].
  apply (bs_adj L n S OK HS); auto. intros k. unfold b_D, b_blk. destruct (Nat.lt_ge_cases k (length (bs_blocks S))) as [Hk|Hk].
  - rewrite ED. rewrite nth_indep with (d' := (fun bl => minv (diag_block (bs_A S) md bl)) []) by now rewrite map_length.
    rewrite (map_nth (fun bl => minv (diag_block (bs_A S) md bl))). apply Hsym. apply diag_block_dims.
    intros i j Hi Hj. rewrite !diag_block_ent by auto. rewrite (Nat.eqb_sym j i).
    assert (Hd : forall q, q < length (nth k (bs_blocks S) []) -> nth q (nth k (bs_blocks S) []) 0 < n)
      by (intros q Hq; apply (bo_blk _ _ OK k); now apply nth_In).
    destruct (Nat.eqb_spec i j); simpl.
    + subst. destruct (negb _). symmetry; apply Hmd; auto. apply HS; auto.
    + apply HS; auto.
  - rewrite !nth_overflow by (rewrite ?ED, ?map_length; auto). intros i j Hi; simpl in Hi; lia.
Qed.
Print Assumptions C21_block_back_is_adjoint.

(** with exact block inverses of (modified) diagonal blocks D_k with A_kk <= 2 D_k no sweep increases the energy
    <Ax,x> - 2<b,x> (the A-norm of the error) *)
Theorem C21_block_energy :
  forall (B : Blk) (L : BlkLaws B) (le : K B -> K B -> Prop), KOrder le ->
  forall n minv coloring (A : @spmat B) blocks par md S back x b res res_updated update_res x_zero,
  block_input n A blocks -> keeps_size minv -> bs_make minv coloring A blocks par md = Ret S ->
  flags_ok n (matvec A) x b res res_updated x_zero ->
  (forall bl v, In bl (map sort_nat blocks) -> length v = length bl ->
     dmul (diag_block A md bl) (dmul (minv (diag_block A md bl)) v) = v) ->
  (forall bl w, In bl (map sort_nat blocks) -> length w = length bl ->
     le (vdot (dmul (diag_block A [] bl) w) w) (kadd (vdot (dmul (diag_block A md bl) w) w) (vdot (dmul (diag_block A md bl) w) w))) ->
  let x' := fst (bs_smooth S back x b res res_updated update_res x_zero) in
  le (energy (matvec A) b x') (energy (matvec A) b x).
Proof.
  intros B L le KO n minv coloring A blocks par md S back x b res ru ur xz (W & HS & Hb) Hm E F Hinv Hle.
  destruct (bs_make_ok minv coloring A n blocks par md S Hm W Hb E) as (OK & EA & EB & ED & _).
  pose proof (bs_contract L n S back OK) as C. rewrite EA in C. specialize (C HS x b res ru ur xz F).
  destruct (bs_smooth _ _ _ _ _ _ _ _) as [x' res']. destruct C as (-> & _). cbn [fst].
  destruct F as (Hx & Hbb & _). pose proof (matvec_lin L n n A W) as AL. assert (HA : length A = n) by apply W.
  unfold bs_C. rewrite EA. apply (seq_op_energy L le KO (matvec A) n); auto. apply (b_C_lins L n S _ OK).
  intros c y Hc Hy. apply in_map_iff in Hc as (k & <- & _).
  pose proof (b_C_lin L n S k OK) as CL. set (r := residual (matvec A) b y). assert (Hr : length r = n) by (unfold r, residual; auto with len).
  rewrite (energy_add L n); auto with len.
  2:{ intros p q Hp Hq. now apply (matvec_self_adjoint L n). }
  fold r.
  destruct (Nat.lt_ge_cases k (length (bs_blocks S))) as [Hk|Hk].
  2:{ unfold b_C, bstep, b_blk. rewrite (nth_overflow (bs_blocks S)) by auto. rewrite scatter_nil_l.
      rewrite (lin_zero L n n) by auto. rewrite !(vdot_zero L). rewrite (vdot_comm L r), !(vdot_zero L).
      refine (le_eq2 le _ _ _ _ _ _ (ko_refl _ KO (energy (matvec A) b y))); auto.
      unfold ksub. pose proof (lawK B L) as RT. rewrite (Radd_comm RT (energy _ _ _)), (Radd_0_l RT k0), (Ropp_def RT k0), (Radd_0_l RT). reflexivity. }
  assert (Hbl : In (b_blk S k) (map sort_nat blocks)) by (unfold b_blk; rewrite <- EB; now apply nth_In).
  assert (EDk : b_D S k = minv (diag_block A md (b_blk S k))).
  { unfold b_D. rewrite ED, nth_indep with (d' := (fun bl => minv (diag_block A md bl)) []) by now rewrite map_length.
    rewrite (map_nth (fun bl => minv (diag_block A md bl))). reflexivity. }
  set (bl := b_blk S k) in *. set (g := gather bl r). assert (Hg : length g = length bl) by apply gather_length.
  set (w := dmul (b_D S k) g). assert (Hw : length w = length bl).
  { unfold w. apply dmul_length. apply (bo_dims _ _ OK k). }
  assert (Hbn : forall i, In i bl -> i < n) by (apply (bo_blk _ _ OK)).
  assert (E1 : vdot (matvec A (b_C n S k r)) (b_C n S k r) = vdot (dmul (diag_block A [] bl) w) w).
  { change (b_C n S k r) with (scatter bl w (vzero n)). rewrite (vdot_comm L), (scatter_gather L n) by (auto with len).
    rewrite (gather_A_scatter L A n) by auto. apply (vdot_comm L). }
  assert (E2 : vdot r (b_C n S k r) = vdot (dmul (diag_block A md bl) w) w).
  { change (b_C n S k r) with (scatter bl w (vzero n)). rewrite (vdot_comm L), (scatter_gather L n) by auto. fold g.
    rewrite (vdot_comm L). f_equal. unfold w. rewrite EDk. symmetry. now apply Hinv. }
  rewrite E1, E2. pose proof (Hle bl w Hbl Hw) as H.
  set (p := vdot (dmul (diag_block A [] bl) w) w) in *. set (q := vdot (dmul (diag_block A md bl) w) w) in *.
  apply (ko_add _ KO _ _ (ksub (energy (matvec A) b y) (kadd q q))) in H.
  pose proof (lawK B L) as RT.
  refine (le_eq2 le _ _ _ _ _ _ H).
  - unfold ksub. rewrite !(Radd_assoc RT). rewrite (Radd_comm RT p). reflexivity.
  - unfold ksub. rewrite (Radd_comm RT (energy _ _ _)), (Radd_assoc RT), (Ropp_def RT), (Radd_0_l RT). reflexivity.
Qed.
Print Assumptions C21_block_energy.

(** a block whose inverse is exact leaves no residual on its dofs: the last block of a sequential Smooth *)
Theorem C21_last_block_solved :
  forall (B : Blk) (L : BlkLaws B) n minv coloring (A : @spmat B) blocks S x b res res_updated update_res x_zero i,
  block_input n A blocks -> keeps_size minv -> bs_make minv coloring A blocks false [] = Ret S ->
  flags_ok n (matvec A) x b res res_updated x_zero ->
  (forall v bl, In bl (map sort_nat blocks) -> length v = length bl -> dmul (diag_block A [] bl) (dmul (minv (diag_block A [] bl)) v) = v) ->
  In i (last blocks []) ->
  let x' := fst (bs_smooth S false x b res res_updated update_res x_zero) in
  ent (matvec A x') i = ent b i.
Proof.
  intros B L n minv coloring A blocks S x b res ru ur xz i (W & HS & Hb) Hm E F Hinv Hi.
  destruct (bs_make_ok minv coloring A n blocks false [] S Hm W Hb E) as (OK & EA & EB & ED & EP).
  pose proof (bs_contract L n S false OK) as C. rewrite EA in C. specialize (C HS x b res ru ur xz F).
  destruct (bs_smooth _ _ _ _ _ _ _ _) as [x' res']. destruct C as (Ex & _). cbn [fst].
  destruct F as (Hx & Hbb & _). pose proof (matvec_lin L n n A W) as AL. assert (HA : length A = n) by apply W.
  destruct blocks as [|b0 bs0] using rev_ind; [easy|]. clear IHbs0. rewrite last_last in Hi.
  assert (EO : bs_order S false = seq 0 (length bs0) ++ [length bs0]).
  { unfold bs_order, bs_phases. rewrite EP, EB, map_length, app_length. simpl. replace (length bs0 + 1) with (Datatypes.S (length bs0)) by lia.
    assert (G : forall l : list nat, concat (map (fun k => [k]) l) = l) by (induction l; simpl; congruence). rewrite G. apply seq_S. }
  unfold bs_C in Ex. rewrite EO, EA, map_app in Ex.
  pose proof (b_C_lins L n S (seq 0 (length bs0)) OK) as L1. pose proof (b_C_lins L n S [length bs0] OK) as L2.
  rewrite (seq_op_app L) in Ex by (auto; unfold residual; auto with len).
  pose proof (seq_op_lin L _ n _ AL L1) as S1. pose proof (seq_op_lin L _ n _ AL L2) as S2.
  rewrite <- (then_step L n) in Ex by auto. set (y := x +v seq_op _ _ _ _) in *.
  assert (Hy : length y = n) by (unfold y, residual; auto 8 with len).
  simpl map in Ex. cbn [seq_op] in Ex. pose proof (b_C_lin L n S (length bs0) OK) as CL.
  rewrite (then_op_zero_r L n) in Ex by (auto; unfold residual; auto with len).
  set (bl := sort_nat b0). assert (Ebl : b_blk S (length bs0) = bl).
  { unfold b_blk. rewrite EB, map_app, app_nth2, map_length, Nat.sub_diag by (rewrite map_length; lia). reflexivity. }
  assert (EDl : b_D S (length bs0) = minv (diag_block A [] bl)).
  { unfold b_D. rewrite ED, EB, map_app, map_app, app_nth2, !map_length, Nat.sub_diag by (rewrite !map_length; lia). reflexivity. }
  set (r := residual (matvec A) b y) in *. assert (Hr : length r = n) by (unfold r, residual; auto with len).
  assert (Hbn : forall j, In j bl -> j < n).
  { intros j Hj. apply (Permutation_in _ (sort_nat_perm b0)) in Hj. eapply Hb; eauto. apply in_or_app. right. now left. }
  assert (Hib : In i bl) by (apply (Permutation_in _ (Permutation_sym (sort_nat_perm b0))); auto).
  assert (G : gather bl (matvec A (b_C n S (length bs0) r)) = gather bl r).
  { unfold b_C, bstep. rewrite Ebl, EDl. rewrite (gather_A_scatter L A n); auto.
    - apply Hinv. rewrite map_app. apply in_or_app. right. now left. apply gather_length.
    - apply dmul_length. apply Hm, diag_block_dims. }
  assert (G' : ent (matvec A (b_C n S (length bs0) r)) i = ent r i).
  { unfold gather in G. clear - G Hib. induction bl; [easy|]. simpl in G. injection G as G1 G2. destruct Hib as [->|H]; auto. }
  rewrite Ex. rewrite (lin_add _ _ _ AL) by auto with len. rewrite (ent_vadd L) by (side_len n). rewrite G'.
  unfold r, residual. rewrite (ent_vsub L) by (side_len n). ag (lawX B L).
Qed.
Print Assumptions C21_last_block_solved.

(** *** C60: MultAdd, one uncoloured parallel loop over all blocks *)
Lemma multadd_len {B : Blk} (S : BSmoother B) s b ks x :
  length (fold_left (fun x k => let bl := nth k (bs_blocks S) [] in scatter bl (vsc s (dmul (nth k (bs_dinv S) []) (gather bl b))) x) ks x) = length x.
Proof. revert x. induction ks; intros x; simpl; auto. rewrite IHks. apply scatter_length. Qed.
Theorem C60_block_multadd_disjoint_blocks :
  forall (B : Blk) n minv coloring (A : @spmat B) blocks par md S s b x res m',
  wf_mat n n A -> (forall bl i, In bl blocks -> In i bl -> i < n) -> keeps_size minv ->
  bs_make minv coloring A blocks par md = Ret S -> length x = n ->
  (forall k l i, k < l < length blocks -> ~ (In i (nth k blocks []) /\ In i (nth l blocks []))) ->
  exec loc_eqb (mem_of x res) (par_multadd S s b) m' ->
  forall i, i < n -> m' (true, i) = ent (bs_multadd S s b x) i /\ m' (false, i) = ent res i.
Proof.
  intros B n minv coloring A blocks par md S s b x res m' W Hb Hm E Hx Hd HE i Hi.
  destruct (bs_make_ok minv coloring A n blocks par md S Hm W Hb E) as (OK & EA & EB & _).
  set (fs := map (fun k => ext_fp (fun j => In j (nth k (bs_blocks S) []))) (seq 0 (length (bs_blocks S)))).
  assert (HP : pool_ok fs (par_multadd S s b)).
  { split.
    - unfold fs, par_multadd. induction (seq 0 (length (bs_blocks S))) as [|k l IH]; simpl; constructor; auto.
      apply within_upd; [|exact I]. intros [j u] Hp. now apply in_combine_l in Hp.
    - unfold fs. apply FOP_map.
      assert (G : forall a m, a + m <= length (bs_blocks S) -> ForallOrdPairs (fun k l => apart (ext_fp (fun j => In j (nth k (bs_blocks S) []))) (ext_fp (fun j => In j (nth l (bs_blocks S) [])))) (seq a m)).
      { intros a m. revert a. induction m; intros a Ha; simpl; constructor; [|apply IHm; lia].
        apply Forall_forall. intros l Hl. apply in_seq in Hl. intros [c j]. unfold ext_fp. simpl. rewrite EB in *. rewrite map_length in Ha.
        assert (Q : forall q, q < length blocks -> forall j, In j (nth q (map sort_nat blocks) []) -> In j (nth q blocks [])).
        { intros q Hq z Hz. change (@nil nat) with (sort_nat []) in Hz. rewrite map_nth in Hz. now apply (Permutation_in _ (sort_nat_perm _)). }
        assert (Hno : ~ (In j (nth a (map sort_nat blocks) []) /\ In j (nth l (map sort_nat blocks) []))).
        { intros [H1 H2]. apply (Hd a l j); try lia. split; apply Q; auto; lia. }
        tauto. }
      apply G. lia. }
  pose proof (exec_deterministic loc_eqb loc_eqb_ok fs _ _ _ HP HE) as HD.
  assert (R : meq (run_all loc_eqb (par_multadd S s b) (mem_of x res)) (mem_of (bs_multadd S s b x) res)).
  { clear - OK Hx. unfold par_multadd, bs_multadd. revert x Hx. induction (seq 0 (length (bs_blocks S))) as [|k l IH]; intros x Hx; simpl.
    apply meq_refl. eapply meq_trans; [apply run_all_meq, run_upd_x|apply (IH (scatter _ _ x)); now rewrite scatter_length].
    intros [j u] Hp. apply in_combine_l in Hp. simpl. rewrite Hx. apply (bo_blk _ _ OK k j Hp). }
  split; rewrite (HD _), (R _); reflexivity.
Qed.
Print Assumptions C60_block_multadd_disjoint_blocks.

(** ... sequentially the result is x + s * sum_k E_k D_k E_k^T b for any blocks *)
Fixpoint vsum {B : Blk} (n : nat) (l : list (list (X B))) : list (X B) :=
  match l with [] => vzero n | v :: l' => v +v vsum n l' end.
Theorem C60_block_multadd_is_additive_schwarz :
  forall (B : Blk) (L : BlkLaws B) n minv coloring (A : @spmat B) blocks par md S s b x,
  wf_mat n n A -> (forall bl i, In bl blocks -> In i bl -> i < n) -> keeps_size minv ->
  bs_make minv coloring A blocks par md = Ret S -> length x = n -> length b = n ->
  bs_multadd S s b x
  = x +v vsc s (vsum n (map (fun bl => scatter bl (dmul (minv (diag_block A md bl)) (gather bl b)) (vzero n)) (map sort_nat blocks))).
Proof.
  intros B L n minv coloring A blocks par md S s b x W Hb Hm E Hx Hbb.
  destruct (bs_make_ok minv coloring A n blocks par md S Hm W Hb E) as (OK & EA & EB & ED & _).
  unfold bs_multadd. rewrite ED, EB. clear E EA OK EB ED.
  assert (Hs : forall bl i, In bl (map sort_nat blocks) -> In i bl -> i < n).
  { intros bl i H Hi. apply in_map_iff in H as (b0 & <- & H). apply (Permutation_in _ (sort_nat_perm b0)) in Hi. eauto. }
  generalize (map sort_nat blocks) as bls. clear - L Hx Hbb Hm. intros bls.
  revert x Hx. induction bls as [|bl bls IH]; intros x Hx.
  - simpl. vx L n. rewrite (xsc_0 L). ag (lawX B L).
  - simpl length. cbn [seq fold_left]. rewrite <- seq_shift, fold_left_map'. cbn [map nth].
    rewrite IH by (now rewrite scatter_length). cbn [vsum].
    assert (Hv : length (vsum n (map (fun bl => scatter bl (dmul (minv (diag_block A md bl)) (gather bl b)) (vzero n)) bls)) = n).
    { clear. induction bls; simpl; auto with len. }
    rewrite (scatter_zero L n) by auto.
    pose proof (scatter_lin L n bl (length bl) eq_refl) as SL.
    assert (Hd : length (dmul (minv (diag_block A md bl)) (gather bl b)) = length bl).
    { apply dmul_length. apply (Hm (length bl)). apply diag_block_dims. }
    rewrite (lin_sc _ _ _ SL) by auto. vx L n. rewrite (sc_add B L). ag (lawX B L).
Qed.
Print Assumptions C60_block_multadd_is_additive_schwarz.

(** *** examples *)
(** a greedy colouring satisfies the contract of ComputeColoring *)
Definition meets (a b : list Z) : bool := existsb (fun z => existsb (Z.eqb z) b) a.
Definition greedy_col (ext : list (list Z)) (cols : list nat) (k : nat) : nat :=
  match find (fun c => forallb (fun l => negb ((nth l cols 0 =? c) && meets (nth l ext []) (nth k ext []))) (seq 0 k)) (seq 0 (S k)) with
  | Some c => c | None => k end.
Definition greedy_cols (ext : list (list Z)) (n : nat) : list nat :=
  fold_left (fun cols k => cols ++ [greedy_col ext cols k]) (seq 0 n) [].
Definition greedy (ext : list (list Z)) : list nat * nat := (greedy_cols ext (length ext), length ext).
Lemma greedy_ok : coloring_ok greedy.
Proof.
  intros ext bc mc E. injection E as <- <-.
  assert (G : forall n, length (greedy_cols ext n) = n /\ (forall k, k < n -> nth k (greedy_cols ext n) 0 <= k) /\
     forall k l, k < l < n -> nth k (greedy_cols ext n) 0 = nth l (greedy_cols ext n) 0 -> meets (nth k ext []) (nth l ext []) = false).
  { induction n as [|n (H1 & H2 & H3)]. repeat split; simpl; intros; lia.
    unfold greedy_cols in *. rewrite seq_S, fold_left_app. simpl fold_left. set (cs := fold_left _ (seq 0 n) []) in *.
    simpl plus in *. set (c := greedy_col ext cs n).
    assert (Hc : c <= n /\ forall l, l < n -> nth l cs 0 = c -> meets (nth l ext []) (nth n ext []) = false).
    { unfold c, greedy_col. destruct (find _ _) as [c'|] eqn:Ef.
      - apply find_some in Ef as [Hin Hf]. apply in_seq in Hin. split; [lia|]. intros l Hl El. rewrite forallb_forall in Hf.
        specialize (Hf l ltac:(apply in_seq; lia)). rewrite El, Nat.eqb_refl in Hf. simpl in Hf. now apply negb_true_iff in Hf.
      - exfalso. assert (Hn : In n (seq 0 (S n))) by (apply in_seq; lia).
        pose proof (find_none _ _ Ef n Hn) as Hf. apply Bool.not_true_iff_false in Hf. apply Hf. apply forallb_forall.
        intros l Hl. apply in_seq in Hl. specialize (H2 l ltac:(lia)). destruct (Nat.eqb_spec (nth l cs 0) n); [lia|auto]. }
    destruct Hc as [Hc1 Hc2]. split; [rewrite app_length; simpl; lia|]. split.
    - intros k Hk. destruct (Nat.eq_dec k n) as [->|]. rewrite app_nth2, H1, Nat.sub_diag by lia. exact Hc1.
      rewrite app_nth1 by lia. apply H2. lia.
    - intros k l Hkl. rewrite (app_nth1 cs [c]) by lia. destruct (Nat.eq_dec l n) as [->|].
      + rewrite app_nth2, H1, Nat.sub_diag by lia. simpl. apply Hc2; lia.
      + rewrite app_nth1 by lia. apply H3. lia. }
  destruct (G (length ext)) as (G1 & G2 & G3). split; auto. split.
  - intros k Hk. specialize (G2 k Hk). lia.
  - intros k l z Hkl Ec [Hz1 Hz2]. specialize (G3 k l Hkl Ec). apply Bool.not_true_iff_false in G3. apply G3.
    apply existsb_exists. exists z. split; auto. apply existsb_exists. exists z. split; auto. apply Z.eqb_refl.
Qed.

(** 1d Laplacian with 7 dofs, overlapping and separated blocks *)
Definition bx_A : @spmat ZBlk :=
  map (fun i => (if 0 <? i then [(i - 1, (-1)%Z)] else []) ++ [(i, 2%Z)] ++ (if i <? 6 then [(i + 1, (-1)%Z)] else [])) (seq 0 7).
Definition bx_blocks : list (list nat) := [[1; 0]; [1; 2]; [5; 4]; [6]].
Lemma bx_input : block_input 7 bx_A bx_blocks.
Proof.
  split; [apply wf_matb_ok; reflexivity|]. split; [sym_tac|].
  intros bl i Hbl Hi. simpl in Hbl. decompose [or] Hbl; subst; simpl in Hi; try easy; lia.
Qed.
Definition bx_minv (D : @dense ZBlk) : @dense ZBlk := D.
Lemma bx_size : keeps_size bx_minv. Proof. intros m D H; exact H. Qed.
Definition bx_S : BSmoother ZBlk :=
  match bs_make bx_minv greedy bx_A bx_blocks true [] with Ret s => s | Err _ => @mkBS ZBlk [] [] [] true [] end.
Example bx_make : bs_make bx_minv greedy bx_A bx_blocks true [] = Ret bx_S.
Proof. reflexivity. Qed.
(** blocks 0 and 2 share a colour, block 1 overlaps block 0, block 3 is next to block 2 *)
Example bx_phases : filter (fun l => 0 <? length l) (bs_phases bx_S false) = [[0; 2]; [1; 3]].
Proof. reflexivity. Qed.
Example bx_run : bs_smooth bx_S true [1;1;1;1;1;1;1]%Z [0;3;0;0;2;0;5]%Z (vzero 7) false true false
  = ([23; -22; -2; 1; -3; 15; 9]%Z, [-68; 68; -17; -7; 24; -24; 2]%Z).
Proof. reflexivity. Qed.
Example bx_run_fw : bs_smooth bx_S false [1;1;1;1;1;1;1]%Z [0;3;0;0;2;0;5]%Z (vzero 7) false true false
  = ([-4; -31; 31; 1; 5; -1; 5]%Z, [-23; 92; -92; 34; -8; 12; -6]%Z).
Proof. reflexivity. Qed.

(** C60, refutation: two overlapping blocks may lose an update *)
Theorem C60_block_multadd_overlapping_blocks_refuted :
  exists (S : BSmoother ZBlk) b x m',
    bs_make bx_minv greedy [[(0, 1%Z)]] [[0]; [0]] false [] = Ret S /\
    exec loc_eqb (mem_of (B:=ZBlk) x []) (par_multadd S 1%Z b) m' /\ m' (true, 0) <> ent (bs_multadd S 1%Z b x) 0.
Proof.
  exists (@mkBS ZBlk [[(0, 1%Z)]] [[0]; [0]] [[[1%Z]]; [[1%Z]]] false []), [1%Z], [0%Z].
  eexists. split; [reflexivity|]. split.
  - exists [Done; Done]. split; [|repeat constructor].
    eapply steps_cons. apply (step_rd loc_eqb _ []). eapply steps_cons. apply (step_rd loc_eqb _ [_]).
    eapply steps_cons. apply (step_wr loc_eqb _ []). eapply steps_cons. apply (step_wr loc_eqb _ [_]). apply steps_refl.
  - vm_compute. discriminate.
Qed.
Print Assumptions C60_block_multadd_overlapping_blocks_refuted.

(** rationals: two overlapping 2x2 blocks of the 1d Laplacian with exact inverses: the hypotheses of the energy theorem *)
Definition qx_minv (D : @dense QcBlk) : @dense QcBlk :=
  match D with
  | [[a; b]; [c; d]] => let t := Qcinv (a * d - b * c)%Qc in [[(t * d)%Qc; (- (t * b))%Qc]; [(- (t * c))%Qc; (t * a)%Qc]]
  | _ => D
  end.
Lemma qx_size : keeps_size qx_minv.
Proof.
  intros m D [H1 H2]. destruct D as [|r1 [|r2 [|? ?]]]; try (split; assumption).
  - destruct r1 as [|? [|? [|]]]; split; assumption.
  - simpl in H1. subst m. pose proof (H2 0 ltac:(lia)) as E1. pose proof (H2 1 ltac:(lia)) as E2. simpl in E1, E2.
    destruct r1 as [|a [|b [|]]]; try discriminate. destruct r2 as [|c [|d [|]]]; try discriminate.
    split; auto. intros [|[|i]] Hi; simpl; auto; lia.
  - destruct r1 as [|? [|? [|]]]; try (split; assumption). destruct r2 as [|? [|? [|]]]; split; assumption.
Qed.
Example qx_input : block_input 3 ex_A [[0; 1]; [1; 2]].
Proof.
  destruct (ex_gs_input) as (W & S & _). split; auto. split; auto.
  intros bl i Hbl Hi. simpl in Hbl. decompose [or] Hbl; subst; simpl in Hi; try easy; lia.
Qed.
Ltac qc_to_q := apply Qc_is_canon; cbn -[Qred Qplus Qmult Qopp Qinv]; repeat rewrite !Qred_correct.
Lemma qx_block bl : In bl (map sort_nat [[0; 1]; [1; 2]]) -> diag_block ex_A [] bl = [[(qc 2 + qc 0)%Qc; (qc (-1) + qc 0)%Qc]; [(qc (-1) + qc 0)%Qc; (qc 2 + qc 0)%Qc]] /\ length bl = 2.
Proof. intros H. simpl in H. decompose [or] H; subst; try easy; split; reflexivity. Qed.
Example qx_exact : forall bl v, In bl (map sort_nat [[0; 1]; [1; 2]]) -> length v = length bl ->
  dmul (diag_block ex_A [] bl) (dmul (qx_minv (diag_block ex_A [] bl)) v) = v.
Proof.
  intros bl v H Hv. destruct (qx_block bl H) as [-> E]. rewrite E in Hv. destruct v as [|a [|b [|]]]; try discriminate.
  unfold qx_minv, dmul. cbn [map combine fold_left fst snd]. repeat f_equal.
  - cbn [act xadd x0 QcBlk]. 
    assert (E3 : ((qc 2 + qc 0) * (qc 2 + qc 0) - (qc (-1) + qc 0) * (qc (-1) + qc 0) = Q2Qc 3)%Qc) by reflexivity. rewrite E3.
    assert (E4 : Qcinv (Q2Qc 3) = Q2Qc (1 # 3)) by reflexivity. rewrite E4. unfold qc, inject_Z.
    qc_to_q. ring.
  - cbn [act xadd x0 QcBlk]. 
    assert (E3 : ((qc 2 + qc 0) * (qc 2 + qc 0) - (qc (-1) + qc 0) * (qc (-1) + qc 0) = Q2Qc 3)%Qc) by reflexivity. rewrite E3.
    assert (E4 : Qcinv (Q2Qc 3) = Q2Qc (1 # 3)) by reflexivity. rewrite E4. unfold qc, inject_Z.
    qc_to_q. ring.
Qed.
Example qx_psd : forall bl w, In bl (map sort_nat [[0; 1]; [1; 2]]) -> length w = length bl ->
  Qcle (vdot (B:=QcBlk) (dmul (diag_block ex_A [] bl) w) w)
       (kadd (b:=QcBlk) (vdot (dmul (diag_block ex_A [] bl) w) w) (vdot (dmul (diag_block ex_A [] bl) w) w)).
Proof.
  intros bl w H Hw. destruct (qx_block bl H) as [-> E]. rewrite E in Hw. destruct w as [|a [|b [|]]]; try discriminate.
  set (p := vdot _ _). assert (Hp : (0 <= p)%Qc).
  { unfold p, dmul. cbn [map combine fold_left fst snd vdot]. cbn [act xadd x0 dot kadd k0 QcBlk].
    unfold Qcle. cbn -[Qred Qplus Qmult Qopp Qinv Qle]. repeat rewrite !Qred_correct.
    assert (QE : (this a * this a + this b * this b + (this a - this b) * (this a - this b) ==
       (0 + (2 + 0) * this a + (-1 + 0) * this b) * this a + ((0 + (-1 + 0) * this a + (2 + 0) * this b) * this b + 0))%Q) by ring.
    change (inject_Z 2) with 2%Q. change (inject_Z (-1)) with (-1)%Q. change (inject_Z 0) with 0%Q. rewrite <- QE.
    assert (SQ : forall q : Q, (0 <= q * q)%Q).
    { intros [n d]. unfold Qle. simpl. nia. }
    pose proof (SQ (this a)). pose proof (SQ (this b)). pose proof (SQ (this a - this b)%Q).
    assert (Z0 : (0 == 0 + 0 + 0)%Q) by reflexivity. rewrite Z0. apply Qplus_le_compat; auto. apply Qplus_le_compat; auto. }
  change (kadd (b:=QcBlk) p p) with (p + p)%Qc. rewrite <- (Qcplus_0_l p) at 1. apply Qcplus_le_compat; [exact Hp|apply Qcle_refl].
Qed.
