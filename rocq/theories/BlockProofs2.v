From Verif Require Import Base AGroup LinAlg LinTools GSSpec GSModel GSProofs ArraysModel ArraysProofs Shm BlockModel BlockProofs.
From Coq Require Import Ring Ring_theory ZArith Sorted.
Open Scope nat_scope.

(** *** sorting the blocks *)
Lemma ins_nat_perm a l : Permutation (ins_nat a l) (a :: l).
Proof.
  induction l as [|b l IH]; simpl; auto. destruct (a <=? b); auto. rewrite IH. apply perm_swap.
Qed.
Lemma sort_nat_perm l : Permutation (sort_nat l) l.
Proof. induction l; simpl; auto. now rewrite ins_nat_perm, IHl. Qed.
Lemma ins_nat_sorted a l : StronglySorted Nat.le l -> StronglySorted Nat.le (ins_nat a l).
Proof.
  induction 1 as [|b l Hs IH Hf]; simpl. repeat constructor.
  destruct (Nat.leb_spec a b).
  - constructor. constructor; auto. constructor; auto. eapply Forall_impl; [|exact Hf]. intros; unfold Nat.le in *; lia.
  - constructor; auto. rewrite Forall_forall in *. intros x Hx. apply (Permutation_in _ (ins_nat_perm a l)) in Hx as [->|Hx]; auto. unfold Nat.le; lia.
Qed.
Lemma sort_nat_sorted l : StronglySorted Nat.le (sort_nat l).
Proof. induction l; simpl. constructor. now apply ins_nat_sorted. Qed.
Lemma sorted_Z l : StronglySorted Nat.le l -> StronglySorted Z.le (map Z.of_nat l).
Proof.
  induction 1; simpl; constructor; auto. rewrite Forall_forall in *. intros z Hz. apply in_map_iff in Hz as (x & <- & Hx).
  specialize (H0 x Hx). unfold Nat.le in H0. lia.
Qed.

Section Ext.
  Context {B : Blk}.
  Lemma ext_add_ok dn col : StronglySorted Z.le dn -> exists dn', ext_add dn col = Ret dn' /\ StronglySorted Z.le dn' /\
    forall z, In z dn' <-> In z dn \/ z = Z.of_nat col.
  Proof.
    intros Hs. unfold ext_add. destruct (find_in_sorted_array_spec (Z.of_nat col) dn Hs) as [H1 H2].
    destruct (in_dec Z.eq_dec (Z.of_nat col) dn) as [Hin|Hin].
    - destruct (H1 Hin) as (i & E & _). rewrite E. cbn [bind]. exists dn. split; auto. split; auto. intros z; split; auto. intros [ | -> ]; auto.
    - rewrite (H2 Hin). cbn [bind]. destruct (insert_into_sorted_array_spec (Z.of_nat col) dn Hs) as (a' & E & Ha & Hp).
      exists a'. split; auto. split; auto. intros z. split; intros H.
      + apply (Permutation_in _ Hp) in H as [<-|H]; auto.
      + apply (Permutation_in _ (Permutation_sym Hp)). destruct H as [H | -> ]; [now right|now left].
  Qed.
  Lemma ext_cols_ok cols dn : StronglySorted Z.le dn -> exists dn', foldM ext_add cols dn = Ret dn' /\ StronglySorted Z.le dn' /\
    forall z, In z dn' <-> In z dn \/ exists c, In c cols /\ z = Z.of_nat c.
  Proof.
    revert dn. induction cols as [|c cols IH]; intros dn Hs; simpl.
    - exists dn. repeat split; auto. intros [|(c & [] & _)]; auto.
    - destruct (ext_add_ok dn c Hs) as (d1 & E1 & S1 & I1). rewrite E1. cbn [bind].
      destruct (IH d1 S1) as (d2 & E2 & S2 & I2). exists d2. split; auto. split; auto. intros z. rewrite I2, I1. split.
      + intros [[H|H]|(c' & H & E)]; eauto 6.
      + intros [H|(c' & [<-|H] & E)]; eauto 6.
  Qed.
  Lemma ext_block_ok (A : @spmat B) bl : StronglySorted Nat.le bl -> exists e, ext_block A bl = Ret e /\ StronglySorted Z.le e /\
    forall j, In (Z.of_nat j) e <-> In j bl \/ exists i, In i bl /\ In j (map fst (getrow A i)).
  Proof.
    intros Hs. unfold ext_block.
    assert (G : forall l dn, StronglySorted Z.le dn -> exists e,
       foldM (fun dnums dof => foldM ext_add (map fst (getrow A dof)) dnums) l dn = Ret e /\ StronglySorted Z.le e /\
       forall z, In z e <-> In z dn \/ exists i c, In i l /\ In c (map fst (getrow A i)) /\ z = Z.of_nat c).
    { clear. induction l as [|i l IH]; intros dn Hs; simpl.
      - exists dn. repeat split; auto. intros [|(i & c & [] & _)]; auto.
      - destruct (ext_cols_ok (map fst (getrow A i)) dn Hs) as (d1 & E1 & S1 & I1). rewrite E1. cbn [bind].
        destruct (IH d1 S1) as (d2 & E2 & S2 & I2). exists d2. split; auto. split; auto. intros z. rewrite I2, I1. split.
        + intros [[H|(c & H & E)]|(i' & c & H & Hc & E)]; eauto 8.
        + intros [H|(i' & c & [<-|H] & Hc & E)]; eauto 8. }
    destruct (G bl (map Z.of_nat bl) (sorted_Z _ Hs)) as (e & E & S & I). exists e. split; auto. split; auto.
    intros j. rewrite I. split.
    - intros [H|(i & c & Hi & Hc & E')].
      + apply in_map_iff in H as (k & Ek & Hk). left. now replace j with k by lia.
      + right. exists i. split; auto. now replace j with c by lia.
    - intros [H|(i & Hi & Hj)]; [left; now apply in_map|]. right. eauto 6.
  Qed.
  Lemma ext_blocks_ok (A : @spmat B) bls : Forall (StronglySorted Nat.le) bls -> exists es, ext_blocks A bls = Ret es /\
    Forall2 (fun bl e => ext_block A bl = Ret e) bls es.
  Proof.
    intros H. unfold ext_blocks.
    assert (G : forall l acc, Forall (StronglySorted Nat.le) l -> exists es,
       foldM (fun acc bl => e <- ext_block A bl ;; Ret (acc ++ [e])) l acc = Ret (acc ++ es) /\ Forall2 (fun bl e => ext_block A bl = Ret e) l es).
    { clear. induction l as [|bl l IH]; intros acc H; simpl.
      - exists []. rewrite app_nil_r. auto.
      - inversion H; subst. destruct (ext_block_ok A bl H2) as (e & E & _). rewrite E. cbn [bind].
        destruct (IH (acc ++ [e]) H3) as (es & E' & F). exists (e :: es). rewrite E', <- app_assoc. auto. }
    destruct (G bls [] H) as (es & E & F). eauto.
  Qed.
End Ext.

Section Sweep.
  Context {B : Blk} (L : BlkLaws B).
  Local Notation X := (X B). Local Notation M := (M B). Local Notation K := (K B).
  Local Notation vec := (list X).
  Local Notation lin := (@lin B). Local Notation adj := (@adj B).
  Add Ring Kring7 : (lawK B L).
  Let LX := lawX B L.

  (** a constructed smoother *)
  Record bs_ok (n : nat) (S : BSmoother B) : Prop := mkBsOk {
    bo_wf : wf_mat n n (bs_A S);
    bo_blk : forall k i, In i (nth k (bs_blocks S) []) -> i < n;
    bo_dims : forall k, dims (length (nth k (bs_blocks S) [])) (nth k (bs_dinv S) []) }.
  Definition b_blk (S : BSmoother B) k := nth k (bs_blocks S) [].
  Definition b_D (S : BSmoother B) k := nth k (bs_dinv S) [].
  Definition b_C (n : nat) (S : BSmoother B) (k : nat) : vec -> vec := bstep n (b_blk S k) (b_D S k).
  Definition bs_C (n : nat) (S : BSmoother B) (back : bool) : vec -> vec :=
    seq_op (matvec (bs_A S)) n (map (b_C n S) (bs_order S back)).

  Lemma bs_make_ok minv coloring A n blocks par md S : (forall m D, dims m D -> dims m (minv D)) ->
    wf_mat n n A -> (forall bl i, In bl blocks -> In i bl -> i < n) ->
    bs_make minv coloring A blocks par md = Ret S ->
    bs_ok n S /\ bs_A S = A /\ bs_blocks S = map sort_nat blocks /\
    bs_dinv S = map (fun bl => minv (diag_block A md bl)) (bs_blocks S) /\ bs_parallel S = par.
  Proof.
    intros Hm W Hb E. unfold bs_make in E.
    assert (H : bs_A S = A /\ bs_blocks S = map sort_nat blocks /\ bs_dinv S = map (fun bl => minv (diag_block A md bl)) (bs_blocks S) /\ bs_parallel S = par).
    { destruct par.
      - destruct (ext_blocks A _); [|discriminate]. cbn [bind] in E. destruct (if _ =? 0 then _ else _). injection E as <-. auto.
      - injection E as <-. auto. }
    split; auto. destruct H as (H1 & H2 & H3 & H4). constructor.
    - now rewrite H1.
    - rewrite H2. intros k i Hi. destruct (nth_in_or_default k (map sort_nat blocks) []) as [H|H]; [|now rewrite H in Hi].
      apply in_map_iff in H as (bl & Ebl & H). rewrite <- Ebl in Hi. apply (Permutation_in _ (sort_nat_perm bl)) in Hi. eauto.
    - rewrite H3. intros k. destruct (Nat.lt_ge_cases k (length (bs_blocks S))).
      + rewrite nth_indep with (d' := (fun bl => minv (diag_block A md bl)) []) by now rewrite map_length.
        rewrite (map_nth (fun bl => minv (diag_block A md bl))). apply Hm, diag_block_dims.
      + rewrite !nth_overflow by (rewrite ?map_length; auto). split; auto. intros; simpl in *; lia.
  Qed.
  Lemma bs_make_total minv coloring (A : @spmat B) blocks par md : exists S, bs_make minv coloring A blocks par md = Ret S.
  Proof.
    unfold bs_make. destruct par; [|eauto].
    destruct (ext_blocks_ok A (map sort_nat blocks)) as (es & E & _).
    { apply Forall_forall. intros x Hx. apply in_map_iff in Hx as (y & <- & _). apply sort_nat_sorted. }
    rewrite E. cbn [bind]. destruct (if _ =? 0 then _ else _). eauto.
  Qed.

  Lemma b_C_lin n S k : bs_ok n S -> lin n n (b_C n S k).
  Proof. intros H. apply (bstep_lin L). apply (bo_dims _ _ H). Qed.
  Lemma b_C_lins n S ks : bs_ok n S -> Forall (lin n n) (map (b_C n S) ks).
  Proof. intros H. apply Forall_forall. intros C HC. apply in_map_iff in HC as (k & <- & _). now apply b_C_lin. Qed.
  Lemma bs_C_lin n S back : bs_ok n S -> lin n n (bs_C n S back).
  Proof. intros H. apply (seq_op_lin L). apply (matvec_lin L), (bo_wf _ _ H). now apply b_C_lins. Qed.

  Lemma bs_rhs_fold n S b ks x : bs_ok n S -> length x = n -> length b = n ->
    fold_left (fun x k => block_rhs (bs_A S) (b_blk S k) (b_D S k) b x) ks x
    = x +v seq_op (matvec (bs_A S)) n (map (b_C n S) ks) (residual (matvec (bs_A S)) b x).
  Proof.
    intros H. revert x. induction ks as [|k ks IH]; intros x Hx Hb.
    - simpl. symmetry. now apply (vadd_zero L).
    - cbn [fold_left map seq_op]. rewrite (block_rhs_step L _ n) by (auto; apply (bo_wf _ _ H)).
      pose proof (b_C_lin n S k H) as CL. pose proof (matvec_lin L n n _ (bo_wf _ _ H)) as AL.
      fold (b_C n S k). rewrite IH; auto. apply (then_step L n); auto. apply (seq_op_lin L); auto using b_C_lins.
      unfold residual; auto 6 with len.
  Qed.
  Lemma bs_res_fold n S b ks x : bs_ok n S -> sym_mat n (bs_A S) -> length x = n -> length b = n ->
    let x' := x +v seq_op (matvec (bs_A S)) n (map (b_C n S) ks) (residual (matvec (bs_A S)) b x) in
    fold_left (fun s k => block_res (bs_A S) (b_blk S k) (b_D S k) s) ks (x, residual (matvec (bs_A S)) b x)
    = (x', residual (matvec (bs_A S)) b x').
  Proof.
    intros H HS. revert x. induction ks as [|k ks IH]; intros x Hx Hb.
    - simpl. now rewrite (vadd_zero L n).
    - cbn [fold_left map seq_op]. rewrite (block_res_step L _ n) by (auto; try apply (bo_wf _ _ H); try apply (bo_blk _ _ H); apply (bo_dims _ _ H)).
      pose proof (b_C_lin n S k H) as CL. pose proof (matvec_lin L n n _ (bo_wf _ _ H)) as AL.
      fold (b_C n S k). cbv zeta in *.
      assert (Hx' : length (x +v b_C n S k (residual (matvec (bs_A S)) b x)) = n) by (unfold residual; auto 6 with len).
      rewrite IH by auto. rewrite (then_step L n); auto. apply (seq_op_lin L); auto using b_C_lins.
  Qed.
  Lemma bs_contract n S back : bs_ok n S -> sym_mat n (bs_A S) ->
    smoother_contract n (matvec (bs_A S)) (bs_C n S back) (bs_smooth S back).
  Proof.
    intros H HS x b res ru ur xz (Hx & Hb & Hres & Hr & Hz).
    pose proof (matvec_lin L n n _ (bo_wf _ _ H)) as AL. pose proof (bs_C_lin n S back H) as CL.
    assert (HR : length (residual (matvec (bs_A S)) b x) = n) by (unfold residual; auto with len).
    unfold bs_smooth. destruct ur.
    - assert (E : forall r, r = residual (matvec (bs_A S)) b x -> bs_res S 1 back x r = (x +v bs_C n S back (residual (matvec (bs_A S)) b x),
           residual (matvec (bs_A S)) b (x +v bs_C n S back (residual (matvec (bs_A S)) b x)))).
      { intros r ->. unfold bs_res. simpl. now apply (bs_res_fold n). }
      destruct ru; rewrite E; auto; try (apply (calc_residuum_ok L n); auto); repeat split; auto; unfold residual; auto 8 with len.
    - unfold bs_rhs. simpl. split; [|split; [auto|discriminate]]. now apply (bs_rhs_fold n).
  Qed.
  (** several steps *)
  Lemma bs_steps n S back steps x b : bs_ok n S -> sym_mat n (bs_A S) -> length x = n -> length b = n ->
    length (bs_rhs S steps back x b) = n /\
    bs_res S steps back x (residual (matvec (bs_A S)) b x)
    = (bs_rhs S steps back x b, residual (matvec (bs_A S)) b (bs_rhs S steps back x b)).
  Proof.
    intros H HS Hx Hb. pose proof (matvec_lin L n n _ (bo_wf _ _ H)) as AL. pose proof (bs_C_lin n S back H) as CL.
    induction steps as [|k [IH1 IH2]]; auto.
    assert (E : bs_rhs S (Datatypes.S k) back x b
       = bs_rhs S k back x b +v bs_C n S back (residual (matvec (bs_A S)) b (bs_rhs S k back x b))).
    { unfold bs_rhs in *. simpl. now apply (bs_rhs_fold n). }
    split. rewrite E. unfold residual; auto 8 with len.
    rewrite E. unfold bs_res in *. simpl. rewrite IH2. now apply (bs_res_fold n).
  Qed.

  (** *** tasks *)
  Lemma loc_eqb_ok a b : reflect (a = b) (loc_eqb a b).
  Proof.
    destruct a as [c i], b as [d j]. unfold loc_eqb. simpl. destruct (Bool.eqb_spec c d), (Nat.eqb_spec i j); constructor; congruence.
  Qed.
  Local Notation meq := (@meq X loc). Local Notation run := (@run X loc loc_eqb).
  Local Notation mset := (@mset X loc loc_eqb). Local Notation within := (@within X loc).
  Lemma mset_x (x res : vec) i v : i < length x -> meq (mset (mem_of x res) (true, i) v) (mem_of (upd x i v) res).
  Proof.
    intros H [c j]. unfold Shm.mset, mem_of, loc_eqb. simpl. destruct c; simpl; auto. rewrite ent_upd.
    apply Nat.ltb_lt in H. rewrite H, andb_true_r. reflexivity.
  Qed.
  Lemma mset_res (x res : vec) i v : i < length res -> meq (mset (mem_of x res) (false, i) v) (mem_of x (upd res i v)).
  Proof.
    intros H [c j]. unfold Shm.mset, mem_of, loc_eqb. simpl. destruct c; simpl; auto. rewrite ent_upd.
    apply Nat.ltb_lt in H. rewrite H, andb_true_r. reflexivity.
  Qed.
  Definition incs (l : list (nat * X)) (x : vec) : vec := fold_left (fun x p => vinc x (fst p) (snd p)) l x.
  Lemma run_upd_x l k : forall (x res : vec), (forall p, In p l -> fst p < length x) ->
    meq (run (t_upd true l k) (mem_of x res)) (run k (mem_of (incs l x) res)).
  Proof.
    induction l as [|p l IH]; intros x res H; simpl. apply meq_refl.
    eapply meq_trans; [apply run_meq, mset_x; apply H; now left|].
    apply (IH (vinc x (fst p) (snd p))). intros q Hq. rewrite vinc_length. apply H. now right.
  Qed.
  Lemma run_upd_res l k : forall (x res : vec), (forall p, In p l -> fst p < length res) ->
    meq (run (t_upd false l k) (mem_of x res)) (run k (mem_of x (incs l res))).
  Proof.
    induction l as [|p l IH]; intros x res H; simpl. apply meq_refl.
    eapply meq_trans; [apply run_meq, mset_res; apply H; now left|].
    apply (IH x (vinc res (fst p) (snd p))). intros q Hq. rewrite vinc_length. apply H. now right.
  Qed.
  Lemma run_t_row (r : @row B) (x res : vec) k : forall acc,
    run (t_row r acc k) (mem_of x res) = run (k (fold_left (fun s p => xadd s (act (snd p) (ent x (fst p)))) r acc)) (mem_of x res).
  Proof. induction r as [|p r IH]; intros acc; simpl; auto. Qed.
  Lemma run_t_hr A b bl (x res : vec) : forall k,
    run (t_hr A b bl k) (mem_of x res) = run (k (map (fun jj => xadd (ent b jj) (xopp (row_times (getrow A jj) x))) bl)) (mem_of x res).
  Proof. induction bl as [|j bl IH]; intros k; simpl; auto. rewrite run_t_row, IH. reflexivity. Qed.
  Lemma run_t_gather bl (x res : vec) : forall k, run (t_gather bl k) (mem_of x res) = run (k (gather bl res)) (mem_of x res).
  Proof. induction bl as [|j bl IH]; intros k; simpl; auto. rewrite IH. reflexivity. Qed.
  Lemma run_block_rhs A bl D b (x res : vec) : (forall i, In i bl -> i < length x) ->
    meq (run (t_block_rhs A bl D b) (mem_of x res)) (mem_of (block_rhs A bl D b x) res).
  Proof.
    intros H. unfold t_block_rhs, block_rhs. destruct (0 <? length bl); [|apply meq_refl].
    rewrite run_t_hr. eapply meq_trans; [apply run_upd_x|apply meq_refl].
    intros [i u] Hp. apply in_combine_l in Hp. simpl. auto.
  Qed.
  Lemma incs_art (r : @row B) w (y : vec) : incs (map (fun q => (fst q, act (mtr (snd q)) w)) r) y = add_row_trans r w y.
  Proof. unfold incs, add_row_trans. now rewrite fold_left_map'. Qed.
  Lemma run_t_rows A n l k : wf_mat n n A -> forall (x res : vec), length res = n ->
    meq (run (t_rows A l k) (mem_of x res))
        (run k (mem_of x (fold_left (fun res p => add_row_trans (getrow A (fst p)) (xopp (snd p)) res) l res))).
  Proof.
    intros [_ W]. induction l as [|p l IH]; intros x res Hr; simpl. apply meq_refl.
    eapply meq_trans; [apply run_upd_res|rewrite incs_art; apply IH; auto with len].
    intros q Hq. apply in_map_iff in Hq as (c & <- & Hc). simpl. rewrite Hr. eapply W; eauto.
  Qed.
  Lemma run_block_res A n bl D (x res : vec) : wf_mat n n A -> (forall i, In i bl -> i < length x) -> length res = n ->
    meq (run (t_block_res A bl D) (mem_of x res)) (let (x', r') := block_res A bl D (x, res) in mem_of x' r').
  Proof.
    intros W H Hr. unfold t_block_res, block_res. destruct (0 <? length bl); [|apply meq_refl].
    rewrite run_t_gather. cbv zeta. eapply meq_trans; [apply (run_t_rows A n); auto|].
    eapply meq_trans; [apply run_upd_x|apply meq_refl].
    intros [i u] Hp. apply in_combine_l in Hp. simpl. auto.
  Qed.

  (** footprints *)
  Definition ext_fp (E : nat -> Prop) : @fp loc := (fun l => E (snd l), fun l => E (snd l)).
  Lemma within_upd (E : nat -> Prop) c (l : list (nat * X)) k : (forall p, In p l -> E (fst p)) -> fits (ext_fp E) k -> fits (ext_fp E) (t_upd c l k).
  Proof.
    unfold fits, ext_fp. simpl. intros H Hk. induction l as [|p l IH]; simpl; auto.
    split. apply H; now left. intros v. split. apply H; now left. apply IH. intros; apply H; now right.
  Qed.
  Lemma within_row (E : nat -> Prop) (r : @row B) k : (forall p, In p r -> E (fst p)) -> (forall s, fits (ext_fp E) (k s)) -> forall acc, fits (ext_fp E) (t_row r acc k).
  Proof.
    intros H Hk. induction r as [|p r IH]; intros acc; simpl; auto. split. apply H; now left.
    intros v. apply IH. intros; apply H; now right.
  Qed.
  Lemma within_hr (E : nat -> Prop) (A : @spmat B) b bl : (forall i p, In i bl -> In p (getrow A i) -> E (fst p)) -> forall k,
    (forall hs, fits (ext_fp E) (k hs)) -> fits (ext_fp E) (t_hr A b bl k).
  Proof.
    induction bl as [|i bl IH]; intros H k Hk; simpl; auto.
    apply within_row. intros; eapply H; eauto; now left. intros s. apply IH; auto. intros; eapply H; eauto; now right.
  Qed.
  Lemma within_gather (E : nat -> Prop) bl : (forall i, In i bl -> E i) -> forall k : vec -> task, (forall hs, fits (ext_fp E) (k hs)) -> fits (ext_fp E) (t_gather bl k).
  Proof.
    induction bl as [|i bl IH]; intros H k Hk; simpl; auto. split. apply H; now left. intros v.
    apply IH; auto. intros; apply H; now right.
  Qed.
  Definition ext_of (A : @spmat B) (bl : list nat) (j : nat) : Prop := In j bl \/ exists i, In i bl /\ In j (map fst (getrow A i)).
  Lemma rhs_fits A bl D b : fits (ext_fp (ext_of A bl)) (t_block_rhs A bl D b).
  Proof.
    unfold t_block_rhs. destruct (0 <? length bl); [|exact I]. apply within_hr.
    - intros i p Hi Hp. right. exists i. split; auto. now apply in_map.
    - intros hs. apply within_upd; [|exact I]. intros [i u] Hp. apply in_combine_l in Hp. now left.
  Qed.
  Lemma res_fits A bl D : fits (ext_fp (ext_of A bl)) (t_block_res A bl D).
  Proof.
    unfold t_block_res. destruct (0 <? length bl); [|exact I]. apply within_gather. now left.
    intros hs. cbv zeta.
    assert (G : forall l k, (forall p, In p l -> In (fst p) bl) -> fits (ext_fp (ext_of A bl)) k -> fits (ext_fp (ext_of A bl)) (t_rows A l k)).
    { intros l. induction l as [|p l IH]; intros k H Hk; simpl; auto. apply within_upd.
      - intros q Hq. apply in_map_iff in Hq as (c & <- & Hc). right. exists (fst p). split. apply H; now left. simpl. now apply in_map.
      - apply IH; auto. intros; apply H; now right. }
    apply G.
    - intros [i u] Hp. now apply in_combine_l in Hp.
    - apply within_upd; [|exact I]. intros [i u] Hp. apply in_combine_l in Hp. now left.
  Qed.

  (** blocks that may run together *)
  Definition sep (S : BSmoother B) (k l : nat) : Prop :=
    forall j, ~ (ext_of (bs_A S) (b_blk S k) j /\ ext_of (bs_A S) (b_blk S l) j).
  Lemma sep_apart S k l : sep S k l -> apart (ext_fp (ext_of (bs_A S) (b_blk S k))) (ext_fp (ext_of (bs_A S) (b_blk S l))).
  Proof. intros H j. unfold ext_fp. simpl. specialize (H (snd j)). tauto. Qed.
  Lemma FOP_map {A C} (f : A -> C) (R : C -> C -> Prop) l : ForallOrdPairs (fun a b => R (f a) (f b)) l -> ForallOrdPairs R (map f l).
  Proof. induction 1; simpl; constructor; auto. rewrite Forall_forall in *. intros y Hy. apply in_map_iff in Hy as (x & <- & Hx). auto. Qed.
  Lemma FOP_impl {A} (R R' : A -> A -> Prop) l : (forall a b, R a b -> R' a b) -> ForallOrdPairs R l -> ForallOrdPairs R' l.
  Proof. intros H. induction 1 as [|a l HF HP IH]; constructor; auto. eapply Forall_impl; [|exact HF]. auto. Qed.
  Definition t_rhs S b k : @task B := t_block_rhs (bs_A S) (b_blk S k) (b_D S k) b.
  Definition t_res S k : @task B := t_block_res (bs_A S) (b_blk S k) (b_D S k).
  Definition fps S ks := map (fun k => ext_fp (ext_of (bs_A S) (b_blk S k))) ks.
  Lemma pool_rhs S b ks : ForallOrdPairs (sep S) ks -> pool_ok (fps S ks) (map (t_rhs S b) ks).
  Proof.
    intros H. split.
    - unfold fps. clear H. induction ks; simpl; constructor; auto. apply rhs_fits.
    - apply FOP_map. eapply FOP_impl; [|exact H]. intros; now apply sep_apart.
  Qed.
  Lemma pool_res S ks : ForallOrdPairs (sep S) ks -> pool_ok (fps S ks) (map (t_res S) ks).
  Proof.
    intros H. split.
    - unfold fps. clear H. induction ks; simpl; constructor; auto. apply res_fits.
    - apply FOP_map. eapply FOP_impl; [|exact H]. intros; now apply sep_apart.
  Qed.
  Lemma block_rhs_len A bl D (b x : vec) : length (block_rhs A bl D b x) = length x.
  Proof. unfold block_rhs. destruct (0 <? _); auto. apply scatter_length. Qed.
  Lemma rows_len A l (y : vec) : length (fold_left (fun res p => add_row_trans (getrow A (fst p)) (xopp (snd p)) res) l y) = length y.
  Proof. revert y. induction l; intros y; simpl; auto. rewrite IHl. apply add_row_trans_length. Qed.
  Lemma block_res_len A bl D (s : vec * vec) :
    length (fst (@block_res B A bl D s)) = length (fst s) /\ length (snd (block_res A bl D s)) = length (snd s).
  Proof. destruct s. unfold block_res. destruct (0 <? _); simpl; auto. rewrite scatter_length, rows_len. auto. Qed.
  Lemma run_all_rhs n S b ks : bs_ok n S -> forall x res, length x = n ->
    meq (run_all loc_eqb (map (t_rhs S b) ks) (mem_of x res))
        (mem_of (fold_left (fun x k => block_rhs (bs_A S) (b_blk S k) (b_D S k) b x) ks x) res).
  Proof.
    intros H. induction ks as [|k ks IH]; intros x res Hx; simpl. apply meq_refl.
    eapply meq_trans; [apply run_all_meq, run_block_rhs; rewrite Hx; apply (bo_blk _ _ H)|].
    apply IH. now rewrite block_rhs_len.
  Qed.
  Definition mem2 (s : vec * vec) := mem_of (fst s) (snd s).
  Lemma run_all_res n S ks : bs_ok n S -> forall s, length (fst s) = n -> length (snd s) = n ->
    meq (run_all loc_eqb (map (t_res S) ks) (mem2 s))
        (mem2 (fold_left (fun s k => block_res (bs_A S) (b_blk S k) (b_D S k) s) ks s)).
  Proof.
    intros H. induction ks as [|k ks IH]; intros s Hx Hr; simpl. apply meq_refl.
    assert (E : meq (run (t_res S k) (mem2 s)) (mem2 (block_res (bs_A S) (b_blk S k) (b_D S k) s))).
    { destruct s as [x r]. simpl in Hx, Hr.
      assert (Hbl : forall i, In i (b_blk S k) -> i < length x) by (rewrite Hx; apply (bo_blk _ _ H)).
      pose proof (run_block_res (bs_A S) n (b_blk S k) (b_D S k) x r (bo_wf _ _ H) Hbl Hr) as E.
      unfold t_res, mem2 at 1. simpl fst. simpl snd. destruct (block_res _ _ _ _). exact E. }
    eapply meq_trans; [apply run_all_meq, E|].
    destruct (block_res_len (bs_A S) (b_blk S k) (b_D S k) s) as [E1 E2]. apply IH; congruence.
  Qed.

  (** the whole sweep *)
  Definition phases_sep S back := Forall (ForallOrdPairs (sep S)) (bs_phases S back).
  Lemma fold_left_concat {A C} (f : C -> A -> C) ls x : fold_left f (concat ls) x = fold_left (fun x l => fold_left f l x) ls x.
  Proof. revert x. induction ls; intros x; simpl; auto. now rewrite fold_left_app, IHls. Qed.
  Lemma fold_rhs_len S b ks x : length (fold_left (fun x k => @block_rhs B (bs_A S) (b_blk S k) (b_D S k) b x) ks x) = length x.
  Proof. revert x. induction ks; intros x; simpl; auto. now rewrite IHks, block_rhs_len. Qed.
  Lemma fold_res_len S ks s : length (fst (fold_left (fun s k => @block_res B (bs_A S) (b_blk S k) (b_D S k) s) ks s)) = length (fst s) /\
     length (snd (fold_left (fun s k => @block_res B (bs_A S) (b_blk S k) (b_D S k) s) ks s)) = length (snd s).
  Proof.
    revert s. induction ks as [|k ks IH]; intros s; simpl; auto. destruct (IH (block_res (bs_A S) (b_blk S k) (b_D S k) s)) as [E1 E2].
    destruct (block_res_len (bs_A S) (b_blk S k) (b_D S k) s) as [E3 E4]. split; congruence.
  Qed.
  Lemma run_phases_rhs n S b pss : bs_ok n S -> forall x res, length x = n ->
    meq (run_phases loc_eqb (map (map (t_rhs S b)) pss) (mem_of x res))
        (mem_of (fold_left (fun x k => block_rhs (bs_A S) (b_blk S k) (b_D S k) b x) (concat pss) x) res).
  Proof.
    intros H. induction pss as [|ps pss IH]; intros x res Hx; simpl. apply meq_refl.
    rewrite fold_left_app. eapply meq_trans; [apply run_phases_meq, (run_all_rhs n); auto|]. apply IH. now rewrite fold_rhs_len.
  Qed.
  Lemma run_phases_res n S pss : bs_ok n S -> forall s, length (fst s) = n -> length (snd s) = n ->
    meq (run_phases loc_eqb (map (map (t_res S)) pss) (mem2 s))
        (mem2 (fold_left (fun s k => block_res (bs_A S) (b_blk S k) (b_D S k) s) (concat pss) s)).
  Proof.
    intros H. induction pss as [|ps pss IH]; intros s Hx Hr; simpl. apply meq_refl.
    rewrite fold_left_app. eapply meq_trans; [apply run_phases_meq, (run_all_res n); auto|].
    destruct (fold_res_len S ps s). apply IH; congruence.
  Qed.
  Lemma sweep_rhs_exec n S back b x res m' : bs_ok n S -> phases_sep S back -> length x = n ->
    exec_phases loc_eqb (mem_of x res) (par_rhs S back b) m' -> meq m' (mem_of (bs_rhs S 1 back x b) res).
  Proof.
    intros H HS Hx HE. eapply meq_trans; [|apply (run_phases_rhs n S b (bs_phases S back)); auto].
    apply (exec_phases_deterministic loc_eqb loc_eqb_ok (map (fps S) (bs_phases S back))); [|exact HE].
    unfold phases_sep in HS. clear HE. induction HS; simpl; constructor; auto. now apply pool_rhs.
  Qed.
  Lemma sweep_res_exec n S back x res m' : bs_ok n S -> phases_sep S back -> length x = n -> length res = n ->
    exec_phases loc_eqb (mem_of x res) (par_res S back) m' -> meq m' (mem2 (bs_res S 1 back x res)).
  Proof.
    intros H HS Hx Hr HE. eapply meq_trans; [|apply (run_phases_res n S (bs_phases S back) H (x, res)); auto].
    apply (exec_phases_deterministic loc_eqb loc_eqb_ok (map (fps S) (bs_phases S back))); [|exact HE].
    unfold phases_sep in HS. clear HE. induction HS; simpl; constructor; auto. now apply pool_res.
  Qed.

  (** *** blocks of one colour commute *)
  Lemma sweep_perm n S b ks ks' x : bs_ok n S -> ForallOrdPairs (sep S) ks -> Permutation ks ks' -> length x = n ->
    fold_left (fun x k => block_rhs (bs_A S) (b_blk S k) (b_D S k) b x) ks x
    = fold_left (fun x k => block_rhs (bs_A S) (b_blk S k) (b_D S k) b x) ks' x.
  Proof.
    intros H HS HP Hx. apply (vec_ext n); try (now rewrite fold_rhs_len). intros i Hi.
    assert (E : meq (run_all loc_eqb (map (t_rhs S b) ks) (mem_of x [])) (run_all loc_eqb (map (t_rhs S b) ks') (mem_of x []))).
    { apply (run_all_perm loc_eqb loc_eqb_ok _ _ (Permutation_map _ HP) (fps S ks)). now apply pool_rhs. }
    pose proof (run_all_rhs n S b ks H x [] Hx (true, i)) as E1. pose proof (run_all_rhs n S b ks' H x [] Hx (true, i)) as E2.
    specialize (E (true, i)). unfold mem_of at 2 in E1. unfold mem_of at 2 in E2. simpl in E1, E2. congruence.
  Qed.
  Lemma phases_perm n S b pss qss : bs_ok n S -> Forall (ForallOrdPairs (sep S)) pss -> Forall2 (@Permutation nat) pss qss ->
    forall x, length x = n ->
    fold_left (fun x k => block_rhs (bs_A S) (b_blk S k) (b_D S k) b x) (concat pss) x
    = fold_left (fun x k => block_rhs (bs_A S) (b_blk S k) (b_D S k) b x) (concat qss) x.
  Proof.
    intros H HS HP. induction HP; intros z Hz; simpl; auto. inversion HS; subst. rewrite !fold_left_app.
    rewrite (sweep_perm (length z) S b x y) by auto. apply IHHP; auto. now rewrite fold_rhs_len.
  Qed.
  Lemma op_of_folds n S ks ks' : bs_ok n S ->
    (forall b x, length x = n -> length b = n -> fold_left (fun x k => block_rhs (bs_A S) (b_blk S k) (b_D S k) b x) ks x
         = fold_left (fun x k => block_rhs (bs_A S) (b_blk S k) (b_D S k) b x) ks' x) ->
    forall r, length r = n -> seq_op (matvec (bs_A S)) n (map (b_C n S) ks) r = seq_op (matvec (bs_A S)) n (map (b_C n S) ks') r.
  Proof.
    intros H E r Hr. specialize (E r (vzero n) ltac:(auto with len) Hr).
    rewrite !(bs_rhs_fold n) in E by auto with len.
    pose proof (matvec_lin L n n _ (bo_wf _ _ H)) as AL.
    pose proof (seq_op_lin L _ n _ AL (b_C_lins n S ks H)) as L1. pose proof (seq_op_lin L _ n _ AL (b_C_lins n S ks' H)) as L2.
    unfold residual in E. rewrite (lin_zero L n n), (vsub_zero L n) in E by auto.
    rewrite !(vzero_add L n) in E by auto with len. exact E.
  Qed.
  Lemma nth_rev_list {A} (l : list A) d : map (fun J => nth (length l - 1 - J) l d) (seq 0 (length l)) = rev l.
  Proof.
    induction l as [|a l IH] using rev_ind; auto. rewrite app_length, rev_app_distr. simpl.
    replace (length l + 1) with (Datatypes.S (length l)) by lia. simpl. f_equal.
    - rewrite Nat.sub_0_r, Nat.sub_0_r. rewrite app_nth2 by lia. now rewrite Nat.sub_diag.
    - rewrite <- seq_shift, map_map, <- IH. apply map_ext_in. intros k Hk. apply in_seq in Hk.
      rewrite app_nth1 by lia. f_equal. lia.
  Qed.
  Lemma map_nth_seq' {A} (l : list A) d : map (fun J => nth J l d) (seq 0 (length l)) = l.
  Proof.
    induction l as [|a l IH]; auto. simpl. f_equal. rewrite <- seq_shift, map_map. exact IH.
  Qed.
  Lemma phases_back (S : BSmoother B) : bs_phases S true = rev (bs_phases S false).
  Proof.
    unfold bs_phases. destruct (bs_parallel S).
    - rewrite nth_rev_list, map_nth_seq'. reflexivity.
    - rewrite <- map_rev. set (nb := length (bs_blocks S)).
      rewrite <- (down_list0 nb), map_map. reflexivity.
  Qed.
  Lemma concat_rev {A} (l : list (list A)) : rev (concat l) = concat (map (@rev A) (rev l)).
  Proof. induction l; simpl; auto. rewrite rev_app_distr, map_app, concat_app, IHl. simpl. now rewrite app_nil_r. Qed.
  Lemma bs_C_back n S : bs_ok n S -> phases_sep S true -> forall r, length r = n ->
    bs_C n S true r = seq_op (matvec (bs_A S)) n (rev (map (b_C n S) (bs_order S false))) r.
  Proof.
    intros H HS r Hr. unfold bs_C. rewrite <- map_rev. apply op_of_folds; auto. intros b x Hx Hb.
    unfold bs_order. rewrite concat_rev, <- phases_back. apply (phases_perm n); auto.
    clear. induction (bs_phases S true); simpl; constructor; auto. apply Permutation_rev.
  Qed.
  Lemma bs_adj n S : bs_ok n S -> sym_mat n (bs_A S) -> (forall k, dsym (length (b_blk S k)) (b_D S k)) -> phases_sep S true ->
    adj n n (bs_C n S false) (bs_C n S true).
  Proof.
    intros H HS HD HP x y Hx Hy. rewrite bs_C_back by auto. pose proof (matvec_lin L n n _ (bo_wf _ _ H)) as AL.
    apply (seq_op_adj L); auto using b_C_lins.
    - intros u v Hu Hv. apply (matvec_self_adjoint L n); auto. apply (bo_wf _ _ H).
    - clear - H HD L. induction (bs_order S false) as [|k l IH]; simpl; constructor; auto.
      apply (bstep_adj L); [apply (bo_dims _ _ H)|apply HD|apply (bo_blk _ _ H)].
  Qed.
  (** sequential smoothers: every phase is one block *)
  Lemma phases_sep_seq S back : bs_parallel S = false -> phases_sep S back.
  Proof.
    intros E. unfold phases_sep, bs_phases. rewrite E. apply Forall_forall. intros l Hl.
    apply in_map_iff in Hl as (k & <- & _). repeat constructor.
  Qed.
End Sweep.
