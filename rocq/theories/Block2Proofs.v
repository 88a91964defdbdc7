(** Proofs about Block2Model.v *)
From Verif Require Import Base AGroup LinAlg LinTools GSSpec GSModel GSProofs GSProofs2 Shm BlockModel BlockProofs BlockProofs2 Block2Model.
From Coq Require Import Permutation.
Open Scope nat_scope.

Lemma mem_nat_in i l : mem_nat i l = true <-> In i l.
Proof. unfold mem_nat. rewrite existsb_exists. split. intros (j & H & E). apply Nat.eqb_eq in E. now subst. intros H. exists i. rewrite Nat.eqb_refl. auto. Qed.
Lemma mem_nat_out i l : mem_nat i l = false <-> ~ In i l.
Proof. rewrite <- mem_nat_in. destruct (mem_nat i l); split; congruence. Qed.

Section P.
  Context {B : Blk} (L : BlkLaws B).
  Local Notation X := (X B). Local Notation M := (M B). Local Notation K := (K B).
  Local Notation vec := (list X).
  Local Notation lin := (@lin B).
  Add Ring Kringb2 : (lawK B L).
  Let LX := lawX B L.

  #[local] Hint Resolve len_scatter : len.
  (** *** masks *)
  Definition mask (f : nat -> bool) (x : vec) : vec := map (fun i => if f i then ent x i else x0) (seq 0 (length x)).
  Lemma mask_length f x : length (mask f x) = length x.
  Proof. unfold mask. now rewrite map_length, seq_length. Qed.
  Lemma len_mask n f x : length x = n -> length (mask f x) = n.
  Proof. intros <-. apply mask_length. Qed.
  Hint Resolve len_mask : len.
  Lemma ent_mask f (x : vec) j : j < length x -> ent (mask f x) j = if f j then ent x j else x0.
  Proof.
    intros H. unfold mask. unfold ent at 1.
    rewrite nth_indep with (d' := (fun i => if f i then ent x i else x0) 0) by now rewrite map_length, seq_length.
    rewrite (map_nth (fun i => if f i then ent x i else x0)), seq_nth by auto. reflexivity.
  Qed.
  Lemma rt_filter f (r : @row B) (x : vec) : (forall p, In p r -> fst p < length x) ->
    row_times (filter (fun p => f (fst p)) r) x = row_times r (mask f x).
  Proof.
    induction r as [|p r IH]; intros H; auto. simpl filter. rewrite (row_times_cons L).
    rewrite ent_mask by (apply H; now left). rewrite <- IH by (intros; apply H; now right).
    destruct (f (fst p)).
    - rewrite (row_times_cons L). reflexivity.
    - rewrite (act_x0 L). ag LX.
  Qed.
  Lemma scatter_self n bl (up : vec) k : NoDup bl -> length up = length bl -> k < length bl -> (forall i, In i bl -> i < n) ->
    ent (scatter bl up (vzero n)) (nth k bl 0) = ent up k.
  Proof.
    intros ND. revert up k. induction ND as [|i bl Hi ND IH]; intros [|u up] k Hl Hk Hb; simpl in *; try lia.
    rewrite scatter_zero_cons by auto. rewrite (ent_vadd L) by (rewrite vunit_length; symmetry; auto using len_scatter, vzero_length).
    rewrite ent_vunit. destruct k as [|k].
    - rewrite scatter_other by auto. rewrite ent_vzero, Nat.eqb_refl. assert (Hn : i < n) by auto. apply Nat.ltb_lt in Hn. rewrite Hn.
      unfold ent; simpl. ag LX.
    - rewrite IH by (auto; lia). destruct (Nat.eqb_spec i (nth k bl 0)).
      + exfalso. subst i. apply Hi, nth_In. lia.
      + unfold ent; simpl. ag LX.
  Qed.
  Lemma scatter_gather_ent n bl (x : vec) j : NoDup bl -> (forall i, In i bl -> i < n) ->
    ent (scatter bl (gather bl x) (vzero n)) j = if mem_nat j bl then ent x j else x0.
  Proof.
    intros ND Hb. destruct (mem_nat j bl) eqn:E.
    - apply mem_nat_in in E. destruct (In_nth _ _ 0 E) as (k & Hk & <-). rewrite scatter_self by (auto; now rewrite gather_length).
      unfold gather, ent at 1. rewrite nth_indep with (d' := ent x 0) by now rewrite map_length. now rewrite (map_nth (ent x)).
    - apply mem_nat_out in E. rewrite scatter_other by auto. apply ent_vzero.
  Qed.
  Lemma assign_length bl (v x : vec) : length (assign bl v x) = length x.
  Proof. unfold assign. revert v x. induction bl; intros [|u v] x; simpl; auto. rewrite IHbl. apply upd_length. Qed.
  Lemma len_assign n bl (v x : vec) : length x = n -> length (assign bl v x) = n.
  Proof. intros <-. apply assign_length. Qed.
  Hint Resolve len_assign : len.
  Lemma assign_other bl (v x : vec) j : ~ In j bl -> ent (assign bl v x) j = ent x j.
  Proof.
    revert v x. induction bl as [|i bl IH]; intros [|u v] x H; auto. change (assign (i :: bl) (u :: v) x) with (assign bl v (upd x i u)).
    rewrite IH by (intros Hj; apply H; now right). rewrite ent_upd. destruct (Nat.eqb_spec i j); auto. subst. exfalso. apply H. now left.
  Qed.
  Lemma assign_at bl (v x : vec) k : NoDup bl -> length v = length bl -> k < length bl -> (forall i, In i bl -> i < length x) ->
    ent (assign bl v x) (nth k bl 0) = ent v k.
  Proof.
    intros ND. revert v x k. induction ND as [|i bl Hi ND IH]; intros [|u v] x k Hl Hk Hb; simpl in *; try lia.
    change (assign (i :: bl) (u :: v) x) with (assign bl v (upd x i u)). destruct k as [|k].
    - rewrite assign_other by auto. rewrite ent_upd, Nat.eqb_refl. assert (Hn : i < length x) by auto. apply Nat.ltb_lt in Hn. now rewrite Hn.
    - rewrite IH; auto; try lia. intros. rewrite upd_length. auto.
  Qed.

  (** *** what the set-up establishes for one block: the columns of its rows are split into L, U and the block itself *)
  Record b2ok (n : nat) (A : @spmat B) (fL fU : nat -> bool) (k : b2blk B) : Prop := mkB2ok {
    k_nd : NoDup (b2_dofs k);
    k_lt : forall i, In i (b2_dofs k) -> i < n;
    k_L : b2_L k = map (fun d => filter (fun p => fL (fst p)) (getrow A d)) (b2_dofs k);
    k_U : b2_U k = map (fun d => filter (fun p => fU (fst p)) (getrow A d)) (b2_dofs k);
    k_diag : b2_diag k = diag_block A [] (b2_dofs k);
    k_inv : dims (length (b2_dofs k)) (b2_inv k);
    k_part : forall j, j < n -> (fL j = true /\ fU j = false /\ ~ In j (b2_dofs k)) \/ (fL j = false /\ fU j = true /\ ~ In j (b2_dofs k)) \/
                                (fL j = false /\ fU j = false /\ In j (b2_dofs k)) }.

  Lemma wf_row n A i p : wf_mat n n A -> In p (@getrow B A i) -> fst p < n.
  Proof. intros [_ H]. apply H. Qed.
  Lemma mvrows_filter n A f bl (x : vec) : wf_mat n n A -> length x = n ->
    mvrows (map (fun d => filter (fun p => f (fst p)) (getrow A d)) bl) x = gather bl (matvec A (mask f x)).
  Proof.
    intros W Hx. unfold mvrows, gather. rewrite map_map. apply map_ext. intros d. rewrite ent_matvec. apply rt_filter.
    intros p Hp. rewrite Hx. eapply wf_row; eauto.
  Qed.
  Lemma mvrows_length rs (x : vec) : length (mvrows rs x) = length rs. Proof. apply map_length. Qed.
  Lemma b2_split n A fL fU k (x : vec) : wf_mat n n A -> b2ok n A fL fU k -> length x = n ->
    gather (b2_dofs k) (matvec A x)
    = (mvrows (b2_L k) x +v mvrows (b2_U k) x) +v dmul (b2_diag k) (gather (b2_dofs k) x).
  Proof.
    intros W H Hx. pose proof (matvec_lin L n n A W) as AL. assert (HA : length A = n) by apply W.
    rewrite (k_L _ _ _ _ _ H), (k_U _ _ _ _ _ H), (k_diag _ _ _ _ _ H). rewrite !(mvrows_filter n) by auto.
    rewrite <- (gather_A_scatter L A n) by (auto using gather_length; apply (k_lt _ _ _ _ _ H)).
    pose proof (gather_lin L n (b2_dofs k)) as GL.
    rewrite <- !(lin_add _ _ _ GL), <- !(lin_add _ _ _ AL) by auto 8 using len_scatter with len. f_equal. f_equal.
    apply (vec_ext n); auto 7 using len_scatter with len. intros j Hj.
    rewrite !(ent_vadd L) by (side_len n).
    rewrite !ent_mask by lia. rewrite scatter_gather_ent by (try apply (k_nd _ _ _ _ _ H); apply (k_lt _ _ _ _ _ H)).
    destruct (k_part _ _ _ _ _ H j Hj) as [(E1 & E2 & E3)|[(E1 & E2 & E3)|(E1 & E2 & E3)]]; rewrite E1, E2;
      [apply mem_nat_out in E3|apply mem_nat_out in E3|apply mem_nat_in in E3]; rewrite E3; ag LX.
  Qed.

  Lemma rupd_step n A fL fU k b x : wf_mat n n A -> b2ok n A fL fU k -> length x = n -> length b = n ->
    rupd k b x = x +v bstep n (b2_dofs k) (b2_inv k) (residual (matvec A) b x).
  Proof.
    intros W H Hx Hb. unfold rupd, bstep. rewrite <- (scatter_zero L n) by auto. f_equal. f_equal.
    assert (HA : length A = n) by apply W.
    unfold residual. rewrite (gather_vsub L n) by auto with len. rewrite (b2_split n A fL fU) by auto.
    set (m := length (b2_dofs k)).
    assert (length (gather (b2_dofs k) b) = m) by apply gather_length.
    assert (length (mvrows (b2_L k) x) = m) by (rewrite mvrows_length, (k_L _ _ _ _ _ H); apply map_length).
    assert (length (mvrows (b2_U k) x) = m) by (rewrite mvrows_length, (k_U _ _ _ _ _ H); apply map_length).
    assert (length (dmul (b2_diag k) (gather (b2_dofs k) x)) = m) by (apply dmul_length; rewrite (k_diag _ _ _ _ _ H); apply diag_block_dims).
    vx L m.
  Qed.

  (** transposed rows *)
  Lemma sub_trans_filter n A f bl (up y : vec) j : wf_mat n n A -> sym_mat n A -> (forall i, In i bl -> i < n) -> length y = n ->
    j < n -> let r := sub_trans (map (fun d => filter (fun p => f (fst p)) (getrow A d)) bl) up y in
    length r = n /\ ent r j = xadd (ent y j) (xopp (if f j then ent (matvec A (scatter bl up (vzero n))) j else x0)).
  Proof.
    intros W S Hb Hy Hj. assert (HA : length A = n) by apply W.
    assert (Hl : forall rs w (z : vec), length (sub_trans rs w z) = length z).
    { unfold sub_trans. induction rs; intros [|u w] z; simpl; auto. rewrite IHrs. apply add_row_trans_length. }
    cbv zeta. split. now rewrite Hl.
    rewrite <- (ent_vzero n j). fold (@ent B).
    assert (E : forall up y, length y = n -> ent (sub_trans (map (fun d => filter (fun p => f (fst p)) (getrow A d)) bl) up y) j
      = if f j then ent (fold_left (fun res p => add_row_trans (getrow A (fst p)) (xopp (snd p)) res) (combine bl up) y) j else ent y j).
    { clear up y Hy. clear Hl. induction bl as [|d bl IH]; intros [|u up] y Hy; try (simpl; destruct (f j); reflexivity).
      unfold sub_trans in *. cbn [map combine fold_left fst snd]. rewrite IH by (auto using add_row_trans_length; intros; try apply Hb; try (now right); now rewrite add_row_trans_length).
      assert (R : forall (r : @row B), row_ent (filter (fun p => f (fst p)) r) j = if f j then row_ent r j else m0).
      { induction r as [|p r IHr]; simpl. now destruct (f j).
        destruct (Nat.eqb_spec (fst p) j) as [Ep|Ep].
        - rewrite Ep. destruct (f j); auto. simpl. rewrite <- IHr. destruct (Nat.eqb_spec (fst p) j); [reflexivity|congruence].
        - destruct (f (fst p)); auto. simpl. destruct (Nat.eqb_spec (fst p) j); [congruence|auto]. }
      assert (E2 : forall z1 z2, length z1 = n -> length z2 = n -> ent z1 j = ent z2 j ->
         ent (fold_left (fun res p => add_row_trans (getrow A (fst p)) (xopp (snd p)) res) (combine bl up) z1) j
         = ent (fold_left (fun res p => add_row_trans (getrow A (fst p)) (xopp (snd p)) res) (combine bl up) z2) j).
      { generalize (combine bl up). induction l as [|p l IHl]; intros z1 z2 H1 H2 H3; simpl; auto.
        apply IHl; try (now rewrite add_row_trans_length). rewrite !(ent_add_row_trans L) by congruence. congruence. }
      rewrite !(ent_add_row_trans L) by congruence. rewrite R. destruct (f j) eqn:Fj.
      - apply E2; try (now rewrite add_row_trans_length). rewrite !(ent_add_row_trans L) by congruence. rewrite R; try rewrite Fj; reflexivity.
      - rewrite (mtr_m0 B L), (act_m0 B L). ag LX. }
    rewrite E by auto. rewrite (rows_sym L A n) by auto. destruct (f j).
    - rewrite (ent_vsub L) by (side_len n). reflexivity.
    - rewrite ent_vzero. ag LX.
  Qed.

  Lemma rupd_RES_step n A fL fU k b x : wf_mat n n A -> sym_mat n A -> b2ok n A fL fU k -> length x = n -> length b = n ->
    let x' := x +v bstep n (b2_dofs k) (b2_inv k) (residual (matvec A) b x) in
    rupd_RES k (x, residual (matvec A) b x) = (x', residual (matvec A) b x').
  Proof.
    intros W S H Hx Hb x'. pose proof (matvec_lin L n n A W) as AL. assert (HA : length A = n) by apply W.
    pose proof (bstep_lin L n (b2_dofs k) (b2_inv k) (k_inv _ _ _ _ _ H)) as BL.
    assert (HR : length (residual (matvec A) b x) = n) by (unfold residual; auto with len).
    assert (E : residual (matvec A) b x' = residual (matvec A) b x -v matvec A (bstep n (b2_dofs k) (b2_inv k) (residual (matvec A) b x)))
      by now apply (residual_step L n).
    unfold rupd_RES. rewrite E. clear E. unfold x'. clear x'. set (r := residual (matvec A) b x) in *.
    unfold bstep. set (up := dmul (b2_inv k) (gather (b2_dofs k) r)).
    assert (Hup : length up = length (b2_dofs k)) by (apply dmul_length, (k_inv _ _ _ _ _ H)).
    cbv zeta. f_equal. now apply (scatter_zero L). pose proof (k_lt _ _ _ _ _ H) as LT. pose proof (k_nd _ _ _ _ _ H) as ND.
    rewrite (k_L _ _ _ _ _ H), (k_U _ _ _ _ _ H), (k_diag _ _ _ _ _ H).
    pose proof (fun f y Hy j Hj => sub_trans_filter n A f (b2_dofs k) up y j W S LT Hy Hj) as ST. cbv zeta in ST.
    set (y1 := sub_trans (map (fun d => filter (fun p => fL (fst p)) (getrow A d)) (b2_dofs k)) up r).
    set (y2 := sub_trans (map (fun d => filter (fun p => fU (fst p)) (getrow A d)) (b2_dofs k)) up y1).
    assert (Hl : forall rs w (z : vec), length (sub_trans rs w z) = length z).
    { unfold sub_trans. induction rs; intros [|u w] z; simpl; auto. rewrite IHrs. apply add_row_trans_length. }
    assert (H1 : length y1 = n) by (unfold y1; now rewrite Hl). assert (H2 : length y2 = n) by (unfold y2; now rewrite Hl).
    apply (vec_ext n); auto 6 using len_scatter with len. intros j Hj.
    rewrite (ent_vsub L) by (side_len n). rewrite (scatter_zero L n) by auto.
    rewrite (ent_vadd L) by (rewrite H2; symmetry; auto using len_scatter with len).
    unfold y2. rewrite (proj2 (ST fU y1 H1 j Hj)). unfold y1. rewrite (proj2 (ST fL r HR j Hj)).
    set (s := matvec A (scatter (b2_dofs k) up (vzero n))).
    destruct (k_part _ _ _ _ _ H j Hj) as [(E1 & E2 & E3)|[(E1 & E2 & E3)|(E1 & E2 & E3)]]; rewrite E1, E2.
    - rewrite scatter_other, ent_vzero by auto. ag LX.
    - rewrite scatter_other, ent_vzero by auto. ag LX.
    - destruct (In_nth _ _ 0 E3) as (i & Hi & <-). rewrite scatter_self; auto.
      2:{ rewrite map_length. apply dmul_length, diag_block_dims. }
      rewrite <- (gather_A_scatter L A n) by auto. fold s.
      assert (E : ent (map xopp (gather (b2_dofs k) s)) i = xopp (ent s (nth i (b2_dofs k) 0))).
      { unfold gather. rewrite map_map. unfold ent at 1. rewrite nth_indep with (d' := (fun d => xopp (ent s d)) 0) by now rewrite map_length.
        now rewrite (map_nth (fun d => xopp (ent s d))). }
      rewrite E. ag LX.
  Qed.

  (** the residual computed from the blocks: row i is subtracted once for every block that contains i *)
  Lemma map_xopp_ent (v : vec) i : ent (map xopp v) i = xopp (ent v i).
  Proof. unfold ent. assert (E : @x0 B = xopp x0) by ag LX. rewrite E at 1. apply (map_nth xopp). Qed.
  Lemma b2_sub_mat_ent n A fL fU k x y j : wf_mat n n A -> b2ok n A fL fU k -> length x = n -> length y = n -> j < n ->
    length (b2_sub_mat k x y) = n /\
    ent (b2_sub_mat k x y) j = if mem_nat j (b2_dofs k) then xadd (ent y j) (xopp (ent (matvec A x) j)) else ent y j.
  Proof.
    intros W H Hx Hy Hj. pose proof (k_lt _ _ _ _ _ H) as LT. pose proof (k_nd _ _ _ _ _ H) as ND.
    assert (HA : length A = n) by apply W.
    unfold b2_sub_mat. split. auto 6 using len_scatter.
    destruct (mem_nat j (b2_dofs k)) eqn:E.
    2:{ apply mem_nat_out in E. now rewrite !scatter_other by auto. }
    apply mem_nat_in in E. destruct (In_nth _ _ 0 E) as (i & Hi & <-).
    assert (SC : forall (v y : vec), length v = length (b2_dofs k) -> length y = n ->
      ent (scatter (b2_dofs k) v y) (nth i (b2_dofs k) 0) = xadd (ent y (nth i (b2_dofs k) 0)) (ent v i)).
    { intros v z Hv Hz. rewrite (scatter_zero L n) by auto. rewrite (ent_vadd L) by (side_len n). now rewrite scatter_self by auto. }
    set (m := length (b2_dofs k)).
    assert (length (mvrows (b2_L k) x) = m) by (rewrite mvrows_length, (k_L _ _ _ _ _ H); apply map_length).
    assert (length (mvrows (b2_U k) x) = m) by (rewrite mvrows_length, (k_U _ _ _ _ _ H); apply map_length).
    assert (length (dmul (b2_diag k) (gather (b2_dofs k) x)) = m) by (apply dmul_length; rewrite (k_diag _ _ _ _ _ H); apply diag_block_dims).
    rewrite !SC by (rewrite ?map_length; auto 6 with len). rewrite !map_xopp_ent.
    assert (E2 : ent (matvec A x) (nth i (b2_dofs k) 0) = ent (gather (b2_dofs k) (matvec A x)) i).
    { unfold gather. unfold ent at 2. rewrite nth_indep with (d' := ent (matvec A x) 0) by now rewrite map_length. now rewrite (map_nth (ent (matvec A x))). }
    rewrite E2, (b2_split n A fL fU) by auto. rewrite !(ent_vadd L) by (side_len m). ag LX.
  Qed.

  (** *** folds over blocks *)
  Definition b2_C (n : nat) (S : BS2 B) (k : nat) : vec -> vec := bstep n (b2_dofs (b2_at S k)) (b2_inv (b2_at S k)).
  Definition bs2_ok (n : nat) (A : @spmat B) (S : BS2 B) (fL fU : nat -> nat -> bool) : Prop :=
    wf_mat n n A /\ forall k, k < length (s2_blocks S) -> b2ok n A (fL k) (fU k) (b2_at S k).
  Definition b2_Cs (n : nat) (A : @spmat B) (S : BS2 B) (ks : list nat) : vec -> vec := seq_op (matvec A) n (map (b2_C n S) ks).

  Lemma b2_C_lin n A S fL fU k : bs2_ok n A S fL fU -> k < length (s2_blocks S) -> lin n n (b2_C n S k).
  Proof. intros [_ H] Hk. apply (bstep_lin L). apply (k_inv _ _ _ _ _ (H k Hk)). Qed.
  Lemma b2_C_lins n A S fL fU ks : bs2_ok n A S fL fU -> (forall k, In k ks -> k < length (s2_blocks S)) -> Forall (lin n n) (map (b2_C n S) ks).
  Proof. intros H Hk. apply Forall_forall. intros C HC. apply in_map_iff in HC as (k & <- & HC). eapply b2_C_lin; eauto. Qed.
  Lemma b2_Cs_lin n A S fL fU ks : bs2_ok n A S fL fU -> (forall k, In k ks -> k < length (s2_blocks S)) -> lin n n (b2_Cs n A S ks).
  Proof. intros H Hk. apply (seq_op_lin L). apply (matvec_lin L), H. eapply b2_C_lins; eauto. Qed.

  Lemma fold_rupd n A S fL fU b ks x : bs2_ok n A S fL fU -> (forall k, In k ks -> k < length (s2_blocks S)) -> length x = n -> length b = n ->
    fold_left (fun x k => rupd (b2_at S k) b x) ks x = x +v b2_Cs n A S ks (residual (matvec A) b x).
  Proof.
    intros H. pose proof (matvec_lin L n n _ (proj1 H)) as AL. assert (HA : length A = n) by apply (proj1 H).
    revert x. induction ks as [|k ks IH]; intros x Hk Hx Hb.
    - simpl. symmetry. now apply (vadd_zero L).
    - cbn [fold_left]. rewrite (rupd_step n A (fL k) (fU k)) by (auto; apply H; auto; apply Hk; now left).
      pose proof (b2_C_lin n A S fL fU k H (Hk k (or_introl eq_refl))) as CL.
      assert (HK : forall k, In k ks -> k < length (s2_blocks S)) by (intros; apply Hk; now right).
      pose proof (b2_Cs_lin n A S fL fU ks H HK) as CsL.
      fold (b2_C n S k). rewrite IH; auto. apply (then_step L n); auto.
      unfold residual; auto 6 with len.
  Qed.
  Lemma fold_rupd_RES n A S fL fU b ks x : bs2_ok n A S fL fU -> sym_mat n A -> (forall k, In k ks -> k < length (s2_blocks S)) -> length x = n -> length b = n ->
    let x' := x +v b2_Cs n A S ks (residual (matvec A) b x) in
    fold_left (fun s k => rupd_RES (b2_at S k) s) ks (x, residual (matvec A) b x) = (x', residual (matvec A) b x').
  Proof.
    intros H HS. pose proof (matvec_lin L n n _ (proj1 H)) as AL. assert (HA : length A = n) by apply (proj1 H).
    revert x. induction ks as [|k ks IH]; intros x Hk Hx Hb.
    - simpl. now rewrite (vadd_zero L n).
    - cbn [fold_left]. pose proof (rupd_RES_step n A (fL k) (fU k) (b2_at S k) b x) as ST. cbv zeta in ST.
      rewrite ST by (auto; apply H; auto; apply Hk; now left). clear ST.
      pose proof (b2_C_lin n A S fL fU k H (Hk k (or_introl eq_refl))) as CL.
      assert (HK : forall k, In k ks -> k < length (s2_blocks S)) by (intros; apply Hk; now right).
      pose proof (b2_Cs_lin n A S fL fU ks H HK) as CsL. fold (b2_C n S k). cbv zeta in *.
      assert (Hx' : length (x +v b2_C n S k (residual (matvec A) b x)) = n) by (unfold residual; auto 6 with len).
      rewrite IH by auto. unfold b2_Cs in *. cbn [map seq_op]. rewrite (then_step L n); auto.
  Qed.
  (** the residual computed from the blocks *)
  Lemma b2_residual_ent n A S fL fU x b j : bs2_ok n A S fL fU -> length x = n -> length b = n -> j < n ->
    length (b2_residual S x b) = n /\
    ent (b2_residual S x b) j
    = fold_left (fun s bl => if mem_nat j bl then xadd s (xopp (ent (matvec A x) j)) else s) (map (@b2_dofs B) (s2_blocks S)) (ent b j).
  Proof.
    intros H Hx Hb Hj. unfold b2_residual.
    assert (HB : Forall (fun k => exists f g, b2ok n A f g k) (s2_blocks S)).
    { apply Forall_forall. intros k Hk. destruct (In_nth _ _ (mkB2 [] [] [] [] []) Hk) as (i & Hi & <-).
      exists (fL i), (fU i). now apply H. }
    revert b Hb. induction HB as [|k ks (f & g & Hk) HB IH]; intros b Hb; simpl; auto.
    destruct (b2_sub_mat_ent n A f g k x b j (proj1 H) Hk Hx Hb Hj) as (H1 & H2).
    destruct (IH _ H1) as (H3 & H4). split; auto. rewrite H4, H2. reflexivity.
  Qed.

  (** *** order of the blocks *)
  Lemma grp_seq g : forall a, concat (map (fun k => seq (a + list_sum (firstn k g)) (nth k g 0)) (seq 0 (length g))) = seq a (list_sum g).
  Proof.
    induction g as [|m g IH]; intros a; auto. cbn [length seq map concat]. rewrite <- seq_shift, map_map.
    change (nth 0 (m :: g) 0) with m. change (list_sum (firstn 0 (m :: g))) with 0. rewrite Nat.add_0_r.
    change (list_sum (m :: g)) with (m + list_sum g). rewrite seq_app. f_equal. rewrite <- IH. f_equal. apply map_ext. intros k.
    cbn [firstn nth]. f_equal. change (list_sum (m :: firstn k g)) with (m + list_sum (firstn k g)). lia.
  Qed.
  Lemma concat_rev2 {T} (l : list (list T)) : concat (rev (map (@rev T) l)) = rev (concat l).
  Proof. induction l; simpl; auto. rewrite concat_app, IHl, rev_app_distr. simpl. now rewrite app_nil_r. Qed.
  Lemma b2_order_all (S : BS2 B) back : b2_order S (allgroups S) back = (if back then @rev nat else fun l => l) (seq 0 (list_sum (s2_groups S))).
  Proof.
    unfold b2_order, allgroups. rewrite seq_length. set (g := s2_groups S). destruct back.
    - rewrite <- (grp_seq g 0). rewrite <- concat_rev2. f_equal. rewrite map_map.
      rewrite <- map_rev. rewrite <- (map_nth_seq' (rev (seq 0 (length g))) 0), rev_length, seq_length, map_map.
      apply map_ext_in. intros k Hk. apply in_seq in Hk.
      rewrite seq_nth by lia. rewrite rev_nth by (rewrite seq_length; lia). rewrite seq_length, seq_nth by lia.
      unfold grp_range. replace (length g - Datatypes.S k) with (length g - 1 - k) by lia. reflexivity.
    - rewrite <- (grp_seq g 0). f_equal. apply map_ext_in. intros k Hk. apply in_seq in Hk. rewrite seq_nth by lia. reflexivity.
  Qed.

  (** *** set-up *)
  Lemma d2b_err nr dofs e : fold_left (d2b_step nr) dofs (Err e) = Err e.
  Proof. induction dofs; simpl; auto. Qed.
  Lemma d2b_inner nr dofs t0 t : fold_left (d2b_step nr) dofs (Ret t0) = Ret t ->
    length t = length t0 /\ NoDup dofs /\ (forall i, In i dofs -> i < length t0 /\ nth i t0 None = None) /\
    (forall i, nth i t None = if mem_nat i dofs then Some nr else nth i t0 None).
  Proof.
    revert t0. induction dofs as [|d dofs IH]; intros t0 E; cbn [fold_left] in E.
    - injection E as <-. repeat split; auto. constructor. all: contradiction.
    - unfold d2b_step at 2 in E. cbn [bind] in E. unfold rd in E.
      destruct (nth_error t0 d) as [o|] eqn:Ed; cbn [bind] in E; [|now rewrite d2b_err in E].
      destruct o; [now rewrite d2b_err in E|]. assert (Hd : d < length t0) by (apply nth_error_Some; congruence).
      unfold wr in E. assert (Hd' := Hd). apply Nat.ltb_lt in Hd'. rewrite Hd' in E.
      destruct (IH _ E) as (H1 & H2 & H3 & H4). rewrite upd_length in H1.
      assert (HN : ~ In d dofs). { intros Hi. destruct (H3 d Hi) as (_ & H). rewrite nth_upd_eq in H by auto. discriminate. }
      repeat split; auto.
      + constructor; auto.
      + destruct H as [<-|H]; auto. destruct (H3 i H) as (H5 & _). now rewrite upd_length in H5.
      + destruct H as [<-|H]. now apply nth_error_nth with (d := None) in Ed.
        destruct (H3 i H) as (_ & H5). rewrite nth_upd_neq in H5; auto. intros ->; contradiction.
      + intros i. rewrite H4. unfold mem_nat. simpl. fold (mem_nat i dofs). rewrite (Nat.eqb_sym i d).
        destruct (Nat.eqb_spec d i) as [->|Hne]; simpl.
        * rewrite (proj2 (mem_nat_out i dofs)) by auto. now apply nth_upd_eq.
        * destruct (mem_nat i dofs); auto. now apply nth_upd_neq.
  Qed.
  Lemma d2b_outer l : forall t0 t,
    fold_left (fun t p => fold_left (d2b_step (fst p)) (snd p) t) l (Ret t0) = Ret t ->
    length t = length t0 /\
    (forall p, In p l -> NoDup (snd p) /\ forall i, In i (snd p) -> i < length t0 /\ nth i t0 None = None /\ nth i t None = Some (fst p)) /\
    (forall i k, nth i t None = Some k -> nth i t0 None = Some k \/ exists p, In p l /\ fst p = k /\ In i (snd p)) /\
    (forall i k, nth i t0 None = Some k -> nth i t None = Some k).
  Proof.
    assert (ER : forall l e, fold_left (fun t p => fold_left (d2b_step (fst p)) (snd p) t) l (Err e) = Err e).
    { clear. induction l; intros; simpl; auto. now rewrite d2b_err. }
    induction l as [|p l IH]; intros t0 t E; simpl in E.
    - injection E as <-. repeat split; auto; contradiction.
    - destruct (fold_left (d2b_step (fst p)) (snd p) (Ret t0)) as [t1|] eqn:E1; [|now rewrite ER in E].
      destruct (d2b_inner _ _ _ _ E1) as (H1 & H2 & H3 & H4). destruct (IH _ _ E) as (H5 & H6 & H7 & H8).
      split; [congruence|]. split; [|split].
      + intros q [<-|Hq].
        * split; auto. intros i Hi. destruct (H3 i Hi). repeat split; auto. apply H8. rewrite H4.
          now rewrite (proj2 (mem_nat_in i (snd p)) Hi).
        * destruct (H6 q Hq) as (H9 & H10). split; auto. intros i Hi. destruct (H10 i Hi) as (H11 & H12 & H13).
          rewrite H4 in H12. destruct (mem_nat i (snd p)); [discriminate|]. repeat split; auto. congruence.
      + intros i k Hi. destruct (H7 i k Hi) as [H|(q & Hq & Hk)]; [|right; exists q; simpl; tauto].
        rewrite H4 in H. destruct (mem_nat i (snd p)) eqn:Em; auto. right. exists p. injection H as <-.
        apply mem_nat_in in Em. simpl; auto.
      + intros i k Hi. apply H8. rewrite H4. destruct (mem_nat i (snd p)) eqn:Em; auto.
        apply mem_nat_in in Em. destruct (H3 i Em) as (_ & HN). congruence.
  Qed.
  Lemma dof2block_ok n blocks t : dof2block n blocks = Ret t ->
    length t = n /\
    (forall k, k < length blocks -> NoDup (nth k blocks []) /\ forall i, In i (nth k blocks []) -> i < n /\ nth i t None = Some k) /\
    (forall i k, nth i t None = Some k -> k < length blocks /\ In i (nth k blocks [])).
  Proof.
    intros E. destruct (d2b_outer _ _ _ E) as (H1 & H2 & H3 & _). rewrite repeat_length in *.
    assert (HP : forall p, In p (combine (seq 0 (length blocks)) blocks) <-> fst p < length blocks /\ nth (fst p) blocks [] = snd p).
    { intros [k bl]. simpl. split.
      - intros H. destruct (In_nth _ _ (0, []) H) as (i & Hi & Ei). rewrite combine_length, seq_length, Nat.min_id in Hi.
        rewrite combine_nth in Ei by apply seq_length. rewrite seq_nth in Ei by auto. injection Ei as <- <-. auto.
      - intros (H & <-). assert (Ei : nth k (combine (seq 0 (length blocks)) blocks) (0, []) = (k, nth k blocks [])).
        { rewrite combine_nth by apply seq_length. now rewrite seq_nth. }
        rewrite <- Ei. apply nth_In. now rewrite combine_length, seq_length, Nat.min_id. }
    split; auto. split.
    - intros k Hk. destruct (H2 (k, nth k blocks [])) as (H4 & H5). apply HP; auto. simpl in *. split; auto.
      intros i Hi. destruct (H5 i Hi) as (? & ? & ?); auto.
    - intros i k Hi. destruct (H3 i k Hi) as [H|(p & Hp & <- & H)]. rewrite nth_repeat in H. discriminate.
      apply HP in Hp as (Hp & Ep). rewrite Ep. auto.
  Qed.
End P.
