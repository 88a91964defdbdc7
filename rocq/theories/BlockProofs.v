From Verif Require Import Base AGroup LinAlg LinTools GSSpec GSModel GSProofs ArraysModel ArraysProofs Shm BlockModel.
From Coq Require Import Ring Ring_theory ZArith.
Open Scope nat_scope.

Section Seq.
  Context {B : Blk} (L : BlkLaws B).
  Local Notation X := (X B). Local Notation M := (M B). Local Notation K := (K B).
  Local Notation vec := (list X).
  Local Notation lin := (@lin B). Local Notation adj := (@adj B).
  Add Ring Kring5 : (lawK B L).
  Let LX := lawX B L.

  (** corrections one after the other *)
  Fixpoint seq_op (A : vec -> vec) (n : nat) (Cs : list (vec -> vec)) : vec -> vec :=
    match Cs with [] => fun _ => vzero n | C :: Cs' => then_op A C (seq_op A n Cs') end.
  Lemma seq_op_lin A n Cs : lin n n A -> Forall (lin n n) Cs -> lin n n (seq_op A n Cs).
  Proof. intros HA. induction 1; simpl. apply (lin_0 L). now apply (lin_then L). Qed.
  Lemma seq_op_app A n C1 C2 r : lin n n A -> Forall (lin n n) C1 -> Forall (lin n n) C2 -> length r = n ->
    seq_op A n (C1 ++ C2) r = then_op A (seq_op A n C1) (seq_op A n C2) r.
  Proof.
    intros HA H1 H2. revert r. induction H1; intros r Hr.
    - simpl. symmetry. apply (then_op_zero_l L n); auto using seq_op_lin.
    - simpl. rewrite (then_op_assoc L n) by auto using seq_op_lin. apply then_op_ext with n; auto.
  Qed.
  Lemma seq_op_adj A n Cs Ds : lin n n A -> adj n n A A -> Forall (lin n n) Cs -> Forall (lin n n) Ds -> Forall2 (adj n n) Cs Ds ->
    adj n n (seq_op A n Cs) (seq_op A n (rev Ds)).
  Proof.
    intros HA AA HC HD H. revert HC HD. induction H as [|C D Cs Ds H H' IH]; intros HC HD x y Hx Hy.
    - simpl. rewrite (vdot_zero L), (vdot_comm L), (vdot_zero L). reflexivity.
    - pose proof (Forall_inv HC). pose proof (Forall_inv_tail HC). pose proof (Forall_inv HD). pose proof (Forall_inv_tail HD). simpl rev. assert (HR : Forall (lin n n) (rev Ds)) by now apply Forall_rev.
      rewrite seq_op_app by auto.
      assert (E : then_op A (seq_op A n (rev Ds)) (seq_op A n [D]) y = then_op A (seq_op A n (rev Ds)) D y).
      { apply then_op_ext with n; auto using seq_op_lin. intros r Hr. simpl. now apply (then_op_zero_r L n). }
      rewrite E. cbn [seq_op]. apply (adj_then L n); auto using seq_op_lin.
  Qed.
  (** an iteration with one linear correction at a time is one linear correction *)
  Lemma seq_op_fold A n (f : vec -> (vec -> vec) -> vec) b Cs x : lin n n A -> Forall (lin n n) Cs -> length x = n -> length b = n ->
    fold_left (fun x C => x +v C (residual A b x)) Cs x = x +v seq_op A n Cs (residual A b x).
  Proof.
    intros HA HC. revert x. induction HC as [|C Cs H HC IH]; intros x Hx Hb; simpl.
    - symmetry. now apply (vadd_zero L).
    - rewrite IH by (unfold residual; auto 6 with len). apply (then_step L n); auto using seq_op_lin.
  Qed.
  Lemma seq_op_energy (le : K -> K -> Prop) (KO : KOrder le) A n b Cs x : lin n n A -> Forall (lin n n) Cs -> length x = n -> length b = n ->
    (forall C y, In C Cs -> length y = n -> le (energy A b (y +v C (residual A b y))) (energy A b y)) ->
    le (energy A b (x +v seq_op A n Cs (residual A b x))) (energy A b x).
  Proof.
    intros HA HC. revert x. induction HC as [|C Cs H HC IH]; intros x Hx Hb HE; simpl.
    - rewrite (vadd_zero L n) by auto. apply (ko_refl _ KO).
    - rewrite <- (then_step L n) by auto using seq_op_lin. eapply (ko_trans _ KO).
      + apply IH; auto. unfold residual; auto 6 with len. intros; apply HE; auto. now right.
      + apply HE; auto. now left.
  Qed.
  Lemma seq_op_zero A n Cs r : lin n n A -> Forall (lin n n) Cs -> length r = n -> (forall C, In C Cs -> C r = vzero n) -> seq_op A n Cs r = vzero n.
  Proof.
    intros HA HC Hr. induction HC as [|C Cs H HC IH]; intros HZ; simpl; auto. unfold then_op.
    rewrite HZ by now left. rewrite (lin_zero L n n), (vsub_zero L n), IH, (vzero_add L n); auto with len. intros; apply HZ; now right.
  Qed.
End Seq.

Section Dense.
  Context {B : Blk} (L : BlkLaws B).
  Local Notation X := (X B). Local Notation M := (M B). Local Notation K := (K B).
  Local Notation vec := (list X).
  Local Notation lin := (@lin B). Local Notation adj := (@adj B).
  Add Ring Kring6 : (lawK B L).
  Let LX := lawX B L.

  (** *** dense blocks *)
  Definition dims (m : nat) (D : @dense B) : Prop := length D = m /\ forall i, i < m -> length (nth i D []) = m.
  Definition dent (D : @dense B) (i j : nat) : M := nth j (nth i D []) m0.
  Definition dsym (m : nat) (D : @dense B) : Prop := forall i j, i < m -> j < m -> dent D j i = mtr (dent D i j).
  Definition d2s (m : nat) (D : @dense B) : @spmat B := map (fun r => combine (seq 0 m) r) D.

  Lemma dmul_length m D (h : vec) : length D = m -> length (dmul D h) = m.
  Proof. intros; subst. apply map_length. Qed.
  Lemma drow_eq (h0 h : vec) (r : list M) s : length r = length h ->
    fold_left (fun s p => xadd s (act (fst p) (snd p))) (combine r h) s
    = fold_left (fun s p => xadd s (act (snd p) (ent (h0 ++ h) (fst p)))) (combine (seq (length h0) (length h)) r) s.
  Proof.
    revert h0 r s. induction h as [|v h IH]; intros h0 [|d r] s H; simpl in *; try lia; auto.
    assert (E : ent (h0 ++ v :: h) (length h0) = v).
    { unfold ent. rewrite app_nth2, Nat.sub_diag by lia. reflexivity. }
    rewrite E. specialize (IH (h0 ++ [v]) r (xadd s (act d v))). rewrite app_length, <- app_assoc in IH. simpl in IH.
    replace (length h0 + 1) with (S (length h0)) in IH by lia. apply IH. lia.
  Qed.
  Lemma dmul_matvec m D (h : vec) : dims m D -> length h = m -> dmul D h = matvec (d2s m D) h.
  Proof.
    intros [HD HR] Hh. unfold dmul, matvec, d2s. rewrite map_map. apply map_ext_in. intros r Hr.
    destruct (In_nth _ _ [] Hr) as (i & Hi & E). unfold row_times. rewrite <- Hh.
    apply (drow_eq []). rewrite <- E, HR; auto. congruence.
  Qed.
  Lemma d2s_row m D i : getrow (d2s m D) i = combine (seq 0 m) (nth i D []).
  Proof.
    unfold getrow, d2s. revert i. induction D as [|r D IH]; intros [|i]; simpl; auto; destruct (seq 0 m); auto.
  Qed.
  Lemma d2s_wf m D : dims m D -> wf_mat m m (d2s m D).
  Proof.
    intros [HD HR]. split. unfold d2s. now rewrite map_length.
    intros i p Hp. rewrite d2s_row in Hp. destruct p as [j v]. apply in_combine_l in Hp. apply in_seq in Hp. simpl; lia.
  Qed.
  Lemma row_ent_combine_lt (r : list M) k j : j < k -> row_ent (combine (seq k (length r)) r) j = m0.
  Proof.
    revert k j. induction r as [|d r IH]; intros k j H; simpl; auto. destruct (Nat.eqb_spec k j); [lia|]. apply IH; lia.
  Qed.
  Lemma row_ent_combine (r : list M) k j : j < length r -> row_ent (combine (seq k (length r)) r) (k + j) = madd (nth j r m0) m0.
  Proof.
    revert k j. induction r as [|d r IH]; intros k j H; simpl in *. lia.
    destruct j as [|j].
    - rewrite Nat.add_0_r, Nat.eqb_refl, row_ent_combine_lt by lia. reflexivity.
    - destruct (Nat.eqb_spec k (k + S j)); [lia|]. replace (k + S j) with (S k + j) by lia. apply IH. lia.
  Qed.
  Lemma d2s_entry m D i j : dims m D -> i < m -> j < m -> entry (d2s m D) i j = madd (dent D i j) m0.
  Proof.
    intros [HD HR] Hi Hj. unfold entry. rewrite d2s_row. rewrite <- (HR i Hi) at 1.
    apply (row_ent_combine (nth i D []) 0 j). now rewrite HR.
  Qed.
  Lemma d2s_sym m D : dims m D -> dsym m D -> sym_mat m (d2s m D).
  Proof.
    intros H1 H2 i j Hi Hj. rewrite !d2s_entry, H2, (mtr_madd B L), (mtr_m0 B L) by auto. reflexivity.
  Qed.
  Lemma dmul_lin m D : dims m D -> lin m m (dmul D).
  Proof.
    intros H. apply (lin_ext m m (matvec (d2s m D))). intros; symmetry; now apply dmul_matvec.
    apply (matvec_lin L). now apply d2s_wf.
  Qed.
  Lemma dmul_adj m D : dims m D -> dsym m D -> adj m m (dmul D) (dmul D).
  Proof.
    intros H S x y Hx Hy. rewrite !(dmul_matvec m) by auto. apply (matvec_self_adjoint L m); auto using d2s_wf, d2s_sym.
  Qed.
  Lemma ent_dmul m D (h : vec) i : dims m D -> length h = m -> i < m ->
    ent (dmul D h) i = xsum m (fun j => act (dent D i j) (ent h j)).
  Proof.
    intros H Hh Hi. rewrite (dmul_matvec m) by auto. rewrite (matvec_entries L _ m m) by now apply d2s_wf.
    apply xsum_ext. intros j Hj. rewrite d2s_entry by auto. rewrite (act_madd B L), (act_m0 B L). ag LX.
  Qed.

  (** *** gather / scatter *)
  Lemma scatter_length bl (up x : vec) : length (scatter bl up x) = length x.
  Proof. unfold scatter. generalize (combine bl up). intros l. revert x. induction l; intros x; simpl; auto. rewrite IHl. apply vinc_length. Qed.
  Lemma len_scatter n bl (up x : vec) : length x = n -> length (scatter bl up x) = n.
  Proof. intros; subst; apply scatter_length. Qed.
  Lemma gather_length bl (x : vec) : length (gather bl x) = length bl.
  Proof. apply map_length. Qed.
  Hint Resolve len_scatter : len.
  Lemma scatter_nil_l (up x : vec) : scatter [] up x = x. Proof. reflexivity. Qed.
  Lemma scatter_nil_r bl (x : vec) : scatter bl [] x = x. Proof. unfold scatter. now destruct bl. Qed.
  Lemma scatter_cons i bl u (up x : vec) : scatter (i :: bl) (u :: up) x = scatter bl up (vinc x i u).
  Proof. reflexivity. Qed.
  Lemma scatter_add n bl (up x y : vec) : length x = n -> length y = n -> scatter bl up (x +v y) = x +v scatter bl up y.
  Proof.
    revert up y. induction bl as [|i bl IH]; intros [|u up] y Hx Hy; auto. rewrite !scatter_cons.
    rewrite <- IH by auto with len. f_equal. vx L n. rewrite !ent_vinc. rewrite (ent_vadd L) by (side_len n).
    rewrite Hy, (len_add n) by auto. destruct (_ && _); ag LX.
  Qed.
  Lemma scatter_zero n bl (up x : vec) : length x = n -> scatter bl up x = x +v scatter bl up (vzero n).
  Proof. intros H. rewrite <- (scatter_add n) by auto with len. now rewrite (vadd_zero L n). Qed.
  Lemma scatter_zero_cons n i bl u (up : vec) : scatter (i :: bl) (u :: up) (vzero n) = vunit n i u +v scatter bl up (vzero n).
  Proof.
    rewrite scatter_cons, (scatter_zero n) by auto with len. f_equal.
    rewrite (vinc_vunit L n) by auto with len. apply (vzero_add L n). auto with len.
  Qed.
  Lemma scatter_other bl (up x : vec) j : ~ In j bl -> ent (scatter bl up x) j = ent x j.
  Proof.
    revert up x. induction bl as [|i bl IH]; intros [|u up] x H; auto. rewrite scatter_cons, IH by (intros Hj; apply H; now right).
    rewrite ent_vinc. destruct (Nat.eqb_spec i j); auto. subst. exfalso. apply H. now left.
  Qed.
  Lemma scatter_gather n bl (up y : vec) : length up = length bl -> length y = n -> (forall i, In i bl -> i < n) ->
    vdot (scatter bl up (vzero n)) y = vdot up (gather bl y).
  Proof.
    revert up. induction bl as [|i bl IH]; intros [|u up] H Hy Hb; simpl in H; try lia.
    - simpl. apply (vdot_zero L).
    - rewrite scatter_zero_cons. rewrite (vdot_add L) by (side_len n). rewrite IH by (auto; intros; apply Hb; now right).
      simpl. f_equal. apply (vdot_unit L); auto. apply Hb. now left.
  Qed.
  Lemma scatter_lin n bl m : length bl = m -> lin m n (fun up => scatter bl up (vzero n)).
  Proof.
    intros H. split.
    - intros; auto with len.
    - intros x y. revert m x y H. induction bl as [|i bl IH]; intros m [|u x] [|v y] H Hx Hy; simpl in *; try lia.
      + subst. simpl. unfold scatter. simpl. symmetry. apply (vadd_zero L). auto with len.
      + change ((u :: x) +v (v :: y)) with (xadd u v :: (x +v y)). rewrite !scatter_zero_cons.
        rewrite (IH (length bl)) by lia. vx L n. rewrite !ent_vunit. destruct (_ && _); ag LX.
    - intros c x. revert m x H. induction bl as [|i bl IH]; intros m [|u x] H Hx; simpl in *; try lia.
      + unfold scatter. simpl. vx L n. now rewrite (xsc_0 L).
      + change (vsc c (u :: x)) with (xsc c u :: vsc c x). rewrite !scatter_zero_cons.
        rewrite (IH (length bl)) by lia. vx L n. rewrite !ent_vunit. rewrite (sc_add B L).
        destruct (_ && _); auto. now rewrite (xsc_0 L).
  Qed.
  Lemma gather_lin n bl : lin n (length bl) (gather bl).
  Proof.
    split; intros.
    - apply gather_length.
    - unfold gather. induction bl; simpl; auto. rewrite IHbl, (ent_vadd L) by congruence. reflexivity.
    - unfold gather, vsc at 2. rewrite map_map. apply map_ext. intros. apply (ent_vsc L).
  Qed.
  Lemma gather_vsub n bl (x y : vec) : length x = n -> length y = n -> gather bl (x -v y) = gather bl x -v gather bl y.
  Proof. intros. apply (lin_sub L n (length bl)); auto using gather_lin. Qed.

  (** *** one block as a correction *)
  Definition bstep (n : nat) (bl : list nat) (D : @dense B) (r : vec) : vec := scatter bl (dmul D (gather bl r)) (vzero n).
  Lemma bstep_lin n bl D : dims (length bl) D -> lin n n (bstep n bl D).
  Proof.
    intros H. unfold bstep. apply (lin_compose n (length bl) n (fun r => dmul D (gather bl r)) (fun up => scatter bl up (vzero n))).
    apply (lin_compose n (length bl) (length bl)). apply gather_lin. now apply dmul_lin. now apply scatter_lin.
  Qed.
  Lemma bstep_adj n bl D : dims (length bl) D -> dsym (length bl) D -> (forall i, In i bl -> i < n) -> adj n n (bstep n bl D) (bstep n bl D).
  Proof.
    intros H S Hb x y Hx Hy. unfold bstep. pose proof (dmul_lin _ _ H) as DL.
    rewrite (scatter_gather n) by (auto; apply (lin_len _ _ _ DL), gather_length).
    rewrite (vdot_comm L x), (scatter_gather n) by (auto; apply (lin_len _ _ _ DL), gather_length).
    rewrite (dmul_adj (length bl)) by (auto using gather_length). apply (vdot_comm L).
  Qed.
  Lemma block_rhs_step A n bl D b x : wf_mat n n A -> length x = n -> length b = n ->
    block_rhs A bl D b x = x +v bstep n bl D (residual (matvec A) b x).
  Proof.
    intros [WA _] Hx Hb. unfold block_rhs, bstep. destruct bl as [|i bl]; simpl Nat.ltb; cbv iota.
    - rewrite scatter_nil_l. symmetry. now apply (vadd_zero L).
    - rewrite (scatter_zero n) by auto. unfold gather.
      rewrite (map_ext (ent (residual (matvec A) b x)) (fun jj => xadd (ent b jj) (xopp (row_times (getrow A jj) x)))). reflexivity.
      intros j. unfold residual. rewrite (ent_vsub L) by (side_len n). now rewrite ent_matvec.
  Qed.
  Lemma art_sym A n k w (y : vec) : wf_mat n n A -> sym_mat n A -> k < n -> length y = n ->
    add_row_trans (getrow A k) w y = y +v matvec A (vunit n k w).
  Proof.
    intros W S Hk Hy. assert (HA : length A = n) by apply W.
    apply (vec_ext n); auto with len. intros j Hj. rewrite (ent_add_row_trans L) by congruence.
    rewrite (ent_vadd L) by (side_len n). f_equal. rewrite ent_matvec.
    assert (E : vunit n k w = vinc (vzero n) k w).
    { rewrite (vinc_vunit L n) by auto with len. symmetry. apply (vzero_add L). auto with len. }
    rewrite E, (row_times_vinc L) by (now rewrite vzero_length). rewrite (row_times_zero L).
    change (row_ent (getrow A k) j) with (entry A k j). change (row_ent (getrow A j) k) with (entry A j k).
    rewrite (S k j) by auto. ag LX.
  Qed.
  Lemma rows_sym A n bl (up y : vec) : wf_mat n n A -> sym_mat n A -> (forall i, In i bl -> i < n) -> length y = n ->
    fold_left (fun res p => add_row_trans (getrow A (fst p)) (xopp (snd p)) res) (combine bl up) y
    = y -v matvec A (scatter bl up (vzero n)).
  Proof.
    intros W S. pose proof (matvec_lin L n n A W) as AL. assert (HA : length A = n) by apply W.
    revert up y. induction bl as [|i bl IH]; intros [|u up] y Hb Hy; cbn [combine fold_left].
    - rewrite scatter_nil_l, (lin_zero L n n), (vsub_zero L n); auto.
    - rewrite scatter_nil_l, (lin_zero L n n), (vsub_zero L n); auto.
    - rewrite scatter_nil_r, (lin_zero L n n), (vsub_zero L n); auto.
    - cbn [fst snd]. rewrite (art_sym A n) by (auto; apply Hb; now left).
      rewrite IH by (auto with len; intros; apply Hb; now right).
      rewrite scatter_zero_cons, (lin_add _ _ _ AL) by auto with len.
      assert (E : vunit n i (xopp u) = vsc (kopp k1) (vunit n i u)).
      { vx L n. rewrite !ent_vunit, (xsc_m1 L). destruct (_ && _); auto. ag LX. }
      rewrite E, (lin_sc _ _ _ AL) by auto with len. vx L n. rewrite (xsc_m1 L). ag LX.
  Qed.
  Lemma block_res_step A n bl D b x : wf_mat n n A -> sym_mat n A -> (forall i, In i bl -> i < n) -> dims (length bl) D ->
    length x = n -> length b = n ->
    let x' := x +v bstep n bl D (residual (matvec A) b x) in
    block_res A bl D (x, residual (matvec A) b x) = (x', residual (matvec A) b x').
  Proof.
    intros W S Hb HD Hx Hbb x'. pose proof (matvec_lin L n n A W) as AL. assert (HA : length A = n) by apply W.
    pose proof (bstep_lin n bl D HD) as BL.
    assert (HR : length (residual (matvec A) b x) = n) by (unfold residual; auto with len).
    assert (E : residual (matvec A) b x' = residual (matvec A) b x -v matvec A (bstep n bl D (residual (matvec A) b x)))
      by now apply (residual_step L n).
    unfold block_res. destruct bl as [|i bl].
    - simpl. unfold x' in *. unfold bstep in *. rewrite scatter_nil_l in *. rewrite (vadd_zero L n) by auto. reflexivity.
    - change (0 <? length (i :: bl)) with true. cbv iota zeta. rewrite (rows_sym A n) by auto. f_equal.
      + unfold x', bstep. now apply (scatter_zero n).
      + rewrite E. reflexivity.
  Qed.

  (** a block whose inverse is exact solves its equations *)
  Lemma row_times_scatter (r : @row B) n bl up : length up = length bl -> (forall i, In i bl -> i < n) ->
    row_times r (scatter bl up (vzero n))
    = fold_right (fun p s => xadd (act (row_ent r (fst p)) (snd p)) s) x0 (combine bl up).
  Proof.
    revert up. induction bl as [|i bl IH]; intros [|u up] H Hb; simpl in H; try lia.
    - unfold scatter. simpl. apply (row_times_zero L).
    - rewrite scatter_zero_cons. rewrite (row_times_add L) by (rewrite vunit_length; symmetry; auto with len).
      rewrite IH by (try lia; intros; apply Hb; now right). simpl. f_equal.
      assert (E : vunit n i u = vinc (vzero n) i u).
      { rewrite (vinc_vunit L n) by auto with len. symmetry. apply (vzero_add L). auto with len. }
      rewrite E, (row_times_vinc L) by (rewrite vzero_length; apply Hb; now left). rewrite (row_times_zero L). ag LX.
  Qed.
  Lemma diag_block_dims A md bl : dims (length bl) (@diag_block B A md bl).
  Proof.
    unfold diag_block. split. now rewrite map_length, seq_length.
    intros i Hi. rewrite nth_indep with (d' := (fun i => map (fun j => if (i =? j) && negb (length md =? 0) then nth (nth i bl 0) md m0
                                else entry A (nth i bl 0) (nth j bl 0)) (seq 0 (length bl))) 0) by (now rewrite map_length, seq_length).
    rewrite (map_nth (fun i => map _ _)). now rewrite map_length, seq_length.
  Qed.
  Lemma diag_block_ent A md bl i j : i < length bl -> j < length bl ->
    dent (@diag_block B A md bl) i j = if (i =? j) && negb (length md =? 0) then nth (nth i bl 0) md m0
                                      else entry A (nth i bl 0) (nth j bl 0).
  Proof.
    intros Hi Hj. unfold dent, diag_block.
    rewrite nth_indep with (d' := (fun i => map (fun j => if (i =? j) && negb (length md =? 0) then nth (nth i bl 0) md m0
                                else entry A (nth i bl 0) (nth j bl 0)) (seq 0 (length bl))) 0) by (now rewrite map_length, seq_length).
    rewrite (map_nth (fun i => map _ _)), seq_nth by auto. simpl.
    rewrite nth_indep with (d' := (fun j => if (i =? j) && negb (length md =? 0) then nth (nth i bl 0) md m0
                                else entry A (nth i bl 0) (nth j bl 0)) 0) by (now rewrite map_length, seq_length).
    rewrite (map_nth (fun j => if (i =? j) && _ then _ else _)), seq_nth by auto. reflexivity.
  Qed.
  (** restricted to the block, A is its diagonal block *)
  Lemma gather_A_scatter A n bl (up : vec) : wf_mat n n A -> length up = length bl -> (forall i, In i bl -> i < n) ->
    gather bl (matvec A (scatter bl up (vzero n))) = dmul (diag_block A [] bl) up.
  Proof.
    intros W Hu Hb. apply (vec_ext (length bl)).
    - apply gather_length.
    - apply dmul_length. apply diag_block_dims.
    - intros i Hi. rewrite (ent_dmul (length bl)) by (auto using diag_block_dims).
      assert (E : ent (gather bl (matvec A (scatter bl up (vzero n)))) i = ent (matvec A (scatter bl up (vzero n))) (nth i bl 0)).
      { unfold gather, ent at 1. rewrite nth_indep with (d' := ent (matvec A (scatter bl up (vzero n))) 0) by now rewrite map_length.
        apply map_nth. }
      rewrite E, ent_matvec, (row_times_scatter _ n) by auto.
      rewrite (xsum_ext (length bl) _ (fun j => act (entry A (nth i bl 0) (nth j bl 0)) (ent up j))).
      2:{ intros j Hj. rewrite diag_block_ent by auto. simpl. now rewrite andb_false_r. }
      unfold entry. generalize (getrow A (nth i bl 0)) as r. clear - Hu. intros r. unfold xsum.
      revert up Hu. induction bl as [|k bl IH]; intros [|u up] H; simpl in *; try lia; auto.
      f_equal. rewrite IH by lia. rewrite <- seq_shift.
      generalize (seq 0 (length bl)) as q. induction q; simpl; auto. now rewrite IHq.
  Qed.
End Dense.
#[global] Hint Resolve len_scatter : len.
