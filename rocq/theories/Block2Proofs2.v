(** Proofs about Block2Model.v, part 2: zero-initial-guess sweeps, set-up, comparison with the smoother of BlockModel.v *)
From Verif Require Import Base AGroup LinAlg LinTools GSSpec GSModel GSProofs GSProofs2 Shm BlockModel BlockProofs BlockProofs2 Block2Model Block2Proofs.
From Coq Require Import Permutation.
Open Scope nat_scope.

Section P.
  Context {B : Blk} (L : BlkLaws B).
  Local Notation X := (X B). Local Notation M := (M B). Local Notation K := (K B).
  Local Notation vec := (list X).
  Local Notation lin := (@lin B).
  Add Ring Kringb3 : (lawK B L).
  Let LX := lawX B L.
  #[local] Hint Resolve len_scatter len_mask len_assign : len.

  (** *** sweeps that assume a zero initial guess *)
  Definition processed (d : nat -> option nat) (done : list nat) (j : nat) : bool := match d j with Some k => mem_nat k done | None => false end.
  Definition zig (back : bool) (k : b2blk B) (b x : vec) : vec := if back then rupd_BW_zig k b x else rupd_FW_zig k b x.
  Definition wstep (n : nat) (A : @spmat B) (S : BS2 B) (r : vec) (w : vec) (k : nat) : vec := w +v b2_C n S k (residual (matvec A) r w).

  Lemma gather_mvrows n A (back : bool) (d : nat -> option nat) (S : BS2 B) k (u : vec) : bs2_ok n A S (in_L d) (in_U d) -> k < length (s2_blocks S) -> length u = n ->
    mvrows (if back then b2_U (b2_at S k) else b2_L (b2_at S k)) u
    = gather (b2_dofs (b2_at S k)) (matvec A (mask (if back then in_U d k else in_L d k) u)).
  Proof.
    intros H Hk Hu. pose proof (proj2 H k Hk) as Hb. destruct back.
    - rewrite (k_U _ _ _ _ _ Hb). apply (mvrows_filter L n); auto. apply H.
    - rewrite (k_L _ _ _ _ _ Hb). apply (mvrows_filter L n); auto. apply H.
  Qed.
  Lemma mask_ext f g (u : vec) : (forall j, j < length u -> f j = g j) -> mask f u = mask g u.
  Proof. intros H. unfold mask. apply map_ext_in. intros j Hj. apply in_seq in Hj. rewrite H by lia. reflexivity. Qed.
  (** assigning on a block that was masked out before = adding there *)
  Lemma mask_assign n (d : nat -> option nat) (done : list nat) k (S : BS2 B) A fL fU (v u : vec) : bs2_ok n A S fL fU -> k < length (s2_blocks S) -> length u = n ->
    (forall j, j < n -> (d j = Some k <-> In j (b2_dofs (b2_at S k)))) -> ~ In k done -> length v = length (b2_dofs (b2_at S k)) ->
    mask (processed d (done ++ [k])) (assign (b2_dofs (b2_at S k)) v u)
    = mask (processed d done) u +v scatter (b2_dofs (b2_at S k)) v (vzero n).
  Proof.
    intros H Hk Hu Hd HN Hv. pose proof (proj2 H k Hk) as Hb. pose proof (k_lt _ _ _ _ _ Hb) as LT. pose proof (k_nd _ _ _ _ _ Hb) as ND.
    apply (vec_ext n); auto with len. intros j Hj. rewrite ent_mask by (rewrite (len_assign n); auto).
    rewrite (ent_vadd L) by (side_len n). rewrite ent_mask by lia. unfold processed.
    assert (EM : forall i, mem_nat i (done ++ [k]) = mem_nat i done || (i =? k)).
    { intros i. unfold mem_nat. rewrite existsb_app. simpl. now rewrite orb_false_r. }
    destruct (d j) as [k'|] eqn:Ed.
    - rewrite EM. destruct (Nat.eqb_spec k' k) as [->|Hne].
      + rewrite orb_true_r. rewrite (proj2 (mem_nat_out k done)) by auto.
        assert (Hin : In j (b2_dofs (b2_at S k))) by (apply Hd; auto). destruct (In_nth _ _ 0 Hin) as (i & Hi & <-).
        rewrite assign_at by (auto; intros; rewrite Hu; auto). rewrite (scatter_self L) by auto. ag LX.
      + rewrite orb_false_r. assert (Hin : ~ In j (b2_dofs (b2_at S k))). { rewrite <- Hd by auto. congruence. }
        rewrite assign_other, scatter_other, ent_vzero by auto. destruct (mem_nat k' done); ag LX.
    - assert (Hin : ~ In j (b2_dofs (b2_at S k))). { rewrite <- Hd by auto. congruence. }
      rewrite scatter_other, ent_vzero by auto. ag LX.
  Qed.
  Lemma zig_step n A (S : BS2 B) (d : nat -> option nat) (back : bool) (r u : vec) (done : list nat) k : bs2_ok n A S (in_L d) (in_U d) -> k < length (s2_blocks S) -> length u = n -> length r = n ->
    (forall j, j < n -> (d j = Some k <-> In j (b2_dofs (b2_at S k)))) -> ~ In k done ->
    (forall j, j < n -> (if back then in_U d k else in_L d k) j = processed d done j) ->
    length (zig back (b2_at S k) r u) = n /\
    mask (processed d (done ++ [k])) (zig back (b2_at S k) r u) = wstep n A S r (mask (processed d done) u) k.
  Proof.
    intros H Hk Hu Hr Hd HN Hsel. pose proof (proj2 H k Hk) as Hb. assert (HA : length A = n) by apply (proj1 H).
    assert (E : zig back (b2_at S k) r u = assign (b2_dofs (b2_at S k))
              (dmul (b2_inv (b2_at S k)) (gather (b2_dofs (b2_at S k)) (residual (matvec A) r (mask (processed d done) u)))) u).
    { unfold residual. rewrite (gather_vsub L n) by auto with len.
      rewrite <- (mask_ext (if back then in_U d k else in_L d k)) by (rewrite Hu; auto).
      rewrite <- (gather_mvrows n A back d S k u) by auto. unfold zig, rupd_BW_zig, rupd_FW_zig. now destruct back. }
    split. rewrite E; auto with len. rewrite E. rewrite (mask_assign n d done k S A _ _ _ u H); auto.
    apply dmul_length, (k_inv _ _ _ _ _ Hb).
  Qed.
  Definition sweep_order (S : BS2 B) (back : bool) : list nat := (if back then @rev nat else fun l => l) (seq 0 (length (s2_blocks S))).
  Lemma seq_split m done k rest : seq 0 m = done ++ k :: rest -> k = length done /\ done = seq 0 k /\ k < m.
  Proof.
    intros E. assert (Hm : m = length done + S (length rest)) by (rewrite <- (seq_length m 0), E, app_length; simpl; lia).
    assert (Ek : k = length done).
    { assert (nth (length done) (seq 0 m) 0 = k) by (rewrite E, app_nth2, Nat.sub_diag; auto). rewrite seq_nth in H; lia. }
    repeat split; auto; [|lia]. assert (E2 : firstn k (seq 0 m) = done) by (rewrite E, Ek; rewrite firstn_app, Nat.sub_diag, firstn_all; simpl; apply app_nil_r).
    rewrite <- E2. rewrite Hm, seq_app, firstn_app, seq_length, <- Ek, Nat.sub_diag. simpl. rewrite app_nil_r.
    rewrite <- (seq_length k 0) at 1. now rewrite firstn_all.
  Qed.
  (** sel: the columns taken into account are those of the blocks visited before *)
  Lemma sel_ok (S : BS2 B) d back done k rest : (forall j k', d j = Some k' -> k' < length (s2_blocks S)) ->
    (forall j, d j <> None -> True) -> sweep_order S back = done ++ k :: rest ->
    k < length (s2_blocks S) /\ ~ In k done /\
    forall j, d j <> None -> (if back then in_U d k else in_L d k) j = processed d done j.
  Proof.
    intros Hd _ E. unfold sweep_order in E. set (m := length (s2_blocks S)) in *. destruct back.
    - apply (f_equal (@rev nat)) in E. rewrite rev_involutive, rev_app_distr in E. simpl in E. rewrite <- app_assoc in E. simpl in E.
      destruct (seq_split _ _ _ _ E) as (_ & Er & Hk).
      assert (Hin : forall i, In i done <-> k < i < m).
      { assert (E3 : seq 0 m = seq 0 (Datatypes.S k) ++ rev done).
        { rewrite E, Er at 1. rewrite seq_S. simpl. now rewrite <- app_assoc. }
        assert (E4 : seq 0 m = seq 0 (Datatypes.S k) ++ seq (Datatypes.S k) (m - Datatypes.S k)) by (rewrite <- seq_app; f_equal; lia).
        rewrite E4 in E3. apply app_inv_head in E3. intros i. rewrite in_rev, <- E3, in_seq. lia. }
      split; auto. split. rewrite Hin. lia. intros j Hj. unfold in_U, processed. destruct (d j) as [k'|] eqn:Ed; [|congruence].
      destruct (mem_nat k' done) eqn:Em.
      + apply mem_nat_in, Hin in Em. apply Nat.ltb_lt. lia.
      + apply mem_nat_out in Em. rewrite Hin in Em. apply Nat.ltb_ge. specialize (Hd j k' Ed). lia.
    - destruct (seq_split _ _ _ _ E) as (_ & Er & Hk). split; auto. split. rewrite Er, in_seq. lia.
      intros j Hj. unfold in_L, processed. destruct (d j) as [k'|] eqn:Ed; [|congruence].
      destruct (mem_nat k' done) eqn:Em.
      + apply mem_nat_in in Em. rewrite Er, in_seq in Em. apply Nat.ltb_lt. lia.
      + apply mem_nat_out in Em. rewrite Er, in_seq in Em. apply Nat.ltb_ge. lia.
  Qed.
  (** the owner table describes the blocks and every dof has an owner *)
  Definition covered (n : nat) (S : BS2 B) (d : nat -> option nat) : Prop :=
    (forall j k, d j = Some k -> k < length (s2_blocks S)) /\ (forall j, j < n -> d j <> None) /\
    (forall k j, k < length (s2_blocks S) -> j < n -> (d j = Some k <-> In j (b2_dofs (b2_at S k)))).
  Lemma zig_fold n A S d back r ks : bs2_ok n A S (in_L d) (in_U d) -> covered n S d -> length r = n -> forall done u w,
    sweep_order S back = done ++ ks -> length u = n -> mask (processed d done) u = w ->
    let u' := fold_left (fun u k => zig back (b2_at S k) r u) ks u in
    length u' = n /\ mask (processed d (done ++ ks)) u' = fold_left (wstep n A S r) ks w.
  Proof.
    intros H (C1 & C2 & C3) Hr. induction ks as [|k ks IH]; intros done u w EO Hu EW.
    - simpl. rewrite app_nil_r. auto.
    - destruct (sel_ok S d back done k ks C1 (fun _ _ => I) EO) as (Hk & HN & Hsel).
      destruct (zig_step n A S d back r u done k H Hk Hu Hr) as (H1 & H2); auto.
      cbn [fold_left]. specialize (IH (done ++ [k]) (zig back (b2_at S k) r u) (wstep n A S r w k)).
      rewrite <- app_assoc in IH. apply IH; auto. now rewrite H2, EW.
  Qed.
  Lemma wfold n A S fL fU r ks w : bs2_ok n A S fL fU -> (forall k, In k ks -> k < length (s2_blocks S)) -> length w = n -> length r = n ->
    fold_left (wstep n A S r) ks w = w +v b2_Cs n A S ks (residual (matvec A) r w).
  Proof.
    intros H HK Hw Hr. rewrite <- (fold_rupd L n A S fL fU) by auto. revert w Hw HK.
    pose proof (matvec_lin L n n _ (proj1 H)) as AL. assert (HA : length A = n) by apply (proj1 H).
    induction ks as [|k ks IH]; intros w Hw HK; simpl; auto.
    pose proof (b2_C_lin L n A S fL fU k H (HK k (or_introl eq_refl))) as CL.
    rewrite IH. 2:{ unfold wstep, residual; auto 6 with len. } 2:{ intros; apply HK; now right. }
    f_equal. unfold wstep. rewrite (rupd_step L n A (fL k) (fU k)); auto. apply H. apply H. apply HK; now left.
  Qed.
  Lemma mask_all n S d (u : vec) : covered n S d -> length u = n -> mask (processed d (sweep_order S true)) u = u /\ mask (processed d (sweep_order S false)) u = u.
  Proof.
    intros (C1 & C2 & _) Hu. split; apply (vec_ext n); auto with len; intros j Hj; rewrite ent_mask by lia; unfold processed;
    destruct (d j) as [k|] eqn:E; [|exfalso; now apply (C2 j)| |exfalso; now apply (C2 j)];
    rewrite (proj2 (mem_nat_in _ _)); auto; unfold sweep_order; rewrite <- ?in_rev, in_seq; specialize (C1 j k E); lia.
  Qed.
  Lemma mask_none d (u : vec) n : length u = n -> mask (processed d []) u = vzero n.
  Proof. intros Hu. apply (vec_ext n); auto with len. intros j Hj. rewrite ent_mask, ent_vzero by lia. unfold processed. now destruct (d j). Qed.
  Lemma order_range (S : BS2 B) back k : In k (sweep_order S back) -> k < length (s2_blocks S).
  Proof. unfold sweep_order. destruct back; rewrite <- ?in_rev, in_seq; lia. Qed.
  (** a whole zero-guess sweep from any starting content *)
  Lemma zig_sweep n A S d back r u : bs2_ok n A S (in_L d) (in_U d) -> covered n S d -> length r = n -> length u = n ->
    fold_left (fun u k => zig back (b2_at S k) r u) (sweep_order S back) u = b2_Cs n A S (sweep_order S back) r.
  Proof.
    intros H HC Hr Hu. destruct (zig_fold n A S d back r (sweep_order S back) H HC Hr [] u (vzero n) eq_refl Hu (mask_none d u n Hu)) as (H1 & H2).
    simpl app in H2. pose proof (matvec_lin L n n _ (proj1 H)) as AL.
    pose proof (b2_Cs_lin L n A S _ _ (sweep_order S back) H (order_range S back)) as CL.
    rewrite (wfold n A S _ _ r _ _ H (order_range S back)) in H2 by auto with len.
    destruct (mask_all n S d _ HC H1) as (M1 & M2). destruct back; [rewrite M1 in H2|rewrite M2 in H2]; rewrite H2; unfold residual;
      rewrite (lin_zero L n n), (vsub_zero L n), (vzero_add L n); auto with len.
  Qed.

  (** *** the sweep that also keeps the residual (forward) *)
  Lemma sub_plain_trans rs (w y : vec) : (forall r p, In r rs -> In p r -> mtr (snd p) = snd p) -> sub_plain rs w y = sub_trans rs w y.
  Proof.
    unfold sub_plain, sub_trans. revert w y. induction rs as [|r rs IH]; intros [|u w] y H; simpl; auto.
    rewrite IH by (intros; eapply H; eauto; now right). f_equal. unfold add_row_trans.
    assert (Hr : forall p, In p r -> mtr (snd p) = snd p) by (intros; eapply H; eauto; now left). clear - Hr L. revert y.
    induction r as [|p r IHr]; intros y; simpl; auto. rewrite IHr by (intros; apply Hr; now right). f_equal.
    rewrite Hr by now left. now rewrite (act_opp L).
  Qed.
  Lemma sub_trans_length rs (w y : vec) : length (sub_trans rs w y) = length y.
  Proof. unfold sub_trans. revert w y. induction rs; intros [|? ?] y; simpl; auto. rewrite IHrs. apply add_row_trans_length. Qed.
  Lemma CR_fold n A S d r ks : bs2_ok n A S (in_L d) (in_U d) -> sym_mat n A -> covered n S d -> length r = n ->
    (forall i p, In p (getrow A i) -> mtr (snd p) = snd p) ->
    (forall k v, k < length (s2_blocks S) -> length v = length (b2_dofs (b2_at S k)) -> dmul (b2_diag (b2_at S k)) (dmul (b2_inv (b2_at S k)) v) = v) ->
    forall done u res, sweep_order S false = done ++ ks -> length u = n -> length res = n ->
    (forall j, j < n -> processed d done j = true -> ent res j = ent (residual (matvec A) r (mask (processed d done) u)) j) ->
    let s := fold_left (fun s k => rupd_FW_zig_saveU (b2_at S k) r s) ks (u, res) in
    fst s = fold_left (fun u k => zig false (b2_at S k) r u) ks u /\ length (snd s) = n /\
    forall j, j < n -> processed d (done ++ ks) j = true -> ent (snd s) j = ent (residual (matvec A) r (mask (processed d (done ++ ks)) (fst s))) j.
  Proof.
    intros H HS HC Hr Hsym Hinv. induction ks as [|k ks IH]; intros done u res EO Hu Hres HI.
    - simpl. rewrite app_nil_r. auto.
    - pose proof HC as (C1 & C2 & C3). destruct (sel_ok S d false done k ks C1 (fun _ _ => I) EO) as (Hk & HN & Hsel). cbv iota in Hsel.
      destruct (zig_step n A S d false r u done k H Hk Hu Hr) as (H1 & H2); auto.
      pose proof (proj2 H k Hk) as Hb. assert (HA : length A = n) by apply (proj1 H). pose proof (matvec_lin L n n _ (proj1 H)) as AL.
      pose proof (k_lt _ _ _ _ _ Hb) as LT. pose proof (k_nd _ _ _ _ _ Hb) as ND.
      set (w := mask (processed d done) u) in *. assert (Hw : length w = n) by (unfold w; auto with len).
      cbn [fold_left]. set (s1 := rupd_FW_zig_saveU (b2_at S k) r (u, res)).
      assert (E1 : fst s1 = zig false (b2_at S k) r u) by reflexivity.
      set (sol := dmul (b2_inv (b2_at S k)) (gather (b2_dofs (b2_at S k)) r -v mvrows (b2_L (b2_at S k)) u)).
      assert (Esol : sol = dmul (b2_inv (b2_at S k)) (gather (b2_dofs (b2_at S k)) (residual (matvec A) r w))).
      { unfold sol. rewrite (gather_mvrows n A false d S k u) by auto. cbv iota.
        rewrite (mask_ext _ (processed d done)) by (rewrite Hu; auto). fold w. unfold residual. now rewrite (gather_vsub L n) by auto with len. }
      assert (Hsol : length sol = length (b2_dofs (b2_at S k))) by (apply dmul_length, (k_inv _ _ _ _ _ Hb)).
      set (y0 := assign (b2_dofs (b2_at S k)) (map (fun _ => x0) (b2_dofs (b2_at S k))) res).
      assert (Hy0 : length y0 = n) by (unfold y0; auto with len).
      assert (E2 : snd s1 = sub_trans (b2_L (b2_at S k)) sol y0).
      { unfold s1, rupd_FW_zig_saveU. cbn [snd]. apply sub_plain_trans. intros r' p Hr' Hp. rewrite (k_L _ _ _ _ _ Hb) in Hr'.
        apply in_map_iff in Hr' as (i & <- & _). apply filter_In in Hp as (Hp & _). eapply Hsym; eauto. }
      rewrite (k_L _ _ _ _ _ Hb) in E2.
      pose proof (fun j Hj => sub_trans_filter L n A (in_L d k) (b2_dofs (b2_at S k)) sol y0 j (proj1 H) HS LT Hy0 Hj) as ST. cbv zeta in ST. rewrite <- E2 in ST.
      assert (H3 : length (snd s1) = n).
      { rewrite E2. now rewrite sub_trans_length. }
      destruct s1 as [u1 res1] eqn:Es1. cbn [fst snd] in *. rewrite E1.
      specialize (IH (done ++ [k]) (zig false (b2_at S k) r u) res1). rewrite <- app_assoc in IH. apply IH; auto. clear IH.
      intros j Hj Pj. rewrite H2. unfold wstep. rewrite (residual_step L n) by (auto; eapply (b2_C_lin L); eauto).
      unfold b2_C, bstep. rewrite <- Esol. rewrite (ent_vsub L).
      2:{ unfold residual. side_len n. }
      destruct (ST j Hj) as (_ & ->). unfold processed in Pj. destruct (d j) as [k'|] eqn:Ed; [|discriminate].
      assert (EM : mem_nat k' (done ++ [k]) = mem_nat k' done || (k' =? k)).
      { unfold mem_nat. rewrite existsb_app. simpl. now rewrite orb_false_r. }
      rewrite EM in Pj. destruct (Nat.eqb_spec k' k) as [->|Hne].
      + (* j is in the block: the residual vanishes *)
        assert (Hin : In j (b2_dofs (b2_at S k))) by (apply C3; auto). destruct (In_nth _ _ 0 Hin) as (i & Hi & <-).
        unfold in_L. rewrite Ed, Nat.ltb_irrefl. unfold y0. rewrite assign_at by (rewrite ?map_length; auto; intros; rewrite Hres; auto).
        assert (E3 : ent (map (fun _ => @x0 B) (b2_dofs (b2_at S k))) i = @x0 B).
        { unfold ent. exact (map_nth (fun _ : nat => @x0 B) (b2_dofs (b2_at S k)) 0 i). }
        rewrite E3.
        assert (E4 : gather (b2_dofs (b2_at S k)) (matvec A (scatter (b2_dofs (b2_at S k)) sol (vzero n))) = gather (b2_dofs (b2_at S k)) (residual (matvec A) r w)).
        { rewrite (gather_A_scatter L A n) by (auto; apply H). rewrite <- (k_diag _ _ _ _ _ Hb), Esol. apply Hinv; auto using gather_length. }
        assert (E5 : forall v : vec, ent v (nth i (b2_dofs (b2_at S k)) 0) = ent (gather (b2_dofs (b2_at S k)) v) i).
        { intros v. unfold gather. unfold ent at 2. rewrite nth_indep with (d' := ent v 0) by now rewrite map_length. now rewrite (map_nth (ent v)). }
        rewrite (E5 (residual (matvec A) r w)), (E5 (matvec A _)), E4. ag LX.
      + rewrite orb_false_r in Pj. assert (Hin : ~ In j (b2_dofs (b2_at S k))) by (rewrite <- C3 by auto; congruence).
        assert (EL : in_L d k j = true) by (rewrite Hsel by (congruence || auto); unfold processed; now rewrite Ed).
        rewrite EL. unfold y0. rewrite assign_other by auto. f_equal. apply HI; auto. unfold processed. now rewrite Ed.
  Qed.
  Lemma CR_sweep n A S d r u res : bs2_ok n A S (in_L d) (in_U d) -> sym_mat n A -> covered n S d -> length r = n ->
    (forall i p, In p (getrow A i) -> mtr (snd p) = snd p) ->
    (forall k v, k < length (s2_blocks S) -> length v = length (b2_dofs (b2_at S k)) -> dmul (b2_diag (b2_at S k)) (dmul (b2_inv (b2_at S k)) v) = v) ->
    length u = n -> length res = n ->
    fold_left (fun s k => rupd_FW_zig_saveU (b2_at S k) r s) (sweep_order S false) (u, res)
    = (b2_Cs n A S (sweep_order S false) r, residual (matvec A) r (b2_Cs n A S (sweep_order S false) r)).
  Proof.
    intros H HS HC Hr Hsym Hinv Hu Hres. assert (HA : length A = n) by apply (proj1 H).
    destruct (CR_fold n A S d r (sweep_order S false) H HS HC Hr Hsym Hinv [] u res eq_refl Hu Hres) as (H1 & H2 & H3).
    { intros j Hj. unfold processed. simpl. destruct (d j); discriminate. }
    rewrite (zig_sweep n A S d false r u) in H1 by auto. cbv zeta in *. destruct (fold_left _ _ (u, res)) as [u' res']. cbn [fst snd] in *. subst u'. f_equal.
    pose proof (b2_Cs_lin L n A S _ _ (sweep_order S false) H (order_range S false)) as CL.
    apply (vec_ext n); auto. unfold residual; auto with len. intros j Hj. change ([] ++ sweep_order S false) with (sweep_order S false) in H3.
    assert (Hl : length (b2_Cs n A S (sweep_order S false) r) = n) by auto with len.
    rewrite H3; auto.
    { rewrite (proj2 (mask_all n S d _ HC Hl)). reflexivity. }
    unfold processed. destruct HC as (C1 & C2 & _). destruct (d j) as [k|] eqn:E; [|exfalso; now apply (C2 j)].
    apply mem_nat_in. unfold sweep_order. rewrite in_seq. specialize (C1 j k E). lia.
  Qed.

  (** *** set-up *)
  Lemma sum_len {T} (g : list (list T)) : list_sum (map (@length _) g) = length (concat g).
  Proof. induction g; simpl; auto. now rewrite app_length, IHg. Qed.
  Lemma map_fst_at (f : nat -> list nat -> b2blk B) blocks k : k < length blocks ->
    nth k (map (fun p => f (fst p) (snd p)) (combine (seq 0 (length blocks)) blocks)) (mkB2 [] [] [] [] []) = f k (nth k blocks []).
  Proof.
    intros H. rewrite nth_indep with (d' := (fun p => f (fst p) (snd p)) (0, [])) by now rewrite map_length, combine_length, seq_length, Nat.min_id.
    rewrite (map_nth (fun p => f (fst p) (snd p))), combine_nth by apply seq_length. now rewrite seq_nth.
  Qed.
  Lemma bs2_make_no minv (A : @spmat B) n groups md (S : BS2 B) : (forall m D, dims m D -> dims m (minv D)) -> wf_mat n n A ->
    bs2_make minv A groups true md = Ret S ->
    let blocks := concat groups in
    exists t, dof2block n blocks = Ret t /\ bs2_ok n A S (in_L (fun i => nth i t None)) (in_U (fun i => nth i t None)) /\ s2_no S = true /\
      length (s2_blocks S) = length blocks /\ list_sum (s2_groups S) = length blocks /\ (md = [] \/ blocks = []) /\
      (forall k, k < length blocks -> b2_dofs (b2_at S k) = sort_nat (nth k blocks []) /\
         b2_inv (b2_at S k) = minv (diag_block A md (sort_nat (nth k blocks []))) /\ b2_diag (b2_at S k) = diag_block A [] (sort_nat (nth k blocks []))).
  Proof.
    intros Hm W E blocks. unfold bs2_make in E. fold blocks in E. destruct W as [HA W]. rewrite HA in E.
    destruct (dof2block n blocks) as [t|] eqn:Et; [|discriminate]. cbn [bind] in E.
    destruct (negb (length md =? 0) && negb (length blocks =? 0)) eqn:Emd; [discriminate|]. injection E as <-.
    assert (Hmd : md = [] \/ blocks = []) by (destruct md; auto; destruct blocks; auto; discriminate).
    destruct (dof2block_ok _ _ _ Et) as (T1 & T2 & T3). exists t. split; auto.
    set (S := mkBS2 _ _ _).
    assert (HL : length (s2_blocks S) = length blocks) by (unfold S; simpl; now rewrite map_length, combine_length, seq_length, Nat.min_id).
    assert (HK : forall k, k < length blocks -> b2_at S k = set_lu minv A (fun i => nth i t None) k (nth k blocks [])).
    { intros k Hk. unfold b2_at, S. simpl. now rewrite (map_fst_at (set_lu minv A (fun i => nth i t None))). }
    split; [|split; [reflexivity|]].
    - split. split; auto. rewrite HL. intros k Hk. rewrite HK by auto. destruct (T2 k Hk) as (N1 & N2).
      pose proof (sort_nat_perm (nth k blocks [])) as SP. unfold set_lu. constructor; simpl; auto.
      + eapply Permutation_NoDup; [apply Permutation_sym, SP|auto].
      + intros i Hi. apply (Permutation_in _ SP) in Hi. now apply N2.
      + apply Hm, diag_block_dims.
      + intros j Hj. unfold in_L, in_U. assert (Hin : In j (sort_nat (nth k blocks [])) <-> nth j t None = Some k).
        { split; intros Hi. apply (Permutation_in _ SP) in Hi. now apply N2. apply (Permutation_in _ (Permutation_sym SP)). now apply (T3 j k). }
        rewrite Hin. destruct (nth j t None) as [k'|].
        * destruct (Nat.ltb_spec k' k), (Nat.ltb_spec k k'); try lia.
          -- left. repeat split; auto. intros [= ->]. lia.
          -- right; left. repeat split; auto. intros [= ->]. lia.
          -- right; right. repeat split; auto. f_equal. lia.
        * left. repeat split; auto. discriminate.
    - split; auto. split. unfold S; simpl. apply sum_len. split; auto. intros k Hk. rewrite HK by auto. simpl. split; auto.
      split; auto. f_equal. destruct Hmd as [->|Hb]; auto. rewrite Hb in Hk. simpl in Hk. lia.
  Qed.
  Lemma bs2_make_wo minv (A : @spmat B) n groups md (S : BS2 B) : (forall m D, dims m D -> dims m (minv D)) -> wf_mat n n A ->
    (forall bl, In bl (concat groups) -> NoDup bl /\ forall i, In i bl -> i < n) ->
    bs2_make minv A groups false md = Ret S ->
    let blocks := concat groups in
    bs2_ok n A S (fun k j => negb (mem_nat j (b2_dofs (b2_at S k)))) (fun _ _ => false) /\ s2_no S = false /\
      length (s2_blocks S) = length blocks /\ list_sum (s2_groups S) = length blocks /\
      (forall k, k < length blocks -> b2_dofs (b2_at S k) = sort_nat (nth k blocks []) /\
         b2_inv (b2_at S k) = minv (diag_block A md (sort_nat (nth k blocks []))) /\ b2_diag (b2_at S k) = diag_block A [] (sort_nat (nth k blocks []))).
  Proof.
    intros Hm W HB E blocks. unfold bs2_make in E. fold blocks in E. injection E as <-. set (S := mkBS2 _ _ _).
    assert (HL : length (s2_blocks S) = length blocks) by (unfold S; simpl; apply map_length).
    assert (HK : forall k, k < length blocks -> b2_at S k = set_from minv A md (nth k blocks [])).
    { intros k Hk. unfold b2_at, S. simpl. rewrite nth_indep with (d' := set_from minv A md []) by now rewrite map_length. apply map_nth. }
    split; [|split; [reflexivity|]].
    - split; auto. rewrite HL. intros k Hk. destruct (HB (nth k blocks []) (nth_In _ _ Hk)) as (N1 & N2).
      pose proof (sort_nat_perm (nth k blocks [])) as SP.
      assert (ED : b2_dofs (b2_at S k) = sort_nat (nth k blocks [])) by (rewrite HK; auto).
      constructor; rewrite ?ED.
      + eapply Permutation_NoDup; [apply Permutation_sym, SP|auto].
      + intros i Hi. apply (Permutation_in _ SP) in Hi. now apply N2.
      + rewrite HK by auto. reflexivity.
      + rewrite HK by auto. simpl. apply map_ext. intros d. induction (getrow A d); auto.
      + rewrite HK by auto. reflexivity.
      + rewrite HK by auto. simpl. apply Hm, diag_block_dims.
      + intros j Hj. destruct (mem_nat j (sort_nat (nth k blocks []))) eqn:Em.
        * right; right. apply mem_nat_in in Em. auto.
        * left. apply mem_nat_out in Em. auto.
    - split; auto. split. unfold S; simpl. apply sum_len. intros k Hk. rewrite HK by auto. simpl. auto.
  Qed.
End P.
