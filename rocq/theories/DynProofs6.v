From Verif Require Import Base AGroup ArraysModel ArraysProofs ArraysProofs2 LinAlg LinTools GSSpec GSModel GSProofs SparseModel BlockModel EQCModel CtrModel BlockProofs BlockProofs2 CtrProofs CtrProofs2 AggMapProofs HybMatProofs DynModel DynProofs DynProofs2 DynProofs3 DynProofs4 DynProofs5.
Open Scope nat_scope.

(** every stored entry has its transposed counterpart stored *)
Definition sym_storage {B : Blk} (A : @spmat B) : Prop :=
  forall i j v, In (j, v) (getrow A i) -> In (i, mtr v) (getrow A j).

Section Gen.
  Context {B : Blk}.
  Notation vec := (list (X B)).
  Lemma add_at_go rows : forall (up pre x : vec), length up = length rows -> (forall r, In r rows -> r < length x) ->
    foldM (fun x lr => u <- rd (pre ++ up) (fst lr) ;; o <- rd x (snd lr) ;; wr x (snd lr) (xadd o u)) (combine (seq (length pre) (length rows)) rows) x = Ret (scatter rows up x).
  Proof.
    induction rows as [|r rows IH]; intros up pre x Hl Hr; cbn [length seq combine foldM]. reflexivity.
    destruct up as [|u up]; [discriminate|]. cbn [fst snd].
    assert (E : rd (pre ++ u :: up) (length pre) = Ret u) by (rewrite <- (Nat.add_0_r (length pre)), rd_app_r; reflexivity).
    rewrite E. cbn [bind]. rewrite (rd_nth _ _ x0) by (apply Hr; now left). cbn [bind]. rewrite wr_ok by (apply Hr; now left). cbn [bind].
    specialize (IH up (pre ++ [u]) (upd x r (xadd (nth r x x0) u))). rewrite app_length in IH. cbn [length] in IH. replace (length pre + 1) with (S (length pre)) in IH by lia.
    rewrite <- app_assoc in IH. cbn [app] in IH. rewrite IH. reflexivity. cbn in Hl; lia. intros; rewrite upd_length; apply Hr; now right.
  Qed.
  Lemma add_at_ok rows (up x : vec) : length up = length rows -> (forall r, In r rows -> r < length x) -> add_at rows up x = Ret (scatter rows up x).
  Proof. intros. apply (add_at_go rows up []); auto. Qed.
  Lemma dmulc_ok m (D : @dense B) (h : vec) : dims m D -> length h = m -> dmulc D h = Ret (dmul D h).
  Proof.
    intros [H1 H2] Hh. unfold dmulc. rewrite H1, Hh, Nat.eqb_refl. cbn [andb].
    assert (E : forallb (fun r : list (M B) => length r =? m) D = true).
    { apply forallb_forall. intros r Hr. destruct (In_nth _ _ [] Hr) as (i & Hi & <-). apply Nat.eqb_eq. apply H2. lia. }
    now rewrite E.
  Qed.
  Lemma scatter_at rows : forall (up x : vec) p, NoDup rows -> length up = length rows -> p < length rows -> nth p rows 0 < length x ->
    ent (scatter rows up x) (nth p rows 0) = xadd (ent x (nth p rows 0)) (ent up p).
  Proof.
    induction rows as [|r rows IH]; intros [|u up] x p N Hl Hp Hx; cbn [length] in *; try lia. inversion N; subst. rewrite scatter_cons. destruct p as [|p].
    - cbn [nth]. rewrite scatter_other by auto. rewrite ent_vinc. rewrite Nat.eqb_refl. cbn [nth] in Hx. apply Nat.ltb_lt in Hx. rewrite Hx. reflexivity.
    - cbn [nth] in *. rewrite IH; auto; try lia. 2: now rewrite vinc_length. rewrite ent_vinc.
      destruct (Nat.eqb_spec r (nth p rows 0)) as [E|]; auto. exfalso. apply H1. rewrite E. apply nth_In. lia.
  Qed.
  Lemma row_ent_none (r : @row B) c : ~ In c (rcols r) -> row_ent r c = m0.
  Proof.
    induction r as [|q r IH]; cbn; auto. intros H. destruct (Nat.eqb_spec (fst q) c). exfalso; apply H; now left. apply IH. intros X; apply H; now right.
  Qed.
  Lemma row_ent_pos (r : @row B) p c v : NoDup (rcols r) -> nth_error r p = Some (c, v) -> row_ent r c = madd v m0.
  Proof.
    revert p. induction r as [|q r IH]; intros p N H; destruct p; cbn in H; try discriminate; cbn; inversion N; subst.
    - injection H as ->. cbn. rewrite Nat.eqb_refl. f_equal. apply (row_ent_none r c). exact H2.
    - destruct (Nat.eqb_spec (fst q) c); [|eauto]. subst c. exfalso. apply H2. apply nth_error_In in H. apply (in_map fst) in H. exact H.
  Qed.
  Lemma stored_in (A : @spmat B) i j v : NoDup (rcols (getrow A i)) -> In (j, v) (getrow A i) -> stored A i j = v.
  Proof. intros N H. apply In_nth_error in H as (p & Hp). unfold stored. now rewrite (find_nth (getrow A i) p j v N Hp). Qed.
  Lemma stored_none (A : @spmat B) i j : ~ In j (rcols (getrow A i)) -> stored A i j = m0.
  Proof.
    intros H. unfold stored. destruct (find _ _) as [[c v]|] eqn:E; auto. apply find_some in E as [H1 H2]. apply Nat.eqb_eq in H2. cbn in H2. subst c.
    exfalso. apply H. apply in_map_iff. exists (j, v). auto.
  Qed.
  Lemma entry_stored (A : @spmat B) i j : NoDup (rcols (getrow A i)) -> In j (rcols (getrow A i)) -> LinAlg.entry A i j = madd (stored A i j) m0.
  Proof.
    intros N H. apply in_map_iff in H as ([c v] & E & H). cbn in E. subst c. rewrite (stored_in A i j v) by auto. apply In_nth_error in H as (p & Hp). eapply row_ent_pos; eauto.
  Qed.
End Gen.

Section Sym.
  Context {B : Blk} (L : BlkLaws B).
  Variable A : @spmat B.
  Hypothesis Sorted : forall r, StronglySorted lt (rcols (getrow A r)).
  Hypothesis Sy : sym_storage A.
  Lemma sym_pat i j : In j (rcols (getrow A i)) -> In i (rcols (getrow A j)).
  Proof. intros H. apply in_map_iff in H as ([c v] & E & H). cbn in E. subst c. apply Sy in H. apply in_map_iff. exists (i, mtr v). auto. Qed.
  Lemma nd r : NoDup (rcols (getrow A r)). Proof. now apply ss_lt_nd. Qed.
  Lemma stored_sym i j : stored A j i = mtr (stored A i j).
  Proof.
    destruct (in_dec Nat.eq_dec j (rcols (getrow A i))) as [H|H].
    - apply in_map_iff in H as ([c v] & E & H). cbn in E. subst c. rewrite (stored_in A i j v) by (auto using nd). apply stored_in. apply nd. now apply Sy.
    - rewrite (stored_none A i j), (stored_none A j i), (mtr_m0 B L); auto. intros X. apply H. now apply sym_pat.
  Qed.
  Lemma storage_sym_mat n : sym_mat n A.
  Proof.
    intros i j _ _. destruct (in_dec Nat.eq_dec j (rcols (getrow A i))) as [H|H].
    - rewrite !entry_stored by (auto using nd, sym_pat). now rewrite (mtr_madd B L), (mtr_m0 B L), stored_sym.
    - unfold LinAlg.entry. rewrite !row_ent_none; auto. now rewrite (mtr_m0 B L). intros X. apply H. now apply sym_pat.
  Qed.
End Sym.

Section Step.
  Context {B : Blk} (L : BlkLaws B).
  Notation vec := (list (X B)).
  Let LX := lawX B L.
  Variables (A : @spmat B) (D : dyn B) (bl pt : list (list nat)).
  Hypothesis R : rep A D bl pt.
  Notation n := (length A).
  Hypothesis Sorted : forall r, StronglySorted lt (rcols (getrow A r)).
  Hypothesis Cols : forall r c, In c (rcols (getrow A r)) -> c < n.
  Hypothesis HS : sym_mat n A.
  Variables (ds : list (@dense B)) (fr : option (list bool)) (om : K B).
  Let S := mkDsm D ds fr om.
  Notation blk k := (nth k bl []).
  Notation dg k := (nth k ds []).
  Definition usable (k : nat) : Prop := k < length bl /\ k < length ds /\ nth k pt [] <> [] /\ dims (length (blk k)) (dg k).
  (** the correction of block k *)
  Definition dcor (k : nat) (r : vec) : vec := scatter (blk k) (vsc om (dmul (dg k) (gather (blk k) r))) (vzero n).

  Lemma wfA : wf_mat n n A.
  Proof. split; auto. intros i p Hp. apply (Cols i). now apply in_map. Qed.
  Lemma dcor_bstep k r : dims (length (blk k)) (dg k) -> dcor k r = vsc om (bstep n (blk k) (dg k) r).
  Proof.
    intros H. unfold dcor, bstep. pose proof (scatter_lin L n (blk k) (length (blk k)) eq_refl) as SL.
    apply (lin_sc _ _ _ SL). apply (lin_len _ _ _ (dmul_lin L _ _ H)). apply gather_length.
  Qed.
  Lemma dcor_lin k : dims (length (blk k)) (dg k) -> lin n n (dcor k).
  Proof.
    intros H. apply (lin_ext n n (fun r => vsc om (bstep n (blk k) (dg k) r))). intros; symmetry; now apply dcor_bstep. apply (lin_scale L). now apply (bstep_lin L).
  Qed.
  Lemma dcor_adj k : k < length bl -> dims (length (blk k)) (dg k) -> dsym (length (blk k)) (dg k) -> adj n n (dcor k) (dcor k).
  Proof.
    intros Hk H1 H2 x y Hx Hy. rewrite !dcor_bstep by auto. pose proof (bstep_lin L n _ _ H1) as BL.
    rewrite (vdot_sc L), (vdot_comm L x), (vdot_sc L). f_equal. rewrite (vdot_comm L _ x). apply (bstep_adj L); auto. intros i Hi. eapply bl_lt; eauto.
  Qed.
  Lemma gather_res b x k : length b = n -> length x = n ->
    vsub (map (ent b) (blk k)) (map (fun r => row_times (getrow A r) x) (blk k)) = gather (blk k) (residual (matvec A) b x).
  Proof.
    intros Hb Hx. unfold gather, residual. generalize (blk k). induction l as [|r l IH]; cbn [map]; auto.
    change (vsub (ent b r :: map (ent b) l) (row_times (getrow A r) x :: map (fun r => row_times (getrow A r) x) l))
      with (xadd (ent b r) (xopp (row_times (getrow A r) x)) :: vsub (map (ent b) l) (map (fun r => row_times (getrow A r) x) l)).
    rewrite IH. f_equal. rewrite (ent_vsub L) by (rewrite matvec_length; auto). now rewrite ent_matvec.
  Qed.
  Lemma updRHS_ok b x k : usable k -> length b = n -> length x = n ->
    updateBlockRHS S b x k = Ret (x +v dcor k (residual (matvec A) b x)).
  Proof.
    intros (Hk & Hd & Hp & HD) Hb Hx. unfold updateBlockRHS. cbn [s_A s_diag s_omega S].
    destruct (r_cols _ _ _ _ R k Hk) as (bc & -> & EC). cbn [bind]. rewrite EC. cbn [bind].
    rewrite fill_ok. 2: now apply (r_maxC _ _ _ _ R). 2:{ intros i Hi. rewrite Hx. eapply pt_lt; eauto. } cbn [bind].
    assert (L0 : 0 <? length (nth k pt []) = true) by (apply Nat.ltb_lt; destruct (nth k pt []); cbn; [congruence|lia]). rewrite L0.
    destruct (r_rows _ _ _ _ R k Hk) as (br & -> & ER). cbn [bind]. rewrite ER. cbn [bind].
    assert (Hbl : forall i, In i (blk k) -> i < n) by (intros; eapply bl_lt; eauto).
    rewrite fill_ok. 2: now apply (r_maxR _ _ _ _ R). 2: rewrite Hb; auto. cbn [bind].
    destruct (r_data _ _ _ _ R k Hk) as (df & -> & _ & EF). cbn [bind]. rewrite EF. cbn [bind].
    rewrite (dmul_rows A _ (nth k pt [])) by (intros r Hr; now apply (r_pat _ _ _ _ R)). rewrite gather_res by auto.
    rewrite (rd_nth ds k []) by auto. cbn [bind]. rewrite (dmulc_ok _ _ _ HD) by apply gather_length. cbn [bind].
    rewrite add_at_ok. 3: rewrite Hx; auto. 2:{ rewrite vsc_length. apply (lin_len _ _ _ (dmul_lin L _ _ HD)), gather_length. }
    f_equal. now apply (scatter_zero L n).
  Qed.
  (** the transposed row block applied to the update *)
  Lemma dmul_t_length (Rm : @dense B) w up : length (dmul_t Rm w up) = w. Proof. unfold dmul_t. now rewrite map_length, seq_length. Qed.
  Lemma dmul_t_ent (Rm : @dense B) w up j : j < w -> ent (dmul_t Rm w up) j = fold_left (fun s p => xadd s (act (mtr (nth j (fst p) m0)) (snd p))) (combine Rm up) x0.
  Proof.
    intros H. unfold dmul_t, ent. set (f := fun j => fold_left _ _ _). rewrite nth_indep with (d' := f 0) by now rewrite map_length, seq_length. rewrite map_nth. now rewrite seq_nth.
  Qed.
  Lemma trans_ent (bs : list nat) p j : (forall r, In r bs -> r < n /\ rcols (getrow A r) = p) -> j < length p -> forall (up : vec) s, length up = length bs ->
    fold_left (fun s q => xadd s (act (mtr (nth j (fst q) m0)) (snd q))) (combine (map (fun r => map snd (getrow A r)) bs) up) s
    = xadd s (fold_right (fun q s => xadd (act (row_ent (getrow A (nth j p 0)) (fst q)) (snd q)) s) x0 (combine bs up)).
  Proof.
    intros Hb Hj. induction bs as [|r bs IH]; intros [|u up] s Hl; try discriminate; cbn [map combine fold_left fold_right]. ag LX.
    rewrite IH; [|intros; apply Hb; now right|cbn in Hl; lia]. cbn [fst snd].
    destruct (Hb r (or_introl eq_refl)) as [Hr Ep]. assert (Hjl : j < length (getrow A r)) by (rewrite <- Ep in Hj; unfold rcols in Hj; now rewrite map_length in Hj).
    destruct (nth_error (getrow A r) j) as [[c v]|] eqn:E. 2:{ apply nth_error_None in E. lia. }
    assert (Ec : nth j p 0 = c). { rewrite <- Ep. apply nth_error_nth. unfold rcols. rewrite nth_error_map, E. reflexivity. }
    assert (Ev : nth j (map (@snd nat (M B)) (getrow A r)) m0 = v). { apply nth_error_nth. rewrite nth_error_map, E. reflexivity. }
    rewrite Ec, Ev. change (row_ent (getrow A c) r) with (LinAlg.entry A c r). rewrite (HS r c); auto. 2:{ apply (Cols r). rewrite Ep. rewrite <- Ec. now apply nth_In. }
    unfold LinAlg.entry. rewrite (row_ent_pos _ j c v) by (auto; now apply ss_lt_nd). rewrite (mtr_madd B L), (mtr_m0 B L), (act_madd B L), (act_m0 B L). ag LX.
  Qed.
  Lemma res_update k (up y : vec) : k < length bl -> length up = length (blk k) -> length y = n ->
    scatter (nth k pt []) (map xopp (dmul_t (map (fun r => map snd (getrow A r)) (blk k)) (length (nth k pt [])) up)) y
    = y -v matvec A (scatter (blk k) up (vzero n)).
  Proof.
    intros Hk Hl Hy. assert (Hbl : forall r, In r (blk k) -> r < n /\ rcols (getrow A r) = nth k pt []).
    { intros r Hr. split. eapply bl_lt; eauto. now apply (r_pat _ _ _ _ R). }
    assert (Sp : StronglySorted lt (nth k pt [])). { destruct (blk k) as [|r l] eqn:E. now apply (r_ne _ _ _ _ R) in E. destruct (Hbl r) as [_ <-]. now left. apply Sorted. }
    pose proof (ss_lt_nd _ Sp) as Np.
    apply (vec_ext n). now rewrite scatter_length. rewrite vsub_length by (rewrite matvec_length; auto). auto.
    intros j Hj. rewrite (ent_vsub L) by (rewrite matvec_length; auto). rewrite ent_matvec. rewrite (row_times_scatter L) by (auto; intros i Hi; now apply Hbl).
    destruct (in_dec Nat.eq_dec j (nth k pt [])) as [Hin|Hout].
    - destruct (In_nth _ _ 0 Hin) as (p & Hp & <-). rewrite scatter_at; auto. 2: now rewrite map_length, dmul_t_length. 2: lia. f_equal.
      unfold ent at 1. rewrite nth_indep with (d' := xopp x0) by (rewrite map_length, dmul_t_length; auto). rewrite map_nth. f_equal.
      change (nth p ?l x0) with (ent l p). rewrite dmul_t_ent by auto. rewrite (trans_ent _ (nth k pt [])) by auto. ag LX.
    - rewrite scatter_other by auto.
      assert (Z : forall (bs : list nat) up, (forall r, In r bs -> In r (blk k)) -> fold_right (fun q s => xadd (act (row_ent (getrow A j) (fst q)) (snd q)) s) x0 (combine bs up) = x0).
      { induction bs as [|r bs IH]; intros [|u up'] H; cbn [combine fold_right]; auto. rewrite IH by (intros; apply H; now right). cbn [fst snd].
        destruct (Hbl r (H r (or_introl eq_refl))) as [Hr Ep]. change (row_ent (getrow A j) r) with (LinAlg.entry A j r). rewrite (HS r j) by auto. unfold LinAlg.entry.
        rewrite row_ent_none by (rewrite Ep; auto). rewrite (mtr_m0 B L), (act_m0 B L). ag LX. }
      rewrite Z by auto. ag LX.
  Qed.
  Lemma updRes_ok b x k : usable k -> length b = n -> length x = n ->
    let x' := x +v dcor k (residual (matvec A) b x) in
    updateBlockRes S (x, residual (matvec A) b x) k = Ret (x', residual (matvec A) b x').
  Proof.
    intros (Hk & Hd & Hp & HD) Hb Hx x'. assert (Hr : length (residual (matvec A) b x) = n) by (unfold residual; auto with len).
    unfold updateBlockRes. cbn [s_A s_diag s_omega S].
    destruct (r_rows _ _ _ _ R k Hk) as (br & -> & ER). cbn [bind]. rewrite ER. cbn [bind].
    assert (Hbl : forall i, In i (blk k) -> i < n) by (intros; eapply bl_lt; eauto).
    rewrite fill_ok. 2: now apply (r_maxR _ _ _ _ R). 2: rewrite Hr; auto. cbn [bind].
    rewrite (rd_nth ds k []) by auto. cbn [bind]. rewrite (dmulc_ok _ _ _ HD) by apply map_length. cbn [bind].
    destruct (r_data _ _ _ _ R k Hk) as (df & -> & -> & EF). cbn [bind].
    assert (L1 : length (blk k) <> 0) by (pose proof (r_ne _ _ _ _ R k Hk); destruct (blk k); cbn; congruence).
    replace ((df + length (blk k) * length (nth k pt []) - df) / length (blk k)) with (length (nth k pt [])).
    2:{ replace (df + length (blk k) * length (nth k pt []) - df) with (length (nth k pt []) * length (blk k)) by lia. rewrite Nat.div_mul; auto. }
    rewrite EF. cbn [bind].
    change (map (ent (residual (matvec A) b x)) (blk k)) with (gather (blk k) (residual (matvec A) b x)).
    set (up := vsc om (dmul (dg k) (gather (blk k) (residual (matvec A) b x)))).
    assert (Hup : length up = length (blk k)). { unfold up. rewrite vsc_length. apply (lin_len _ _ _ (dmul_lin L _ _ HD)), gather_length. }
    rewrite add_at_ok by (auto; rewrite Hx; auto). cbn [bind].
    destruct (r_cols _ _ _ _ R k Hk) as (bc & -> & EC). cbn [bind]. rewrite EC. cbn [bind].
    pose proof (r_maxC _ _ _ _ R k Hk) as HC. apply Nat.leb_le in HC. rewrite HC.
    rewrite add_at_ok. 2: now rewrite map_length, dmul_t_length. 2:{ intros c Hc. rewrite Hr. eapply pt_lt; eauto. } cbn [bind].
    rewrite res_update by auto. f_equal. f_equal.
    - now apply (scatter_zero L n).
    - pose proof (matvec_lin L n n A wfA) as AL. unfold x'. rewrite (residual_step L n) by (auto using dcor_lin). reflexivity.
  Qed.
  (** a list of blocks *)
  Lemma cor_lins ks : (forall k, In k ks -> usable k) -> Forall (lin n n) (map dcor ks).
  Proof. intros H. apply Forall_forall. intros C HC. apply in_map_iff in HC as (k & <- & Hk). apply dcor_lin. now apply H. Qed.
  Definition op (ks : list nat) : vec -> vec := seq_op (matvec A) n (map dcor ks).
  Lemma op_lin ks : (forall k, In k ks -> usable k) -> lin n n (op ks).
  Proof. intros H. apply (seq_op_lin L). apply (matvec_lin L), wfA. now apply cor_lins. Qed.
  Lemma rhs_loop b ks : forall x, (forall k, In k ks -> usable k) -> length b = n -> length x = n ->
    foldM (updateBlockRHS S b) ks x = Ret (x +v op ks (residual (matvec A) b x)).
  Proof.
    pose proof (matvec_lin L n n A wfA) as AL.
    induction ks as [|k ks IH]; intros x Hk Hb Hx; cbn [foldM].
    - unfold op. cbn. now rewrite (vadd_zero L n).
    - assert (Uk : usable k) by (apply Hk; now left). assert (Us : forall j, In j ks -> usable j) by (intros; apply Hk; now right).
      rewrite updRHS_ok by auto. cbn [bind]. assert (CL : lin n n (dcor k)) by (apply dcor_lin, Uk).
      rewrite IH; auto. 2: unfold residual; auto 6 with len. f_equal. unfold op. cbn [map seq_op]. apply (then_step L n); auto. apply (seq_op_lin L); auto. now apply cor_lins.
  Qed.
  Lemma res_loop b ks : forall x, (forall k, In k ks -> usable k) -> length b = n -> length x = n ->
    let x' := x +v op ks (residual (matvec A) b x) in
    foldM (updateBlockRes S) ks (x, residual (matvec A) b x) = Ret (x', residual (matvec A) b x').
  Proof.
    pose proof (matvec_lin L n n A wfA) as AL.
    induction ks as [|k ks IH]; intros x Hk Hb Hx; cbn [foldM].
    - unfold op. cbn. now rewrite (vadd_zero L n).
    - assert (Uk : usable k) by (apply Hk; now left). assert (Us : forall j, In j ks -> usable j) by (intros; apply Hk; now right).
      rewrite updRes_ok by auto. cbn [bind]. assert (CL : lin n n (dcor k)) by (apply dcor_lin, Uk). cbv zeta in *.
      rewrite IH; auto. 2: unfold residual; auto 6 with len. unfold op. cbn [map seq_op]. rewrite (then_step L n); auto. apply (seq_op_lin L); auto. now apply cor_lins.
  Qed.
  Lemma multadd_res x b : length x = n -> length b = n -> DMultAdd D (kopp k1) x b = Ret (residual (matvec A) b x).
  Proof.
    intros Hx Hb. destruct (Mult_ent A D bl pt n R Cols (fun o v => xadd o (xsc (kopp k1) v)) x b Hx Hb) as (y & E & Ly & Hy).
    unfold DMultAdd. rewrite E. f_equal. apply (vec_ext n); auto. unfold residual; auto with len. intros i Hi. rewrite Hy by auto. unfold residual.
    rewrite (ent_vsub L) by (rewrite matvec_length; auto). now rewrite (xsc_m1 L).
  Qed.
  Lemma smooth_ok back x b r ru ur xz : (forall k, In k (dsm_order S back) -> usable k) -> flags_ok n (matvec A) x b r ru xz ->
    exists r', let x' := x +v op (dsm_order S back) (residual (matvec A) b x) in
      SmoothImpl S back x b r ru ur xz = Ret (x', r') /\ length x' = n /\ length r' = n /\ (ur = true -> r' = residual (matvec A) b x').
  Proof.
    intros U (Hx & Hb & Hr & Hru & Hxz). pose proof (matvec_lin L n n A wfA) as AL. pose proof (op_lin _ U) as OL.
    set (x' := x +v op (dsm_order S back) (residual (matvec A) b x)). assert (Hx' : length x' = n) by (unfold x', residual; auto 6 with len).
    assert (HR : length (residual (matvec A) b x') = n) by (unfold residual; auto with len).
    assert (ER : SmoothRes S back x (residual (matvec A) b x) = Ret (x', residual (matvec A) b x')) by (apply res_loop; auto).
    assert (EH : SmoothRHS S back x b = Ret x') by (apply rhs_loop; auto).
    unfold SmoothImpl. destruct ur.
    - exists (residual (matvec A) b x'). cbv zeta. split; auto. destruct ru; cbn [negb].
      + rewrite Hru by auto. exact ER.
      + destruct xz; cbn [negb].
        * assert (Eb : residual (matvec A) b x = b). { rewrite Hxz by auto. unfold residual. rewrite (lin_zero L n n _ AL). now apply (vsub_zero L). }
          rewrite <- Eb at 1. exact ER.
        * rewrite EH. cbn [bind]. cbn [s_A S]. rewrite multadd_res by auto. reflexivity.
    - exists r. cbv zeta. rewrite EH. cbn [bind]. repeat split; auto. discriminate.
  Qed.
  (** rows where every visited diagonal block returns zero are not changed *)
  Lemma op_ent ks j : (forall k, In k ks -> usable k) ->
    (forall k (h : vec) i, In k ks -> i < length (blk k) -> nth i (blk k) 0 = j -> length h = length (blk k) -> ent (dmul (dg k) h) i = x0) ->
    forall r, length r = n -> ent (op ks r) j = x0.
  Proof.
    intros U Z. pose proof (matvec_lin L n n A wfA) as AL. induction ks as [|k ks IH]; intros r Hr. unfold op. cbn. apply ent_vzero.
    assert (Us : forall j, In j ks -> usable j) by (intros; apply U; now right). pose proof (op_lin ks Us) as OL. destruct (U k (or_introl eq_refl)) as (Hk & _ & _ & HD).
    pose proof (dcor_lin k HD) as CL. unfold op. cbn [map seq_op]. fold (op ks). unfold then_op. rewrite (ent_vadd L) by (rewrite (lin_len _ _ _ CL), (lin_len _ _ _ OL); auto with len).
    rewrite IH by (auto with len; intros; eapply Z; eauto; now right).
    assert (E : ent (dcor k r) j = x0); [|rewrite E; ag LX]. unfold dcor.
    destruct (in_dec Nat.eq_dec j (blk k)) as [Hin|Hout].
    - destruct (In_nth _ _ 0 Hin) as (i & Hi & Ei). rewrite <- Ei. rewrite scatter_at; auto.
      + rewrite ent_vzero, (ent_vsc L). rewrite (Z k _ i); auto. rewrite (xsc_0 L). ag LX. now left. apply gather_length.
      + apply ss_lt_nd. now apply (r_ss _ _ _ _ R).
      + rewrite vsc_length. apply (lin_len _ _ _ (dmul_lin L _ _ HD)), gather_length.
      + rewrite vzero_length. eapply bl_lt; eauto. now apply nth_In.
    - rewrite scatter_other by auto. apply ent_vzero.
  Qed.
End Step.
