From Verif Require Import Base AGroup ArraysModel ArraysProofs ArraysProofs2 LinAlg LinTools GSSpec GSModel SparseModel BlockModel EQCModel CtrModel BlockProofs BlockProofs2 CtrProofs CtrProofs2 AggMapProofs DynModel DynProofs DynProofs2 DynProofs3.
Open Scope nat_scope.

Section Mult.
  Context {B : Blk}.
  Notation vec := (list (X B)).
  Lemma drow_row (r : @row B) (x : vec) : forall s,
    fold_left (fun s p => xadd s (act (fst p) (snd p))) (combine (map snd r) (map (ent x) (rcols r))) s
    = fold_left (fun s p => xadd s (act (snd p) (ent x (fst p)))) r s.
  Proof. induction r as [|p r IH]; intros s; cbn [map combine fold_left rcols]; auto. Qed.
  Lemma dmul_rows (A : @spmat B) bl pt (x : vec) : (forall r, In r bl -> rcols (getrow A r) = pt) ->
    dmul (map (fun r => map snd (getrow A r)) bl) (map (ent x) pt) = map (fun r => row_times (getrow A r) x) bl.
  Proof.
    intros H. unfold dmul. rewrite map_map. apply map_ext_in. intros r Hr. rewrite <- (H r Hr). apply drow_row.
  Qed.
  Lemma fill_ok cap (x : vec) idx : length idx <= cap -> (forall i, In i idx -> i < length x) -> fill cap x idx = Ret (map (ent x) idx).
  Proof. intros H1 H2. unfold fill. apply Nat.leb_le in H1. rewrite H1. now apply mapM_rd. Qed.
  (** writing out the values of a block *)
  Definition put_rows (out : X B -> X B -> X B) (h : nat -> X B) (bl : list nat) (y : vec) : vec :=
    fold_left (fun y r => upd y r (out (ent y r) (h r))) bl y.
  Lemma put_rows_length out h bl : forall y, length (put_rows out h bl y) = length y.
  Proof. unfold put_rows. induction bl as [|r bl IH]; intros y; cbn [fold_left]; auto. rewrite IH. apply upd_length. Qed.
  Lemma out_loop out (h : nat -> X B) bl : forall (pre : vec) y, (forall r, In r bl -> r < length y) ->
    foldM (fun y lr => s <- rd (pre ++ map h bl) (fst lr) ;; o <- rd y (snd lr) ;; wr y (snd lr) (out o s)) (combine (seq (length pre) (length bl)) bl) y
    = Ret (put_rows out h bl y).
  Proof.
    induction bl as [|r bl IH]; intros pre y Hr; cbn [length seq combine foldM map]; auto. cbn [fst snd].
    assert (E : rd (pre ++ h r :: map h bl) (length pre) = Ret (h r)) by (rewrite <- (Nat.add_0_r (length pre)), rd_app_r; reflexivity).
    rewrite E. cbn [bind]. rewrite (rd_nth _ _ x0) by (apply Hr; now left). cbn [bind]. rewrite wr_ok by (apply Hr; now left). cbn [bind].
    specialize (IH (pre ++ [h r]) (upd y r (out (nth r y x0) (h r)))). rewrite app_length in IH. cbn [length] in IH. replace (length pre + 1) with (S (length pre)) in IH by lia.
    rewrite <- app_assoc in IH. cbn [app] in IH. rewrite IH. reflexivity. intros; rewrite upd_length; apply Hr; now right.
  Qed.
  Lemma zero_loop out bl : forall (y : vec), (forall r, In r bl -> r < length y) ->
    foldM (fun y r => o <- rd y r ;; wr y r (out o x0)) bl y = Ret (put_rows out (fun _ => x0) bl y).
  Proof.
    induction bl as [|r bl IH]; intros y Hr; cbn [foldM]; auto. rewrite (rd_nth _ _ x0) by (apply Hr; now left). cbn [bind]. rewrite wr_ok by (apply Hr; now left). cbn [bind].
    rewrite IH by (intros; rewrite upd_length; apply Hr; now right). reflexivity.
  Qed.
  Lemma put_rows_ext out h h' bl : (forall r, In r bl -> h r = h' r) -> forall y, put_rows out h bl y = put_rows out h' bl y.
  Proof. unfold put_rows. induction bl as [|r bl IH]; intros H y; cbn [fold_left]; auto. rewrite (H r) by now left. apply IH. intros; apply H; now right. Qed.
  Lemma put_rows_app out h a b y : put_rows out h (a ++ b) y = put_rows out h b (put_rows out h a y).
  Proof. apply fold_left_app. Qed.
  Lemma put_rows_other out h bl : forall y j, ~ In j bl -> ent (put_rows out h bl y) j = ent y j.
  Proof.
    unfold put_rows. induction bl as [|r bl IH]; intros y j H; cbn [fold_left]; auto. rewrite IH by (intros X; apply H; now right).
    apply nth_upd_neq. intros ->. apply H. now left.
  Qed.
  Lemma put_rows_in out h bl : forall y j, NoDup bl -> In j bl -> j < length y -> ent (put_rows out h bl y) j = out (ent y j) (h j).
  Proof.
    induction bl as [|r bl IH]; intros y j N H Hj; [destruct H|]. inversion N; subst. change (put_rows out h (r :: bl) y) with (put_rows out h bl (upd y r (out (ent y r) (h r)))).
    destruct H as [->|H].
    - rewrite put_rows_other by auto. apply nth_upd_eq. auto.
    - rewrite IH by (rewrite ?upd_length; auto). f_equal. apply nth_upd_neq. intros ->. contradiction.
  Qed.

  Variables (A : @spmat B) (D : dyn B) (bl pt : list (list nat)) (nc : nat).
  Hypothesis R : rep A D bl pt.
  Hypothesis Cols : forall r c, In c (rcols (getrow A r)) -> c < nc.
  Lemma bl_lt k r : k < length bl -> In r (nth k bl []) -> r < length A.
  Proof.
    intros Hk Hr. assert (H : In r (concat bl)) by (apply in_concat; exists (nth k bl []); split; auto; now apply nth_In).
    apply (Permutation_in _ (r_perm _ _ _ _ R)) in H. apply in_seq in H. lia.
  Qed.
  Lemma pt_lt k c : k < length bl -> In c (nth k pt []) -> c < nc.
  Proof.
    intros Hk Hc. destruct (nth k bl []) as [|r l] eqn:E. now apply (r_ne _ _ _ _ R) in E.
    rewrite <- (r_pat _ _ _ _ R k r Hk) in Hc by (rewrite E; now left). eauto.
  Qed.
  Lemma MultiplyBlock_ok out x y k : k < length bl -> length x = nc -> length y = length A ->
    MultiplyBlock D out x y k = Ret (put_rows out (fun r => row_times (getrow A r) x) (nth k bl []) y).
  Proof.
    intros Hk Hx Hy. unfold MultiplyBlock. destruct (r_cols _ _ _ _ R k Hk) as (bc & -> & EC). cbn [bind]. rewrite EC. cbn [bind].
    rewrite fill_ok. 2: now apply (r_maxC _ _ _ _ R). 2:{ intros i Hi. rewrite Hx. eapply pt_lt; eauto. } cbn [bind].
    destruct (r_rows _ _ _ _ R k Hk) as (br & -> & ER). cbn [bind]. rewrite ER. cbn [bind].
    destruct (Nat.ltb_spec 0 (length (nth k pt []))) as [H|H].
    - destruct (r_data _ _ _ _ R k Hk) as (df & -> & -> & EF). cbn [bind].
      replace ((df + length (nth k bl []) * length (nth k pt []) - df) / length (nth k pt [])) with (length (nth k bl [])).
      2:{ replace (df + length (nth k bl []) * length (nth k pt []) - df) with (length (nth k bl []) * length (nth k pt [])) by lia. rewrite Nat.div_mul; auto. lia. }
      pose proof (r_maxR _ _ _ _ R k Hk) as HR. apply Nat.leb_le in HR. rewrite HR, EF. cbn [bind].
      rewrite (dmul_rows A _ (nth k pt [])) by (intros r Hr; now apply (r_pat _ _ _ _ R)).
      apply (out_loop out _ _ []). intros r Hr. rewrite Hy. eapply bl_lt; eauto.
    - assert (E : nth k pt [] = []) by (destruct (nth k pt []); cbn in *; [auto|lia]).
      rewrite zero_loop by (intros r Hr; rewrite Hy; eapply bl_lt; eauto). f_equal. apply put_rows_ext. intros r Hr.
      pose proof (r_pat _ _ _ _ R k r Hk Hr) as Hp. rewrite E in Hp. unfold rcols in Hp. destruct (getrow A r); [reflexivity|discriminate].
  Qed.
  Lemma concat_firstn_nth {T} (ls : list (list T)) : concat (map (fun k => nth k ls []) (seq 0 (length ls))) = concat ls.
  Proof.
    f_equal. apply (nth_ext_len _ _ []); rewrite map_length, seq_length; auto. intros i Hi.
    rewrite nth_indep with (d' := nth 0 ls []) by (rewrite map_length, seq_length; auto). rewrite (map_nth (fun k => nth k ls [])). now rewrite seq_nth.
  Qed.
  Lemma MultiplyInternal_ok out x y : length x = nc -> length y = length A ->
    MultiplyInternal D out x y = Ret (put_rows out (fun r => row_times (getrow A r) x) (concat bl) y).
  Proof.
    intros Hx Hy. unfold MultiplyInternal. rewrite (r_num _ _ _ _ R), <- (concat_firstn_nth bl).
    assert (G : forall ks y, (forall k, In k ks -> k < length bl) -> length y = length A ->
       foldM (MultiplyBlock D out x) ks y = Ret (put_rows out (fun r => row_times (getrow A r) x) (concat (map (fun k => nth k bl []) ks)) y)).
    { induction ks as [|k ks IH]; intros y' Hk Hy'; cbn [foldM map concat]; auto. rewrite MultiplyBlock_ok by (auto; apply Hk; now left). cbn [bind].
      rewrite put_rows_app. apply IH. intros; apply Hk; now right. now rewrite put_rows_length. }
    apply G; auto. intros k Hk. apply in_seq in Hk. lia.
  Qed.
  Lemma Mult_ent out x y : length x = nc -> length y = length A ->
    exists y', MultiplyInternal D out x y = Ret y' /\ length y' = length A /\ forall i, i < length A -> ent y' i = out (ent y i) (ent (matvec A x) i).
  Proof.
    intros Hx Hy. rewrite MultiplyInternal_ok by auto. eexists. split; [reflexivity|]. split. now rewrite put_rows_length. intros i Hi.
    assert (ND : NoDup (concat bl)) by (apply (Permutation_NoDup (Permutation_sym (r_perm _ _ _ _ R))), seq_NoDup).
    rewrite put_rows_in; auto; try lia. f_equal.
    - unfold ent, matvec. rewrite nth_indep with (d' := (fun r => row_times r x) []) by now rewrite map_length. rewrite (map_nth (fun r => row_times r x)). reflexivity.
    - apply (Permutation_in _ (Permutation_sym (r_perm _ _ _ _ R))). apply in_seq. lia.
  Qed.
End Mult.

(** *** the blocks are the classes of rows with equal columns *)
Definition pclass {B : Blk} (A : @spmat B) (r : nat) : list nat :=
  filter (fun s => list_eqb (rcols (getrow A s)) (rcols (getrow A r))) (seq 0 (length A)).
Lemma FOP_nth {T} (R : T -> T -> Prop) (l : list T) d : ForallOrdPairs R l -> forall i j, i < j -> j < length l -> R (nth i l d) (nth j l d).
Proof.
  induction 1 as [|x l F H IH]; intros i j Hij Hj; cbn [length] in *; [lia|]. destruct j; [lia|]. destruct i; cbn [nth].
  rewrite Forall_forall in F. apply F, nth_In. lia. apply IH; lia.
Qed.
Lemma blocks_are_classes {B : Blk} qsort (Q : qsort_ok qsort) (A : @spmat B) rb D gs : valid_bk (length A) rb ->
  gs_ok qsort A rb gs -> rep A D (map (grows rb) gs) (map (gkey A rb) gs) ->
  forall k r, k < length gs -> In r (nth k (map (grows rb) gs) []) -> nth k (map (grows rb) gs) [] = pclass A r.
Proof.
  intros VR G R k r Hk Hr. set (bl := map (grows rb) gs) in *. set (pt := map (gkey A rb) gs) in *.
  assert (Lb : length bl = length gs) by apply map_length.
  apply ss_same.
  - apply (r_ss _ _ _ _ R). lia.
  - unfold pclass. generalize (fun s => list_eqb (rcols (getrow A s)) (rcols (getrow A r))). intros p.
    assert (H : StronglySorted lt (seq 0 (length A))) by apply ss_seq_lt. induction H as [|x l H IH F]; cbn [filter]. constructor. destruct (p x); auto. constructor; auto.
    rewrite Forall_forall in *. intros y Hy. apply filter_In in Hy. now apply F.
  - intros s. unfold pclass. rewrite filter_In, in_seq, leqb_iff. split.
    + intros Hs. split. pose proof (bl_lt A D bl pt R k s ltac:(lia) Hs). lia. rewrite !(r_pat _ _ _ _ R k) by (auto; lia). reflexivity.
    + intros [Hs E]. assert (Hi : In s (concat bl)) by (apply (Permutation_in _ (Permutation_sym (r_perm _ _ _ _ R))), in_seq; lia).
      apply in_concat in Hi as (b & Hb & Hsb). destruct (In_nth _ _ [] Hb) as (j & Hj & Ej).
      assert (Hsj : In s (nth j bl [])) by now rewrite Ej. rewrite (r_pat _ _ _ _ R j s Hj Hsj), (r_pat _ _ _ _ R k r ltac:(lia) Hr) in E.
      destruct (Nat.eq_dec j k) as [->|N]; auto. exfalso. destruct G as (_ & _ & Dist).
      assert (En : forall i, i < length gs -> nth i pt [] = gkey A rb (nth i gs [])).
      { intros i Hi. unfold pt. rewrite nth_indep with (d' := gkey A rb []) by now rewrite map_length. apply map_nth. }
      rewrite !En in E by lia. destruct (Nat.lt_ge_cases j k).
      * apply (FOP_nth _ gs [] Dist j k); auto.
      * apply (FOP_nth _ gs [] Dist k j); auto; lia.
Qed.
