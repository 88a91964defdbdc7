(** Proofs about HybMatModel: M and G together are the matrix. *)
From Verif Require Import Base AGroup LinAlg ArraysModel SparseModel SparseSpec EQCModel ReduceModel DccModel HybMatModel ArraysProofs SparseProofs2 SparseProofs3 UtilProofs FactoryProofs EQCProofs EQCProofs2 EQCProofs3 ReduceProofs EQCProps ReduceProps DccProofs HybMatProofs.
Local Open Scope nat_scope.

Section Sums.
  Context {E : Type} (e0 : E) (eadd : E -> E -> E) (CM : CMon e0 eadd).
  Notation sum := (sumN e0 eadd).
  Lemma e0r a : eadd a e0 = a. Proof. rewrite (cm_comm _ _ CM). apply (cm_0 _ _ CM). Qed.
  Lemma sum_ext n f g : (forall k, k < n -> f k = g k) -> sum n f = sum n g.
  Proof. induction n as [|n IH]; intros H; cbn [sumN]; auto. rewrite IH, H; auto. Qed.
  Lemma sum_0 n : sum n (fun _ => e0) = e0.
  Proof. induction n as [|n IH]; cbn [sumN]; auto. rewrite IH. apply e0r. Qed.
  Lemma sum_z n f : (forall k, k < n -> f k = e0) -> sum n f = e0.
  Proof. intros H. rewrite (sum_ext _ _ (fun _ => e0)); auto. apply sum_0. Qed.
  Lemma sum_add n f g : sum n (fun k => eadd (f k) (g k)) = eadd (sum n f) (sum n g).
  Proof.
    induction n as [|n IH]; cbn [sumN]. now rewrite e0r. rewrite IH. rewrite !(cm_assoc _ _ CM). f_equal. rewrite <- !(cm_assoc _ _ CM). f_equal. apply (cm_comm _ _ CM).
  Qed.
  Lemma sum_delta n i x : i < n -> sum n (fun j => if i =? j then x j else e0) = x i.
  Proof.
    induction n as [|n IH]; intros H; [lia|]. cbn [sumN]. destruct (Nat.eqb_spec i n) as [->|NE].
    - rewrite sum_z. now rewrite (cm_0 _ _ CM). intros k Hk. destruct (Nat.eqb_spec n k); auto; lia.
    - rewrite IH by lia. apply e0r.
  Qed.
  Lemma sum_only n i f : i < n -> (forall k, k < n -> k <> i -> f k = e0) -> sum n f = f i.
  Proof. intros Hi H. rewrite (sum_ext _ _ (fun j => if i =? j then f j else e0)). now apply sum_delta. intros k Hk. destruct (Nat.eqb_spec i k); subst; auto. Qed.
  Lemma fold_filter f h n a : fold_left (fun s p => eadd s (f p)) (filter h (seq 0 n)) a = eadd a (sum n (fun p => if h p then f p else e0)).
  Proof.
    induction n as [|n IH]; cbn [sumN]. cbn. now rewrite e0r. rewrite seq_S, filter_app, fold_left_app, IH. cbn [filter Nat.add]. destruct (h n); cbn [fold_left]. now rewrite (cm_assoc _ _ CM). now rewrite e0r.
  Qed.
End Sums.

Section Split.
  Context {B : Blk} (CM : CMon (@m0 B) madd).
  Local Notation M := (M B). Local Notation row := (@row B). Local Notation spmat := (@spmat B).
  Variables (dps : list (list (list nat))) (key : nat -> nat -> nat).
  Hypothesis RM : rows_match dps dps key.
  Notation np := (nranks dps).
  Notation nd r := (ndof dps r).
  Notation dp r k := (dproc dps r k).
  Notation msum := (sumN (@m0 B) madd).
  (** contribution of a rank to the global entry (g, h), and the global entry *)
  Definition gval (p : nat) (A : spmat) (g h : nat) : M := msum (nd p) (fun k => msum (nd p) (fun l => if (key p k =? g) && (key p l =? h) then entry A k l else m0)).
  Definition gent (As : nat -> spmat) (g h : nat) : M := msum np (fun p => gval p (As p) g h).
  Lemma gval_at p A k l : p < np -> k < nd p -> l < nd p -> gval p A (key p k) (key p l) = entry A k l.
  Proof.
    intros Hp Hk Hl. unfold gval. rewrite (sum_only m0 madd CM _ k); auto.
    - rewrite (sum_only m0 madd CM _ l); auto. now rewrite !Nat.eqb_refl. intros j Hj NE. destruct (Nat.eqb_spec (key p j) (key p l)) as [E|E]; [|now rewrite andb_false_r]. apply (rHI dps key RM p) in E; auto. contradiction.
    - intros i Hi NE. apply (sum_z m0 madd CM). intros j Hj. destruct (Nat.eqb_spec (key p i) (key p k)) as [E|E]; auto. apply (rHI dps key RM p) in E; auto. contradiction.
  Qed.
  Lemma gval_row p A g h : (forall k, k < nd p -> key p k <> g) -> gval p A g h = m0.
  Proof. intros H. apply (sum_z m0 madd CM). intros k Hk. apply (sum_z m0 madd CM). intros l _. destruct (Nat.eqb_spec (key p k) g); auto. now destruct (H k Hk). Qed.
  Lemma gval_col p A g h : (forall l, l < nd p -> key p l <> h) -> gval p A g h = m0.
  Proof. intros H. apply (sum_z m0 madd CM). intros k Hk. apply (sum_z m0 madd CM). intros l Hl. destruct (Nat.eqb_spec (key p l) h). now destruct (H l Hl). now rewrite andb_false_r. Qed.
  Lemma occ_loc p g : (exists k, k < nd p /\ key p k = g) \/ forall k, k < nd p -> key p k <> g.
  Proof.
    destruct (existsb (fun k => key p k =? g) (seq 0 (nd p))) eqn:E.
    - left. apply existsb_exists in E as (k & K1 & E). apply in_seq in K1. apply Nat.eqb_eq in E. exists k. split; [lia|auto].
    - right. intros k Hk EK. apply not_true_iff_false in E. apply E. apply existsb_exists. exists k. split. apply in_seq; lia. now apply Nat.eqb_eq.
  Qed.

  Variable As : list spmat.
  Hypothesis HA : length As = np.
  Hypothesis HW : forall r, r < np -> wf_mat (nd r) (nd r) (nth r As []).
  Hypothesis HC : forall r k, r < np -> cols_sorted (getrow (nth r As []) k).
  Notation AA := (fun p => nth p As []).
  Section OneRank.
  Variable r : nat.
  Hypothesis Hr : r < np.
  Notation A := (nth r As []).
  Notation crow := (crow dps As r). Notation matis := (matis dps r). Notation cols_of := (cols_of dps As r).
  Lemma lenA' q : q < np -> length (nth q As []) = nd q. Proof. intros H. now destruct (HW q H). Qed.
  (** received rows *)
  Lemma crow_cols p n l : p < np -> In l (map fst (crow p n)) -> In l (m_ex dps r p).
  Proof.
    intros Hp H. unfold HybMatProofs.crow, rrow in H. rewrite sub_row_cols in H. apply in_map_iff in H as (c & <- & Hc). apply filter_In in Hc as (_ & Hc). apply has_in in Hc. unfold tr. apply nth_In. rewrite (ex_len dps key RM r p Hr Hp). now apply pos_of_in.
  Qed.
  Lemma crow_ent p n l : p < np -> n < nd r -> is_master dps r n = true -> In p (dp r n) -> l < nd r -> is_master dps r l = true ->
    row_ent (crow p n) l = gval p (nth p As []) (key r n) (key r l).
  Proof.
    intros Hp Hn Mn In_ Hl Ml. assert (I : In n (m_ex dps r p)) by (apply in_m; auto). destruct (pos_of_in n _ 0 I) as (P1 & P2). set (t := pos_of n (m_ex dps r p)) in *. pose proof (ex_nth dps key RM r p t Hr Hp P1) as K. rewrite P2 in K. rewrite (ex_len dps key RM r p Hr Hp) in P1. set (n' := nth t (g_ex dps p r) 0) in *.
    assert (Hn' : n' < nd p). { assert (X : In n' (g_ex dps p r)) by now apply nth_In. now apply in_g in X as (X & _). }
    destruct (has_dec l (m_ex dps r p)) as [J|J].
    - destruct (pos_of_in l _ 0 J) as (Q1 & Q2). set (s := pos_of l (m_ex dps r p)) in *. pose proof (ex_nth dps key RM r p s Hr Hp Q1) as K2. rewrite Q2 in K2. rewrite (ex_len dps key RM r p Hr Hp) in Q1. set (l' := nth s (g_ex dps p r) 0) in *.
      assert (Il : In l' (g_ex dps p r)) by now apply nth_In. assert (Hl' : l' < nd p) by now apply in_g in Il as (X & _).
      assert (T : tr dps r p l' = l). { unfold tr, l'. rewrite pos_of_nth; auto using g_nodup. }
      rewrite K, K2, gval_at by auto. rewrite <- T at 1. unfold HybMatProofs.crow, rrow. fold t. fold n'. rewrite sub_row_ent; auto.
      intros x Hx E. destruct (Nat.lt_trichotomy x l') as [LT|[|LT]]; auto; pose proof (tr_mono dps key RM r Hr p) as TM. specialize (TM x l' Hp Hx Il LT). lia. specialize (TM l' x Hp Il Hx LT). lia.
    - rewrite row_ent_out. 2:{ intros X. apply crow_cols in X; auto. } rewrite gval_col; auto. intros c Hc E. apply J. apply in_m. split; auto. split; auto. apply (copy_iff dps key RM); auto. { intros ->. destruct (rHR dps key RM r n Hr Hn) as (_ & N & _). contradiction. } exists c. auto.
  Qed.
  Lemma m_entry n ro l : mrow_ok dps As r n ro -> n < nd r -> l < nd r ->
    row_ent ro l = if is_master dps r n && is_master dps r l then gent AA (key r n) (key r l) else m0.
  Proof.
    intros HM Hn Hl. unfold mrow_ok in HM. destruct (is_master dps r n) eqn:Mn; cbn [andb]. 2: now subst. destruct HM as (_ & EC & EV). destruct (cols_spec dps key RM As HA HC r Hr n) as (CS & CI & _).
    assert (DPM : forall p, In p (matis n) <-> In p (dp r n)). { intros p. rewrite (matis_in dps As HA r Hr). rewrite in_m. split. tauto. intros X. split. now apply (rHR dps key RM r n). auto. }
    destruct (is_master dps r l) eqn:Ml.
    - assert (FE : row_ent ro l = fold_left (fun s p => madd s (row_ent (crow p n) l)) (matis n) (row_ent (getrow A n) l)).
      { destruct (has_dec l (cols_of n)) as [I|I]. now apply EV. rewrite row_ent_out by (rewrite EC; auto). rewrite row_ent_out. 2:{ intros X. apply I. apply CI. left. apply filter_In. auto. } symmetry.
        assert (G : forall ps, (forall p, In p ps -> In p (matis n)) -> fold_left (fun s p => madd s (row_ent (crow p n) l)) ps m0 = m0). { induction ps as [|p ps IH]; intros HP; cbn [fold_left]; auto. rewrite (row_ent_out (crow p n)). rewrite (cm_0 _ _ CM). apply IH. intros; apply HP; now right. intros X. apply I. apply CI. right. exists p. split; auto. apply HP. now left. } now apply G. }
      rewrite FE. unfold HybMatProofs.matis. rewrite (fold_filter m0 madd CM). unfold gent. change (row_ent (getrow A n) l) with (entry A n l). rewrite <- (gval_at r A n l Hr Hn Hl).
      rewrite (sum_ext m0 madd np (fun p => gval p (AA p) (key r n) (key r l)) (fun p => madd (if r =? p then gval p (AA p) (key r n) (key r l) else m0) (if has n (m_ex dps r p) then row_ent (crow p n) l else m0))).
      + rewrite (sum_add m0 madd CM). f_equal. now rewrite (sum_delta m0 madd CM np r (fun p => gval p (AA p) (key r n) (key r l))).
      + intros p Hp. destruct (rHR dps key RM r n Hr Hn) as (_ & NR & _). destruct (Nat.eqb_spec r p) as [<-|NE].
        * rewrite (proj2 (has_out n _)). now rewrite (e0r m0 madd CM). intros X. apply in_m in X as (_ & _ & X). contradiction.
        * rewrite (cm_0 _ _ CM). destruct (has_dec n (m_ex dps r p)) as [I|I].
          { rewrite (proj2 (has_in n _) I). symmetry. apply crow_ent; auto. now apply in_m in I as (_ & _ & I). }
          rewrite (proj2 (has_out n _) I). apply gval_row. intros c Hc E. apply I. apply in_m. split; auto. split; auto. apply (copy_iff dps key RM); auto. exists c. auto.
    - apply row_ent_out. rewrite EC, CI. intros [X|(p & P1 & P2)]. apply filter_In in X as (_ & X). congruence. apply (matis_in dps As HA r Hr) in P1 as (P1 & _). apply crow_cols in P2; auto. apply in_m in P2 as (_ & P2 & _). congruence.
  Qed.
  (** G *)
  Definition home_of (k : nat) : option nat := if is_master dps r k then None else match dp r k with [] => None | d0 :: _ => Some d0 end.
  Lemma home_g k p : k < nd r -> (In k (g_ex dps r p) <-> home_of k = Some p).
  Proof.
    intros Hk. rewrite in_g by auto. unfold home_of. destruct (is_master dps r k) eqn:EM. { split. intros (_ & X & _). discriminate. discriminate. }
    destruct (dp r k) as [|d0 d]. split. intros (_ & _ & d & X). discriminate. discriminate. split. intros (_ & _ & d' & X). congruence. intros [= ->]. eauto.
  Qed.
  Lemma home_lt k p : k < nd r -> home_of k = Some p -> p < r.
  Proof. intros Hk H. apply home_g in H; auto. now apply g_lt in H. Qed.
  Lemma masters_ok : masters dps r (nd r) = Ret (map home_of (seq 0 (nd r))).
  Proof.
    unfold masters.
    pose (st := fun a => map (fun k => match home_of k with Some m => if m <? a then Some m else None | None => None end) (seq 0 (nd r))).
    assert (S0 : repeat None (nd r) = st 0). { unfold st. rewrite repeat_seq. apply map_seq_ext. intros k _. now destruct (home_of k). }
    rewrite S0. rewrite (foldM_run _ st np).
    - f_equal. unfold st. apply map_seq_ext. intros k Hk. destruct (home_of k) as [m|] eqn:E; auto. apply home_lt in E; auto. destruct (Nat.ltb_spec m np); auto. lia.
    - intros a Ha. unfold st at 1.
      assert (G : forall ds (f : nat -> option nat), (forall d, In d ds -> d < nd r) -> foldM (fun mo d => wr mo d (Some a)) ds (map f (seq 0 (nd r))) = Ret (map (fun k => if has k ds then Some a else f k) (seq 0 (nd r)))).
      { induction ds as [|d ds IH]; intros f Hds; cbn [foldM]; auto. rewrite wr_map_seq by (apply Hds; now left). cbn [bind]. rewrite IH by (intros; apply Hds; now right). f_equal. apply map_seq_ext. intros k Hk. destruct (has_dec k ds) as [I|I]. rewrite (proj2 (has_in k ds) I), (proj2 (has_in k (d :: ds))); auto. now right. rewrite (proj2 (has_out k ds) I). destruct (Nat.eqb_spec k d) as [->|NE]. rewrite (proj2 (has_in d (d :: ds))); auto. now left. rewrite (proj2 (has_out k (d :: ds))); auto. intros [|]; auto. }
      rewrite G. 2:{ intros d Hd. now apply in_g in Hd as (Hd & _). } f_equal. unfold st. apply map_seq_ext. intros k Hk. destruct (has_dec k (g_ex dps r a)) as [I|I].
      + rewrite (proj2 (has_in _ _) I). apply home_g in I; auto. rewrite I. now destruct (Nat.ltb_spec a (1 + a)); [|lia].
      + rewrite (proj2 (has_out _ _) I). destruct (home_of k) as [m|] eqn:E; auto. assert (m <> a). { intros ->. apply I. now apply home_g. } destruct (Nat.ltb_spec m a), (Nat.ltb_spec m (1 + a)); auto; lia.
  Qed.
  Lemma map_fst_filter (h : nat -> bool) (ro : row) : map fst (filter (fun p => h (fst p)) ro) = filter h (map fst ro).
  Proof. induction ro as [|p ro IH]; cbn [filter map]; auto. destruct (h (fst p)); cbn [map]; now rewrite IH. Qed.
  Definition g_row (n : nat) : row := filter (fun p => negb (oeqb (home_of (fst p)) (home_of n))) (getrow A n).
  Lemma build_G_ok : build_G dps r A = Ret (map g_row (seq 0 (nd r))).
  Proof.
    unfold build_G. rewrite lenA' by auto. rewrite masters_ok. cbn [bind]. apply mapM_map. intros n Hn. apply in_seq in Hn. rewrite (rd_ok A n []) by (rewrite lenA'; auto; lia). cbn [bind]. rewrite rd_map_seq by lia. cbn [bind]. fold (getrow A n). unfold g_row.
    assert (W : forall p, In p (getrow A n) -> fst p < nd r). { intros p Hp. destruct (HW r Hr) as (_ & W). eapply W. exact Hp. }
    assert (G : forall ro acc, (forall p, In p ro -> fst p < nd r) -> foldM (fun acc (p : nat * M) => mc <- rd (map home_of (seq 0 (nd r))) (fst p) ;; Ret (if oeqb mc (home_of n) then acc else acc ++ [p])) ro acc = Ret (acc ++ filter (fun p => negb (oeqb (home_of (fst p)) (home_of n))) ro)).
    { induction ro as [|p ro IH]; intros acc HP; cbn [foldM filter]. now rewrite app_nil_r. rewrite rd_map_seq by (apply HP; now left). cbn [bind]. rewrite IH by (intros; apply HP; now right). destruct (oeqb _ _); cbn [negb]; auto. now rewrite <- app_assoc. }
    rewrite G by auto. reflexivity.
  Qed.
  Lemma filter_ent (h : nat -> bool) (ro : row) l : row_ent (filter (fun p => h (fst p)) ro) l = if h l then row_ent ro l else m0.
  Proof.
    induction ro as [|p ro IH]; cbn [filter]. { cbn. now destruct (h l). } destruct (h (fst p)) eqn:Eh; cbn [row_ent fold_right]; fold (row_ent ro l); fold (row_ent (filter (fun p => h (fst p)) ro) l); rewrite IH; destruct (Nat.eqb_spec (fst p) l) as [<-|NE]; rewrite ?Eh; auto.
  Qed.
  Definition G_ent (n l : nat) : M := if oeqb (home_of l) (home_of n) then m0 else entry A n l.
  Lemma g_entry n l : n < nd r -> entry (map g_row (seq 0 (nd r))) n l = G_ent n l.
  Proof.
    intros Hn. unfold entry, getrow. rewrite nth_map_seq by auto. unfold g_row, G_ent. rewrite (filter_ent (fun c => negb (oeqb (home_of c) (home_of n)))). destruct (oeqb _ _); reflexivity.
  Qed.
  (** the result on one rank *)
  Definition gpart (MG : spmat * option spmat) : spmat := match snd MG with Some G => G | None => [] end.
  Definition split_ok (MG : spmat * option spmat) : Prop :=
    wf_mat (nd r) (nd r) (fst MG) /\ (forall n, cols_sorted (getrow (fst MG) n)) /\
    (forall n l, n < nd r -> l < nd r -> entry (fst MG) n l = if is_master dps r n && is_master dps r l then gent AA (key r n) (key r l) else m0) /\
    match snd MG with Some G => wf_mat (nd r) (nd r) G /\ (forall n, cols_sorted (getrow G n)) | None => forall k, k < nd r -> dp r k = [] end /\
    (forall n l, n < nd r -> l < nd r -> entry (gpart MG) n l = G_ent n l).
  Lemma decompose_ok : exists MG, decompose dps r A (recvf dps r (D dps As r)) = Ret MG /\ split_ok MG.
  Proof.
    unfold decompose. destruct (forallb _ (nth r dps [])) eqn:EF.
    - exists (A, None). split; auto. rewrite forallb_forall in EF. assert (Z : forall k, k < nd r -> dp r k = []). { intros k Hk. specialize (EF (dp r k) (nth_In _ _ Hk)). destruct (dp r k); auto. discriminate. }
      assert (MM : forall k, k < nd r -> is_master dps r k = true). { intros k Hk. unfold is_master. now rewrite Z. }
      unfold split_ok. cbn [fst snd gpart]. split; [now apply HW|]. split; [intros; now apply HC|]. split; [|split; auto].
      + intros n l Hn Hl. rewrite !MM by auto. cbn [andb]. unfold gent. rewrite (sum_only m0 madd CM _ r); auto. now rewrite gval_at. intros p Hp NE. apply gval_row. intros c Hc E. assert (X : In p (dp r n)). { apply (copy_iff dps key RM); auto. exists c. auto. } rewrite Z in X; auto.
      + intros n l Hn Hl. unfold G_ent, home_of. rewrite !MM by auto. cbn [oeqb]. unfold entry, getrow. now destruct n.
    - rewrite (pass1_ok dps key RM As HA HW HC r Hr). cbn [bind]. destruct (pass2_ok CM dps key RM As HA HW HC r Hr) as (Mm & E & L & HM). rewrite E. cbn [bind]. rewrite build_G_ok. cbn [bind]. eexists. split; [reflexivity|]. unfold split_ok. cbn [fst snd gpart].
      assert (COLS : forall n, cols_sorted (getrow Mm n) /\ forall p, In p (getrow Mm n) -> fst p < nd r).
      { intros n. destruct (Nat.lt_ge_cases n (nd r)) as [Hn|Hn]. 2:{ unfold getrow. rewrite nth_overflow by lia. split. constructor. intros p []. } specialize (HM n Hn). unfold mrow_ok in HM. fold (getrow Mm n) in HM. destruct (is_master dps r n). 2:{ rewrite HM. split. constructor. intros p []. } destruct HM as (H1 & H2 & _). split; auto. intros p Hp.
        assert (X : In (fst p) (cols_of n)) by (rewrite <- H2; now apply in_map). apply (cols_spec dps key RM As HA HC r Hr n) in X as [X|(q & Q1 & Q2)]. apply filter_In in X as (X & _). apply in_map_iff in X as (p' & <- & X). destruct (HW r Hr) as (_ & W). eapply W. exact X. apply (matis_in dps As HA r Hr) in Q1 as (Q1 & _). apply crow_cols in Q2; auto. now apply in_m in Q2 as (Q2 & _). }
      split; [split; [auto|intros n p; apply COLS]|]. split; [intros; apply COLS|]. split; [|split].
      + intros n l Hn Hl. now apply m_entry; [apply HM| |].
      + split. split. now rewrite map_length, seq_length.
        * intros i p Hp. unfold getrow in Hp. destruct (Nat.lt_ge_cases i (nd r)) as [Hi|Hi]. 2:{ rewrite nth_overflow in Hp. destruct Hp. now rewrite map_length, seq_length. } rewrite nth_map_seq in Hp by auto. apply filter_In in Hp as (Hp & _). destruct (HW r Hr) as (_ & W). eapply W. exact Hp.
        * intros n. unfold getrow. destruct (Nat.lt_ge_cases n (nd r)) as [Hi|Hi]. 2:{ rewrite nth_overflow. constructor. now rewrite map_length, seq_length. } rewrite nth_map_seq by auto. unfold g_row, cols_sorted. rewrite (map_fst_filter (fun c => negb (oeqb (home_of c) (home_of n)))). apply ss_filter_r. now apply HC.
      + intros n l Hn Hl. now apply g_entry.
  Qed.
  End OneRank.

  (** the global matrix of the parts *)
  Definition gvalf (p : nat) (f : nat -> nat -> M) (g h : nat) : M := msum (nd p) (fun k => msum (nd p) (fun l => if (key p k =? g) && (key p l =? h) then f k l else m0)).
  Definition gentf (f : nat -> nat -> nat -> M) (g h : nat) : M := msum np (fun p => gvalf p (f p) g h).
  Lemma gvalf_at p f k l : p < np -> k < nd p -> l < nd p -> gvalf p f (key p k) (key p l) = f k l.
  Proof.
    intros Hp Hk Hl. unfold gvalf. rewrite (sum_only m0 madd CM _ k); auto.
    - rewrite (sum_only m0 madd CM _ l); auto. now rewrite !Nat.eqb_refl. intros j Hj NE. destruct (Nat.eqb_spec (key p j) (key p l)) as [E|E]; [|now rewrite andb_false_r]. apply (rHI dps key RM p) in E; auto. contradiction.
    - intros i Hi NE. apply (sum_z m0 madd CM). intros j Hj. destruct (Nat.eqb_spec (key p i) (key p k)) as [E|E]; auto. apply (rHI dps key RM p) in E; auto. contradiction.
  Qed.
  Lemma gvalf_row p f g h : (forall k, k < nd p -> key p k <> g) -> gvalf p f g h = m0.
  Proof. intros H. apply (sum_z m0 madd CM). intros k Hk. apply (sum_z m0 madd CM). intros l _. destruct (Nat.eqb_spec (key p k) g); auto. now destruct (H k Hk). Qed.
  Lemma gvalf_col p f g h : (forall l, l < nd p -> key p l <> h) -> gvalf p f g h = m0.
  Proof. intros H. apply (sum_z m0 madd CM). intros k Hk. apply (sum_z m0 madd CM). intros l Hl. destruct (Nat.eqb_spec (key p l) h). now destruct (H l Hl). now rewrite andb_false_r. Qed.
  Lemma gvalf_ext p f f' g h : (forall k l, k < nd p -> l < nd p -> f k l = f' k l) -> gvalf p f g h = gvalf p f' g h.
  Proof. intros H. apply sum_ext. intros k Hk. apply sum_ext. intros l Hl. rewrite H; auto. Qed.
  Lemma gvalf_add p f f' g h : gvalf p (fun k l => madd (f k l) (f' k l)) g h = madd (gvalf p f g h) (gvalf p f' g h).
  Proof.
    unfold gvalf. rewrite <- (sum_add m0 madd CM). apply sum_ext. intros k _. rewrite <- (sum_add m0 madd CM). apply sum_ext. intros l _. destruct (_ && _); auto. now rewrite (cm_0 _ _ CM).
  Qed.
  Lemma home_char m km p k : m < np -> km < nd m -> is_master dps m km = true -> p < np -> k < nd p -> key p k = key m km -> home_of p k = if p =? m then None else Some m.
  Proof.
    intros Hm Hkm EM Hp Hk E. destruct (is_master dps p k) eqn:EP.
    - destruct (home_unique dps key RM m km p k) as (-> & _); auto. rewrite Nat.eqb_refl. unfold home_of. now rewrite EP.
    - destruct (in_g_home dps key RM p k Hp Hk EP) as (m' & km' & A1 & A2 & A3 & A4 & A5). apply in_m in A2 as (B1 & B2 & B3); auto. destruct (home_unique dps key RM m km m' km') as (<- & _); auto. congruence.
      destruct (Nat.eqb_spec p m); [congruence|]. now apply home_g.
  Qed.
  Definition mfun (p k l : nat) : M := if is_master dps p k && is_master dps p l then gent AA (key p k) (key p l) else m0.
  Lemma gent_M m km q kq : m < np -> km < nd m -> is_master dps m km = true -> q < np -> kq < nd q -> is_master dps q kq = true ->
    gentf mfun (key m km) (key q kq) = if m =? q then gent AA (key m km) (key q kq) else m0.
  Proof.
    intros Hm Hkm EM Hq Hkq EQ.
    assert (Z : forall p, p < np -> p <> m \/ p <> q -> gvalf p (mfun p) (key m km) (key q kq) = m0).
    { intros p Hp NE. destruct (occ_loc p (key m km)) as [(k & Hk & K)|K]; [|now apply gvalf_row]. destruct (occ_loc p (key q kq)) as [(l & Hl & L)|L]; [|now apply gvalf_col]. rewrite <- K, <- L, gvalf_at by auto. unfold mfun.
      destruct (is_master dps p k) eqn:E1; auto. destruct (is_master dps p l) eqn:E2; auto. destruct (home_unique dps key RM p k m km) as (-> & _); auto. destruct (home_unique dps key RM m l q kq) as (-> & _); auto. now destruct NE. }
    destruct (Nat.eqb_spec m q) as [<-|NE].
    - unfold gentf. rewrite (sum_only m0 madd CM _ m); auto. rewrite gvalf_at by auto. unfold mfun. now rewrite EM, EQ.
    - apply (sum_z m0 madd CM). intros p Hp. apply Z; auto. destruct (Nat.eq_dec p m); [right; congruence|now left].
  Qed.
  Lemma gent_G m km q kq : m < np -> km < nd m -> is_master dps m km = true -> q < np -> kq < nd q -> is_master dps q kq = true ->
    gentf G_ent (key m km) (key q kq) = if m =? q then m0 else gent AA (key m km) (key q kq).
  Proof.
    intros Hm Hkm EM Hq Hkq EQ.
    assert (Z : forall p, p < np -> gvalf p (G_ent p) (key m km) (key q kq) = if m =? q then m0 else gval p (AA p) (key m km) (key q kq)).
    { intros p Hp. destruct (occ_loc p (key m km)) as [(k & Hk & K)|K]. 2:{ rewrite gvalf_row, gval_row by auto. now destruct (m =? q). } destruct (occ_loc p (key q kq)) as [(l & Hl & L)|L]. 2:{ rewrite gvalf_col, gval_col by auto. now destruct (m =? q). }
      rewrite <- K, <- L, gvalf_at, gval_at by auto. unfold G_ent. rewrite (home_char m km p k), (home_char q kq p l) by auto. destruct (Nat.eqb_spec m q) as [<-|NE]; destruct (Nat.eqb_spec p m) as [E1|E1]; cbn [oeqb]; rewrite ?Nat.eqb_refl; auto.
      - destruct (Nat.eqb_spec p q) as [E2|E2]; auto; congruence.
      - destruct (Nat.eqb_spec p q) as [E2|E2]; cbn [oeqb]; auto. destruct (Nat.eqb_spec q m); auto; congruence. }
    unfold gentf. rewrite (sum_ext m0 madd np _ (fun p => if m =? q then m0 else gval p (AA p) (key m km) (key q kq))) by auto. destruct (m =? q). apply (sum_0 m0 madd CM). reflexivity.
  Qed.
  Theorem split_sum g h : madd (gentf mfun g h) (gentf G_ent g h) = gent AA g h.
  Proof.
    destruct (occurs_dec dps key g) as [(r & k & Hr & Hk & <-)|N].
    2:{ unfold gentf, gent. rewrite !(sum_z m0 madd CM). apply (cm_0 _ _ CM). intros p Hp. now apply gval_row; intros; apply N. intros p Hp. now apply gvalf_row; intros; apply N. intros p Hp. now apply gvalf_row; intros; apply N. }
    destruct (occurs_dec dps key h) as [(r' & k' & Hr' & Hk' & <-)|N].
    2:{ unfold gentf, gent. rewrite !(sum_z m0 madd CM). apply (cm_0 _ _ CM). intros p Hp. now apply gval_col; intros; apply N. intros p Hp. now apply gvalf_col; intros; apply N. intros p Hp. now apply gvalf_col; intros; apply N. }
    destruct (home dps key RM r k Hr Hk) as (m & km & A1 & A2 & <- & A4). destruct (home dps key RM r' k' Hr' Hk') as (q & kq & B1 & B2 & <- & B4).
    rewrite gent_M, gent_G by auto. destruct (m =? q). apply (e0r m0 madd CM). apply (cm_0 _ _ CM).
  Qed.
End Split.

Section All.
  Context {B : Blk} (CM : CMon (@m0 B) madd).
  Local Notation M := (M B). Local Notation row := (@row B). Local Notation spmat := (@spmat B).
  Variables (dps : list (list (list nat))) (key : nat -> nat -> nat).
  Hypothesis RM : rows_match dps dps key.
  Notation np := (nranks dps).
  Notation nd r := (ndof dps r).
  Variable As : list spmat.
  Hypothesis HA : length As = np.
  Hypothesis HW : forall r, r < np -> wf_mat (nd r) (nd r) (nth r As []).
  Hypothesis HC : forall r k, r < np -> cols_sorted (getrow (nth r As []) k).
  Lemma Decompose_ok : exists MGs, Decompose dps As = Ret MGs /\ length MGs = np /\ forall r, r < np -> split_ok dps key As r (nth r MGs ([], None)).
  Proof.
    unfold Decompose. rewrite (mapM_map _ (fun r => map (fun p => map (D dps As p r) (seq 0 (length (m_ex dps p r)))) (seq 0 np))).
    2:{ intros r Hr. apply in_seq in Hr. apply mapM_map. intros p Hp. apply in_seq in Hp. apply (sent_ok dps key RM As HW p); lia. }
    cbn [bind].
    assert (RC : forall r, r < np -> map (fun p => nth r (nth p (map (fun r => map (fun p => map (D dps As p r) (seq 0 (length (m_ex dps p r)))) (seq 0 np)) (seq 0 np)) []) []) (seq 0 np) = recvf dps r (D dps As r)).
    { intros r Hr. unfold recvf. apply map_seq_ext. intros p Hp. rewrite nth_map_seq by auto. now rewrite nth_map_seq. }
    assert (G : forall l, (forall r, In r l -> r < np) -> exists MGs, mapM (fun r => decompose dps r (nth r As []) (map (fun p => nth r (nth p (map (fun r => map (fun p => map (D dps As p r) (seq 0 (length (m_ex dps p r)))) (seq 0 np)) (seq 0 np)) []) []) (seq 0 np))) l = Ret MGs /\ length MGs = length l /\ forall i, i < length l -> split_ok dps key As (nth i l 0) (nth i MGs ([], None))).
    { induction l as [|r l IH]; intros HL. { exists []. split; auto. split; auto. intros i Hi. cbn in Hi. lia. }
      destruct IH as (MGs & E & EL & EG). { intros; apply HL; now right. } assert (Hr : r < np) by (apply HL; now left). destruct (decompose_ok CM dps key RM As HA HW HC r Hr) as (MG & E1 & S1).
      cbn [mapM]. rewrite RC, E1 by auto. cbn [bind]. rewrite E. cbn [bind]. exists (MG :: MGs). split; auto. split. cbn; lia. intros [|i] Hi; cbn [nth]; auto. apply EG. cbn in Hi. lia. }
    destruct (G (seq 0 np)) as (MGs & E & EL & EG). { intros r Hr. apply in_seq in Hr. lia. } exists MGs. split; auto. rewrite seq_length in EL, EG. split; auto. intros r Hr. specialize (EG r Hr). now rewrite seq_nth in EG.
  Qed.

  (** applying the parts *)
  Variable L : BlkLaws B.
  Notation val := (val dps key). Notation total := (total dps key).
  Variables (xs : nat -> list (X B)) (xg : nat -> X B).
  Hypothesis HX : forall r k, r < np -> k < nd r -> ent (xs r) k = xg (key r k).
  Definition bound : nat := S (list_max (flat_map (fun r => map (key r) (seq 0 (nd r))) (seq 0 np))).
  Lemma key_bound r k : r < np -> k < nd r -> key r k < bound.
  Proof.
    intros Hr Hk. unfold bound. assert (I : In (key r k) (flat_map (fun r => map (key r) (seq 0 (nd r))) (seq 0 np))). { apply in_flat_map. exists r. split. apply in_seq; lia. apply in_map. apply in_seq; lia. }
    assert (F : Forall (fun x => x <= list_max (flat_map (fun r => map (key r) (seq 0 (nd r))) (seq 0 np))) (flat_map (fun r => map (key r) (seq 0 (nd r))) (seq 0 np))) by (apply list_max_le; lia). rewrite Forall_forall in F. specialize (F _ I). lia.
  Qed.
  Notation xsm := (sumN (@x0 B) xadd).
  Lemma total_act (f : nat -> nat -> nat -> M) (ys : nat -> list (X B)) g : (forall r k, r < np -> k < nd r -> ent (ys r) k = xsum (nd r) (fun l => act (f r k l) (ent (xs r) l))) ->
    total ys g = xsm bound (fun h => act (gentf dps key f g h) (xg h)).
  Proof.
    intros HY. pose proof (CM_X L) as CX. unfold DccProofs.total, gentf. rewrite (xsum_sumN L).
    rewrite (sum_ext x0 xadd bound _ (fun h => xsm np (fun r => act (gvalf dps key r (f r) g h) (xg h)))) by (intros h _; apply (act_sumN L)). rewrite (sumN_swap x0 xadd CX). apply sum_ext. intros r Hr.
    unfold DccProofs.val, gvalf. rewrite (xsum_sumN L).
    rewrite (sum_ext x0 xadd bound _ (fun h => xsm (nd r) (fun k => act (sumN m0 madd (nd r) (fun l => if (key r k =? g) && (key r l =? h) then f r k l else m0)) (xg h)))) by (intros h _; apply (act_sumN L)). rewrite (sumN_swap x0 xadd CX). apply sum_ext. intros k Hk.
    rewrite (sum_ext x0 xadd bound _ (fun h => xsm (nd r) (fun l => act (if (key r k =? g) && (key r l =? h) then f r k l else m0) (xg h)))) by (intros h _; apply (act_sumN L)). rewrite (sumN_swap x0 xadd CX).
    destruct (Nat.eqb_spec (key r k) g) as [E|E]; cbn [andb].
    - rewrite HY by auto. rewrite (xsum_sumN L). apply sum_ext. intros l Hl. rewrite (sum_ext x0 xadd bound _ (fun h => if key r l =? h then act (f r k l) (xg h) else x0)). rewrite (sum_delta x0 xadd CX bound (key r l) (fun h => act (f r k l) (xg h))) by now apply key_bound. now rewrite HX. intros h _. destruct (key r l =? h); auto. apply (act_m0 B L).
    - symmetry. apply (sum_z x0 xadd CX). intros l Hl. apply (sum_z x0 xadd CX). intros h Hh. apply (act_m0 B L).
  Qed.
  Lemma mult_ok MGs g : (forall r, r < np -> split_ok dps key As r (nth r MGs ([], None))) -> total (fun r => hyb_mult (nth r MGs ([], None)) (xs r)) g = total (fun r => matvec (nth r As []) (xs r)) g.
  Proof.
    intros HS. rewrite (total_act (fun r k l => madd (mfun dps key As r k l) (G_ent dps As r k l))).
    - rewrite (total_act (fun r => entry (nth r As []))). 2:{ intros r k Hr Hk. now apply (matvec_entries L _ (nd r)), HW. } apply sum_ext. intros h _. f_equal. unfold gentf. rewrite (sum_ext m0 madd np _ (fun p => madd (gvalf dps key p (mfun dps key As p) g h) (gvalf dps key p (G_ent dps As p) g h))) by (intros; apply (gvalf_add CM)). rewrite (sum_add m0 madd CM). exact (split_sum CM dps key RM As g h).
    - intros r k Hr Hk. destruct (HS r Hr) as (W & _ & S1 & S2 & S3). set (MG := nth r MGs ([], None)) in *. unfold hyb_mult.
      assert (EM : ent (matvec (fst MG) (xs r)) k = xsum (nd r) (fun l => act (mfun dps key As r k l) (ent (xs r) l))). { rewrite (matvec_entries L _ _ _ _ _ W). apply xsum_ext. intros l Hl. now rewrite S1. }
      transitivity (xadd (xsum (nd r) (fun l => act (mfun dps key As r k l) (ent (xs r) l))) (xsum (nd r) (fun l => act (G_ent dps As r k l) (ent (xs r) l)))).
      2:{ rewrite <- (xsum_add L). apply xsum_ext. intros l _. symmetry. apply (act_madd B L). }
      rewrite <- EM. unfold gpart in S3. clearbody MG. destruct MG as [Mm [G|]]; cbn [fst snd] in *.
      + destruct S2 as (WG & _). rewrite (ent_vadd L). 2:{ unfold matvec. rewrite !map_length. now rewrite (proj1 W), (proj1 WG). } f_equal. rewrite (matvec_entries L _ _ _ _ _ WG). apply xsum_ext. intros l Hl. now rewrite S3.
      + rewrite (xsum_ext _ _ (fun _ => x0)). rewrite (xsum_zero L). symmetry. apply (e0r x0 xadd (CM_X L)). intros l Hl. rewrite <- S3 by auto. unfold entry, getrow. destruct k; apply (act_m0 B L).
  Qed.
End All.
