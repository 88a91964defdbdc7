(** Proofs about HybMatModel: what M and G contain. *)
From Verif Require Import Base AGroup LinAlg ArraysModel SparseModel SparseSpec EQCModel ReduceModel DccModel HybMatModel ArraysProofs ArraysProofs2 SparseProofs2 SparseProofs3 UtilProofs FactoryProofs EQCProofs EQCProofs2 EQCProofs3 ReduceProofs EQCProps ReduceProps DccProofs.
Local Open Scope nat_scope.

(** *** lists *)
Lemma zs_in c l : In (Z.of_nat c) (zs l) <-> In c l.
Proof. unfold zs. rewrite in_map_iff. split. intros (x & E & H). apply Nat2Z.inj in E. now subst. intros H. eauto. Qed.
Lemma zs_ss l : sset l -> StronglySorted Z.lt (zs l).
Proof. induction 1 as [|x l HS IH HF]; cbn; constructor; auto. apply Forall_map. eapply Forall_impl; [|exact HF]. cbn. lia. Qed.
Lemma zs_back l : map Z.to_nat (zs l) = l.
Proof. unfold zs. rewrite map_map. erewrite map_ext; [apply map_id|]. intros a. apply Nat2Z.id. Qed.
Lemma find_nat c l : sset l -> find_in_sorted_array (Z.of_nat c) (zs l) = Ret (if has c l then Some (pos_of c l) else None).
Proof.
  intros HS. destruct (find_in_sorted_array_spec (Z.of_nat c) (zs l)) as (H1 & H2). { apply SSorted_lt_le. now apply zs_ss. }
  destruct (has_dec c l) as [I|I].
  - rewrite (proj2 (has_in c l) I). destruct H1 as (i & E & N). now apply zs_in. rewrite E. f_equal. f_equal. assert (Li : i < length (zs l)) by (apply nth_error_Some; rewrite N; discriminate). unfold zs in Li. rewrite map_length in Li. apply nth_error_nth with (d := Z.of_nat 0) in N. unfold zs in N. rewrite map_nth in N. apply Nat2Z.inj in N. rewrite <- N. symmetry. apply pos_of_nth; auto. now apply sset_nodup.
  - rewrite (proj2 (has_out c l) I). apply H2. now rewrite zs_in.
Qed.
Lemma upd_map_seq {T} (f : nat -> T) n i v : upd (map f (seq 0 n)) i v = map (fun k => if k =? i then v else f k) (seq 0 n).
Proof.
  apply nth_ext with (d := v) (d' := v). { now rewrite upd_length, !map_length. } rewrite upd_length, map_length, seq_length. intros k Hk. rewrite (nth_map_seq (fun k => if k =? i then v else f k) n k v Hk). destruct (Nat.eqb_spec k i) as [->|NE].
  - rewrite nth_upd_eq; auto. now rewrite map_length, seq_length.
  - rewrite nth_upd_neq by congruence. now apply nth_map_seq.
Qed.
Lemma rd_map_seq {T} (f : nat -> T) n i : i < n -> rd (map f (seq 0 n)) i = Ret (f i).
Proof. intros H. rewrite (rd_ok _ _ (f i)) by (now rewrite map_length, seq_length). now rewrite nth_map_seq. Qed.
Lemma wr_map_seq {T} (f : nat -> T) n i v : i < n -> wr (map f (seq 0 n)) i v = Ret (map (fun k => if k =? i then v else f k) (seq 0 n)).
Proof. intros H. rewrite wr_ok by (now rewrite map_length, seq_length). now rewrite upd_map_seq. Qed.
Lemma map_seq_ext {T} (f g : nat -> T) n : (forall k, k < n -> f k = g k) -> map f (seq 0 n) = map g (seq 0 n).
Proof. intros H. apply map_ext_in. intros k Hk. apply in_seq in Hk. apply H. lia. Qed.
Lemma ss_map (f : nat -> nat) l : sset l -> (forall x y, In x l -> In y l -> x < y -> f x < f y) -> sset (map f l).
Proof.
  induction 1 as [|x l HS IH HF]; intros Hf; cbn [map]; constructor. apply IH. intros; apply Hf; auto; now right.
  rewrite Forall_map. rewrite Forall_forall in HF |- *. intros y Hy. apply Hf; auto. now left. now right.
Qed.
(** number of entries of a sorted list below n *)
Definition cnt (l : list nat) (n : nat) : nat := length (filter (fun k => k <? n) l).
Lemma cnt_hit l n : sset l -> In n l -> cnt l n < length l /\ nth (cnt l n) l 0 = n /\ cnt l n = pos_of n l /\ cnt l (S n) = S (cnt l n).
Proof.
  intros HS HI. assert (E : cnt l n = pos_of n l) by now apply position_pos. destruct (pos_of_in n l 0 HI) as (P1 & P2). rewrite E. split; auto. split; auto. split; auto. rewrite <- E. clear - HS HI.
  unfold cnt. induction HS as [|x l HS IH HF]; [destruct HI|]. rewrite Forall_forall in HF. cbn [filter]. destruct HI as [->|HI].
  - rewrite Nat.ltb_irrefl. destruct (Nat.ltb_spec n (S n)); [|lia]. cbn [length]. f_equal. f_equal. apply filter_ext_in. intros y Hy. specialize (HF y Hy). destruct (Nat.ltb_spec y (S n)), (Nat.ltb_spec y n); auto; lia.
  - specialize (HF n HI). destruct (Nat.ltb_spec x (S n)); [|lia]. destruct (Nat.ltb_spec x n); [|lia]. cbn [length]. now rewrite IH.
Qed.
Lemma cnt_miss l n : sset l -> ~ In n l -> cnt l (S n) = cnt l n /\ (cnt l n < length l -> n < nth (cnt l n) l 0).
Proof.
  intros HS HI. unfold cnt. induction HS as [|x l HS IH HF]; [cbn; split; auto; lia|]. rewrite Forall_forall in HF. cbn [filter]. destruct IH as (I1 & I2). { intros H. apply HI. now right. }
  destruct (Nat.ltb_spec x (S n)), (Nat.ltb_spec x n); try lia.
  - cbn [length nth]. rewrite I1. split; auto. intros. apply I2. lia.
  - assert (x = n) by lia. subst. destruct HI. now left.
  - assert (Z : filter (fun k => k <? n) l = []). { destruct (filter (fun k => k <? n) l) as [|y l'] eqn:E; auto. assert (Y : In y (filter (fun k => k <? n) l)) by (rewrite E; now left). apply filter_In in Y as (Y1 & Y2). apply Nat.ltb_lt in Y2. specialize (HF y Y1). lia. }
    split; auto. rewrite Z. cbn [length nth]. intros. lia.
Qed.
Lemma cnt_all l n : (forall x, In x l -> x < n) -> cnt l n = length l.
Proof. intros H. unfold cnt. f_equal. induction l as [|x l IH]; auto. cbn [filter]. destruct (Nat.ltb_spec x n). f_equal. apply IH. intros; apply H; now right. specialize (H x (or_introl eq_refl)). lia. Qed.
Lemma cnt_le l n : cnt l n <= length l. Proof. unfold cnt. induction l as [|x l IH]; cbn [filter length]; auto. destruct (x <? n); cbn [length]; lia. Qed.
Lemma cnt_0 l : cnt l 0 = 0. Proof. unfold cnt. induction l as [|x l IH]; auto. Qed.
Lemma pos_mono l x y : sset l -> In x l -> In y l -> x < y -> pos_of x l < pos_of y l.
Proof.
  intros HS Hx Hy LT. destruct (pos_of_in x l 0 Hx) as (P1 & P2), (pos_of_in y l 0 Hy) as (Q1 & Q2). destruct (Nat.lt_ge_cases (pos_of x l) (pos_of y l)) as [|GE]; auto. exfalso.
  destruct (Nat.eq_dec (pos_of x l) (pos_of y l)) as [E|NE]. { rewrite E, Q2 in P2. lia. } pose proof (ss_nth lt l 0 HS (pos_of y l) (pos_of x l) ltac:(lia)). lia.
Qed.
Lemma foldM_ext {S T} (f g : S -> T -> res S) l : forall s, (forall s x, In x l -> f s x = g s x) -> foldM f l s = foldM g l s.
Proof. induction l as [|x l IH]; intros s H; cbn [foldM]; auto. rewrite H by now left. destruct (g s x); cbn [bind]; auto. apply IH. intros. apply H. now right. Qed.
(** running over 0..n-1 along a known sequence of states *)
Lemma foldM_run {S} (f : S -> nat -> res S) (st : nat -> S) n : (forall i, i < n -> f (st i) i = Ret (st (1 + i))) -> foldM f (seq 0 n) (st 0) = Ret (st n).
Proof.
  induction n as [|n IH]; intros H; [reflexivity|]. rewrite seq_S, foldM_app. cbn [Nat.add]. rewrite IH by (intros; apply H; lia). cbn [bind foldM]. rewrite H by lia. reflexivity.
Qed.
Lemma mapM_map {A C} (f : A -> res C) (g : A -> C) l : (forall x, In x l -> f x = Ret (g x)) -> mapM f l = Ret (map g l).
Proof. induction l as [|x l IH]; intros H; cbn [mapM map]; auto. rewrite H by now left. cbn [bind]. rewrite IH by (intros; apply H; now right). reflexivity. Qed.

Section Rows.
  Context {B : Blk}.
  Local Notation M := (M B). Local Notation row := (@row B). Local Notation spmat := (@spmat B).
  Definition cols_sorted (ro : row) : Prop := sset (map fst ro).
  (** part of a row on the given dofs, columns renumbered *)
  Definition sub_row (f : nat -> nat) (dofs : list nat) (ro : row) : row := flat_map (fun p => if has (fst p) dofs then [(f (fst p), snd p)] else []) ro.
  Lemma sub_row_cols f dofs ro : map fst (sub_row f dofs ro) = map f (filter (fun c => has c dofs) (map fst ro)).
  Proof. induction ro as [|p ro IH]; cbn [sub_row flat_map map filter]; auto. fold (sub_row f dofs ro). destruct (has (fst p) dofs); cbn [app map]; now rewrite IH. Qed.
  Lemma sub_row_sorted f dofs ro : cols_sorted ro -> (forall x y, In x dofs -> In y dofs -> x < y -> f x < f y) -> cols_sorted (sub_row f dofs ro).
  Proof.
    intros HS Hf. unfold cols_sorted. rewrite sub_row_cols. apply ss_map. now apply ss_filter_r. intros x y Hx Hy. apply filter_In in Hx as (_ & Hx), Hy as (_ & Hy). apply has_in in Hx, Hy. now apply Hf.
  Qed.
  Lemma sub_row_ent f dofs ro c : In c dofs -> (forall x, In x dofs -> f x = f c -> x = c) -> row_ent (sub_row f dofs ro) (f c) = row_ent ro c.
  Proof.
    intros Hc Hf. induction ro as [|p ro IH]; auto. cbn [sub_row flat_map]. fold (sub_row f dofs ro). destruct (has_dec (fst p) dofs) as [I|I].
    - rewrite (proj2 (has_in _ _) I). cbn [app row_ent fold_right fst snd]. fold (row_ent (sub_row f dofs ro) (f c)). rewrite IH. destruct (Nat.eqb_spec (f (fst p)) (f c)) as [E|E].
      + apply Hf in E; auto. rewrite E, Nat.eqb_refl. reflexivity.
      + destruct (Nat.eqb_spec (fst p) c) as [E'|E']; [subst; contradiction|]. reflexivity.
    - rewrite (proj2 (has_out _ _) I). cbn [app row_ent fold_right]. destruct (Nat.eqb_spec (fst p) c) as [E'|E']; [subst; contradiction|]. exact IH.
  Qed.
  Lemma row_ent_out (ro : row) c : ~ In c (map fst ro) -> row_ent ro c = m0.
  Proof. induction ro as [|p ro IH]; intros H; auto. cbn [row_ent fold_right]. destruct (Nat.eqb_spec (fst p) c). { subst. destruct H. now left. } apply IH. intros X. apply H. now right. Qed.
  Lemma spm_diag_ok (A : spmat) dofs : sset dofs -> (forall d, In d dofs -> d < length A) ->
    spm_diag A dofs = Ret (map (fun d => sub_row (fun c => pos_of c dofs) dofs (getrow A d)) dofs).
  Proof.
    intros HS HB. unfold spm_diag. apply mapM_map. intros d Hd. rewrite (rd_ok A d []) by auto. cbn [bind]. fold (getrow A d).
    assert (G : forall ro acc, foldM (fun acc (p : nat * M) => pos <- find_in_sorted_array (Z.of_nat (fst p)) (zs dofs) ;; Ret (match pos with Some i => acc ++ [(i, snd p)] | None => acc end)) ro acc = Ret (acc ++ sub_row (fun c => pos_of c dofs) dofs ro)).
    { induction ro as [|p ro IH]; intros acc; cbn [foldM sub_row flat_map]. now rewrite app_nil_r. rewrite find_nat by auto. cbn [bind]. rewrite IH. fold (sub_row (fun c => pos_of c dofs) dofs ro). destruct (has (fst p) dofs); cbn [app]; auto. now rewrite <- app_assoc. }
    apply (G _ []).
  Qed.
  (** adding rows into a row with fixed columns *)
  Variable CM : CMon (@m0 B) madd.
  Lemma madd_0r (a : M) : madd a m0 = a. Proof. rewrite (cm_comm _ _ CM). apply (cm_0 _ _ CM). Qed.
  Definition rv (ris : list nat) (rvs : list M) (l : nat) : M := if has l ris then nth (pos_of l ris) rvs m0 else m0.
  Lemma rv_ent ris : forall rvs l, NoDup ris -> length rvs = length ris -> row_ent (combine ris rvs) l = rv ris rvs l.
  Proof.
    induction ris as [|a ris IH]; intros rvs l HN HL; [reflexivity|]. destruct rvs as [|v rvs]; [discriminate|]. inversion HN as [|? ? N1 N2]; subst. cbn [combine row_ent fold_right fst snd]. fold (row_ent (combine ris rvs) l). rewrite IH by (auto; cbn in HL; lia).
    unfold rv. cbn [pos_of]. destruct (Nat.eqb_spec a l) as [->|NE].
    - rewrite (proj2 (has_in l (l :: ris))) by now left. rewrite (proj2 (has_out l ris)) by auto. cbn [nth]. apply madd_0r.
    - destruct (has_dec l ris) as [I|I]. rewrite (proj2 (has_in l ris) I), (proj2 (has_in l (a :: ris))) by now right. reflexivity. rewrite (proj2 (has_out l ris) I), (proj2 (has_out l (a :: ris))). reflexivity. intros [|]; auto.
  Qed.
  Lemma add_vals_ok ris : sset ris -> forall ro rvs, length rvs = length ris -> exists rvs', add_vals ris rvs ro = Ret rvs' /\ length rvs' = length ris /\ forall l, In l ris -> rv ris rvs' l = madd (rv ris rvs l) (row_ent ro l).
  Proof.
    intros HS. induction ro as [|p ro IH]; intros rvs HL; unfold add_vals; cbn [foldM]. { exists rvs. split; auto. split; auto. intros. cbn. now rewrite madd_0r. }
    rewrite find_nat by auto. cbn [bind]. destruct (has_dec (fst p) ris) as [I|I].
    - rewrite (proj2 (has_in _ _) I). destruct (pos_of_in (fst p) ris 0 I) as (P1 & P2). rewrite (rd_ok _ _ m0) by lia. cbn [bind]. rewrite wr_ok by lia. cbn [bind]. destruct (IH (upd rvs (pos_of (fst p) ris) (madd (nth (pos_of (fst p) ris) rvs m0) (snd p)))) as (w & E & L & H). now rewrite upd_length.
      exists w. split; [exact E|]. split; auto. intros l Hl. rewrite H by auto. cbn [row_ent fold_right]. fold (row_ent ro l). unfold rv. rewrite (proj2 (has_in l ris) Hl). destruct (Nat.eqb_spec (fst p) l) as [<-|NE].
      + rewrite nth_upd_eq by lia. now rewrite <- (cm_assoc _ _ CM).
      + rewrite nth_upd_neq. reflexivity. intros E'. apply NE. destruct (pos_of_in l ris 0 Hl) as (Q1 & Q2). rewrite <- P2, E', Q2. reflexivity.
    - rewrite (proj2 (has_out _ _) I). destruct (IH rvs HL) as (w & E & L & H). exists w. split; [exact E|]. split; auto. intros l Hl. rewrite H by auto. cbn [row_ent fold_right]. destruct (Nat.eqb_spec (fst p) l) as [<-|NE]; [contradiction|]. reflexivity.
  Qed.
  Lemma rv_zero ris l : rv ris (repeat m0 (length ris)) l = m0.
  Proof. unfold rv. destruct (has l ris); auto. destruct (Nat.lt_ge_cases (pos_of l ris) (length ris)). now apply nth_repeat. rewrite nth_overflow; auto. now rewrite repeat_length. Qed.
End Rows.

Section Rank.
  Context {B : Blk} (CM : CMon (@m0 B) madd).
  Local Notation M := (M B). Local Notation row := (@row B). Local Notation spmat := (@spmat B).
  Variables (dps : list (list (list nat))) (key : nat -> nat -> nat).
  Hypothesis RM : rows_match dps dps key.
  Notation np := (nranks dps).
  Notation nd r := (ndof dps r).
  Notation dp r k := (dproc dps r k).
  Variable As : list spmat.
  Hypothesis HA : length As = np.
  Hypothesis HW : forall r, r < np -> wf_mat (nd r) (nd r) (nth r As []).
  Hypothesis HC : forall r k, r < np -> cols_sorted (getrow (nth r As []) k).
  Variable r : nat.
  Hypothesis Hr : r < np.
  Notation A := (nth r As []).
  Lemma m_ss q p : sset (m_ex dps q p). Proof. apply ss_filter_r, ss_seq. Qed.
  Lemma g_ss q p : sset (g_ex dps q p). Proof. apply ss_filter_r, ss_seq. Qed.
  Lemma lenA q : q < np -> length (nth q As []) = nd q. Proof. intros H. now destruct (HW q H). Qed.
  (** what rank p sends: its rows on the dofs rank r is master of *)
  Definition D (p t : nat) : row := sub_row (fun c => pos_of c (g_ex dps p r)) (g_ex dps p r) (getrow (nth p As []) (nth t (g_ex dps p r) 0)).
  Definition tr (p c : nat) : nat := nth (pos_of c (g_ex dps p r)) (m_ex dps r p) 0.
  Definition rrow (p t : nat) : row := sub_row (tr p) (g_ex dps p r) (getrow (nth p As []) (nth t (g_ex dps p r) 0)).
  Definition recvf (F : nat -> nat -> row) : list spmat := map (fun p => map (F p) (seq 0 (length (m_ex dps r p)))) (seq 0 np).
  Lemma recvf_ext F G : (forall p t, p < np -> t < length (m_ex dps r p) -> F p t = G p t) -> recvf F = recvf G.
  Proof. intros H. apply map_seq_ext. intros p Hp. apply map_seq_ext. auto. Qed.
  Lemma sent_ok p : p < np -> spm_diag (nth p As []) (g_ex dps p r) = Ret (map (D p) (seq 0 (length (m_ex dps r p)))).
  Proof.
    intros Hp. rewrite spm_diag_ok. 2: apply g_ss. 2:{ intros d Hd. rewrite lenA by auto. now apply in_g in Hd as (Hd & _). } f_equal. rewrite (ex_len dps key RM r p Hr Hp). unfold D.
    apply nth_ext with (d := []) (d' := []). now rewrite !map_length, seq_length. rewrite map_length. intros t Ht. rewrite nth_map_seq by auto. rewrite (nth_indep _ [] (sub_row (fun c => pos_of c (g_ex dps p r)) (g_ex dps p r) (getrow (nth p As []) 0))) by now rewrite map_length. now rewrite (map_nth (fun d => sub_row _ _ (getrow (nth p As []) d))).
  Qed.
  Lemma remap_ok p t : p < np -> remap_row (m_ex dps r p) (D p t) = Ret (rrow p t).
  Proof.
    intros Hp. unfold remap_row, D, rrow, sub_row. induction (getrow (nth p As []) (nth t (g_ex dps p r) 0)) as [|q ro IH]; auto. cbn [flat_map]. destruct (has_dec (fst q) (g_ex dps p r)) as [I|I].
    - rewrite (proj2 (has_in _ _) I). cbn [app mapM]. destruct (pos_of_in _ _ 0 I) as (P1 & _). cbn [fst snd]. rewrite (rd_ok _ _ 0) by (rewrite (ex_len dps key RM r p); auto). cbn [bind]. unfold remap_row in IH. rewrite IH. reflexivity.
    - rewrite (proj2 (has_out _ _) I). exact IH.
  Qed.
  Notation at_ n := (map (fun p => cnt (m_ex dps r p) n) (seq 0 np)).
  Definition matis (n : nat) : list nat := filter (fun p => has n (m_ex dps r p)) (seq 0 np).
  Lemma next_ok n : next_mats dps r (at_ n) n = Ret (matis n, at_ (S n)).
  Proof.
    unfold next_mats, matis.
    pose (st := fun a => (filter (fun p => has n (m_ex dps r p)) (seq 0 a), map (fun p => if p <? a then cnt (m_ex dps r p) (S n) else cnt (m_ex dps r p) n) (seq 0 np))).
    replace ([], at_ n) with (st 0). 2:{ unfold st. f_equal. }
    erewrite (foldM_run _ st np).
    - unfold st. f_equal. f_equal. apply map_seq_ext. intros p Hp. destruct (Nat.ltb_spec p np); [reflexivity|lia].
    - intros a Ha. unfold st at 1. rewrite rd_map_seq by auto. rewrite Nat.ltb_irrefl. cbn [bind]. unfold st.
      assert (NX : forall b : bool, filter (fun p => has n (m_ex dps r p)) (seq 0 (1 + a)) = filter (fun p => has n (m_ex dps r p)) (seq 0 a) ++ (if has n (m_ex dps r a) then [a] else [])). { intros _. change (1 + a) with (S a). rewrite seq_S, filter_app. cbn [filter Nat.add]. reflexivity. }
      rewrite (NX true). destruct (has_dec n (m_ex dps r a)) as [I|I].
      + rewrite (proj2 (has_in _ _) I). destruct (cnt_hit _ n (m_ss r a) I) as (C1 & C2 & _ & C4). destruct (Nat.eqb_spec (cnt (m_ex dps r a) n) (length (m_ex dps r a))); [lia|]. rewrite (rd_ok _ _ 0) by auto. cbn [bind]. rewrite C2, Nat.ltb_irrefl. rewrite wr_map_seq by auto. cbn [bind]. f_equal. f_equal. apply map_seq_ext. intros p Hp. destruct (Nat.eqb_spec p a) as [->|NE].
        * destruct (Nat.ltb_spec a (1 + a)); [|lia]. now rewrite C4.
        * destruct (Nat.ltb_spec p a), (Nat.ltb_spec p (1 + a)); auto; lia.
      + rewrite (proj2 (has_out _ _) I), app_nil_r. destruct (cnt_miss _ n (m_ss r a) I) as (C1 & C2).
        assert (ST : map (fun p => if p <? a then cnt (m_ex dps r p) (S n) else cnt (m_ex dps r p) n) (seq 0 np) = map (fun p => if p <? 1 + a then cnt (m_ex dps r p) (S n) else cnt (m_ex dps r p) n) (seq 0 np)).
        { apply map_seq_ext. intros p Hp. destruct (Nat.ltb_spec p a), (Nat.ltb_spec p (1 + a)); auto; try lia. assert (p = a) by lia. subst. now rewrite C1. }
        rewrite <- ST. destruct (Nat.eqb_spec (cnt (m_ex dps r a) n) (length (m_ex dps r a))); auto. assert (LT : cnt (m_ex dps r a) n < length (m_ex dps r a)). { assert (cnt (m_ex dps r a) n <= length (m_ex dps r a)) by apply cnt_le. lia. } rewrite (rd_ok _ _ 0) by auto. cbn [bind]. specialize (C2 LT). destruct (Nat.ltb_spec n (nth (cnt (m_ex dps r a) n) (m_ex dps r a) 0)); [|lia]. reflexivity.
  Qed.
  Lemma take_ok (b : bool) (F : nat -> nat -> row) n p cols : p < np -> In n (m_ex dps r p) -> F p (cnt (m_ex dps r p) n) = ((if b then D else rrow) : nat -> nat -> row) p (cnt (m_ex dps r p) n) ->
    take_row dps b r (at_ (S n)) (recvf F, cols) p = Ret (recvf (fun p' t => if (p' =? p) && (t =? cnt (m_ex dps r p) n) then rrow p t else F p' t), cols ++ [map fst (rrow p (cnt (m_ex dps r p) n))]).
  Proof.
    intros Hp I HF. destruct (cnt_hit _ n (m_ss r p) I) as (C1 & C2 & _ & C4). unfold take_row. unfold recvf at 1. rewrite rd_map_seq by auto. cbn [bind]. rewrite rd_map_seq by auto. cbn [bind]. rewrite C4. replace (S (cnt (m_ex dps r p) n) - 1) with (cnt (m_ex dps r p) n) by lia. rewrite rd_map_seq by auto. cbn [bind]. rewrite HF.
    replace (if b then remap_row (m_ex dps r p) (((if b then D else rrow) : nat -> nat -> row) p (cnt (m_ex dps r p) n)) else Ret (((if b then D else rrow) : nat -> nat -> row) p (cnt (m_ex dps r p) n))) with (Ret (rrow p (cnt (m_ex dps r p) n))). 2:{ destruct b; auto. now rewrite remap_ok. }
    cbn [bind]. rewrite wr_map_seq by auto. cbn [bind]. unfold recvf. rewrite wr_map_seq by auto. cbn [bind]. f_equal. f_equal. apply map_seq_ext. intros p' Hp'. destruct (Nat.eqb_spec p' p) as [->|NE]; cbn [andb]; auto. apply map_seq_ext. intros t Ht. destruct (Nat.eqb_spec t (cnt (m_ex dps r p) n)); subst; auto.
  Qed.
  (** received rows after n rows of the first pass, resp. in the second pass *)
  Definition Fst (b : bool) (n p t : nat) : row := if b then if t <? cnt (m_ex dps r p) n then rrow p t else D p t else rrow p t.
  Definition crow (p n : nat) : row := rrow p (pos_of n (m_ex dps r p)).
  Lemma take_all b n : foldM (take_row dps b r (at_ (S n))) (matis n) (recvf (Fst b n), []) = Ret (recvf (Fst b (S n)), map (fun p => map fst (crow p n)) (matis n)).
  Proof.
    assert (G : forall ps (F : nat -> nat -> row) cols, NoDup ps -> (forall p, In p ps -> p < np /\ In n (m_ex dps r p) /\ F p (cnt (m_ex dps r p) n) = ((if b then D else rrow) : nat -> nat -> row) p (cnt (m_ex dps r p) n)) ->
      foldM (take_row dps b r (at_ (S n))) ps (recvf F, cols) = Ret (recvf (fun p t => if has p ps && (t =? cnt (m_ex dps r p) n) then rrow p t else F p t), cols ++ map (fun p => map fst (crow p n)) ps)).
    { induction ps as [|p ps IH]; intros F cols HN H; cbn [foldM map]. { now rewrite app_nil_r. } inversion HN as [|? ? N1 N2]; subst. destruct (H p (or_introl eq_refl)) as (Hp & I & HF). rewrite take_ok by auto. cbn [bind]. rewrite IH; auto.
      - f_equal. f_equal.
        + apply recvf_ext. intros p' t Hp' Ht. destruct (Nat.eqb_spec p' p) as [->|NE]; cbn [andb].
          * rewrite (proj2 (has_out p ps)) by auto. rewrite (proj2 (has_in p (p :: ps))) by now left. cbn [andb]. reflexivity.
          * replace (has p' (p :: ps)) with (has p' ps); auto. destruct (has_dec p' ps) as [J|J]. rewrite (proj2 (has_in p' ps) J), (proj2 (has_in p' (p :: ps))); auto. now right. rewrite (proj2 (has_out p' ps) J), (proj2 (has_out p' (p :: ps))); auto. intros [|]; auto.
        + rewrite <- app_assoc. cbn [app]. unfold crow. destruct (cnt_hit _ n (m_ss r p) I) as (_ & _ & C3 & _). now rewrite C3.
      - intros q Hq. destruct (H q (or_intror Hq)) as (Q1 & Q2 & Q3). split; auto. split; auto. destruct (Nat.eqb_spec q p) as [->|NE]; [contradiction|]. cbn [andb]. exact Q3. }
    rewrite G.
    - f_equal. f_equal. apply recvf_ext. intros p t Hp Ht. unfold Fst, matis. destruct b.
      + destruct (has_dec n (m_ex dps r p)) as [I|I].
        * rewrite (proj2 (has_in p _)). 2:{ apply filter_In. split. apply in_seq; lia. now apply has_in. } destruct (cnt_hit _ n (m_ss r p) I) as (_ & _ & _ & C4). rewrite C4. cbn [andb]. destruct (Nat.eqb_spec t (cnt (m_ex dps r p) n)) as [->|NE]. now destruct (Nat.ltb_spec (cnt (m_ex dps r p) n) (S (cnt (m_ex dps r p) n))); [|lia]. destruct (Nat.ltb_spec t (cnt (m_ex dps r p) n)), (Nat.ltb_spec t (S (cnt (m_ex dps r p) n))); auto; lia.
        * rewrite (proj2 (has_out p _)). 2:{ intros X. apply filter_In in X as (_ & X). now apply has_in in X. } cbn [andb]. destruct (cnt_miss _ n (m_ss r p) I) as (C1 & _). now rewrite C1.
      + now destruct (_ && _).
    - apply NoDup_filter, seq_NoDup.
    - intros p Hp. apply filter_In in Hp as (P1 & P2). apply in_seq in P1. apply has_in in P2. split; [lia|]. split; auto. unfold Fst. destruct b; auto. now rewrite Nat.ltb_irrefl.
  Qed.
  (** the columns of a row of M *)
  Definition own (n : nat) : list nat := filter (is_master dps r) (map fst (getrow A n)).
  Definition cols_of (n : nat) : list nat :=
    match dp r n with [] => own n | _ :: _ => match ArraysModel.merge_arrays (map zs (map (fun p => map fst (crow p n)) (matis n) ++ [own n])) with Ret l => map Z.to_nat l | Err _ => [] end end.
  Lemma tr_mono p x y : p < np -> In x (g_ex dps p r) -> In y (g_ex dps p r) -> x < y -> tr p x < tr p y.
  Proof. intros Hp Hx Hy LT. unfold tr. apply (ss_nth lt _ 0 (m_ss r p)). split. apply pos_mono; auto using g_ss. rewrite (ex_len dps key RM r p Hr Hp). now apply pos_of_in. Qed.
  Lemma matis_in n p : In p (matis n) <-> p < np /\ In n (m_ex dps r p).
  Proof. unfold matis. rewrite filter_In, in_seq, has_in. intuition lia. Qed.
  Lemma cols_spec n : sset (cols_of n) /\ (forall l, In l (cols_of n) <-> In l (own n) \/ exists p, In p (matis n) /\ In l (map fst (crow p n))) /\
    (dp r n <> [] -> ArraysModel.merge_arrays (map zs (map (fun p => map fst (crow p n)) (matis n) ++ [own n])) = Ret (zs (cols_of n))).
  Proof.
    assert (SO : sset (own n)) by (apply ss_filter_r; now apply HC). unfold cols_of. destruct (dp r n) as [|d0 d] eqn:ED.
    - split; auto. split. 2: congruence. intros l. split; auto. intros [|(p & P1 & _)]; auto. apply matis_in in P1 as (_ & P1). apply in_m in P1 as (_ & _ & P1). rewrite ED in P1. destruct P1.
    - destruct (merge_arrays_spec (map zs (map (fun p => map fst (crow p n)) (matis n) ++ [own n]))) as (out & E & S1 & S2).
      { intros l Hl. apply in_map_iff in Hl as (l' & <- & Hl). apply zs_ss. apply in_app_or in Hl as [Hl|[<-|[]]]; auto. apply in_map_iff in Hl as (p & <- & Hp). apply matis_in in Hp as (Hp & _). apply sub_row_sorted. now apply HC. intros; now apply tr_mono. }
      rewrite E. assert (NN : forall z, In z out -> exists k, z = Z.of_nat k). { intros z Hz. apply S2 in Hz as (l & L1 & L2). apply in_map_iff in L1 as (l' & <- & _). unfold zs in L2. apply in_map_iff in L2 as (k & <- & _). eauto. }
      assert (ZB : zs (map Z.to_nat out) = out). { unfold zs. rewrite map_map. clear - NN. induction out as [|z out IH]; auto. cbn [map]. rewrite IH by (intros; apply NN; now right). destruct (NN z (or_introl eq_refl)) as (k & ->). now rewrite Nat2Z.id. }
      split; [|split].
      + clear - S1 NN. induction S1 as [|z out HS IH HF]; cbn [map]; constructor. apply IH. intros; apply NN; now right. rewrite Forall_map. rewrite Forall_forall in HF |- *. intros y Hy. specialize (HF y Hy). destruct (NN z (or_introl eq_refl)) as (a & ->), (NN y (or_intror Hy)) as (c & ->). lia.
      + intros l. rewrite <- zs_in, ZB, S2. split.
        * intros (l' & L1 & L2). apply in_map_iff in L1 as (l'' & <- & L1). apply zs_in in L2. apply in_app_or in L1 as [L1|[<-|[]]]; auto. apply in_map_iff in L1 as (p & <- & P). right. eauto.
        * intros [H|(p & P1 & P2)]; [exists (zs (own n))|exists (zs (map fst (crow p n)))]; (split; [apply in_map|now apply zs_in]); apply in_or_app; [right; now left|left]. apply in_map_iff. eauto.
      + now rewrite ZB.
  Qed.
  Definition call_of (n : nat) : option (list nat * list nat) := if is_master dps r n then Some (matis n, cols_of n) else None.
  Lemma not_in_m n p : ~ (is_master dps r n = true /\ dp r n <> []) -> ~ In n (m_ex dps r p).
  Proof. intros H X. apply in_m in X as (_ & X1 & X2). apply H. split; auto. intros E. rewrite E in X2. destruct X2. Qed.
  Lemma visit_idle b n : ~ (is_master dps r n = true /\ dp r n <> []) -> at_ n = at_ (S n) /\ recvf (Fst b n) = recvf (Fst b (S n)) /\ matis n = [].
  Proof.
    intros H. split; [|split].
    - apply map_seq_ext. intros p _. destruct (cnt_miss _ n (m_ss r p) (not_in_m n p H)) as (C & _). now rewrite C.
    - apply recvf_ext. intros p t _ _. unfold Fst. destruct (cnt_miss _ n (m_ss r p) (not_in_m n p H)) as (C & _). now rewrite C.
    - unfold matis. destruct (filter _ _) as [|p l] eqn:E; auto. assert (X : In p (filter (fun p => has n (m_ex dps r p)) (seq 0 np))) by (rewrite E; now left). apply filter_In in X as (_ & X). apply has_in in X. now apply not_in_m in X.
  Qed.
  Lemma visit_ok b n : n < nd r -> visit dps b r A (recvf (Fst b n)) (at_ n) n = Ret (call_of n, recvf (Fst b (S n)), at_ (S n)).
  Proof.
    intros Hn. unfold visit, call_of. destruct (is_master dps r n) eqn:EM; cbn [negb].
    - rewrite (rd_ok A n []) by now rewrite lenA. cbn [bind]. fold (getrow A n). fold (own n). destruct (dp r n) as [|d0 d] eqn:ED.
      + destruct (visit_idle b n) as (E1 & E2 & E3). { rewrite ED. tauto. } rewrite <- E1, <- E2, E3. unfold cols_of. now rewrite ED.
      + rewrite next_ok. cbn [bind]. rewrite take_all. cbn [bind]. destruct (cols_spec n) as (_ & _ & E). rewrite E by (rewrite ED; discriminate). cbn [bind]. now rewrite zs_back.
    - destruct (visit_idle b n) as (E1 & E2 & E3). { rewrite EM. intros (X & _). discriminate. } now rewrite <- E1, <- E2.
  Qed.
  Definition size_of (n : nat) : nat := match call_of n with Some (_, l) => length l | None => 0 end.
  Lemma at_0 : repeat 0 np = at_ 0.
  Proof. apply nth_ext with (d := 0) (d' := 0). now rewrite repeat_length, map_length, seq_length. rewrite repeat_length. intros k Hk. rewrite nth_map_seq by auto. rewrite nth_repeat; auto. now rewrite cnt_0. Qed.
  Lemma repeat_seq {T} (x : T) n : repeat x n = map (fun _ => x) (seq 0 n).
  Proof. apply nth_ext with (d := x) (d' := x). now rewrite repeat_length, map_length, seq_length. rewrite repeat_length. intros k Hk. rewrite nth_map_seq by auto. now rewrite nth_repeat. Qed.
  Lemma pass1_ok : pass1 dps r A (recvf D) = Ret (map size_of (seq 0 (nd r)), recvf rrow, at_ (nd r)).
  Proof.
    unfold pass1. rewrite lenA by auto.
    pose (st := fun n => (map (fun k => if k <? n then size_of k else 0) (seq 0 (nd r)), recvf (Fst true n), at_ n)).
    assert (S0 : (repeat 0 (nd r), recvf D, repeat 0 np) = st 0). { unfold st. rewrite at_0, repeat_seq. f_equal. f_equal. apply recvf_ext. intros p t _ _. unfold Fst. now rewrite cnt_0. }
    rewrite S0. erewrite (foldM_run _ st (nd r)).
    - unfold st. f_equal. f_equal. f_equal.
      + apply map_seq_ext. intros k Hk. now destruct (Nat.ltb_spec k (nd r)); [|lia].
      + apply recvf_ext. intros p t _ Ht. unfold Fst. rewrite cnt_all. destruct (Nat.ltb_spec t (length (m_ex dps r p))); auto; lia. intros x Hx. now apply in_m in Hx as (Hx & _).
    - intros n Hn. unfold st at 1. rewrite visit_ok by auto. cbn [bind]. unfold st.
      assert (E : forall v, (v = size_of n) -> map (fun k => if k =? n then v else if k <? n then size_of k else 0) (seq 0 (nd r)) = map (fun k => if k <? 1 + n then size_of k else 0) (seq 0 (nd r))).
      { intros v ->. apply map_seq_ext. intros k Hk. destruct (Nat.eqb_spec k n) as [->|NE]. now destruct (Nat.ltb_spec n (1 + n)); [|lia]. destruct (Nat.ltb_spec k n), (Nat.ltb_spec k (1 + n)); auto; lia. }
      destruct (call_of n) as [[ma l]|] eqn:EC.
      + rewrite wr_map_seq by auto. cbn [bind]. rewrite E. reflexivity. unfold size_of. now rewrite EC.
      + rewrite <- (E 0). 2:{ unfold size_of. now rewrite EC. } f_equal. f_equal. f_equal. apply map_seq_ext. intros k Hk. destruct (Nat.eqb_spec k n) as [->|NE]; auto. now rewrite Nat.ltb_irrefl.
  Qed.
  (** a row of M: sorted columns, and on each of them the sum of the own and the received values *)
  Definition mrow_ok (n : nat) (ro : row) : Prop :=
    if is_master dps r n then cols_sorted ro /\ map fst ro = cols_of n /\ forall l, In l (cols_of n) -> row_ent ro l = fold_left (fun s p => madd s (row_ent (crow p n) l)) (matis n) (row_ent (getrow A n) l)
    else ro = [].
  Lemma fst_combine {T U} (a : list T) : forall (b : list U), length b = length a -> map fst (combine a b) = a.
  Proof. induction a as [|x a IH]; intros [|y b] H; cbn; auto; try discriminate. f_equal. apply IH. cbn in H. lia. Qed.
  Lemma pass2_ok : exists Mm, pass2 dps r A (recvf rrow) (map size_of (seq 0 (nd r))) = Ret (Mm, at_ (nd r)) /\ length Mm = nd r /\ forall n, n < nd r -> mrow_ok n (nth n Mm []).
  Proof.
    unfold pass2. rewrite lenA by auto. rewrite at_0.
    match goal with |- context [foldM ?f _ _] => set (step := f) end.
    assert (G : forall n, n <= nd r -> exists Mm, foldM step (seq 0 n) (repeat [] (nd r), at_ 0) = Ret (Mm, at_ n) /\ length Mm = nd r /\ (forall k, k < n -> mrow_ok k (nth k Mm [])) /\ forall k, n <= k -> nth k Mm [] = []).
    { induction n as [|n IH]; intros Hn.
      - exists (repeat [] (nd r)). split; auto. split. apply repeat_length. split. intros; lia. intros k _. destruct (Nat.lt_ge_cases k (nd r)). now apply nth_repeat. apply nth_overflow. now rewrite repeat_length.
      - destruct (IH ltac:(lia)) as (Mm & E & L & H1 & H2). rewrite seq_S, foldM_app, E. cbn [bind foldM Nat.add]. unfold step at 1. pose proof (visit_ok false n ltac:(lia)) as V. change (recvf (Fst false n)) with (recvf rrow) in V. change (recvf (Fst false (S n))) with (recvf rrow) in V. rewrite V. clear V. cbn [bind].
        unfold call_of. destruct (is_master dps r n) eqn:EM.
        + rewrite rd_map_seq by lia. cbn [bind]. unfold size_of, call_of. rewrite EM, Nat.eqb_refl. cbn [negb]. rewrite (rd_ok A n []) by (rewrite lenA; auto; lia). cbn [bind]. fold (getrow A n). destruct (cols_spec n) as (CS & _ & _).
          destruct (add_vals_ok CM (cols_of n) CS (getrow A n) (repeat m0 (length (cols_of n)))) as (rvs & E1 & L1 & V1). apply repeat_length. rewrite E1. cbn [bind].
          assert (FM : forall ps rvs0, length rvs0 = length (cols_of n) -> (forall p, In p ps -> p < np /\ In n (m_ex dps r p)) -> exists rvs', foldM (fun rvs kp => mat <- rd (recvf rrow) kp ;; a <- rd (at_ (S n)) kp ;; ro <- rd mat (a - 1) ;; add_vals (cols_of n) rvs ro) ps rvs0 = Ret rvs' /\ length rvs' = length (cols_of n) /\ forall l, In l (cols_of n) -> rv (cols_of n) rvs' l = fold_left (fun s p => madd s (row_ent (crow p n) l)) ps (rv (cols_of n) rvs0 l)).
          { induction ps as [|p ps IHp]; intros rvs0 HL HP; cbn [foldM fold_left]. { eauto. } destruct (HP p (or_introl eq_refl)) as (Hp & I). destruct (cnt_hit _ n (m_ss r p) I) as (C1 & C2 & C3 & C4).
            unfold recvf at 1. rewrite rd_map_seq by auto. cbn [bind]. rewrite rd_map_seq by auto. cbn [bind]. rewrite C4. replace (S (cnt (m_ex dps r p) n) - 1) with (cnt (m_ex dps r p) n) by lia. rewrite rd_map_seq by auto. cbn [bind]. rewrite C3. fold (crow p n).
            destruct (add_vals_ok CM (cols_of n) CS (crow p n) rvs0 HL) as (w & W1 & W2 & W3). rewrite W1. cbn [bind]. destruct (IHp w W2) as (w' & X1 & X2 & X3). { intros; apply HP; now right. } rewrite X1. exists w'. split; auto. split; auto. intros l Hl. rewrite X3, W3 by auto. reflexivity. }
          destruct (FM (matis n) rvs L1) as (rvs' & E2 & L2 & V2). { intros p Hp. now apply matis_in in Hp. } rewrite E2. cbn [bind]. rewrite wr_ok by lia. cbn [bind]. exists (upd Mm n (combine (cols_of n) rvs')). split; auto. split. now rewrite upd_length. split.
          * intros k Hk. destruct (Nat.eq_dec k n) as [->|NE]. 2:{ rewrite nth_upd_neq by congruence. apply H1. lia. } rewrite nth_upd_eq by lia. unfold mrow_ok. rewrite EM. unfold cols_sorted. rewrite fst_combine by auto. split; auto. split; auto. intros l Hl. rewrite rv_ent; auto using sset_nodup. rewrite V2, V1 by auto. rewrite rv_zero. now rewrite (cm_0 _ _ CM).
          * intros k Hk. rewrite nth_upd_neq by lia. apply H2. lia.
        + exists Mm. split; auto. split; auto. split.
          * intros k Hk. destruct (Nat.eq_dec k n) as [->|NE]. unfold mrow_ok. rewrite EM. apply H2. lia. apply H1. lia.
          * intros. apply H2. lia. }
    destruct (G (nd r) (le_n _)) as (Mm & E & L & H & _). eauto.
  Qed.
End Rank.
