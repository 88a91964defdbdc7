From Verif Require Import Base ArraysModel ArraysProofs MeshDofsModel MeshDofsSpec.
From Coq Require Import Lia Sorting.Sorted.
Local Open Scope nat_scope.

Lemma rep_nth (n i : nat) : nth i (repeat 0 n) 0 = 0.
Proof. revert i; induction n as [|n IH]; intros [|i]; cbn; auto. Qed.
Lemma before_S cnt e : dofs_before cnt (S e) = dofs_before cnt e + cnt e.
Proof. unfold dofs_before. rewrite seq_S, map_app, list_sum_app. cbn. lia. Qed.
Lemma before_le cnt a b : a <= b -> dofs_before cnt a <= dofs_before cnt b.
Proof. induction 1; auto. rewrite before_S. lia. Qed.
(** ** calls *)
Lemma calls_ok n calls : forall off (c : nat -> nat), Forall (call_in n) calls -> length off = S n -> (forall e, e < n -> nth (S e) off 0 = c e) -> nth 0 off 0 = 0 ->
  exists off', foldM do_call calls off = Ret off' /\ length off' = S n /\ nth 0 off' 0 = 0 /\ forall e, e < n -> nth (S e) off' 0 = count_from calls e (c e).
Proof.
  induction calls as [|x calls IH]; intros off c F L A Z; cbn [foldM count_from].
  - exists off. auto.
  - inversion F as [|? ? Fx Fr]; subst. destruct x as [e0|e0 k]; cbn [call_in] in Fx; cbn [do_call].
    + rewrite (rd_ok _ _ 0) by lia. cbn [bind]. rewrite wr_ok by lia. cbn [bind].
      destruct (IH (upd off (S e0) (nth (S e0) off 0 + 1)) (fun e => if e0 =? e then S (c e) else c e) Fr) as (o & E1 & E2 & E3 & E4); eauto.
      now rewrite upd_length. { intros e He. destruct (Nat.eqb_spec e0 e) as [->|Q]. rewrite nth_upd_eq by lia. rewrite (A e) by lia. lia. rewrite nth_upd_neq by lia. auto. } rewrite nth_upd_neq by lia. auto.
    + rewrite wr_ok by lia. cbn [bind].
      destruct (IH (upd off (S e0) k) (fun e => if e0 =? e then k else c e) Fr) as (o & E1 & E2 & E3 & E4); eauto.
      now rewrite upd_length. { intros e He. destruct (Nat.eqb_spec e0 e) as [->|Q]. rewrite nth_upd_eq by lia. auto. rewrite nth_upd_neq by lia. auto. } rewrite nth_upd_neq by lia. auto.
Qed.
Lemma finalize_ok n (c : nat -> nat) off : length off = S n -> nth 0 off 0 = 0 -> (forall e, e < n -> nth (S e) off 0 = c e) ->
  exists off', Finalize n off = Ret off' /\ numbered n c off'.
Proof.
  intros L Z A. unfold Finalize.
  assert (G : forall k, k <= n -> exists o, foldM (fun off k => b <- rd off (S k) ;; a <- rd off k ;; wr off (S k) (b + a)) (seq 0 k) off = Ret o /\ length o = S n /\ (forall e, e <= k -> nth e o 0 = dofs_before c e) /\ forall e, k <= e -> e < n -> nth (S e) o 0 = c e).
  { induction k as [|k IH]; intros H.
    - exists off. split. reflexivity. split; auto. split. intros e He. replace e with 0 by lia. auto. auto.
    - destruct (IH ltac:(lia)) as (o & E & Lo & P & Q). rewrite seq_S, foldM_app, E. cbn [bind foldM plus]. rewrite (rd_ok _ _ 0) by lia. cbn [bind]. rewrite (rd_ok _ _ 0) by lia. cbn [bind]. rewrite wr_ok by lia. cbn [bind].
      eexists. split. reflexivity. split. now rewrite upd_length. split.
      + intros e He. destruct (Nat.eq_dec e (S k)) as [->|N]. rewrite nth_upd_eq by lia. rewrite before_S, Q, P by lia. lia. rewrite nth_upd_neq by lia. apply P. lia.
      + intros e H1 H2. rewrite nth_upd_neq by lia. apply Q; lia. }
  destruct (G n (Nat.le_refl n)) as (o & E & Lo & P & _). exists o. split; auto. split; auto.
Qed.
(** ** reading *)
Section Read.
Context (n : nat) (cnt : nat -> nat) (off : list nat) (N : numbered n cnt off).
Lemma get_all : GetNDOF_all off = Ret (dofs_before cnt n).
Proof. destruct N as (L & P). unfold GetNDOF_all. rewrite (rd_ok _ _ 0) by lia. f_equal. rewrite L. replace (S n - 1) with n by lia. apply P. lia. Qed.
Lemma get_nrs e : e < n -> GetDOFNrs off e = Ret (seq (dofs_before cnt e) (cnt e)).
Proof. intros H. destruct N as (L & P). unfold GetDOFNrs. rewrite !(rd_ok _ _ 0) by lia. cbn [bind]. rewrite !P by lia. f_equal. f_equal. rewrite before_S. lia. Qed.
Lemma get_ndof e : e < n -> GetNDOF off e = Ret (cnt e).
Proof. intros H. destruct N as (L & P). unfold GetNDOF. rewrite !(rd_ok _ _ 0) by lia. cbn [bind]. rewrite !P by lia. f_equal. rewrite before_S. lia. Qed.
Lemma get_dof e l : e < n -> EdgeToDOF off e l = Ret (dofs_before cnt e + l).
Proof. intros H. destruct N as (L & P). unfold EdgeToDOF. rewrite !(rd_ok _ _ 0) by lia. cbn [bind]. rewrite P by lia. auto. Qed.
Lemma off_sorted : StronglySorted Z.le (map Z.of_nat off).
Proof.
  destruct N as (L & P).
  assert (G : forall s k, s + k <= S n -> StronglySorted Z.le (map Z.of_nat (map (dofs_before cnt) (seq s k)))).
  { intros s k. revert s. induction k as [|k IH]; intros s H; cbn; constructor. apply IH. lia.
    apply Forall_forall. intros x X. rewrite map_map in X. apply in_map_iff in X as (y & <- & Y). apply in_seq in Y. apply inj_le. apply before_le. lia. }
  replace off with (map (dofs_before cnt) (seq 0 (S n))). apply G. lia. symmetry. apply (nth_ext_len _ _ 0). now rewrite map_length, seq_length.
  intros i Hi. rewrite P by lia. rewrite (nth_indep _ 0 (dofs_before cnt 0)) by (rewrite map_length, seq_length; lia). rewrite map_nth, seq_nth by lia. reflexivity.
Qed.
Lemma to_edge e l : e < n -> l < cnt e -> DOFToEdge off (dofs_before cnt e + l) = Ret e.
Proof.
  intros He Hl. destruct (N) as (L & P). unfold DOFToEdge. destruct (merge_pos_spec (Z.of_nat (dofs_before cnt e + l)) (map Z.of_nat off) off_sorted) as (p & E & Q1 & Q2 & Q3). rewrite E. cbn [bind].
  rewrite map_length in Q1.
  assert (A : ~ p <= e).
  { intros X. assert (Y : In (Z.of_nat (nth e off 0)) (skipn p (map Z.of_nat off))).
    { rewrite skipn_map. apply in_map. assert (Ep : e = p + (e - p)) by lia. replace (nth e off 0) with (nth (e - p) (skipn p off) 0). apply nth_In. rewrite skipn_length. lia.
      rewrite <- (firstn_skipn p off) at 2. rewrite app_nth2; rewrite firstn_length_le by lia; auto. }
    apply Q3 in Y. rewrite P in Y by lia. lia. }
  assert (B : ~ S e < p).
  { intros X. assert (Y : In (Z.of_nat (nth (S e) off 0)) (firstn p (map Z.of_nat off))).
    { rewrite firstn_map. apply in_map. replace (nth (S e) off 0) with (nth (S e) (firstn p off) 0). apply nth_In. rewrite firstn_length_le; lia.
      rewrite <- (firstn_skipn p off) at 2. rewrite app_nth1; auto. rewrite firstn_length_le; lia. }
    apply Q2 in Y. rewrite P in Y by lia. rewrite before_S in Y. lia. }
  replace p with (S e) by lia. reflexivity.
Qed.
End Read.
Lemma dof_unique n cnt e l e' l' d : dof_of n cnt e l d -> dof_of n cnt e' l' d -> e = e' /\ l = l'.
Proof.
  intros (A1 & A2 & A3) (B1 & B2 & B3).
  assert (E : e = e'). { destruct (Nat.lt_total e e') as [L|[L|L]]; auto; exfalso. pose proof (before_le cnt (S e) e' L). rewrite before_S in H. lia. pose proof (before_le cnt (S e') e L). rewrite before_S in H. lia. }
  subst. split; auto. lia.
Qed.
Lemma dof_exists cnt d : forall n, d < dofs_before cnt n -> exists e l, dof_of n cnt e l d.
Proof.
  induction n as [|n IH]; intros H. cbn in H. lia. destruct (Nat.lt_ge_cases d (dofs_before cnt n)) as [L|L].
  - destruct (IH L) as (e & l & X1 & X2 & X3). exists e, l. repeat split; auto.
  - rewrite before_S in H. exists n, (d - dofs_before cnt n). repeat split; lia.
Qed.
Lemma dof_bound n cnt e l d : dof_of n cnt e l d -> d < dofs_before cnt n.
Proof. intros (A & B & ->). pose proof (before_le cnt (S e) n A). rewrite before_S in H. lia. Qed.
(** ** writing a range *)
Lemma put_range_ok a ds arr : a + length ds <= length arr -> exists arr', put_range a ds arr = Ret arr' /\ length arr' = length arr /\
  (forall i, i < length ds -> nth (a + i) arr' 0 = nth i ds 0) /\ forall j, ~ (a <= j < a + length ds) -> nth j arr' 0 = nth j arr 0.
Proof.
  intros H. unfold put_range.
  assert (G : forall k, k <= length ds -> exists o, foldM (fun arr i => v <- rd ds i ;; wr arr (a + i) v) (seq 0 k) arr = Ret o /\ length o = length arr /\ (forall i, i < k -> nth (a + i) o 0 = nth i ds 0) /\ forall j, ~ (a <= j < a + k) -> nth j o 0 = nth j arr 0).
  { induction k as [|k IH]; intros Hk. exists arr. repeat split; auto. intros; lia.
    destruct (IH ltac:(lia)) as (o & E & Lo & P & Q). rewrite seq_S, foldM_app, E. cbn [bind foldM plus]. rewrite (rd_ok _ _ 0) by lia. cbn [bind]. rewrite wr_ok by lia. cbn [bind]. eexists. split. reflexivity. split. now rewrite upd_length. split.
    - intros i Hi. destruct (Nat.eq_dec i k) as [->|X]. rewrite nth_upd_eq by lia. auto. rewrite nth_upd_neq by lia. apply P. lia.
    - intros j Hj. rewrite nth_upd_neq by lia. apply Q. lia. }
  destruct (G (length ds) (Nat.le_refl _)) as (o & E & X). exists o. auto.
Qed.
(** ** writing the ranges of many edges, one after the other *)
Section Ranges.
Context (m : nat) (c : nat -> nat) (val : nat -> nat -> nat) (f : list nat -> nat -> res (list nat)).
Context (Hf : forall k arr, k < m -> length arr = dofs_before c m -> f arr k = put_range (dofs_before c k) (map (val k) (seq 0 (c k))) arr).
Lemma ranges_ok : exists arr', foldM f (seq 0 m) (repeat 0 (dofs_before c m)) = Ret arr' /\ length arr' = dofs_before c m /\ forall k l, k < m -> l < c k -> nth (dofs_before c k + l) arr' 0 = val k l.
Proof.
  assert (G : forall k, k <= m -> exists o, foldM f (seq 0 k) (repeat 0 (dofs_before c m)) = Ret o /\ length o = dofs_before c m /\ forall i l, i < k -> l < c i -> nth (dofs_before c i + l) o 0 = val i l).
  { induction k as [|k IH]; intros Hk. eexists. split. reflexivity. split. apply repeat_length. intros; lia.
    destruct (IH ltac:(lia)) as (o & E & Lo & P). rewrite seq_S, foldM_app, E. cbn [bind foldM plus]. rewrite Hf by (auto; lia).
    pose proof (before_le c (S k) m Hk) as B. rewrite before_S in B.
    destruct (put_range_ok (dofs_before c k) (map (val k) (seq 0 (c k))) o) as (o' & E' & L' & P' & Q'). rewrite map_length, seq_length. lia. rewrite E'. cbn [bind]. eexists. split. reflexivity. split. congruence.
    rewrite map_length, seq_length in P', Q'. intros i l Hi Hl. destruct (Nat.eq_dec i k) as [->|X].
    - rewrite P' by auto. rewrite (nth_indep _ 0 (val k 0)) by (rewrite map_length, seq_length; lia). rewrite map_nth, seq_nth by lia. reflexivity.
    - rewrite Q'. apply P; lia. pose proof (before_le c (S i) k ltac:(lia)) as B2. rewrite before_S in B2. lia. }
  apply (G m). lia.
Qed.
End Ranges.
Lemma seq_as_map a k : seq a k = map (fun l => a + l) (seq 0 k).
Proof. revert a; induction k as [|k IH]; intros a; cbn; auto. f_equal. lia. rewrite IH, <- seq_shift, map_map. apply map_ext. intros; lia. Qed.
Lemma firstn_seq k a n : k <= n -> firstn k (seq a n) = seq a k.
Proof. revert a n; induction k as [|k IH]; intros a [|n] H; cbn; auto. lia. f_equal. apply IH. lia. Qed.
