(** ReduceTable with some ranks without rows; AllreduceNodalData. *)
From Verif Require Import Base EQCModel ReduceModel UtilProofs EQCProofs EQCProofs2 EQCProofs3 EQCProps ReduceProps GCModel GCProofs GCProofs3 GCProps GEModel GESpec GECheck DataModel DataSpec DataProofs.
Local Open Scope nat_scope.

Lemma pos_of_nth l : NoDup l -> forall i, i < length l -> pos_of (nth i l 0) l = i.
Proof. induction 1 as [|x l N ND IH]; intros i Hi. cbn in Hi. lia. destruct i as [|i]; cbn [nth pos_of]. now rewrite Nat.eqb_refl. cbn in Hi. destruct (Nat.eqb_spec x (nth i l 0)) as [E|E]. exfalso. apply N. rewrite E. apply nth_In. lia. rewrite IH by lia. auto. Qed.

Section Reduce.
  Context {T TR : Type}.
  Variables (H H' : list (list (list nat))) (ret : nat -> bool) (tabs : list (list (list T))) (lam : nat -> nat -> list (list T) -> list TR).
  Notation np := (length H).
  Hypothesis HW : world H.
  Hypothesis HL : length H' = np.
  Hypothesis HR : forall r, r < np -> nth r H' [] = if ret r then [] else nth r H [].
  Hypothesis HC : forall r d q, r < np -> ret r = false -> In d (nth r H []) -> In q d -> ret q = false.
  Hypothesis HT : length tabs = np.
  Hypothesis HTr : forall r, r < np -> length (nth r tabs []) = length (nth r H' []).
  Lemma world' : world H'.
  Proof.
    destruct HW as [W1 W2 W3]. constructor; rewrite HL.
    - intros r d Hr. rewrite HR by auto. destruct (ret r). intros []. now apply W1.
    - intros r Hr. rewrite HR by auto. destruct (ret r). constructor. now apply W2.
    - intros r d q Hr. rewrite HR by auto. destruct (ret r) eqn:E. intros []. intros X Y. destruct (W1 r d Hr X) as (_ & _ & B). rewrite HR by auto. rewrite (HC r d q); auto.
  Qed.
  Lemma reduce_some : exists out, ReduceTable H' tabs lam = Ret out /\ length out = np /\ (forall r, r < np -> length (nth r out []) = length (nth r H' [])) /\
    forall r k, r < np -> ret r = false -> k < length (nth r H []) -> let D := members r (row H r k) in
      exists m km, nth k (nth r out []) [] = lam m km (map (fun q => nth (cidx H q D) (nth q tabs []) []) D).
  Proof.
    destruct (reduce_world H' world' T TR tabs lam) as (out & EO & L1 & L2 & P); try (rewrite HL; auto). exists out. split; auto. rewrite HL in L1, L2, P. split; auto. split; auto. intros r k Hr RR Hk D.
    assert (Rr : nth r H' [] = nth r H []) by (rewrite HR, RR; auto). destruct (P r k Hr) as (m & km & rows & A1 & A2 & A3 & A4 & A5 & A6 & A7). now rewrite Rr. exists m, km. rewrite A5. f_equal.
    assert (ND : forall q, In q D -> q < np /\ ret q = false /\ cidx H q D < length (nth q H []) /\ members q (row H q (cidx H q D)) = D).
    { intros q X. destruct (cls_mem H HW r k q Hr Hk X) as (Hq & Y). fold D in Y. split; auto. split. apply in_members in X as [->|X]; auto. apply (HC r (row H r k) q); auto. now apply nth_In. apply (cidx_ok H q D Y). }
    assert (Rm : ret m = false). { destruct (ret m) eqn:E; auto. rewrite HR, E in A2 by auto. cbn in A2. lia. } assert (Em : nth m H' [] = nth m H []) by (rewrite HR, Rm; auto). rewrite Em in *. rewrite Rr in *.
    destruct (w_row H HW m (nth km (nth m H []) []) A1 (nth_In _ [] A2)) as (S1 & S2 & S3). assert (ED : m :: nth km (nth m H []) [] = D).
    { transitivity (members m (row H m km)). apply sset_ext. constructor; auto. now apply Forall_forall. now apply members_sset. intros x. rewrite in_members. cbn. intuition. now apply csame. }
    apply (nth_ext _ _ [] []). rewrite A6, map_length, <- ED. reflexivity. intros i Hi. assert (Hi' : i < length D) by (rewrite <- ED; cbn; lia). rewrite (nth_map_ok _ _ _ 0) by auto. set (q := nth i D 0). assert (Iq : In q D) by (now apply nth_In). destruct (ND q Iq) as (Q1 & Q2 & Q3 & Q4).
    rewrite <- (A7 q (cidx H q D) Q1). unfold position. rewrite ED. assert (SD : sset D) by (rewrite <- ED; constructor; auto; now apply Forall_forall). rewrite position_pos by auto. unfold q. rewrite pos_of_nth; auto. now apply sset_nodup. rewrite HR, Q2; auto. rewrite HR, Q2 by auto. apply csame; auto.
  Qed.
End Reduce.

(** *** AllreduceNodalData *)
Lemma rd_nth {A} (l : list A) i d : i < length l -> rd l i = Ret (nth i l d).
Proof. intros X. unfold rd. rewrite (nth_error_nth' l d X). reflexivity. Qed.
Lemma write_ids row : forall ids av c, (forall i, In i ids -> i < length av) -> c + length ids = length row ->
  foldM (fun '(av, c) i => x <- rd row c ;; av <- wr av i x ;; Ret (av, S c)) ids (av, c) = Ret (puts av (combine ids (skipn c row)), c + length ids).
Proof.
  induction ids as [|i ids IH]; intros av c B L. cbn. now rewrite Nat.add_0_r. cbn [length] in L. cbn [foldM]. rewrite (rd_nth row c 0%Z) by lia. cbn [bind]. rewrite wr_ok by (apply B; now left). cbn [bind]. rewrite IH. 2: { intros j X. rewrite upd_length. apply B. now right. } 2: lia.
  assert (E : skipn c row = nth c row 0%Z :: skipn (S c) row). { clear - L. assert (X : c < length row) by lia. clear L. revert c X. induction row as [|x row IH]; intros c X. cbn in X. lia. destruct c as [|c]; cbn [skipn nth]; auto. apply IH. cbn in X. lia. } rewrite E. cbn [combine]. unfold puts. cbn [fold_left fst snd length]. f_equal. f_equal. lia.
Qed.
Section All.
  Variables (H E X : list (list (list nat))) (n : nat -> nat) (data : list (list Z)).
  Notation np := (length H).
  Notation node_table := (numbers H E X).
  Hypothesis HW : world H.
  Hypothesis HF : local_first H.
  Hypothesis HT : node_tables H node_table n.
  Hypothesis HD : length data = np.
  Hypothesis HN : forall q, q < np -> size data q = n q.
  Notation T := node_table.
  Lemma T_row r k : r < np -> k < length (nth r H []) -> row T r k = nodes_of E X r k.
  Proof. intros Hr Hk. unfold numbers. fold (nodes_of E X). rewrite (nth_map_ok _ _ _ 0) by now rewrite seq_length. rewrite seq_nth by auto. cbn [Nat.add]. rewrite (nth_map_ok _ _ _ 0) by now rewrite seq_length. now rewrite seq_nth. Qed.
  Lemma node_lt r k i : r < np -> k < length (nth r H []) -> In i (nodes_of E X r k) -> i < n r.
  Proof. intros Hr Hk Hi. rewrite <- T_row in Hi by auto. destruct (In_nth _ _ 0 Hi) as (l & Hl & Q). apply (at_lt H T n HT r i k l Hr). split; auto. Qed.
  Definition rt (r : nat) : bool := returns false (nth r H []).
  Lemma rt_false r k : r < np -> 1 <= k -> k < length (nth r H []) -> rt r = false.
  Proof. intros Hr H1 Hk. unfold rt, returns. rewrite orb_false_iff, andb_false_iff. split. apply Nat.eqb_neq. lia. left. apply Nat.eqb_neq. lia. Qed.
  Lemma rt_true r : r < np -> rt r = true -> length (nth r H []) <= 1.
  Proof. intros Hr. unfold rt, returns. rewrite orb_true_iff, andb_true_iff, !Nat.eqb_eq. lia. Qed.
  Lemma row_ne r d q : r < np -> In d (nth r H []) -> In q d -> exists k, 1 <= k < length (nth r H []) /\ row H r k = d.
  Proof. intros Hr I Y. destruct (In_nth _ _ [] I) as (k & Hk & Q). exists k. split; auto. enough (k <> 0) by lia. intros ->. rewrite HF in Q by auto. subst d. destruct Y. Qed.
  Lemma rt_cons r d q : r < np -> rt r = false -> In d (nth r H []) -> In q d -> rt q = false.
  Proof.
    intros Hr _ I Y. destruct (w_row H HW r d Hr I) as (S1 & S2 & S3). pose proof (w_cons H HW r d q Hr I Y) as Z. assert (R : In r (del q (members r d))). { apply in_del. split. apply in_members. now left. intros ->. contradiction. } destruct (row_ne q _ r (S3 q Y) Z R) as (k & Hk & _). eapply rt_false; eauto; lia.
  Qed.
  Definition trows (r : nat) : list (list Z) := if rt r then [] else map (fun k => if k <? 1 then [] else map (val data r) (nodes_of E X r k)) (seq 0 (length (nth r H []))).
  Lemma class_rows_ok r : r < np -> (av <- rd data r ;; class_rows false (nth r H []) E X av r) = Ret (trows r).
  Proof.
    intros Hr. rewrite (rd_nth data r []) by lia. cbn [bind]. unfold class_rows, trows. fold (rt r). destruct (rt r); auto. apply mapM_map. intros k Y. apply in_seq in Y. unfold first_class. destruct (Nat.ltb_spec k 1); auto. apply mapM_map. intros i Z. apply node_lt in Z; auto; [|lia]. unfold val. apply rd_nth. change (i < size data r). rewrite HN; auto.
  Qed.
  Definition H1 : list (list (list nat)) := map (fun d => if returns false d then [] else d) H.
  Lemma H1_nth r : r < np -> nth r H1 [] = if rt r then [] else nth r H [].
  Proof. intros Hr. unfold H1. now rewrite (nth_map_ok _ _ _ []). Qed.
  Definition red_row (r k : nat) : list Z := map (fun l => total H T data r (nth l (nodes_of E X r k) 0)) (seq 0 (length (nodes_of E X r k))).
  Lemma reduce_all : exists out, ReduceTable H1 (map trows (seq 0 np)) (fun _ _ rows => sum_table rows) = Ret out /\ length out = np /\ (forall r, r < np -> rt r = false -> length (nth r out []) = length (nth r H [])) /\
    forall r k, r < np -> 1 <= k -> k < length (nth r H []) -> nth k (nth r out []) [] = red_row r k.
  Proof.
    destruct (reduce_some H H1 rt (map trows (seq 0 np)) (fun _ _ rows => sum_table rows)) as (out & A1 & A2 & A3 & A4); auto.
    - unfold H1. now rewrite map_length.
    - apply H1_nth.
    - apply rt_cons.
    - now rewrite map_length, seq_length.
    - intros r Hr. rewrite (nth_map_ok _ _ _ 0) by now rewrite seq_length. rewrite seq_nth by auto. cbn [Nat.add]. rewrite H1_nth by auto. unfold trows. destruct (rt r); auto. now rewrite map_length, seq_length.
    - exists out. split; auto. split; auto. split. { intros r Hr R. rewrite A3 by auto. now rewrite H1_nth, R. }
      intros r k Hr K1 Hk. destruct (A4 r k Hr) as (m & km & Q); auto. eapply rt_false; eauto. rewrite Q. set (D := members r (row H r k)) in *.
      assert (RQ : forall q, In q D -> q < np /\ nth (cidx H q D) (nth q (map trows (seq 0 np)) []) [] = map (fun l => val data q (node_at H T q D l)) (seq 0 (length (nodes_of E X r k)))).
      { intros q Y. destruct (cls_mem H HW r k q Hr Hk Y) as (Hq & Z). fold D in Z. destruct (cidx_ok H q D Z) as (C1 & C2). split; auto. rewrite (nth_map_ok _ _ _ 0) by now rewrite seq_length. rewrite seq_nth by auto. cbn [Nat.add]. unfold trows.
        assert (K2 : 1 <= cidx H q D). { enough (cidx H q D <> 0) by lia. intros F. rewrite F in C2. rewrite HF in C2 by auto. fold D in Y. assert (Er : r = q). { assert (Ir : In r D) by (apply in_members; now left). rewrite <- C2 in Ir. apply in_members in Ir as [|[]]; auto. } subst q. assert (Ek : 0 = k). { apply (cinj H HW r 0 k Hr); auto. lia. fold D. rewrite <- C2 at 1. now rewrite HF. } lia. }
        rewrite (rt_false q (cidx H q D)) by auto. rewrite (nth_map_ok _ _ _ 0) by now rewrite seq_length. rewrite seq_nth by auto. cbn [Nat.add]. destruct (Nat.ltb_spec (cidx H q D) 1); [lia|].
        rewrite <- !T_row by auto. apply (nth_ext _ _ 0%Z 0%Z). rewrite !map_length, seq_length. symmetry. apply (nt_same H T n HT); auto. apply csame; auto. intros l Hl. rewrite map_length in Hl. rewrite (nth_map_ok _ _ _ 0) by auto. assert (EL : length (row T q (cidx H q D)) = length (row T r k)). { symmetry. apply (nt_same H T n HT); auto. apply csame; auto. } rewrite (nth_map_ok _ _ _ 0) by (rewrite seq_length; lia). rewrite seq_nth by lia. reflexivity. }
      unfold red_row. set (N := length (nodes_of E X r k)) in *. assert (ER : map (fun q => nth (cidx H q D) (nth q (map trows (seq 0 np)) []) []) D = map (fun q => map (fun l => val data q (node_at H T q D l)) (seq 0 N)) D). { apply map_ext_in. intros q Y. now apply RQ. } rewrite ER.
      destruct D as [|q0 D0] eqn:ED. { exfalso. assert (Y : In r (members r (row H r k))) by (apply in_members; now left). fold D in Y. rewrite ED in Y. destruct Y. } rewrite <- ED in *. replace (map (fun q => map (fun l => val data q (node_at H T q D l)) (seq 0 N)) D) with (map (fun l => val data q0 (node_at H T q0 D l)) (seq 0 N) :: map (fun q => map (fun l => val data q (node_at H T q D l)) (seq 0 N)) D0) by (rewrite ED; reflexivity).
      unfold sum_table. destruct (sum_rows (map (fun q => map (fun l => val data q (node_at H T q D l)) (seq 0 N)) D0) (map (fun l => val data q0 (node_at H T q0 D l)) (seq 0 N)) N) as (B1 & B2). now rewrite map_length, seq_length. intros x Y. apply in_map_iff in Y as (q & <- & _). now rewrite map_length, seq_length.
      apply (nth_ext _ _ 0%Z 0%Z). rewrite B1. now rewrite map_length, seq_length. rewrite B1. intros l Hl. rewrite B2 by auto. rewrite (nth_map_ok _ _ _ 0) by now rewrite seq_length. rewrite seq_nth by auto. cbn [Nat.add].
      assert (AV : at_vertex H T r (nth l (nodes_of E X r k) 0) k l). { split; auto. rewrite T_row by auto. split; auto. } rewrite (total_eq H T n HW HT data r _ k l Hr HN AV). fold D. transitivity (sumZ (map (fun q => val data q (node_at H T q D l)) (q0 :: D0))). 2: { f_equal. f_equal. symmetry. exact ED. } cbn [map]. f_equal. f_equal. rewrite (nth_map_ok _ _ _ 0) by now rewrite seq_length. now rewrite seq_nth. rewrite map_map. apply map_ext. intros q. rewrite (nth_map_ok _ _ _ 0) by now rewrite seq_length. now rewrite seq_nth.
  Qed.

  Lemma total_local r v j l : r < np -> at_vertex H T r v j l -> row H r j = [] -> total H T data r v = val data r v.
  Proof.
    intros Hr A Q. rewrite (total_eq H T n HW HT data r v j l Hr HN A). assert (S : same_vertex H T r v r v). { exists j, j, l. split; auto. split; auto. unfold same_class. tauto. } destruct (same_in H T n HW HT r v j l r v Hr Hr A S) as (_ & B). rewrite Q in *. cbn [members sort_by fold_right map]. change (members r []) with [r] in *. cbn [map sumZ fold_right]. rewrite <- B. lia.
  Qed.
  Lemma red_row_length r k : length (red_row r k) = length (nodes_of E X r k). Proof. unfold red_row. now rewrite map_length, seq_length. Qed.
  Lemma red_row_in r k i x : In (i, x) (combine (nodes_of E X r k) (red_row r k)) -> x = total H T data r i.
  Proof.
    unfold red_row. set (L := nodes_of E X r k). intros Y. assert (G : forall L0 : list nat, forall f : nat -> Z, In (i, x) (combine L0 (map (fun l => f (nth l L0 0)) (seq 0 (length L0)))) -> x = f i).
    { clear. induction L0 as [|a L0 IH]; intros f Y. destruct Y. cbn [length seq map combine nth] in Y. destruct Y as [[= <- <-]|Y]; auto. apply (IH f). rewrite <- seq_shift, map_map in Y. exact Y. } exact (G L (fun v => total H T data r v) Y).
  Qed.
  Lemma write_all r red : r < np -> (forall k, 1 <= k -> k < length (nth r H []) -> nth k red [] = red_row r k) -> length red = length (nth r H []) -> forall ks, (forall k, In k ks -> 1 <= k < length (nth r H [])) ->
    forall av, length av = n r ->
    foldM (fun av k => row <- rd red k ;; ' (av, _) <- foldM (fun '(av, c) i => x <- rd row c ;; av <- wr av i x ;; Ret (av, S c)) (nodes_of E X r k) (av, 0) ;; Ret av) ks av
    = Ret (puts av (flat_map (fun k => combine (nodes_of E X r k) (red_row r k)) ks)).
  Proof.
    intros Hr HRed LR. induction ks as [|k ks IH]; intros B av L; auto. destruct (B k) as (K1 & K2). now left. cbn [foldM flat_map]. rewrite (rd_nth red k []) by lia. cbn [bind]. rewrite HRed by auto. rewrite write_ids. 2: { intros i Y. rewrite L. apply (node_lt r k); auto. } 2: { rewrite red_row_length. auto. } cbn [bind skipn]. rewrite IH. now rewrite puts_app. intros k' Y. apply B. now right. now rewrite puts_length.
  Qed.
  Lemma write_rows_ok r red : r < np -> (rt r = false -> length red = length (nth r H [])) -> (forall k, 1 <= k -> k < length (nth r H []) -> nth k red [] = red_row r k) ->
    exists out, write_rows false (nth r H []) E X red (nth r data []) r = Ret out /\ length out = n r /\ forall i, i < n r -> nth i out 0%Z = total H T data r i.
  Proof.
    intros Hr LR HRed. unfold write_rows. fold (rt r). assert (LD : length (nth r data []) = n r) by (apply HN; auto). assert (LOC : forall i j l, at_vertex H T r i j l -> j = 0 -> nth i (nth r data []) 0%Z = total H T data r i). { intros i j l A ->. symmetry. apply (total_local r i 0 l Hr A). now apply HF. } destruct (rt r) eqn:R.
    - exists (nth r data []). split; auto. split; auto. intros i Hi. destruct (at_ex H T n HT r i Hr Hi) as (j & l & A). apply (LOC i j l A). apply rt_true in R; auto. destruct A. lia.
    - unfold first_class. rewrite write_all; auto. 2: { intros k Y. apply in_seq in Y. lia. } eexists. split; [reflexivity|]. rewrite puts_length. split; auto. intros i Hi. set (Lst := flat_map _ _).
      assert (B : forall p, In p Lst -> fst p < length (nth r data [])). { intros (a & x) Y. apply in_flat_map in Y as (k & K & Y). apply in_combine_l in Y. apply in_seq in K. rewrite LD. apply (node_lt r k); auto. lia. }
      destruct (in_dec Nat.eq_dec i (map fst Lst)) as [Y|Y].
      + apply puts_in; auto. intros y Z. apply in_flat_map in Z as (k & _ & Z). now apply (red_row_in r k).
      + rewrite puts_not by auto. destruct (at_ex H T n HT r i Hr Hi) as (j & l & A). apply (LOC i j l A). destruct (Nat.eq_dec j 0) as [|NZ]; auto. exfalso. apply Y. apply in_map_iff. exists (i, nth l (red_row r j) 0%Z). split; auto. apply in_flat_map. exists j. destruct A as (A1 & A2 & A3). split. apply in_seq. lia. rewrite T_row in A2, A3 by auto. rewrite <- A3. rewrite <- (combine_nth _ _ l 0 0%Z) by now rewrite red_row_length. apply nth_In. rewrite combine_length, red_row_length. lia.
  Qed.
  Lemma allreduce_ok : exists v, AllreduceNodalData H E X sum_table false data = Ret v /\ length v = np /\ forall r, r < np -> size v r = n r /\ forall i, i < n r -> val v r i = total H T data r i.
  Proof.
    unfold AllreduceNodalData. rewrite (mapM_map _ trows). 2: { intros r Y. apply in_seq in Y. apply class_rows_ok. lia. } cbn [bind]. destruct reduce_all as (out & Q & L & LR & P). change (map (fun d => if returns false d then [] else d) H) with H1. rewrite Q. cbn [bind].
    destruct (mapM_exists (fun r => av <- rd data r ;; rows <- rd out r ;; write_rows false (nth r H []) E X rows av r) (fun r v => length v = n r /\ forall i, i < n r -> nth i v 0%Z = total H T data r i) (seq 0 np)) as (v & E1 & E2 & E3).
    { intros r Y. apply in_seq in Y. rewrite (rd_nth data r []), (rd_nth out r []) by lia. cbn [bind]. apply write_rows_ok. lia. intros R. apply LR; auto. lia. intros k K1 K2. apply P; auto. lia. }
    exists v. split; auto. rewrite seq_length in E2. split; auto. intros r Hr. destruct (E3 r r) as (y & Y1 & Y2). rewrite (nth_error_nth' _ 0) by now rewrite seq_length. now rewrite seq_nth. unfold size, val. rewrite (nth_error_nth v r [] Y1). auto.
  Qed.
End All.
