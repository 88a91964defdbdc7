(** C99: data of the nodes of a distributed mesh, cumulated and distributed. *)
From Verif Require Import Base EQCModel ReduceModel UtilProofs EQCProofs EQCProofs2 EQCProofs3 EQCProps ReduceProofs GCModel GCProofs GCProofs3 GCProps GEModel GESpec GECheck DataModel DataSpec DataProofs DataProofs2.
Local Open Scope nat_scope.

Section Distribute.
  Variables (H E X : list (list (list nat))) (n : nat -> nat) (data : list (list Z)).
  Notation np := (length H).
  Hypothesis HW : world H.
  Notation T := (numbers H E X).
  Hypothesis HT : node_tables H T n.
  Hypothesis HD : length data = np.
  Hypothesis HN : forall q, q < np -> size data q = n q.
  Notation row T r j := (nth j (nth r T []) []).
  Definition zeros (r k : nat) : list (nat * Z) := if is_master r (row H r k) then [] else map (fun i => (i, 0%Z)) (nodes_of E X r k).
  Lemma zero_ids ids : forall av, (forall i, In i ids -> i < length av) -> foldM (fun av i => wr av i 0%Z) ids av = Ret (puts av (map (fun i => (i, 0%Z)) ids)).
  Proof. induction ids as [|i ids IH]; intros av B; auto. cbn [foldM map]. rewrite wr_ok by (apply B; now left). cbn [bind]. rewrite IH. reflexivity. intros j Y. rewrite upd_length. apply B. now right. Qed.
  Lemma zero_all r : r < np -> forall ks, (forall k, In k ks -> k < length (nth r H [])) -> forall av, length av = n r ->
    foldM (fun av k => d <- rd (nth r H []) k ;; if is_master r d then Ret av else foldM (fun av i => wr av i 0%Z) (nodes_of E X r k) av) ks av = Ret (puts av (flat_map (zeros r) ks)).
  Proof.
    intros Hr. induction ks as [|k ks IH]; intros B av L; auto. assert (Hk : k < length (nth r H [])) by (apply B; now left). cbn [foldM flat_map]. rewrite (rd_nth _ k []) by auto. cbn [bind]. unfold zeros at 1. destruct (is_master r (row H r k)); cbn [bind app]. rewrite IH; auto. intros; apply B; now right.
    rewrite zero_ids. cbn [bind]. rewrite IH. now rewrite puts_app. intros; apply B; now right. now rewrite puts_length. intros i Y. rewrite L. eapply node_lt; eauto.
  Qed.
  Lemma master_lowest r v j l : r < np -> at_vertex H T r v j l -> (is_master r (row H r j) = true <-> lowest H T r v).
  Proof.
    intros Hr A. assert (IR : In (row H r j) (nth r H [])) by (apply nth_In, A). destruct (w_row H HW r (row H r j) Hr IR) as (S1 & S2 & S3). split.
    - intros M q v' Hq S. destruct (same_in H T n HW HT r v j l q v' Hr Hq A S) as (I & _). apply in_members in I as [->|I]; auto. unfold is_master in M. destruct (row H r j) as [|d0 d]; [destruct I|]. apply Nat.ltb_lt in M. pose proof (sset_hd d q d0 S1 I). lia.
    - intros Lo. unfold is_master. destruct (row H r j) as [|d0 d] eqn:Q; auto. apply Nat.ltb_lt. assert (I : In d0 (members r (row H r j))) by (rewrite Q; apply in_members; right; now left). destruct (node_at_ok H T n HW HT r v j l d0 Hr A I) as (B & C). destruct (cls_mem H HW r j d0 Hr (proj1 A) I) as (Hq & _). specialize (Lo d0 _ Hq C). enough (d0 <> r) by lia. intros ->. apply S2. now left.
  Qed.
  Lemma distribute_ok : exists v, Distribute H E X (mkA false data) = Ret (mkA true v) /\ length v = np /\ forall r, r < np -> size v r = n r /\
    forall i, i < n r -> (lowest H T r i -> val v r i = val data r i) /\ (~ lowest H T r i -> val v r i = 0%Z).
  Proof.
    unfold Distribute. cbn [a_dist a_val]. rewrite (mapM_map _ (fun r => puts (nth r data []) (flat_map (zeros r) (seq 0 (length (nth r H [])))))). 2: { intros r Y. apply in_seq in Y. rewrite (rd_nth data r []) by lia. cbn [bind]. apply zero_all. lia. intros k K. apply in_seq in K. lia. apply HN. lia. }
    cbn [bind]. eexists. split; [reflexivity|]. rewrite map_length, seq_length. split; auto. intros r Hr. unfold size, val. rewrite (nth_map_ok _ _ _ 0) by now rewrite seq_length. rewrite seq_nth by auto. cbn [Nat.add]. rewrite puts_length. split. now apply HN. intros i Hi. destruct (at_ex H T n HT r i Hr Hi) as (j & l & A). rewrite <- (master_lowest r i j l Hr A). set (Lst := flat_map _ _).
    assert (LD : length (nth r data []) = n r) by (now apply HN).
    assert (B : forall p, In p Lst -> fst p < length (nth r data [])). { intros p Y. apply in_flat_map in Y as (k & K & Y). apply in_seq in K. unfold zeros in Y. destruct (is_master r (row H r k)); [destruct Y|]. apply in_map_iff in Y as (a & <- & Y). rewrite LD. eapply node_lt; eauto. lia. }
    split; intros M.
    - rewrite puts_not; auto. intros Y. apply in_map_iff in Y as (p & Q & Y). apply in_flat_map in Y as (k & K & Y). apply in_seq in K. unfold zeros in Y. destruct (is_master r (row H r k)) eqn:Mk; [destruct Y|]. apply in_map_iff in Y as (a & <- & Y). cbn in Q. subst a. destruct (In_nth _ _ 0 Y) as (l' & Hl' & Q). assert (A' : at_vertex H T r i k l'). { split. lia. rewrite (T_row H E X) by (auto; lia). auto. } destruct (at_uniq H T n HT r i j l k l' Hr A A') as (-> & _). congruence.
    - apply puts_in; auto. + intros y Y. apply in_flat_map in Y as (k & _ & Y). unfold zeros in Y. destruct (is_master r (row H r k)); [destruct Y|]. apply in_map_iff in Y as (a & [= _ <-] & _). auto.
      + apply in_map_iff. exists (i, 0%Z). split; auto. apply in_flat_map. exists j. destruct A as (A1 & A2 & A3). split. apply in_seq. lia. unfold zeros. destruct (is_master r (row H r j)). now destruct M. apply in_map_iff. exists i. split; auto. rewrite (T_row H E X) in A2, A3 by auto. rewrite <- A3. now apply nth_In.
  Qed.
  Lemma total_lowest v : (forall r, r < np -> size v r = n r) -> (forall r i, r < np -> i < n r -> (lowest H T r i -> val v r i = val data r i) /\ (~ lowest H T r i -> val v r i = 0%Z)) -> values_agree H T data ->
    forall r i, r < np -> i < n r -> total H T v r i = val data r i.
  Proof.
    intros Sz F AG r i Hr Hi. destruct (at_ex H T n HT r i Hr Hi) as (j & l & A). rewrite (total_eq H T n HW HT v r i j l Hr Sz A). set (D := members r (row H r j)).
    assert (SD : sset D) by (apply members_sset, (crow_inc H HW r j Hr), A). assert (ND : D <> []). { intros Q. assert (Y : In r D) by (apply in_members; now left). rewrite Q in Y. destruct Y. }
    assert (NA : forall q, In q D -> q < np /\ node_at H T q D l < n q /\ same_vertex H T r i q (node_at H T q D l)). { intros q Y. destruct (node_at_ok H T n HW HT r i j l q Hr A Y) as (B & C). destruct (cls_mem H HW r j q Hr (proj1 A) Y) as (Hq & _). split; auto. split; auto. eapply at_lt; eauto. }
    assert (LOW : forall q, In q D -> (lowest H T q (node_at H T q D l) <-> forall x, In x D -> q <= x)).
    { intros q Y. destruct (node_at_ok H T n HW HT r i j l q Hr A Y) as (B & C). destruct (NA q Y) as (Hq & N2 & N3). destruct (cidx_ok H q D (proj2 (cls_mem H HW r j q Hr (proj1 A) Y))) as (C1 & C2). split.
      - intros Lo x Z. assert (Z' : In x (members q (row H q (cidx H q D)))) by now rewrite C2. destruct (node_at_ok H T n HW HT q _ _ l x Hq B Z') as (_ & G). destruct (NA x Z) as (Hx & _). exact (Lo x _ Hx G).
      - intros G x v' Hx S. destruct (same_in H T n HW HT q _ _ l x v' Hq Hx B S) as (I & _). apply G. exact (eq_rect _ (fun Z => In x Z) I _ C2). }
    destruct D as [|q0 D0] eqn:ED; [now destruct ND|]. clear ND. rewrite <- ED in *. rewrite ED. cbn [map sumZ fold_right]. rewrite <- ED. fold (sumZ (map (fun q => val v q (node_at H T q D l)) D0)).
    assert (I0 : In q0 D) by (rewrite ED; now left). rewrite sumZ_zero.
    - destruct (NA q0 I0) as (Hq & N2 & N3). rewrite (proj1 (F q0 _ Hq N2)). rewrite (AG r i q0 _ Hr Hq N3). lia. apply LOW; auto. intros x Y. rewrite ED in Y, SD. exact (sset_hd D0 x q0 SD Y).
    - intros q Y. assert (Iq : In q D) by (rewrite ED; now right). destruct (NA q Iq) as (Hq & N2 & _). apply (F q _ Hq N2). intros Lo. pose proof (proj1 (LOW q Iq) Lo q0 I0) as Lo0. clear Lo. rewrite ED in SD. inversion SD as [|? ? _ FA]; subst. rewrite Forall_forall in FA. specialize (FA q Y). lia.
  Qed.
End Distribute.
Lemma sorted_w W : consistent W -> world (map dist_procs W).
Proof. intros C. apply sorted_world. now apply consistent_tables. Qed.
(** the sum does not depend on the rank *)
Lemma total_same H T n data r v r' v' : world H -> node_tables H T n -> (forall q, q < length H -> size data q = n q) -> r < length H -> r' < length H -> same_vertex H T r v r' v' -> total H T data r v = total H T data r' v'.
Proof.
  intros HW HT HN Hr Hr' S. assert (S' := S). destruct S as (j & j' & l & A & B & SC). rewrite (total_eq H T n HW HT data r v j l), (total_eq H T n HW HT data r' v' j' l) by auto. apply (csame H HW) in SC; auto; try apply A; try apply B. now rewrite SC.
Qed.

(** Cumulating distributed data gives every rank, for every one of its nodes, the sum of the values of all ranks that have the node *)
Theorem C99_cumulate : forall W E X n data, consistent W -> let H := map dist_procs W in let T := numbers H E X in
  local_first H -> node_tables H T n -> sizes_fit H n data ->
  exists v, Cumulate H E X (mkA true data) = Ret (mkA false v) /\ sizes_fit H n v /\ values_agree H T v /\
    forall r i, r < length H -> i < n r -> val v r i = total H T data r i.
Proof.
  intros W E X n data C H T HF HT (HD & HN). pose proof (sorted_w W C) as HW. change (map dist_procs W) with H in HW. destruct (allreduce_ok H E X n data HW HF HT HD HN) as (v & Q & L & P). exists v. unfold Cumulate. cbn [a_dist a_val]. rewrite Q. split; auto. split. split; auto. intros r Hr. now apply P. split.
  - intros r i r' i' Hr Hr' S. assert (S' := S). destruct S' as (j & j' & l & A & B & _). rewrite (proj2 (P r Hr)) by (eapply at_lt; eauto). rewrite (proj2 (P r' Hr')) by (eapply at_lt; eauto). eapply total_same; eauto.
  - intros r i Hr Hi. now apply P.
Qed.
(** Distributing data leaves the value of a node on the lowest rank that has it, all others get zero; the sums are the values the data had *)
Theorem C99_distribute : forall W E X n data, consistent W -> let H := map dist_procs W in let T := numbers H E X in
  node_tables H T n -> sizes_fit H n data ->
  exists v, Distribute H E X (mkA false data) = Ret (mkA true v) /\ sizes_fit H n v /\
    (forall r i, r < length H -> i < n r -> (lowest H T r i -> val v r i = val data r i) /\ (~ lowest H T r i -> val v r i = 0%Z)) /\
    (values_agree H T data -> forall r i, r < length H -> i < n r -> total H T v r i = val data r i).
Proof.
  intros W E X n data C H T HT (HD & HN). pose proof (sorted_w W C) as HW. change (map dist_procs W) with H in HW. destruct (distribute_ok H E X n data HW HT HD HN) as (v & Q & L & P). exists v. split; auto. split. split; auto. intros r Hr. now apply P. split. intros r i Hr Hi. now apply P.
  intros AG. apply (total_lowest H E X n data HW HT HD v); auto. intros r Hr. now apply P. intros r i Hr Hi. now apply P.
Qed.
(** there and back *)
Theorem C99_round : forall W E X n data, consistent W -> let H := map dist_procs W in let T := numbers H E X in
  local_first H -> node_tables H T n -> sizes_fit H n data -> values_agree H T data ->
  exists A, Distribute H E X (mkA false data) = Ret A /\ Cumulate H E X A = Ret (mkA false data).
Proof.
  intros W E X n data C H T HF HT HS AG. destruct (C99_distribute W E X n data C HT HS) as (v & Q & HSv & _ & P). exists (mkA true v). split; auto. destruct (C99_cumulate W E X n v C HF HT HSv) as (v' & Q' & (L & N) & _ & P'). change (map dist_procs W) with H in Q', P, P', L, N. rewrite Q'. f_equal. f_equal. destruct HS as (L2 & N2). fold T in P, P'. apply (nth_ext _ _ [] []). congruence. intros r Hr. rewrite L in Hr. specialize (N r Hr). specialize (N2 r Hr). unfold size in N, N2. apply (nth_ext _ _ 0%Z 0%Z). congruence. intros i Hi. rewrite N in Hi. change (val v' r i = val data r i). rewrite P' by auto. now apply P.
Qed.
(** nothing is communicated or changed if the status is the wanted one already *)
Theorem C99_nothing : forall H E X data, Cumulate H E X (mkA false data) = Ret (mkA false data) /\ Distribute H E X (mkA true data) = Ret (mkA true data).
Proof. intros. split; reflexivity. Qed.

(** the mesh of C98_ex: vertices, edges *)
Definition node_tables_b (H T : list (list (list nat))) : bool :=
  (length T =? length H) && forallb (fun r => (length (nth r T []) =? length (nth r H [])) && list_eqb (sort_by Nat.ltb (concat (nth r T []))) (seq 0 (length (concat (nth r T []))))) (seq 0 (length H)) &&
  forallb (fun r => forallb (fun r' => forallb (fun j => forallb (fun j' => implb (same_class_b r (nth j (nth r H []) []) r' (nth j' (nth r' H []) [])) (length (nth j (nth r T []) []) =? length (nth j' (nth r' T []) []))) (seq 0 (length (nth r' H [])))) (seq 0 (length (nth r H [])))) (seq 0 (length H))) (seq 0 (length H)).
Lemma node_tables_ok H T : node_tables_b H T = true -> node_tables H T (fun r => length (concat (nth r T []))).
Proof.
  unfold node_tables_b. rewrite !andb_true_iff, !all_lt. intros ((A & B) & C). constructor.
  - now apply Nat.eqb_eq.
  - intros r Hr. specialize (B r Hr). apply andb_true_iff in B as (B & _). now apply Nat.eqb_eq.
  - intros r Hr. specialize (B r Hr). apply andb_true_iff in B as (_ & B). apply list_eqb_eq in B. rewrite <- B. apply Permutation_sym, sort_by_perm.
  - intros r r' j j' Hr Hr' Hj Hj' X. apply same_class_ok in X. specialize (C r Hr). rewrite all_lt in C. specialize (C r' Hr'). rewrite all_lt in C. specialize (C j Hj). rewrite all_lt in C. specialize (C j' Hj'). rewrite X in C. now apply Nat.eqb_eq.
Qed.
Definition Wd : list (list (list nat)) := [[[]; [1]; [2]; [1; 3]]; [[]; [0]; [2]; [0; 3]]; [[]; [0]; [1]]; [[]; [0; 1]]].
Definition Ed : list (list (list nat)) := [[[]; [0]; []; []]; [[]; [0]; []; []]; [[]; []; []]; [[]; []]].
Definition Xd : list (list (list nat)) := [[[1; 2; 3]; [4]; []; []]; [[1]; [2]; []; []]; [[]; []; []]; [[0]; []]].
Definition Vd : list (list (list nat)) := [[[0]; [1; 2]; [3]; [4]]; [[0]; [1; 2]; [3]; [4]]; [[]; [0]; [1]]; [[0]; [1]]].
Definition none : list (list (list nat)) := [[[]; []; []; []]; [[]; []; []; []]; [[]; []; []]; [[]; []]].
Example C99_ex : let H := map dist_procs Wd in consistent Wd /\ local_first H /\
  (node_tables H (numbers H Ed Xd) (fun r => nth r [5; 3; 0; 1] 0) /\
    Cumulate H Ed Xd (mkA true [[1; 2; 3; 4; 5]; [10; 20; 30]; []; [7]]%Z) = Ret (mkA false [[11; 2; 3; 4; 35]; [11; 20; 35]; []; [7]]%Z) /\
    Distribute H Ed Xd (mkA false [[11; 2; 3; 4; 35]; [11; 20; 35]; []; [7]]%Z) = Ret (mkA true [[11; 2; 3; 4; 35]; [0; 20; 0]; []; [7]]%Z)) /\
  node_tables H (numbers H Vd none) (fun r => nth r [5; 5; 2; 2] 0) /\
    Cumulate H Vd none (mkA true [[1; 2; 3; 4; 5]; [10; 20; 30; 40; 50]; [100; 200]; [1000; 2000]]%Z) = Ret (mkA false [[1; 22; 33; 104; 2055]; [10; 22; 33; 240; 2055]; [104; 240]; [1000; 2055]]%Z).
Proof.
  assert (X : forall H T n m, node_tables H T n -> (forall r, r < length H -> n r = m r) -> node_tables H T m). { intros H T n m [A1 A2 A3 A4] F. constructor; auto. intros r Hr. rewrite <- F; auto. }
  cbn zeta. split. apply consistent_ok. vm_compute. reflexivity. split. { intros r Hr. do 4 (destruct r as [|r]; [reflexivity|]). cbn in Hr. lia. } split; [split|split].
  - eapply X. apply node_tables_ok. vm_compute. reflexivity. intros r Hr. do 4 (destruct r as [|r]; [reflexivity|]). cbn in Hr. lia.
  - split; vm_compute; reflexivity.
  - eapply X. apply node_tables_ok. vm_compute. reflexivity. intros r Hr. do 4 (destruct r as [|r]; [reflexivity|]). cbn in Hr. lia.
  - vm_compute. reflexivity.
Qed.
Print Assumptions C99_cumulate.
Print Assumptions C99_distribute.
Print Assumptions C99_round.
Print Assumptions C99_nothing.
