(** C41-C44, C65: equivalence classes of shared degrees of freedom. *)
From Verif Require Import Base EQCModel UtilProofs EQCProofs EQCProofs2 EQCProofs3.
Local Open Scope nat_scope.

(** *** specification
    Rank [r] stores a class as the increasing list [d] of the other ranks. *)
Definition increasing (l : list nat) : Prop := StronglySorted lt l.
(** rank [x] belongs to the class that rank [r] stores as [d] *)
Definition shares (r : nat) (d : list nat) (x : nat) : Prop := x = r \/ In x d.
(** two ranks store the same class *)
Definition same_class (r : nat) (d : list nat) (r' : nat) (d' : list nat) : Prop := forall x, shares r d x <-> shares r' d' x.
(** tables of all ranks: proper rows, no row twice, every class known to all its ranks *)
Record consistent (W : list (list (list nat))) : Prop := {
  cs_row : forall r d, r < length W -> In d (nth r W []) -> increasing d /\ ~ In r d /\ forall q, In q d -> q < length W;
  cs_once : forall r, r < length W -> NoDup (nth r W []);
  cs_known : forall r d q, r < length W -> In d (nth r W []) -> In q d -> exists d', In d' (nth q W []) /\ same_class r d q d' }.
(** [o] is the number of the row equal, as a set, to [P]; None if there is none *)
Definition row_of (dp : list (list nat)) (P : nat -> Prop) (o : option nat) : Prop :=
  match o with
  | Some k => k < length dp /\ forall x, In x (nth k dp []) <-> P x
  | None => forall k, k < length dp -> ~ forall x, In x (nth k dp []) <-> P x
  end.

(** *** glue *)
Lemma same_members r d r' d' : increasing d -> increasing d' -> (same_class r d r' d' <-> members r d = members r' d').
Proof.
  intros H H'. split; intros E.
  - apply sset_ext; try now apply members_sset. intros x. rewrite !in_members. apply E.
  - intros x. unfold shares. rewrite <- !in_members, E. reflexivity.
Qed.
Lemma consistent_tables W : consistent W <-> tables_ok W.
Proof.
  split.
  - intros [H1 H2 H3]. constructor; auto. intros r d q Hr Hd Hq. destruct (H1 r d Hr Hd) as (S1 & N1 & L1). destruct (H3 r d q Hr Hd Hq) as (d' & D' & E). destruct (H1 q d' (L1 q Hq) D') as (S2 & N2 & _).
    apply same_members in E; auto. rewrite E, del_members; auto.
  - intros [H1 H2 H3]. constructor; auto. intros r d q Hr Hd Hq. exists (del q (members r d)). split; auto. destruct (H1 r d Hr Hd) as (S1 & N1 & L1). apply same_members; auto. now apply del_sset, members_sset. rewrite members_del; auto. now apply members_sset. apply in_members. auto.
Qed.
Lemma dist_in l d : In d (dist_procs l) <-> In d l.
Proof. unfold dist_procs. split; apply Permutation_in; [|apply Permutation_sym]; apply sort_by_perm. Qed.
Lemma dist_nth W r : nth r (map dist_procs W) [] = dist_procs (nth r W []). Proof. apply (map_nth dist_procs W []). Qed.
Lemma dist_consistent W : consistent W -> consistent (map dist_procs W).
Proof.
  intros H. apply consistent_tables in H. apply consistent_tables. destruct H as [H1 H2 H3]. constructor; rewrite map_length.
  - intros r d Hr. rewrite dist_nth, dist_in. auto.
  - intros r Hr. rewrite dist_nth. apply Permutation_NoDup with (nth r W []); auto. apply Permutation_sym, sort_by_perm.
  - intros r d q Hr. rewrite !dist_nth, !dist_in. auto.
Qed.
Lemma hierarchy_world W : consistent W -> exists H, EQCHierarchy W = Ret H /\ length H = length W /\ world H /\ consistent H /\
  (forall r d, r < length W -> In d (nth r W []) -> In d (nth r H [])) /\
  (forall r d, r < length W -> In d (nth r H []) -> exists d0, In d0 (nth r W []) /\ incl d d0) /\
  (forall r a b, r < length W -> In a (nth r H []) -> In b (nth r H []) -> exists c, In c (nth r H []) /\ increasing c /\ forall x, In x c <-> In x a /\ In x b).
Proof.
  intros HC. apply consistent_tables in HC. destruct (setup_ok W HC) as (W' & E & L & T & A1 & A2 & A3). exists (map dist_procs W'). unfold EQCHierarchy. rewrite E. cbn [bind]. split; auto. rewrite map_length. split; auto. split; [now apply sorted_world|]. split; [apply dist_consistent; now apply consistent_tables|].
  split; [|split].
  - intros r d Hr Hd. rewrite dist_nth, dist_in. auto.
  - intros r d Hr. rewrite dist_nth, dist_in. auto.
  - intros r a b Hr. rewrite dist_nth, !dist_in. intros Ha Hb. exists (inter a b). split. apply dist_in; auto. split. apply inter_sset. apply (t_row W' T r a); auto. lia. intros x. apply inter_in.
Qed.

(** *** C43: the completion *)
Theorem C43_closed_under_intersection : forall W, consistent W -> exists H, EQCHierarchy W = Ret H /\ length H = length W /\ consistent H /\
  (forall r d, r < length W -> In d (nth r W []) -> In d (nth r H [])) /\
  (forall r d, r < length W -> In d (nth r H []) -> exists d0, In d0 (nth r W []) /\ incl d d0) /\
  (forall r a b, r < length W -> In a (nth r H []) -> In b (nth r H []) -> exists c, In c (nth r H []) /\ increasing c /\ forall x, In x c <-> In x a /\ In x b).
Proof. intros W HC. destruct (hierarchy_world W HC) as (H & E & L & _ & R). exists H. auto. Qed.

(** *** C41: tables of one rank *)
Section C41.
  Variable dp : list (list nat).
  Hypothesis HS : forall d, In d dp -> increasing d.
  Hypothesis HN : NoDup dp.
  Lemma row_of_find arr P : increasing arr -> (forall x, In x arr <-> P x) -> row_of dp P (find_last dp arr).
  Proof.
    intros SA EP. destruct (find_last dp arr) as [k|] eqn:E; cbn [row_of].
    - apply find_last_ok in E; auto. split. apply nth_error_Some. congruence. apply nth_error_nth with (d := []) in E. now rewrite E.
    - apply find_last_none in E; auto. intros k Hk X. apply E. replace arr with (nth k dp []). now apply nth_In. apply sset_ext; auto. apply HS, nth_In; auto. intros x. now rewrite X, EP.
  Qed.
End C41.
Theorem C41_order : forall dp i j, i < length dp -> j < length dp -> exists b, IsLEQ dp i j = Ret b /\ (b = true <-> incl (nth i dp []) (nth j dp [])).
Proof.
  intros dp i j Hi Hj. destruct (horder_ok dp) as (H & E & L & HH). unfold IsLEQ. rewrite E. cbn [bind]. rewrite (rd_ok _ _ false). exists (nth (i * length dp + j) H false). split; auto. rewrite L. nia.
Qed.
Theorem C41_common : forall dp i j, (forall d, In d dp -> increasing d) -> NoDup dp -> i < length dp -> j < length dp ->
  exists o, GetCommonEQC dp i j = Ret o /\ row_of dp (fun x => In x (nth i dp []) /\ In x (nth j dp [])) o.
Proof.
  intros dp i j HS HN Hi Hj. destruct (fill_ok dp intersect_arrays) as (M & E & L & HM). { intros a b Ha Hb. apply isect_comm; now apply HS. }
  unfold GetCommonEQC, mat_intersect. rewrite E. cbn [bind]. rewrite (rd_ok _ _ None) by (rewrite L; nia). rewrite HM by auto. exists (cell dp intersect_arrays i j). split; auto. unfold cell.
  pose proof (HS _ (nth_In dp [] Hi)). pose proof (HS _ (nth_In dp [] Hj)). apply row_of_find; auto. now apply isect_sset. intros x. now apply isect_in.
Qed.
Theorem C41_merged : forall dp i j, (forall d, In d dp -> increasing d) -> NoDup dp -> i < length dp -> j < length dp ->
  exists o, GetMergedEQC dp i j = Ret o /\ row_of dp (fun x => In x (nth i dp []) \/ In x (nth j dp [])) o /\ IsMergeValid dp i j = Ret (match o with Some _ => true | None => false end).
Proof.
  intros dp i j HS HN Hi Hj. destruct (fill_ok dp merge_arrays) as (M & E & L & HM). { intros a b Ha Hb. apply merge_comm; now apply HS. }
  unfold IsMergeValid, GetMergedEQC, mat_merge. rewrite E. cbn [bind]. rewrite (rd_ok _ _ None) by (rewrite L; nia). rewrite HM by auto. exists (cell dp merge_arrays i j). split; auto. cbn [bind]. unfold cell.
  pose proof (HS _ (nth_In dp [] Hi)). pose proof (HS _ (nth_In dp [] Hj)). split. apply row_of_find; auto. now apply merge_sset. intros x. now apply merge_in. now destruct (find_last _ _).
Qed.
Theorem C41_find : forall dp arr, (forall d, In d dp -> increasing d) -> NoDup dp -> increasing arr -> row_of dp (fun x => In x arr) (FindEQCWithDPs dp arr).
Proof. intros dp arr HS HN HA. rewrite find_first_ok by auto. apply row_of_find; auto. tauto. Qed.
(** after the completion the common class of two classes always exists *)
Theorem C41_common_exists : forall W, consistent W -> exists H, EQCHierarchy W = Ret H /\ forall r i j, r < length W -> i < length (nth r H []) -> j < length (nth r H []) ->
  exists k, GetCommonEQC (nth r H []) i j = Ret (Some k) /\ k < length (nth r H []) /\ forall x, In x (nth k (nth r H []) []) <-> In x (nth i (nth r H []) []) /\ In x (nth j (nth r H []) []).
Proof.
  intros W HC. destruct (hierarchy_world W HC) as (H & E & L & _ & C & _ & _ & A). exists H. split; auto. intros r i j Hr Hi Hj.
  destruct (C41_common (nth r H []) i j) as (o & O1 & O2); auto. intros d Hd. apply (cs_row H C r d); auto; lia. apply (cs_once H C); lia.
  destruct (A r _ _ Hr (nth_In _ [] Hi) (nth_In _ [] Hj)) as (c & C1 & C2 & C3). destruct o as [k|]. { exists k. auto. }
  exfalso. apply In_nth with (d := []) in C1 as (k & K1 & <-). now apply (O2 k K1).
Qed.

(** *** C42: agreement of ranks *)
Section C42.
  Variable H : list (list (list nat)).
  Hypothesis HW : world H.
  Notation np := (length H).
  Notation row r k := (nth k (nth r H []) []).
  Lemma row_in r k : k < length (nth r H []) -> In (row r k) (nth r H []). Proof. apply nth_In. Qed.
  Lemma row_inc r k : r < np -> k < length (nth r H []) -> increasing (row r k).
  Proof. intros Hr Hk. apply (w_row H HW r); auto using row_in. Qed.
  Lemma class_nth r k : k < length (nth r H []) -> nth k (classes H r) [] = members r (row r k).
  Proof. intros Hk. unfold classes. rewrite (nth_indep _ [] (members r [])) by now rewrite map_length. apply map_nth. Qed.
  Lemma class_len r : length (classes H r) = length (nth r H []). Proof. apply map_length. Qed.
  Lemma ss_nth {A} (R : A -> A -> Prop) l d : StronglySorted R l -> forall i j, i < j < length l -> R (nth i l d) (nth j l d).
  Proof.
    induction 1 as [|x l HS IH HF]; intros i j Hij; cbn in Hij; [lia|]. destruct j as [|j]; [lia|]. destruct i as [|i]; cbn. rewrite Forall_forall in HF. apply HF, nth_In. lia. apply IH. lia.
  Qed.
  Lemma order_ok r r' i j i' j' : r < np -> r' < np -> i < length (nth r H []) -> j < length (nth r H []) -> i' < length (nth r' H []) -> j' < length (nth r' H []) ->
    same_class r (row r i) r' (row r' i') -> same_class r (row r j) r' (row r' j') -> i < j -> i' < j'.
  Proof.
    intros Hr Hr' Hi Hj Hi' Hj' E1 E2 HL. apply same_members in E1; try now apply row_inc. apply same_members in E2; try now apply row_inc.
    rewrite <- !class_nth in E1, E2 by auto. pose proof (ss_nth _ _ [] (classes_sorted H HW r Hr) i j ltac:(rewrite class_len; lia)) as A. cbv beta in A. rewrite E1, E2 in A.
    destruct (Nat.lt_trichotomy i' j') as [|[->|B]]; auto. rewrite less_irrefl in A. discriminate. pose proof (ss_nth _ _ [] (classes_sorted H HW r' Hr') j' i' ltac:(rewrite class_len; lia)) as A'. cbv beta in A'. apply less_asym in A'. congruence.
  Qed.
  Lemma ids_ok r : r < np -> exists ids, eqc_ids H r = Ret ids /\ length ids = length (nth r H []) /\ forall k, k < length (nth r H []) -> nth k ids 0 = gid H (members r (row r k)).
  Proof.
    intros Hr. exists (map (gid H) (classes H r)). split; [now apply eqc_ids_ok|]. rewrite map_length, class_len. split; auto. intros k Hk. rewrite (nth_indep _ 0 (gid H [])) by (rewrite map_length, class_len; auto). rewrite map_nth. now rewrite class_nth.
  Qed.
  Lemma gid_iff r r' k k' : r < np -> r' < np -> k < length (nth r H []) -> k' < length (nth r' H []) -> (gid H (members r (row r k)) = gid H (members r' (row r' k')) <-> same_class r (row r k) r' (row r' k')).
  Proof.
    intros Hr Hr' Hk Hk'. rewrite same_members by now apply row_inc. split; [|congruence]. intros E.
    destruct (class_kind H HW r (members r (row r k)) Hr) as (m & K). apply in_map; now apply row_in. destruct (class_kind H HW r' (members r' (row r' k')) Hr') as (m' & K'). apply in_map; now apply row_in. now apply (gid_inj H _ _ m m').
  Qed.
End C42.
(** classes that two ranks share come in the same order on both *)
Theorem C42_order : forall W, consistent W -> exists H, EQCHierarchy W = Ret H /\ forall r r' i j i' j', r < length W -> r' < length W ->
  i < length (nth r H []) -> j < length (nth r H []) -> i' < length (nth r' H []) -> j' < length (nth r' H []) ->
  same_class r (nth i (nth r H []) []) r' (nth i' (nth r' H []) []) -> same_class r (nth j (nth r H []) []) r' (nth j' (nth r' H []) []) -> i < j -> i' < j'.
Proof. intros W HC. destruct (hierarchy_world W HC) as (H & E & L & HW & _). exists H. split; auto. rewrite <- L. intros r r' i j i' j'. now apply order_ok. Qed.
(** two classes, on whatever ranks, have the same id iff they are the same set of ranks *)
Theorem C42_ids : forall W, consistent W -> exists H, EQCHierarchy W = Ret H /\ forall r r' k k', r < length W -> r' < length W -> k < length (nth r H []) -> k' < length (nth r' H []) ->
  exists i i', GetEQCID H r k = Ret i /\ GetEQCID H r' k' = Ret i' /\ (i = i' <-> same_class r (nth k (nth r H []) []) r' (nth k' (nth r' H []) [])).
Proof.
  intros W HC. destruct (hierarchy_world W HC) as (H & E & L & HW & _). exists H. split; auto. rewrite <- L. intros r r' k k' Hr Hr' Hk Hk'.
  destruct (ids_ok H HW r Hr) as (ids & I1 & I2 & I3), (ids_ok H HW r' Hr') as (ids' & J1 & J2 & J3). exists (nth k ids 0), (nth k' ids' 0). unfold GetEQCID. rewrite I1, J1. cbn [bind]. rewrite !(rd_ok _ _ 0) by lia. split; auto. split; auto. rewrite I3, J3 by auto. now apply gid_iff.
Qed.
(** an id leads back to the class *)
Theorem C42_of_id : forall W, consistent W -> exists H, EQCHierarchy W = Ret H /\ forall r k, r < length W -> k < length (nth r H []) -> exists i, GetEQCID H r k = Ret i /\ GetEQCOfID H r i = Ret (Some k).
Proof.
  intros W HC. destruct (hierarchy_world W HC) as (H & E & L & HW & _). exists H. split; auto. rewrite <- L. intros r k Hr Hk.
  pose proof (eqc_ids_ok H HW r Hr) as EI. destruct (idf_ok H HW r Hr) as (t & T1 & T2). exists (gid H (nth k (classes H r) [])). unfold GetEQCID, GetEQCOfID. rewrite EI. cbn [bind]. split.
  - rewrite (rd_ok _ _ (gid H [])) by (rewrite map_length, class_len; auto). now rewrite map_nth.
  - rewrite T1. cbn [bind]. specialize (T2 k Hk). unfold rd. destruct (nth_error t (gid H (nth k (classes H r) []))) eqn:X. now apply nth_error_nth with (d := None) in X; rewrite <- T2, X. apply nth_error_None in X. rewrite nth_overflow in T2 by auto. discriminate.
Qed.
(** every rank names the lowest rank of a class as its master, and only that rank takes itself for the master *)
Theorem C42_master : forall r d, increasing d -> ~ In r d -> shares r d (master_of r d) /\ (forall x, shares r d x -> master_of r d <= x) /\ (is_master r d = true <-> master_of r d = r).
Proof.
  intros r [|p d] SD ND; cbn [master_of is_master]. { unfold shares. split; auto. split; [|tauto]. intros x [->|[]]. auto. }
  assert (p <> r) by (intros ->; apply ND; now left). split. unfold shares. destruct (Nat.min_spec r p) as [(_ & ->)|(_ & ->)]; cbn; auto. split.
  - intros x [->|X]. lia. pose proof (sset_hd d x p SD X). lia.
  - destruct (Nat.ltb_spec r p); split; intros; try lia; auto; try discriminate.
Qed.
(** scattering: every rank gets, for each of its classes, the entry of the lowest rank of the class *)
Theorem C42_scatter : forall T (t0 : T) W data, consistent W -> exists H, EQCHierarchy W = Ret H /\
  ((forall r, r < length W -> length (nth r data []) = length (nth r H [])) ->
   forall me, me < length W -> exists out, ScatterEQCData H data me = Ret out /\ length out = length (nth me H []) /\
     forall k m j, k < length (nth me H []) -> m < length W -> j < length (nth m H []) ->
       same_class me (nth k (nth me H []) []) m (nth j (nth m H []) []) -> (forall x, In x (nth j (nth m H []) []) -> m < x) -> nth k out t0 = nth j (nth m data []) t0).
Proof.
  intros T t0 W data HC. destruct (hierarchy_world W HC) as (H & E & L & HW & _). exists H. split; auto. rewrite <- L. intros HD me Hme. exists (map (mval H t0 data) (classes H me)). split; [now apply scatter_ok|]. rewrite map_length, class_len. split; auto.
  intros k m j Hk Hm Hj SC HM. rewrite (nth_indep _ t0 (mval H t0 data [])) by (rewrite map_length, class_len; auto). rewrite map_nth, class_nth by auto. apply same_members in SC; try (apply row_inc; auto). rewrite SC.
  assert (ME : members m (nth j (nth m H []) []) = m :: nth j (nth m H []) []).
  { destruct (nth j (nth m H []) []) as [|p d] eqn:EJ; auto. apply members_master. rewrite <- EJ. now apply row_inc. apply HM. now left. }
  unfold mval. rewrite ME. cbn [hd]. rewrite <- ME, del_members; [| now apply row_inc|]. apply lookup_nth; auto. now apply tab_nodup. apply (w_row H HW m); auto. now apply nth_In.
Qed.

(** *** C44: the number of classes *)
(** there are [n] different classes on all ranks together *)
Definition number_of_classes (H : list (list (list nat))) (n : nat) : Prop :=
  exists L, NoDup L /\ length L = n /\ forall D, In D L <-> increasing D /\ exists r d, r < length H /\ In d (nth r H []) /\ forall x, In x D <-> shares r d x.
Definition no_local_class (H : list (list (list nat))) (r : nat) : bool := negb (existsb (fun d => length d =? 0) (nth r H [])).
Definition owned (r : nat) (d : list nat) : bool := (0 <? length d) && forallb (fun x => r <? x) d.
(** The number reported on rank [me] exceeds the true one by the number of ranks without a local class plus the number of shared classes of which [me] is the master. *)
Theorem C44_number_partial : forall W, consistent W -> exists H n, EQCHierarchy W = Ret H /\ number_of_classes H n /\
  forall me, me < length W -> neqcs_glob H me = n + length (filter (no_local_class H) (seq 0 (length H))) + length (filter (owned me) (nth me H [])).
Proof.
  intros W HC. destruct (hierarchy_world W HC) as (H & E & L & HW & C & _). exists H, (length (all_classes H)). split; auto. split.
  - exists (all_classes H). split; [now apply all_classes_nodup|]. split; auto. intros D. rewrite all_classes_in by auto. split.
    + intros (r & Hr & HD). destruct (class_facts H HW r D Hr HD) as (S1 & _). split; auto. apply in_map_iff in HD as (d & <- & Hd). exists r, d. split; auto. split; auto. apply in_members.
    + intros (S1 & r & d & Hr & Hd & HX). exists r. split; auto. apply in_map_iff. exists d. split; auto. apply sset_ext; auto. apply members_sset. now apply (w_row H HW r). intros x. rewrite in_members, HX. reflexivity.
  - rewrite <- L. intros me Hme. unfold neqcs_glob. rewrite ids_size_ok by auto. rewrite all_classes_length.
    assert (X1 : length (filter (mst me) (nth me H [])) = length (filter (owned me) (nth me H []))).
    { f_equal. apply filter_ext_in. intros d Hd. destruct d as [|p d]; auto. unfold owned, mst. change (0 <? length (p :: d)) with true. cbn [andb]. destruct (w_row H HW me (p :: d) Hme Hd) as (SD & _). symmetry. destruct (Nat.ltb_spec me p) as [B|B].
      - apply forallb_forall. intros x X. apply Nat.ltb_lt. pose proof (sset_hd d x p SD X). lia.
      - apply Bool.not_true_iff_false. intros X. rewrite forallb_forall in X. specialize (X p (or_introl eq_refl)). apply Nat.ltb_lt in X. lia. }
    assert (X2 : forall l, length (filter (has_local H) l) + length (filter (no_local_class H) l) = length l).
    { induction l as [|r l IH]; auto. cbn [filter]. replace (no_local_class H r) with (negb (has_local H r)). destruct (has_local H r); cbn; lia. unfold has_local, no_local_class. f_equal. induction (nth r H []) as [|d t IHt]; auto. cbn [existsb]. rewrite IHt. f_equal. now destruct d. }
    specialize (X2 (seq 0 (length H))). rewrite seq_length in X2. rewrite X1. lia.
Qed.

(** *** C65: the classes of a set of dofs *)
(** the local class first, then the classes of the selected shared dofs, each once, in the order of their first dof *)
Theorem C65_from_dofs : forall ndof max_nd select dp, exists cl, from_pardofs ndof max_nd select dp = (if 0 <? ndof then [[]] else []) ++ cl /\ 
  (0 < ndof -> NoDup cl /\ (forall d, In d cl <-> d <> [] /\ exists k, k < max_nd /\ select k = true /\ dp k = d) /\
    forall i j, i < j < length cl -> exists k, k < max_nd /\ select k = true /\ dp k = nth i cl [] /\ forall k', k' < max_nd -> select k' = true -> dp k' = nth j cl [] -> k < k').
Proof.
  intros ndof max_nd select dp. unfold from_pardofs. set (init := if 0 <? ndof then [[]] else []).
  destruct (Nat.ltb_spec 0 ndof) as [B|B].
  2:{ exists (fold_left (fun cl k => if negb (select k) then cl else match dp k with [] => cl | _ => if existsb (list_eqb (dp k)) (skipn 1 cl) then cl else cl ++ [dp k] end) (seq 0 max_nd) init). subst init. cbn [app]. split; auto. lia. }
  subst init. set (f := fun _ _ => _).
  enough (G : exists cl, fold_left f (seq 0 max_nd) [[]] = [] :: cl /\ NoDup cl /\ (forall d, In d cl <-> d <> [] /\ exists k, k < max_nd /\ select k = true /\ dp k = d) /\
    forall i j, i < j < length cl -> exists k, k < max_nd /\ select k = true /\ dp k = nth i cl [] /\ forall k', k' < max_nd -> select k' = true -> dp k' = nth j cl [] -> k < k').
  { destruct G as (cl & E & G1 & G2 & G3). exists cl. rewrite E. auto. }
  induction max_nd as [|m IH]. { exists []. cbn. split; auto. split. constructor. split; [|intros; lia]. intros d. split; [intros []|]. intros (_ & k & K & _). lia. }
  destruct IH as (cl & E & G1 & G2 & G3). rewrite seq_S, fold_left_app, E. cbn [fold_left Nat.add]. unfold f at 1. cbn [skipn].
  assert (OLD : (select m = true -> dp m = [] \/ In (dp m) cl) -> (forall d, In d cl <-> d <> [] /\ exists k, k < S m /\ select k = true /\ dp k = d) /\ forall i j, i < j < length cl -> exists k, k < S m /\ select k = true /\ dp k = nth i cl [] /\ forall k', k' < S m -> select k' = true -> dp k' = nth j cl [] -> k < k').
  { intros HO. split.
    - intros d. rewrite G2. split; (intros (Hn & k & K1 & K2 & K3); split; auto). exists k. split; auto. destruct (Nat.eq_dec k m) as [->|]; [|exists k; split; auto; lia]. destruct (HO K2) as [X|X]; [congruence|]. rewrite K3 in X. apply G2 in X. apply X.
    - intros i j Hij. destruct (G3 i j Hij) as (k & K1 & K2 & K3 & K4). exists k. split; [lia|]. split; auto. split; auto. intros k' K' S' D'. destruct (Nat.eq_dec k' m) as [->|]; [lia|]. apply K4; auto. lia. }
  destruct (select m) eqn:ES; cbn [negb]. 2:{ exists cl. split; auto. split; auto. apply OLD. discriminate. }
  destruct (dp m) as [|p d] eqn:ED. { exists cl. split; auto. }
  destruct (existsb (list_eqb (p :: d)) cl) eqn:EX. { apply exists_eqb in EX. exists cl. split; auto. }
  apply exists_eqb_false in EX. exists (cl ++ [p :: d]). split; auto. split. { apply nodup_app; auto. repeat constructor; auto. intros x X [<-|[]]. contradiction. } split.
  - intros d'. rewrite in_app_iff, G2. cbn [In]. split.
    + intros [(Hn & k & K1 & K2 & K3)|[<-|[]]]. split; auto. exists k. split; auto. split; [discriminate|]. exists m. auto.
    + intros (Hn & k & K1 & K2 & K3). destruct (Nat.eq_dec k m) as [->|]; [right; left; congruence|]. left. split; auto. exists k. split; auto. lia.
  - intros i j Hij. rewrite app_length in Hij. cbn in Hij. rewrite app_nth1 by lia. destruct (Nat.eq_dec j (length cl)) as [->|].
    + rewrite nth_middle. assert (X : In (nth i cl []) cl) by (apply nth_In; lia). apply G2 in X as (Hn & k & K1 & K2 & K3). exists k. split; [lia|]. split; auto. split; auto. intros k' K' S' D'. destruct (Nat.eq_dec k' m) as [->|]; auto. exfalso. apply EX. apply G2. split; [discriminate|]. exists k'. split; auto. lia.
    + rewrite app_nth1 by lia. destruct (G3 i j ltac:(lia)) as (k & K1 & K2 & K3 & K4). exists k. split; [lia|]. split; auto. split; auto. intros k' K' S' D'. destruct (Nat.eq_dec k' m) as [->|]; [lia|]. apply K4; auto. lia.
Qed.
(** The constructor from the nodes of several types looks up the first node of a known class with the type of the current node: classes get lost and appear twice *)
Theorem C65_from_mesh_refuted : exists nn dp nts, from_mesh nn dp nts = [[]; [1]; [1]] /\ In 1 nts /\ 0 < nn 1 /\ dp 1 0 = [1; 2].
Proof.
  exists (fun nt => if nt =? 0 then 1 else 2), (fun nt k => if nt =? 0 then [1] else if k =? 0 then [1; 2] else [1]), [0; 1]. vm_compute. auto.
Qed.

(** *** a non-trivial case: four ranks; {0,1,2}, {0,1,3} are shared, {0,1} arises by completion *)
Definition W4 : list (list (list nat)) := [[[]; [1; 3]; [1; 2]]; [[]; [0; 2]; [0; 3]]; [[]; [0; 1]]; [[]; [0; 1]]].
Lemma W4_ok : consistent W4.
Proof.
  apply consistent_tables. constructor.
  - intros r d Hr Hd. do 4 (destruct r as [|r]; [cbn in Hd; repeat (destruct Hd as [<-|Hd]; [split; [repeat constructor|split; [cbn; lia|intros q; cbn; lia]]|]); destruct Hd|]). cbn in Hr. lia.
  - intros r Hr. do 4 (destruct r as [|r]; [cbn; repeat constructor; cbn; intuition discriminate|]). cbn in Hr. lia.
  - intros r d q Hr Hd Hq. do 4 (destruct r as [|r]; [cbn in Hd; intuition (subst; cbn in Hq; intuition (subst; vm_compute; auto))|]). cbn in Hr. lia.
Qed.
Definition H4 : list (list (list nat)) := [[[]; [1]; [1; 2]; [1; 3]]; [[]; [0]; [0; 2]; [0; 3]]; [[]; [0; 1]]; [[]; [0; 1]]].
Example C43_ex : consistent W4 /\ EQCHierarchy W4 = Ret H4.
Proof. split; [exact W4_ok|]. vm_compute. reflexivity. Qed.
Example C41_ex : IsLEQ (nth 0 H4 []) 1 3 = Ret true /\ IsLEQ (nth 0 H4 []) 2 3 = Ret false /\ GetCommonEQC (nth 0 H4 []) 2 3 = Ret (Some 1) /\ GetMergedEQC (nth 0 H4 []) 2 3 = Ret None /\ GetMergedEQC (nth 0 H4 []) 1 3 = Ret (Some 3).
Proof. vm_compute. auto. Qed.
Example C42_ex : map (fun r => eqc_ids H4 r) [0; 1; 2; 3] = [Ret [1020; 1024; 1025; 1026]; Ret [1021; 1024; 1025; 1026]; Ret [1022; 1025]; Ret [1023; 1026]] /\ ScatterEQCData H4 [[10; 11; 12; 13]; [20; 21; 22; 23]; [30; 31]; [40; 41]] 3 = Ret [40; 13].
Proof. vm_compute. auto. Qed.
Example C65_ex : from_pardofs 5 5 (fun k => negb (k =? 1)) (fun k => nth k [[]; [7]; [1; 2]; [1]; [1; 2]] []) = [[]; [1; 2]; [1]].
Proof. reflexivity. Qed.
(** the reported number is wrong, and different on different ranks *)
Theorem C44_number_refuted : exists W H n, consistent W /\ EQCHierarchy W = Ret H /\ number_of_classes H n /\ neqcs_glob H 0 <> n /\ neqcs_glob H 0 <> neqcs_glob H 1.
Proof.
  destruct (C44_number_partial W4 W4_ok) as (H & n & E & HN & F). exists W4, H, n. split; [exact W4_ok|]. split; auto. split; auto. rewrite (proj2 C43_ex) in E. injection E as <-.
  rewrite (F 0), (F 1) by (cbn; lia). change (length (filter (no_local_class H4) (seq 0 (length H4)))) with 0. change (length (filter (owned 0) (nth 0 H4 []))) with 3. change (length (filter (owned 1) (nth 1 H4 []))) with 0. lia.
Qed.

Print Assumptions C41_order.
Print Assumptions C41_common.
Print Assumptions C41_merged.
Print Assumptions C41_find.
Print Assumptions C41_common_exists.
Print Assumptions C42_order.
Print Assumptions C42_ids.
Print Assumptions C42_of_id.
Print Assumptions C42_master.
Print Assumptions C42_scatter.
Print Assumptions C43_closed_under_intersection.
Print Assumptions C44_number_partial.
Print Assumptions C44_number_refuted.
Print Assumptions C65_from_dofs.
Print Assumptions C65_from_mesh_refuted.
