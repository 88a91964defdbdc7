(** C78 - C81: agglomeration by successive pairwise matching. *)
From Coq Require Import QArith.
From Verif Require Import Base SparseModel SparseProofs CtrProofs AuxModel AuxSpec AuxProofs CDataModel CDataSpec CDataProofs CDataProps CMapProps SPWModel SPWSpec SPWProofs SPWProofs2 SPWProofs3 SPWProofs4 SPWProofs5 SPWProofs6 SPWProofs7 SPWProofs8 SPWProofs9.
Local Open Scope nat_scope.

(** === C78: the neighbour picked for a vertex.  It is an eligible one of the largest score; none is picked only if none is eligible. *)
Theorem C78_choice : forall (c : config) (sorti : list Q -> list nat) (ini rob : nat -> Q) (crob cbig : nat -> Q -> bool)
    (allowed : nat -> res bool) (al : nat -> bool) (neibs : list nat), sorti_ok sorti -> config_ok c ->
  (forall n, In n neibs -> allowed n = Ret (al n)) ->
  exists r, FindNeib3Step c sorti ini rob crob cbig allowed neibs = Ret r /\ best_choice c ini rob crob cbig al neibs r.
Proof. exact FindNeib3Step_ok. Qed.
Print Assumptions C78_choice.

(** concrete sorting and lookup *)
Fixpoint kins (le : nat -> nat -> bool) (x : nat) (l : list nat) : list nat :=
  match l with [] => [x] | y :: t => if le x y then x :: y :: t else y :: kins le x t end.
Definition ksort (le : nat -> nat -> bool) (l : list nat) : list nat := fold_right (kins le) [] l.
Lemma perm_kins le x l : Permutation (kins le x l) (x :: l).
Proof. induction l as [|a l IH]; cbn; auto. destruct (le x a); auto. rewrite IH. apply perm_swap. Qed.
Lemma perm_ksort le l : Permutation (ksort le l) l.
Proof. induction l; cbn; auto. rewrite perm_kins. auto. Qed.
Lemma sorted_ksort (le : nat -> nat -> bool) (R : nat -> nat -> Prop) : (forall a b, le a b = true -> R a b) -> (forall a b, le a b = false -> R b a) ->
  (forall a b d, R a b -> R b d -> R a d) -> forall l, StronglySorted R (ksort le l).
Proof.
  intros H1 H2 H3. assert (G : forall x l, StronglySorted R l -> StronglySorted R (kins le x l)).
  { intros x. induction 1 as [|a l SS IH F]; cbn; [constructor; constructor|]. destruct (le x a) eqn:E.
    - constructor; [constructor; auto|]. constructor; auto. rewrite Forall_forall in *. intros y Hy. eauto.
    - constructor; auto. rewrite Forall_forall in *. intros y Hy. apply (Permutation_in _ (perm_kins le x l)) in Hy as [<-|Hy]; auto. }
  induction l; cbn; [constructor|auto].
Qed.
Definition ex_sorti (ws : list Q) : list nat := ksort (fun i j => Qle_bool (nth j ws 0%Q) (nth i ws 0%Q)) (seq 0 (length ws)).
Definition ex_sortd (f : nat -> nat) (l : list nat) : list nat := ksort (fun i j => f i <=? f j) l.
Fixpoint ex_find (l : list nat) (x : nat) : option nat :=
  match l with [] => None | y :: t => if x =? y then Some 0 else option_map S (ex_find t x) end.
Definition exO (ini : nat -> nat -> nat -> Q) : oracles := mkO ini (fun _ _ _ => 1%Q) (fun _ _ _ _ => true) (fun _ _ _ _ => true) ex_sorti ex_sortd ex_find.
Lemma ex_sorti_ok : sorti_ok ex_sorti.
Proof.
  intros ws. split; [apply perm_ksort|]. apply sorted_ksort.
  - intros a b H. now apply Qle_bool_iff.
  - intros a b H. apply Qlt_le_weak, Qnot_le_lt. intros X. apply Qle_bool_iff in X. congruence.
  - intros a b d X Y. eapply Qle_trans; eauto.
Qed.
Lemma exO_ok ini : oracles_ok (exO ini).
Proof.
  split; [apply ex_sorti_ok|]. split.
  - intros f l. split; [apply perm_ksort|]. apply (sorted_ksort (fun i j => f i <=? f j) (fun i j => f i <= f j)); [intros a b; apply Nat.leb_le|intros a b H; apply Nat.leb_gt in H; lia|intros; lia].
  - intros l x _. induction l as [|y l IH]; intros H; [destruct H|]. cbn [o_find exO ex_find]. destruct (Nat.eqb_spec x y) as [->|N]; [exists 0; auto|].
    destruct H as [H|H]; [congruence|]. destruct (IH H) as (p & E & Np). exists (S p). cbn [o_find exO] in E. rewrite E. auto.
Qed.

Definition exC : config := mkCfg false false (1 # 4) (1 # 10) (1 # 10).
Definition exCrob : config := mkCfg true true (1 # 4) (1 # 10) (1 # 10).
Definition ex_ini (j : nat) : Q := nth j [1 # 2; 1 # 1; 2 # 1; 1 # 5; 3 # 4]%Q 0%Q.
(** neighbour 12 (strength 2) is not allowed, 13 (1/5) is below a quarter of it, 11 (1) fails the check *)
Example C78_nonvacuous : config_ok exC /\ config_ok exCrob /\ sorti_ok ex_sorti /\
  FindNeib3Step exC ex_sorti ex_ini (fun _ => 1%Q) (fun j _ => negb (j =? 1)) (fun _ _ => true) (fun n => Ret (negb (n =? 12))) [10; 11; 12; 13; 14] = Ret (Some 14) /\
  FindNeib3Step exCrob ex_sorti ex_ini (fun j => nth j [3 # 10; 1 # 20; 1 # 2; 1 # 1; 1 # 5]%Q 0%Q) (fun _ _ => true) (fun _ _ => true) (fun n => Ret (negb (n =? 12))) [10; 11; 12; 13; 14] = Ret (Some 10) /\
  FindNeib3Step exC ex_sorti ex_ini (fun _ => 1%Q) (fun j _ => true) (fun _ _ => true) (fun n => Ret (n =? 13)) [10; 11; 12; 13; 14] = Ret None.
Proof. split; [split; vm_compute; congruence|]. split; [split; vm_compute; congruence|]. split; [apply ex_sorti_ok|]. vm_compute. auto. Qed.

(** "the strongest admissible neighbour is picked" fails for energies with scalar weights if the robust weights are used for
    picking: there the robust weight is the constant 1 (spw_agg_impl.hpp:807-817) *)
Theorem C78_scalar_robust_pick_refuted : exists (c : config) (sorti : list Q -> list nat) (ini : nat -> Q) (neibs : list nat) (n : nat) (i j : nat),
  config_ok c /\ sorti_ok sorti /\
  FindNeib3Step c sorti ini (fun _ => 1%Q) (fun _ _ => true) (fun _ _ => true) (fun _ => Ret true) neibs = Ret (Some n) /\
  nth_error neibs i = Some n /\ j < length neibs /\ (ini i < ini j)%Q.
Proof.
  exists exCrob, ex_sorti, ex_ini, [10; 11; 12; 13; 14], 10, 0, 2. split; [split; vm_compute; congruence|]. split; [apply ex_sorti_ok|]. vm_compute. repeat split; auto.
Qed.
Print Assumptions C78_scalar_robust_pick_refuted.

(** "a neighbour that is not allowed is never picked" fails if the edge threshold is not above -1 *)
Theorem C78_negative_threshold_refuted : exists (c : config) (sorti : list Q -> list nat) (ini : nat -> Q) (neibs : list nat) (n : nat),
  (0 <= scalRel c)%Q /\ sorti_ok sorti /\
  FindNeib3Step c sorti ini (fun _ => 1%Q) (fun _ _ => true) (fun _ _ => true) (fun _ => Ret false) neibs = Ret (Some n).
Proof.
  exists (mkCfg true false (1 # 4) (-1) (-1)), ex_sorti, ex_ini, [10; 11], 10. split; [vm_compute; congruence|]. split; [apply ex_sorti_ok|]. vm_compute. auto.
Qed.
Print Assumptions C78_negative_threshold_refuted.

(** === C79: the agglomerates.  No memory error.  Every vertex that takes part and every vertex of a fixed agglomerate is in exactly
    one agglomerate, no other vertex in any; the fixed agglomerates come last, unchanged; the others are connected, in
    ascending order, and without orphan round have at most 2^rounds members. *)
Theorem C79_agglomerates : forall (c : config) (O : oracles) (P : par_info) (I : input), oracles_ok O -> config_ok c -> input_ok P I ->
  exists aggs v2a new, FormAgglomerates c O P I = Ret (aggs, v2a) /\ map a_mems aggs = new ++ i_fixed I /\
    length v2a = m_nv (i_mesh I) /\
    (forall v k, target v2a v = Some k <-> exists a, nth_error aggs k = Some a /\ In v (a_mems a)) /\
    (forall v, (exists k, target v2a v = Some k) <-> takes_part P I v \/ In v (concat (i_fixed I))) /\
    (forall k a, nth_error aggs k = Some a -> a_id a = k /\ In (a_ctr a) (a_mems a)) /\
    (forall g, In g new -> g <> [] /\ StronglySorted lt g /\ (forall v, In v g -> takes_part P I v) /\
       connected (m_edges (i_mesh I)) (fun v => In v g) /\ (i_orphan I = false -> length g <= 2 ^ i_rounds I)).
Proof.
  intros c O P I HO HC HI. destruct (FormAgglomerates_ok c O P I HO HC HI) as (aggs & v2a & C & E & (G1 & G2 & G3) & M & (FB & FS)).
  assert (HI0 := HI). destruct HI0 as (HM & HCM & HF & HSo & ND & HFx & HNe & HR & HP).
  destruct (b_rows _ _ _ FB) as [RL RR].
  assert (GR : forall g, In g (map qsort (c_aggs C)) <-> exists A, A < c_n C /\ g = qsort (nth A (c_aggs C) [])).
  { intros g. rewrite in_map_iff. split.
    - intros (x & <- & Hx). apply In_nth with (d := []) in Hx as (A & HA & <-). exists A. rewrite <- RL. auto.
    - intros (A & HA & ->). exists (nth A (c_aggs C) []). split; auto. apply nth_In. lia. }
  assert (TV : forall v A, target (c_vmap C) v = Some A -> v < m_nv (i_mesh I) /\ A < c_n C).
  { intros v A T. apply (target_lt (c_n C)) in T; [|apply FB]. rewrite (b_len _ _ _ FB) in T. auto. }
  assert (TP : forall v, v < m_nv (i_mesh I) -> takes_part P I v <-> exists A, target (c_vmap C) v = Some A).
  { intros v Hv. pose proof (b_none _ _ _ FB v Hv) as N. destruct (init_handled_ok P I HI) as (h & _ & _ & Nh). specialize (Nh v Hv). split.
    - intros T. destruct (target (c_vmap C) v) as [A|]; [eauto|]. exfalso. now apply N.
    - intros (A & T). destruct (nth v h false) eqn:En; [|now apply Nh]. exfalso. assert (X : ~ takes_part P I v) by (intros X; apply Nh in X; congruence). apply N in X. congruence. }
  exists aggs, v2a, (map qsort (c_aggs C)). split; auto. split; auto. split; auto. split; auto. split; [|split].
  - intros v. split.
    + intros (k & Hk). apply G2 in Hk as (a & Ha & Hv). assert (Hm : In (a_mems a) (map a_mems aggs)) by (apply in_map; eapply nth_error_In; eauto). rewrite M in Hm. apply in_app_iff in Hm as [Hm|Hm].
      * left. apply GR in Hm as (A & HA & Em). rewrite Em in Hv. apply in_qsort, RR in Hv; auto. apply TP; eauto. now apply TV in Hv.
      * right. apply in_concat. eauto.
    + intros H. assert (X : exists g, In g (map a_mems aggs) /\ In v g).
      { rewrite M. destruct H as [H|H].
        - assert (Hv : v < m_nv (i_mesh I)) by apply H. apply (TP v Hv) in H as (A & T). destruct (TV v A T) as [_ HA]. exists (qsort (nth A (c_aggs C) [])).
          split; [apply in_app_iff; left; apply GR; eauto|]. apply in_qsort, RR; auto.
        - apply in_concat in H as (g & Hg & Hv). exists g. split; auto. apply in_app_iff; auto. }
      destruct X as (g & Hg & Hv). apply in_map_iff in Hg as (a & <- & Ha). apply In_nth_error in Ha as (k & Hk). exists k. apply G2. eauto.
  - intros k a Ha. destruct (G3 k a Ha) as (X & Y & _). auto.
  - intros g Hg. apply GR in Hg as (A & HA & ->). destruct (RR A HA) as [NDr IR].
    assert (Q : forall v, In v (qsort (nth A (c_aggs C) [])) <-> target (c_vmap C) v = Some A) by (intros v; rewrite in_qsort; apply IR).
    split; [|split; [|split; [|split]]].
    + intros Z. destruct (b_inh _ _ _ FB A HA) as (v & Tv). apply Q in Tv. rewrite Z in Tv. destruct Tv.
    + apply sorted_lt_of_le; [apply sorted_qsort|]. apply (Permutation_NoDup (Permutation_sym (perm_qsort _))). auto.
    + intros v Hv. apply Q in Hv. apply TP; eauto. now apply TV in Hv.
    + eapply connected_iff; [|apply (b_conn _ _ _ FB A HA)]. intros x. cbn beta. now rewrite Q.
    + intros OR. destruct (FS OR) as [S _]. specialize (S A HA). rewrite (Permutation_length (perm_qsort _)). rewrite OR, Nat.add_0_r in S. exact S.
Qed.
Print Assumptions C79_agglomerates.

(** a path of eight vertices: 7 is not free, 5 and 6 form a fixed agglomerate, vertex 8 is isolated *)
Definition ex_edges : list (nat * nat) := [(0, 1); (1, 2); (2, 3); (3, 4); (4, 5); (5, 6); (6, 7)].
Definition ex_econ (n : nat) (es : list (nat * nat)) : smat nat := map (fun v => bucket (econ_items es) v) (seq 0 n).
Definition exMesh : lmesh := mkMesh 9 ex_edges (ex_econ 9 ex_edges).
Definition exSer : par_info := mkPar false (fun _ _ => true) (fun _ => true) None.
Definition exI (rounds : nat) (orphan : bool) : input :=
  mkIn exMesh [seq 0 9] (repeat 0 9) (Some [true; true; true; true; true; true; true; false; true]) [[5; 6]] None rounds orphan.
Fixpoint asc (l : list nat) : bool := match l with a :: (b :: _) as t => (a <=? b) && asc t | _ => true end.
Lemma asc_ok l : asc l = true -> StronglySorted le l.
Proof.
  intros H. apply Sorted_StronglySorted; [intros x y z; lia|]. induction l as [|a l IH]; [constructor|]. destruct l as [|b l]; [repeat constructor|].
  cbn [asc] in H. apply andb_true_iff in H as [H1 H2]. constructor; [auto|]. constructor. now apply Nat.leb_le.
Qed.
Lemma mesh_ok_by_test n es : forallb (fun p : nat * nat => (fst p <? n) && (snd p <? n) && negb (fst p =? snd p)) es = true ->
  forallb (fun v => asc (map fst (bucket (econ_items es) v))) (seq 0 n) = true -> mesh_ok (mkMesh n es (ex_econ n es)).
Proof.
  intros H1 H2. rewrite forallb_forall in H1, H2. split; [|split]; cbn [m_nv m_edges m_econ].
  - intros a b Hi. specialize (H1 _ Hi). cbn in H1. rewrite !andb_true_iff, negb_true_iff in H1. destruct H1 as ((A & B) & D). apply Nat.ltb_lt in A, B. apply Nat.eqb_neq in D. auto.
  - unfold ex_econ. now rewrite map_length, seq_length.
  - intros v Hv. unfold ex_econ. rewrite (nth_map_seq (fun v => bucket (econ_items es) v)) by auto. split; [apply asc_ok, H2, in_seq; lia|].
    intros w e. rewrite <- (in_econ_items es v w e). apply in_bucket.
Qed.
Definition in_class (classes : list (list nat)) (q v : nat) : bool := existsb (Nat.eqb v) (nth q classes []).
Lemma classes_by_test NV classes veq : length veq = NV -> forallb (fun v => in_class classes (nth v veq 0) v) (seq 0 NV) = true ->
  forallb (fun q => forallb (fun v => (v <? NV) && (nth v veq 0 =? q)) (nth q classes [])) (seq 0 (length classes)) = true -> NoDup (concat classes) -> classes_match NV classes veq.
Proof.
  intros L H1 H2 ND. rewrite forallb_forall in H1, H2. split; auto. split; [|split; auto].
  - intros v Hv. specialize (H1 v ltac:(apply in_seq; lia)). apply existsb_exists in H1 as (x & Hx & E). apply Nat.eqb_eq in E. now subst.
  - intros q v Hi. destruct (Nat.lt_ge_cases q (length classes)) as [Hq|Hq]; [|rewrite nth_overflow in Hi by auto; destruct Hi].
    specialize (H2 q ltac:(apply in_seq; lia)). rewrite forallb_forall in H2. specialize (H2 v Hi). apply andb_true_iff in H2 as [A B]. apply Nat.ltb_lt in A. apply Nat.eqb_eq in B. auto.
Qed.
Ltac nodup := repeat constructor; cbn; intuition congruence.
Lemma exI_ok r b : 1 <= r -> input_ok exSer (exI r b).
Proof.
  intros Hr. split; [apply mesh_ok_by_test; reflexivity|]. split; [apply classes_by_test; try reflexivity; nodup|].
  split; [intros f [= <-]; reflexivity|]. split; [discriminate|]. split; [nodup|]. split; [cbn; intuition lia|]. split; [intros a [<-|[]]; discriminate|]. split; [auto|discriminate].
Qed.
Definition exW : oracles := exO (fun _ _ _ => 1%Q).
Example C79_nonvacuous : oracles_ok exW /\ config_ok exC /\ input_ok exSer (exI 1 false) /\ input_ok exSer (exI 1 true) /\
  FormAgglomerates exC exW exSer (exI 1 false) = Ret ([mkAgg 0 3 [3; 4]; mkAgg 1 1 [1; 2]; mkAgg 2 0 [0]; mkAgg 3 5 [5; 6]], [2; 1; 1; 0; 0; 3; 3; -1; -1]%Z) /\
  exists a v, FormAgglomerates exC exW exSer (exI 1 true) = Ret (a, v) /\ map a_mems a = [[3; 4]; [0; 1; 2]; [5; 6]].
Proof.
  split; [apply exO_ok|]. split; [split; vm_compute; congruence|]. split; [apply exI_ok; lia|]. split; [apply exI_ok; lia|]. split; [vm_compute; reflexivity|].
  eexists. eexists. split; [vm_compute; reflexivity|]. vm_compute. reflexivity.
Qed.

(** "the agglomerates are formed for every valid input" fails on a process of a parallel run that has no vertex in common with
    another process: with one class only, the classes of the coarse vertices stay empty and are read in the second round *)
Theorem C79_no_shared_vertex_refuted : exists (c : config) (O : oracles) (P : par_info) (I : input),
  oracles_ok O /\ config_ok c /\ truly_par P = true /\ length (i_classes I) = 1 /\ order_ok P /\
  input_ok (mkPar false (leq P) (master P) (solid P)) I /\ FormAgglomerates c O P I = Err OutOfBounds.
Proof.
  exists exC, exW, (mkPar true (fun a b => a <=? b) (fun _ => true) None), (exI 2 false). split; [apply exO_ok|]. split; [split; vm_compute; congruence|]. split; auto. split; auto.
  split; [|split; [apply (exI_ok 2 false); lia|vm_compute; reflexivity]].
  split; [intros a; apply Nat.leb_refl|]. split; [intros a b d; cbn [leq]; rewrite !Nat.leb_le; lia|]. split; [intros a b; cbn [leq]; rewrite !Nat.leb_le; lia|reflexivity].
Qed.
Print Assumptions C79_no_shared_vertex_refuted.

(** === C80: the graph between two rounds.  Two coarse vertices are joined exactly when an edge joins members of their classes; the
    rows of its edge connectivity are ascending and hold exactly its edges; edges are mapped to an edge joining the images of
    their ends exactly when these are different. *)
Theorem C80_intermediate_graph : forall (find : list nat -> nat -> option nat) (M : lmesh) (NC : nat) (vmap : list Z),
  find_ok find -> mesh_ok M -> length vmap = m_nv M -> map_into NC vmap ->
  exists c2f M' emap, FinishUp find M NC vmap = Ret (c2f, M', emap) /\ m_nv M' = NC /\ mesh_ok M' /\
    (forall A, A < NC -> nth A c2f [] = filter (fun v => hits (target vmap v) A) (seq 0 (m_nv M))) /\
    (forall A B, adjacent (m_edges M') A B <-> A <> B /\ exists a b, adjacent (m_edges M) a b /\ target vmap a = Some A /\ target vmap b = Some B) /\
    (forall A B, In (A, B) (m_edges M') -> A < B) /\
    maps_fit (m_nv M) NC (length (m_edges M')) (m_edges M) (m_edges M') vmap emap.
Proof.
  intros find M NC vmap HF HM HL HI. destruct (FinishUp_ok M HM NC vmap HL HI find HF) as (c2f & ce & econ & emap & E1 & E2 & E3 & E4 & E5 & E6 & _).
  exists c2f, (mkMesh NC ce econ), emap. split; auto. split; auto. split; auto. split; auto. destruct (C76_reverse_map NC vmap HI) as (t & Et & _ & Rt). rewrite HL in Rt. intros A HA. rewrite <- Rt by auto. f_equal. congruence.
Qed.
Print Assumptions C80_intermediate_graph.

Lemma filter_first A rows : forall s, filter (fun p : nat * nat => fst p =? A) (concat (map (fun cr : nat * list nat => map (fun d => (fst cr, d)) (snd cr)) (combine (seq s (length rows)) rows))) =
  if (s <=? A) && (A <? s + length rows) then map (fun d => (A, d)) (nth (A - s) rows []) else [].
Proof.
  induction rows as [|r rows IH]; intros s.
  - cbn [length seq combine map concat filter]. destruct (_ && _); [|reflexivity]. now destruct (A - s).
  - cbn [length seq combine map concat fst snd]. rewrite filter_app, IH.
    assert (F : filter (fun p : nat * nat => fst p =? A) (map (fun d => (s, d)) r) = if s =? A then map (fun d => (A, d)) r else []).
    { clear IH. induction r as [|x r IHr]; cbn [map filter fst]; [now destruct (s =? A)|]. rewrite IHr. destruct (Nat.eqb_spec s A) as [E0|E0]; auto. now rewrite E0. }
    rewrite F. destruct (Nat.eqb_spec s A) as [E0|N].
    + subst A. rewrite Nat.leb_refl, Nat.sub_diag. destruct (Nat.leb_spec (S s) s); [lia|]. destruct (Nat.ltb_spec s (s + S (length rows))); [|lia]. cbn. now rewrite app_nil_r.
    + destruct (Nat.leb_spec s A), (Nat.leb_spec (S s) A); try lia; auto. replace (s + S (length rows)) with (S s + length rows) by lia. cbn [andb app].
      destruct (A <? S s + length rows); auto. replace (A - s) with (S (A - S s)) by lia. reflexivity.
Qed.
Lemma filter_pos {T} (f : T -> bool) l x : NoDup (filter f l) -> f x = true -> forall i j, nth_error l i = Some x -> nth_error l j = Some x -> i = j.
Proof.
  intros ND Hx. induction l as [|y l IH]; intros [|i] [|j] Hi Hj; cbn in *; try discriminate; auto.
  - exfalso. injection Hi as ->. rewrite Hx in ND. inversion ND; subst. apply H1. apply filter_In. split; auto. eapply nth_error_In; eauto.
  - exfalso. injection Hj as ->. rewrite Hx in ND. inversion ND; subst. apply H1. apply filter_In. split; auto. eapply nth_error_In; eauto.
  - f_equal. apply IH; auto. destruct (f y); auto. now inversion ND.
Qed.
(** "every edge of that graph is listed once" holds for edges whose first end has a class of at least two members *)
Theorem C80_edges_once_partial : forall (find : list nat -> nat -> option nat) (M : lmesh) (NC : nat) (vmap : list Z) c2f M' emap,
  find_ok find -> mesh_ok M -> length vmap = m_nv M -> map_into NC vmap -> FinishUp find M NC vmap = Ret (c2f, M', emap) ->
  forall A B, length (nth A c2f []) <> 1 -> forall e e', nth_error (m_edges M') e = Some (A, B) -> nth_error (m_edges M') e' = Some (A, B) -> e = e'.
Proof.
  intros find M NC vmap c2f M' emap HF HM HL HI E A B HA e e' He He'. destruct (FinishUp_ok M HM NC vmap HL HI find HF) as (c2f' & ce & econ & emap' & E1 & E2 & E3 & E4 & E5 & E6 & (rows & LR & Ece & RS)).
  rewrite E in E1. injection E1 as -> -> ->. cbn [m_edges] in *. apply (filter_pos (fun p : nat * nat => fst p =? A) ce (A, B)); auto; [|cbn; apply Nat.eqb_refl].
  rewrite Ece. unfold numbered. rewrite filter_first. cbn [Nat.leb andb plus]. destruct (Nat.ltb_spec A (length rows)); [|constructor]. rewrite Nat.sub_0_r. rewrite LR in H.
  specialize (RS A H HA). clear - RS. induction RS as [|a l SS IH F]; cbn; constructor; auto. intros X. apply in_map_iff in X as (d & [= ->] & Hd). rewrite Forall_forall in F. specialize (F a Hd). lia.
Qed.
Print Assumptions C80_edges_once_partial.

(** a triangle; vertex 2 finds no partner, 0 and 1 are matched *)
Definition exTri : lmesh := mkMesh 3 [(0, 1); (0, 2); (1, 2)] (ex_econ 3 [(0, 1); (0, 2); (1, 2)]).
Definition exO2 : oracles := mkO (fun _ _ _ => 1%Q) (fun _ _ _ => 1%Q) (fun _ v _ _ => negb (v =? 2)) (fun _ _ _ _ => true) ex_sorti ex_sortd ex_find.
Theorem C80_edges_once_refuted : exists (c : config) (O : oracles) (P : par_info) (M : lmesh) ms c2f M' emap,
  oracles_ok O /\ config_ok c /\ mesh_ok M /\ truly_par P = false /\
  (forall e e' a b, nth_error (m_edges M) e = Some (a, b) -> nth_error (m_edges M) e' = Some (a, b) -> e = e') /\
  PairingIteration c O P 0 true (m_econ M) (repeat 0 3) [2; 1; 0] (repeat (-1)%Z 3) (repeat false 3) = Ret ms /\
  FinishUp (o_find O) M (cnt ms) (vm ms) = Ret (c2f, M', emap) /\ m_edges M' = [(0, 1); (0, 1)].
Proof.
  exists exC, exO2, exSer, exTri, (mkMst [1; 1; 0]%Z [true; true; true] 2), [[2]; [0; 1]], (mkMesh 2 [(0, 1); (0, 1)] [[(1, 0); (1, 1)]; [(0, 0); (0, 1)]]), [-1; 0; 0]%Z.
  split; [exact (exO_ok (fun _ _ _ => 1%Q))|]. split; [split; vm_compute; congruence|]. split; [apply mesh_ok_by_test; reflexivity|]. split; auto. split; [|split; [vm_compute; reflexivity|split; [vm_compute; reflexivity|reflexivity]]].
  intros e e' a b H1 H2. cbn [exTri m_edges] in *. apply (proj1 (NoDup_nth_error [(0, 1); (0, 2); (1, 2)])); [nodup| |congruence].
  apply nth_error_Some. congruence.
Qed.
Print Assumptions C80_edges_once_refuted.

Example C80_nonvacuous : find_ok ex_find /\ mesh_ok exMesh /\ map_into 3 [2; 1; 1; 0; 0; -1; -1; -1; -1]%Z /\
  exists c2f M' emap, FinishUp ex_find exMesh 3 [2; 1; 1; 0; 0; -1; -1; -1; -1]%Z = Ret (c2f, M', emap) /\ m_edges M' = [(0, 1); (1, 2)] /\ emap = [1; -1; 0; -1; -1; -1; -1]%Z.
Proof.
  split; [apply (exO_ok (fun _ _ _ => 1%Q))|]. split; [apply mesh_ok_by_test; reflexivity|]. split; [intros z Hz; cbn in Hz; intuition lia|].
  eexists. eexists. eexists. split; [vm_compute; reflexivity|]. vm_compute. auto.
Qed.

(** === C81: the processes of an agglomerate.  Without orphan round the class of the centre lies above the classes of all members:
    every process that shares any member shares the centre. *)
Theorem C81_centre_on_top_partial : forall (c : config) (O : oracles) (P : par_info) (I : input) aggs v2a,
  oracles_ok O -> config_ok c -> input_ok P I -> order_ok P -> truly_par P = true -> i_orphan I = false ->
  FormAgglomerates c O P I = Ret (aggs, v2a) ->
  forall k a, nth_error aggs k = Some a -> k + length (i_fixed I) < length aggs ->
  forall v, In v (a_mems a) -> leq P (nth v (i_veq I) 0) (nth (a_ctr a) (i_veq I) 0) = true.
Proof.
  intros c O P I aggs v2a HO HC HI OO TP OR E k a Ha Hk. destruct (FormAgglomerates_ok c O P I HO HC HI) as (aggs' & v2a' & C & E' & (G1 & G2 & G3) & M & (FB & FS)).
  rewrite E in E'. injection E' as <- <-. destruct (G3 k a Ha) as (_ & _ & TT). apply TT; auto. destruct (b_rows _ _ _ FB) as [RL RR].
  assert (LM := f_equal (@length _) M). rewrite map_length, app_length, map_length in LM. assert (HA : k < c_n C) by (rewrite <- RL; lia).
  assert (EM : a_mems a = qsort (nth k (c_aggs C) [])).
  { assert (X : nth_error (map a_mems aggs) k = Some (a_mems a)) by (rewrite nth_error_map, Ha; reflexivity). rewrite M, nth_error_app1, nth_error_map, (nth_error_nth' _ []) in X by (rewrite ?map_length; lia). cbn in X. congruence. }
  destruct (FS OR) as [_ TOP]. destruct (TOP TP OO k HA) as (t & Tt & Tu). exists t. rewrite EM. split; [apply in_qsort, RR; auto|]. intros u Hu. apply in_qsort, RR in Hu; auto.
Qed.
Print Assumptions C81_centre_on_top_partial.

(** four vertices in a star around vertex 0: 0, 1 local, 2 shared with one process, 3 with another.  2 and 3 find no partner in the first
    round and join {0, 1} in the orphan round. *)
Definition exStar : lmesh := mkMesh 4 [(0, 1); (0, 2); (0, 3)] (ex_econ 4 [(0, 1); (0, 2); (0, 3)]).
Definition exP3 : par_info := mkPar true (fun a b => (a =? 0) || (a =? b)) (fun _ => true) None.
Definition exO3 : oracles := mkO (fun _ _ _ => 1%Q) (fun _ _ _ => 1%Q) (fun r v _ _ => (0 <? r) || (v <? 2)) (fun _ _ _ _ => true) ex_sorti ex_sortd ex_find.
Definition exI3 (orphan : bool) : input := mkIn exStar [[0; 1]; [2]; [3]] [0; 0; 1; 2] None [] None 1 orphan.
Lemma exP3_order : order_ok exP3.
Proof.
  split; [intros a; cbn; rewrite Nat.eqb_refl, orb_true_r; auto|]. split.
  - intros a b d. cbn. rewrite !orb_true_iff, !Nat.eqb_eq. intuition congruence.
  - split; [|reflexivity]. intros a b. cbn. rewrite !orb_true_iff, !Nat.eqb_eq. intuition congruence.
Qed.
Lemma exI3_ok b : input_ok exP3 (exI3 b).
Proof.
  split; [apply mesh_ok_by_test; reflexivity|]. split; [apply classes_by_test; try reflexivity; nodup|]. split; [discriminate|]. split; [discriminate|]. split; [constructor|].
  split; [intros v []|]. split; [intros a []|]. split; [cbn; lia|]. intros _. cbn. lia.
Qed.
Theorem C81_orphan_round_refuted : exists (c : config) (O : oracles) (P : par_info) (I : input) aggs v2a k a u w,
  oracles_ok O /\ config_ok c /\ input_ok P I /\ order_ok P /\ truly_par P = true /\ i_orphan I = true /\
  FormAgglomerates c O P I = Ret (aggs, v2a) /\ nth_error aggs k = Some a /\ k + length (i_fixed I) < length aggs /\ In u (a_mems a) /\ In w (a_mems a) /\
  forall t, leq P (nth u (i_veq I) 0) t = true -> leq P (nth w (i_veq I) 0) t = true -> False.
Proof.
  exists exC, exO3, exP3, (exI3 true), [mkAgg 0 2 [0; 1; 2; 3]], [0; 0; 0; 0]%Z, 0, (mkAgg 0 2 [0; 1; 2; 3]), 2, 3.
  split; [exact (exO_ok (fun _ _ _ => 1%Q))|]. split; [split; vm_compute; congruence|]. split; [apply exI3_ok|]. split; [apply exP3_order|]. split; auto. split; auto. split; [vm_compute; reflexivity|].
  split; auto. split; [cbn; lia|]. split; [cbn; auto|]. split; [cbn; auto|]. intros t. cbn [leq exP3 i_veq exI3 nth]. rewrite !orb_true_iff, !Nat.eqb_eq. intuition congruence.
Qed.
Print Assumptions C81_orphan_round_refuted.
Definition exO4 : oracles := exO (fun _ _ _ => 1%Q).
Example C81_nonvacuous : oracles_ok exO4 /\ config_ok exC /\ input_ok exP3 (exI3 false) /\ order_ok exP3 /\
  FormAgglomerates exC exO4 exP3 (exI3 false) = Ret ([mkAgg 0 3 [0; 3]; mkAgg 1 2 [2]; mkAgg 2 1 [1]], [0; 2; 1; 0]%Z).
Proof. split; [apply exO_ok|]. split; [split; vm_compute; congruence|]. split; [apply exI3_ok|]. split; [apply exP3_order|]. vm_compute. reflexivity. Qed.
