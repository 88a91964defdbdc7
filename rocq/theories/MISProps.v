(** Properties C46 (agglomerates partition the free vertices) and C47 (Dirichlet vertices). *)
From Verif Require Import Base MISModel MISProofs.
Local Open Scope nat_scope.

(** [v] lies in agglomerate number [k] *)
Definition inside (ags : list agg) (v k : nat) : Prop := exists a, nth_error ags k = Some a /\ In v (mems a).
(** what the graph says about a vertex: belongs to this rank; is left to another rank; Dirichlet; in a given agglomerate; takes part in the agglomeration *)
Definition own (G : graph) (v : nat) : Prop := match solid G with Some b => nth v b false = true | None => master G (nth v (eqc G) 0) = true end.
Definition others (G : graph) (v : nat) : Prop := match solid G with Some b => 0 < nth v (eqc G) 0 /\ nth v b false = false | None => master G (nth v (eqc G) 0) = false end.
Definition diri (G : graph) (v : nat) : Prop := exists f, free G = Some f /\ nth v f false = false.
Definition given (G : graph) (v : nat) : Prop := exists f, In f (fixed G) /\ In v f.
Definition takes_part (G : graph) (v : nat) : Prop := ~ others G v /\ ~ diri G v /\ ~ given G v.
Lemma own_ok G v : own G v <-> mine G v = true.
Proof. unfold own, mine. destruct (solid G); tauto. Qed.
Lemma others_ok G v : others G v <-> foreign G v = true.
Proof. unfold others, foreign. destruct (solid G). rewrite Bool.andb_true_iff, Bool.negb_true_iff, Nat.ltb_lt. tauto. now rewrite Bool.negb_true_iff. Qed.
Lemma diri_ok G v : diri G v <-> dirichlet G v = true.
Proof. unfold diri, dirichlet. destruct (free G) as [f|]. rewrite Bool.negb_true_iff. split; [intros (g & [= <-] & H); auto|eauto]. split; [intros (g & [=] & _)|discriminate]. Qed.
Lemma given_ok G v : given G v <-> is_fixed G v = true.
Proof. unfold given. now rewrite in_fixed, in_concat. Qed.
Lemma part_ok G v : takes_part G v <-> blocked G v = false.
Proof. unfold takes_part, blocked. rewrite others_ok, diri_ok, given_ok. destruct (is_fixed G v), (foreign G v), (dirichlet G v); cbn; intuition congruence. Qed.
(** [h] hangs on [N]: [N] is its only neighbour, both belong to this rank, [h] takes part in the agglomeration and may be joined to [N] *)
Definition hangs_on (G : graph) (h N : nat) : Prop :=
  h < NV G /\ nth h (adj G) [] = [N] /\ takes_part G h /\ own G h /\ own G N /\ leq G (nth h (eqc G) 0) (nth N (eqc G) 0) = true.

(** the given agglomerates are non-empty, disjoint, and nothing hangs on their members *)
Definition given_agglomerates_ok (G : graph) : Prop :=
  (forall f, In f (fixed G) -> f <> [] /\ forall v, In v f -> v < NV G) /\ NoDup (concat (fixed G)) /\ (forall h N, hangs_on G h N -> ~ given G N).
Lemma given_aggs G : given_agglomerates_ok G <-> fixed_ok G.
Proof.
  split.
  - intros (H1 & H2 & H3). constructor; auto. intros f Hf. now apply H1. intros f v Hf. now apply H1. intros w v X1 X2 X3 X4 X5 X6. apply Bool.not_true_iff_false. rewrite <- given_ok. apply (H3 w).
    unfold hangs_on. rewrite part_ok, !own_ok. auto 10.
  - intros [F1 F2 F3 F4]. split; [|split]; auto. intros f Hf. split; [now apply F1|intros v; now apply F2]. intros h N (X1 & X2 & X3 & X4 & X5 & X6). rewrite given_ok. apply Bool.not_true_iff_false. apply part_ok in X3. apply own_ok in X4, X5. now apply (F4 h).
Qed.

(** C46. For every graph, every sequence of answers of the strength of connection and every order of the sorted candidates, and disjoint fixed agglomerates on which nothing hangs:
    the agglomeration terminates without out of bounds access; no vertex is in two agglomerates; each of my non-Dirichlet vertices is in one; the vertex-to-agglomerate map is the
    inverse of the member lists; the members are sorted and contain the centre; apart from the fixed agglomerates (which are returned as given, at the end) the agglomerates are connected
    and their members' equivalence classes are below the centre's. *)
Theorem C46_partition_partial : forall O G, oracle_ok O -> graph_ok G -> given_agglomerates_ok G ->
  exists ags va, FormAgglomerates O G = Ret (ags, va) /\ length va = NV G /\
    (forall v k, nth v va None = Some k <-> inside ags v k) /\
    (forall v k k', inside ags v k -> inside ags v k' -> k = k') /\
    (forall v, v < NV G -> own G v -> ~ diri G v -> exists k, inside ags v k) /\
    (forall a, In a ags -> In (ctr a) (mems a) /\ StronglySorted lt (mems a)) /\
    (forall i f, nth_error (fixed G) i = Some f -> exists a, nth_error ags (length ags - length (fixed G) + i) = Some a /\ ctr a = hd 0 f /\ Permutation (mems a) f) /\
    (forall a v, In a (firstn (length ags - length (fixed G)) ags) -> In v (mems a) -> path G (mems a) (ctr a) v /\ leq G (nth v (eqc G) 0) (nth (ctr a) (eqc G) 0) = true).
Proof.
  intros O G HO HG HF. apply given_aggs in HF. destruct (form_ok O G HO HG HF) as (ag & fx & va & E & (CL & CC & CA) & L & PF & PA & PM & _).
  exists (ag ++ fx), va. split; auto. split; auto. split; [exact CC|]. split.
  { intros v k k' H1 H2. apply CC in H1, H2. congruence. }
  split. { intros v H1 H2 H3. apply own_ok in H2. rewrite diri_ok in H3. apply Bool.not_true_iff_false in H3. specialize (PM v H1 H2 H3). destruct (nth v va None) as [k|] eqn:EV; [|contradiction]. exists k. now apply CC. }
  split. { intros a Ha. destruct (CA a Ha). auto. }
  rewrite app_length, L. replace (length ag + length (fixed G) - length (fixed G)) with (length ag) by lia. split.
  - intros i f Hf. assert (Hi : i < length fx) by (rewrite L; apply nth_error_Some; congruence). destruct (nth_error fx i) as [a|] eqn:Ea; [|apply nth_error_None in Ea; lia].
    exists a. rewrite nth_error_app2 by lia. replace (length ag + i - length ag) with i by lia. split; auto. destruct (PF i a Ea) as (X & Y). rewrite (nth_error_nth _ _ _ Hf) in X, Y. auto.
  - intros a v Ha Hv. rewrite firstn_app, Nat.sub_diag, firstn_all, firstn_O, app_nil_r in Ha. destruct (PA a Ha v Hv) as (X & Y & _). auto.
Qed.

(** without fixed agglomerates on one rank: every vertex that is not Dirichlet is in exactly one agglomerate *)
Theorem C46_serial : forall O G, oracle_ok O -> graph_ok G -> fixed G = [] -> solid G = None -> (forall e, master G e = true) ->
  exists ags va, FormAgglomerates O G = Ret (ags, va) /\
    (forall v, v < NV G -> ~ diri G v -> exists! k, inside ags v k) /\
    (forall v k k', inside ags v k -> inside ags v k' -> k = k').
Proof.
  intros O G HO HG HF HS HM.
  assert (FO : fixed_ok G). { constructor. rewrite HF; intros f []. rewrite HF; intros f v []. rewrite HF; constructor. intros; unfold is_fixed; now rewrite HF. }
  apply given_aggs in FO. destruct (C46_partition_partial O G HO HG FO) as (ags & va & E & _ & _ & U & X & _). exists ags, va. split; auto. split; auto.
  intros v Hv HD. destruct (X v Hv) as (k & Hk); auto. unfold own. now rewrite HS, HM. exists k. split; auto. intros k' Hk'. now apply (U v).
Qed.

(** vertices of other ranks are left to their masters (unless they are in a fixed agglomerate) *)
Theorem C46_foreign : forall O G, oracle_ok O -> graph_ok G -> given_agglomerates_ok G -> exists ags va, FormAgglomerates O G = Ret (ags, va) /\
  forall v k, others G v -> ~ given G v -> ~ inside ags v k.
Proof.
  intros O G HO HG HF. apply given_aggs in HF. destruct (form_ok O G HO HG HF) as (ag & fx & va & E & _ & L & PF & PA & _). exists (ag ++ fx), va. split; auto.
  intros v k HFo HFi (a & Ha & Hv). apply others_ok in HFo. rewrite given_ok in HFi. apply Bool.not_true_iff_false in HFi. destruct (Nat.lt_ge_cases k (length ag)) as [Hk|Hk].
  - rewrite nth_error_app1 in Ha by auto. destruct (PA a (nth_error_In _ _ Ha) v Hv) as (_ & _ & [B|(M & _)]). unfold blocked in B. rewrite HFo, Bool.orb_true_r in B. discriminate.
    apply foreign_mine in HFo. congruence.
  - rewrite nth_error_app2 in Ha by auto. destruct (PF _ a Ha) as (_ & P). apply (Permutation_in _ P) in Hv. apply Bool.not_true_iff_false in HFi. apply HFi. apply in_fixed. apply in_concat. exists (nth (k - length ag) (fixed G) []). split; auto.
    apply nth_In. rewrite <- L. apply nth_error_Some. congruence.
Qed.

(** C47. Which Dirichlet vertices are agglomerated (outside of fixed agglomerates): exactly those on which some vertex hangs. *)
Theorem C47_dirichlet_partial : forall O G, oracle_ok O -> graph_ok G -> given_agglomerates_ok G -> exists ags va, FormAgglomerates O G = Ret (ags, va) /\
  forall v, v < NV G -> diri G v -> ~ given G v -> ((exists k, inside ags v k) <-> exists h, hangs_on G h v).
Proof.
  intros O G HO HG HF. apply given_aggs in HF. destruct (form_ok O G HO HG HF) as (ag & fx & va & E & (CL & CC & CA) & L & PF & PA & PM & PH). exists (ag ++ fx), va. split; auto.
  intros v Hv HD HX. apply diri_ok in HD. rewrite given_ok in HX. apply Bool.not_true_iff_false in HX. split.
  - intros (k & a & Ha & Hin). destruct (Nat.lt_ge_cases k (length ag)) as [Hk|Hk].
    + rewrite nth_error_app1 in Ha by auto. destruct (PA a (nth_error_In _ _ Ha) v Hin) as (_ & _ & [B|(M & w & W1 & W2 & W3 & W4 & W5)]). unfold blocked in B. rewrite HD, !Bool.orb_true_r in B. discriminate.
      exists w. unfold hangs_on. rewrite part_ok, !own_ok. auto 10.
    + rewrite nth_error_app2 in Ha by auto. destruct (PF _ a Ha) as (_ & P). apply (Permutation_in _ P) in Hin. apply Bool.not_true_iff_false in HX. destruct HX. apply in_fixed. apply in_concat. exists (nth (k - length ag) (fixed G) []). split; auto.
      apply nth_In. rewrite <- L. apply nth_error_Some. congruence.
  - intros (h & H1 & H2 & H3 & H4 & H5 & H6). apply part_ok in H3. apply own_ok in H4, H5. specialize (PH h v H1 H2 H3 H4 H5 H6). destruct (nth v va None) as [k|] eqn:EV; [|contradiction]. exists k. now apply CC.
Qed.

(** two vertices, one edge; vertex 1 is Dirichlet *)
Definition G2 : graph := mkGraph 2 [[1]; [0]] [0; 0] (fun _ _ => true) (fun _ => true) None (Some [true; false]) [] false.
Lemma G2_ok : graph_ok G2.
Proof.
  constructor; cbn; auto; try discriminate.
  - intros [|[|v]] H; cbn; split; try lia; try (repeat constructor; cbn; tauto); intros w [<-|[]]; lia.
  - intros [|[|v]] w H; cbn; try lia; intros [<-|[]]; cbn; auto.
  - intros b [= <-]. reflexivity.
Qed.
Theorem C47_dirichlet_refuted : graph_ok G2 /\ diri G2 1 /\ forall O, oracle_ok O -> exists ags va, FormAgglomerates O G2 = Ret (ags, va) /\ exists k, inside ags 1 k.
Proof.
  split; [exact G2_ok|]. split; [exists [true; false]; auto|]. intros O HO.
  assert (FO : fixed_ok G2). { constructor. intros f []. intros f v []. constructor. reflexivity. }
  apply given_aggs in FO. destruct (C47_dirichlet_partial O G2 HO G2_ok FO) as (ags & va & E & H). exists ags, va. split; auto.
  destruct (H 1) as (_ & H1). cbn; lia. exists [true; false]; auto. intros (f & [] & _). apply H1. exists 0. unfold hangs_on. rewrite part_ok. cbn. repeat split; auto.
Qed.
(** on one rank: if every vertex of degree one hangs on a non-Dirichlet vertex, no Dirichlet vertex is agglomerated *)
Theorem C47_no_hanging : forall O G, oracle_ok O -> graph_ok G -> fixed G = [] ->
  (forall h N, h < NV G -> nth h (adj G) [] = [N] -> ~ diri G h -> ~ diri G N) ->
  exists ags va, FormAgglomerates O G = Ret (ags, va) /\ forall v k, v < NV G -> inside ags v k -> ~ diri G v.
Proof.
  intros O G HO HG HF HH.
  assert (FO : fixed_ok G). { constructor. rewrite HF; intros f []. rewrite HF; intros f v []. rewrite HF; constructor. intros; unfold is_fixed; now rewrite HF. }
  apply given_aggs in FO. destruct (C47_dirichlet_partial O G HO HG FO) as (ags & va & E & H). exists ags, va. split; auto. intros v k Hv Hin D.
  destruct (H v Hv D) as (H1 & _). intros (f & Hf & _). rewrite HF in Hf. destruct Hf. destruct H1 as (h & X1 & X2 & (_ & X3 & _) & _); eauto. now apply (HH h v).
Qed.

(** a vertex hanging on a vertex of a fixed agglomerate: that vertex ends up in two agglomerates *)
Definition G3 : graph := mkGraph 3 [[1]; [0; 2]; [1]] [0; 0; 0] (fun _ _ => true) (fun _ => true) None None [[1; 2]] false.
Definition O3 : oracle := mkOracle (fun c => Nat.odd c) (fun _ _ => 0) (fun _ n => rev (seq 0 n)) (fun _ _ l => rev l).
Lemma O3_ok : oracle_ok O3.
Proof. constructor; cbn; intros; auto. symmetry. apply Permutation_rev. symmetry. apply Permutation_rev. Qed.
Lemma G3_ok : graph_ok G3.
Proof.
  constructor; cbn; auto; try discriminate.
  - intros [|[|[|v]]] H; cbn; split; try lia; try (repeat constructor; cbn; intuition lia); intros w Hw; cbn in Hw; intuition lia.
  - intros [|[|[|v]]] w H; cbn; try lia; intuition (subst; cbn; auto).
Qed.
Theorem C46_fixed_hanging_refuted : graph_ok G3 /\ oracle_ok O3 /\ exists ags va, FormAgglomerates O3 G3 = Ret (ags, va) /\ inside ags 1 0 /\ inside ags 1 1.
Proof.
  split; [exact G3_ok|]. split; [exact O3_ok|]. exists [mkAgg 1 [0; 1]; mkAgg 1 [1; 2]], [Some 0; Some 1; Some 1].
  split; [vm_compute; reflexivity|]. unfold inside. split; [exists (mkAgg 1 [0; 1])|exists (mkAgg 1 [1; 2])]; cbn; auto.
Qed.

(** a 2 x 4 grid with one Dirichlet vertex (7), one foreign vertex (3, class 1, only visible here) and a fixed agglomerate {4} *)
Definition G8 : graph := mkGraph 8 [[1; 4]; [0; 2; 5]; [1; 3; 6]; [2; 7]; [0; 5]; [1; 4; 6]; [2; 5; 7]; [3; 6]]
  [0; 0; 0; 1; 0; 0; 0; 0] (fun a b => a <=? b) (fun e => e =? 0) None (Some [true; true; true; true; true; true; true; false]) [[4]] false.
Lemma G8_ok : graph_ok G8.
Proof.
  constructor; cbn [NV adj eqc solid free leq G8]; auto; try discriminate.
  - intros v Hv. do 8 (destruct v as [|v]; [cbn; split; [repeat constructor; cbn; intuition lia|intros w Hw; cbn in Hw; intuition lia]|]). lia.
  - intros v w Hv. do 8 (destruct v as [|v]; [cbn; intuition (subst; cbn; auto 10)|]). lia.
  - intros b [= <-]. reflexivity.
  - intros e. apply Nat.leb_refl.
  - intros a b c H1 H2. apply Nat.leb_le in H1, H2. apply Nat.leb_le. lia.
Qed.
Lemma G8_fixed : fixed_ok G8.
Proof.
  constructor; cbn [fixed G8].
  - intros f [<-|[]]. discriminate.
  - intros f v [<-|[]] [<-|[]]. cbn. lia.
  - cbn. repeat constructor. auto.
  - intros w v Hw HR. cbn [NV G8] in Hw. do 8 (destruct w as [|w]; [discriminate HR|]). lia.
Qed.
Example C46_ex : graph_ok G8 /\ given_agglomerates_ok G8 /\ oracle_ok O3 /\
  FormAgglomerates O3 G8 = Ret ([mkAgg 6 [5; 6]; mkAgg 0 [0; 1; 2]; mkAgg 4 [4]], [Some 1; Some 1; Some 1; None; Some 2; Some 0; Some 0; None]).
Proof. split; [exact G8_ok|]. split; [apply given_aggs; exact G8_fixed|]. split; [exact O3_ok|]. vm_compute. reflexivity. Qed.

Print Assumptions C46_partition_partial.
Print Assumptions C46_serial.
Print Assumptions C46_foreign.
Print Assumptions C46_fixed_hanging_refuted.
Print Assumptions C47_dirichlet_partial.
Print Assumptions C47_no_hanging.
Print Assumptions C47_dirichlet_refuted.
