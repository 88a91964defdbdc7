(** Lemmas for C80: the intermediate graph of a matching round. *)
From Coq Require Import QArith.
From Verif Require Import Base SparseModel SparseProofs CtrProofs AuxModel AuxSpec AuxProofs CDataModel CDataSpec CDataProofs CDataProps CMapProps SPWModel SPWSpec SPWProofs SPWProofs2.
Local Open Scope nat_scope.

(** sorting and sets *)
Lemma in_ins x y l : In y (ins x l) <-> y = x \/ In y l.
Proof. induction l as [|a l IH]; cbn; [intuition|]. destruct (x <=? a); cbn; [intuition|]. rewrite IH. intuition. Qed.
Lemma perm_ins x l : Permutation (ins x l) (x :: l).
Proof. induction l as [|a l IH]; cbn; auto. destruct (x <=? a); auto. rewrite IH. apply perm_swap. Qed.
Lemma sorted_ins x l : StronglySorted le l -> StronglySorted le (ins x l).
Proof.
  induction 1 as [|a l SS IH F]; cbn; [constructor; constructor|]. destruct (Nat.leb_spec x a).
  - constructor; [constructor; auto|]. constructor; auto. rewrite Forall_forall in *. intros y Hy. specialize (F y Hy). lia.
  - constructor; auto. rewrite Forall_forall in *. intros y Hy. apply in_ins in Hy as [->|Hy]; [lia|auto].
Qed.
Lemma perm_qsort l : Permutation (qsort l) l.
Proof. induction l; cbn; auto. rewrite perm_ins. auto. Qed.
Lemma sorted_qsort l : StronglySorted le (qsort l).
Proof. induction l; cbn; [constructor|]. now apply sorted_ins. Qed.
Lemma in_set_insert x y l : In y (set_insert x l) <-> y = x \/ In y l.
Proof.
  assert (X : y = x <-> x = y) by (split; auto).
  induction l as [|a l IH]; cbn [set_insert]; [cbn; tauto|]. destruct (x <? a); [cbn; tauto|]. destruct (Nat.eqb_spec x a) as [E|E].
  - subst a. cbn [In]. tauto.
  - cbn [In]. rewrite IH. tauto.
Qed.
Lemma sorted_set_insert x l : StronglySorted lt l -> StronglySorted lt (set_insert x l).
Proof.
  induction 1 as [|a l SS IH F]; cbn [set_insert]; [constructor; constructor|]. destruct (Nat.ltb_spec x a).
  - constructor; [constructor; auto|]. constructor; auto. rewrite Forall_forall in *. intros y Hy. specialize (F y Hy). lia.
  - destruct (Nat.eqb_spec x a) as [->|]; [constructor; auto|]. constructor; auto. rewrite Forall_forall in *. intros y Hy. apply in_set_insert in Hy as [->|Hy]; [lia|auto].
Qed.
Lemma fold_set_insert xs : forall s, StronglySorted lt s ->
  StronglySorted lt (fold_left (fun s x => set_insert x s) xs s) /\ forall y, In y (fold_left (fun s x => set_insert x s) xs s) <-> In y xs \/ In y s.
Proof.
  induction xs as [|x xs IH]; intros s HS; cbn; [split; auto; intuition|]. destruct (IH (set_insert x s) (sorted_set_insert x s HS)) as [A B]. split; auto.
  intros y. rewrite B, in_set_insert. intuition.
Qed.
Lemma lt_le_sorted l : StronglySorted lt l -> StronglySorted le l.
Proof. induction 1 as [|a l SS IH F]; constructor; auto. eapply Forall_impl; [|apply F]. intros; lia. Qed.

(** lexicographic order *)
Definition lexle (p q : nat * nat) : Prop := fst p < fst q \/ (fst p = fst q /\ snd p <= snd q).
Lemma sorted_app {A} (R : A -> A -> Prop) l1 l2 : StronglySorted R l1 -> StronglySorted R l2 -> (forall a b, In a l1 -> In b l2 -> R a b) -> StronglySorted R (l1 ++ l2).
Proof.
  induction 1 as [|a l SS IH F]; intros H2 H; cbn; auto. constructor.
  - apply IH; auto. intros; apply H; auto. now right.
  - rewrite Forall_forall in *. intros y Hy. apply in_app_iff in Hy as [Hy|Hy]; auto. apply H; auto. now left.
Qed.
Lemma lex_concat (rows : list (list nat)) : (forall r, In r rows -> StronglySorted le r) -> forall s,
  StronglySorted lexle (concat (map (fun cr : nat * list nat => map (fun d => (fst cr, d)) (snd cr)) (combine (seq s (length rows)) rows))) /\
  forall p, In p (concat (map (fun cr : nat * list nat => map (fun d => (fst cr, d)) (snd cr)) (combine (seq s (length rows)) rows))) -> s <= fst p.
Proof.
  induction rows as [|r rows IH]; intros HR s; cbn.
  - split; [constructor|intros p []].
  - destruct (IH ltac:(intros; apply HR; now right) (S s)) as [A B]. split.
    + apply sorted_app; auto.
      * assert (SR : StronglySorted le r) by (apply HR; now left). clear - SR. induction SR as [|a l SS IH F]; cbn; constructor; auto.
        rewrite Forall_forall in *. intros p Hp. apply in_map_iff in Hp as (d & <- & Hd). right. cbn. auto.
      * intros p q Hp Hq. apply in_map_iff in Hp as (d & <- & Hd). specialize (B q Hq). left. cbn. lia.
    + intros p Hp. apply in_app_iff in Hp as [Hp|Hp]; [apply in_map_iff in Hp as (d & <- & Hd); cbn; lia|]. specialize (B p Hp). lia.
Qed.

(** the rows of the edge connectivity of lexicographically sorted edges are ascending *)
Definition side (v : nat) (p : nat * nat) : list nat := (if fst p =? v then [snd p] else []) ++ (if snd p =? v then [fst p] else []).
Lemma econ_row_sides ce v : map fst (bucket (econ_items ce) v) = flat_map (side v) ce.
Proof.
  unfold econ_items, numbered.
  assert (G : forall l s, map fst (bucket (flat_map (fun ie : nat * (nat * nat) => [(fst (snd ie), (snd (snd ie), fst ie)); (snd (snd ie), (fst (snd ie), fst ie))]) (combine (seq s (length l)) l)) v) = flat_map (side v) l).
  { induction l as [|p l IH]; intros s; [reflexivity|]. cbn [length seq combine flat_map]. rewrite bucket_app, map_app, IH. f_equal.
    rewrite !bucket_cons. cbn [fst snd]. unfold side. destruct (fst p =? v), (snd p =? v); reflexivity. }
  apply G.
Qed.
Lemma sides_sorted ce v : (forall p, In p ce -> fst p < snd p) -> StronglySorted lexle ce -> StronglySorted le (flat_map (side v) ce).
Proof.
  intros HO HS. induction HS as [|p l SS IH F]; cbn; [constructor|]. specialize (IH ltac:(intros; apply HO; now right)).
  assert (Hp : fst p < snd p) by (apply HO; now left). rewrite Forall_forall in F.
  assert (X : forall x, In x (flat_map (side v) l) -> exists q, In q l /\ fst q < snd q /\ lexle p q /\ ((fst q = v /\ snd q = x) \/ (snd q = v /\ fst q = x))).
  { intros x Hx. apply in_flat_map in Hx as (q & Hq & Hx). exists q. split; auto. split; [apply HO; now right|]. split; auto.
    unfold side in Hx. apply in_app_iff in Hx as [Hx|Hx].
    - destruct (Nat.eqb_spec (fst q) v); [|destruct Hx]. destruct Hx as [<-|[]]. auto.
    - destruct (Nat.eqb_spec (snd q) v); [|destruct Hx]. destruct Hx as [<-|[]]. auto. }
  apply sorted_app; auto.
  - unfold side. destruct (Nat.eqb_spec (fst p) v), (Nat.eqb_spec (snd p) v); cbn; try lia; repeat constructor.
  - intros a b Ha Hb. destruct (X b Hb) as (q & _ & Q1 & Q2 & Q3). unfold lexle in Q2. unfold side in Ha. apply in_app_iff in Ha as [Ha|Ha].
    + destruct (Nat.eqb_spec (fst p) v); [|destruct Ha]. destruct Ha as [<-|[]]. lia.
    + destruct (Nat.eqb_spec (snd p) v); [|destruct Ha]. destruct Ha as [<-|[]]. lia.
Qed.

Section Finish.
  Variable M : lmesh.
  Hypothesis HM : mesh_ok M.
  Variable NC : nat.
  Variable vmap : list Z.
  Hypothesis HV : length vmap = m_nv M.
  Hypothesis HI : map_into NC vmap.

  Lemma adj_row v w : v < m_nv M -> In w (map fst (nth v (m_econ M) [])) <-> adjacent (m_edges M) v w.
  Proof.
    intros Hv. destruct HM as (HE & HL & HR). rewrite in_map_iff. split.
    - intros ((w' & e) & Ew & Hi). cbn in Ew. subst w'. apply (proj2 (HR v Hv)) in Hi. now exists e.
    - intros (e & J). exists (w, e). split; auto. now apply (proj2 (HR v Hv)).
  Qed.
  Lemma adj_lt v w : adjacent (m_edges M) v w -> v < m_nv M /\ w < m_nv M /\ v <> w.
  Proof. destruct HM as (HE & _). intros (e & [J|J]); apply nth_error_In, HE in J; intuition. Qed.
  Lemma adj_sym E v w : adjacent E v w -> adjacent E w v.
  Proof. intros (e & [J|J]); exists e; [right|left]; auto. Qed.

  Lemma crs_neibs_ok c v : v < m_nv M -> exists l, crs_neibs (m_econ M) vmap c v = Ret l /\
    forall d, In d l <-> c < d /\ exists w, adjacent (m_edges M) v w /\ target vmap w = Some d.
  Proof.
    intros Hv. unfold crs_neibs. rewrite (rd_ok (m_econ M) v []) by (destruct HM as (_ & -> & _); auto). cbn [bind].
    match goal with |- context [foldM ?F0 _ _] => set (F := F0) end.
    assert (G : forall row acc, (forall p, In p row -> fst p < m_nv M) -> exists l, foldM F row acc = Ret l /\
      forall d, In d l <-> In d acc \/ (c < d /\ exists w, In w (map fst row) /\ target vmap w = Some d)).
    { induction row as [|p row IH]; intros acc HR; cbn [foldM].
      - exists acc. split; auto. intros d. split; auto. intros [H|(_ & w & [] & _)]; auto.
      - unfold F at 1. destruct (target_nth NC vmap (fst p) HI ltac:(rewrite HV; apply HR; now left)) as [(E & T)|(A & E & T & HA)].
        + rewrite (rd_nth_error _ _ _ E). cbn [bind]. destruct (Z.ltb_spec (Z.of_nat c) (-1)); [lia|].
          destruct (IH acc ltac:(intros; apply HR; now right)) as (l & El & Il). exists l. split; auto. intros d. rewrite Il. cbn [map In]. split.
          * intros [H1|(H1 & w & H2 & H3)]; eauto 7.
          * intros [H1|(H1 & w & [<-|H2] & H3)]; [auto|congruence|eauto 7].
        + rewrite (rd_nth_error _ _ _ E). cbn [bind].
          match goal with |- context [foldM F row ?A0] => destruct (IH A0 ltac:(intros; apply HR; now right)) as (l & El & Il) end.
          exists l. split; auto. intros d. rewrite Il. cbn [map In]. destruct (Z.ltb_spec (Z.of_nat c) (Z.of_nat A)).
          * rewrite in_app_iff. cbn [In]. rewrite Nat2Z.id. split.
            -- intros [[H1|[<-|[]]]|(H1 & w & H2 & H3)]; [auto| |eauto 7]. right. split; [lia|]. eauto.
            -- intros [H1|(H1 & w & [<-|H2] & H3)]; [auto| |eauto 7]. left. right. left. congruence.
          * split; [intros [H1|(H1 & w & H2 & H3)]; eauto 7|]. intros [H1|(H1 & w & [<-|H2] & H3)]; [auto| |eauto 7]. exfalso. assert (d = A) by congruence. lia. }
    destruct (G (nth v (m_econ M) []) []) as (l & El & Il).
    { intros p Hp. apply (in_map fst) in Hp. apply (adj_row v) in Hp; auto. now apply adj_lt in Hp. }
    exists l. split; auto. intros d. rewrite Il. split.
    - intros [[]|(H1 & w & H2 & H3)]. split; auto. exists w. split; auto. now apply adj_row.
    - intros (H1 & w & H2 & H3). right. split; auto. exists w. split; auto. now apply adj_row.
  Qed.

  Lemma crs_row_ok c fvs : (forall v, In v fvs -> v < m_nv M) -> exists l, crs_row (m_econ M) vmap c fvs = Ret l /\ StronglySorted le l /\
    (forall d, In d l <-> c < d /\ exists v w, In v fvs /\ adjacent (m_edges M) v w /\ target vmap w = Some d) /\
    (length fvs <> 1 -> StronglySorted lt l).
  Proof.
    intros HF. unfold crs_row.
    assert (GEN : exists l, foldM (fun s v => l <- crs_neibs (m_econ M) vmap c v ;; Ret (fold_left (fun s x => set_insert x s) l s)) fvs [] = Ret l /\ StronglySorted lt l /\
       (forall d, In d l <-> c < d /\ exists v w, In v fvs /\ adjacent (m_edges M) v w /\ target vmap w = Some d)).
    { assert (G : forall vs s, (forall v, In v vs -> v < m_nv M) -> StronglySorted lt s -> exists l, foldM (fun s v => l <- crs_neibs (m_econ M) vmap c v ;; Ret (fold_left (fun s x => set_insert x s) l s)) vs s = Ret l /\ StronglySorted lt l /\
         (forall d, In d l <-> In d s \/ (c < d /\ exists v w, In v vs /\ adjacent (m_edges M) v w /\ target vmap w = Some d))).
      { induction vs as [|v vs IH]; intros s Hvs HS; cbn [foldM].
        - exists s. split; auto. split; auto. intros d. split; auto. intros [|(_ & v & w & [] & _)]; auto.
        - destruct (crs_neibs_ok c v ltac:(apply Hvs; now left)) as (l & El & Il). rewrite El. cbn [bind].
          destruct (fold_set_insert l s HS) as [FS FI]. destruct (IH _ ltac:(intros; apply Hvs; now right) FS) as (l2 & E2 & S2 & I2).
          exists l2. split; auto. split; auto. intros d. rewrite I2, FI, Il. split.
          + intros [[(H1 & w & H2)|H1]|(H1 & v' & w & H2 & H3)]; auto; right; split; auto; [exists v, w; split; [now left|auto]|exists v', w; split; [now right|auto]].
          + intros [H1|(H1 & v' & w & [<-|H2] & H3)]; auto; [left; left; split; eauto|right; split; auto; exists v', w; auto]. }
      destruct (G fvs [] HF ltac:(constructor)) as (l & E & S & I). exists l. split; auto. split; auto. intros d. rewrite I. cbn. tauto. }
    destruct fvs as [|v [|v2 fvs]].
    - destruct GEN as (l & E & S & I). exists l. split; auto. split; [now apply lt_le_sorted|]. auto.
    - destruct (crs_neibs_ok c v ltac:(apply HF; now left)) as (l & El & Il). rewrite El. cbn [bind]. eexists. split; [reflexivity|]. split; [apply sorted_qsort|]. split; [|cbn; lia].
      intros d. assert (Q : In d (qsort l) <-> In d l) by (split; apply Permutation_in; auto using Permutation_sym, perm_qsort). rewrite Q, Il. split.
      + intros (H1 & w & H2). split; auto. exists v, w. split; [now left|auto].
      + intros (H1 & v' & w & [<-|[]] & H2). eauto.
    - destruct GEN as (l & E & S & I). exists l. split; auto. split; [now apply lt_le_sorted|]. auto.
  Qed.

  Lemma FinishUp_ok find : find_ok find -> exists c2f ce econ emap,
    FinishUp find M NC vmap = Ret (c2f, mkMesh NC ce econ, emap) /\
    GetMapC2F NC vmap = Ret c2f /\ mesh_ok (mkMesh NC ce econ) /\
    (forall A B, adjacent ce A B <-> A <> B /\ exists a b, adjacent (m_edges M) a b /\ target vmap a = Some A /\ target vmap b = Some B) /\
    (forall A B, In (A, B) ce -> A < B) /\
    maps_fit (m_nv M) NC (length ce) (m_edges M) ce vmap emap /\
    (exists rows, length rows = NC /\ ce = concat (map (fun cr : nat * list nat => map (fun d => (fst cr, d)) (snd cr)) (numbered rows)) /\
       forall c, c < NC -> length (nth c c2f []) <> 1 -> StronglySorted lt (nth c rows [])).
  Proof.
    intros HF. destruct (C76_reverse_map NC vmap HI) as (c2f & E1 & L1 & R1).
    set (row := fun c => match crs_row (m_econ M) vmap c (nth c c2f []) with Ret l => l | Err _ => [] end).
    assert (ROW : forall c, c < NC -> crs_row (m_econ M) vmap c (nth c c2f []) = Ret (row c) /\ StronglySorted le (row c) /\
      (forall d, In d (row c) <-> c < d /\ exists v w, target vmap v = Some c /\ adjacent (m_edges M) v w /\ target vmap w = Some d) /\
      (length (nth c c2f []) <> 1 -> StronglySorted lt (row c))).
    { intros c Hc. assert (MEM : forall v, In v (nth c c2f []) <-> target vmap v = Some c).
      { intros v. rewrite R1 by auto. rewrite filter_In, in_seq, HV. unfold hits. split.
        - intros (_ & H). destruct (target vmap v); [|discriminate]. apply Nat.eqb_eq in H. congruence.
        - intros T. rewrite T, Nat.eqb_refl. apply (target_lt NC) in T as [T1 T2]; auto. split; [lia|auto]. }
      destruct (crs_row_ok c (nth c c2f [])) as (l & El & Sl & Il & Dl).
      { intros v Hv. apply MEM in Hv. apply (target_lt NC) in Hv; auto. lia. }
      unfold row. rewrite El. split; auto. split; auto. split; auto. intros d. rewrite Il. split.
      - intros (H1 & v & w & H2 & H3). split; auto. exists v, w. rewrite <- MEM. auto.
      - intros (H1 & v & w & H2 & H3). split; auto. exists v, w. rewrite MEM. auto. }
    set (rows := map row (seq 0 NC)).
    set (ce := concat (map (fun cr : nat * list nat => map (fun d => (fst cr, d)) (snd cr)) (numbered rows))).
    assert (LR : length rows = NC) by (unfold rows; now rewrite map_length, seq_length).
    assert (INCE : forall A B, In (A, B) ce <-> A < NC /\ In B (row A)).
    { intros A B. unfold ce. rewrite in_concat. split.
      - intros (x & Hx & Hi). apply in_map_iff in Hx as ((c & r) & <- & Hc). cbn [fst snd] in Hi. apply in_map_iff in Hi as (d & [= -> ->] & Hd).
        apply in_numbered_lt in Hc as [H1 H2]. rewrite LR in H1. split; auto. unfold rows in H2. apply nth_error_nth with (d := []) in H2. rewrite nth_map_seq in H2 by auto. now subst r.
      - intros (HA & HB). exists (map (fun d => (A, d)) (row A)). split; [|now apply in_map].
        apply in_map_iff. exists (A, row A). split; auto. apply (in_numbered rows _ _ []). rewrite LR. split; auto. unfold rows. now rewrite nth_map_seq. }
    assert (ECE : crs_edges (m_econ M) vmap c2f = Ret ce).
    { unfold crs_edges, mapM. rewrite (mapM_ok _ (fun cv : nat * list nat => map (fun d => (fst cv, d)) (row (fst cv)))).
      - cbn [bind]. f_equal. unfold ce, rows. f_equal. unfold numbered. rewrite map_length, seq_length, L1. clear - L1.
        assert (G : forall l s, map (fun cv : nat * list nat => map (fun d => (fst cv, d)) (row (fst cv))) (combine (seq s (length l)) l)
                  = map (fun cr : nat * list nat => map (fun d => (fst cr, d)) (snd cr)) (combine (seq s (length l)) (map row (seq s (length l))))).
        { induction l; intros s; cbn; auto. f_equal. auto. }
        rewrite <- L1. apply G.
      - intros (c & r) Hc. cbn [fst snd]. apply in_numbered_lt in Hc as [H1 H2]. rewrite L1 in H1. apply nth_error_nth with (d := []) in H2. subst r.
        destruct (ROW c H1) as (-> & _). reflexivity. }
    assert (LT : forall A B, In (A, B) ce -> A < B /\ B < NC).
    { intros A B Hi. apply INCE in Hi as [HA HB]. destruct (ROW A HA) as (_ & _ & Ir & _). apply Ir in HB as (H1 & v & w & _ & _ & T). split; auto. apply (target_lt NC) in T; tauto. }
    assert (ECON : count_fill NC (econ_items ce) = Ret (map (fun v => bucket (econ_items ce) v) (seq 0 NC))).
    { apply count_fill_ok. intros (v & w & e) Hi. cbn [fst]. apply in_econ_items in Hi as [J|J]; apply nth_error_In, LT in J; lia. }
    pose (econ := map (fun v => bucket (econ_items ce) v) (seq 0 NC) : smat nat). change (map (fun v => bucket (econ_items ce) v) (seq 0 NC)) with econ in ECON.
    assert (MOK : mesh_ok (mkMesh NC ce econ)).
    { split; [|split]; cbn [m_nv m_edges m_econ].
      - intros a b Hi. apply LT in Hi. lia.
      - unfold econ. now rewrite map_length, seq_length.
      - intros v Hv. unfold econ. rewrite (nth_map_seq (fun v => bucket (econ_items ce) v)) by auto. split.
        + rewrite econ_row_sides. apply sides_sorted; [intros (a & b) Hi; apply LT in Hi; cbn; lia|].
          apply (lex_concat rows). intros r Hr. unfold rows in Hr. apply in_map_iff in Hr as (c & <- & Hc). apply in_seq in Hc. apply ROW. lia.
        + intros w e. rewrite <- (in_econ_items ce v w e). apply in_bucket. }
    assert (ADJ : forall A B, adjacent ce A B <-> A <> B /\ exists a b, adjacent (m_edges M) a b /\ target vmap a = Some A /\ target vmap b = Some B).
    { assert (ONE : forall A B, In (A, B) ce <-> A < B /\ exists a b, adjacent (m_edges M) a b /\ target vmap a = Some A /\ target vmap b = Some B).
      { intros A B. rewrite INCE. split.
        - intros [HA HB]. destruct (ROW A HA) as (_ & _ & Ir & _). apply Ir in HB as (H1 & v & w & H2 & H3 & H4). split; auto. exists v, w. auto.
        - intros (H1 & a & b & H2 & H3 & H4). assert (HA : A < NC) by (apply (target_lt NC) in H3; tauto). split; auto.
          destruct (ROW A HA) as (_ & _ & Ir & _). apply Ir. split; auto. exists a, b. auto. }
      intros A B. split.
      - intros (e & [J|J]); apply nth_error_In, ONE in J as (H1 & a & b & H2 & H3 & H4); split; try lia; [exists a, b; auto|exists b, a; auto using adj_sym].
      - intros (H1 & a & b & H2 & H3 & H4). destruct (Nat.lt_ge_cases A B).
        + assert (Hi : In (A, B) ce) by (apply ONE; split; auto; exists a, b; auto). apply In_nth_error in Hi as (e & He). exists e. now left.
        + assert (Hi : In (B, A) ce) by (apply ONE; split; [lia|]; exists b, a; auto using adj_sym). apply In_nth_error in Hi as (e & He). exists e. now right. }
    (* the edge map *)
    set (em := fun ed : nat * nat => match target vmap (fst ed), target vmap (snd ed) with
                 | Some A, Some B => if A =? B then (-1)%Z else match find (map fst (nth A econ [])) B with Some p => Z.of_nat (snd (nth p (nth A econ []) (0, 0))) | None => 0%Z end
                 | _, _ => (-1)%Z end).
    assert (FND : forall a b A B, adjacent (m_edges M) a b -> target vmap a = Some A -> target vmap b = Some B -> A <> B ->
      exists p e, find (map fst (nth A econ [])) B = Some p /\ nth_error (nth A econ []) p = Some (B, e) /\ joins ce e A B).
    { intros a b A B Hab Ta Tb HN. assert (HA : A < NC) by (apply (target_lt NC) in Ta; tauto).
      destruct MOK as (_ & _ & MR). cbn [m_nv m_edges m_econ] in MR. destruct (MR A HA) as [SA IA].
      assert (Ad : adjacent ce A B) by (apply ADJ; split; auto; exists a, b; auto). destruct Ad as (e0 & J0).
      assert (In B (map fst (nth A econ []))) by (apply in_map_iff; exists (B, e0); split; auto; now apply IA).
      destruct (HF _ B SA H) as (p & Ep & Np). rewrite nth_error_map in Np. match type of Np with option_map _ ?t = _ => destruct t as [(B', e)|] eqn:En end; [|discriminate Np]. cbn [option_map fst] in Np. injection Np as ->.
      exists p, e. split; auto. split; auto. apply IA. eapply nth_error_In; eauto. }
    assert (EEM : crs_emap find econ (m_edges M) vmap = Ret (map em (m_edges M))).
    { unfold crs_emap, mapM. apply mapM_ok. intros (a & b) Hi. cbn [fst snd]. assert (Hab := Hi). destruct HM as (HE & _). apply HE in Hab as (Ha & Hb & Nab).
      assert (AD : adjacent (m_edges M) a b) by (apply In_nth_error in Hi as (e & He); exists e; now left). unfold em. cbn [fst snd].
      destruct (target_nth NC vmap a HI ltac:(lia)) as [(Ea & Ta)|(A & Ea & Ta & HA)]; rewrite (rd_nth_error _ _ _ Ea), Ta; cbn [bind].
      - destruct (target_nth NC vmap b HI ltac:(lia)) as [(Eb & Tb)|(B & Eb & Tb & HB)]; rewrite (rd_nth_error _ _ _ Eb); cbn [bind]; reflexivity.
      - destruct (target_nth NC vmap b HI ltac:(lia)) as [(Eb & Tb)|(B & Eb & Tb & HB)]; rewrite (rd_nth_error _ _ _ Eb), Tb; cbn [bind].
        + rewrite Z.eqb_refl. cbn [negb]. rewrite andb_false_r. reflexivity.
        + destruct (Z.eqb_spec (Z.of_nat A) (-1)); [lia|]. destruct (Z.eqb_spec (Z.of_nat B) (-1)); [lia|]. cbn [negb andb].
          destruct (Nat.eqb_spec A B) as [->|NAB]; [rewrite Z.eqb_refl; reflexivity|]. destruct (Z.eqb_spec (Z.of_nat A) (Z.of_nat B)); [lia|]. cbn [negb].
          destruct (Z.ltb_spec (Z.of_nat A) 0); [lia|]. rewrite !Nat2Z.id. rewrite (rd_ok (A:=srow nat) econ A []) by (unfold econ; now rewrite map_length, seq_length). cbn [bind].
          destruct (FND a b A B AD Ta Tb NAB) as (p & e & Ep & Np & J). rewrite Ep. pose proof (rd_nth_error _ _ _ Np) as Np2. rewrite Np2. cbn [bind]. now rewrite (nth_error_nth _ _ (0, 0) Np). }
    exists c2f, ce, econ, (map em (m_edges M)).
    split; [unfold FinishUp; rewrite E1; cbn [bind]; rewrite ECE; cbn [bind]; rewrite ECON; cbn [bind]; fold econ; rewrite EEM; reflexivity|].
    split; auto. split; auto. split; auto. split; [intros A B Hi; apply LT in Hi; tauto|]. split.
    - split; auto. split; [apply map_length|]. split; auto. split; auto.
      assert (EMV : forall e a b, nth_error (m_edges M) e = Some (a, b) -> (em (a, b) = (-1)%Z /\ (target vmap a = target vmap b \/ target vmap a = None \/ target vmap b = None)) \/
         exists A B ce0, target vmap a = Some A /\ target vmap b = Some B /\ em (a, b) = Z.of_nat ce0 /\ ce0 < length ce /\ joins ce ce0 A B).
      { intros e a b He. assert (AD : adjacent (m_edges M) a b) by (exists e; now left). unfold em. cbn [fst snd]. destruct (target vmap a) as [A|] eqn:Ta; [|auto].
        destruct (target vmap b) as [B|] eqn:Tb; [|auto]. destruct (Nat.eqb_spec A B) as [->|NAB]; [auto|]. right.
        destruct (FND a b A B AD Ta Tb NAB) as (p & ce0 & Ep & Np & J). rewrite Ep, (nth_error_nth _ _ (0, 0) Np). exists A, B, ce0. repeat split; auto.
        apply nth_error_Some. destruct J as [J|J]; congruence. }
      split.
      + intros z Hz. apply in_map_iff in Hz as ((a & b) & <- & Hi). apply In_nth_error in Hi as (e & He). destruct (EMV e a b He) as [(-> & _)|(A & B & ce0 & _ & _ & -> & H & _)]; [auto|right; lia].
      + intros e a b He. assert (Hab := nth_error_In _ _ He). destruct HM as (HE & _). apply HE in Hab as (Ha & Hb & _). split; auto. split; auto.
        unfold target at 1. rewrite nth_error_map, He. cbn [option_map]. destruct (EMV e a b He) as [(-> & H)|(A & B & ce0 & Ta & Tb & -> & Hl & J)].
        * cbn. exact H.
        * destruct (Z.ltb_spec (Z.of_nat ce0) 0); [lia|]. rewrite Nat2Z.id. exists A, B. auto.
    - exists rows. split; auto. split; auto. intros c Hc Hl. unfold rows. rewrite nth_map_seq by auto. now apply ROW.
  Qed.
End Finish.
