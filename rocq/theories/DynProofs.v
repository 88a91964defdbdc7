From Verif Require Import Base ArraysModel LinAlg GSModel SparseModel BlockModel EQCModel CtrModel BlockProofs2 CtrProofs CtrProofs2 AggMapProofs DynModel.
Open Scope nat_scope.

(** *** offsets and segments *)
Fixpoint offs (a : nat) (ls : list nat) : list nat :=
  a :: match ls with [] => [] | x :: t => offs (a + x) t end.
Lemma offs_length ls : forall a, length (offs a ls) = S (length ls).
Proof. induction ls as [|x ls IH]; intros a; cbn [offs length]; auto. Qed.
Lemma nth_offs ls : forall a k, k <= length ls -> nth k (offs a ls) 0 = a + list_sum (firstn k ls).
Proof.
  induction ls as [|x ls IH]; intros a k H; cbn [offs length] in *.
  - assert (k = 0) by lia. subst. cbn. lia.
  - destruct k; cbn [nth firstn]. cbn; lia. rewrite IH by lia. unfold list_sum. cbn [fold_right]. lia.
Qed.
Lemma offs_app ls x : forall a, offs a (ls ++ [x]) = offs a ls ++ [a + list_sum ls + x].
Proof.
  induction ls as [|y ls IH]; intros a; cbn [offs app]. cbn. f_equal. f_equal. lia.
  rewrite IH. cbn [app]. f_equal. f_equal. f_equal. unfold list_sum. cbn [fold_right]. lia.
Qed.
Lemma sum_len {T} (ls : list (list T)) : list_sum (map (@length T) ls) = length (concat ls).
Proof. induction ls; cbn; auto. rewrite app_length. unfold list_sum in IHls. now rewrite IHls. Qed.
Lemma range_mid {T} (a b c : list T) : range (a ++ b ++ c) (length a) (length a + length b) = b.
Proof.
  unfold range. rewrite skipn_app, skipn_all, Nat.sub_diag. cbn [app skipn]. replace (length a + length b - length a) with (length b) by lia.
  now rewrite firstn_app, firstn_all, Nat.sub_diag, app_nil_r.
Qed.
Lemma concat_split {T} (ls : list (list T)) k : k < length ls ->
  concat ls = concat (firstn k ls) ++ nth k ls [] ++ concat (skipn (S k) ls).
Proof.
  revert k. induction ls as [|l ls IH]; intros k H; cbn [length] in *; [lia|]. destruct k; cbn [firstn nth skipn concat]; auto.
  rewrite (IH k) by lia. now rewrite app_assoc.
Qed.
Lemma firstn_S_app {T} (ls : list T) k d : k < length ls -> firstn (S k) ls = firstn k ls ++ [nth k ls d].
Proof. revert k. induction ls as [|l ls IH]; intros k H; cbn [length] in *; [lia|]. destruct k; cbn; auto. f_equal. apply IH. lia. Qed.
Lemma sum_firstn {T} (ls : list (list T)) k : list_sum (firstn k (map (@length T) ls)) = length (concat (firstn k ls)).
Proof. now rewrite firstn_map, sum_len. Qed.
Lemma rd_offs {T} (ls : list (list T)) k : k <= length ls -> rd (offs 0 (map (@length T) ls)) k = Ret (length (concat (firstn k ls))).
Proof.
  intros H. rewrite (rd_nth _ _ 0) by (rewrite offs_length, map_length; lia). rewrite nth_offs by now rewrite map_length. now rewrite sum_firstn.
Qed.
Lemma range_concat {T} (ls : list (list T)) k : k < length ls ->
  range (concat ls) (length (concat (firstn k ls))) (length (concat (firstn (S k) ls))) = nth k ls [].
Proof.
  intros H. rewrite (concat_split ls k H) at 1. rewrite (firstn_S_app _ _ []) by auto. rewrite concat_app, app_length. cbn [concat]. rewrite app_nil_r. apply range_mid.
Qed.
Lemma push_ok {T} cap (l : list T) v : length l < cap -> push cap l v = Ret (l ++ [v]).
Proof. intros H. unfold push. apply Nat.ltb_lt in H. now rewrite H. Qed.
Lemma pushes_ok {T} cap (vs : list T) : forall l, length l + length vs <= cap -> foldM (push cap) vs l = Ret (l ++ vs).
Proof.
  induction vs as [|v vs IH]; intros l H; cbn [foldM length] in *. now rewrite app_nil_r. rewrite push_ok by lia. cbn [bind].
  rewrite IH by (rewrite app_length; cbn; lia). now rewrite <- app_assoc.
Qed.

(** *** blockings *)
Definition valid_bk (n : nat) (bk : blocking) : Prop :=
  exists sizes, Forall (lt 0) sizes /\ list_sum sizes = n /\ bk = mkBk (length sizes) n (offs 0 sizes).
Definition bnums (bk : blocking) (b : nat) : list nat :=
  seq (nth b (bk_off bk) 0) (nth (S b) (bk_off bk) 0 - nth b (bk_off bk) 0).
Section Bk.
  Variables (n : nat) (bk : blocking).
  Hypothesis V : valid_bk n bk.
  Lemma bk_scal_n : bk_scal bk = n. Proof. destruct V as (s & _ & _ & ->). reflexivity. Qed.
  Lemma bk_off_len : length (bk_off bk) = S (bk_size bk).
  Proof. destruct V as (s & _ & _ & ->). cbn. apply offs_length. Qed.
  Lemma scal_nums_ok b : b < bk_size bk -> scal_nums bk b = Ret (bnums bk b).
  Proof.
    intros H. unfold scal_nums. rewrite !(rd_nth _ _ 0) by (rewrite bk_off_len; lia). reflexivity.
  Qed.
  Lemma it_nums_ok bs : (forall b, In b bs -> b < bk_size bk) -> it_nums bk bs = Ret (flat_map (bnums bk) bs).
  Proof.
    unfold it_nums. intros H. enough (G : forall acc, foldM (fun acc b => s <- scal_nums bk b ;; Ret (acc ++ s)) bs acc = Ret (acc ++ flat_map (bnums bk) bs)) by apply (G []).
    induction bs as [|b bs IH]; intros acc; cbn [foldM flat_map]. now rewrite app_nil_r.
    rewrite scal_nums_ok by (apply H; now left). cbn [bind]. rewrite IH by (intros; apply H; now right). now rewrite <- app_assoc.
  Qed.
  Lemma off_mono a b : a < b -> b <= bk_size bk -> nth a (bk_off bk) 0 < nth b (bk_off bk) 0.
  Proof.
    destruct V as (s & F & _ & ->). cbn. intros Hab Hb. rewrite !nth_offs by lia. cbn [plus]. clear V. revert a b Hab Hb.
    induction s as [|x s IH]; intros a b Hab Hb; cbn [length] in *; [lia|]. inversion F; subst.
    destruct b; [lia|]. destruct a; cbn [firstn list_sum fold_right]. cbn. lia.
    specialize (IH H2 a b ltac:(lia) ltac:(lia)). unfold list_sum in *. cbn [fold_right]. lia.
  Qed.
  Lemma off_last : nth (bk_size bk) (bk_off bk) 0 = n.
  Proof. destruct V as (s & F & E & ->). cbn. rewrite nth_offs by lia. now rewrite firstn_all. Qed.
  Lemma off_le_n b : b <= bk_size bk -> nth b (bk_off bk) 0 <= n.
  Proof. intros H. rewrite <- off_last. destruct (Nat.eq_dec b (bk_size bk)). now subst. apply Nat.lt_le_incl, off_mono; lia. Qed.
  Lemma in_bnums b c : In c (bnums bk b) <-> nth b (bk_off bk) 0 <= c < nth (S b) (bk_off bk) 0.
  Proof. unfold bnums. rewrite in_seq. lia. Qed.
  Lemma bnums_lt b c : b < bk_size bk -> In c (bnums bk b) -> c < n.
  Proof. intros H Hc. apply in_bnums in Hc. pose proof (off_le_n (S b) ltac:(lia)). lia. Qed.
  Lemma bnums_rep b : b < bk_size bk -> In (nth b (bk_off bk) 0) (bnums bk b).
  Proof. intros H. apply in_bnums. pose proof (off_mono b (S b)). lia. Qed.
  Lemma bnums_order a b c d : b < bk_size bk -> a < b -> In c (bnums bk a) -> In d (bnums bk b) -> c < d.
  Proof.
    intros Hb Hab Hc Hd. apply in_bnums in Hc. apply in_bnums in Hd.
    destruct (Nat.eq_dec (S a) b) as [E|E]; [rewrite E in Hc; lia|]. pose proof (off_mono (S a) b ltac:(lia) ltac:(lia)). lia.
  Qed.
  Lemma bnums_unique a b c : a < bk_size bk -> b < bk_size bk -> In c (bnums bk a) -> In c (bnums bk b) -> a = b.
  Proof.
    intros Ha Hb H1 H2. destruct (Nat.lt_trichotomy a b) as [H|[H|H]]; auto.
    - pose proof (bnums_order a b c c Hb H H1 H2). lia.
    - pose proof (bnums_order b a c c Ha H H2 H1). lia.
  Qed.
  Lemma bnums_concat k : k <= bk_size bk -> flat_map (bnums bk) (seq 0 k) = seq 0 (nth k (bk_off bk) 0).
  Proof.
    induction k as [|k IH]; intros H.
    - destruct V as (s & F & E & ->). cbn. now destruct s.
    - rewrite seq_S, flat_map_app, IH by lia. cbn [flat_map plus]. rewrite app_nil_r. unfold bnums. pose proof (off_mono k (S k) ltac:(lia) H).
      set (u := nth k (bk_off bk) 0) in *. set (v := nth (S k) (bk_off bk) 0) in *.
      transitivity (seq 0 (u + (v - u))). symmetry. apply seq_app. f_equal. lia.
  Qed.
  Lemma bnums_all : flat_map (bnums bk) (seq 0 (bk_size bk)) = seq 0 n.
  Proof. rewrite bnums_concat by auto. now rewrite off_last. Qed.
  Lemma bnums_cover c : c < n -> exists b, b < bk_size bk /\ In c (bnums bk b).
  Proof.
    intros H. assert (Hi : In c (flat_map (bnums bk) (seq 0 (bk_size bk)))) by (rewrite bnums_all; apply in_seq; lia).
    apply in_flat_map in Hi as (b & Hb & Hc). apply in_seq in Hb. exists b. split; [lia|auto].
  Qed.

  (** scal2Block *)
  Lemma wr_run (l : list (option nat)) b cs : (forall c, In c cs -> c < length l) ->
    exists l', foldM (fun s2b c => wr s2b c (Some b)) cs l = Ret l' /\ length l' = length l /\
      forall c, nth c l' None = if existsb (Nat.eqb c) cs then Some b else nth c l None.
  Proof.
    revert l. induction cs as [|c cs IH]; intros l H; cbn [foldM].
    - exists l. repeat split; auto.
    - rewrite wr_ok by (apply H; now left). cbn [bind]. destruct (IH (upd l c (Some b))) as (l' & E & Hl & Hn).
      { intros; rewrite upd_length; apply H; now right. }
      exists l'. rewrite E, Hl, upd_length. repeat split; auto. intros d. rewrite Hn. cbn [existsb].
      destruct (existsb (Nat.eqb d) cs) eqn:X; [now rewrite orb_true_r|]. rewrite orb_false_r. destruct (Nat.eqb_spec d c).
      + subst. apply nth_upd_eq. apply H. now left.
      + apply nth_upd_neq. auto.
  Qed.
  Lemma scal2Block_ok : exists l, scal2Block bk = Ret l /\ length l = n /\ forall b c, b < bk_size bk -> In c (bnums bk b) -> nth c l None = Some b.
  Proof.
    unfold scal2Block. rewrite bk_scal_n.
    enough (G : forall k, k <= bk_size bk -> exists l, foldM (fun s2b b => cs <- scal_nums bk b ;; foldM (fun s2b c => wr s2b c (Some b)) cs s2b) (seq 0 k) (repeat None n) = Ret l
       /\ length l = n /\ forall b c, b < k -> In c (bnums bk b) -> nth c l None = Some b) by (apply (G (bk_size bk)); auto).
    induction k as [|k IH]; intros H.
    - exists (repeat None n). rewrite repeat_length. repeat split; auto. intros; lia.
    - destruct IH as (l & E & Hl & Hn); [lia|]. rewrite seq_S, foldM_app, E. cbn [bind foldM plus]. rewrite scal_nums_ok by lia. cbn [bind].
      destruct (wr_run l k (bnums bk k)) as (l' & E' & Hl' & Hn').
      { intros c Hc. rewrite Hl. eapply bnums_lt; [|eauto]; lia. }
      rewrite E'. cbn [bind]. exists l'. split; auto. split; [congruence|]. intros b c Hb Hc. rewrite Hn'.
      destruct (existsb (Nat.eqb c) (bnums bk k)) eqn:X.
      + apply existsb_exists in X as (d & Hd & Ed). apply Nat.eqb_eq in Ed. subst d. f_equal. apply (bnums_unique k b c); auto; lia.
      + destruct (Nat.eq_dec b k) as [->|N]. 2: apply Hn; [lia|auto].
        assert (existsb (Nat.eqb c) (bnums bk k) = true) by (apply existsb_exists; exists c; split; auto; apply Nat.eqb_refl). congruence.
  Qed.
End Bk.

(** *** dropping consecutive duplicates *)
Fixpoint cmp_from (a : nat) (l : list nat) : list nat :=
  match l with [] => [] | b :: t => if a =? b then cmp_from a t else b :: cmp_from b t end.
Definition cmp (l : list nat) : list nat := match l with [] => [] | a :: t => a :: cmp_from a t end.
Lemma cmp_from_len l : forall a, length (cmp_from a l) <= length l.
Proof. induction l as [|b l IH]; intros a; cbn; auto. destruct (a =? b); cbn; specialize (IH a) as I1; specialize (IH b); lia. Qed.
Lemma cmp_len l : length (cmp l) <= length l.
Proof. destruct l; cbn; auto. pose proof (cmp_from_len l n). lia. Qed.
Lemma cmp_from_sorted l : forall a, StronglySorted le (a :: l) -> StronglySorted lt (a :: cmp_from a l) /\ forall x, In x (a :: cmp_from a l) <-> In x (a :: l).
Proof.
  induction l as [|b l IH]; intros a H.
  - cbn. split; [repeat constructor|tauto].
  - apply StronglySorted_inv in H as [H F]. pose proof (Forall_inv F) as Hab. cbn [cmp_from]. destruct (Nat.eqb_spec a b).
    + subst b. destruct (IH a H) as [I1 I2]. split; auto. intros x. cbn [In] in *. rewrite <- I2. tauto.
    + destruct (IH b H) as [I1 I2]. split.
      * constructor; auto. rewrite Forall_forall. intros x Hx. apply I2 in Hx. apply StronglySorted_inv in H as [H Fb]. destruct Hx as [<-|Hx].
        lia. rewrite Forall_forall in Fb. specialize (Fb x Hx). lia.
      * intros x. cbn [In] in *. rewrite <- I2. tauto.
Qed.
Lemma cmp_sorted l : StronglySorted le l -> StronglySorted lt (cmp l) /\ forall x, In x (cmp l) <-> In x l.
Proof. destruct l as [|a l]; intros H. cbn. split; [constructor|tauto]. now apply cmp_from_sorted. Qed.
Lemma ss_same (a b : list nat) : StronglySorted lt a -> StronglySorted lt b -> (forall x, In x a <-> In x b) -> a = b.
Proof.
  revert b. induction a as [|x a IH]; intros [|y b] Ha Hb H; auto.
  - exfalso. apply (proj2 (H y)). now left.
  - exfalso. apply (proj1 (H x)). now left.
  - apply StronglySorted_inv in Ha as [Ha Fa]. apply StronglySorted_inv in Hb as [Hb Fb]. rewrite Forall_forall in *.
    assert (E : x = y).
    { destruct (proj1 (H x) ltac:(now left)) as [|H1]; auto. destruct (proj2 (H y) ltac:(now left)) as [|H2]; auto. specialize (Fa _ H2). specialize (Fb _ H1). lia. }
    subst y. f_equal. apply IH; auto. intros z. split; intros Hz.
    + destruct (proj1 (H z) ltac:(now right)) as [<-|]; auto. specialize (Fa _ Hz). lia.
    + destruct (proj2 (H z) ltac:(now right)) as [<-|]; auto. specialize (Fb _ Hz). lia.
Qed.
Lemma ss_app (a b : list nat) : StronglySorted lt a -> StronglySorted lt b -> (forall x y, In x a -> In y b -> x < y) -> StronglySorted lt (a ++ b).
Proof.
  intros Ha Hb H. induction Ha as [|x a Ha IH F]; cbn; auto. constructor. apply IH. intros; apply H; cbn; auto.
  rewrite Forall_app. split; auto. rewrite Forall_forall. intros y Hy. apply H; cbn; auto.
Qed.
Lemma ss_seq_lt a n : StronglySorted lt (seq a n).
Proof. revert a. induction n; intros a; cbn; constructor; auto. rewrite Forall_forall. intros x Hx. apply in_seq in Hx. lia. Qed.
Lemma flat_bnums_sorted n bk (V : valid_bk n bk) bs : StronglySorted lt bs -> (forall b, In b bs -> b < bk_size bk) -> StronglySorted lt (flat_map (bnums bk) bs).
Proof.
  induction 1 as [|b bs H IH F]; intros Hb; cbn [flat_map]. constructor. apply ss_app.
  - apply ss_seq_lt.
  - apply IH. intros; apply Hb; now right.
  - intros x y Hx Hy. apply in_flat_map in Hy as (b' & Hb' & Hy). rewrite Forall_forall in F. eapply (bnums_order n bk V b b'); eauto. apply Hb; now right.
Qed.
Section Cols.
  Variables (n : nat) (bk : blocking).
  Hypothesis V : valid_bk n bk.
  Variable s2b : list (option nat).
  Hypothesis Hlen : length s2b = n.
  Hypothesis Hs : forall b c, b < bk_size bk -> In c (bnums bk b) -> nth c s2b None = Some b.
  Definition sb (c : nat) : nat := match nth c s2b None with Some b => b | None => 0 end.
  Lemma sb_spec c : c < n -> sb c < bk_size bk /\ In c (bnums bk (sb c)).
  Proof. intros H. destruct (bnums_cover n bk V c H) as (b & Hb & Hc). unfold sb. rewrite (Hs b c Hb Hc). auto. Qed.
  Lemma cell_ok c : c < n -> cell s2b c = Ret (sb c).
  Proof.
    intros H. unfold cell. rewrite (rd_nth _ _ None) by lia. cbn [bind]. unfold sb. destruct (bnums_cover n bk V c H) as (b & Hb & Hc). rewrite (Hs b c Hb Hc). reflexivity.
  Qed.
  Lemma sb_mono c d : c <= d -> d < n -> sb c <= sb d.
  Proof.
    intros H Hd. destruct (sb_spec c ltac:(lia)) as [C1 C2]. destruct (sb_spec d Hd) as [D1 D2].
    destruct (Nat.le_gt_cases (sb c) (sb d)); auto. pose proof (bnums_order n bk V _ _ d c C1 H0 D2 C2). lia.
  Qed.
  Definition closed_cols (p : list nat) : Prop := forall b c d, In c p -> b < bk_size bk -> In c (bnums bk b) -> In d (bnums bk b) -> In d p.
  Definition bcols (p : list nat) : list nat := cmp (map sb p).
  Lemma map_sb_sorted p : (forall c, In c p -> c < n) -> StronglySorted lt p -> StronglySorted le (map sb p).
  Proof.
    intros Hp Hss. induction Hss as [|x p Hss IH F]; cbn; constructor. apply IH; intros; apply Hp; now right.
    rewrite Forall_forall in *. intros y Hy. apply in_map_iff in Hy as (z & <- & Hz). apply sb_mono. specialize (F z Hz). lia. apply Hp. now right.
  Qed.
  Lemma bcols_lt p : (forall c, In c p -> c < n) -> StronglySorted lt p -> forall b, In b (bcols p) -> b < bk_size bk.
  Proof.
    intros Hp Hss b Hb. pose proof (proj1 (proj2 (cmp_sorted _ (map_sb_sorted p Hp Hss)) b) Hb) as H.
    apply in_map_iff in H as (c & <- & Hc). apply sb_spec. auto.
  Qed.
  Lemma bcols_flat p : (forall c, In c p -> c < n) -> StronglySorted lt p -> closed_cols p -> flat_map (bnums bk) (bcols p) = p.
  Proof.
    intros Hp Hss Hc. pose proof (map_sb_sorted p Hp Hss) as Hm.
    destruct (cmp_sorted _ Hm) as [C1 C2]. apply ss_same; auto.
    - apply (flat_bnums_sorted n bk V); auto. now apply bcols_lt.
    - intros d. rewrite in_flat_map. split.
      + intros (b & Hb & Hd). apply C2 in Hb. apply in_map_iff in Hb as (c & <- & Hcp). destruct (sb_spec c (Hp c Hcp)). eapply Hc; eauto.
      + intros Hd. exists (sb d). split. apply C2. now apply in_map. apply sb_spec. auto.
  Qed.
  Lemma push_cols_ok cap p cols : (forall c, In c p -> c < n) -> length cols + length p <= cap -> push_cols s2b cap p cols = Ret (cols ++ bcols p).
  Proof.
    unfold push_cols, bcols. destruct p as [|c0 cs]; intros Hp Hcap; cbn [map cmp length] in *. now rewrite app_nil_r.
    rewrite cell_ok by (apply Hp; now left). cbn [bind]. rewrite push_ok by lia. cbn [bind].
    assert (G : forall cs cols col, (forall c, In c cs -> c < n) -> length cols + length cs <= cap ->
      exists z, foldM (fun st c => let (cols, col) := st : list nat * nat in colJ <- cell s2b c ;; if col =? colJ then Ret (cols, col) else (cols <- push cap cols colJ ;; Ret (cols, colJ))) cs (cols, col)
        = Ret (cols ++ cmp_from col (map sb cs), z)).
    { clear - V Hlen Hs. intros. revert cols col H0. induction cs as [|c cs IH]; intros cols col Hcap; cbn [foldM map cmp_from length] in *.
      - exists col. now rewrite app_nil_r.
      - rewrite cell_ok by (apply H; now left). cbn [bind]. assert (Hq : forall c, In c cs -> c < n) by (intros; apply H; now right).
        destruct (col =? sb c). apply (IH Hq cols col). lia. rewrite push_ok by lia. cbn [bind].
        destruct (IH Hq (cols ++ [sb c]) (sb c)) as (z & E). rewrite app_length. cbn. lia. exists z. rewrite E, <- app_assoc. reflexivity. }
    destruct (G cs (cols ++ [sb c0]) (sb c0)) as (z & E). intros; apply Hp; now right. rewrite app_length; cbn; lia.
    rewrite E. cbn [bind]. now rewrite <- app_assoc.
  Qed.
End Cols.
