(** Lemmas about the sparse-matrix kernels: count/fill, transpose. *)
From Verif Require Import Base SparseModel.

Definition bucket {T} (items : list (nat * T)) (c : nat) : list T := map snd (filter (fun p => fst p =? c) items).
Lemma bucket_cons {T} p (l : list (nat * T)) c : bucket (p :: l) c = if fst p =? c then snd p :: bucket l c else bucket l c.
Proof. unfold bucket. simpl. destruct (fst p =? c); reflexivity. Qed.
Lemma bucket_app {T} (l1 l2 : list (nat * T)) c : bucket (l1 ++ l2) c = bucket l1 c ++ bucket l2 c.
Proof. unfold bucket. now rewrite filter_app, map_app. Qed.
Lemma in_bucket {T} (l : list (nat * T)) c v : In v (bucket l c) <-> In (c, v) l.
Proof.
  unfold bucket. rewrite in_map_iff. split.
  - intros ((c', v') & E & H). apply filter_In in H as [H1 H2]. simpl in *. apply Nat.eqb_eq in H2. now subst.
  - intros H. exists (c, v). split; auto. apply filter_In. split; auto. simpl. apply Nat.eqb_refl.
Qed.

Lemma nth_map_seq {A} (f : nat -> A) n i d : i < n -> nth i (map f (seq 0 n)) d = f i.
Proof. intros H. rewrite (nth_indep _ d (f 0)) by now rewrite map_length, seq_length. rewrite map_nth, seq_nth; auto. Qed.
Lemma list_ext_seq {A} (l : list A) (f : nat -> A) n d : length l = n -> (forall i, i < n -> nth i l d = f i) -> l = map f (seq 0 n).
Proof.
  intros H E. apply nth_ext with (d:=d) (d':=d).
  - now rewrite map_length, seq_length.
  - intros i Hi. rewrite nth_map_seq by lia. apply E; lia.
Qed.
Lemma nth_repeat_d {A} (a : A) n i : nth i (repeat a n) a = a.
Proof. revert i; induction n; destruct i; simpl; auto. Qed.

Section CountFill.
  Context {T : Type}.
  Lemma count_gen (items : list (nat * T)) : forall cnt, (forall p, In p items -> fst p < length cnt) ->
    exists cnt', foldM (fun cnt p => incr cnt (fst p)) items cnt = Ret cnt' /\ length cnt' = length cnt /\
      forall c, c < length cnt -> nth c cnt' 0 = nth c cnt 0 + length (bucket items c).
  Proof.
    induction items as [|p l IH]; intros cnt H.
    - exists cnt. simpl. split; [reflexivity|]. split; [reflexivity|]. intros. unfold bucket; simpl; lia.
    - cbn [foldM]. unfold incr at 1. pose proof (H p (or_introl eq_refl)) as Hp.
      rewrite (rd_ok cnt _ 0) by auto. cbn [bind]. rewrite wr_ok by auto. cbn [bind].
      destruct (IH (upd cnt (fst p) (S (nth (fst p) cnt 0)))) as (cnt' & E & L' & N).
      { rewrite upd_length. intros q Hq. apply H. now right. }
      exists cnt'. rewrite upd_length in *. split; [exact E|]. split; auto.
      intros c Hc. rewrite N by auto. rewrite bucket_cons. destruct (Nat.eqb_spec (fst p) c) as [<-|Hn].
      + rewrite nth_upd_eq by auto. simpl. lia.
      + rewrite nth_upd_neq by auto. lia.
  Qed.
  Lemma count_items_ok n (items : list (nat * T)) : (forall p, In p items -> fst p < n) ->
    count_items n items = Ret (map (fun c => length (bucket items c)) (seq 0 n)).
  Proof.
    intros H. destruct (count_gen items (repeat 0 n)) as (cnt & E & Lc & N). { rewrite repeat_length; auto. }
    unfold count_items. rewrite E. f_equal. rewrite repeat_length in *. apply (list_ext_seq _ _ _ 0); auto.
    intros i Hi. rewrite N by auto. rewrite nth_repeat_d. reflexivity.
  Qed.

  Lemma wr_mid (done : list (option T)) v k : wr (done ++ repeat None (S k)) (length done) v = Ret ((done ++ [v]) ++ repeat None k).
  Proof.
    rewrite wr_ok by (rewrite app_length; simpl; lia). f_equal. rewrite <- app_assoc.
    simpl repeat. induction done; simpl in *; auto. now rewrite IHdone.
  Qed.
  Lemma fill_gen (items : list (nat * T)) : forall cnt tab n, length cnt = n -> length tab = n ->
    (forall p, In p items -> fst p < n) ->
    (forall c, c < n -> exists done, nth c cnt 0 = length done /\ nth c tab [] = map Some done ++ repeat None (length (bucket items c))) ->
    exists cnt' tab', foldM put items (cnt, tab) = Ret (cnt', tab') /\ length tab' = n /\
      forall c, c < n -> forall done, nth c cnt 0 = length done -> nth c tab [] = map Some done ++ repeat None (length (bucket items c)) ->
        nth c tab' [] = map Some (done ++ bucket items c).
  Proof.
    induction items as [|p l IH]; intros cnt tab n Lc Lt H I.
    - exists cnt, tab. split; [reflexivity|]. split; auto. intros c Hc d E1 E2. rewrite E2. unfold bucket. simpl. now rewrite !app_nil_r.
    - cbn [foldM]. pose proof (H p (or_introl eq_refl)) as Hp. unfold put at 1.
      destruct (I (fst p) Hp) as (dn & E1 & E2). rewrite bucket_cons, Nat.eqb_refl in E2. simpl length in E2.
      rewrite (rd_ok cnt _ 0) by lia. cbn [bind]. rewrite wr_ok by lia. cbn [bind].
      rewrite (rd_ok tab _ []) by lia. cbn [bind]. rewrite E1, E2.
      replace (length dn) with (length (map (@Some T) dn)) by apply map_length. rewrite wr_mid. cbn [bind].
      rewrite wr_ok by lia. cbn [bind]. rewrite map_length.
      set (cnt1 := upd cnt (fst p) (S (length dn))). set (row1 := (map Some dn ++ [Some (snd p)]) ++ repeat None (length (bucket l (fst p)))).
      set (tab1 := upd tab (fst p) row1).
      destruct (IH cnt1 tab1 n) as (cnt' & tab' & E & Lt' & N).
      { unfold cnt1; now rewrite upd_length. } { unfold tab1; now rewrite upd_length. } { intros q Hq; apply H; now right. }
      { intros c Hc. unfold cnt1, tab1. destruct (Nat.eq_dec (fst p) c) as [<-|Hn].
        - rewrite !nth_upd_eq by lia. exists (dn ++ [snd p]). rewrite app_length. simpl. split; [lia|].
          unfold row1. now rewrite map_app.
        - rewrite !nth_upd_neq by auto. destruct (I c Hc) as (d & D1 & D2). rewrite bucket_cons in D2.
          destruct (Nat.eqb_spec (fst p) c); [congruence|]. eauto. }
      exists cnt', tab'. split; [exact E|]. split; auto.
      intros c Hc d D1 D2. rewrite bucket_cons in D2 |- *. destruct (Nat.eqb_spec (fst p) c) as [<-|Hn].
      + rewrite (N (fst p) Hc (dn ++ [snd p])).
        * rewrite <- app_assoc. simpl. f_equal. f_equal.
          assert (Hd : length d = length dn) by congruence. simpl length in D2. rewrite E2 in D2.
          assert (X : map Some dn = map (@Some T) d).
          { apply (f_equal (firstn (length dn))) in D2. rewrite !firstn_app, !map_length, Hd in D2.
            rewrite Nat.sub_diag in D2. simpl in D2. rewrite !app_nil_r in D2.
            rewrite !firstn_all2 in D2 by (rewrite map_length; lia). exact D2. }
          clear -X. revert d X. induction dn; intros [|]; simpl; intros; try discriminate; auto. inversion X. f_equal. auto.
        * unfold cnt1. rewrite nth_upd_eq by lia. rewrite app_length; simpl; lia.
        * unfold tab1. rewrite nth_upd_eq by lia. unfold row1. now rewrite map_app.
      + apply (N c Hc d). * unfold cnt1. now rewrite nth_upd_neq by auto. * unfold tab1. now rewrite nth_upd_neq by auto.
  Qed.
  Lemma freeze_row_some (l : list T) : freeze_row (map Some l) = Ret l.
  Proof. induction l; simpl; auto. rewrite IHl. reflexivity. Qed.
  Lemma freeze_some (tab : list (list T)) : freeze (map (map Some) tab) = Ret tab.
  Proof. induction tab; simpl; auto. rewrite freeze_row_some. cbn [bind]. rewrite IHtab. reflexivity. Qed.
  Theorem count_fill_ok n (items : list (nat * T)) : (forall p, In p items -> fst p < n) ->
    count_fill n items = Ret (map (bucket items) (seq 0 n)).
  Proof.
    intros H. unfold count_fill. rewrite count_items_ok by auto. cbn [bind].
    destruct (fill_gen items (repeat 0 n) (@alloc_rows T (map (fun c => length (bucket items c)) (seq 0 n))) n) as (cnt' & tab' & E & Lt & N); auto.
    { apply repeat_length. } { unfold alloc_rows. now rewrite !map_length, seq_length. }
    { intros c Hc. exists []. rewrite nth_repeat_d. split; auto. unfold alloc_rows. rewrite map_map, nth_map_seq by auto. reflexivity. }
    rewrite E. cbn [bind snd].
    assert (X : tab' = map (map Some) (map (bucket items) (seq 0 n))).
    { rewrite map_map. apply (list_ext_seq _ _ _ []); auto. intros i Hi. apply (N i Hi []).
      - apply nth_repeat_d. - unfold alloc_rows. rewrite map_map, nth_map_seq by auto. reflexivity. }
    rewrite X. apply freeze_some.
  Qed.
  (** ... and it fails exactly when an item has no row *)
  Lemma count_items_oob n (items : list (nat * T)) p : In p items -> n <= fst p -> count_items n items = Err OutOfBounds.
  Proof.
    unfold count_items. intros H Hn. assert (Hl : length (repeat 0 n) = n) by apply repeat_length.
    revert Hl. generalize (repeat 0 n). induction items as [|q l IH]; [destruct H|]. intros cnt Hl. cbn [foldM]. unfold incr at 1.
    unfold rd at 1. destruct (nth_error cnt (fst q)) eqn:E; [|reflexivity]. cbn [bind].
    assert (fst q < length cnt) by (apply nth_error_Some; congruence). rewrite wr_ok by auto. cbn [bind].
    destruct H as [->|H]; [lia|]. apply IH; auto. now rewrite upd_length.
  Qed.
End CountFill.

(** *** numbered *)
Lemma in_numbered {A} (l : list A) i a d : In (i, a) (numbered l) <-> i < length l /\ nth i l d = a.
Proof.
  unfold numbered.
  assert (G : forall s, In (i, a) (combine (seq s (length l)) l) <-> s <= i < s + length l /\ nth (i - s) l d = a).
  { induction l as [|x l IH]; intros s; simpl; [split; [tauto|intros [H _]; lia]|]. rewrite (IH (S s)). split.
    - intros [E|[H1 H2]]. + inversion E; subst. split; [lia|]. now rewrite Nat.sub_diag.
      + split; [lia|]. replace (i - s) with (S (i - S s)) by lia. exact H2.
    - intros [H1 H2]. destruct (Nat.eq_dec i s) as [->|Hn].
      + left. rewrite Nat.sub_diag in H2. now subst.
      + right. split; [lia|]. replace (i - s) with (S (i - S s)) in H2 by lia. exact H2. }
  rewrite (G 0). rewrite Nat.sub_0_r. simpl. split; intros [? ?]; split; auto; lia.
Qed.
Lemma numbered_length {A} (l : list A) : length (numbered l) = length l.
Proof. unfold numbered. rewrite combine_length, seq_length. lia. Qed.
Lemma numbered_snoc {A} (l : list A) x : numbered (l ++ [x]) = numbered l ++ [(length l, x)].
Proof.
  unfold numbered. rewrite app_length, seq_app. simpl.
  assert (G : forall (a b : list nat) (c d : list A), length a = length c -> combine (a ++ b) (c ++ d) = combine a c ++ combine b d).
  { induction a; intros b [|? c] d H; simpl in *; try discriminate; auto. f_equal. apply IHa. lia. }
  rewrite G by apply seq_length. reflexivity.
Qed.

(** *** sorted rows *)
Definition ssorted {E} (r : srow E) : Prop := StronglySorted lt (cols r).
Lemma ssorted_ext {E} (r1 r2 : srow E) : ssorted r1 -> ssorted r2 -> (forall p, In p r1 <-> In p r2) -> r1 = r2.
Proof.
  unfold ssorted. revert r2. induction r1 as [|p r1 IH]; intros r2 S1 S2 H.
  - destruct r2 as [|q r2]; auto. exfalso. apply (H q). now left.
  - destruct r2 as [|q r2]. { exfalso. apply (H p). now left. }
    simpl in S1, S2. inversion S1 as [|? ? S1' F1]; subst. inversion S2 as [|? ? S2' F2]; subst.
    rewrite Forall_forall in F1, F2.
    assert (Epq : p = q).
    { destruct (proj1 (H p) (or_introl eq_refl)) as [Q|Q]; [now subst|].
      destruct (proj2 (H q) (or_introl eq_refl)) as [Q'|Q']; [now subst|].
      pose proof (F2 (fst p) (in_map fst _ _ Q)). pose proof (F1 (fst q) (in_map fst _ _ Q')). lia. }
    subst q. f_equal. apply IH; auto. intros x. specialize (H x). simpl in H. split; intros Hx.
    + destruct (proj1 H (or_intror Hx)) as [->|]; auto. exfalso. pose proof (F1 (fst x) (in_map fst _ _ Hx)). lia.
    + destruct (proj2 H (or_intror Hx)) as [->|]; auto. exfalso. pose proof (F2 (fst x) (in_map fst _ _ Hx)). lia.
Qed.
Lemma ss_app_lt (l1 l2 : list nat) : StronglySorted lt l1 -> StronglySorted lt l2 -> (forall x y, In x l1 -> In y l2 -> x < y) -> StronglySorted lt (l1 ++ l2).
Proof.
  intros S1 S2 H. induction S1; simpl; auto. constructor.
  - apply IHS1. intros; apply H; simpl; auto.
  - apply Forall_app. split; auto. apply Forall_forall. intros. apply H; simpl; auto.
Qed.

Section TransposeP.
  Context {E F : Type} (tr : E -> F).
  Lemma bubble_pass_sorted (x : nat * F) l : (forall y, In y l -> fst x <= fst y) -> bubble_pass x l = (x, l).
  Proof.
    induction l as [|y t IH]; intros H; simpl; auto. destruct (Nat.ltb_spec (fst y) (fst x)) as [C|C].
    - pose proof (H y (or_introl eq_refl)). lia.
    - rewrite IH; auto. intros; apply H; now right.
  Qed.
  Lemma bubble_sort_sorted (l : srow F) : StronglySorted le (cols l) -> forall n, bubble_sort n l = l.
  Proof.
    induction l as [|x t IH]; intros S [|n]; auto. simpl in *. inversion S; subst.
    rewrite bubble_pass_sorted.
    - f_equal. auto.
    - intros y Hy. rewrite Forall_forall in H2. apply H2. now apply in_map.
  Qed.
  Lemma in_trans_items (A : smat E) c i v : In (c, (i, v)) (trans_items tr A) <-> i < length A /\ exists u, In (c, u) (nth i A []) /\ v = tr u.
  Proof.
    unfold trans_items. rewrite in_flat_map. split.
    - intros ((i', r) & H1 & H2). apply (in_numbered A i' r []) in H1 as [H1 <-]. simpl in H2.
      apply in_map_iff in H2 as ((c', u) & E1 & H2). simpl in *. inversion E1; subst. eauto.
    - intros (H1 & u & H2 & ->). exists (i, nth i A []). split; [now apply in_numbered with (d:=[])|].
      apply in_map_iff. exists (c, u). auto.
  Qed.
  (** the items of one target row, in order *)
  Lemma bucket_trans (A : smat E) c :
    bucket (trans_items tr A) c = flat_map (fun ir => map (fun v => (fst ir, tr v)) (bucket (snd ir) c)) (numbered A).
  Proof.
    unfold trans_items. induction (numbered A) as [|[i r] l IH]; auto. simpl. rewrite bucket_app, IH. f_equal.
    unfold bucket. induction r as [|[c' v] r IHr]; auto. simpl. destruct (c' =? c); simpl; [now f_equal|auto].
  Qed.
  Lemma trans_sorted_gen {A} (R : nat -> nat -> Prop) (l : list A) (f : A -> list F) :
    (forall i j, i < j -> R i j) -> (forall i, forall x, In x l -> StronglySorted R (map fst (map (fun v : F => (i, v)) (f x)))) ->
    StronglySorted R (cols (flat_map (fun ir => map (fun v => (fst ir, v)) (f (snd ir))) (numbered l))).
  Proof.
    intros HR Hf. induction l as [|x l IH] using rev_ind; [constructor|].
    rewrite numbered_snoc, flat_map_app. unfold cols. rewrite map_app. simpl. rewrite app_nil_r.
    assert (G : forall a b, StronglySorted R a -> StronglySorted R b -> (forall x y, In x a -> In y b -> R x y) -> StronglySorted R (a ++ b)).
    { induction a; simpl; intros b S1 S2 H; auto. inversion S1; subst. constructor.
      - apply IHa; auto. - apply Forall_app; split; auto. apply Forall_forall; auto. }
    apply G.
    - apply IH. intros i y Hy. apply Hf. apply in_or_app; auto.
    - apply Hf. apply in_or_app; simpl; auto.
    - intros i j Hi Hj. apply HR. rewrite map_map, in_map_iff in Hj. destruct Hj as (v & <- & _). simpl.
      apply in_map_iff in Hi as ((i', v') & <- & Hi). apply in_flat_map in Hi as ((k & y) & H1 & H2). simpl in *.
      apply in_map_iff in H2 as (? & E1 & _). injection E1 as Ek Ev; subst i'. apply (in_numbered l k y x) in H1. tauto.
  Qed.
  Lemma bucket_trans' (A : smat E) c :
    bucket (trans_items tr A) c = flat_map (fun ir => map (fun v => (fst ir, v)) ((fun r => map tr (bucket r c)) (snd ir))) (numbered A).
  Proof. rewrite bucket_trans. apply flat_map_ext. intros a. now rewrite map_map. Qed.
  Lemma trans_row_le (A : smat E) c : StronglySorted le (cols (bucket (trans_items tr A) c)).
  Proof.
    rewrite bucket_trans'. apply (trans_sorted_gen le A (fun r => map tr (bucket r c))); [intros; lia|].
    intros i x _. rewrite !map_map. simpl. induction (bucket x c); simpl; constructor; auto.
    apply Forall_forall. intros y Hy. apply in_map_iff in Hy as (? & <- & _). lia.
  Qed.
  (** rows of the transpose in terms of the rows of A *)
  Theorem TransposeSPM_ok w (A : smat E) : (forall r p, In r A -> In p r -> fst p < w) ->
    TransposeSPM tr w A = Ret (map (bucket (trans_items tr A)) (seq 0 w)).
  Proof.
    intros H. unfold TransposeSPM. rewrite count_fill_ok.
    - cbn [bind]. f_equal. rewrite map_map. apply map_ext. intros c. apply bubble_sort_sorted. apply trans_row_le.
    - intros (c & (i & v)) Hp. apply in_trans_items in Hp as (Hi & u & Hu & _). simpl.
      apply (H (nth i A []) (c, u)); auto. now apply nth_In.
  Qed.
  Lemma trans_row_in (A : smat E) c i v : In (i, v) (bucket (trans_items tr A) c) <-> i < length A /\ exists u, In (c, u) (nth i A []) /\ v = tr u.
  Proof. rewrite in_bucket. apply in_trans_items. Qed.
  Lemma trans_row_sorted (A : smat E) c : (forall r, In r A -> NoDup (cols r)) -> ssorted (bucket (trans_items tr A) c).
  Proof.
    intros H. unfold ssorted. rewrite bucket_trans'. apply (trans_sorted_gen lt A (fun r => map tr (bucket r c))); auto.
    intros i x Hx. specialize (H x Hx). rewrite !map_map. simpl.
    assert (B1 : length (bucket x c) <= 1).
    { clear -H. unfold bucket. rewrite map_length. induction x as [|[k v] x IH]; simpl; auto. simpl in H. inversion H; subst.
      destruct (Nat.eqb_spec k c) as [->|Hn]; auto. simpl.
      assert (filter (fun p : nat * E => fst p =? c) x = []); [|rewrite H0; simpl; lia].
      clear -H2. induction x as [|[k v] x IH]; simpl in *; auto. destruct (Nat.eqb_spec k c); [subst; tauto|]. apply IH. tauto. }
    destruct (bucket x c) as [|v1 [|v2 t]]; simpl in *; try lia; repeat constructor.
  Qed.
End TransposeP.

Theorem Transpose_twice {E F} (tr : E -> F) (rt : F -> E) w (A : smat E) :
  (forall e, rt (tr e) = e) -> (forall r, In r A -> ssorted r /\ forall p, In p r -> fst p < w) ->
  exists T, TransposeSPM tr w A = Ret T /\ TransposeSPM rt (length A) T = Ret A.
Proof.
  intros HT HA. assert (NDr : forall r, In r A -> NoDup (cols r)).
  { intros r Hr. destruct (HA r Hr) as [S _]. unfold ssorted in S. clear -S. induction S; constructor; auto.
    intros C. rewrite Forall_forall in H. specialize (H _ C). lia. }
  exists (map (bucket (trans_items tr A)) (seq 0 w)).
  split. { apply TransposeSPM_ok. intros r p Hr Hp. now apply (HA r Hr). }
  set (T := map (bucket (trans_items tr A)) (seq 0 w)).
  assert (HTn : forall c, c < w -> nth c T [] = bucket (trans_items tr A) c) by (intros; unfold T; now rewrite nth_map_seq).
  assert (LT : @length (srow F) T = w) by (unfold T; now rewrite map_length, seq_length).
  rewrite TransposeSPM_ok.
  - f_equal. symmetry. apply (list_ext_seq _ _ _ []); auto. intros i Hi. apply ssorted_ext.
    + apply HA. now apply nth_In.
    + apply trans_row_sorted. intros r Hr. apply (In_nth _ _ []) in Hr as (c & Hc & <-). rewrite HTn by (rewrite <- LT; exact Hc).
      assert (S := trans_row_sorted tr A c NDr). unfold ssorted in S. clear -S. induction S; constructor; auto.
      intros C. rewrite Forall_forall in H. specialize (H _ C). lia.
    + intros (c & v). rewrite (trans_row_in rt T). rewrite LT. split.
      * intros H. assert (Hc : c < w) by (apply (proj2 (HA (nth i A []) (nth_In _ _ Hi)) (c, v)); auto).
        split; auto. exists (tr v). split; auto. rewrite HTn by auto. apply trans_row_in. eauto.
      * intros (Hc & u & Hu & ->). rewrite HTn in Hu by auto. apply trans_row_in in Hu as (_ & u' & Hu' & ->). now rewrite HT.
  - intros r p Hr Hp. apply (In_nth _ _ []) in Hr as (c & Hc & <-). rewrite HTn in Hp by (rewrite <- LT; exact Hc). destruct p as [i v].
    apply trans_row_in in Hp. simpl. tauto.
Qed.
