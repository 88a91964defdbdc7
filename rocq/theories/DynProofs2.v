From Verif Require Import Base ArraysModel LinAlg GSModel SparseModel BlockModel EQCModel CtrModel BlockProofs2 CtrProofs CtrProofs2 AggMapProofs DynModel DynProofs.
Open Scope nat_scope.

(** what QuickSort promises: a permutation in which no later element is smaller than an earlier one *)
Definition qsort_ok (qsort : (nat -> nat -> bool) -> list nat -> list nat) : Prop :=
  forall (key : nat -> list nat) l,
    Permutation (qsort (fun i j => lexiLess (key i) (key j)) l) l /\
    StronglySorted (fun i j => lexiLess (key j) (key i) = false) (qsort (fun i j => lexiLess (key i) (key j)) l).

Lemma lexi_go_antisym a : forall b, length a = length b -> lexiLess_go a b = false -> lexiLess_go b a = false -> a = b.
Proof.
  induction a as [|x a IH]; intros [|y b] L H1 H2; cbn [lexiLess_go length] in *; auto; try lia.
  destruct (Nat.ltb_spec x y), (Nat.ltb_spec y x); try discriminate; try lia. f_equal. lia. apply IH; auto; lia.
Qed.
Lemma lexi_antisym a b : lexiLess a b = false -> lexiLess b a = false -> a = b.
Proof.
  unfold lexiLess. rewrite (Nat.eqb_sym (length b)). destruct (Nat.eqb_spec (length a) (length b)). apply lexi_go_antisym; auto.
  intros H1 H2. apply Nat.ltb_ge in H1. apply Nat.ltb_ge in H2. lia.
Qed.
Lemma lexi_len a b : lexiLess b a = false -> length a <= length b.
Proof. unfold lexiLess. destruct (Nat.eqb_spec (length b) (length a)); [lia|]. intros H. apply Nat.ltb_ge in H. lia. Qed.

Lemma list_sum_app' a b : list_sum (a ++ b) = list_sum a + list_sum b.
Proof. apply list_sum_app. Qed.
Lemma list_sum_perm a b : Permutation a b -> list_sum a = list_sum b.
Proof. unfold list_sum. induction 1; cbn; lia. Qed.
Lemma flat_map_perm {S T} (f : S -> list T) a b : Permutation a b -> Permutation (flat_map f a) (flat_map f b).
Proof. intros H. now apply Permutation_flat_map. Qed.
Lemma len_flat {S T} (f : S -> list T) l : length (flat_map f l) = list_sum (map (fun a => length (f a)) l).
Proof. unfold list_sum. induction l; cbn; auto. rewrite app_length. lia. Qed.
Lemma flat_map_flat {S T U} (f : S -> list T) (g : T -> list U) l : flat_map g (flat_map f l) = flat_map (fun a => flat_map g (f a)) l.
Proof. induction l; cbn; auto. rewrite flat_map_app. now rewrite IHl. Qed.
Lemma len_concat_le {T} (gs : list (list T)) : (forall g, In g gs -> g <> []) -> length gs <= length (concat gs).
Proof.
  induction gs as [|g gs IH]; intros H; cbn; auto. rewrite app_length. specialize (IH ltac:(intros; apply H; now right)).
  pose proof (H g ltac:(now left)). destruct g; cbn in *; [congruence|lia].
Qed.
Lemma len_sorted_concat gs : length (concat (map sort_nat gs)) = length (concat gs).
Proof. induction gs; cbn; auto. rewrite !app_length, IHgs. f_equal. apply Permutation_length, sort_nat_perm. Qed.
Lemma maxl_app l x m : fold_left Nat.max (l ++ [x]) m = Nat.max (fold_left Nat.max l m) x.
Proof. apply fold_left_app. Qed.
Lemma maxl_ge l : forall m x, In x l \/ x <= m -> x <= fold_left Nat.max l m.
Proof. induction l as [|y l IH]; intros m x H; cbn [fold_left In] in *. destruct H; [tauto|auto]. apply IH. destruct H as [[->|H]|H]; auto; right; lia. Qed.

Section Fin.
  Context {B : Blk}.
  Variable qsort : (nat -> nat -> bool) -> list nat -> list nat.
  Hypothesis Q : qsort_ok qsort.
  Variables (A : @spmat B) (nc : nat) (rb cb : blocking).
  Hypothesis VR : valid_bk (length A) rb.
  Hypothesis VC : valid_bk nc cb.
  Notation key := (rep_key A rb).
  Hypothesis Same : forall b r, b < bk_size rb -> In r (bnums rb b) -> rcols (getrow A r) = key b.
  Hypothesis Sorted : forall r, StronglySorted lt (rcols (getrow A r)).
  Hypothesis Cols : forall r c, In c (rcols (getrow A r)) -> c < nc.
  Variable s2b : list (option nat).
  Hypothesis S2 : length s2b = nc.
  Hypothesis S3 : forall b c, b < bk_size cb -> In c (bnums cb b) -> nth c s2b None = Some b.
  Notation nR := (bk_size rb).

  Lemma rep_cols_ok b : b < nR -> rep_cols A rb b = Ret (key b).
  Proof.
    intros H. unfold rep_cols. rewrite (rd_nth _ _ 0) by (rewrite (bk_off_len _ _ VR); lia). cbn [bind].
    rewrite (rd_nth A _ []). reflexivity. apply (bnums_lt _ _ VR b); auto. now apply (bnums_rep _ _ VR).
  Qed.
  (** data of a group of block rows *)
  Definition gkey (g : list nat) : list nat := key (hd 0 (sort_nat g)).
  Definition grows (g : list nat) : list nat := flat_map (bnums rb) (sort_nat g).
  Definition gdat (g : list nat) : list (M B) := flat_map (fun r => map snd (getrow A r)) (grows g).
  Definition gcol (g : list nat) : list nat := bcols s2b (gkey g).
  Definition fin_of (gs : list (list nat)) (rowOff rest : list nat) : @fin B :=
    mkFin rowOff (concat (map sort_nat gs) ++ rest)
          (offs 0 (map (@length nat) (map gcol gs))) (concat (map gcol gs))
          (offs 0 (map (@length (M B)) (map gdat gs))) (concat (map gdat gs))
          (fold_left Nat.max (map (fun g => length (gkey g)) gs) 0) (fold_left Nat.max (map (fun g => length (grows g)) gs) 0).
  Definition goff (gs : list (list nat)) : list nat := offs 0 (map (@length nat) gs).
  Definition good_group (g : list nat) : Prop := g <> [] /\ forall b, In b g -> b < nR /\ key b = gkey g.
  Lemma good_group_intro g k : g <> [] -> (forall b, In b g -> b < nR /\ key b = k) -> good_group g /\ gkey g = k.
  Proof.
    intros N H. assert (E : gkey g = k).
    { unfold gkey. apply H. apply (Permutation_in _ (sort_nat_perm g)). pose proof (Permutation_length (sort_nat_perm g)). destruct (sort_nat g).
      destruct g; cbn in *; [congruence|lia]. now left. }
    split; auto. split; auto. intros b Hb. rewrite E. auto.
  Qed.
  Definition wt (b : nat) : nat := length (flat_map (fun r => map (@snd nat (M B)) (getrow A r)) (bnums rb b)).
  Lemma gdat_len g : length (gdat g) = list_sum (map wt g).
  Proof.
    unfold gdat, grows. rewrite flat_map_flat, len_flat. apply list_sum_perm. apply Permutation_map, sort_nat_perm.
  Qed.
  Lemma wt_all : list_sum (map wt (seq 0 nR)) = length (concat A).
  Proof.
    transitivity (length (flat_map (fun r => map (@snd nat (M B)) (getrow A r)) (seq 0 (length A)))).
    - rewrite <- (bnums_all _ _ VR), flat_map_flat, len_flat. reflexivity.
    - rewrite len_flat. clear. unfold getrow. induction A as [|r A' IH]; cbn [length seq map concat]; auto.
      rewrite app_length, <- IH. unfold list_sum. cbn [fold_right nth]. rewrite map_length. f_equal. rewrite <- seq_shift, map_map. reflexivity.
  Qed.

  Lemma getColsVals_ok nze capC gs g rest : good_group g -> (forall h, In h gs -> h <> []) ->
    list_sum (map wt (concat gs ++ g)) <= nze ->
    list_sum (map (fun h => length (gkey h)) (gs ++ [g])) <= capC ->
    length gs < nR ->
    getColsVals A rb s2b nze capC nR (length gs) (fin_of gs (goff (gs ++ [g])) (g ++ rest)) = Ret (fin_of (gs ++ [g]) (goff (gs ++ [g])) rest).
  Proof.
    intros [N G] Hgs Hn Hc Hl. unfold getColsVals. cbn [f_rowOff f_rows f_data f_cols f_dataOff f_colOff f_maxC f_maxR fin_of].
    assert (E1 : rd (goff (gs ++ [g])) (length gs) = Ret (length (concat gs))).
    { unfold goff. rewrite rd_offs by (rewrite app_length; cbn; lia). now rewrite firstn_app, firstn_all, Nat.sub_diag, app_nil_r. }
    assert (E2 : rd (goff (gs ++ [g])) (S (length gs)) = Ret (length (concat gs) + length g)).
    { unfold goff. rewrite rd_offs by (rewrite app_length; cbn; lia). rewrite firstn_all2 by (rewrite app_length; cbn; lia). now rewrite concat_app, app_length; cbn; rewrite app_nil_r. }
    rewrite E1, E2. cbn [bind]. rewrite <- len_sorted_concat. rewrite range_mid.
    assert (Hg : forall b, In b (sort_nat g) -> b < nR /\ key b = gkey g) by (intros b Hb; apply G; now apply (Permutation_in _ (sort_nat_perm g))).
    assert (Hh : exists t, sort_nat g = hd 0 (sort_nat g) :: t).
    { pose proof (Permutation_length (sort_nat_perm g)). destruct (sort_nat g) as [|h t]. destruct g; cbn in *; [congruence|lia]. now exists t. }
    destruct Hh as (t & Et). assert (Hh : In (hd 0 (sort_nat g)) (sort_nat g)) by (rewrite Et at 2; now left).
    assert (E3 : rd (sort_nat g) 0 = Ret (hd 0 (sort_nat g))) by (rewrite Et; reflexivity). rewrite E3. cbn [bind].
    rewrite rep_cols_ok by (now apply Hg). cbn [bind]. rewrite (it_nums_ok _ _ VR) by (intros; now apply Hg). cbn [bind]. fold (grows g). fold (gkey g).
    assert (E4 : forall rs d, (forall r, In r rs -> r < length A) -> length d + length (flat_map (fun r => map (@snd nat (M B)) (getrow A r)) rs) <= nze ->
       foldM (fun data r => a <- rd A r ;; foldM (push nze) (map snd a) data) rs d = Ret (d ++ flat_map (fun r => map snd (getrow A r)) rs)).
    { clear. induction rs as [|r rs IH]; intros d Hr Hd; cbn [foldM flat_map] in *. now rewrite app_nil_r. rewrite (rd_nth A _ []) by (apply Hr; now left). cbn [bind].
      rewrite app_length in Hd. rewrite pushes_ok by (unfold getrow in Hd; lia). cbn [bind]. rewrite IH. now rewrite <- app_assoc. intros; apply Hr; now right. rewrite app_length. unfold getrow in *. lia. }
    rewrite E4. cbn [bind]. 2:{ intros r Hr. apply in_flat_map in Hr as (b & Hb & Hr). eapply (bnums_lt _ _ VR); [|eauto]. now apply Hg. }
    2:{ fold (gdat g). rewrite gdat_len. rewrite map_app, list_sum_app in Hn. rewrite <- sum_len, map_map.
        rewrite (map_ext (fun x => length (gdat x)) (fun x => list_sum (map wt x))) by (intros; apply gdat_len).
        replace (list_sum (map (fun x => list_sum (map wt x)) gs)) with (list_sum (map wt (concat gs))); auto.
        clear. unfold list_sum. induction gs; cbn; auto. rewrite map_app, fold_right_app. rewrite IHgs. generalize (fold_right Nat.add 0 (map (fun x => fold_right Nat.add 0 (map wt x)) gs)). clear.
        induction a; cbn; intros; auto. rewrite IHa. lia. }
    fold (gdat g). rewrite map_app in Hc. cbn [map] in Hc. rewrite list_sum_app in Hc. unfold list_sum at 2 in Hc. cbn [fold_right] in Hc.
    rewrite (push_cols_ok nc cb VC s2b S2 S3).
    2:{ intros c Hcc. unfold gkey, rep_key in Hcc. eapply Cols; eauto. }
    2:{ assert (length (concat (map gcol gs)) <= list_sum (map (fun h => length (gkey h)) gs)); [|lia].
        clear. unfold list_sum. induction gs; cbn; auto. rewrite app_length. assert (length (gcol a) <= length (gkey a)); [|lia]. unfold gcol, bcols. etransitivity. apply cmp_len. now rewrite map_length. }
    cbn [bind]. fold (gcol g).
    rewrite !push_ok by (rewrite offs_length, !map_length; lia). cbn [bind]. f_equal. unfold fin_of. rewrite !map_app. cbn [map].
    rewrite !concat_app, !maxl_app, !offs_app, !sum_len. cbn [concat]. rewrite !app_nil_r, !app_length. cbn [plus]. f_equal.
    rewrite firstn_app, firstn_all, Nat.sub_diag. cbn [firstn]. rewrite app_nil_r. rewrite <- !app_assoc. f_equal. f_equal.
    rewrite app_assoc, skipn_app, skipn_all2 by (rewrite app_length; lia). rewrite app_length, Nat.sub_diag. reflexivity.
  Qed.

  (** *** the capacity of the column array *)
  Definition chg (rows : list nat) (m k : nat) : nat :=
    if list_eqb (key (nth (k - 1) rows 0)) (key (nth k rows 0)) then m else m + length (key (nth k rows 0)).
  Definition cap_upto (first : nat) (rows : list nat) (k : nat) : nat := fold_left (chg rows) (seq 1 (k - 1)) (256 + first).
  Lemma max_col_size_ok rows : length rows = nR -> (forall b, In b rows -> b < nR) ->
    max_col_size A rb rows = Ret (cap_upto (if 0 <? length A then length (rcols (getrow A 0)) else 0) rows nR).
  Proof.
    intros Hl Hb. unfold max_col_size, cap_upto. rewrite (bk_scal_n _ _ VR).
    assert (E : (if 0 <? length A then a <- rd A 0;; Ret (length (rcols a)) else Ret 0) = Ret (if 0 <? length A then length (rcols (getrow A 0)) else 0)).
    { destruct (Nat.ltb_spec 0 (length A)); auto. rewrite (rd_nth A _ []) by auto. reflexivity. }
    rewrite E. cbn [bind]. set (m0 := 256 + _). clearbody m0. clear E.
    assert (G : forall l m, (forall k, In k l -> 1 <= k < nR) ->
      foldM (fun m k => a <- rd rows (k - 1) ;; b <- rd rows k ;; ca <- rep_cols A rb a ;; cb <- rep_cols A rb b ;; Ret (if list_eqb ca cb then m else m + length cb)) l m = Ret (fold_left (chg rows) l m)).
    { induction l as [|k l IH]; intros m Hk; cbn [foldM fold_left]; auto. pose proof (Hk k ltac:(now left)). rewrite !(rd_nth _ _ 0) by lia. cbn [bind].
      rewrite !rep_cols_ok by (apply Hb, nth_In; lia). cbn [bind]. rewrite IH by (intros; apply Hk; now right). reflexivity. }
    apply G. intros k Hk. apply in_seq in Hk. lia.
  Qed.
  Lemma cap_step first rows k : 1 <= k -> cap_upto first rows (S k) = chg rows (cap_upto first rows k) k.
  Proof. intros H. unfold cap_upto. replace (S k - 1) with (S (k - 1)) by lia. rewrite seq_S, fold_left_app. cbn [fold_left]. replace (1 + (k - 1)) with k by lia. reflexivity. Qed.
  Lemma cap_mono first rows k k' : 1 <= k -> k <= k' -> cap_upto first rows k <= cap_upto first rows k'.
  Proof. intros H. induction 1; auto. rewrite cap_step by lia. unfold chg. destruct (list_eqb _ _); lia. Qed.

  (** *** the loop *)
  Definition sorted_rows : list nat := qsort (fun i j => lexiLess (key i) (key j)) (seq 0 nR).
  Lemma sr_perm : Permutation sorted_rows (seq 0 nR). Proof. apply (Q key). Qed.
  Lemma sr_len : length sorted_rows = nR. Proof. rewrite (Permutation_length sr_perm). apply seq_length. Qed.
  Lemma sr_lt b : In b sorted_rows -> b < nR. Proof. intros H. apply (Permutation_in _ sr_perm) in H. apply in_seq in H. lia. Qed.
  Lemma sr_sorted : StronglySorted (fun i j => lexiLess (key j) (key i) = false) sorted_rows. Proof. apply (Q key). Qed.
  Lemma ss_nth (R : nat -> nat -> Prop) l : StronglySorted R l -> forall i j, i < j -> j < length l -> R (nth i l 0) (nth j l 0).
  Proof.
    induction 1 as [|a l H IH F]; intros i j Hij Hj; cbn [length] in *; [lia|]. destruct j; [lia|]. destruct i; cbn [nth].
    rewrite Forall_forall in F. apply F, nth_In. lia. apply IH; lia.
  Qed.
  Definition first_len := if 0 <? length A then length (rcols (getrow A 0)) else 0.
  Lemma first_ok : 0 < nR -> length (key (nth 0 sorted_rows 0)) <= first_len.
  Proof.
    intros H. assert (Hn : 0 < length A). { pose proof (bnums_rep _ _ VR 0 H) as Hr. pose proof (bnums_lt _ _ VR _ _ H Hr). lia. }
    unfold first_len. apply Nat.ltb_lt in Hn as Hn'. rewrite Hn'. destruct (bnums_cover _ _ VR 0 Hn) as (b & Hb & Hc). rewrite (Same b 0 Hb Hc).
    assert (Hi : In b sorted_rows) by (apply (Permutation_in _ (Permutation_sym sr_perm)), in_seq; lia).
    destruct (In_nth _ _ 0 Hi) as (i & Hi1 & Hi2). destruct i. now rewrite Hi2. rewrite <- Hi2. apply lexi_len. apply (ss_nth _ _ sr_sorted); lia.
  Qed.
  Definition distinct (gs : list (list nat)) : Prop := ForallOrdPairs (fun g h => gkey g <> gkey h) gs.
  Definition inv (k : nat) (gs : list (list nat)) (cur rest : list nat) : Prop :=
    sorted_rows = concat gs ++ cur ++ rest /\ length (concat gs ++ cur) = k /\ (forall g, In g gs -> good_group g) /\ good_group cur /\
    list_sum (map (fun h => length (gkey h)) (gs ++ [cur])) <= cap_upto first_len sorted_rows k /\
    (forall g, In g gs -> gkey g <> gkey cur) /\ distinct gs.
  Lemma FOP_app1 {T} (R : T -> T -> Prop) l a : ForallOrdPairs R l -> (forall b, In b l -> R b a) -> ForallOrdPairs R (l ++ [a]).
  Proof.
    induction 1 as [|x l F H IH]; intros Hb; cbn. constructor. constructor. constructor.
    constructor. rewrite Forall_app. split; auto. constructor; auto. apply Hb. now left. apply IH. intros; apply Hb; now right.
  Qed.
  Definition loop_body (f : @fin B) (k : nat) : res fin :=
    a <- rd (f_rows f) (k - 1) ;; b <- rd (f_rows f) k ;;
    ca <- rep_cols A rb a ;; cb0 <- rep_cols A rb b ;;
    if list_eqb ca cb0 then Ret f
    else (rowOff <- push (S nR) (f_rowOff f) k ;;
          getColsVals A rb s2b (length (concat A)) (cap_upto first_len sorted_rows nR) nR (length (f_rowOff f) - 1)
            (mkFin rowOff (f_rows f) (f_colOff f) (f_cols f) (f_dataOff f) (f_data f) (f_maxC f) (f_maxR f))).
  Lemma wt_part l rest : sorted_rows = l ++ rest -> list_sum (map wt l) <= length (concat A).
  Proof. intros E. rewrite <- wt_all, <- (list_sum_perm _ _ (Permutation_map wt sr_perm)), E, map_app, list_sum_app. lia. Qed.
  Lemma last_app {T} (a : list T) b d : b <> [] -> nth (length a + length b - 1) (a ++ b) d = last b d.
  Proof.
    intros N. rewrite app_nth2 by (destruct b; cbn in *; [congruence|lia]). replace (length a + length b - 1 - length a) with (length b - 1) by lia. clear a.
    destruct (exists_last N) as (l & a & ->). rewrite last_last, app_length. cbn [length]. rewrite app_nth2 by lia.
    replace (length l + 1 - 1 - length l) with 0 by lia. reflexivity.
  Qed.
  Lemma last_In {T} (b : list T) d : b <> [] -> In (last b d) b.
  Proof. intros N. destruct (exists_last N) as (l & a & E). rewrite E, last_last. apply in_or_app. right. now left. Qed.
  Lemma loop_step k gs cur rest : 1 <= k -> k < nR -> inv k gs cur rest ->
    exists gs' cur' rest', loop_body (fin_of gs (goff gs) (cur ++ rest)) k = Ret (fin_of gs' (goff gs') (cur' ++ rest')) /\ inv (S k) gs' cur' rest'.
  Proof.
    intros Hk1 Hk (E & Hl & Hgs & Hcur & Hcap & Hne & Hd). destruct rest as [|b rest].
    { exfalso. pose proof sr_len as HL. rewrite E, app_nil_r in HL. lia. }
    pose proof Hcur as [Ncur Gcur].
    assert (Hlen : length (concat (map sort_nat gs)) + length cur = k) by (rewrite len_sorted_concat; rewrite app_length in Hl; exact Hl).
    assert (Ea : nth (k - 1) (concat (map sort_nat gs) ++ cur ++ b :: rest) 0 = last cur 0).
    { rewrite app_assoc, app_nth1 by (rewrite app_length; lia). rewrite <- Hlen. now apply last_app. }
    assert (Eb : nth k (concat (map sort_nat gs) ++ cur ++ b :: rest) 0 = b).
    { rewrite app_assoc, app_nth2 by (rewrite app_length; lia). rewrite app_length, Hlen, Nat.sub_diag. reflexivity. }
    assert (Ea' : nth (k - 1) sorted_rows 0 = last cur 0).
    { rewrite E, app_assoc, app_nth1 by lia. rewrite <- Hl, app_length. now apply last_app. }
    assert (Eb' : nth k sorted_rows 0 = b).
    { rewrite E, app_assoc, app_nth2 by lia. rewrite Hl, Nat.sub_diag. reflexivity. }
    assert (Hb : b < nR) by (rewrite <- Eb'; apply sr_lt, nth_In; now rewrite sr_len).
    pose proof (last_In cur 0 Ncur) as Hlast. destruct (Gcur _ Hlast) as [Hlt Hkey].
    unfold loop_body. cbn [f_rows f_rowOff f_colOff f_cols f_dataOff f_data f_maxC f_maxR fin_of].
    assert (HL : length (concat (map sort_nat gs) ++ cur ++ b :: rest) = nR).
    { rewrite <- sr_len, E. rewrite !app_length. now rewrite len_sorted_concat. }
    rewrite !(rd_nth _ _ 0) by lia. rewrite Ea, Eb. cbn [bind]. rewrite !rep_cols_ok by auto. cbn [bind]. rewrite Hkey.
    destruct (list_eqb (gkey cur) (key b)) eqn:EQ.
    - apply leqb_iff in EQ. exists gs, (cur ++ [b]), rest. split. now rewrite <- app_assoc.
      destruct (good_group_intro (cur ++ [b]) (gkey cur)) as [G' K'].
      { destruct cur; discriminate. }
      { intros c Hc. apply in_app_iff in Hc as [Hc|[<-|[]]]; auto. }
      unfold inv. rewrite <- !app_assoc. cbn [app]. split; auto. split. rewrite !app_length in *. cbn. lia. split; auto. split; auto.
      split; [|split; [|auto]].
      + rewrite map_app in *. cbn [map] in *. rewrite K'. etransitivity; [exact Hcap|]. apply cap_mono; lia.
      + intros g Hg. rewrite K'. auto.
    - assert (NE : gkey cur <> key b) by (intros X; apply leqb_iff in X; congruence).
      assert (HG : length gs + 1 <= k).
      { pose proof (len_concat_le (gs ++ [cur])) as H. rewrite concat_app, !app_length in H. cbn in H. rewrite app_nil_r in H. rewrite app_length in Hl. rewrite Hl in H. apply H.
        intros g Hg. apply in_app_iff in Hg as [Hg|[<-|[]]]; auto. now apply Hgs. }
      rewrite push_ok by (unfold goff; rewrite offs_length, map_length; lia). cbn [bind].
      assert (Eo : goff gs ++ [k] = goff (gs ++ [cur])).
      { unfold goff. rewrite map_app. cbn [map]. rewrite offs_app, sum_len. f_equal. f_equal. rewrite app_length in Hl. lia. }
      rewrite Eo. unfold goff at 1. rewrite offs_length, map_length. replace (S (length gs) - 1) with (length gs) by lia.
      change (mkFin (goff (gs ++ [cur])) (concat (map sort_nat gs) ++ cur ++ b :: rest) (offs 0 (map (@length nat) (map gcol gs))) (concat (map gcol gs)) (offs 0 (map (@length (M B)) (map gdat gs))) (concat (map gdat gs))
          (fold_left Nat.max (map (fun g => length (gkey g)) gs) 0) (fold_left Nat.max (map (fun g => length (grows g)) gs) 0)) with (fin_of gs (goff (gs ++ [cur])) (cur ++ b :: rest)).
      rewrite getColsVals_ok; auto.
      2:{ intros h Hh. now apply Hgs. }
      2:{ eapply wt_part. rewrite E, app_assoc. reflexivity. }
      2:{ etransitivity; [exact Hcap|]. apply cap_mono; lia. }
      2:lia.
      exists (gs ++ [cur]), [b], rest. split. reflexivity.
      destruct (good_group_intro [b] (key b)) as [G' K']. discriminate. intros c [<-|[]]; auto.
      unfold inv. rewrite concat_app. cbn [concat]. rewrite app_nil_r, <- !app_assoc. cbn [app]. split; auto.
      split. rewrite !app_length in *. cbn. lia. split. intros g Hg. apply in_app_iff in Hg as [Hg|[<-|[]]]; auto. split; auto.
      split; [|split].
      + rewrite cap_step by lia. unfold chg. rewrite Ea', Eb'. rewrite Hkey. rewrite EQ. rewrite map_app, list_sum_app in *. cbn [map] in *. rewrite K'. unfold list_sum at 2. unfold list_sum at 2 in Hcap. cbn [fold_right] in *. lia.
      + rewrite K'. intros g Hg Xg. apply in_app_iff in Hg as [Hg|[<-|[]]]; [|auto].
        (* g is earlier than cur, cur earlier than b, key g = key b *)
        destruct (Hgs g Hg) as [Ng Gg]. pose proof (last_In g 0 Ng) as Hx. set (x := last g 0) in *. destruct (Gg x Hx) as [_ Kx].
        assert (Hxc : In x (concat gs)) by (apply in_concat; eauto). destruct (In_nth _ _ 0 Hxc) as (i & Hi & Ei).
        assert (Ei' : nth i sorted_rows 0 = x) by (rewrite E, app_nth1; auto).
        rewrite app_length in Hl. assert (length cur <> 0) by (destruct cur; cbn; congruence).
        pose proof (ss_nth _ _ sr_sorted i (k - 1) ltac:(lia) ltac:(rewrite sr_len; lia)) as O1. cbv beta in O1. rewrite Ei', Ea' in O1.
        pose proof (ss_nth _ _ sr_sorted (k - 1) k ltac:(lia) ltac:(rewrite sr_len; lia)) as O2. cbv beta in O2. rewrite Ea', Eb' in O2.
        rewrite Kx, Xg, Hkey in O1. rewrite Hkey in O2. apply NE. apply lexi_antisym; auto.
      + apply FOP_app1; auto.
  Qed.
  Lemma loop_ok : 0 < nR -> exists gs cur, foldM loop_body (seq 1 (nR - 1)) (mkFin [0] sorted_rows [0] [] [0] [] 0 0) = Ret (fin_of gs (goff gs) cur) /\ inv nR gs cur [].
  Proof.
    intros H0. enough (G : forall j, j < nR -> exists gs cur rest, foldM loop_body (seq 1 j) (mkFin [0] sorted_rows [0] [] [0] [] 0 0) = Ret (fin_of gs (goff gs) (cur ++ rest)) /\ inv (S j) gs cur rest).
    { destruct (G (nR - 1) ltac:(lia)) as (gs & cur & rest & E & I). replace (S (nR - 1)) with nR in I by lia. exists gs, cur.
      assert (rest = []). { destruct I as (E1 & E2 & _). pose proof sr_len as HL. rewrite E1, app_assoc, app_length, E2 in HL. destruct rest; cbn in HL; [auto|lia]. }
      subst rest. rewrite app_nil_r in E. auto. }
    induction j as [|j IH]; intros Hj.
    - assert (Hs : sorted_rows = nth 0 sorted_rows 0 :: tl sorted_rows) by (pose proof sr_len; destruct sorted_rows; cbn in *; [lia|auto]).
      set (b := nth 0 sorted_rows 0) in *. exists [], [b], (tl sorted_rows). split. cbn [foldM seq]. unfold fin_of. cbn. f_equal. f_equal. exact Hs.
      assert (Hb : b < nR) by (apply sr_lt, nth_In; rewrite sr_len; lia).
      destruct (good_group_intro [b] (key b)) as [G' K']. discriminate. intros c [<-|[]]; auto.
      split. exact Hs. split. reflexivity. split. intros g []. split; auto. split. cbn [app map list_sum fold_right]. unfold list_sum. cbn [fold_right]. rewrite K'.
      pose proof (first_ok H0). fold b in H. unfold cap_upto. cbn [seq fold_left Nat.sub]. lia. split. intros g []. constructor.
    - destruct IH as (gs & cur & rest & E & I); [lia|]. rewrite seq_S, foldM_app, E. cbn [bind foldM plus].
      destruct (loop_step (S j) gs cur rest ltac:(lia) Hj I) as (gs' & cur' & rest' & E' & I'). exists gs', cur', rest'. rewrite E'. cbn [bind]. auto.
  Qed.
End Fin.
