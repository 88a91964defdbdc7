From Verif Require Import Base AGroup ArraysModel LinAlg LinTools GSModel SparseModel BlockModel EQCModel CtrModel BlockProofs2 CtrProofs CtrProofs2 AggMapProofs DynModel DynProofs DynProofs2.
Open Scope nat_scope.

(** what the block storage means: row block k holds the scalar rows bl_k, all with the stored columns pt_k, row by row *)
Record rep {B : Blk} (A : @spmat B) (D : dyn B) (bl pt : list (list nat)) : Prop := mkRep {
  r_num : d_num D = length bl;
  r_num2 : length pt = length bl;
  r_rows : forall k, k < length bl -> exists br, block_rows D k = Ret br /\ it_nums (d_row D) br = Ret (nth k bl []);
  r_cols : forall k, k < length bl -> exists bc, block_cols D k = Ret bc /\ it_nums (d_col D) bc = Ret (nth k pt []);
  r_data : forall k, k < length bl -> exists df, rd (d_dataOff D) k = Ret df /\
      rd (d_dataOff D) (S k) = Ret (df + length (nth k bl []) * length (nth k pt [])) /\
      flat_matrix (d_data D) (length (nth k bl [])) (length (nth k pt [])) df = Ret (map (fun r => map snd (getrow A r)) (nth k bl []));
  r_maxR : forall k, k < length bl -> length (nth k bl []) <= d_maxR D;
  r_maxC : forall k, k < length bl -> length (nth k pt []) <= d_maxC D;
  r_pat : forall k r, k < length bl -> In r (nth k bl []) -> rcols (getrow A r) = nth k pt [];
  r_ne : forall k, k < length bl -> nth k bl [] <> [];
  r_ss : forall k, k < length bl -> StronglySorted lt (nth k bl []);
  r_perm : Permutation (concat bl) (seq 0 (length A)) }.

Lemma rd_app_r {T} (a b : list T) i : rd (a ++ b) (length a + i) = rd b i.
Proof. unfold rd. rewrite nth_error_app2 by lia. now replace (length a + i - length a) with i by lia. Qed.
Lemma mapM_ext {S T} (f g : S -> res T) l : (forall a, In a l -> f a = g a) -> mapM f l = mapM g l.
Proof. induction l as [|a l IH]; intros H; cbn; auto. rewrite H by now left. rewrite IH by (intros; apply H; now right). reflexivity. Qed.
Lemma mapM_rd_all {T} (l post : list T) : mapM (rd (l ++ post)) (seq 0 (length l)) = Ret l.
Proof.
  destruct l as [|d l']. reflexivity. remember (d :: l') as l eqn:El. clear El.
  rewrite (mapM_ok _ (fun j => nth j l d)).
  - assert (E : map (fun j => nth j l d) (seq 0 (length l)) = l); [|now rewrite E].
    apply (nth_ext_len _ _ d); rewrite map_length, seq_length; auto. intros i Hi.
    rewrite nth_indep with (d' := (fun j => nth j l d) 0) by (rewrite map_length, seq_length; auto). rewrite (map_nth (fun j => nth j l d)). now rewrite seq_nth.
  - intros j Hj. apply in_seq in Hj. rewrite (rd_nth _ _ d) by (rewrite app_length; lia). now rewrite app_nth1 by lia.
Qed.
Lemma flat_matrix_ok {T} (w : nat) (rows : list (list T)) : (forall r, In r rows -> length r = w) -> forall pre post,
  flat_matrix (pre ++ concat rows ++ post) (length rows) w (length pre) = Ret rows.
Proof.
  induction rows as [|r rows IH]; intros H pre post. reflexivity. unfold flat_matrix in *. cbn [length seq mapM concat].
  assert (Er : length r = w) by (apply H; now left).
  rewrite (mapM_ext _ (rd (r ++ concat rows ++ post))).
  2:{ intros j _. rewrite <- app_assoc. rewrite Nat.mul_0_l, Nat.add_0_r. apply rd_app_r. }
  rewrite <- Er at 1. rewrite mapM_rd_all. cbn [bind].
  rewrite <- seq_shift. assert (Em : forall (f : nat -> res (list T)) l, mapM f (map S l) = mapM (fun i => f (S i)) l).
  { clear. induction l; cbn; auto. now rewrite IHl. }
  rewrite Em. rewrite (mapM_ext _ (fun l => mapM (fun j => rd ((pre ++ r) ++ concat rows ++ post) (length (pre ++ r) + l * w + j)) (seq 0 w))).
  2:{ intros l _. apply mapM_ext. intros j _. rewrite <- !app_assoc. f_equal. rewrite app_length. rewrite Er. cbn [Nat.mul]. lia. }
  rewrite IH by (intros; apply H; now right). reflexivity.
Qed.

Section Fin2.
  Context {B : Blk}.
  Variable qsort : (nat -> nat -> bool) -> list nat -> list nat.
  Hypothesis Q : qsort_ok qsort.
  Variables (A : @spmat B) (nc : nat) (rb cb : blocking).
  Hypothesis VR : valid_bk (length A) rb.
  Hypothesis VC : valid_bk nc cb.
  Notation key := (rep_key A rb).
  Hypothesis Same : forall b r, b < bk_size rb -> In r (bnums rb b) -> rcols (getrow A r) = key b.
  Hypothesis Sorted : forall r, StronglySorted lt (rcols (getrow A r)).
  Hypothesis Cols : forall r c, In c (rcols (getrow A r)) -> c < nc.

  Lemma size_zero : (bk_size rb = 0 <-> length A = 0).
  Proof.
    split; intros H.
    - pose proof (bnums_all _ _ VR) as E. rewrite H in E. cbn in E. destruct (length A); [auto|discriminate].
    - destruct (bk_size rb) eqn:E; auto. pose proof (bnums_rep _ _ VR 0 ltac:(lia)) as Hr. apply (bnums_lt _ _ VR) in Hr; lia.
  Qed.
  Definition gs_ok (gs : list (list nat)) : Prop :=
    concat gs = sorted_rows qsort A rb /\ (forall g, In g gs -> good_group A rb g) /\ distinct A rb gs.
  Lemma Finalize_ok : exists s2b gs, length s2b = nc /\ (forall b c, b < bk_size cb -> In c (bnums cb b) -> nth c s2b None = Some b) /\ gs_ok gs /\
    Finalize qsort A rb cb = Ret (let f := fin_of A rb s2b gs (goff gs) [] in
       mkDyn rb cb (length gs) (goff gs) (concat (map sort_nat gs)) (f_colOff f) (f_cols f) (f_dataOff f) (f_data f) (f_maxC f) (f_maxR f)).
  Proof.
    destruct (scal2Block_ok _ _ VC) as (s2b & E & S2 & S3). unfold Finalize. rewrite E. cbn [bind]. exists s2b.
    change (qsort (fun i j => lexiLess (key i) (key j)) (seq 0 (bk_size rb))) with (sorted_rows qsort A rb).
    rewrite (max_col_size_ok A nc rb VR s2b S2) by (try apply (sr_len qsort Q); intros; now apply (sr_lt qsort Q A nc rb s2b S2)). cbn [bind].
    rewrite (bk_scal_n _ _ VR). fold (first_len A).
    destruct (Nat.eq_dec (bk_size rb) 0) as [Z|NZ].
    - pose proof (proj1 size_zero Z) as Z'. exists []. rewrite Z, Z'. cbn [Nat.ltb Nat.leb Nat.sub seq foldM bind]. split; auto. split; auto.
      assert (E0 : sorted_rows qsort A rb = []). { apply length_zero_iff_nil. now rewrite (sr_len qsort Q). }
      split. split. now rewrite E0. split. intros g []. constructor. rewrite E0. reflexivity.
    - destruct (loop_ok qsort Q A nc rb cb VR VC Same Cols s2b S2 S3 ltac:(lia)) as (gs & cur & EL & I).
      unfold loop_body in EL. rewrite EL. cbn [bind]. destruct I as (I1 & I2 & I3 & I4 & I5 & I6 & I7).
      assert (L0 : 0 <? bk_size rb = true) by (apply Nat.ltb_lt; lia). assert (L1 : 0 <? length A = true) by (apply Nat.ltb_lt; pose proof size_zero; lia).
      rewrite L0, L1. rewrite app_nil_r in I1. rewrite app_length in I2.
      assert (HG : length gs + 1 <= bk_size rb).
      { pose proof (len_concat_le (gs ++ [cur])) as H. rewrite concat_app, !app_length in H. cbn in H. rewrite app_nil_r in H. rewrite I2 in H. apply H.
        intros g Hg. apply in_app_iff in Hg as [Hg|[<-|[]]]; auto. now apply I3. now apply I4. }
      cbn [f_rows f_rowOff f_colOff f_cols f_dataOff f_data f_maxC f_maxR fin_of].
      rewrite push_ok by (unfold goff; rewrite offs_length, map_length; lia). cbn [bind].
      assert (Eo : goff gs ++ [bk_size rb] = goff (gs ++ [cur])).
      { unfold goff. rewrite map_app. cbn [map]. rewrite offs_app, sum_len. f_equal. f_equal. lia. }
      rewrite Eo. cbn [f_rowOff].
      replace (length (goff (gs ++ [cur])) - 2) with (length gs) by (unfold goff; rewrite offs_length, map_length, app_length; cbn; lia).
      pose proof (getColsVals_ok A nc rb cb VR VC Cols s2b S2 S3 (length (concat A)) (cap_upto A rb (first_len A) (sorted_rows qsort A rb) (bk_size rb)) gs cur []) as GC.
      rewrite app_nil_r in GC.
      change (mkFin (goff (gs ++ [cur])) (concat (map sort_nat gs) ++ cur) (offs 0 (map (@length nat) (map (gcol A rb s2b) gs))) (concat (map (gcol A rb s2b) gs)) (offs 0 (map (@length (M B)) (map (gdat A rb) gs))) (concat (map (gdat A rb) gs))
          (fold_left Nat.max (map (fun h => length (gkey A rb h)) gs) 0) (fold_left Nat.max (map (fun h => length (grows rb h)) gs) 0)) with (fin_of A rb s2b gs (goff (gs ++ [cur])) cur).
      rewrite GC; auto.
      2:{ intros h Hh. now apply I3. }
      2:{ eapply (wt_part qsort Q A nc rb VR s2b S2 _ []). now rewrite I1, app_nil_r. }
      2:lia.
      cbn [bind]. exists (gs ++ [cur]). split; auto. split; auto. split.
      { split. rewrite concat_app. cbn [concat]. now rewrite app_nil_r. split. intros g Hg. apply in_app_iff in Hg as [Hg|[<-|[]]]; auto. apply FOP_app1; auto. }
      f_equal. cbn [f_rows f_rowOff f_colOff f_cols f_dataOff f_data f_maxC f_maxR fin_of]. rewrite !app_nil_r. f_equal.
      unfold goff. rewrite offs_length, map_length. lia.
  Qed.
  (** patterns closed under column blocks *)
  Hypothesis Closed : forall r, closed_cols cb (rcols (getrow A r)).
  Lemma good_nth gs g : gs_ok gs -> In g gs -> good_group A rb g. Proof. intros (_ & H & _). apply H. Qed.
  Lemma grows_in gs g r : gs_ok gs -> In g gs -> In r (grows rb g) -> r < length A /\ rcols (getrow A r) = gkey A rb g.
  Proof.
    intros H Hg Hr. destruct (good_nth gs g H Hg) as [_ G]. unfold grows in Hr. apply in_flat_map in Hr as (b & Hb & Hr).
    apply (Permutation_in _ (sort_nat_perm g)) in Hb. destruct (G b Hb) as [Hb1 Hb2]. split. eapply (bnums_lt _ _ VR); eauto. rewrite <- Hb2. now apply Same.
  Qed.
  Lemma Finalize_rep : exists D gs, Finalize qsort A rb cb = Ret D /\ d_row D = rb /\ d_col D = cb /\ gs_ok gs /\ rep A D (map (grows rb) gs) (map (gkey A rb) gs).
  Proof.
    destruct Finalize_ok as (s2b & gs & S2 & S3 & G & E). cbv zeta in E. cbn [f_rows f_rowOff f_colOff f_cols f_dataOff f_data f_maxC f_maxR fin_of] in E.
    eexists. exists gs. split; [exact E|]. split; [reflexivity|]. split; [reflexivity|]. split; auto.
    assert (L : map (@length nat) (map sort_nat gs) = map (@length nat) gs).
    { rewrite map_map. apply map_ext. intros g. apply Permutation_length, sort_nat_perm. }
    assert (Eg : forall k, k < length gs -> nth k (map (grows rb) gs) [] = grows rb (nth k gs []) /\ nth k (map (gkey A rb) gs) [] = gkey A rb (nth k gs []) /\ In (nth k gs []) gs).
    { intros k Hk. repeat split.
      - rewrite nth_indep with (d' := grows rb []) by now rewrite map_length. apply map_nth.
      - rewrite nth_indep with (d' := gkey A rb []) by now rewrite map_length. apply map_nth.
      - now apply nth_In. }
    constructor; cbn [d_num d_row d_col d_rowOff d_rows d_colOff d_cols d_dataOff d_data d_maxC d_maxR]; rewrite ?map_length.
    - reflexivity.
    - reflexivity.
    - intros k Hk. destruct (Eg k Hk) as (E1 & E2 & E3). exists (sort_nat (nth k gs [])). unfold block_rows. cbn [d_rowOff d_rows].
      unfold goff. rewrite <- L. rewrite !rd_offs by (rewrite map_length; lia). cbn [bind]. rewrite range_concat by (rewrite map_length; lia).
      rewrite nth_indep with (d' := sort_nat []) by now rewrite map_length. rewrite map_nth. split; auto.
      rewrite (it_nums_ok _ _ VR). now rewrite E1. intros b Hb. apply (Permutation_in _ (sort_nat_perm _)) in Hb. now apply (good_nth gs _ G E3).
    - intros k Hk. destruct (Eg k Hk) as (E1 & E2 & E3). exists (gcol A rb s2b (nth k gs [])). unfold block_cols. cbn [d_colOff d_cols].
      rewrite !rd_offs by (rewrite map_length; lia). cbn [bind]. rewrite range_concat by (rewrite map_length; lia).
      rewrite nth_indep with (d' := gcol A rb s2b []) by now rewrite map_length. rewrite map_nth. split; auto.
      rewrite E2. unfold gcol, gkey, rep_key. rewrite (it_nums_ok _ _ VC). f_equal. apply (bcols_flat nc cb VC s2b S2 S3); auto. intros; eapply Cols; eauto.
      apply (bcols_lt nc cb VC s2b S2 S3); auto. intros; eapply Cols; eauto.
    - intros k Hk. destruct (Eg k Hk) as (E1 & E2 & E3). rewrite E1, E2. set (g := nth k gs []) in *.
      assert (Hw : forall v, In v (map (fun r => map (@snd nat (M B)) (getrow A r)) (grows rb g)) -> length v = length (gkey A rb g)).
      { intros v Hv. apply in_map_iff in Hv as (r & <- & Hr). destruct (grows_in gs g r G E3 Hr) as [_ <-]. unfold rcols. now rewrite !map_length. }
      assert (Eg' : gdat A rb g = concat (map (fun r => map snd (getrow A r)) (grows rb g))) by (unfold gdat; apply flat_map_concat_map).
      assert (Hgl : length (gdat A rb g) = length (grows rb g) * length (gkey A rb g)).
      { rewrite Eg', <- sum_len. rewrite <- (map_length (fun r => map (@snd nat (M B)) (getrow A r)) (grows rb g)). clear -Hw.
        induction (map (fun r => map (@snd nat (M B)) (getrow A r)) (grows rb g)) as [|v l IH]; cbn [map length]; auto. unfold list_sum in *. cbn [fold_right].
        rewrite IH by (intros; apply Hw; now right). rewrite (Hw v) by now left. reflexivity. }
      exists (length (concat (firstn k (map (gdat A rb) gs)))). rewrite !rd_offs by (rewrite map_length; lia). split; auto.
      assert (Ek : nth k (map (gdat A rb) gs) [] = gdat A rb g).
      { rewrite nth_indep with (d' := gdat A rb []) by now rewrite map_length. apply map_nth. }
      split.
      + rewrite (firstn_S_app _ _ []) by now rewrite map_length. rewrite concat_app, app_length. cbn [concat]. rewrite app_nil_r, Ek. f_equal. lia.
      + rewrite (concat_split (map (gdat A rb) gs) k) by now rewrite map_length. rewrite Ek, Eg'.
        rewrite <- (map_length (fun r => map (@snd nat (M B)) (getrow A r)) (grows rb g)). now apply flat_matrix_ok.
    - intros k Hk. destruct (Eg k Hk) as (E1 & E2 & E3). rewrite E1. apply maxl_ge. left. apply in_map_iff. eauto.
    - intros k Hk. destruct (Eg k Hk) as (E1 & E2 & E3). rewrite E2. apply maxl_ge. left. apply in_map_iff. eauto.
    - intros k r Hk Hr. destruct (Eg k Hk) as (E1 & E2 & E3). rewrite E1 in Hr. rewrite E2. eapply grows_in; eauto.
    - intros k Hk. destruct (Eg k Hk) as (E1 & E2 & E3). rewrite E1. destruct (good_nth gs _ G E3) as [N Gd]. unfold grows.
      pose proof (Permutation_length (sort_nat_perm (nth k gs []))) as HL. destruct (sort_nat (nth k gs [])) as [|b t] eqn:Es.
      destruct (nth k gs []); cbn in *; [congruence|lia]. cbn [flat_map]. intros X. assert (Hb : b < bk_size rb).
      { apply Gd. apply (Permutation_in _ (sort_nat_perm _)). rewrite Es. now left. }
      pose proof (bnums_rep _ _ VR b Hb) as Hr. destruct (bnums rb b); [destruct Hr|discriminate].
    - intros k Hk. destruct (Eg k Hk) as (E1 & E2 & E3). rewrite E1. destruct (good_nth gs _ G E3) as [N Gd]. unfold grows.
      apply (flat_bnums_sorted _ _ VR). 2:{ intros b Hb. apply (Permutation_in _ (sort_nat_perm _)) in Hb. now apply Gd. }
      apply ss_lt_of_le. apply sort_nat_sorted. apply (Permutation_NoDup (Permutation_sym (sort_nat_perm _))).
      assert (ND : NoDup (concat gs)). { destruct G as (-> & _). apply (Permutation_NoDup (Permutation_sym (sr_perm qsort Q A rb))), seq_NoDup. }
      clear -E3 ND. revert E3. generalize (nth k gs []). intros g Hg. apply in_split in Hg as (a & b & ->). rewrite concat_app in ND. cbn [concat] in ND.
      clear -ND. induction (concat a) as [|x l IH]; cbn [app] in ND. 2:{ inversion ND; auto. }
      induction g as [|x g IH]; constructor; cbn [app] in ND; inversion ND; subst; auto. intros Hx. apply H1. apply in_or_app. now left.
    - destruct G as (Gc & _). rewrite <- (bnums_all _ _ VR). rewrite <- flat_map_concat_map.
      transitivity (flat_map (bnums rb) (concat gs)).
      + clear. induction gs as [|g gs IH]; cbn [flat_map concat]; auto. rewrite flat_map_app. apply Permutation_app; auto. unfold grows. apply flat_map_perm, sort_nat_perm.
      + rewrite Gc. apply flat_map_perm, (sr_perm qsort Q).
  Qed.
End Fin2.

(** *** the constructor's blocking *)
Section Ctor.
  Context {B : Blk}.
  Variable A : @spmat B.
  Notation cols r := (rcols (getrow A r)).
  (** rows a..b-1 have equal columns *)
  Lemma row_blocking_ok : exists rb, row_blocking A = Ret rb /\ valid_bk (length A) rb /\
    (forall b r, b < bk_size rb -> In r (bnums rb b) -> cols r = rep_key A rb b) /\
    (forall b, S b < bk_size rb -> cols (nth (S b) (bk_off rb) 0 - 1) <> rep_key A rb (S b)).
  Proof.
    unfold row_blocking. destruct (Nat.ltb_spec 0 (length A)) as [H0|H0].
    2:{ exists (mkBk 0 (length A) [0]). split; auto. split. { exists []. split. constructor. split. cbn; lia. reflexivity. } split; cbn; intros; lia. }
    set (n := length A) in *.
    (* after step k the offsets are those of sizes sz, plus the current run *)
    assert (G : forall j, j < n -> exists sz, 
      foldM (fun offs k => a <- rd A (k - 1) ;; b <- rd A k ;; if list_eqb (rcols a) (rcols b) then Ret offs else push (S n) offs k) (seq 1 j) [0] = Ret (offs 0 sz) /\
      Forall (lt 0) sz /\ list_sum sz <= j /\ 
      (forall r, list_sum sz <= r <= j -> cols r = cols (list_sum sz)) /\
      (forall b r, b < length sz -> list_sum (firstn b sz) <= r < list_sum (firstn (S b) sz) -> cols r = cols (list_sum (firstn b sz))) /\
      (forall b, b < length sz -> cols (list_sum (firstn (S b) sz) - 1) <> cols (list_sum (firstn (S b) sz)))).
    { induction j as [|j IH]; intros Hj.
      - exists []. cbn [seq foldM]. split; auto. split; auto. split; auto. split. { intros r Hr. cbn in Hr. assert (r = 0) by lia. now subst. } split; cbn; intros; lia.
      - destruct IH as (sz & E & F & Hs & Hc & Hb & Hd); [lia|]. rewrite seq_S, foldM_app, E. cbn [bind foldM plus].
        rewrite !(rd_nth A _ []) by (fold n; lia). cbn [bind]. replace (S j - 1) with j by lia.
        change (rcols (nth j A [])) with (cols j). change (rcols (nth (S j) A [])) with (cols (S j)).
        destruct (list_eqb (cols j) (cols (S j))) eqn:EQ.
        + apply leqb_iff in EQ. exists sz. cbn [bind]. repeat split; auto. intros r Hr. destruct (Nat.eq_dec r (S j)) as [->|N]; [|apply Hc; lia]. rewrite <- EQ. apply Hc; lia.
        + assert (NE : cols j <> cols (S j)) by (intros X; apply leqb_iff in X; congruence).
          assert (Hl : length sz <= list_sum sz). { clear -F. unfold list_sum. induction F; cbn; lia. }
          rewrite push_ok by (rewrite offs_length; lia). cbn [bind]. exists (sz ++ [S j - list_sum sz]).
          assert (Hlt : list_sum sz <= j) by lia.
          assert (Esum : list_sum (sz ++ [S j - list_sum sz]) = S j) by (rewrite list_sum_app; unfold list_sum at 2; cbn [fold_right]; lia).
          assert (F1 : forall b, b <= length sz -> firstn b (sz ++ [S j - list_sum sz]) = firstn b sz).
          { intros b Hbb. rewrite firstn_app. replace (b - length sz) with 0 by lia. now rewrite app_nil_r. }
          assert (F2 : firstn (S (length sz)) (sz ++ [S j - list_sum sz]) = sz ++ [S j - list_sum sz]) by (apply firstn_all2; rewrite app_length; cbn; lia).
          split. rewrite offs_app. f_equal. f_equal. f_equal. lia. split. apply Forall_app. split; auto. constructor; [lia|constructor]. split. lia. split.
          { intros r Hr. rewrite Esum in *. f_equal. f_equal. lia. }
          rewrite app_length. cbn [length]. split.
          * intros b r Hbl Hr. destruct (Nat.eq_dec b (length sz)) as [->|N].
            -- rewrite (F1 (length sz)) in * by lia. rewrite F2 in Hr. rewrite firstn_all in *. rewrite Esum in Hr. apply Hc. lia.
            -- rewrite (F1 b) in * by lia. rewrite (F1 (S b)) in Hr by lia. apply Hb; lia.
          * intros b Hbl. destruct (Nat.eq_dec b (length sz)) as [->|N].
            -- rewrite F2, Esum. now replace (S j - 1) with j by lia.
            -- rewrite F1 by lia. apply Hd. lia. }
    destruct (G (n - 1) ltac:(lia)) as (sz & E & F & Hs & Hc & Hb & Hd). rewrite E. cbn [bind].
    assert (Hl : length sz <= list_sum sz). { clear -F. unfold list_sum. induction F; cbn; lia. }
    rewrite push_ok by (rewrite offs_length; lia). cbn [bind].
    set (sz' := sz ++ [n - list_sum sz]).
    assert (Esum : list_sum sz' = n) by (unfold sz'; rewrite list_sum_app; unfold list_sum at 2; cbn [fold_right]; lia).
    assert (Eo : offs 0 sz ++ [n] = offs 0 sz') by (unfold sz'; rewrite offs_app; f_equal; f_equal; lia).
    rewrite Eo. assert (Ls : length sz' = S (length sz)) by (unfold sz'; rewrite app_length; cbn; lia).
    assert (F1 : forall b, b <= length sz -> firstn b sz' = firstn b sz).
    { intros b Hbb. unfold sz'. rewrite firstn_app. replace (b - length sz) with 0 by lia. now rewrite app_nil_r. }
    assert (F2 : firstn (S (length sz)) sz' = sz') by (apply firstn_all2; lia).
    exists (mkBk (length sz') n (offs 0 sz')). split. rewrite offs_length. f_equal. f_equal. lia. split.
    { exists sz'. split. unfold sz'. apply Forall_app. split; auto. constructor; [lia|constructor]. split; auto. }
    unfold rep_key, bnums. cbn [bk_size bk_off]. split.
    - intros b r Hbl Hr. apply in_seq in Hr. rewrite !nth_offs by lia. rewrite !nth_offs in Hr by lia. cbn [plus] in *. rewrite (F1 b) by lia. rewrite (F1 b) in Hr by lia.
      destruct (Nat.eq_dec b (length sz)) as [->|N].
      + rewrite F2 in Hr. rewrite firstn_all in *. rewrite Esum in Hr. apply Hc. lia.
      + rewrite F1 in Hr by lia. apply Hb; lia.
    - intros b Hbl. rewrite !nth_offs by lia. cbn [plus]. rewrite !F1 by lia. apply Hd. lia.
  Qed.
End Ctor.
