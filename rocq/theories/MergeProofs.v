(** MergeArrays computes the strictly ascending union, for every number of rows. *)
From Verif Require Import Base ArraysModel ArraysProofs ArraysProofs2 MergeModel.
Open Scope Z_scope.

Lemma hslot_lt v : 0 <= v -> (hslot v < 1024)%nat.
Proof.
  intros H. unfold hslot, nhash1. change 1023 with (Z.ones 10). rewrite Z.land_ones by lia.
  pose proof (Z.mod_pos_bound v (2^10)). change (2^10) with 1024 in *. lia.
Qed.
Lemma perm_upd2 {A} (l : list A) i j x d : (i < length l)%nat -> (j < length l)%nat -> i <> j ->
  Permutation (upd (upd l i (nth j l d)) j x) (upd l i x).
Proof.
  revert i j. induction l as [|a l IH]; intros [|i] [|j] Hi Hj Hn; simpl in *; try lia.
  - assert (G : forall (l : list A) j, (j < length l)%nat -> Permutation (nth j l d :: upd l j x) (x :: l)).
    { clear. induction l as [|b l IH]; intros [|j] H; simpl in *; try lia. apply perm_swap.
      eapply perm_trans; [apply perm_swap|]. eapply perm_trans; [apply perm_skip, IH; lia|]. apply perm_swap. }
    apply G; lia.
  - assert (G : forall (l : list A) i, (i < length l)%nat -> Permutation (x :: upd l i a) (a :: upd l i x)).
    { clear. induction l as [|b l IH]; intros [|i] H; simpl in *; try lia. apply perm_swap.
      eapply perm_trans; [apply perm_swap|]. eapply perm_trans; [|apply perm_swap]. apply perm_skip. apply IH. lia. }
    apply G; lia.
  - apply perm_skip. apply IH; lia.
Qed.
Lemma perm_upd_last {A} (l : list A) a x : Permutation (upd (l ++ [a]) (length l) x) (x :: l).
Proof. induction l; simpl; auto. eapply perm_trans; [apply perm_skip, IHl|]. apply perm_swap. Qed.
Lemma upd_upd_same {A} (l : list A) i x y : upd (upd l i x) i y = upd l i y.
Proof. revert i. induction l; intros [|i]; simpl; auto. now rewrite IHl. Qed.
Lemma upd_comm {A} (l : list A) i j x y : i <> j -> upd (upd l i x) j y = upd (upd l j y) i x.
Proof. revert i j. induction l; intros [|i] [|j] H; simpl; auto; try lia. f_equal. apply IHl. lia. Qed.
Lemma upd_nth_same {A} (l : list A) i d : upd l i (nth i l d) = l.
Proof. revert i. induction l; intros [|i]; simpl; auto. now rewrite IHl. Qed.

Lemma mval_upd_eq mv i x : (i < length mv)%nat -> mval (upd mv i x) i = fst x.
Proof. intros H. unfold mval. now rewrite nth_upd_eq. Qed.
Lemma mval_upd_neq mv i j x : i <> j -> mval (upd mv i x) j = mval mv j.
Proof. intros H. unfold mval. now rewrite nth_upd_neq. Qed.

(** *** partition *)
Lemma scan_up_ok mv mid : forall fuel l s, (length mv <= l + fuel)%nat -> (l <= s < length mv)%nat -> mval mv s <= mid ->
  exists l', scan_up fuel mv mid l = Ret l' /\ (l <= l' <= s)%nat /\ mval mv l' <= mid /\ (forall k, (l <= k < l')%nat -> mid < mval mv k).
Proof.
  induction fuel as [|f IH]; intros l s Hf Hs Hm; [lia|]. simpl. rewrite (rd_ok mv l (0, O)) by lia. cbn [bind].
  fold (mval mv l). destruct (Z.gtb_spec (mval mv l) mid) as [C|C].
  - assert (l <> s) by (intros ->; lia). destruct (IH (S l) s) as (l' & E & H1 & H2 & H3); [lia|lia|auto|].
    exists l'. split; auto. split; [lia|]. split; auto. intros k Hk. destruct (Nat.eq_dec k l) as [->|]; auto. apply H3. lia.
  - exists l. split; auto. split; [lia|]. split; auto. intros; lia.
Qed.
Lemma scan_down_ok mv mid : forall fuel r s, (r < fuel)%nat -> (s <= r < length mv)%nat -> mid < mval mv s ->
  exists r', scan_down fuel mv mid r = Ret r' /\ (s <= r' <= r)%nat /\ mid < mval mv r' /\ (forall k, (r' < k <= r)%nat -> mval mv k <= mid).
Proof.
  induction fuel as [|f IH]; intros r s Hf Hs Hm; [lia|]. simpl. rewrite (rd_ok mv r (0, O)) by lia. cbn [bind].
  fold (mval mv r). destruct (Z.leb_spec (mval mv r) mid) as [C|C].
  - assert (r <> s) by (intros ->; lia). destruct r as [|r]; [lia|]. destruct (IH r s) as (r' & E & H1 & H2 & H3); [lia|lia|auto|].
    exists r'. split; auto. split; [lia|]. split; auto. intros k Hk. destruct (Nat.eq_dec k (S r)) as [->|]; auto. apply H3. lia.
  - exists r. split; auto. split; [lia|]. split; auto. intros; lia.
Qed.
Lemma partition_ok mid lower : forall fuel mv l r1, (r1 - l < fuel)%nat ->
  (lower <= l)%nat -> (l <= r1 <= length mv)%nat ->
  (forall k, (lower <= k < l)%nat -> mid < mval mv k) -> (forall k, (r1 <= k < length mv)%nat -> mval mv k <= mid) ->
  (exists s, (l <= s < length mv)%nat /\ mval mv s <= mid) -> (exists s, (lower <= s < r1)%nat /\ mid < mval mv s) ->
  exists mv' l', partition fuel mv mid l r1 = Ret (mv', l') /\ Permutation mv' mv /\ length mv' = length mv /\
    (lower < l' < length mv)%nat /\
    (forall k, (k < lower)%nat -> nth k mv' (0, O) = nth k mv (0, O)) /\
    (forall k, (lower <= k < l')%nat -> mid < mval mv' k) /\ (forall k, (l' <= k < length mv)%nat -> mval mv' k <= mid).
Proof.
  induction fuel as [|f IH]; intros mv l r1 Hf Hl Hr HL HR (s & Hs & Hsm) (s' & Hs' & Hsm'); [lia|].
  cbn [partition]. destruct (Nat.ltb_spec l r1) as [C|C].
  - destruct (scan_up_ok mv mid (S (length mv)) l s) as (l1 & E1 & B1 & M1 & U1); auto; [lia|]. rewrite E1. cbn [bind].
    destruct (scan_down_ok mv mid (S (length mv)) (r1 - 1) s') as (r & E2 & B2 & M2 & D2); auto; [lia|lia|]. rewrite E2. cbn [bind].
    (* l1 is at most r1 and r at least l1 - 1 *)
    assert (L1 : (l1 <= r1)%nat). { destruct (Nat.le_gt_cases l1 r1); auto. specialize (U1 r1 ltac:(lia)). specialize (HR r1 ltac:(lia)). lia. }
    assert (R1 : (l1 <= S r)%nat). { destruct (Nat.le_gt_cases l1 (S r)); auto.
      assert (D := D2 (l1 - 1)%nat ltac:(lia)).
      destruct (Nat.le_gt_cases l (l1 - 1)) as [Y|Y]; [specialize (U1 (l1-1)%nat ltac:(lia)); lia|].
      assert (l1 = l) by lia. subst l1. specialize (HL (l - 1)%nat ltac:(lia)). lia. }
    assert (NE : l1 <> r) by (intros ->; lia).
    destruct (Nat.ltb_spec l1 r) as [Q|Q].
    + unfold swap. rewrite (rd_ok mv l1 (0,O)), (rd_ok mv r (0,O)) by lia. cbn [bind]. rewrite wr_ok by lia. cbn [bind]. rewrite wr_ok by (rewrite upd_length; lia). cbn [bind].
      set (mv1 := upd (upd mv l1 (nth r mv (0%Z, O))) r (nth l1 mv (0%Z, O))).
      assert (P1 : Permutation mv1 mv). { unfold mv1. eapply perm_trans; [apply perm_upd2; lia|]. now rewrite upd_nth_same. }
      assert (N1 : length mv1 = length mv) by (unfold mv1; now rewrite !upd_length).
      assert (V : forall k, mval mv1 k = if (k =? r)%nat then mval mv l1 else if (k =? l1)%nat then mval mv r else mval mv k).
      { intros k. unfold mv1. destruct (Nat.eqb_spec k r) as [->|K1]. { rewrite mval_upd_eq by (rewrite upd_length; lia). reflexivity. }
        rewrite mval_upd_neq by auto. destruct (Nat.eqb_spec k l1) as [->|K2]. { rewrite mval_upd_eq by lia. reflexivity. }
        now rewrite mval_upd_neq by auto. }
      destruct (IH mv1 (S l1) r) as (mv' & l' & E & P & Ln & Bl & Lo & Up & Dn); try lia.
      * intros k Hk. rewrite V. destruct (Nat.eqb_spec k r); [lia|]. destruct (Nat.eqb_spec k l1) as [->|]; auto.
        destruct (Nat.le_gt_cases l k); [apply U1; lia|apply HL; lia].
      * intros k Hk. rewrite V. rewrite N1 in Hk. destruct (Nat.eqb_spec k r) as [->|]; auto. destruct (Nat.eqb_spec k l1); [lia|].
        destruct (Nat.le_gt_cases r1 k); [apply HR; lia|apply D2; lia].
      * exists r. rewrite N1. split; [lia|]. rewrite V, Nat.eqb_refl. auto.
      * exists l1. split; [lia|]. rewrite V. destruct (Nat.eqb_spec l1 r); [lia|]. now rewrite Nat.eqb_refl.
      * rewrite N1 in *. exists mv', l'. split; auto. split; [now rewrite P|]. split; auto. split; auto. split; auto.
        intros k Hk. rewrite Lo by auto. unfold mv1. rewrite !nth_upd_neq by lia. reflexivity.
    + assert (l1 = S r) by lia.
      destruct (IH mv l1 (S r)) as (mv' & l' & E & R); try lia; eauto.
      * intros k Hk. destruct (Nat.le_gt_cases l k); [apply U1; lia|apply HL; lia].
      * intros k Hk. destruct (Nat.le_gt_cases r1 k); [apply HR; lia|apply D2; lia].
      * exists l1. split; [|auto]. destruct (Nat.eq_dec l1 (length mv)); [|lia]. exfalso. lia.
      * exists r. split; [lia|auto].
  - exists mv, l. assert (l = r1) by lia. subst r1. split; auto. split; auto. split; auto. split; [lia|]. split; auto.
Qed.

(** *** ranges *)
(** [rinv p stack mv]: the range boundaries below position p are right *)
Fixpoint rinv (p : nat) (stack : list (nat * Z)) (mv : list valsrc) : Prop :=
  match stack with
  | [] => True
  | (i, v) :: t => (i < p)%nat /\ (forall k, (k < i)%nat -> v < mval mv k) /\ (forall k, (i <= k < p)%nat -> mval mv k <= v) /\ rinv i t mv
  end.
Lemma rinv_ext p stack mv mv' : (forall k, (k < p)%nat -> mval mv' k = mval mv k) -> rinv p stack mv -> rinv p stack mv'.
Proof.
  revert p. induction stack as [|[i v] t IH]; simpl; auto. intros p H (H1 & H2 & H3 & H4). split; auto. split.
  - intros k Hk. rewrite H by lia. auto. - split. + intros k Hk. rewrite H by lia. auto. + apply IH; auto. intros; apply H; lia.
Qed.
Lemma rinv_len p stack mv : rinv p stack mv -> (length stack <= p)%nat.
Proof. revert p. induction stack as [|[i v] t IH]; simpl; intros p H; [lia|]. destruct H as (H1 & _ & _ & H4). apply IH in H4. lia. Qed.

Lemma find_other_spec fv l : (find_other fv l = fv /\ forall x, In x l -> fst x = fv) \/ (find_other fv l <> fv /\ exists x, In x l /\ fst x = find_other fv l).
Proof.
  induction l as [|x l IH]; simpl; [left; split; auto; tauto|]. destruct (Z.eqb_spec (fst x) fv) as [E|E].
  - destruct IH as [[H1 H2]|[H1 (y & H2 & H3)]]; [left; split; auto; intros y [<-|]; auto|right; split; eauto].
  - right. split; eauto.
Qed.

Lemma presort_ok cap : forall fuel mv stack lower, (length mv - lower < fuel)%nat -> (lower < length mv)%nat -> (length mv <= cap)%nat ->
  lower = (match stack with [] => O | (i, _) :: _ => i end) -> rinv (length mv) stack mv -> (forall x, In x mv -> 0 <= fst x) ->
  exists mv' stack' last v, presort fuel cap mv stack lower = Ret (mv', (last, v) :: stack') /\ Permutation mv' mv /\ (last < length mv)%nat /\
    rinv last stack' mv' /\ (forall k, (last <= k < length mv)%nat -> mval mv' k = mval mv' last) /\
    (forall k, (k < last)%nat -> mval mv' last < mval mv' k).
Proof.
  induction fuel as [|f IH]; intros mv stack lower Hf Hl Hc El RI POS; [lia|]. cbn [presort].
  rewrite (rd_ok mv lower (0, O)) by lia. cbn [bind]. fold (mval mv lower).
  set (fv := mval mv lower). set (ov := find_other fv (skipn (S lower) mv)).
  assert (IDX : forall x, In x (skipn (S lower) mv) -> exists k, (lower < k < length mv)%nat /\ mval mv k = fst x).
  { intros x Hx. apply (In_nth _ _ (0, O)) in Hx as (k & Hk & <-). rewrite skipn_length in Hk. exists (S lower + k)%nat. split; [lia|].
    unfold mval. f_equal. rewrite <- (firstn_skipn (S lower) mv) at 1. rewrite app_nth2 by (rewrite firstn_length; lia).
    rewrite firstn_length. f_equal. lia. }
  assert (IDX2 : forall k, (lower < k < length mv)%nat -> In (nth k mv (0, O)) (skipn (S lower) mv)).
  { intros k Hk. rewrite <- (firstn_skipn (S lower) mv) at 1. rewrite app_nth2 by (rewrite firstn_length; lia). apply nth_In.
    rewrite skipn_length, firstn_length. lia. }
  destruct (find_other_spec fv (skipn (S lower) mv)) as [[E1 E2]|[E1 (x & E2 & E3)]]; fold ov in E1.
  - rewrite E1, Z.eqb_refl.
    assert (AllEq : forall k, (lower <= k < length mv)%nat -> mval mv k = fv).
    { intros k Hk. destruct (Nat.eq_dec k lower) as [->|]; auto. apply (E2 (nth k mv (0, O))). apply IDX2. lia. }
    destruct stack as [|[i v] t].
    + subst lower. exists mv, [], O, fv. split; auto. split; auto. split; auto. split; [simpl; auto|]. split; [|intros; lia].
      intros k Hk. rewrite AllEq by lia. reflexivity.
    + subst lower. simpl in RI. destruct RI as (R1 & R2 & R3 & R4). exists mv, t, i, v. split; auto. split; auto. split; auto. split; auto.
      split; [intros k Hk; rewrite AllEq by lia; reflexivity|]. intros k Hk. specialize (R2 k Hk). specialize (R3 i ltac:(lia)). lia.
  - fold ov in E3. destruct (Z.eqb_spec fv ov) as [C|C]; [congruence|].
    destruct (IDX x E2) as (ko & Hko & Vo). rewrite E3 in Vo.
    set (mid := Z.quot (fv + ov) 2).
    assert (P0 : 0 <= fv). { unfold fv, mval. apply POS. apply nth_In. lia. }
    assert (P1 : 0 <= ov). { rewrite <- Vo. unfold mval. apply POS. apply nth_In. lia. }
    assert (MID : mid < Z.max fv ov /\ Z.min fv ov <= mid).
    { unfold mid. rewrite Z.quot_div_nonneg by lia. pose proof (Z.div_mod (fv + ov) 2 ltac:(lia)). pose proof (Z.mod_pos_bound (fv + ov) 2 ltac:(lia)). lia. }
    assert (HI : exists s, (lower <= s < length mv)%nat /\ mid < mval mv s).
    { destruct (Z.max_spec fv ov) as [[_ M]|[_ M]]; rewrite M in MID; [exists ko|exists lower]; split; unfold fv in *; lia. }
    assert (LO : exists s, (lower <= s < length mv)%nat /\ mval mv s <= mid).
    { destruct (Z.min_spec fv ov) as [[_ M]|[_ M]]; rewrite M in MID; [exists lower|exists ko]; split; unfold fv in *; lia. }
    destruct (partition_ok mid lower (S (length mv)) mv lower (length mv)) as (mv1 & l1 & EP & PP & LP & BP & LOP & UP & DP); auto; try lia.
    rewrite EP. cbn [bind].
    pose proof (rinv_len _ _ _ RI) as LS. destruct (Nat.ltb_spec (length stack) (cap + 1)); [|lia].
    (* the segment [lower, n) of mv1 consists of elements of the segment [lower,n) of mv *)
    assert (SEG : forall k, (lower <= k < length mv)%nat -> exists k', (lower <= k' < length mv)%nat /\ mval mv1 k = mval mv k').
    { assert (FN : firstn lower mv1 = firstn lower mv).
      { apply nth_ext with (d:=(0,O)) (d':=(0,O)). - rewrite !firstn_length. lia.
        - intros k Hk. rewrite firstn_length in Hk. rewrite <- (firstn_skipn lower mv1) , <- (firstn_skipn lower mv) in LOP.
          specialize (LOP k ltac:(lia)). rewrite !app_nth1 in LOP by (rewrite firstn_length; lia). exact LOP. }
      assert (PS : Permutation (skipn lower mv1) (skipn lower mv)).
      { rewrite <- (firstn_skipn lower mv1), <- (firstn_skipn lower mv), FN in PP. now apply Permutation_app_inv_l in PP. }
      intros k Hk. assert (Hin : In (nth k mv1 (0, O)) (skipn lower mv1)).
      { rewrite <- (firstn_skipn lower mv1) at 1. rewrite app_nth2 by (rewrite firstn_length; lia). apply nth_In. rewrite skipn_length, firstn_length. lia. }
      apply (Permutation_in _ PS) in Hin. apply (In_nth _ _ (0, O)) in Hin as (m & Hm & Em). rewrite skipn_length in Hm.
      exists (lower + m)%nat. split; [lia|]. unfold mval. f_equal. rewrite <- Em. rewrite <- (firstn_skipn lower mv) at 2.
      rewrite app_nth2 by (rewrite firstn_length; lia). f_equal. rewrite firstn_length. lia. }
    assert (LOV : forall k, (k < lower)%nat -> mval mv1 k = mval mv k) by (intros k Hk; unfold mval; now rewrite LOP).
    destruct (IH mv1 ((l1, mid) :: stack) l1) as (mv2 & st2 & last & v & E & P2 & B2 & R2 & A2 & G2); try lia.
    + cbn [rinv]. split; [lia|]. split; [|split].
      * intros k Hk. destruct (Nat.le_gt_cases lower k) as [Y|Y]; [apply UP; lia|]. rewrite LOV by auto.
        destruct stack as [|[i v] t]; [lia|]. simpl in RI. subst lower. destruct RI as (R1 & R2 & R3 & _). specialize (R2 k Y).
        destruct HI as (s & Hs1 & Hs2). specialize (R3 s Hs1). lia.
      * intros k Hk. apply DP. lia.
      * destruct stack as [|[i v] t]; [simpl; auto|]. cbn [rinv] in RI |- *. subst lower. destruct RI as (R1 & R2 & R3 & R4).
        split; [lia|]. split; [intros k Hk; rewrite LOV by auto; auto|]. split.
        -- intros k Hk. destruct (SEG k ltac:(lia)) as (k' & Hk' & ->). auto.
        -- apply rinv_ext with (mv := mv); auto.
    + intros y Hy. apply POS. now apply (Permutation_in _ PP).
    + exists mv2, st2, last, v. rewrite LP in *. split; auto. split; [now rewrite P2|]. split; auto.
Qed.

Lemma shift_ok vs : forall stack mv p, (p < length mv)%nat -> rinv p stack mv ->
  exists mv' stack', shift stack mv p vs = Ret (mv', stack') /\ length mv' = length mv /\
    rinv (S p) stack' mv' /\ (forall k, (p < k)%nat -> nth k mv' (0, O) = nth k mv (0, O)) /\
    (forall k, (k <= p)%nat -> nth k mv' (0, O) = vs \/ exists j, (j < p)%nat /\ nth k mv' (0, O) = nth j mv (0, O)) /\
    Permutation mv' (upd mv p vs).
Proof.
  induction stack as [|[i v] t IH]; intros mv p Hp RI; cbn [shift].
  - rewrite wr_ok by auto. cbn [bind]. exists (upd mv p vs), []. split; auto. rewrite upd_length. split; auto. split; [simpl; auto|]. split; [|split; auto].
    + intros k Hk. now rewrite nth_upd_neq by lia.
    + intros k Hk. destruct (Nat.eq_dec k p) as [->|]; [left; now rewrite nth_upd_eq|right; exists k; rewrite nth_upd_neq by lia; split; auto; lia].
  - cbn [rinv] in RI. destruct RI as (R1 & R2 & R3 & R4). destruct (Z.leb_spec (fst vs) v) as [C|C].
    + rewrite wr_ok by auto. cbn [bind]. exists (upd mv p vs), ((i, v) :: t). split; auto. rewrite upd_length. split; auto. split; [|split; [|split; auto]].
      * cbn [rinv]. split; [lia|]. split; [|split].
        -- intros k Hk. rewrite mval_upd_neq by lia. auto.
        -- intros k Hk. destruct (Nat.eq_dec k p) as [->|]; [rewrite mval_upd_eq by auto; auto|rewrite mval_upd_neq by lia; apply R3; lia].
        -- apply rinv_ext with (mv := mv); auto. intros k Hk. apply mval_upd_neq. lia.
      * intros k Hk. now rewrite nth_upd_neq by lia.
      * intros k Hk. destruct (Nat.eq_dec k p) as [->|]; [left; now rewrite nth_upd_eq|right; exists k; rewrite nth_upd_neq by lia; split; auto; lia].
    + rewrite (rd_ok mv i (0, O)) by lia. cbn [bind]. rewrite wr_ok by auto. cbn [bind].
      set (mv1 := upd mv p (nth i mv (0%Z, O))).
      destruct (IH mv1 i) as (mv' & t' & E & L' & RI' & U' & B' & P').
      { unfold mv1. rewrite upd_length. lia. } { apply rinv_ext with (mv := mv); auto. intros k Hk. unfold mv1. apply mval_upd_neq. lia. }
      rewrite E. cbn [bind fst snd]. unfold mv1 in L'. rewrite upd_length in L'. exists mv', ((S i, v) :: t'). split; auto. split; auto. split; [|split; [|split]].
      * cbn [rinv]. split; [lia|]. split; [|split; auto].
        -- intros k Hk. unfold mval. destruct (B' k ltac:(lia)) as [->|(j & Hj & ->)]; auto. unfold mv1. rewrite nth_upd_neq by lia. apply R2. auto.
        -- intros k Hk. unfold mval. rewrite U' by lia. unfold mv1. destruct (Nat.eq_dec k p) as [->|].
           ++ rewrite nth_upd_eq by auto. apply (R3 i). lia. ++ rewrite nth_upd_neq by lia. apply (R3 k). lia.
      * intros k Hk. rewrite U' by lia. unfold mv1. now rewrite nth_upd_neq by lia.
      * intros k Hk. destruct (Nat.le_gt_cases k i) as [Y|Y].
        -- destruct (B' k Y) as [->|(j & Hj & ->)]; auto. right. exists j. split; [lia|]. unfold mv1. now rewrite nth_upd_neq by lia.
        -- right. rewrite U' by lia. unfold mv1. destruct (Nat.eq_dec k p) as [->|].
           ++ rewrite nth_upd_eq by auto. exists i. split; auto. ++ rewrite nth_upd_neq by lia. exists k. split; auto. lia.
      * rewrite P'. unfold mv1. apply perm_upd2; lia.
Qed.

(** *** main loop *)
Lemma nth_skipn_ {A} n k (l : list A) d : nth k (skipn n l) d = nth (n + k) l d.
Proof. revert n. induction l as [|a l IH]; intros [|n]; simpl; auto. destruct k; auto. Qed.
Lemma nth_firstn_ {A} n k (l : list A) d : (k < n)%nat -> nth k (firstn n l) d = nth k l d.
Proof. revert n k. induction l as [|a l IH]; intros [|n] [|k] H; simpl; auto; try lia. apply IH. lia. Qed.
Definition rowz (rows : list (list Z)) (s : nat) : list Z := nth s rows [].
Definition hit (hashes : list Z) (w : Z) : Prop := nth (hslot w) hashes (-1) = w.

Lemma take_next_ok hashes : length hashes = 1024%nat -> forall rem, (forall w, In w rem -> 0 <= w) ->
  exists o rem' sk, take_next hashes rem = Ret (o, rem') /\ rem = sk ++ (match o with Some v => v :: rem' | None => [] end) /\
    (o = None -> rem' = []) /\ (forall w, In w sk -> hit hashes w).
Proof.
  intros HL. induction rem as [|v t IH]; intros POS; cbn [take_next].
  - exists None, [], []. simpl. repeat split; auto. tauto.
  - rewrite (rd_ok hashes (hslot v) (-1)) by (rewrite HL; apply hslot_lt; apply POS; now left). cbn [bind].
    destruct (Z.eqb_spec (nth (hslot v) hashes (-1)) v) as [C|C].
    + destruct IH as (o & rem' & sk & E & E2 & N & H). { intros; apply POS; now right. }
      exists o, rem', (v :: sk). split; auto. split; [simpl; now rewrite <- E2|]. split; auto. intros w [<-|]; auto.
    + exists (Some v), t, []. split; auto. split; auto. split; [congruence|]. intros w [].
Qed.

Record Inv (inp : list Z) (cap : nat) (Out : Z -> Prop) (hashes : list Z) (rows : list (list Z)) (mv : list valsrc) (pend : list nat) : Prop := {
  i_nd : NoDup (map snd mv ++ pend);
  i_src : forall s, In s (map snd mv ++ pend) -> (s < cap)%nat;
  i_len : length rows = cap;
  i_empty : forall s, ~ In s (map snd mv ++ pend) -> rowz rows s = [];
  i_sorted : forall s, StronglySorted Z.lt (rowz rows s);
  i_pos : forall s w, In w (rowz rows s) -> 0 <= w;
  i_act : forall v s, In (v, s) mv -> 0 <= v /\ (forall w, In w (rowz rows s) -> v < w) /\ (forall o, Out o -> o < v);
  i_pend : forall s w, In s pend -> In w (rowz rows s) -> forall o, Out o -> o < w;
  i_hlen : length hashes = 1024%nat;
  i_hash : forall k, (k < 1024)%nat -> nth k hashes (-1) = -1 \/ Out (nth k hashes (-1)) \/ In (nth k hashes (-1)) (map fst mv);
  i_cov : forall v, In v inp <-> (Out v \/ In v (map fst mv) \/ exists s, In v (rowz rows s))
}.

Lemma rowz_upd rows s r k : (s < length rows)%nat -> rowz (upd rows s r) k = if (k =? s)%nat then r else rowz rows k.
Proof.
  intros H. unfold rowz. destruct (Nat.eqb_spec k s) as [->|]; [now rewrite nth_upd_eq|]. now rewrite nth_upd_neq by auto.
Qed.
Lemma concat_upd_len (rows : list (list Z)) s r : (s < length rows)%nat ->
  (length (concat (upd rows s r)) + length (rowz rows s) = length (concat rows) + length r)%nat.
Proof.
  unfold rowz. revert s. induction rows as [|a rows IH]; intros [|s] H; simpl in *; try lia; rewrite !app_length; [lia|].
  specialize (IH s ltac:(lia)). lia.
Qed.
Lemma nodup_bound (l : list nat) cap : NoDup l -> (forall s, In s l -> (s < cap)%nat) -> (length l <= cap)%nat.
Proof.
  intros H1 H2. rewrite <- (seq_length cap 0). apply NoDup_incl_length; auto. intros s Hs. apply in_seq. specialize (H2 s Hs). lia.
Qed.
Lemma ssorted_suffix (a b : list Z) : StronglySorted Z.lt (a ++ b) -> StronglySorted Z.lt b.
Proof. induction a; simpl; auto. intros H. apply IHa. now inversion H. Qed.

Lemma refill_ok inp cap Out : forall tmp hashes rows mv stack,
  Inv inp cap Out hashes rows mv (map snd tmp) -> rinv (length mv) stack mv ->
  exists hashes' rows' mv' stack', refill cap tmp hashes rows mv stack = Ret (hashes', rows', mv', stack') /\
    Inv inp cap Out hashes' rows' mv' [] /\ rinv (length mv') stack' mv' /\
    (length mv' + length (concat rows') <= length mv + length (concat rows))%nat.
Proof.
  induction tmp as [|[x s] tmp IH]; intros hashes rows mv stack I RI; cbn [refill].
  - exists hashes, rows, mv, stack. split; auto.
  - cbn [fst snd map] in *.
    assert (HsI : In s (map snd mv ++ s :: map snd tmp)) by (apply in_or_app; right; now left).
    assert (Hs : (s < length rows)%nat) by (rewrite (i_len _ _ _ _ _ _ _ I); now apply (i_src _ _ _ _ _ _ _ I)).
    rewrite (rd_ok rows s []) by auto. cbn [bind]. fold (rowz rows s).
    destruct (take_next_ok hashes (i_hlen _ _ _ _ _ _ _ I) (rowz rows s) (i_pos _ _ _ _ _ _ _ I s)) as (o & rem' & sk & E & ER & EN & HIT).
    rewrite E. cbn [bind fst snd]. rewrite wr_ok by auto. cbn [bind].
    assert (VIS : forall w, In w sk -> Out w \/ In w (map fst mv)).
    { intros w Hw. assert (0 <= w) by (apply (i_pos _ _ _ _ _ _ _ I s); rewrite ER; apply in_or_app; now left).
      specialize (HIT w Hw). unfold hit in HIT. destruct (i_hash _ _ _ _ _ _ _ I (hslot w) (hslot_lt w H)) as [H1|H1]; rewrite HIT in H1; [lia|auto]. }
    assert (NDs : ~ In s (map snd mv ++ map snd tmp)) by (apply (NoDup_remove_2 _ _ _ (i_nd _ _ _ _ _ _ _ I))).
    destruct o as [v|].
    + assert (ND' := i_nd _ _ _ _ _ _ _ I).
      assert (LB := nodup_bound _ _ ND' (i_src _ _ _ _ _ _ _ I)). rewrite app_length, !map_length in LB. cbn [length] in LB.
      unfold mpush. destruct (Nat.ltb_spec (length mv) cap); [|lia]. cbn [bind].
      destruct (shift_ok (v, s) stack (mv ++ [(v, s)]) (length mv)) as (mv' & stack' & ES & LS & RS & _ & _ & PS).
      { rewrite app_length. simpl. lia. }
      { apply rinv_ext with (mv := mv); auto. intros k Hk. unfold mval. now rewrite app_nth1. }
      rewrite ES. cbn [bind fst snd]. rewrite perm_upd_last in PS.
      assert (Hv : In v (rowz rows s)) by (rewrite ER; apply in_or_app; right; now left).
      assert (V0 : 0 <= v) by (now apply (i_pos _ _ _ _ _ _ _ I s)).
      rewrite wr_ok by (rewrite (i_hlen _ _ _ _ _ _ _ I); now apply hslot_lt). cbn [bind].
      assert (SO : StronglySorted Z.lt (v :: rem')).
      { apply (ssorted_suffix sk). rewrite <- ER. apply (i_sorted _ _ _ _ _ _ _ I). }
      assert (PM : forall z, In z mv' <-> z = (v, s) \/ In z mv).
      { intros z. split; intros Hz. - apply (Permutation_in _ PS) in Hz as [<-|]; auto.
        - apply (Permutation_in _ (Permutation_sym PS)). destruct Hz as [->|]; [now left|now right]. }
      assert (PMf : forall z, In z (map fst mv') <-> z = v \/ In z (map fst mv)).
      { intros z. rewrite !in_map_iff. split.
        - intros (y & <- & Hy). apply PM in Hy as [->|]; eauto.
        - intros [->|(y & <- & Hy)]; [exists (v, s)|exists y]; split; auto; apply PM; auto. }
      assert (PMs : Permutation (map snd mv' ++ map snd tmp) (map snd mv ++ s :: map snd tmp)).
      { rewrite (Permutation_map snd PS). simpl. apply Permutation_middle. }
      destruct (IH (upd hashes (hslot v) v) (upd rows s rem') mv' stack') as (h2 & r2 & m2 & st2 & E2 & I2 & RI2 & M2).
      * constructor.
        -- apply (Permutation_NoDup (Permutation_sym PMs)), ND'.
        -- intros q Hq. apply (i_src _ _ _ _ _ _ _ I). now apply (Permutation_in _ PMs).
        -- rewrite upd_length. apply (i_len _ _ _ _ _ _ _ I).
        -- intros q Hq. rewrite rowz_upd by auto. destruct (Nat.eqb_spec q s) as [->|].
           ++ exfalso. apply Hq. apply (Permutation_in _ (Permutation_sym PMs)). auto.
           ++ apply (i_empty _ _ _ _ _ _ _ I). intros Hq'. apply Hq. now apply (Permutation_in _ (Permutation_sym PMs)).
        -- intros q. rewrite rowz_upd by auto. destruct (q =? s)%nat; [now inversion SO|apply (i_sorted _ _ _ _ _ _ _ I)].
        -- intros q w. rewrite rowz_upd by auto. destruct (q =? s)%nat; [|apply (i_pos _ _ _ _ _ _ _ I)].
           intros Hw. apply (i_pos _ _ _ _ _ _ _ I s). rewrite ER. apply in_or_app. right. now right.
        -- intros y q Hy. apply PM in Hy as [Hy|Hy].
           ++ inversion Hy; subst y q. split; auto. split.
              ** intros w. rewrite rowz_upd, Nat.eqb_refl by auto. intros Hw. inversion SO as [|? ? _ F]. rewrite Forall_forall in F. auto.
              ** intros o Ho. apply (i_pend _ _ _ _ _ _ _ I s v); auto. now left.
           ++ destruct (i_act _ _ _ _ _ _ _ I y q Hy) as (Y1 & Y2 & Y3). split; auto. split; auto. intros w. rewrite rowz_upd by auto.
              destruct (Nat.eqb_spec q s) as [->|]; auto. exfalso. apply NDs. apply in_or_app. left. apply in_map_iff. exists (y, s). auto.
        -- intros q w Hq. rewrite rowz_upd by auto. destruct (Nat.eqb_spec q s) as [->|].
           ++ exfalso. apply NDs. apply in_or_app. auto.
           ++ apply (i_pend _ _ _ _ _ _ _ I q w). now right.
        -- rewrite upd_length. apply (i_hlen _ _ _ _ _ _ _ I).
        -- intros k Hk. destruct (Nat.eq_dec k (hslot v)) as [->|].
           ++ rewrite nth_upd_eq by (rewrite (i_hlen _ _ _ _ _ _ _ I); auto). right. right. apply PMf. auto.
           ++ rewrite nth_upd_neq by auto. destruct (i_hash _ _ _ _ _ _ _ I k Hk) as [|[|]]; auto. right. right. apply PMf. auto.
        -- intros y. rewrite (i_cov _ _ _ _ _ _ _ I y), PMf. split.
           ++ intros [Hy|[Hy|(q & Hy)]]; auto. destruct (Nat.eq_dec q s) as [->|].
              ** rewrite ER in Hy. apply in_app_or in Hy as [Hy|[<-|Hy]]; auto. { destruct (VIS y Hy); auto. }
                 right. right. exists s. now rewrite rowz_upd, Nat.eqb_refl by auto.
              ** right. right. exists q. rewrite rowz_upd by auto. destruct (Nat.eqb_spec q s); [congruence|auto].
           ++ intros [Hy|[[->|Hy]|(q & Hy)]]; eauto. rewrite rowz_upd in Hy by auto. destruct (q =? s)%nat; [|eauto].
              right. right. exists s. rewrite ER. apply in_or_app. right. now right.
      * rewrite app_length in LS. simpl in LS. rewrite LS. replace (length mv + 1)%nat with (S (length mv)) by lia. exact RS.
      * exists h2, r2, m2, st2. split; auto. split; auto. split; auto. rewrite app_length in LS. simpl in LS.
        pose proof (concat_upd_len rows s rem' Hs) as CL. rewrite ER, app_length in CL. cbn [length] in CL. lia.
    + specialize (EN eq_refl). subst rem'. rewrite app_nil_r in ER.
      destruct (IH hashes (upd rows s []) mv stack) as (h2 & r2 & m2 & st2 & E2 & I2 & RI2 & M2); auto.
      * constructor.
        -- apply (NoDup_remove_1 _ _ _ (i_nd _ _ _ _ _ _ _ I)).
        -- intros q Hq. apply (i_src _ _ _ _ _ _ _ I). apply in_app_or in Hq as [|]; apply in_or_app; [now left|right; now right].
        -- rewrite upd_length. apply (i_len _ _ _ _ _ _ _ I).
        -- intros q Hq. rewrite rowz_upd by auto. destruct (Nat.eqb_spec q s) as [->|]; auto.
           apply (i_empty _ _ _ _ _ _ _ I). intros Hq'. apply Hq. apply in_app_or in Hq' as [|[|]]; apply in_or_app; auto. congruence.
        -- intros q. rewrite rowz_upd by auto. destruct (q =? s)%nat; [constructor|apply (i_sorted _ _ _ _ _ _ _ I)].
        -- intros q w. rewrite rowz_upd by auto. destruct (q =? s)%nat; [intros []|apply (i_pos _ _ _ _ _ _ _ I)].
        -- intros y q Hy. destruct (i_act _ _ _ _ _ _ _ I y q Hy) as (Y1 & Y2 & Y3). split; auto. split; auto. intros w. rewrite rowz_upd by auto.
           destruct (q =? s)%nat; [intros []|auto].
        -- intros q w Hq. rewrite rowz_upd by auto. destruct (q =? s)%nat; [intros []|apply (i_pend _ _ _ _ _ _ _ I q w); now right].
        -- apply (i_hlen _ _ _ _ _ _ _ I).
        -- apply (i_hash _ _ _ _ _ _ _ I).
        -- intros y. rewrite (i_cov _ _ _ _ _ _ _ I y). split.
           ++ intros [Hy|[Hy|(q & Hy)]]; auto. destruct (Nat.eq_dec q s) as [->|].
              ** rewrite ER in Hy. destruct (VIS y Hy); auto.
              ** right. right. exists q. rewrite rowz_upd by auto. destruct (Nat.eqb_spec q s); [congruence|auto].
           ++ intros [Hy|[Hy|(q & Hy)]]; eauto. rewrite rowz_upd in Hy by auto. destruct (q =? s)%nat; [destruct Hy|eauto].
      * exists h2, r2, m2, st2. split; auto. split; auto. split; auto.
        pose proof (concat_upd_len rows s [] Hs) as CL. cbn [length] in CL. lia.
Qed.

(** the initial fill is a refill of an empty queue *)
Lemma ma_init_refill cap : forall srcs hashes rows mv,
  ma_init cap srcs hashes rows mv = ' q <- refill cap (map (fun s => (0, s)) srcs) hashes rows mv [] ;; Ret (fst q).
Proof.
  induction srcs as [|i t IH]; intros hashes rows mv; cbn [ma_init refill map bind fst snd]; auto.
  destruct (rd rows i) as [r0|]; cbn [bind]; auto. destruct (take_next hashes r0) as [[o rem]|]; cbn [bind fst snd]; auto.
  destruct (wr rows i rem); cbn [bind]; auto. destruct o as [v|]; cbn [bind]; [|apply IH].
  unfold mpush. destruct (length mv <? cap)%nat; cbn [bind]; auto. cbn [shift]. rewrite (wr_ok (mv ++ [(v, i)])) by (rewrite app_length; simpl; lia).
  cbn [bind fst snd].
  replace (upd (mv ++ [(v, i)]) (length mv) (v, i)) with (mv ++ [(v, i)]).
  2:{ rewrite <- (upd_nth_same (mv ++ [(v, i)]) (length mv) (0, O)) at 1. rewrite app_nth2, Nat.sub_diag by lia. reflexivity. }
  destruct (wr hashes (hslot v) v); cbn [bind]; auto.
Qed.

Lemma ma_loop_ok inp cap : forall fuel Out hashes rows mv stack, (length mv + length (concat rows) <= fuel)%nat ->
  Inv inp cap Out hashes rows mv [] -> rinv (length mv) stack mv ->
  exists l, ma_loop fuel cap hashes rows mv stack = Ret l /\ StronglySorted Z.lt l /\
    (forall v, In v inp <-> Out v \/ In v l) /\ (forall v o, In v l -> Out o -> o < v).
Proof.
  assert (DONE : forall Out hashes rows, Inv inp cap Out hashes rows [] [] -> forall v, In v inp <-> Out v \/ In v []).
  { intros Out hashes rows I v. rewrite (i_cov _ _ _ _ _ _ _ I v). simpl. split; [|tauto].
    intros [|[|(s & Hs)]]; auto. rewrite (i_empty _ _ _ _ _ _ _ I s) in Hs; auto. }
  induction fuel as [|f IH]; intros Out hashes rows mv stack Hf I RI; cbn [ma_loop].
  - destruct mv; [|simpl in Hf; lia]. exists []. split; auto. split; [constructor|]. split; [eapply DONE; eauto|intros ? ? []].
  - destruct mv as [|m0 mvt] eqn:EM. { exists []. split; auto. split; [constructor|]. split; [eapply DONE; eauto|intros ? ? []]. }
    rewrite <- EM in *. assert (NZ : (0 < length mv)%nat) by (rewrite EM; simpl; lia). clear EM m0 mvt.
    assert (ND := i_nd _ _ _ _ _ _ _ I). rewrite app_nil_r in ND.
    assert (LC : (length mv <= cap)%nat).
    { rewrite <- (map_length snd). apply nodup_bound; auto. intros s Hs. apply (i_src _ _ _ _ _ _ _ I). now rewrite app_nil_r. }
    destruct (presort_ok cap (S (length mv)) mv stack (match stack with [] => O | (i, _) :: _ => i end))
      as (mv1 & st1 & last & v1 & EP & PP & BL & RL & EQ & GT); auto; try lia.
    { destruct stack as [|[i v] t]; auto. destruct RI as (R1 & _). exact R1. }
    { intros [v s] Hx. apply (i_act _ _ _ _ _ _ _ I v s Hx). }
    rewrite EP. cbn [bind]. assert (LM : length mv1 = length mv) by (now apply Permutation_length).
    rewrite (rd_ok mv1 last (0, O)) by lia. cbn [bind]. fold (mval mv1 last). set (x := mval mv1 last) in *.
    assert (LF : length (firstn last mv1) = last) by (rewrite firstn_length; lia).
    assert (INm : forall z, In z mv <-> In z (firstn last mv1) \/ In z (skipn last mv1)).
    { intros z. rewrite <- in_app_iff, firstn_skipn. split; apply Permutation_in; auto. now symmetry. }
    assert (POPPED : forall z, In z (skipn last mv1) -> fst z = x).
    { intros z Hz. apply (In_nth _ _ (0, O)) in Hz as (k & Hk & <-). rewrite skipn_length in Hk. rewrite <- (EQ (last + k)%nat) by lia.
      unfold mval. now rewrite nth_skipn_. }
    assert (XIN : exists s, In (x, s) (skipn last mv1)).
    { exists (snd (nth last mv1 (0, O))). unfold x, mval. rewrite <- surjective_pairing.
      replace last with (last + 0)%nat at 1 by lia. rewrite <- nth_skipn_. apply nth_In. rewrite skipn_length. lia. }
    assert (KEPT : forall z, In z (firstn last mv1) -> x < fst z).
    { intros z Hz. apply (In_nth _ _ (0, O)) in Hz as (k & Hk & <-). rewrite LF in Hk. rewrite nth_firstn_ by auto. exact (GT k Hk). }
    assert (XO : forall o, Out o -> o < x).
    { destruct XIN as (s & Hs). apply (i_act _ _ _ _ _ _ _ I x s). apply INm. auto. }
    set (Out' := fun v => Out v \/ v = x).
    assert (PSN : Permutation (map snd (firstn last mv1) ++ map snd (skipn last mv1)) (map snd mv ++ [])).
    { rewrite <- map_app, firstn_skipn, app_nil_r. now apply Permutation_map. }
    assert (I' : Inv inp cap Out' hashes rows (firstn last mv1) (map snd (skipn last mv1))).
    { constructor.
      - apply (Permutation_NoDup (Permutation_sym PSN)). now rewrite app_nil_r.
      - intros s Hs. apply (i_src _ _ _ _ _ _ _ I). now apply (Permutation_in _ PSN).
      - apply (i_len _ _ _ _ _ _ _ I).
      - intros s Hs. apply (i_empty _ _ _ _ _ _ _ I). intros Hs'. apply Hs. now apply (Permutation_in _ (Permutation_sym PSN)).
      - apply (i_sorted _ _ _ _ _ _ _ I).
      - apply (i_pos _ _ _ _ _ _ _ I).
      - intros v s Hv. destruct (i_act _ _ _ _ _ _ _ I v s) as (Y1 & Y2 & Y3); [apply INm; auto|]. split; auto. split; auto.
        intros o [Ho|Ho]; [auto|subst o]. now apply (KEPT (v, s)).
      - intros s w Hs Hw o Ho. apply in_map_iff in Hs as ([v s'] & Es & Hin). simpl in Es. subst s'.
        assert (v = x) by (now apply (POPPED (v, s))). subst v.
        destruct (i_act _ _ _ _ _ _ _ I x s) as (Y1 & Y2 & Y3); [apply INm; auto|]. specialize (Y2 w Hw).
        destruct Ho as [Ho| ->]; auto. specialize (XO o Ho). lia.
      - apply (i_hlen _ _ _ _ _ _ _ I).
      - intros k Hk. destruct (i_hash _ _ _ _ _ _ _ I k Hk) as [H1|[H1|H1]]; unfold Out'; auto.
        apply in_map_iff in H1 as (z & Ez & Hz). apply INm in Hz as [Hz|Hz].
        + right. right. rewrite <- Ez. now apply in_map.
        + right. left. right. rewrite <- Ez. now apply POPPED.
      - intros v. rewrite (i_cov _ _ _ _ _ _ _ I v). unfold Out'. split.
        + intros [H1|[H1|H1]]; auto. apply in_map_iff in H1 as (z & Ez & Hz). apply INm in Hz as [Hz|Hz].
          * right. left. rewrite <- Ez. now apply in_map.
          * left. right. rewrite <- Ez. now apply POPPED.
        + intros [[H1| ->]|[H1|H1]]; auto.
          * right. left. destruct XIN as (s & Hs). apply in_map_iff. exists (x, s). split; auto. apply INm. auto.
          * right. left. apply in_map_iff in H1 as (z & <- & Hz). apply in_map. apply INm. auto. }
    destruct (refill_ok inp cap Out' (skipn last mv1) hashes rows (firstn last mv1) st1 I') as (h2 & r2 & m2 & st2 & E2 & I2 & RI2 & M2).
    { rewrite LF. apply rinv_ext with (mv := mv1); auto. intros k Hk. unfold mval. f_equal. now apply nth_firstn_. }
    rewrite E2. cbn [bind].
    destruct (IH Out' h2 r2 m2 st2) as (l & EL & SL & CL & OL); auto. { rewrite LF in M2. lia. }
    rewrite EL. cbn [bind]. exists (x :: l). split; auto. split; [|split].
    + constructor; auto. apply Forall_forall. intros w Hw. apply (OL w x Hw). now right.
    + intros v. rewrite CL. unfold Out'. simpl. intuition congruence.
    + intros v o [<-|Hv] Ho; auto. apply (OL v o Hv). now left.
Qed.

Theorem MergeArraysQ_ok rows : (forall r, In r rows -> StronglySorted Z.lt r) -> (forall r v, In r rows -> In v r -> 0 <= v) ->
  exists l, MergeArraysQ rows = Ret l /\ StronglySorted Z.lt l /\ (forall v, In v l <-> exists r, In r rows /\ In v r).
Proof.
  intros SO POS. unfold MergeArraysQ. rewrite ma_init_refill.
  assert (ROW : forall s w, In w (rowz rows s) -> exists r, In r rows /\ In w r).
  { intros s w Hw. destruct (Nat.lt_ge_cases s (length rows)) as [H|H]; [exists (rowz rows s); split; auto; now apply nth_In|].
    unfold rowz in Hw. rewrite nth_overflow in Hw by auto. destruct Hw. }
  destruct (refill_ok (concat rows) (length rows) (fun _ => False) (map (fun s => (0, s)) (seq 0 (length rows))) (repeat (-1) 1024) rows [] [])
    as (h & r & mv & st & E & I & RI & M).
  { assert (EM : map snd (map (fun s : nat => (0, s)) (seq 0 (length rows))) = seq 0 (length rows)).
    { rewrite map_map. simpl. apply map_id. } rewrite EM.
    constructor; cbn [map app].
    - apply seq_NoDup. - intros s Hs. apply in_seq in Hs. lia. - reflexivity.
    - intros s Hs. unfold rowz. apply nth_overflow. destruct (Nat.le_gt_cases (length rows) s); auto. exfalso. apply Hs. apply in_seq. lia.
    - intros s. destruct (Nat.lt_ge_cases s (length rows)) as [H|H]; [apply SO; now apply nth_In|].
      unfold rowz. rewrite nth_overflow by auto. constructor.
    - intros s w Hw. destruct (ROW s w Hw) as (r & R1 & R2). eauto.
    - intros v s []. - intros s w _ _ o [].
    - apply repeat_length.
    - intros k Hk. left. apply nth_repeat.
    - intros v. rewrite in_concat. split.
      + intros (r & R1 & R2). right. right. apply (In_nth _ _ []) in R1 as (s & _ & <-). exists s. exact R2.
      + intros [[]|[[]|(s & Hs)]]. apply (ROW s v Hs). }
  { simpl. auto. }
  rewrite E. cbn [bind fst].
  destruct (ma_loop_ok (concat rows) (length rows) (length (concat rows)) (fun _ => False) h r mv []) as (l & EL & SL & CL & _); auto.
  { simpl. auto. }
  exists l. split; auto. split; auto. intros v. rewrite <- in_concat, CL. tauto.
Qed.
