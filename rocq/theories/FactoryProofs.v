From Verif Require Import Base FactoryModel.
From Coq Require Import QArith Qround Qminmax.
Local Open Scope nat_scope.

(** *** tables *)
Lemma tc_add_nth t : forall k v j, nth j (tc_add t k v) [] = if j =? k then nth k t [] ++ [v] else nth j t [].
Proof.
  induction t as [|r t IH].
  - induction k as [|k IHk]; intros v [|j]; cbn; auto. now destruct j. rewrite IHk. destruct (j =? k); auto. now destruct k. now destruct j.
  - intros [|k] v [|j]; cbn; auto.
Qed.
Lemma tc_add_len t : forall k v, length (tc_add t k v) = Nat.max (length t) (S k).
Proof. induction t as [|r t IH]. induction k as [|k IHk]; intros v; cbn; auto. intros [|k] v; cbn; auto. now rewrite Nat.max_0_r. Qed.
Section Tc.
  Variable f : nat -> nat.
  Definition tc_fold (l : list nat) (t : list (list nat)) := fold_left (fun t k => tc_add t (f k) k) l t.
  Lemma tc_fold_nth l : forall t j, nth j (tc_fold l t) [] = nth j t [] ++ filter (fun k => f k =? j) l.
  Proof.
    induction l as [|a l IH]; intros t j; cbn. now rewrite app_nil_r. unfold tc_fold in IH. rewrite IH, tc_add_nth. rewrite (Nat.eqb_sym (f a)).
    destruct (Nat.eqb_spec j (f a)) as [->|]; auto. now rewrite <- app_assoc.
  Qed.
  Lemma tc_fold_len l : forall t j, j < length (tc_fold l t) <-> j < length t \/ exists k, In k l /\ j <= f k.
  Proof.
    induction l as [|a l IH]; intros t j; cbn. firstorder. unfold tc_fold in IH. rewrite IH, tc_add_len. split.
    - intros [H|(k & H1 & H2)]; [|right; eauto]. destruct (Nat.lt_ge_cases j (length t)); auto. right. exists a. split; auto. lia.
    - intros [H|(k & [->|H1] & H2)]; [left; lia|left; lia|right; eauto].
  Qed.
  Lemma tc_fold_eq l n : (forall j, j < n <-> exists k, In k l /\ j <= f k) -> tc_fold l [] = map (fun j => filter (fun k => f k =? j) l) (seq 0 n).
  Proof.
    intros H. assert (HL : length (tc_fold l []) = n).
    { destruct (Nat.lt_trichotomy (length (tc_fold l [])) n) as [L|[L|L]]; auto; exfalso.
      - apply H in L. assert (X : length (tc_fold l []) < length (tc_fold l [])) by (apply tc_fold_len; auto). lia.
      - apply tc_fold_len in L. destruct L as [L|L]; [cbn in L; lia|]. apply H in L. lia. }
    apply nth_ext with (d := []) (d' := []). { now rewrite map_length, seq_length. }
    intros j Hj. rewrite tc_fold_nth. rewrite HL in Hj. replace (nth j (@nil (list nat)) []) with (@nil nat) by now destruct j. cbn [app]. rewrite nth_indep with (d' := (fun j => filter (fun k => f k =? j) l) 0) by (now rewrite map_length, seq_length).
    rewrite (map_nth (fun j => filter (fun k => f k =? j) l)). now rewrite seq_nth by auto.
  Qed.
End Tc.
Lemma foldM_pure {A C} (g : A -> C -> res A) (h : A -> C -> A) l : forall s, (forall s x, In x l -> g s x = Ret (h s x)) -> foldM g l s = Ret (fold_left h l s).
Proof. induction l as [|x l IH]; intros s H; auto. cbn. rewrite H by now left. cbn. apply IH. intros; apply H; now right. Qed.
Lemma perm_classes (f : nat -> nat) n l : (forall k, In k l -> f k < n) -> Permutation (concat (map (fun j => filter (fun k => f k =? j) l) (seq 0 n))) l.
Proof.
  induction l as [|a l IH]; intros H.
  - cbn. induction (seq 0 n); auto.
  - assert (G : forall js, NoDup js -> Permutation (concat (map (fun j => filter (fun k => f k =? j) (a :: l)) js))
                     ((if existsb (Nat.eqb (f a)) js then [a] else []) ++ concat (map (fun j => filter (fun k => f k =? j) l) js))).
    { induction js as [|j js IHj]; intros ND; auto. inversion ND; subst. cbn [map concat existsb]. cbn [filter]. destruct (Nat.eqb_spec (f a) j) as [E|E]; cbn [orb].
      - cbn [app]. constructor. apply Permutation_app_head. eapply Permutation_trans; [apply IHj; auto|]. replace (existsb (Nat.eqb (f a)) js) with false; auto.
        symmetry. apply Bool.not_true_is_false. intros X. apply existsb_exists in X. destruct X as (j' & X1 & X2). apply Nat.eqb_eq in X2. congruence.
      - eapply Permutation_trans; [apply Permutation_app_head, IHj; auto|]. rewrite !app_assoc. apply Permutation_app_tail, Permutation_app_comm. }
    eapply Permutation_trans; [apply G, seq_NoDup|]. replace (existsb (Nat.eqb (f a)) (seq 0 n)) with true.
    + cbn [app]. constructor. apply IH. intros; apply H; now right.
    + symmetry. apply existsb_exists. exists (f a). split; [|apply Nat.eqb_refl]. apply in_seq. specialize (H a (or_introl eq_refl)). lia.
Qed.
Lemma ss_filter (g : nat -> bool) l : StronglySorted lt l -> StronglySorted lt (filter g l).
Proof. induction 1 as [|a l H1 IH H2]; cbn. constructor. destruct (g a); auto. constructor; auto. apply Forall_forall. intros x Hx. apply filter_In in Hx. rewrite Forall_forall in H2. now apply H2. Qed.
Lemma ss_seq n : forall k, StronglySorted lt (seq k n).
Proof. induction n as [|n IH]; intros k; cbn; constructor; auto. apply Forall_forall. intros x Hx. apply in_seq in Hx. lia. Qed.
Lemma ss_hd l m : StronglySorted lt l -> In m l -> (forall x, In x l -> m <= x) -> hd 0 l = m.
Proof. intros H Hm Hx. destruct H as [|a l H1 H2]. contradiction. cbn. specialize (Hx a (or_introl eq_refl)). destruct Hm as [|Hm]; auto. rewrite Forall_forall in H2. specialize (H2 _ Hm). lia. Qed.

(** *** the groups *)
(** QuickSortI returns the indices in the order of their keys *)
Definition sort_ok (sort : list nat -> list nat) : Prop :=
  forall a, Permutation (sort a) (seq 0 (length a)) /\ forall i j, i <= j < length a -> nth (nth i (sort a) 0) a 0 <= nth (nth j (sort a) 0) a 0.
(** METIS returns one part number per rank *)
Definition part_ok (p nparts : nat) (part : list nat) : Prop := length part = p /\ forall r, r < p -> nth r part 0 < nparts.
(** the groups of ranks: every rank in exactly one of them, none empty, sorted, ordered by the smallest rank *)
Definition good_groups (p : nat) (groups : list (list nat)) : Prop :=
  Permutation (concat groups) (seq 0 p) /\ (forall g, In g groups -> g <> [] /\ StronglySorted lt g) /\
  (forall i j, i < j < length groups -> hd 0 (nth i groups []) < hd 0 (nth j groups [])).

Section Part.
  Variables (p nparts : nat) (part : list nat) (from : nat).
  Hypotheses (HP : length part = p) (HN : forall r, from <= r < p -> nth r part 0 < nparts).
  Lemma min_ranks_ok : exists a, min_ranks p nparts from part = Ret a /\ length a = nparts /\
    forall q, q < nparts -> (forall r, from <= r < p -> nth r part 0 = q -> nth q a 0 <= r) /\
                            (nth q a 0 = p \/ (from <= nth q a 0 < p /\ nth (nth q a 0) part 0 = q)).
  Proof.
    unfold min_ranks.
    assert (G : forall m k0 a, from <= k0 -> k0 + m <= p -> length a = nparts ->
      (forall q, q < nparts -> (forall r, from <= r < k0 -> nth r part 0 = q -> nth q a 0 <= r) /\ (nth q a 0 = p \/ (from <= nth q a 0 < p /\ nth (nth q a 0) part 0 = q))) ->
      exists a', foldM (fun arra k => q <- rd part k ;; old <- rd arra q ;; wr arra q (Nat.min old k)) (seq k0 m) a = Ret a' /\ length a' = nparts /\
      forall q, q < nparts -> (forall r, from <= r < k0 + m -> nth r part 0 = q -> nth q a' 0 <= r) /\ (nth q a' 0 = p \/ (from <= nth q a' 0 < p /\ nth (nth q a' 0) part 0 = q))).
    { induction m as [|m IH]; intros k0 a Hk Hm L H.
      - exists a. rewrite Nat.add_0_r. cbn. auto.
      - cbn [seq foldM]. rewrite (rd_ok part k0 0) by lia. cbn [bind]. pose proof (HN k0 ltac:(lia)) as Hq. rewrite (rd_ok a _ 0) by lia. cbn [bind]. rewrite wr_ok by lia. cbn [bind].
        set (q0 := nth k0 part 0) in *. replace (k0 + S m) with (S k0 + m) by lia. apply IH; try lia. now rewrite upd_length.
        intros q Hqq. destruct (H q Hqq) as (H1 & H2). destruct (Nat.eq_dec q0 q) as [e|n].
        + rewrite <- e in *. rewrite nth_upd_eq by lia. split.
          * intros r Hr E. destruct (Nat.eq_dec r k0) as [->|]; [lia|]. specialize (H1 r ltac:(lia) E). lia.
          * destruct (Nat.min_spec (nth q0 a 0) k0) as [(_ & ->)|(_ & ->)]; auto. right. split; [lia|]. reflexivity.
        + rewrite nth_upd_neq by auto. split; auto. intros r Hr E. destruct (Nat.eq_dec r k0) as [->|]; [contradiction|]. apply H1; auto. lia. }
    destruct (Nat.le_gt_cases from p) as [HF|HF].
    - destruct (G (p - from) from (repeat p nparts)) as (a' & E & L & S); try lia. apply repeat_length.
      { intros q Hq. split; [lia|]. left. rewrite nth_indep with (d' := p) by (now rewrite repeat_length). apply nth_repeat. }
      exists a'. split; auto. split; auto. intros q Hq. destruct (S q Hq) as (S1 & S2). split; auto. intros r Hr. apply S1. lia.
    - replace (p - from) with 0 by lia. cbn. eexists. split; [reflexivity|]. split; [apply repeat_length|]. intros q Hq. split; [lia|]. left.
      rewrite nth_indep with (d' := p) by (now rewrite repeat_length). apply nth_repeat.
  Qed.
End Part.
  Lemma inverse_perm_ok nparts (a b : list nat) : length a = nparts -> Permutation b (seq 0 nparts) ->
    exists a', inverse_perm a b nparts = Ret a' /\ length a' = nparts /\ forall k, k < nparts -> nth (nth k b 0) a' 0 = k.
  Proof.
    intros L PB. assert (LB : length b = nparts) by (rewrite (Permutation_length PB); apply seq_length).
    assert (NB : NoDup b) by (eapply Permutation_NoDup; [apply Permutation_sym, PB|apply seq_NoDup]).
    assert (RB : forall k, k < nparts -> nth k b 0 < nparts).
    { intros k Hk. assert (In (nth k b 0) (seq 0 nparts)) by (eapply Permutation_in; [apply PB|apply nth_In; lia]). apply in_seq in H. lia. }
    unfold inverse_perm.
    assert (G : forall m k0 a, k0 + m = nparts -> length a = nparts -> (forall k, k < k0 -> nth (nth k b 0) a 0 = k) ->
      exists a', foldM (fun a k => i <- rd b k ;; wr a i k) (seq k0 m) a = Ret a' /\ length a' = nparts /\ forall k, k < nparts -> nth (nth k b 0) a' 0 = k).
    { clear a L. induction m as [|m IH]; intros k0 a Hm L H.
      - exists a. split; [reflexivity|]. split; auto. intros k Hk. apply H. lia.
      - cbn [seq foldM]. rewrite (rd_ok b k0 0) by lia. cbn [bind]. rewrite wr_ok by (rewrite L; apply RB; lia). cbn [bind]. apply IH; try lia. now rewrite upd_length.
        intros k Hk. destruct (Nat.eq_dec k k0) as [->|]. { apply nth_upd_eq. rewrite L. apply RB; lia. }
        rewrite nth_upd_neq. apply H; lia. intros E. pose proof (proj1 (NoDup_nth b 0) NB k0 k ltac:(lia) ltac:(lia) E). lia. }
    apply (G nparts 0 a); auto. lia.
  Qed.
Section Groups.
  Variables (f : nat -> nat) (p : nat).
  Hypothesis M : forall k i, k < p -> i < f k -> exists k', k' < k /\ f k' = i.
  Lemma groups_good : good_groups p (tc_fold f (seq 0 p) []).
  Proof.
    set (n := length (tc_fold f (seq 0 p) [])).
    assert (Hn : forall j, j < n <-> exists k, In k (seq 0 p) /\ j <= f k).
    { intros j. unfold n. rewrite tc_fold_len. cbn. split; [intros [H|H]; [lia|auto]|auto]. }
    assert (E : tc_fold f (seq 0 p) [] = map (fun j => filter (fun k => f k =? j) (seq 0 p)) (seq 0 n)) by (apply tc_fold_eq; auto).
    assert (NE : forall j, j < n -> exists k, k < p /\ f k = j).
    { intros j Hj. apply Hn in Hj. destruct Hj as (k & Hk & Hj). apply in_seq in Hk. destruct (Nat.eq_dec j (f k)); [exists k; split; [lia|auto]|].
      destruct (M k j ltac:(lia) ltac:(lia)) as (k' & H1 & H2). exists k'. split; [lia|auto]. }
    assert (HR : forall j, j < n -> nth j (tc_fold f (seq 0 p) []) [] = filter (fun k => f k =? j) (seq 0 p)).
    { intros j Hj. rewrite tc_fold_nth. now destruct j. }
    split; [|split].
    - rewrite E. apply perm_classes. intros k Hk. apply Hn. eauto.
    - intros g Hg. apply In_nth with (d := []) in Hg. destruct Hg as (j & Hj & <-). rewrite HR by auto. split; [|apply ss_filter, ss_seq].
      destruct (NE j Hj) as (k & Hk & Ek). intros X. assert (I : In k (filter (fun k => f k =? j) (seq 0 p))).
      { apply filter_In. split; [apply in_seq; lia|]. now apply Nat.eqb_eq. } rewrite X in I. contradiction.
    - intros i j (Hij & Hj). fold n in Hj. rewrite !HR by lia.
      set (gj := filter (fun k => f k =? j) (seq 0 p)). assert (I : In (hd 0 gj) gj).
      { destruct gj eqn:X; [|now left]. destruct (NE j Hj) as (k & Hk & Ek). assert (I : In k gj) by (apply filter_In; split; [apply in_seq; lia|now apply Nat.eqb_eq]). rewrite X in I. contradiction. }
      apply filter_In in I. destruct I as (I1 & I2). apply in_seq in I1. apply Nat.eqb_eq in I2.
      destruct (M (hd 0 gj) i ltac:(lia) ltac:(lia)) as (k' & K1 & K2).
      assert (I : In k' (filter (fun k => f k =? i) (seq 0 p))) by (apply filter_In; split; [apply in_seq; lia|now apply Nat.eqb_eq]).
      pose proof (ss_filter (fun k => f k =? i) _ (ss_seq p 0)) as SS. destruct (filter (fun k => f k =? i) (seq 0 p)) as [|a l]; [contradiction|]. cbn.
      apply StronglySorted_inv in SS. destruct SS as (_ & H2). rewrite Forall_forall in H2. destruct I as [->|I]; [lia|]. specialize (H2 _ I). lia.
  Qed.
  Lemma groups_len m : (forall k, k < p -> f k < m) -> length (tc_fold f (seq 0 p) []) <= m.
  Proof.
    intros H. destruct (Nat.le_gt_cases (length (tc_fold f (seq 0 p) [])) m) as [|X]; auto. exfalso.
    apply tc_fold_len in X. destruct X as [X|(k & Hk & X)]; [cbn in X; lia|]. apply in_seq in Hk. specialize (H k ltac:(lia)). lia.
  Qed.
End Groups.
Lemma partition_ok p nparts sep part sort : sort_ok sort -> 0 < p -> 0 < nparts -> (sep = true -> 1 < p /\ 1 < nparts) -> part_ok p (if sep then nparts - 1 else nparts) part ->
  exists groups, PartitionProcs p nparts sep part sort = Ret groups /\ good_groups p groups /\ length groups <= nparts /\ nth 0 (nth 0 groups []) 1 = 0 /\ (sep = true -> nth 0 groups [] = [0]).
Proof.
  intros HS Hp Hn Hsep (HP & HR). unfold PartitionProcs.
  destruct ((nparts =? 1) || (sep && (nparts =? 2))) eqn:B.
  - assert (SQ : seq 0 p = 0 :: seq 1 (p - 1)) by (destruct p; [lia|]; cbn [seq]; now rewrite Nat.sub_succ, Nat.sub_0_r).
    destruct (Nat.eqb_spec nparts 1) as [->|N1].
    + eexists. split; [reflexivity|]. split; [|split; [cbn; lia|split; [reflexivity|]]].
      * split; [|split]. cbn [concat]. rewrite app_nil_r. now rewrite SQ. intros g [<-|[]]. split; [discriminate|]. rewrite <- SQ. apply ss_seq. intros i j (H1 & H2). cbn in H2. lia.
      * intros ->. destruct (Hsep eq_refl). lia.
    + destruct sep; [|discriminate]. cbn in B. apply Nat.eqb_eq in B. subst nparts. destruct (Hsep eq_refl) as (Hp2 & _).
      eexists. split; [reflexivity|]. split; [|split; [cbn; lia|split; [reflexivity|auto]]]. split; [|split].
      * cbn [concat]. rewrite app_nil_r. cbn [app]. now rewrite SQ.
      * intros g [<-|[<-|[]]]. split; [discriminate|repeat constructor]. split; [|apply ss_seq]. destruct (p - 1) eqn:X; [lia|discriminate].
      * intros i j (H1 & H2). cbn in H2. assert (i = 0 /\ j = 1) as (-> & ->) by lia. cbn. destruct (p - 1) eqn:X; [lia|cbn; lia].
  - set (from := if sep then 1 else 0).
    destruct (min_ranks_ok p nparts part from) as (a & Ea & La & Sa); auto. { intros r Hr. specialize (HR r ltac:(lia)). destruct sep; lia. }
    rewrite Ea. cbn [bind]. destruct (HS a) as (PB & SB). rewrite La in PB, SB.
    destruct (inverse_perm_ok nparts a (sort a) La PB) as (a' & Ea' & La' & Sa'). rewrite Ea'. cbn [bind].
    assert (POS : forall q, q < nparts -> exists k, k < nparts /\ nth k (sort a) 0 = q /\ nth q a' 0 = k).
    { intros q Hq. assert (I : In q (sort a)) by (eapply Permutation_in; [apply Permutation_sym, PB|apply in_seq; lia]). apply In_nth with (d := 0) in I.
      destruct I as (k & Hk & Ek). rewrite (Permutation_length PB), seq_length in Hk. exists k. split; auto. split; auto. rewrite <- Ek. now apply Sa'. }
    assert (RB : forall k, k < nparts -> nth k (sort a) 0 < nparts).
    { intros k Hk. assert (In (nth k (sort a) 0) (seq 0 nparts)). { eapply Permutation_in; [apply PB|apply nth_In]. rewrite (Permutation_length PB), seq_length. auto. } apply in_seq in H. lia. }
    set (pos := fun r => nth (nth r part 0) a' 0).
    assert (HRn : forall r, r < p -> nth r part 0 < nparts) by (intros r Hr; specialize (HR r Hr); destruct sep; lia).
    (* every smaller position belongs to a part with a smaller rank *)
    assert (MM : forall k i, from <= k < p -> i < pos k -> exists k', from <= k' < k /\ pos k' = i).
    { intros k i Hk Hi. unfold pos in Hi. destruct (POS _ (HRn k ltac:(lia))) as (J & HJ & EJ & XJ). rewrite XJ in Hi.
      destruct (Sa _ (HRn k ltac:(lia))) as (S1 & _). specialize (S1 k Hk eq_refl). pose proof (SB i J ltac:(lia)) as S2. rewrite EJ in S2.
      destruct (Sa (nth i (sort a) 0) (RB i ltac:(lia))) as (_ & [S3|(S3 & S4)]); [lia|].
      exists (nth (nth i (sort a) 0) a 0). assert (PE : pos (nth (nth i (sort a) 0) a 0) = i) by (unfold pos; rewrite S4; apply Sa'; lia).
      split; auto. split; [lia|]. assert (nth (nth i (sort a) 0) a 0 <> k); [|lia]. intros X. rewrite X in PE. unfold pos in PE. rewrite XJ in PE. lia. }
    assert (PL : forall k, from <= k < p -> pos k < if sep then nparts - 1 else nparts).
    { intros k Hk. destruct (POS _ (HRn k ltac:(lia))) as (J & HJ & EJ & XJ). unfold pos. rewrite XJ. unfold from in *. destruct sep; [|auto].
      destruct (Hsep eq_refl) as (_ & H2). destruct (POS (nparts - 1) ltac:(lia)) as (K & HK & EK & XK).
      destruct (Sa (nparts - 1) ltac:(lia)) as (_ & [S3|(S3 & S4)]).
      - assert (J <> K) by (intros ->; rewrite EK in EJ; specialize (HR k ltac:(lia)); lia).
        destruct (Nat.lt_ge_cases J K); [lia|]. exfalso. pose proof (SB K J ltac:(lia)) as S2. rewrite EK, EJ, S3 in S2.
        destruct (Sa _ (HRn k ltac:(lia))) as (S1 & _). specialize (S1 k Hk eq_refl). lia.
      - exfalso. specialize (HR _ (proj2 S3)). lia. }
    destruct sep; unfold from in *.
    + destruct (Hsep eq_refl) as (Hp2 & Hn2). set (f := fun r => if r =? 0 then 0 else pos r + 1).
      rewrite foldM_pure with (h := fun t k => tc_add t (f k) k).
      2:{ intros s x Hx. apply in_seq in Hx. rewrite (rd_ok part x 0) by lia. cbn [bind]. rewrite (rd_ok a' _ 0) by (rewrite La'; apply HRn; lia). cbn [bind]. unfold f. destruct (Nat.eqb_spec x 0); [lia|reflexivity]. }
      assert (EQ : fold_left (fun t k => tc_add t (f k) k) (seq 1 (p - 1)) (tc_add [] 0 0) = tc_fold f (seq 0 p) []).
      { unfold tc_fold. replace (seq 0 p) with (0 :: seq 1 (p - 1)) by (destruct p; [lia|]; cbn [seq]; now rewrite Nat.sub_succ, Nat.sub_0_r). reflexivity. }
      rewrite EQ. assert (Mf : forall k i, k < p -> i < f k -> exists k', k' < k /\ f k' = i).
      { intros k i Hk Hi. unfold f in Hi. destruct (Nat.eqb_spec k 0) as [->|]; [lia|]. destruct i as [|i]. exists 0. split; [lia|reflexivity].
        destruct (MM k i ltac:(lia) ltac:(lia)) as (k' & K1 & K2). exists k'. split; [lia|]. unfold f. destruct (Nat.eqb_spec k' 0); [lia|]. lia. }
      eexists. split; [reflexivity|]. split; [apply groups_good; auto|].
      assert (R0 : nth 0 (tc_fold f (seq 0 p) []) [] = [0]).
      { rewrite tc_fold_nth. cbn [nth app]. replace (seq 0 p) with (0 :: seq 1 (p - 1)) by (destruct p; [lia|]; cbn [seq]; now rewrite Nat.sub_succ, Nat.sub_0_r). cbn [filter].
        replace (f 0 =? 0) with true by reflexivity. f_equal. assert (Z : forall l, (forall x, In x l -> x <> 0) -> filter (fun k => f k =? 0) l = []).
        { induction l as [|x l IH]; intros H; auto. cbn. replace (f x =? 0) with false. apply IH; intros; apply H; now right. symmetry. apply Nat.eqb_neq. unfold f. specialize (H x (or_introl eq_refl)). destruct (Nat.eqb_spec x 0); lia. }
        apply Z. intros x Hx. apply in_seq in Hx. lia. }
      split; [|split]; auto.
      * apply groups_len. intros k Hk. unfold f. destruct (Nat.eqb_spec k 0); [lia|]. specialize (PL k ltac:(lia)). lia.
      * now rewrite R0.
    + rewrite foldM_pure with (h := fun t k => tc_add t (pos k) k).
      2:{ intros s x Hx. apply in_seq in Hx. rewrite (rd_ok part x 0) by lia. cbn [bind]. rewrite (rd_ok a' _ 0) by (rewrite La'; apply HRn; lia). reflexivity. }
      assert (Mf : forall k i, k < p -> i < pos k -> exists k', k' < k /\ pos k' = i).
      { intros k i Hk Hi. destruct (MM k i ltac:(lia) Hi) as (k' & K1 & K2). exists k'. split; [lia|auto]. }
      eexists. split; [reflexivity|]. split; [apply groups_good; auto|]. split; [|split; [|discriminate]].
      * apply (groups_len pos p). intros k Hk. apply PL. lia.
      * change (fold_left (fun t k => tc_add t (pos k) k) (seq 0 p) []) with (tc_fold pos (seq 0 p) []). rewrite tc_fold_nth. cbn [nth app].
        assert (P0 : pos 0 = 0). { destruct (pos 0) eqn:X; auto. destruct (Mf 0 0 Hp ltac:(lia)) as (k' & K & _). lia. }
        destruct p; [lia|]. cbn [seq filter]. now rewrite P0.
Qed.

(** *** ranks of the contracted communicator *)
Lemma nodup_app_r {A} (l1 l2 : list A) : NoDup (l1 ++ l2) -> NoDup l2.
Proof. induction l1 as [|x l1 IH]; auto. cbn. intros H. apply NoDup_cons_iff in H. tauto. Qed.
Lemma concat_nodup_unique (groups : list (list nat)) : NoDup (concat groups) -> forall i j r, i < length groups -> j < length groups -> In r (nth i groups []) -> In r (nth j groups []) -> i = j.
Proof.
  induction groups as [|g gs IH]; intros ND i j r Hi Hj Ri Rj; [cbn in Hi; lia|]. cbn [concat] in ND.
  assert (X : forall k, k < length gs -> In r g -> In r (nth k gs []) -> False).
  { intros k Hk R1 R2. clear -ND Hk R1 R2. induction g as [|x g IHg]; [contradiction|]. cbn in ND. apply NoDup_cons_iff in ND. destruct ND as (N1 & N2). destruct R1 as [->|R1]; auto.
    apply N1. apply in_or_app. right. apply in_concat. exists (nth k gs []). split; auto. now apply nth_In. }
  destruct i as [|i], j as [|j]; cbn in Ri, Rj, Hi, Hj; auto.
  - exfalso. apply (X j); auto. lia.
  - exfalso. apply (X i); auto. lia.
  - f_equal. apply (IH (nodup_app_r _ _ ND)) with r; auto; lia.
Qed.
Section Contract.
  Variables (p : nat) (groups : list (list nat)).
  Hypothesis G : good_groups p groups.
  Lemma gg_nodup : NoDup (concat groups).
  Proof. destruct G as (P & _). eapply Permutation_NoDup; [apply Permutation_sym, P|apply seq_NoDup]. Qed.
  Lemma gg_in r g : g < length groups -> In r (nth g groups []) -> r < p.
  Proof. destruct G as (P & _). intros Hg Hr. assert (In r (concat groups)) by (apply in_concat; exists (nth g groups []); split; auto; now apply nth_In). apply (Permutation_in _ P) in H. apply in_seq in H. lia. Qed.
  Lemma gg_find r : r < p -> exists g, g < length groups /\ In r (nth g groups []).
  Proof.
    destruct G as (P & _). intros Hr. assert (I : In r (concat groups)) by (eapply Permutation_in; [apply Permutation_sym, P|apply in_seq; lia]).
    apply in_concat in I. destruct I as (g & Ig & Ir). apply In_nth with (d := []) in Ig. destruct Ig as (k & Hk & <-). eauto.
  Qed.
  Lemma row_fold g row : forall m, length m = p -> (forall r, In r row -> r < p) ->
    exists m', foldM (fun m r => wr m r g) row m = Ret m' /\ length m' = p /\ forall r, (In r row -> nth r m' 0 = g) /\ (~ In r row -> nth r m' 0 = nth r m 0).
  Proof.
    induction row as [|x row IH]; intros m L H. { exists m. cbn. firstorder. }
    cbn [foldM]. rewrite wr_ok by (rewrite L; apply H; now left). cbn [bind]. destruct (IH (upd m x g)) as (m' & E & L' & S). now rewrite upd_length. intros; apply H; now right.
    exists m'. split; auto. split; auto. intros r. destruct (S r) as (S1 & S2). split.
    - intros [->|I]; auto. destruct (in_dec Nat.eq_dec r row) as [I|I]; auto. rewrite S2 by auto. apply nth_upd_eq. rewrite L. apply H. now left.
    - intros N. rewrite S2 by (intros X; apply N; now right). apply nth_upd_neq. intros ->. apply N. now left.
  Qed.
  Lemma proc_map_ok : exists m, proc_map p groups = Ret m /\ length m = p /\ forall g r, g < length groups -> In r (nth g groups []) -> nth r m 0 = g.
  Proof.
    unfold proc_map. assert (X : forall n k0 m, k0 + n = length groups -> length m = p -> (forall g r, g < k0 -> In r (nth g groups []) -> nth r m 0 = g) ->
      exists m', foldM (fun m g => row <- rd groups g ;; foldM (fun m r => wr m r g) row m) (seq k0 n) m = Ret m' /\ length m' = p /\ forall g r, g < length groups -> In r (nth g groups []) -> nth r m' 0 = g).
    { induction n as [|n IH]; intros k0 m Hk L H. { exists m. split; [reflexivity|]. split; auto. intros g r Hg. apply H. lia. }
      cbn [seq foldM]. rewrite (rd_ok groups k0 []) by lia. cbn [bind]. destruct (row_fold k0 (nth k0 groups []) m L) as (m1 & E1 & L1 & S1). { intros r Hr. apply (gg_in r k0); auto. lia. }
      rewrite E1. cbn [bind]. apply IH; auto; try lia. intros g r Hg Hr. destruct (Nat.eq_dec g k0) as [->|]. { now apply S1. }
      destruct (S1 r) as (_ & S2). rewrite S2. apply H; auto. lia. intros Hr'. pose proof (concat_nodup_unique groups gg_nodup g k0 r ltac:(lia) ltac:(lia) Hr Hr'). lia. }
    apply (X (length groups) 0); auto. apply repeat_length. lia.
  Qed.
  Lemma contract_rank_ok r g : g < length groups -> In r (nth g groups []) -> contract_rank p r groups = Ret (if hd 0 (nth g groups []) =? r then Some g else None).
  Proof.
    intros Hg Hr. unfold contract_rank. destruct proc_map_ok as (m & E & L & S). rewrite E. cbn [bind]. rewrite (rd_ok m r 0) by (rewrite L; now apply (gg_in r g)). cbn [bind]. rewrite (S g r Hg Hr).
    rewrite (rd_ok groups g []) by auto. cbn [bind]. destruct (nth g groups []) as [|x l]; [contradiction|]. reflexivity.
  Qed.
  Lemma hd_in g : g < length groups -> In (hd 0 (nth g groups [])) (nth g groups []).
  Proof. intros Hg. destruct G as (_ & NE & _). destruct (NE (nth g groups [])) as (N & _). now apply nth_In. destruct (nth g groups []); [congruence|now left]. Qed.
  (** every rank of the new communicator belongs to exactly one old rank *)
  Lemma contract_bij g : g < length groups -> exists r, r < p /\ contract_rank p r groups = Ret (Some g) /\ forall r', r' < p -> contract_rank p r' groups = Ret (Some g) -> r' = r.
  Proof.
    intros Hg. pose proof (hd_in g Hg) as I. exists (hd 0 (nth g groups [])). split; [now apply (gg_in _ g)|]. split. { rewrite (contract_rank_ok _ g) by auto. now rewrite Nat.eqb_refl. }
    intros r' Hr' E. destruct (gg_find r' Hr') as (g' & Hg' & I'). rewrite (contract_rank_ok _ g') in E by auto. destruct (Nat.eqb_spec (hd 0 (nth g' groups [])) r'); [|discriminate]. injection E as ->. auto.
  Qed.
  Lemma contract_total r : r < p -> exists o, contract_rank p r groups = Ret o /\ match o with Some g => g < length groups | None => True end.
  Proof. intros Hr. destruct (gg_find r Hr) as (g & Hg & I). rewrite (contract_rank_ok r g) by auto. eexists. split; [reflexivity|]. destruct (hd 0 (nth g groups []) =? r); auto. Qed.
  Lemma gg_len : length groups <= p.
  Proof.
    destruct G as (P & NE & _). rewrite <- (seq_length p 0), <- (Permutation_length P). clear -NE. induction groups as [|g gs IH]; auto. cbn. rewrite app_length.
    destruct (NE g (or_introl eq_refl)) as (N & _). destruct g; [congruence|]. cbn. apply le_n_S. etransitivity; [apply IH; intros; apply NE; now right|lia].
  Qed.
End Contract.

(** *** the redistribution factor *)
Lemma Qltb_lt a b : Qltb a b = true <-> (a < b)%Q.
Proof. unfold Qltb. rewrite Bool.negb_true_iff. split. intros H. apply Qnot_le_lt. intros X. apply Qle_bool_iff in X. congruence. intros H. apply Bool.not_true_is_false. intros X. apply Qle_bool_iff in X. apply (Qlt_not_le _ _ H X). Qed.
Lemma Qltb_ge a b : Qltb a b = false <-> (b <= a)%Q.
Proof. unfold Qltb. rewrite Bool.negb_false_iff. apply Qle_bool_iff. Qed.
Lemma qmin2_l a b : (qmin2 a b <= a)%Q.
Proof. unfold qmin2. destruct (Qltb a b) eqn:E. apply Qle_refl. now apply Qltb_ge. Qed.
Lemma rdfac_seq O size (idle : bool) meas lf nf : size <= (if idle then 2 else 1) -> FindRDFac O size idle meas lf nf = Some 1%Q.
Proof. intros H. unfold FindRDFac. apply Nat.leb_le in H. now rewrite H. Qed.
Lemma rdfac_small O size (idle : bool) meas lf nf : (if idle then 2 else 1) < size -> meas < rd_seq_nv O -> FindRDFac O size idle meas lf nf = Some (-1 # 1)%Q.
Proof. intros H1 H2. unfold FindRDFac. apply Nat.leb_gt in H1. apply Nat.ltb_lt in H2. now rewrite H1, H2. Qed.
Lemma rdfac_half O size (idle : bool) meas lf nf f : (if idle then 2 else 1) < size -> rd_seq_nv O <= meas -> FindRDFac O size idle meas lf nf = Some f -> (f <= 1 # 2)%Q.
Proof.
  intros H1 H2. unfold FindRDFac. apply Nat.leb_gt in H1. apply Nat.ltb_ge in H2. rewrite H1, H2. intros E.
  match type of E with (match ?w with Some _ => _ | None => _ end) = _ => destruct w as [q|]; [|discriminate E] end. injection E as <-. apply qmin2_l.
Qed.
Lemma rdfac_some O size (idle : bool) meas lf nf : 0 < rd_min_nv_gl O \/ 0 < rd_seq_nv O -> exists f, FindRDFac O size idle meas lf nf = Some f.
Proof.
  intros H. unfold FindRDFac. destruct (size <=? (if idle then 2 else 1)); eauto. destruct (Nat.ltb_spec meas (rd_seq_nv O)) as [|H']; eauto.
  assert (B : exists b, (if rd_min_nv_gl O =? 0 then if meas =? 0 then None else Some (rd_pfac O) else Some (qmin2 (rd_pfac O) (natQ meas / natQ (rd_min_nv_gl O) / natQ size)%Q)) = Some b).
  { destruct (Nat.eqb_spec (rd_min_nv_gl O) 0); eauto. destruct (Nat.eqb_spec meas 0); eauto. exfalso. lia. }
  destruct B as (b & ->). destruct lf as [F|]; eauto. destruct (Qltb F (rd_loc_thresh O)); eauto.
Qed.
Lemma qround_half s f : (0 <= s)%Z -> (f <= 1 # 2)%Q -> (2 * qround (inject_Z s * f) <= s + 1)%Z.
Proof.
  intros Hs H. assert (H1 : (inject_Z s * f <= inject_Z s * (1 # 2))%Q).
  { rewrite (Qmult_comm _ f), (Qmult_comm _ (1 # 2)). apply Qmult_le_compat_r; auto. change 0%Q with (inject_Z 0); now rewrite <- Zle_Qle. }
  unfold qround. destruct (Qle_bool 0 (inject_Z s * f)) eqn:E.
  - pose proof (Qfloor_le (inject_Z s * f + (1 # 2))) as F. set (z := Qfloor _) in *. rewrite Zle_Qle. rewrite inject_Z_mult, inject_Z_plus.
    apply Qle_trans with (inject_Z 2 * (inject_Z s * f + (1 # 2)))%Q. { rewrite (Qmult_comm _ (inject_Z z)), (Qmult_comm (inject_Z 2)). now apply Qmult_le_compat_r. }
    apply Qle_trans with (inject_Z 2 * (inject_Z s * (1 # 2) + (1 # 2)))%Q.
    { rewrite !(Qmult_comm (inject_Z 2)). apply Qmult_le_compat_r; [|easy]. now apply Qplus_le_compat; [|apply Qle_refl]. }
    apply Qle_lteq. right. change (inject_Z 2) with (2 # 1)%Q. change (inject_Z 1) with (1 # 1)%Q. ring_simplify. reflexivity.
  - assert (N : (inject_Z s * f <= 0)%Q). { apply Qlt_le_weak, Qnot_le_lt. intros X. apply Qle_bool_iff in X. congruence. }
    assert (0 <= Qfloor (- (inject_Z s * f) + (1 # 2)))%Z; [|lia]. rewrite <- (Qfloor_Z 0). apply Qfloor_resp_le.
    apply Qle_trans with (0 + (1 # 2))%Q. easy. apply Qplus_le_compat; [|apply Qle_refl]. setoid_replace 0%Q with (- 0)%Q by ring. now apply Qopp_le_compat.
Qed.
(** what the number of groups can be *)
Lemma n_groups_ok size (idle : bool) f n : (if idle then 2 else 1) < size -> (f == -1 # 1)%Q \/ (f <= 1 # 2)%Q -> n_groups size idle (Some f) = Ret n ->
  (if idle then 2 else 1) <= n /\ (size = 2 -> n = 2 \/ n = 1) /\ (2 < size -> n < size) /\ (~ (f == -1 # 1)%Q -> 2 <= n).
Proof.
  intros Hs Hf E. unfold n_groups in E. apply (f_equal (fun r => match r with Ret a => a | Err _ => 0 end)) in E. cbv beta iota in E. destruct (Qeq_bool f (-1 # 1)) eqn:B.
  - subst n. apply Qeq_bool_iff in B. destruct idle; repeat split; intros; try lia; contradiction.
  - apply Qeq_bool_neq in B. destruct Hf as [Hf|Hf]; [contradiction|].
    pose proof (qround_half (Z.of_nat (size - 1)) f ltac:(lia) Hf) as R. unfold natQ in E. set (z := qround _) in *. clearbody z. destruct idle; cbv iota in *; (split; [|split; [|split]]); intros; lia.
Qed.

(** *** one contraction, seen by all ranks *)
Definition env_ok (E : environ) : Prop := sort_ok (e_sort E) /\ forall lev p m, 0 < p -> 0 < m -> part_ok p m (e_part E lev p m).
Definition opts_ok (O : options) : Prop := 0 < rd_min_nv_gl O \/ 0 < rd_seq_nv O.
Section Setup.
  Variables (O : options) (E : environ) (idle : bool).
  Hypotheses (HE : env_ok E) (HO : opts_ok O) (HF : forall l, e_free E l = false).
  Let thr := if idle then 2 else 1.
  Lemma contract_all lev c size s :
    (forall rank, TryContractStep O E idle lev c size rank s = Ret None) \/
    (enable_redist O = true /\ thr < size /\ exists groups, good_groups size groups /\ 0 < length groups <= size /\ (2 < size -> length groups < size) /\ (c < rd_seq_nv O -> length groups <= thr) /\
       nth 0 (nth 0 groups []) 1 = 0 /\ (idle = true -> nth 0 groups [] = [0]) /\
       forall rank, rank < size -> exists o, contract_rank size rank groups = Ret o /\ TryContractStep O E idle lev c size rank s = Ret (Some (mkState false true c, length groups, o))).
  Proof.
    unfold TryContractStep. fold thr. destruct (enable_redist O); cbn [negb orb]; [|now left]. destruct (Nat.ltb_spec thr size) as [Hs|Hs]; cbn [negb orb]; [|now left].
    cbv zeta. match goal with |- context [if negb ?w then Ret None else _] => destruct w end; cbn [negb]; [|now left]. right. split; auto. split; auto.
    destruct (rdfac_some O size idle c (e_locfrac E lev) (e_nf E lev) HO) as (f & Ef). rewrite Ef.
    assert (Hf : (f == -1 # 1)%Q \/ (f <= 1 # 2)%Q).
    { destruct (Nat.lt_ge_cases c (rd_seq_nv O)) as [Hc|Hc]. left. rewrite rdfac_small in Ef by auto. injection Ef as <-. reflexivity. right. now apply (rdfac_half O size idle c (e_locfrac E lev) (e_nf E lev)). }
    destruct (n_groups size idle (Some f)) as [n|] eqn:En; [|discriminate]. destruct (n_groups_ok size idle f n Hs Hf En) as (N1 & N2 & N3 & N4). fold thr in N1.
    assert (Hn : 0 < n) by (unfold thr in N1; destruct idle; lia).
    assert (Hi : idle = true -> 1 < size /\ 1 < n) by (intros ->; unfold thr in *; lia).
    destruct (partition_ok size n idle (e_part E lev size (if idle then n - 1 else n)) (e_sort E)) as (groups & Eg & Gg & Lg & Zg & Ig); auto. apply HE. unfold thr in *; destruct idle; lia.
    { apply HE. unfold thr in *; destruct idle; lia. destruct idle; [destruct (Hi eq_refl)|]; lia. }
    exists groups. split; auto. pose proof (gg_len _ _ Gg) as LL. split; [|split; [|split; [|split; [|split]]]]; auto.
    - split; auto. destruct groups; [cbn in Zg; lia|cbn; lia].
    - intros H2. specialize (N3 H2). lia.
    - intros Hc. rewrite rdfac_small in Ef by auto. injection Ef as <-. unfold n_groups in En. cbn in En. injection En as <-. exact Lg.
    - intros rank Hr. destruct (contract_total size groups Gg rank Hr) as (o & Eo & _). exists o. split; auto. cbn [bind]. rewrite Eg. cbn [bind]. rewrite Eo. cbn [bind]. now rewrite HF.
  Qed.
  Lemma contract_zero p groups : good_groups p groups -> nth 0 (nth 0 groups []) 1 = 0 -> 0 < length groups -> contract_rank p 0 groups = Ret (Some 0).
  Proof.
    intros G Z L. assert (I : In 0 (nth 0 groups [])). { destruct (nth 0 groups []) as [|x l]; cbn in Z; [lia|]. subst. now left. }
    rewrite (contract_rank_ok p groups G 0 0) by auto. destruct (nth 0 groups []) as [|x l]; cbn in Z; [lia|]. subst. reflexivity.
  Qed.

  (** *** the recursion *)
  Inductive chain : nat -> nat -> nat -> list level -> Prop :=
  | ch_nil lev meas size : chain lev meas size []
  | ch_drop lev meas size : enable_redist O = true -> chain lev meas size [None]
  | ch_cons lev meas size c sz r ls : 0 < c < meas -> min_meas O <= c -> 0 < sz <= size -> r < sz ->
      (enable_redist O = true -> (natQ c / natQ meas < rd_crs_thresh O)%Q) ->
      (ls <> [] -> max_meas O < c /\ lev + 2 <> max_n_levels O) -> chain (lev + 1) c sz ls -> chain lev meas size (Some (c, sz, r) :: ls).
  (** why there are no more levels below a level of measure [meas] *)
  Inductive stuck (lev meas : nat) : Prop :=
  | no_map : e_coarse E lev = None -> stuck lev meas
  | not_smaller c : e_coarse E lev = Some c -> meas <= c -> stuck lev meas
  | too_slow c : e_coarse E lev = Some c -> enable_redist O = true -> (rd_crs_thresh O <= if meas =? 0 then 0 else natQ c / natQ meas)%Q -> stuck lev meas
  | too_small c : e_coarse E lev = Some c -> c = 0 \/ c < min_meas O -> stuck lev meas.
  Inductive stops : nat -> nat -> list level -> Prop :=
  | st_stuck lev meas : stuck lev meas -> stops lev meas []
  | st_drop lev meas : stops lev meas [None]
  | st_small lev meas c sz r : c <= max_meas O -> stops lev meas [Some (c, sz, r)]
  | st_max lev meas c sz r : lev + 2 = max_n_levels O -> stops lev meas [Some (c, sz, r)]
  | st_cons lev meas c sz r ls : stops (lev + 1) c ls -> stops lev meas (Some (c, sz, r) :: ls).

  Lemma coarse_some lev meas c : TryCoarseStep O E lev meas = Some c -> e_coarse E lev = Some c /\ c < meas /\ (enable_redist O = true -> (natQ c / natQ meas < rd_crs_thresh O)%Q).
  Proof.
    unfold TryCoarseStep. destruct (e_coarse E lev) as [c'|]; [|discriminate]. destruct (Nat.ltb_spec c' meas) as [H|]; cbn [andb]; [|discriminate].
    destruct (Nat.eqb_spec meas 0); [lia|]. destruct (negb (enable_redist O) || Qltb (natQ c' / natQ meas) (rd_crs_thresh O)) eqn:B; [|discriminate]. intros [= <-]. split; auto. split; auto.
    intros R. rewrite R in B. now apply Qltb_lt.
  Qed.
  Lemma coarse_none lev meas : TryCoarseStep O E lev meas = None -> stuck lev meas.
  Proof.
    unfold TryCoarseStep. destruct (e_coarse E lev) as [c|] eqn:Ec; [|now constructor]. destruct (Nat.ltb_spec c meas) as [H|H]; cbn [andb].
    - destruct (enable_redist O) eqn:R; cbn [negb orb]; [|discriminate]. destruct (Qltb (if meas =? 0 then 0 else natQ c / natQ meas) (rd_crs_thresh O)) eqn:B; [discriminate|]. intros _.
      apply too_slow with c; auto. now apply Qltb_ge.
    - intros _. now apply not_smaller with c.
  Qed.
  Lemma RSU_ok fuel : forall lev meas size rank s, meas < fuel -> rank < size ->
    exists ls, RSU fuel O E idle lev meas size rank s = Ret (ls, length ls) /\ chain lev meas size ls /\ stops lev meas ls /\ (rank = 0 -> ~ In None ls).
  Proof.
    induction fuel as [|fuel IH]; intros lev meas size rank s Hf Hr; [lia|]. cbn [RSU].
    destruct (TryCoarseStep O E lev meas) as [c|] eqn:Et.
    2:{ exists []. split; [reflexivity|]. split; [constructor|]. split; [constructor; now apply coarse_none|auto]. }
    destruct (coarse_some _ _ _ Et) as (Ec & Hc & Hq). cbv zeta.
    match goal with |- context [TryContractStep O E idle lev c size rank ?s0] => set (s1 := s0) end.
    assert (STEP : exists ctr s2 size' o, (0 < size' <= size) /\ (match o with Some r' => r' < size' | None => enable_redist O = true end) /\ (rank = 0 -> o = Some 0) /\
      (if enable_redist O then TryContractStep O E idle lev c size rank s1 else Ret None) = Ret ctr /\
      match ctr with None => (s1, size, Some rank) | Some (s', sz, r) => (s', sz, r) end = (s2, size', o)).
    { destruct (enable_redist O) eqn:R.
      - destruct (contract_all lev c size s1) as [H|(_ & _ & groups & G & L & _ & _ & Z & _ & H)].
        + exists None, s1, size, (Some rank). rewrite H. split; [lia|]. split; [exact Hr|]. split; [intros ->; reflexivity|]. split; reflexivity.
        + destruct (H rank Hr) as (o & Eo & Ht). destruct (contract_total _ _ G rank Hr) as (o' & Eo' & Ho). rewrite Eo in Eo'. injection Eo' as <-.
          exists (Some (mkState false true c, length groups, o)), (mkState false true c), (length groups), o. split; [lia|]. split; [destruct o; auto|]. split; [|split; [exact Ht|reflexivity]].
          intros ->. rewrite (contract_zero _ _ G Z) in Eo by lia. congruence.
      - exists None, s1, size, (Some rank). split; [lia|]. split; [exact Hr|]. split; [intros ->; reflexivity|]. split; reflexivity. }
    destruct STEP as (ctr & s2 & size' & o & Hs & Ho & H0 & -> & RED). cbn [bind]. rewrite RED. clear RED.
    destruct (Nat.eqb_spec c 0) as [C0|C0]; cbn [orb]. { exists []. split; [reflexivity|]. split; [constructor|]. split; [|auto]. constructor. apply too_small with c; auto. }
    destruct (Nat.ltb_spec c (min_meas O)) as [C1|C1]; cbn [orb]. { exists []. split; [reflexivity|]. split; [constructor|]. split; [|auto]. constructor. apply too_small with c; auto. }
    destruct (Nat.eqb_spec c meas) as [C2|C2]; [lia|]. destruct o as [r'|].
    2:{ exists [None]. split; [reflexivity|]. split; [now constructor|]. split; [constructor|]. intros E0. specialize (H0 E0). discriminate. }
    assert (CH : forall ls, (ls <> [] -> max_meas O < c /\ lev + 2 <> max_n_levels O) -> chain (lev + 1) c size' ls -> chain lev meas size (Some (c, size', r') :: ls)) by (intros; constructor; auto; lia).
    destruct (Nat.eqb_spec (lev + 2) (max_n_levels O)) as [L2|L2]; cbn [orb].
    { exists [Some (c, size', r')]. split; [reflexivity|]. split; [apply CH; [intros X; now elim X|constructor]|]. split; [now apply st_max|]. intros _ [X|[]]. discriminate. }
    destruct (Nat.leb_spec c (max_meas O)) as [L3|L3].
    { exists [Some (c, size', r')]. split; [reflexivity|]. split; [apply CH; [intros X; now elim X|constructor]|]. split; [now apply st_small|]. intros _ [X|[]]. discriminate. }
    destruct (IH (lev + 1) c size' r' s2 ltac:(lia) Ho) as (ls & El & Cl & Sl & Nl). rewrite El. cbn [bind fst snd].
    exists (Some (c, size', r') :: ls). split; [reflexivity|]. split; [apply CH; auto|]. split; [now apply st_cons|].
    intros E0 [X|X]; [discriminate|]. specialize (H0 E0). injection H0 as ->. now apply (Nl eq_refl).
  Qed.

  (** *** all ranks do the same *)
  Definition global (l : level) : option (nat * nat) := option_map (fun t => let '(c, sz, _) := t in (c, sz)) l.
  (** the levels of another rank are those of rank 0, up to the level on which it drops out *)
  Inductive follows : list level -> list level -> Prop :=
  | fl_nil : follows [] []
  | fl_drop x ls0 : follows [None] (Some x :: ls0)
  | fl_cons c sz r r0 ls ls0 : follows ls ls0 -> follows (Some (c, sz, r) :: ls) (Some (c, sz, r0) :: ls0).
  Lemma RSU_follows fuel : forall lev meas size rank s, meas < fuel -> rank < size ->
    exists ls ls0, RSU fuel O E idle lev meas size rank s = Ret (ls, length ls) /\ RSU fuel O E idle lev meas size 0 s = Ret (ls0, length ls0) /\ follows ls ls0.
  Proof.
    induction fuel as [|fuel IH]; intros lev meas size rank s Hf Hr; [lia|].
    assert (Hr0 : 0 < size) by lia. cbn [RSU].
    destruct (TryCoarseStep O E lev meas) as [c|] eqn:Et.
    2:{ exists [], []. repeat split. constructor. }
    destruct (coarse_some _ _ _ Et) as (Ec & Hc & Hq). cbv zeta.
    match goal with |- context [TryContractStep O E idle lev c size rank ?s0] => set (s1 := s0) end.
    destruct (Nat.eqb_spec c meas) as [C2|C2]; [lia|]. rewrite Bool.orb_false_r.
    assert (FIN : forall size' r' s2, r' < size' -> 0 < size' ->
      exists ls ls0,
      (if (c =? 0) || (c <? min_meas O) then Ret ([], 0) else
       if (lev + 2 =? max_n_levels O) || (c <=? max_meas O) then Ret ([Some (c, size', r')], 1)
       else ' p <- RSU fuel O E idle (lev + 1) c size' r' s2 ;; Ret (Some (c, size', r') :: fst p, S (snd p))) = Ret (ls, length ls) /\
      (if (c =? 0) || (c <? min_meas O) then Ret ([], 0) else
       if (lev + 2 =? max_n_levels O) || (c <=? max_meas O) then Ret ([Some (c, size', 0)], 1)
       else ' p <- RSU fuel O E idle (lev + 1) c size' 0 s2 ;; Ret (Some (c, size', 0) :: fst p, S (snd p))) = Ret (ls0, length ls0) /\ follows ls ls0 /\
       ((c =? 0) || (c <? min_meas O) = false -> exists x l, ls0 = Some x :: l)).
    { intros size' r' s2 H1 H2. destruct ((c =? 0) || (c <? min_meas O)). { exists [], []. split; [reflexivity|]. split; [reflexivity|]. split; [constructor|discriminate]. }
      destruct ((lev + 2 =? max_n_levels O) || (c <=? max_meas O)). { exists [Some (c, size', r')], [Some (c, size', 0)]. split; [reflexivity|]. split; [reflexivity|]. split; [repeat constructor|eauto]. }
      destruct (IH (lev + 1) c size' r' s2 ltac:(lia) H1) as (ls & ls0 & E1 & E2 & F). rewrite E1, E2. cbn [bind fst snd].
      exists (Some (c, size', r') :: ls), (Some (c, size', 0) :: ls0). split; [reflexivity|]. split; [reflexivity|]. split; [now constructor|eauto]. }
    destruct (enable_redist O) eqn:R; cbn [bind].
    2:{ destruct (FIN size rank s1 Hr Hr0) as (ls & ls0 & E1 & E2 & F & _). exists ls, ls0. split; auto. }
    destruct (contract_all lev c size s1) as [H|(_ & _ & groups & G & L & _ & _ & Z & _ & H)].
    - rewrite !H. cbn [bind]. destruct (FIN size rank s1 Hr Hr0) as (ls & ls0 & E1 & E2 & F & _). exists ls, ls0. split; auto.
    - destruct (H 0 Hr0) as (o0 & Eo0 & Ht0). rewrite (contract_zero _ _ G Z) in Eo0 by lia. injection Eo0 as <-.
      destruct (H rank Hr) as (o & Eo & Ht). destruct (contract_total _ _ G rank Hr) as (o' & Eo' & Ho). rewrite Eo in Eo'. injection Eo' as <-.
      rewrite Ht, Ht0. cbn [bind].
      destruct o as [r'|].
      + destruct (FIN (length groups) r' (mkState false true c) Ho ltac:(lia)) as (ls & ls0 & E1 & E2 & F & _). exists ls, ls0. split; auto.
      + destruct (FIN (length groups) 0 (mkState false true c) ltac:(lia) ltac:(lia)) as (ls & ls0 & _ & E2 & F & X).
        destruct ((c =? 0) || (c <? min_meas O)) eqn:B.
        * exists [], []. repeat split. constructor.
        * destruct (X eq_refl) as (x & l & ->). exists [None], (Some x :: l). split; [reflexivity|]. split; auto. constructor.
  Qed.
End Setup.
