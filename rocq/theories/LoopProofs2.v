(** Cutting a closed chunk into simple cycles *)
From Verif Require Import Base ArraysModel LoopModel LoopSpec.
Import ListNotations.

Lemma pteqb_ok a b : pteqb a b = true <-> a = b.
Proof. destruct a, b; unfold pteqb; cbn. rewrite andb_true_iff, !Z.eqb_eq. split; [intros [-> ->]; auto|intros [= -> ->]; auto]. Qed.
Lemma pteqb_refl a : pteqb a a = true. Proof. apply pteqb_ok; auto. Qed.
Lemma pteqb_no a b : pteqb a b = false <-> a <> b.
Proof. split; intros H. - intros E. apply pteqb_ok in E. congruence. - destruct (pteqb a b) eqn:E; auto. apply pteqb_ok in E. contradiction. Qed.
Lemma ptltb_anti a b : ptltb a b = false -> ptltb b a = false -> a = b.
Proof.
  destruct a as [a1 a2], b as [b1 b2]. unfold ptltb; cbn. rewrite (Z.eqb_sym b1 a1). destruct (Z.eqb_spec a1 b1).
  - subst. rewrite !Z.ltb_ge. intros. f_equal. lia.
  - rewrite !Z.ltb_ge. lia.
Qed.
Lemma ptltb_trans a b c : ptltb b a = false -> ptltb c b = false -> ptltb c a = false.
Proof.
  destruct a as [a1 a2], b as [b1 b2], c as [c1 c2]. unfold ptltb; cbn.
  destruct (Z.eqb_spec b1 a1), (Z.eqb_spec c1 b1), (Z.eqb_spec c1 a1); subst; rewrite ?Z.ltb_ge; try lia.
Qed.

(** [sorti] sorts as QuickSortI does: some permutation of the positions along which the values do not decrease *)
Definition sorti_ok (sorti : list pt -> list nat) : Prop := forall c,
  Permutation (sorti c) (seq 0 (length c)) /\
  forall i j, (i < j < length c)%nat -> ptltb (nth (nth j (sorti c) 0%nat) c (0,0)%Z) (nth (nth i (sorti c) 0%nat) c (0,0)%Z) = false.

(** sorting positions *)
Lemma ins_nat_perm a l : Permutation (ins_nat a l) (a :: l).
Proof. induction l as [|b l IH]; cbn; auto. destruct (a <=? b)%nat; auto. rewrite IH. apply perm_swap. Qed.
Lemma sort_nat_perm l : Permutation (sort_nat l) l.
Proof. induction l as [|a l IH]; cbn; auto. fold (sort_nat l). rewrite ins_nat_perm, IH. reflexivity. Qed.
Lemma ins_nat_sorted a l : StronglySorted Nat.le l -> StronglySorted Nat.le (ins_nat a l).
Proof.
  induction l as [|b l IH]; intros H; cbn.
  - repeat constructor.
  - inversion H as [|? ? H1 H2]; subst. destruct (Nat.leb_spec a b).
    + constructor; auto. constructor; auto. eapply Forall_impl; [|exact H2]. intros; cbn in *; lia.
    + constructor; auto. rewrite Forall_forall. intros x Hx. rewrite ins_nat_perm in Hx. destruct Hx as [<-|Hx]; [lia|]. rewrite Forall_forall in H2. auto.
Qed.
Lemma sort_nat_sorted l : StronglySorted Nat.le (sort_nat l).
Proof. induction l as [|a l IH]; cbn; [constructor|]. apply ins_nat_sorted; auto. Qed.
Lemma sorted_perm_eq : forall l l', StronglySorted Nat.le l -> StronglySorted Nat.le l' -> Permutation l l' -> l = l'.
Proof.
  induction l as [|a l IH]; intros l' S1 S2 H.
  - apply Permutation_nil in H. auto.
  - destruct l' as [|b l']; [symmetry in H; apply Permutation_nil in H; discriminate|].
    inversion S1 as [|? ? A1 A2]; inversion S2 as [|? ? B1 B2]; subst. rewrite Forall_forall in A2, B2.
    assert (E : a = b).
    { assert (I1 : In a (b :: l')) by (rewrite <- H; cbn; auto). assert (I2 : In b (a :: l)) by (rewrite H; cbn; auto).
      destruct I1 as [<-|I1]; auto. destruct I2 as [<-|I2]; auto. specialize (A2 _ I2). specialize (B2 _ I1). lia. }
    subst b. f_equal. apply IH; auto. eapply Permutation_cons_inv; eauto.
Qed.
Lemma filter_seq_sorted (p : nat -> bool) : forall n s, StronglySorted Nat.le (filter p (seq s n)).
Proof.
  induction n as [|n IH]; intros s; cbn; [constructor|]. destruct (p s); auto. constructor; auto.
  rewrite Forall_forall. intros x Hx. apply filter_In in Hx. destruct Hx as [Hx _]. apply in_seq in Hx. lia.
Qed.

Lemma NoDup_app_remove_r {A} (l l' : list A) : NoDup (l ++ l') -> NoDup l.
Proof. induction l as [|a l IH]; cbn; intros H; [constructor|]. inversion H; subst. constructor; auto. intros I. apply H2. apply in_or_app; auto. Qed.
Lemma NoDup_app_remove_l {A} (l l' : list A) : NoDup (l ++ l') -> NoDup l'.
Proof. induction l as [|a l IH]; cbn; intros H; auto. inversion H; auto. Qed.

(** steps *)
Lemma steps_cons2 {A} (a b : A) l : steps (a :: b :: l) = (a, b) :: steps (b :: l). Proof. reflexivity. Qed.
Lemma steps_glue {A} : forall (s : list A) a t, steps ((s ++ [a]) ++ t) = steps (s ++ [a]) ++ steps (a :: t).
Proof.
  induction s as [|x s IH]; intros a t.
  - cbn [app]. unfold steps at 2. cbn. reflexivity.
  - destruct s as [|y s]; cbn [app] in *.
    + reflexivity.
    + rewrite !steps_cons2. cbn [app]. rewrite IH. reflexivity.
Qed.
Lemma firstn_S_snoc {A} (d : A) : forall i l, (i < length l)%nat -> firstn (S i) l = firstn i l ++ [nth i l d].
Proof. induction i as [|i IH]; intros [|a l] H; cbn in H; try lia; cbn; auto. f_equal. apply (IH l). lia. Qed.
Lemma skipn_nth {A} (d : A) : forall i l, (i < length l)%nat -> skipn i l = nth i l d :: skipn (S i) l.
Proof. induction i as [|i IH]; intros [|a l] H; cbn in H; try lia; cbn; auto. apply (IH l). lia. Qed.
Lemma steps_split {A} i (l : list A) : (i < length l)%nat -> steps l = steps (firstn (S i) l) ++ steps (skipn i l).
Proof.
  intros H. destruct l as [|a0 l0] eqn:El; [cbn in H; lia|]. rewrite <- El in *. clear El.
  rewrite <- (firstn_skipn (S i) l) at 1. rewrite (firstn_S_snoc a0) by auto. rewrite steps_glue, <- (skipn_nth a0) by auto. reflexivity.
Qed.
Lemma skipn_skipn' {A} : forall a b (l : list A), skipn a (skipn b l) = skipn (b + a) l.
Proof. induction b as [|b IH]; intros l; auto. destruct l as [|x l]; cbn; [now rewrite skipn_nil|apply IH]. Qed.
Lemma steps_pieces {A} : forall sp a (l : list A), StronglySorted Nat.lt (a :: sp) -> (last (a :: sp) 0 < length l)%nat ->
  steps (skipn a l) = concat (map steps (pieces l (a :: sp))) ++ steps (skipn (last (a :: sp) 0%nat) l).
Proof.
  induction sp as [|b sp IH]; intros a l HS HL.
  - reflexivity.
  - inversion HS as [|? ? H1 H2]; subst. assert (ab : (a < b)%nat) by (inversion H2; auto).
    assert (EL : last (a :: b :: sp) 0%nat = last (b :: sp) 0%nat) by reflexivity. rewrite EL in *.
    assert (bl : (b <= last (b :: sp) 0%nat)%nat).
    { clear -H1. revert b H1. induction sp as [|c sp IH]; intros b H1; [cbn; lia|]. inversion H1 as [|? ? A1 A2]; subst. inversion A2; subst.
      change (last (b :: c :: sp) 0%nat) with (last (c :: sp) 0%nat). specialize (IH c A1). lia. }
    change (pieces l (a :: b :: sp)) with (range_incl l a b :: pieces l (b :: sp)). cbn [map concat]. rewrite <- app_assoc, <- (IH b l H1 HL).
    rewrite (steps_split (b - a) (skipn a l)) by (rewrite skipn_length; lia).
    unfold range_incl. rewrite Nat.sub_succ_l by lia. f_equal. rewrite skipn_skipn'. f_equal. f_equal. lia.
Qed.
Lemma proper_app {A} (eqb : A -> A -> bool) l l' : proper eqb (l ++ l') = proper eqb l ++ proper eqb l'.
Proof. apply filter_app. Qed.
Lemma proper_perm {A} (eqb : A -> A -> bool) l l' : Permutation l l' -> Permutation (proper eqb l) (proper eqb l').
Proof. unfold proper. intros H; induction H; cbn; auto.
  - destruct (negb _); auto.
  - destruct (negb (eqb (fst y) _)), (negb (eqb (fst x) _)); auto. apply perm_swap.
  - etransitivity; eauto. Qed.
Lemma proper_concat (ls : list (list (pt * pt))) : proper pteqb (concat ls) = concat (map (proper pteqb) ls).
Proof. induction ls as [|l ls IH]; [reflexivity|]. cbn [concat map]. rewrite proper_app, IH. reflexivity. Qed.
Lemma steps_in {A} : forall (l : list A) x y, In (x, y) (steps l) -> exists l1 l2, l = l1 ++ x :: y :: l2.
Proof.
  induction l as [|a l IH]; intros x y H; [destruct H|]. destruct l as [|b l]; [destruct H|]. rewrite steps_cons2 in H. destruct H as [H|H].
  - injection H as E1 E2; subst. exists [], l. reflexivity.
  - destruct (IH _ _ H) as (l1 & l2 & E). exists (a :: l1), l2. cbn. now rewrite E.
Qed.
Lemma proper_id (es : list (pt * pt)) : (forall e, In e es -> fst e <> snd e) -> proper pteqb es = es.
Proof.
  induction es as [|e es IH]; intros H; [reflexivity|]. change (proper pteqb (e :: es)) with (if negb (pteqb (fst e) (snd e)) then e :: proper pteqb es else proper pteqb es). rewrite IH by (intros; apply H; cbn; auto).
  assert (E : pteqb (fst e) (snd e) = false) by (apply pteqb_no; apply H; cbn; auto). rewrite E. reflexivity.
Qed.
Lemma proper_nodup (l : list pt) : NoDup l -> proper pteqb (steps l) = steps l.
Proof.
  intros N. apply proper_id. intros [x y] H. cbn. apply steps_in in H. destruct H as (l1 & l2 & E). subst.
  apply NoDup_remove_2 in N. intros ->. apply N. apply in_or_app. right. cbn; auto.
Qed.
Lemma proper_simple (l : list pt) : simple_cycle l -> proper pteqb (steps l) = steps l.
Proof.
  intros (a & m & E & M & N). subst. destruct m as [|b m]; [congruence|]. cbn [app]. rewrite steps_cons2. cbn [proper filter fst snd].
  assert (E : pteqb a b = false). { apply pteqb_no. intros ->. cbn [app] in N. inversion N as [|? ? N1 N2]. apply N1. apply in_or_app. cbn; auto. }
  rewrite E. cbn [negb]. f_equal. apply proper_nodup. exact N.
Qed.

(** the search for a repeated value *)
Section G.
  Variables (sorti : list pt -> list nat).
  Hypothesis HS : sorti_ok sorti.
  Variable chunk : list pt.
  Notation n := (length chunk).
  Notation d := ((0, 0)%Z : pt).
  Let inds := sorti chunk.
  Let f k := nth (nth k inds 0%nat) chunk d.

  Lemma inds_len : length inds = n.
  Proof. destruct (HS chunk) as [P _]. apply Permutation_length in P. rewrite seq_length in P. exact P. Qed.
  Lemma inds_lt k : (k < n)%nat -> (nth k inds 0 < n)%nat.
  Proof. intros H. destruct (HS chunk) as [P _]. assert (I : In (nth k inds 0%nat) inds) by (apply nth_In; rewrite inds_len; auto). apply (Permutation_in _ P) in I. apply in_seq in I. lia. Qed.
  Lemma inds_nodup : NoDup inds.
  Proof. destruct (HS chunk) as [P _]. eapply Permutation_NoDup; [symmetry; exact P|apply seq_NoDup]. Qed.
  Lemma inds_onto p : (p < n)%nat -> exists k, (k < n)%nat /\ nth k inds 0%nat = p.
  Proof.
    intros H. destruct (HS chunk) as [P _]. assert (I : In p inds) by (unfold inds; rewrite P; apply in_seq; lia).
    apply (In_nth _ _ 0%nat) in I. destruct I as (k & A & B). rewrite inds_len in A. eauto.
  Qed.
  Lemma inds_inj i j : (i < n)%nat -> (j < n)%nat -> nth i inds 0%nat = nth j inds 0%nat -> i = j.
  Proof. intros A B E. pose proof inds_nodup as N. rewrite (NoDup_nth inds 0%nat) in N. apply N; rewrite ?inds_len; auto. Qed.
  Lemma f_mono i j : (i <= j < n)%nat -> ptltb (f j) (f i) = false.
  Proof. intros H. destruct (Nat.eq_dec i j) as [->|]; [destruct (f j) as [x y]; unfold ptltb; cbn; rewrite Z.eqb_refl; apply Z.ltb_irrefl|]. destruct (HS chunk) as [_ P]. apply P. lia. Qed.
  Lemma f_contig i k j : (i <= k <= j)%nat -> (j < n)%nat -> f i = f j -> f k = f i.
  Proof. intros H Hj E. symmetry. apply ptltb_anti; [rewrite E; apply f_mono; lia|apply f_mono; lia]. Qed.

  Lemma group_end_ok v : forall fuel j, (n - j < fuel)%nat -> (j <= n)%nat -> exists j', group_end fuel chunk inds v j = Ret j' /\ (j <= j' <= n)%nat /\
    (forall i, (j <= i < j')%nat -> f i = v) /\ ((j' < n)%nat -> f j' <> v).
  Proof.
    induction fuel as [|fuel IH]; intros j Hf Hj; [lia|]. cbn [group_end]. destruct (Nat.ltb_spec j n).
    - rewrite (rd_ok inds j 0%nat) by (rewrite inds_len; auto). cbn [bind]. rewrite (rd_ok chunk _ d) by (apply inds_lt; auto). cbn [bind].
      fold (f j). destruct (pteqb (f j) v) eqn:E.
      + apply pteqb_ok in E. destruct (IH (S j) ltac:(lia) ltac:(lia)) as (j' & A & B & C & D). exists j'. rewrite A. split; auto. split; [lia|]. split; auto.
        intros i Hi. destruct (Nat.eq_dec i j) as [->|]; auto. apply C. lia.
      + apply pteqb_no in E. exists j. split; auto. split; [lia|]. split; auto. intros i Hi; lia.
    - exists j. split; auto. split; [lia|]. split; [intros; lia|intros; lia].
  Qed.

  (** positions of a value *)
  Definition places (v : pt) : list nat := filter (fun p => pteqb (nth p chunk d) v) (seq 0 n).
  Definition ends (sp : list nat) := sp = [0%nat; (n - 1)%nat].
  Definition state (k : nat) := (forall i, (i < k)%nat -> f i <> f k) \/ (1 <= k /\ f (k - 1) = f k /\ (S k < n -> f (S k) <> f k))%nat.

  Lemma find_group_ok : forall m k, (k + m = n - 1)%nat -> (1 <= n)%nat -> state k ->
    (find_group m chunk inds k = Ret None /\ (forall i j, (k <= i)%nat -> (i < j < n)%nat -> f i = f j -> places (f i) = [0%nat; (n-1)%nat])) \/
    (exists v, find_group m chunk inds k = Ret (Some (places v)) /\ (2 <= length (places v))%nat /\ places v <> [0%nat; (n-1)%nat]).
  Proof.
    induction m as [|m IH]; intros k Hk Hn St.
    { left. split; [reflexivity|]. intros i j A B. lia. }
    cbn [find_group]. assert (Hk' : (k < n)%nat) by lia.
    rewrite (rd_ok inds k 0%nat) by (rewrite inds_len; auto). cbn [bind]. rewrite (rd_ok chunk _ d) by (apply inds_lt; auto). cbn [bind]. fold (f k).
    destruct (group_end_ok (f k) (S n) (S k) ltac:(lia) ltac:(lia)) as (j' & -> & B & C & D). cbn [bind].
    assert (Fresh : forall q, (S k <= q < n)%nat -> f q <> f k -> forall i, (i < S q)%nat -> f i = f (S q) -> (S q < n)%nat -> f q = f (S q)).
    { intros q Hq Ne i Hi E Hs. rewrite <- E. apply (f_contig i q (S q)); auto; lia. }
    destruct (Nat.ltb_spec (j' - k) 2) as [L2|L2].
    - assert (J : j' = S k) by lia. subst j'. specialize (IH (S k) ltac:(lia) Hn).
      destruct IH as [[E H]|H].
      + destruct (Nat.ltb_spec (S k) n) as [Hs|Hs].
        * left. intros i Hi E. apply (D Hs). assert (X : f k = f i) by (apply (f_contig i k (S k)); auto; lia). congruence.
        * lia.
      + left. split; [exact E|]. intros i j Hi Hj Ef. destruct (Nat.eq_dec i k) as [->|]; [|apply (H i j); auto; lia].
        exfalso. assert (X : f (S k) = f k) by (apply (f_contig k (S k) j); auto; lia). apply D; auto; lia.
      + right. exact H.
    - assert (Fr : forall i, (i < k)%nat -> f i <> f k).
      { destruct St as [St|[S1 [S2 S3]]]; auto. exfalso. apply (S3 ltac:(lia)). apply C. lia. }
      assert (PL : sort_nat (firstn (j' - k) (skipn k inds)) = places (f k)).
      { apply sorted_perm_eq; [apply sort_nat_sorted|apply filter_seq_sorted|]. rewrite sort_nat_perm. apply NoDup_Permutation.
        - pose proof inds_nodup as N. rewrite <- (firstn_skipn k inds) in N. apply NoDup_app_remove_l in N. rewrite <- (firstn_skipn (j' - k) (skipn k inds)) in N. now apply NoDup_app_remove_r in N.
        - apply NoDup_filter, seq_NoDup.
        - intros p. unfold places. rewrite filter_In, in_seq, pteqb_ok. split.
          + intros I. apply (In_nth _ _ 0%nat) in I. destruct I as (q & Q1 & Q2). rewrite firstn_length, skipn_length, inds_len in Q1.
            assert (E : nth q (firstn (j' - k) (skipn k inds)) 0%nat = nth (k + q) inds 0%nat).
            { rewrite <- (firstn_skipn k inds) at 2. rewrite app_nth2; rewrite firstn_length, inds_len; [|lia]. replace (k + q - Nat.min k n)%nat with q by lia.
              rewrite <- (firstn_skipn (j' - k) (skipn k inds)) at 2. rewrite app_nth1; auto. rewrite firstn_length, skipn_length, inds_len. lia. }
            rewrite E in Q2. subst p. split; [pose proof (inds_lt (k + q) ltac:(lia)); lia|]. fold (f (k + q)).
            destruct q as [|q]; [rewrite Nat.add_0_r; auto|]. apply C. lia.
          + intros [Q1 Q2]. destruct (inds_onto p ltac:(lia)) as (q & R1 & R2). subst p. fold (f q) in Q2.
            assert (kq : (k <= q)%nat). { destruct (Nat.le_gt_cases k q); auto. exfalso. apply (Fr q); auto. }
            assert (qj : (q < j')%nat).
            { destruct (Nat.le_gt_cases j' q); auto. exfalso. apply D; [lia|]. apply (f_contig k j' q); auto; lia. }
            assert (E : nth (q - k) (firstn (j' - k) (skipn k inds)) 0%nat = nth q inds 0%nat).
            { rewrite <- (firstn_skipn k inds) at 2. rewrite app_nth2; rewrite firstn_length, inds_len; [|lia]. replace (q - Nat.min k n)%nat with (q - k)%nat by lia.
              rewrite <- (firstn_skipn (j' - k) (skipn k inds)) at 2. rewrite app_nth1; auto. rewrite firstn_length, skipn_length, inds_len. lia. }
            rewrite <- E. apply nth_In. rewrite firstn_length, skipn_length, inds_len. lia. }
      assert (LP : length (places (f k)) = (j' - k)%nat).
      { rewrite <- PL. rewrite (Permutation_length (sort_nat_perm _)), firstn_length, skipn_length, inds_len. lia. }
      rewrite PL. destruct ((j' - k =? 2)%nat && (nth 0 (places (f k)) 0 =? 0)%nat && (nth 1 (places (f k)) 0 =? n - 1)%nat) eqn:EE.
      + apply andb_true_iff in EE. destruct EE as [EE E3]. apply andb_true_iff in EE. destruct EE as [E1 E2].
        apply Nat.eqb_eq in E1, E2, E3.
        assert (PE : places (f k) = [0%nat; (n - 1)%nat]).
        { destruct (places (f k)) as [|x [|y [|z l]]]; cbn in LP; try lia. cbn in E2, E3. congruence. }
        specialize (IH (S k) ltac:(lia) Hn). destruct IH as [[E H]|H].
        * right. replace (S k - 1)%nat with k by lia. assert (X : f (S k) = f k) by (apply C; lia). split; [lia|]. split; [auto|]. intros Hs. rewrite X. replace (S (S k)) with j' by lia. apply D. lia.
        * left. split; [exact E|]. intros i j Hi Hj Ef. destruct (Nat.eq_dec i k) as [->|]; auto. apply (H i j); auto; lia.
        * right. exact H.
      + right. exists (f k). split; [reflexivity|]. split; [lia|]. intros PE. rewrite PE in EE, LP. cbn in EE, LP.
        rewrite <- LP in EE. cbn in EE. rewrite Nat.eqb_refl in EE. discriminate.
  Qed.

  Lemma find_group_all : (1 <= n)%nat ->
    (find_group (n - 1) chunk inds 0 = Ret None /\ (forall p q, (p < q < n)%nat -> nth p chunk d = nth q chunk d -> p = 0%nat /\ q = (n - 1)%nat)) \/
    (exists v, find_group (n - 1) chunk inds 0 = Ret (Some (places v)) /\ (2 <= length (places v))%nat /\ places v <> [0%nat; (n-1)%nat]).
  Proof.
    intros Hn. destruct (find_group_ok (n - 1) 0 ltac:(lia) Hn) as [[E H]|H]; [left; intros i Hi; lia| |right; exact H].
    left. split; [exact E|]. intros p q Hpq Eq. destruct (inds_onto p ltac:(lia)) as (i & I1 & I2). destruct (inds_onto q ltac:(lia)) as (j & J1 & J2).
    assert (ij : i <> j) by (intros ->; lia).
    assert (Ef : f i = f j) by (unfold f; rewrite I2, J2; auto).
    assert (PE : places (f i) = [0%nat; (n - 1)%nat]).
    { destruct (Nat.lt_gt_cases i j) as [Hl _]. destruct (Hl ij) as [L|L]; [apply (H i j); auto; lia|rewrite Ef; apply (H j i); auto; lia]. }
    assert (Ip : In p (places (f i))) by (apply filter_In; split; [apply in_seq; lia|apply pteqb_ok; unfold f; rewrite I2; auto]).
    assert (Iq : In q (places (f i))) by (apply filter_In; split; [apply in_seq; lia|apply pteqb_ok; rewrite Ef; unfold f; rewrite J2; auto]).
    rewrite PE in Ip, Iq. cbn in Ip, Iq. lia.
  Qed.
End G.
