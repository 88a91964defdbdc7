(** Proofs about the vertex prolongations: columns (C73). *)
From Verif Require Import Base ArraysModel ArraysProofs AGroup LinAlg SparseModel ProlModel ProlSpec.
From Coq Require Import QArith Qminmax Lqa.
Local Open Scope nat_scope.

Lemma find_none_seq (tcv : list Z) (c : Z) :
  find (fun i => (nth i tcv 0 =? c)%Z) (seq 0 (length tcv)) = None -> ~ In c tcv.
Proof.
  intros H Hin. destruct (In_nth _ _ 0%Z Hin) as (k & Hk & E).
  pose proof (find_none _ _ H k) as H'. rewrite in_seq in H'. specialize (H' ltac:(lia)). cbv beta in H'. rewrite E in H'.
  rewrite Z.eqb_refl in H'. discriminate.
Qed.
Lemma find_some_seq (tcv : list Z) (c : Z) k :
  find (fun i => (nth i tcv 0 =? c)%Z) (seq 0 (length tcv)) = Some k -> k < length tcv /\ nth k tcv 0%Z = c.
Proof. intros H. apply find_some in H. destruct H as [H E]. apply in_seq in H. apply Z.eqb_eq in E. split; auto; lia. Qed.

Lemma upd_map_fst {A C} (l : list (A * C)) k (a : A) (c : C) d : nth k l d = (a, c) ->
  forall c', map fst (upd l k (a, c')) = map fst l.
Proof.
  revert k. induction l as [|x l IH]; intros [|k] H c'; simpl in *; auto; [subst x; reflexivity|f_equal; eauto].
Qed.

Lemma filter_nil_iff {A} (f : A -> bool) l : filter f l = [] <-> forall a, In a l -> f a = false.
Proof.
  induction l as [|x l IH]; simpl; [tauto|]. destruct (f x) eqn:E.
  - split; [discriminate|]. intros H. rewrite (H x) in E by auto. discriminate.
  - rewrite IH. split; [intros H a [->|Ha]; auto|auto].
Qed.

Lemma Permutation_filter' {A} (f : A -> bool) l l' : Permutation l l' -> Permutation (filter f l) (filter f l').
Proof.
  induction 1; simpl; auto.
  - destruct (f x); auto.
  - destruct (f x), (f y); auto. apply perm_swap.
  - eapply perm_trans; eauto.
Qed.
Lemma filter_all' {A} (f : A -> bool) l : (forall a, In a l -> f a = true) -> filter f l = l.
Proof. induction l as [|x l IH]; simpl; intros H; auto. rewrite (H x) by auto. f_equal. auto. Qed.

Section P.
  Context {B : Blk}.
  Local Notation M := (M B). Local Notation K := (K B). Local Notation X := (X B).
  Variable vmap : nat -> Z.
  Variable fecon : nat -> list (nat * nat).
  Variable awt : nat -> Q.
  Variable ceqc : Z -> nat.
  Variable leq : nat -> nat -> bool.
  Local Notation candidate := (candidate vmap fecon ceqc leq).

  (** partial weight over a list of neighbours *)
  Definition wsum (l : list (nat * nat)) (c : Z) : Q := qsum (map (fun p => awt (snd p)) (filter (fun p => (vmap (fst p) =? c)%Z) l)).
  Lemma qsum_app l1 l2 : (qsum (l1 ++ l2) == qsum l1 + qsum l2)%Q.
  Proof. induction l1 as [|a l1 IH]; cbn [qsum fold_right app] in *; [unfold qsum; simpl; lra|]. unfold qsum in *. simpl. lra. Qed.
  Lemma wsum_snoc l p c : (wsum (l ++ [p]) c == wsum l c + (if vmap (fst p) =? c then awt (snd p) else 0))%Z%Q.
  Proof.
    unfold wsum. rewrite filter_app, map_app, qsum_app. cbn [filter]. destruct (vmap (fst p) =? c)%Z; cbn [map qsum fold_right]; unfold qsum; simpl; lra.
  Qed.

  (** state of coarse_weights after the neighbours l *)
  Definition cw_inv (EQ V : nat) (l : list (nat * nat)) (st : list (Z * Q) * list Z * Q) : Prop :=
    let '(trow, tcv, iw) := st in
    map fst trow = tcv /\ NoDup tcv /\
    (forall c, In c tcv <-> exists w e, In (w, e) l /\ vmap w = c /\ c <> (-1)%Z /\ c <> vmap V /\ leq EQ (ceqc c) = true) /\
    (forall c q, In (c, q) trow -> (q == wsum l c)%Q) /\ (iw == wsum l (vmap V))%Q.

  Lemma coarse_weights_ok EQ V : (vmap V <> -1)%Z ->
    exists trow tcv iw, coarse_weights vmap fecon awt ceqc leq EQ V = Ret (trow, tcv, iw) /\ cw_inv EQ V (fecon V) (trow, tcv, iw).
  Proof using.
    intros HV. unfold coarse_weights.
    enough (G : forall l2 l1 st, cw_inv EQ V l1 st ->
      exists st', foldM (fun st p =>
        let '(trow, tcv, in_wt) := (st : list (Z * Q) * list Z * Q) in
        let cov := vmap (fst p) in
        if (cov =? -1)%Z then Ret st
        else if (cov =? vmap V)%Z then Ret (trow, tcv, (in_wt + awt (snd p))%Q)
        else if leq EQ (ceqc cov) then
          match find (fun i => (nth i tcv 0 =? cov)%Z) (seq 0 (length tcv)) with
          | None => Ret (trow ++ [(cov, awt (snd p))], tcv ++ [cov], in_wt)
          | Some pos => t <- rd trow pos ;; trow' <- wr trow pos (fst t, (snd t + awt (snd p))%Q) ;; Ret (trow', tcv, in_wt)
          end
        else Ret st) l2 st = Ret st' /\ cw_inv EQ V (l1 ++ l2) st').
    { destruct (G (fecon V) [] ([], [], 0%Q)) as ([[trow tcv] iw] & E & I).
      - cbn [cw_inv map]. repeat split; auto; try constructor; try (intros []; fail); try (simpl; tauto).
        + intros (w & e & [] & _).
      - exists trow, tcv, iw. split; auto. }
    induction l2 as [|p l2 IH]; intros l1 [[trow tcv] iw] I.
    { exists (trow, tcv, iw). rewrite app_nil_r. split; auto. }
    cbn [foldM]. change (p :: l2) with ([p] ++ l2). rewrite app_assoc.
    assert (ST : forall st1, cw_inv EQ V (l1 ++ [p]) st1 -> exists st', foldM (fun st p =>
        let '(trow, tcv, in_wt) := (st : list (Z * Q) * list Z * Q) in
        let cov := vmap (fst p) in
        if (cov =? -1)%Z then Ret st
        else if (cov =? vmap V)%Z then Ret (trow, tcv, (in_wt + awt (snd p))%Q)
        else if leq EQ (ceqc cov) then
          match find (fun i => (nth i tcv 0 =? cov)%Z) (seq 0 (length tcv)) with
          | None => Ret (trow ++ [(cov, awt (snd p))], tcv ++ [cov], in_wt)
          | Some pos => t <- rd trow pos ;; trow' <- wr trow pos (fst t, (snd t + awt (snd p))%Q) ;; Ret (trow', tcv, in_wt)
          end
        else Ret st) l2 st1 = Ret st' /\ cw_inv EQ V ((l1 ++ [p]) ++ l2) st') by (intros; apply IH; auto). clear IH.
    destruct I as (I1 & I2 & I3 & I4 & I5). cbv zeta.
    assert (AP : forall c, (exists w e, In (w, e) (l1 ++ [p]) /\ vmap w = c /\ c <> (-1)%Z /\ c <> vmap V /\ leq EQ (ceqc c) = true) <->
      ((exists w e, In (w, e) l1 /\ vmap w = c /\ c <> (-1)%Z /\ c <> vmap V /\ leq EQ (ceqc c) = true) \/
       (vmap (fst p) = c /\ c <> (-1)%Z /\ c <> vmap V /\ leq EQ (ceqc c) = true))).
    { intros c. split.
      - intros (w & e & Hi & H). apply in_app_iff in Hi. destruct Hi as [Hi|[Hi|[]]]; [left; eauto 8|right; subst p; auto].
      - intros [(w & e & Hi & H)|H]; [exists w, e; rewrite in_app_iff; auto|].
        exists (fst p), (snd p). rewrite in_app_iff. destruct p; simpl; auto. }
    destruct (Z.eqb_spec (vmap (fst p)) (-1)) as [E1|E1].
    { cbn [bind]. apply ST. cbn [cw_inv]. split; [auto|]. split; [auto|]. split; [|split].
      - intros c. rewrite AP, <- I3. intuition congruence.
      - intros c q Hq. rewrite wsum_snoc. destruct (Z.eqb_spec (vmap (fst p)) c); [|rewrite (I4 c q Hq); lra].
        exfalso. assert (Hc : In c tcv) by (rewrite <- I1; apply (in_map fst) in Hq; auto). apply I3 in Hc.
        destruct Hc as (w & e' & _ & _ & Hn & _). congruence.
      - rewrite wsum_snoc, E1. destruct (Z.eqb_spec (-1) (vmap V)); [congruence|]. rewrite I5. lra. }
    destruct (Z.eqb_spec (vmap (fst p)) (vmap V)) as [E2|E2].
    { cbn [bind]. apply ST. cbn [cw_inv]. split; [auto|]. split; [auto|]. split; [|split].
      - intros c. rewrite AP, <- I3. intuition congruence.
      - intros c q Hq. rewrite wsum_snoc. destruct (Z.eqb_spec (vmap (fst p)) c); [|rewrite (I4 c q Hq); lra].
        exfalso. assert (Hc : In c tcv) by (rewrite <- I1; apply (in_map fst) in Hq; auto). apply I3 in Hc.
        destruct Hc as (w & e' & _ & _ & _ & Hn & _). congruence.
      - rewrite wsum_snoc, E2, Z.eqb_refl, I5. lra. }
    destruct (leq EQ (ceqc (vmap (fst p)))) eqn:E3.
    2:{ cbn [bind]. apply ST. cbn [cw_inv]. split; [auto|]. split; [auto|]. split; [|split].
      - intros c. rewrite AP, <- I3. split; [tauto|]. intros [H|(H & _ & _ & H')]; auto. subst c. congruence.
      - intros c q Hq. rewrite wsum_snoc. destruct (Z.eqb_spec (vmap (fst p)) c); [|rewrite (I4 c q Hq); lra].
        exfalso. assert (Hc : In c tcv) by (rewrite <- I1; apply (in_map fst) in Hq; auto). apply I3 in Hc.
        destruct Hc as (w & e' & _ & _ & _ & _ & Hn). congruence.
      - rewrite wsum_snoc. destruct (Z.eqb_spec (vmap (fst p)) (vmap V)); [congruence|]. rewrite I5. lra. }
    destruct (find _ _) as [pos|] eqn:F.
    - apply find_some_seq in F. destruct F as [F1 F2].
      assert (LT : length trow = length tcv) by (rewrite <- I1, map_length; auto).
      rewrite (rd_ok trow pos (0%Z, 0%Q)) by lia. cbn [bind]. rewrite wr_ok by lia. cbn [bind].
      assert (FN : fst (nth pos trow (0%Z, 0%Q)) = vmap (fst p)).
      { rewrite <- F2, <- I1. symmetry. apply (map_nth fst trow (0%Z, 0%Q)). }
      destruct (nth pos trow (0%Z, 0%Q)) as [cc qq] eqn:N. cbn [fst snd] in *. subst cc.
      apply ST. cbn [cw_inv]. split; [rewrite (upd_map_fst trow pos _ qq (0%Z, 0%Q)); auto|]. split; [auto|]. split; [|split].
      + intros c. rewrite AP, <- I3. split; [tauto|]. intros [H|(H & _)]; auto. subst c. rewrite <- F2. apply nth_In. auto.
      + intros c q Hq. destruct (In_nth _ _ (0%Z, 0%Q) Hq) as (k & Hk & Ek). rewrite upd_length in Hk.
        destruct (Nat.eq_dec k pos) as [->|Hn].
        * rewrite nth_upd_eq in Ek by auto. inversion Ek; subst c q. rewrite wsum_snoc, Z.eqb_refl.
          assert (Hi : In (vmap (fst p), qq) trow) by (rewrite <- N; apply nth_In; auto). rewrite (I4 _ _ Hi). lra.
        * rewrite nth_upd_neq in Ek by auto.
          assert (Hi : In (c, q) trow) by (rewrite <- Ek; apply nth_In; auto).
          rewrite wsum_snoc, (I4 _ _ Hi). destruct (Z.eqb_spec (vmap (fst p)) c) as [E|E]; [|lra].
          exfalso. apply Hn. apply (proj1 (NoDup_nth tcv 0%Z) I2); try lia.
          rewrite F2, E, <- I1. etransitivity; [apply (map_nth fst trow (0%Z, 0%Q))|]. rewrite Ek. auto.
      + rewrite wsum_snoc. destruct (Z.eqb_spec (vmap (fst p)) (vmap V)); [congruence|]. rewrite I5. lra.
    - apply find_none_seq in F. cbn [bind]. apply ST. cbn [cw_inv]. split; [rewrite map_app, I1; auto|].
      split; [apply (Permutation_NoDup (Permutation_cons_append tcv _)); constructor; auto|]. split; [|split].
      + intros c. rewrite in_app_iff, AP, <- I3. simpl. split.
        * intros [H|[H|[]]]; auto. right. subst c. auto.
        * intros [H|(H & _)]; auto.
      + intros c q Hq. apply in_app_iff in Hq. rewrite wsum_snoc. destruct Hq as [Hq|[Hq|[]]].
        * rewrite (I4 _ _ Hq). destruct (Z.eqb_spec (vmap (fst p)) c) as [E|E]; [|lra].
          exfalso. apply F. rewrite <- I1, E. apply (in_map fst) in Hq. auto.
        * inversion Hq; subst c q. rewrite Z.eqb_refl.
          enough (W : (wsum l1 (vmap (fst p)) == 0)%Q) by (rewrite W; lra).
          unfold wsum. rewrite (proj2 (filter_nil_iff _ _)); [unfold qsum; simpl; lra|].
          intros [w e'] Hi. cbn [fst]. apply Z.eqb_neq. intros E. apply F, I3. exists w, e'. rewrite E. auto.
      + rewrite wsum_snoc. destruct (Z.eqb_spec (vmap (fst p)) (vmap V)); [congruence|]. rewrite I5. lra.
  Qed.

  (** the loop that adds columns takes a prefix of the sorted row *)
  Definition taken (mpf dgwt cw0 : Q) (trow : list (Z * Q)) (i : nat) : Prop :=
    (mpf * (cw0 + qsum (map snd (firstn (S i) trow))) < snd (nth i trow (0%Z, 0)))%Q /\ (mpf * dgwt <= snd (nth i trow (0%Z, 0)))%Q.
  Lemma firstn_snoc {A} (l : list A) n d : n < length l -> firstn (S n) l = firstn n l ++ [nth n l d].
  Proof. revert n. induction l as [|a l IH]; intros [|n] H; simpl in *; try lia; auto. f_equal. apply IH. lia. Qed.
  Lemma add_cols_ok mpf dgwt cw0 trow : forall n j cw cls, j + n <= length trow ->
    (cw == cw0 + qsum (map snd (firstn j trow)))%Q ->
    exists k, k <= n /\ add_cols mpf dgwt trow n j cw cls = Ret (cls ++ map fst (firstn k (skipn j trow))) /\
      (forall i, j <= i < j + k -> taken mpf dgwt cw0 trow i) /\ (k = n \/ ~ taken mpf dgwt cw0 trow (j + k)).
  Proof.
    induction n as [|n IH]; intros j cw cls Hj Hcw.
    { exists 0. simpl. rewrite app_nil_r. repeat split; auto; lia. }
    cbn [add_cols]. rewrite (rd_ok trow j (0%Z, 0%Q)) by lia. cbn [bind].
    assert (Hcw' : (cw + snd (nth j trow (0%Z, 0%Q)) == cw0 + qsum (map snd (firstn (S j) trow)))%Q).
    { rewrite (firstn_snoc trow j (0%Z, 0%Q)) by lia. rewrite map_app, qsum_app, Hcw. unfold qsum at 3. simpl. lra. }
    assert (TT : negb (negb (Qle_bool (snd (nth j trow (0%Z, 0%Q))) (mpf * (cw + snd (nth j trow (0%Z, 0%Q)))))) || negb (Qle_bool (mpf * dgwt) (snd (nth j trow (0%Z, 0%Q)))) = false
      <-> taken mpf dgwt cw0 trow j).
    { unfold taken. rewrite negb_involutive, Bool.orb_false_iff, Bool.negb_false_iff, <- Hcw'. rewrite Qle_bool_iff.
      split; intros [H1 H2]; split; auto.
      - apply Qnot_le_lt. intros H. apply Qle_bool_iff in H. congruence.
      - apply Bool.not_true_is_false. intros H. apply Qle_bool_iff in H. apply Qle_not_lt in H. auto. }
    destruct (_ || _) eqn:E.
    - exists 0. simpl. rewrite app_nil_r, Nat.add_0_r. split; [lia|]. split; [auto|]. split; [intros; lia|]. right. intros H. apply TT in H. congruence.
    - destruct (IH (S j) (cw + snd (nth j trow (0%Z, 0%Q)))%Q (cls ++ [fst (nth j trow (0%Z, 0%Q))])) as (k & Hk & Ek & Hi & Hd); auto; [lia|].
      exists (S k). split; [lia|]. split; [|split].
      + rewrite Ek, <- app_assoc. repeat f_equal.
        assert (SK : skipn j trow = nth j trow (0%Z, 0%Q) :: skipn (S j) trow).
        { clear - Hj. assert (j < length trow) by lia. clear Hj. revert j H. induction trow as [|a l IH]; intros [|j] H; simpl in *; try lia; auto.
          rewrite IH by lia. reflexivity. }
        rewrite SK. reflexivity.
      + intros i Hij. destruct (Nat.eq_dec i j) as [->|]; [apply TT; auto|]. apply Hi. lia.
      + rewrite Nat.add_succ_r. destruct Hd as [->|Hd]; auto.
  Qed.

  Lemma max_adds_ok maxr trow : (1 <= maxr)%Z ->
    max_adds maxr trow = Nat.min (Z.to_nat (maxr - 1)) (length trow).
  Proof. intros H. unfold max_adds. destruct (Z.ltb_spec (Z.min (maxr - 1) (Z.of_nat (length trow))) 0); lia. Qed.

  Lemma nniscv_iff V : nniscv vmap fecon V = 0 <-> ~ has_partner vmap fecon V.
  Proof.
    unfold nniscv, has_partner. rewrite length_zero_iff_nil, filter_nil_iff. split.
    - intros H (w & e & Hi & E). specialize (H _ Hi). cbn [fst] in H. rewrite E, Z.eqb_refl in H. discriminate.
    - intros H [w e] Hi. cbn [fst]. apply Z.eqb_neq. intros E. apply H. eauto.
  Qed.
  Lemma ss_le_lt l : StronglySorted Z.le l -> NoDup l -> StronglySorted Z.lt l.
  Proof.
    induction 1 as [|a l H IH F]; intros N; constructor; inversion N; subst; auto.
    rewrite Forall_forall in *. intros x Hx. specialize (F x Hx). assert (a <> x) by (intros ->; auto). lia.
  Qed.
  Lemma qsum_perm l l' : Permutation l l' -> (qsum l == qsum l')%Q.
  Proof. induction 1; unfold qsum in *; simpl in *; lra. Qed.
  Lemma qsum_nonneg l : (forall q, In q l -> 0 <= q)%Q -> (0 <= qsum l)%Q.
  Proof. induction l as [|a l IH]; intros H; unfold qsum in *; simpl in *; [lra|]. specialize (IH (fun q Hq => H q (or_intror Hq))). specialize (H a (or_introl eq_refl)). lra. Qed.

  Lemma in_firstn {A} (l : list A) n a d : In a (firstn n l) <-> exists i, i < n /\ i < length l /\ nth i l d = a.
  Proof.
    revert n. induction l as [|x l IH]; intros [|n]; simpl; try (split; [intros []|intros (i & H1 & H2 & _); lia]).
    rewrite IH. split.
    - intros [->|(i & H1 & H2 & H3)]; [exists 0; repeat split; auto; lia|exists (S i); repeat split; auto; lia].
    - intros ([|i] & H1 & H2 & H3); [auto|]. right. exists i. repeat split; auto; lia.
  Qed.

  Variable sortw : list (Z * Q) -> list (Z * Q).
  Variable sortz : list Z -> list Z.
  Hypothesis SW : sortw_ok sortw.
  Hypothesis SZ : sortz_ok sortz.

  Lemma aux_columns maxr mpf dg EQ V : (1 <= maxr)%Z -> vmap V <> (-1)%Z ->
    has_partner vmap fecon V ->
    exists trow tcv iw cls, coarse_weights vmap fecon awt ceqc leq EQ V = Ret (trow, tcv, iw) /\
      add_cols mpf dg (sortw trow) (max_adds maxr (sortw trow)) 0 ((1 # 5) * iw)%Q [vmap V] = Ret cls /\
      columns_ok vmap fecon awt ceqc leq maxr mpf dg EQ V (sortz cls).
  Proof.
    intros Hm HV HP. destruct (coarse_weights_ok EQ V HV) as (trow & tcv & iw & E & I1 & I2 & I3 & I4 & I5).
    destruct (SW trow) as [PW SSW]. set (tr := sortw trow) in *.
    assert (LT : length tr = length trow) by (apply Permutation_length, Permutation_sym; auto).
    destruct (add_cols_ok mpf dg ((1 # 5) * iw)%Q tr (max_adds maxr tr) 0 ((1 # 5) * iw)%Q [vmap V]) as (k & Hk & Ek & Hi & Hd).
    { rewrite max_adds_ok by auto. lia. }
    { simpl. unfold qsum. simpl. lra. }
    rewrite max_adds_ok in Hk by auto. cbn [skipn] in Ek.
    exists trow, tcv, iw, ([vmap V] ++ map fst (firstn k tr)). split; [auto|]. split; [auto|].
    set (cls := [vmap V] ++ map fst (firstn k tr)). destruct (SZ cls) as [PZ SSZ]. fold cls in Ek.
    assert (CW : forall c q, In (c, q) tr -> (q == weight_to vmap fecon awt V c)%Q).
    { intros c q Hq. apply (I4 c q). apply (Permutation_in _ (Permutation_sym PW)). auto. }
    assert (CC : forall c, In c (map fst tr) <-> candidate EQ V c).
    { intros c. unfold ProlSpec.candidate. rewrite <- I3, <- I1. split; apply Permutation_in; [apply Permutation_sym|]; apply Permutation_map; auto. }
    assert (ND : NoDup (map fst tr)).
    { apply (Permutation_NoDup (Permutation_map fst PW)). rewrite I1. auto. }
    assert (NF : NoDup (map fst (firstn k tr))).
    { rewrite <- (firstn_skipn k tr), map_app in ND. clear - ND. induction (map fst (firstn k tr)); [constructor|].
      inversion ND; subst. constructor; auto. intros H. apply H1. apply in_app_iff. auto. }
    assert (CF : forall c, In c (map fst (firstn k tr)) -> candidate EQ V c).
    { intros c Hc. apply CC. rewrite <- (firstn_skipn k tr), map_app, in_app_iff. auto. }
    assert (NV : ~ In (vmap V) (map fst (firstn k tr))).
    { intros H. apply CF in H. destruct H as (w & e & _ & _ & _ & H & _). auto. }
    assert (NC : NoDup cls) by (constructor; auto).
    assert (IN : forall c, In c (sortz cls) <-> c = vmap V \/ In c (map fst (firstn k tr))).
    { intros c. rewrite <- (Permutation_in' eq_refl PZ). unfold cls. simpl. intuition. }
    assert (LC : length cls = S k).
    { unfold cls. simpl. rewrite map_length, firstn_length. f_equal. lia. }
    assert (LZ : length (sortz cls) = S k) by (rewrite <- LC; apply Permutation_length, Permutation_sym; auto).
    assert (HV' : forall i, i < length tr -> (snd (nth i tr (0%Z, 0%Q)) == weight_to vmap fecon awt V (fst (nth i tr (0%Z, 0%Q))))%Q).
    { intros i Hl. apply CW. rewrite <- surjective_pairing. apply nth_In. auto. }
    assert (MONO : forall i j, i < j -> j < length tr -> (snd (nth j tr (0%Z, 0)) <= snd (nth i tr (0%Z, 0)))%Q).
    { clear - SSW. induction SSW as [|a l H IH F]; intros i j Hij Hj; simpl in *; [lia|]. destruct i as [|i]; destruct j as [|j]; try lia.
      - rewrite Forall_forall in F. apply (F (nth j l (0%Z, 0%Q))). apply nth_In. lia.
      - apply IH; lia. }
    assert (OUT : forall c', candidate EQ V c' -> ~ In c' (sortz cls) -> exists j, k <= j /\ j < length tr /\ fst (nth j tr (0%Z, 0%Q)) = c').
    { intros c' Hc Hn. apply CC in Hc. apply in_map_iff in Hc. destruct Hc as ([c0 q] & Ec & Hc). cbn in Ec. subst c0.
      destruct (In_nth _ _ (0%Z, 0%Q) Hc) as (j & Hj & Ej). exists j. rewrite Ej. repeat split; auto.
      destruct (Nat.lt_ge_cases j k); auto. exfalso. apply Hn, IN. right. apply in_map_iff. exists (c', q). split; auto.
      apply (in_firstn tr k _ (0%Z, 0%Q)). eauto. }
    assert (IWQ : (iw == weight_to vmap fecon awt V (vmap V))%Q) by apply I5.
    constructor.
    - apply ss_le_lt; auto. apply (Permutation_NoDup PZ). auto.
    - apply IN. auto.
    - rewrite LZ. lia.
    - intros c Hc. apply IN in Hc. destruct Hc; auto.
    - contradiction.
    - intros c Hc Hne. apply IN in Hc. destruct Hc as [Hc|Hc]; [contradiction|].
      apply in_map_iff in Hc. destruct Hc as ([c0 q] & Ec & Hc). cbn in Ec. subst c0.
      apply (in_firstn tr k _ (0%Z, 0%Q)) in Hc. destruct Hc as (i & Hik & Hil & Ei).
      destruct (Hi i ltac:(lia)) as [T1 T2]. rewrite Ei in T1, T2. cbn [snd] in T1, T2.
      assert (Q1 : (q == weight_to vmap fecon awt V c)%Q) by (apply CW; rewrite <- Ei; apply nth_In; auto).
      split; [rewrite <- Q1; auto|]. split.
      + destruct (Qlt_le_dec mpf 0) as [Hmp|Hmp]; [auto|].
        destruct (existsb (fun p => negb (Qle_bool 0 (awt (snd p)))) (fecon V)) eqn:EX.
        { right. right. apply existsb_exists in EX. destruct EX as (p & _ & Hp). exists (snd p). apply Qnot_le_lt. intros H.
          apply Qle_bool_iff in H. rewrite H in Hp. discriminate. }
        left. assert (AW : forall p, In p (fecon V) -> (0 <= awt (snd p))%Q).
        { intros p Hp. destruct (Qle_bool 0 (awt (snd p))) eqn:EQ0; [apply Qle_bool_iff; auto|]. exfalso.
          rewrite <- Bool.not_true_iff_false in EX. apply EX, existsb_exists. exists p. rewrite EQ0. auto. }
        rewrite <- Q1, <- IWQ.
        assert (SS : (q <= qsum (map snd (firstn (S i) tr)))%Q).
        { rewrite (firstn_snoc tr i (0%Z, 0%Q)) by auto. rewrite map_app, qsum_app, Ei. unfold qsum at 2. simpl.
          assert (NN : (0 <= qsum (map snd (firstn i tr)))%Q); [|lra].
          apply qsum_nonneg. intros q' Hq'. apply in_map_iff in Hq'. destruct Hq' as ([c2 q2] & <- & Hq').
          apply (in_firstn tr i _ (0%Z, 0%Q)) in Hq'. destruct Hq' as (i2 & _ & Hl2 & Ei2). cbn [snd].
          assert (Q2 : (q2 == weight_to vmap fecon awt V c2)%Q) by (apply CW; rewrite <- Ei2; apply nth_In; auto).
          rewrite Q2. apply qsum_nonneg. intros x Hx. apply in_map_iff in Hx. destruct Hx as (p & <- & Hp). apply filter_In in Hp. apply AW. tauto. }
        eapply Qle_lt_trans; [|exact T1]. rewrite !(Qmult_comm mpf). apply Qmult_le_compat_r; auto. lra.
      + intros c' Hc' Hn'. destruct (OUT c' Hc' Hn') as (j & Hkj & Hjl & Ej).
        rewrite <- Q1, <- Ej, <- HV' by auto. replace q with (snd (nth i tr (0%Z, 0%Q))) by (rewrite Ei; auto). apply MONO; lia.
    - intros _ Hlen c Hc Hn. rewrite LZ in Hlen. destruct (OUT c Hc Hn) as (j & Hkj & Hjl & Ej).
      assert (Hkt : k < length tr) by lia.
      destruct Hd as [Hd|Hd]; [rewrite max_adds_ok in Hd by auto; lia|]. cbn [Nat.add] in Hd.
      exists (fst (nth k tr (0%Z, 0%Q))). split; [apply CC, in_map, nth_In; auto|]. split; [|split].
      + intros H. apply IN in H. destruct H as [H|H].
        * assert (H' : candidate EQ V (vmap V)) by (rewrite <- H; apply CC, in_map, nth_In; auto).
          destruct H' as (w & e & _ & _ & _ & H' & _). auto.
        * rewrite <- (firstn_skipn k tr), map_app in ND.
          assert (SK : In (fst (nth k tr (0%Z, 0%Q))) (map fst (skipn k tr))).
          { apply in_map. clear - Hkt. revert k Hkt. induction tr as [|a l IH]; intros [|k] H; simpl in *; try lia; auto. apply IH. lia. }
          clear - ND H SK. induction (map fst (firstn k tr)) as [|b l IH]; [destruct H|]. inversion ND; subst. destruct H as [->|H]; auto.
          apply H2, in_app_iff. auto.
      + rewrite <- Ej, <- !HV' by auto. destruct (Nat.eq_dec j k) as [->|]; [lra|]. apply MONO; lia.
      + assert (CHW : (chosen_weight vmap fecon awt V (sortz cls) == qsum (map snd (firstn k tr)))%Q).
        { unfold chosen_weight.
          rewrite (qsum_perm _ (map (weight_to vmap fecon awt V) (map fst (firstn k tr)))).
          - rewrite map_map. assert (FI : forall p, In p (firstn k tr) -> (snd p == weight_to vmap fecon awt V (fst p))%Q).
            { intros p Hp. apply (in_firstn tr k _ (0%Z, 0%Q)) in Hp. destruct Hp as (i & _ & Hl & <-). apply HV'. auto. }
            clear - FI. induction (firstn k tr) as [|p l IH]; [reflexivity|]. unfold qsum in *. cbn [map fold_right].
            rewrite <- (FI p) by (simpl; auto). rewrite IH by (intros; apply FI; simpl; auto). lra.
          - apply Permutation_map. eapply perm_trans; [apply Permutation_filter', Permutation_sym, PZ|].
            unfold cls. cbn [app filter]. rewrite Z.eqb_refl. cbn [negb].
            replace (filter _ _) with (map fst (firstn k tr)); [auto|]. symmetry. apply filter_all'. intros c0 Hc0.
            apply negb_true_iff, Z.eqb_neq. intros ->. auto. }
        rewrite CHW, <- IWQ, <- HV' by auto. unfold taken in Hd. rewrite (firstn_snoc tr k (0%Z, 0%Q)), map_app, qsum_app in Hd by auto.
        unfold qsum at 2 in Hd. cbn [map fold_right] in Hd.
        destruct (Qlt_le_dec (snd (nth k tr (0%Z, 0%Q))) (mpf * dg)) as [H|H]; [auto|]. left.
        destruct (Qlt_le_dec (mpf * ((1 # 5) * iw + (qsum (map snd (firstn k tr)) + (snd (nth k tr (0%Z, 0%Q)) + 0)))) (snd (nth k tr (0%Z, 0%Q)))) as [H'|H']; [tauto|].
        eapply Qle_trans; [exact H'|]. apply Qle_lteq. right. ring.
  Qed.
End P.
