(** Lemmas for C78: the choice of a neighbour. *)
From Coq Require Import QArith.
From Verif Require Import Base SparseModel SparseProofs CtrProofs AuxSpec CDataSpec SPWModel SPWSpec.
From Verif Require CtrModel.
Local Open Scope nat_scope.

Lemma qlt_true a b : qlt a b = true <-> (a < b)%Q.
Proof.
  unfold qlt. rewrite negb_true_iff, <- not_true_iff_false, Qle_bool_iff. split; [apply Qnot_le_lt|apply Qlt_not_le].
Qed.
Lemma qlt_false a b : qlt a b = false <-> (b <= a)%Q.
Proof. unfold qlt. rewrite negb_false_iff. apply Qle_bool_iff. Qed.
Lemma qmin_lesser a b : qmin a b = lesser a b.
Proof. unfold qmin, lesser, qlt. destruct (Qle_bool a b); reflexivity. Qed.
Lemma lesser_le a b : (lesser a b <= a /\ lesser a b <= b)%Q.
Proof.
  unfold lesser. destruct (Qle_bool a b) eqn:E; [apply Qle_bool_iff in E; split; auto; apply Qle_refl|].
  assert (~ (a <= b)%Q) by (intros H; apply Qle_bool_iff in H; congruence). apply Qnot_le_lt in H. split; [now apply Qlt_le_weak|apply Qle_refl].
Qed.
Lemma lesser_gt a b x : (x < a)%Q -> (x < b)%Q -> (x < lesser a b)%Q.
Proof. intros. unfold lesser. destruct (Qle_bool a b); auto. Qed.

Lemma fold_qmax (ini : nat -> Q) n : let m := fold_left (fun m j => qmax m (ini j)) (seq 0 n) 0%Q in
  (0 <= m)%Q /\ (forall j, j < n -> (ini j <= m)%Q) /\ (m = 0%Q \/ exists j, j < n /\ m = ini j).
Proof.
  induction n as [|n IH]; cbn zeta.
  - split; [apply Qle_refl|]. split; [intros; lia|now left].
  - rewrite seq_S, fold_left_app. cbn [fold_left plus]. cbn zeta in IH. set (m := fold_left _ _ _) in *. destruct IH as (A & B & C).
    unfold qmax. destruct (qlt m (ini n)) eqn:E.
    + apply qlt_true in E. split; [eapply Qle_trans; [apply A|now apply Qlt_le_weak]|]. split.
      * intros j Hj. destruct (Nat.eq_dec j n) as [->|]; [apply Qle_refl|]. eapply Qle_trans; [apply B; lia|now apply Qlt_le_weak].
      * right. exists n. auto.
    + apply qlt_false in E. split; auto. split.
      * intros j Hj. destruct (Nat.eq_dec j n) as [->|]; [auto|]. apply B; lia.
      * destruct C as [C|(j & Hj & C)]; [now left|right; exists j; auto].
Qed.

Lemma pick_ok neibs ws wthr viable : length ws = length neibs -> forall idxs,
  (forall i, In i idxs -> i < length neibs) -> StronglySorted (fun i j => (nth j ws 0 <= nth i ws 0)%Q) idxs ->
  exists r, pick neibs ws wthr viable idxs = Ret r /\
    match r with
    | Some n => exists j, In j idxs /\ nth_error neibs j = Some n /\ (wthr <= nth j ws 0)%Q /\ viable j = true /\
                  forall i, In i idxs -> (wthr <= nth i ws 0)%Q -> viable i = true -> (nth i ws 0 <= nth j ws 0)%Q
    | None => forall i, In i idxs -> (wthr <= nth i ws 0)%Q -> viable i = false
    end.
Proof.
  intros HL. induction idxs as [|j t IH]; intros HI HS; cbn [pick].
  - exists None. split; auto. intros i [].
  - inversion HS as [|? ? SS F]; subst. rewrite (rd_ok neibs j 0) by (apply HI; now left). cbn [bind].
    rewrite (rd_ok ws j 0%Q) by (rewrite HL; apply HI; now left). cbn [bind].
    destruct (qlt (nth j ws 0%Q) wthr) eqn:E.
    + apply qlt_true in E. exists None. split; auto. intros i [<-|Hi] W.
      * exfalso. apply Qlt_not_le in E. contradiction.
      * rewrite Forall_forall in F. specialize (F i Hi). exfalso. apply Qlt_not_le in E. apply E. eapply Qle_trans; eauto.
    + apply qlt_false in E. destruct (viable j) eqn:V.
      * exists (Some (nth j neibs 0)). split; auto. exists j. split; [now left|]. split; [apply nth_error_nth'; apply HI; now left|].
        split; auto. split; auto. intros i [<-|Hi] _ _; [apply Qle_refl|]. rewrite Forall_forall in F. auto.
      * destruct IH as (r & Er & R); auto. { intros; apply HI; now right. } exists r. split; auto.
        destruct r as [n|].
        -- destruct R as (i & Hi & R1 & R2 & R3 & R4). exists i. split; [now right|]. split; auto. split; auto. split; auto.
           intros i' [<-|Hi'] W V'; [congruence|]. auto.
        -- intros i [<-|Hi] W; auto.
Qed.

Lemma nth_map_numbered {A B} (f : nat * A -> B) (l : list A) j (d : B) (d' : A) : j < length l -> nth j (map f (numbered l)) d = f (j, nth j l d').
Proof.
  intros H. rewrite (nth_indep _ d (f (0, d'))) by (now rewrite map_length, numbered_length). rewrite map_nth.
  f_equal. unfold numbered. rewrite combine_nth by (apply seq_length). f_equal. apply seq_nth. auto.
Qed.
Lemma in_numbered_lt {A} (l : list A) j a : In (j, a) (numbered l) -> j < length l /\ nth_error l j = Some a.
Proof.
  unfold numbered. intros H.
  assert (G : forall l s, In (j, a) (combine (seq s (length l)) l) -> s <= j /\ j < s + length l /\ nth_error l (j - s) = Some a).
  { clear. induction l as [|x l IH]; cbn; intros s H; [destruct H|]. destruct H as [E|H].
    - injection E as -> ->. split; [lia|]. split; [lia|]. now rewrite Nat.sub_diag.
    - apply IH in H. destruct H as (A1 & B1 & C1). split; [lia|]. split; [lia|]. replace (j - s) with (S (j - S s)) by lia. auto. }
  apply G in H. rewrite Nat.sub_0_r in H. intuition lia.
Qed.

Lemma FindNeib3Step_ok c sorti ini rob crob cbig allowed al neibs : sorti_ok sorti -> config_ok c ->
  (forall n, In n neibs -> allowed n = Ret (al n)) ->
  exists r, FindNeib3Step c sorti ini rob crob cbig allowed neibs = Ret r /\ best_choice c ini rob crob cbig al neibs r.
Proof.
  intros HS [HC1 HC2] HA. unfold FindNeib3Step, mapM.
  set (g := fun jn : nat * nat => if al (snd jn) then ini (fst jn) else (-1)%Q).
  rewrite (mapM_ok _ g).
  2:{ intros [j n] Hj. cbn [fst snd]. apply in_numbered_lt in Hj as (H1 & H2). rewrite HA by (eapply nth_error_In; eauto). reflexivity. }
  cbn [bind]. pose proof (fold_qmax ini (length neibs)) as T. cbn zeta in T. set (mx := fold_left _ _ _) in *.
  set (ws0 := map g (numbered neibs)). set (thr := (scalRel c * mx)%Q).
  assert (L0 : length ws0 = length neibs) by (unfold ws0; now rewrite map_length, numbered_length).
  assert (W0 : forall j, j < length neibs -> nth j ws0 0%Q = if al (nth j neibs 0) then ini j else (-1)%Q).
  { intros j Hj. unfold ws0. rewrite (nth_map_numbered g neibs j 0%Q 0) by auto. reflexivity. }
  assert (T0 : (0 <= thr)%Q).
  { unfold thr. destruct T as (T1 & _). setoid_replace 0%Q with (0 * mx)%Q by ring. apply Qmult_le_compat_r; auto. }
  assert (R0 : (-1 < lesser thr (absRob c))%Q) by (apply lesser_gt; auto; eapply Qlt_le_trans; [|apply T0]; reflexivity).
  match goal with |- context [pick neibs ?w _ _ _] => set (ws := w) end.
  assert (LW : length ws = length neibs) by (unfold ws; destruct (robustPick c); [now rewrite map_length, numbered_length|auto]).
  rewrite !qmin_lesser.
  match goal with |- context [pick neibs ws ?w ?vi _] => set (wthr := w); set (viable := vi) end.
  destruct (HS ws) as [PS SS].
  assert (HIn : forall i, In i (sorti ws) <-> i < length neibs).
  { intros i. rewrite <- LW. split; intros H; [apply (Permutation_in _ PS) in H; apply in_seq in H; lia|].
    apply (Permutation_in _ (Permutation_sym PS)). apply in_seq. lia. }
  destruct (pick_ok neibs ws wthr viable LW (sorti ws) ltac:(intros; now apply HIn) SS) as (r & Er & R).
  exists r. split; [exact Er|]. exists mx. split; [exact T|].
  (* eligible = in range, above the threshold, viable *)
  assert (EL : forall j, eligible c ini rob crob cbig al neibs mx j <-> j < length neibs /\ (wthr <= nth j ws 0)%Q /\ viable j = true).
  { intros j. unfold eligible. cbv zeta. fold thr. unfold viable, wthr, ws. destruct (robustPick c) eqn:ER.
    - cbn [orb andb]. split.
      + intros (Hj & A & I & Rb & Bg). split; auto. rewrite (nth_map_numbered _ ws0 j 0%Q 0%Q) by (now rewrite L0). cbn [fst snd].
        rewrite W0, A by auto. rewrite (proj2 (qlt_false _ _) I). split; auto.
        destruct (checkBig c); [cbn [negb orb]; now rewrite Bg|reflexivity].
      + intros (Hj & W & V). rewrite (nth_map_numbered _ ws0 j 0%Q 0%Q) in W by (now rewrite L0). cbn [fst snd] in W. rewrite W0 in W by auto.
        destruct (qlt _ thr) eqn:Eq; [exfalso; apply Qlt_not_le in R0; contradiction|]. apply qlt_false in Eq.
        destruct (al (nth j neibs 0)) eqn:EA.
        * split; auto. split; auto. split; auto. split; auto. intros Cb. rewrite Cb in V. exact V.
        * exfalso. assert ((0 <= -1)%Q) by (eapply Qle_trans; eauto). discriminate (proj2 (Qle_bool_iff _ _) H).
    - cbn [orb andb]. split.
      + intros (Hj & A & I & Rb & Bg). split; auto. rewrite W0, A by auto. split; auto. rewrite Rb. cbn [andb].
        destruct (checkBig c); [cbn [negb orb]; now rewrite Bg|reflexivity].
      + intros (Hj & W & V). rewrite W0 in W by auto. apply andb_true_iff in V as [V1 V2]. destruct (al (nth j neibs 0)) eqn:EA.
        * split; auto. split; auto. split; auto. split; auto. intros Cb. rewrite Cb in V2. exact V2.
        * exfalso. assert ((0 <= -1)%Q) by (eapply Qle_trans; eauto). discriminate (proj2 (Qle_bool_iff _ _) H). }
  assert (SC : forall j, eligible c ini rob crob cbig al neibs mx j -> nth j ws 0%Q = score c ini rob j).
  { intros j Hj. destruct (proj1 (EL j) Hj) as (Hl & _ & _). destruct Hj as (_ & A & I & _). cbv zeta in I. fold thr in I.
    unfold score, ws. destruct (robustPick c).
    - rewrite (nth_map_numbered _ ws0 j 0%Q 0%Q) by (now rewrite L0). cbn [fst snd]. rewrite W0, A by auto. now rewrite (proj2 (qlt_false _ _) I).
    - now rewrite W0, A. }
  destruct r as [n|].
  - destruct R as (j & Hj & N & W & V & Best). assert (Ej : eligible c ini rob crob cbig al neibs mx j) by (apply EL; split; [now apply HIn|auto]).
    exists j. split; auto. split; auto. intros i Hi. rewrite <- (SC i Hi), <- (SC j Ej). apply EL in Hi as (H1 & H2 & H3). apply Best; auto. now apply HIn.
  - intros j Hj. apply EL in Hj as (H1 & H2 & H3). rewrite R in H3; [discriminate|now apply HIn|auto].
Qed.

(** what the partition needs: the chosen one is an allowed neighbour *)
Lemma best_choice_allowed c ini rob crob cbig al neibs n : best_choice c ini rob crob cbig al neibs (Some n) -> In n neibs /\ al n = true.
Proof.
  intros (m & _ & j & (Hj & A & _) & N & _). split; [eapply nth_error_In; eauto|]. rewrite (nth_error_nth neibs j 0 N) in A. exact A.
Qed.
