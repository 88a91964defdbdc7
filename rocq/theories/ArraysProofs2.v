(** Proofs about the merging and two-pointer functions of ArraysModel. *)
From Verif Require Import Base ArraysModel ArraysProofs.
Local Open Scope Z_scope.

Notation ssorted := (StronglySorted Z.lt).

Lemma ssorted_cons x a : ssorted (x :: a) <-> ssorted a /\ (forall z, In z a -> x < z).
Proof.
  split; intros H.
  - inversion H; subst. rewrite Forall_forall in *. auto.
  - destruct H. constructor; auto. rewrite Forall_forall; auto.
Qed.

Lemma two_ind (P : list Z -> list Z -> Prop) :
  (forall b, P [] b) -> (forall x a, P (x :: a) []) ->
  (forall x a y b, P a b -> P a (y :: b) -> P (x :: a) b -> P (x :: a) (y :: b)) ->
  forall a b, P a b.
Proof.
  intros H0 H1 H2. induction a as [|x a IHa]; intros b; auto.
  induction b as [|y b IHb]; auto.
Qed.

(** *** two-array merge *)
Lemma merge2_cons x a y b : merge_arrays2 (x :: a) (y :: b) =
  if x =? y then x :: merge_arrays2 a b else if x <? y then x :: merge_arrays2 a (y :: b) else y :: merge_arrays2 (x :: a) b.
Proof. reflexivity. Qed.
Lemma merge2_nil_l b : merge_arrays2 [] b = b.
Proof. destruct b; reflexivity. Qed.
Lemma merge2_nil_r a : merge_arrays2 a [] = a.
Proof. destruct a; reflexivity. Qed.

Lemma merge2_in a b z : In z (merge_arrays2 a b) <-> In z a \/ In z b.
Proof.
  revert a b. apply two_ind.
  - intros b. rewrite merge2_nil_l. simpl; tauto.
  - intros x a. rewrite merge2_nil_r. simpl; tauto.
  - intros x a y b H1 H2 H3. rewrite merge2_cons. destruct (Z.eqb_spec x y) as [->|].
    + simpl. rewrite H1. simpl. tauto.
    + destruct (x <? y); simpl; [rewrite H2|rewrite H3]; simpl; tauto.
Qed.

Lemma merge2_sorted a b : ssorted a -> ssorted b -> ssorted (merge_arrays2 a b).
Proof.
  revert a b. apply (two_ind (fun a b => ssorted a -> ssorted b -> ssorted (merge_arrays2 a b))).
  - intros b _ Hb. rewrite merge2_nil_l. auto.
  - intros x a Ha _. rewrite merge2_nil_r. auto.
  - intros x a y b H1 H2 H3 Ha Hb. rewrite merge2_cons.
    pose proof (proj1 (ssorted_cons _ _) Ha) as [Ha' Hxa]. pose proof (proj1 (ssorted_cons _ _) Hb) as [Hb' Hyb].
    destruct (Z.eqb_spec x y) as [->|].
    + apply ssorted_cons. split; auto. intros z Hz. apply merge2_in in Hz as [Hz|Hz]; auto.
    + destruct (Z.ltb_spec x y); apply ssorted_cons; (split; [auto|]); intros z Hz; apply merge2_in in Hz as [Hz|Hz]; auto.
      * destruct Hz as [<-|Hz]; auto. specialize (Hyb z Hz); lia.
      * destruct Hz as [<-|Hz]; [lia|]. specialize (Hxa z Hz); lia.
Qed.

(** *** k-way merge *)
Lemma first_head_none rows : first_head rows = None <-> (forall r, In r rows -> r = []).
Proof.
  induction rows as [|[|h t] rows IH]; simpl.
  - split; auto; intros; tauto.
  - rewrite IH. split; intros H r; [intros [<-|Hr]; auto|intros Hr; apply H; auto].
  - split; [discriminate|]. intros H. specialize (H _ (or_introl eq_refl)). discriminate.
Qed.

Lemma first_head_some rows c : first_head rows = Some c -> exists t, In (c :: t) rows.
Proof.
  induction rows as [|[|h t] rows IH]; simpl; intros H; [discriminate| |].
  - destruct (IH H) as (t & Ht). eauto.
  - inversion H; subst. eauto.
Qed.

Lemma heads_min_spec rows m : let m' := heads_min rows m in
  m' <= m /\ (forall h t, In (h :: t) rows -> m' <= h) /\ (m' = m \/ exists t, In (m' :: t) rows).
Proof.
  revert m; induction rows as [|[|h t] rows IH]; intros m; simpl.
  - repeat split; auto; try lia; tauto.
  - destruct (IH m) as (H1 & H2 & H3). repeat split; auto.
    + intros h t [Hx|Hx]; [discriminate|eauto].
    + destruct H3 as [|(t & Ht)]; eauto.
  - destruct (IH (if h <? m then h else m)) as (H1 & H2 & H3).
    assert (Hmin : (if h <? m then h else m) <= m /\ (if h <? m then h else m) <= h) by (destruct (Z.ltb_spec h m); lia).
    repeat split; try lia.
    + intros h' t' [Hx|Hx]; [inversion Hx; subst; lia|eauto].
    + destruct H3 as [H3|(t' & Ht')]; eauto. destruct (Z.ltb_spec h m); rewrite H3; eauto.
Qed.

Lemma concat_advance_length m rows : (length (concat (map (advance_min m) rows)) <= length (concat rows))%nat.
Proof.
  induction rows as [|r rows IH]; simpl; auto. rewrite !app_length.
  assert (length (advance_min m r) <= length r)%nat; [|lia].
  destruct r as [|h t]; simpl; auto. destruct (h =? m); simpl; lia.
Qed.
Lemma concat_advance_length_lt m t rows : In (m :: t) rows ->
  (length (concat (map (advance_min m) rows)) < length (concat rows))%nat.
Proof.
  induction rows as [|r rows IH]; simpl; [tauto|]. rewrite !app_length. intros [->|Hin].
  - pose proof (concat_advance_length m rows). simpl. rewrite Z.eqb_refl. lia.
  - specialize (IH Hin). assert (length (advance_min m r) <= length r)%nat; [|lia].
    destruct r as [|h t']; simpl; auto. destruct (h =? m); simpl; lia.
Qed.

Lemma advance_in m r z : ssorted r -> (forall h t, r = h :: t -> m <= h) ->
  (In z (advance_min m r) <-> In z r /\ m < z).
Proof.
  intros Hs Hm. destruct r as [|h t]; simpl; [tauto|].
  apply ssorted_cons in Hs as [Hs Hh]. specialize (Hm h t eq_refl).
  destruct (Z.eqb_spec h m) as [->|Hne].
  - split; [intros Hz; specialize (Hh z Hz); tauto|]. intros [[<-|Hz] Hlt]; auto; lia.
  - simpl. split; [|tauto]. intros [<-|Hz]; [split; auto; lia|]. specialize (Hh z Hz). split; auto; lia.
Qed.

Lemma advance_sorted m r : ssorted r -> ssorted (advance_min m r).
Proof. destruct r as [|h t]; simpl; auto. intros H. destruct (h =? m); auto. apply ssorted_cons in H; tauto. Qed.

Lemma merge_loop_spec fuel rows : (forall r, In r rows -> ssorted r) -> (length (concat rows) <= fuel)%nat ->
  exists out, merge_arrays_loop fuel rows = Ret out /\ ssorted out /\ (forall z, In z out <-> exists r, In r rows /\ In z r).
Proof.
  revert rows; induction fuel as [|f IH]; intros rows Hs Hf; cbn [merge_arrays_loop].
  - destruct (first_head rows) as [c|] eqn:E.
    + apply first_head_some in E as (t & Ht). exfalso.
      assert (length (concat rows) <> 0)%nat; [|lia]. intros E0. apply length_zero_iff_nil in E0.
      assert (In c (concat rows)) by (apply in_concat; exists (c :: t); simpl; auto). rewrite E0 in H. auto.
    + exists []. split; auto. split; [constructor|]. intros z; split; [intros []|]. rewrite first_head_none in E.
      intros (r & Hr & Hz). rewrite (E r Hr) in Hz. auto.
  - destruct (first_head rows) as [c|] eqn:E.
    + pose proof (first_head_some _ _ E) as (t & Ht).
      set (m := heads_min rows c). destruct (heads_min_spec rows c) as (H1 & H2 & H3). fold m in H1, H2, H3.
      assert (Hm : exists t, In (m :: t) rows) by (destruct H3 as [->|]; eauto).
      destruct Hm as (tm & Htm). pose proof (concat_advance_length_lt m tm rows Htm) as Hlt.
      destruct (IH (map (advance_min m) rows)) as (out & E1 & E2 & E3).
      { intros r Hr. apply in_map_iff in Hr as (r0 & <- & Hr0). apply advance_sorted; auto. }
      { lia. }
      rewrite E1. cbn [bind]. exists (m :: out). split; auto.
      assert (Hadv : forall z, In z out <-> exists r, In r rows /\ In z r /\ m < z).
      { intros z. rewrite E3. split.
        - intros (r & Hr & Hz). apply in_map_iff in Hr as (r0 & <- & Hr0). apply advance_in in Hz; auto.
          + exists r0; tauto. + intros h t' ->. eapply H2; eauto.
        - intros (r & Hr & Hz). exists (advance_min m r). split; [apply in_map; auto|].
          apply advance_in; auto. intros h t' ->. eapply H2; eauto. }
      split.
      * apply ssorted_cons. split; auto. intros z Hz. apply Hadv in Hz as (r & _ & _ & H); auto.
      * intros z. simpl. rewrite Hadv. split.
        -- intros [<-|(r & ? & ? & ?)]; [exists (m :: tm); simpl; auto|eauto].
        -- intros (r & Hr & Hz). destruct r as [|h t']; [destruct Hz|].
           pose proof (H2 _ _ Hr). specialize (Hs _ Hr). apply ssorted_cons in Hs as [_ Hh].
           destruct (Z.eq_dec m z); auto. right. exists (h :: t'). repeat split; auto.
           destruct Hz as [<-|Hz]; [lia|]. specialize (Hh z Hz). lia.
    + exists []. split; auto. split; [constructor|]. intros z; split; [intros []|]. rewrite first_head_none in E.
      intros (r & Hr & Hz). rewrite (E r Hr) in Hz. auto.
Qed.

Lemma merge_arrays_spec rows : (forall r, In r rows -> ssorted r) ->
  exists out, merge_arrays rows = Ret out /\ ssorted out /\ (forall z, In z out <-> exists r, In r rows /\ In z r).
Proof. intros H. apply merge_loop_spec; auto. Qed.

(** *** MergeArrays1: simulation of merge_arrays *)
Definition mr_ok (r : list Z) (m : mrow) : Prop :=
  mr_ptr m = r /\ mr_size m = Z.of_nat (length r) /\ mr_min m = match r with [] => INT_MAX | h :: _ => h end.

Lemma mrow_init_ok r : mr_ok r (mrow_init r).
Proof. destruct r; unfold mr_ok; simpl; auto. Qed.

Lemma mrow_advance_ok m r mr : mr_ok r mr -> m < INT_MAX ->
  exists mr' , mrow_advance m mr = Ret (mr', match r with h :: [] => if h =? m then 1 else 0 | _ => 0 end) /\ mr_ok (advance_min m r) mr'.
Proof.
  intros (H1 & H2 & H3) Hm. unfold mrow_advance. rewrite H3. destruct r as [|h t].
  - destruct (Z.eqb_spec INT_MAX m); [lia|]. exists mr. split; auto. split; auto.
  - destruct (Z.eqb_spec h m) as [->|Hne].
    + rewrite H1, H2. cbn [tl length]. destruct t as [|h' t'].
      * cbn [length]. simpl. eexists; split; [reflexivity|]. rewrite Z.eqb_refl. unfold mr_ok; simpl; auto.
      * destruct (Z.eqb_spec (Z.of_nat (S (length (h' :: t'))) - 1) 0); [simpl length in *; lia|].
        unfold rd. cbn [nth_error bind]. eexists; split; [reflexivity|]. cbn [advance_min]. rewrite Z.eqb_refl. unfold mr_ok; cbn [mr_ptr mr_size mr_min]. repeat split.
        cbn [length]. lia.
    + exists mr. split; [|simpl; destruct (Z.eqb_spec h m); [congruence|split; auto]].
      destruct t; auto.
Qed.

Definition nact (rows : list (list Z)) : Z := Z.of_nat (length (filter (fun r => negb (length r =? 0)%nat) rows)).

Lemma mrows_advance_ok m rows mrs : Forall2 mr_ok rows mrs -> m < INT_MAX ->
  exists mrs' d, mrows_advance m mrs = Ret (mrs', d) /\ Forall2 mr_ok (map (advance_min m) rows) mrs' /\
    nact (map (advance_min m) rows) = nact rows - d.
Proof.
  intros H Hm. induction H as [|r mr rows mrs H1 H2 IH]; simpl.
  - exists [], 0. repeat split; auto.
  - destruct (mrow_advance_ok m r mr H1 Hm) as (mr' & E & Hok). rewrite E. cbn [bind].
    destruct IH as (mrs' & d & E2 & Hf & Hn). rewrite E2. cbn [bind]. eexists; eexists; split; [reflexivity|]. split.
    + constructor; auto.
    + unfold nact in *. cbn [map filter]. destruct r as [|h [|h' t]]; cbn [advance_min].
      * cbn [length Nat.eqb negb]. lia.
      * destruct (h =? m); cbn [length Nat.eqb negb]; lia.
      * destruct (h =? m); cbn [length Nat.eqb negb]; lia.
Qed.

Lemma mrows_min_ok rows mrs c : Forall2 mr_ok rows mrs -> (forall r z, In r rows -> In z r -> z < INT_MAX) ->
  first_head rows = Some c -> mrows_min mrs = heads_min rows c.
Proof.
  intros H Hb Hc.
  assert (G : forall rows mrs, Forall2 mr_ok rows mrs -> forall m, m <= INT_MAX ->
     fold_left (fun m r => Z.min m (mr_min r)) mrs m = heads_min rows m /\ heads_min rows m <= INT_MAX).
  { clear. induction 1 as [|r mr rows mrs H1 H2 IH]; intros m Hm; simpl; auto.
    destruct H1 as (_ & _ & ->). destruct r as [|h t].
    - rewrite Z.min_l by lia. apply IH; auto.
    - replace (if h <? m then h else m) with (Z.min m h) by (destruct (Z.ltb_spec h m); lia). apply IH. lia. }
  destruct H as [|r mr rows mrs H1 H2]; [discriminate|]. destruct H1 as (E1 & E2 & E3). simpl. rewrite E3.
  destruct r as [|h t]; simpl in *.
  - destruct (G _ _ H2 INT_MAX ltac:(lia)) as [-> _].
    assert (G2 : forall rows m m', first_head rows = Some c -> c <= m -> c <= m' -> heads_min rows m = heads_min rows m').
    { clear. induction rows as [|[|h t] rows IH]; simpl; intros m m' H Hm Hm'; [discriminate|auto|].
      inversion H; subst. destruct (Z.ltb_spec c m), (Z.ltb_spec c m'); f_equal; lia. }
    apply G2; auto; [|lia]. destruct (first_head_some _ _ Hc) as (t & Ht).
    specialize (Hb (c :: t) c (or_intror Ht) (or_introl eq_refl)). lia.
  - inversion Hc; subst c. rewrite Z.ltb_irrefl. apply G; auto. specialize (Hb (h :: t) h (or_introl eq_refl) (or_introl eq_refl)). lia.
Qed.

Lemma nact_zero rows : nact rows = 0 <-> first_head rows = None.
Proof.
  unfold nact. induction rows as [|[|h t] rows IH]; simpl.
  - tauto. - auto. - split; [lia|discriminate].
Qed.

Lemma MergeArrays1_sim fuel rows mrs : Forall2 mr_ok rows mrs -> (forall r z, In r rows -> In z r -> z < INT_MAX) ->
  MergeArrays1_loop fuel (nact rows) mrs = merge_arrays_loop fuel rows.
Proof.
  revert rows mrs; induction fuel as [|f IH]; intros rows mrs H Hb; cbn [MergeArrays1_loop merge_arrays_loop].
  - destruct (Z.eqb_spec (nact rows) 0) as [E|E].
    + apply nact_zero in E. rewrite E. auto.
    + destruct (first_head rows) eqn:E2; auto. exfalso; apply E, nact_zero; auto.
  - destruct (Z.eqb_spec (nact rows) 0) as [E|E].
    + apply nact_zero in E. rewrite E. auto.
    + destruct (first_head rows) as [c|] eqn:E2; [|exfalso; apply E, nact_zero; auto].
      rewrite (mrows_min_ok rows mrs c) by auto.
      destruct (heads_min_spec rows c) as (H1 & H2 & H3).
      destruct (first_head_some _ _ E2) as (t & Ht).
      assert (Hm : heads_min rows c < INT_MAX).
      { specialize (Hb (c :: t) c Ht (or_introl eq_refl)). lia. }
      destruct (mrows_advance_ok _ rows mrs H Hm) as (mrs' & d & E3 & Hf & Hn). rewrite E3. cbn [bind].
      rewrite <- Hn, IH; auto.
      intros r z Hr Hz. apply in_map_iff in Hr as (r0 & <- & Hr0). apply (Hb r0); auto.
      destruct r0 as [|h t']; simpl in *; auto. destruct (h =? _); simpl in *; auto.
Qed.

Lemma MergeArrays1_spec rows : (forall r, In r rows -> ssorted r) -> (forall r z, In r rows -> In z r -> z < INT_MAX) ->
  exists out, MergeArrays1 rows = Ret out /\ ssorted out /\ (forall z, In z out <-> exists r, In r rows /\ In z r).
Proof.
  intros Hs Hb. unfold MergeArrays1. fold (nact rows). rewrite (MergeArrays1_sim _ rows); auto.
  - apply merge_arrays_spec; auto.
  - clear. induction rows; simpl; constructor; auto using mrow_init_ok.
Qed.

(** *** two-pointer iterations *)
Lemma ABC_cons x a i1 y b i2 : iterate_ABC_from (x :: a) i1 (y :: b) i2 =
  if x =? y then INTERSECTION i1 i2 :: iterate_ABC_from a (S i1) b (S i2)
  else if x <? y then A_NOT_B i1 :: iterate_ABC_from a (S i1) (y :: b) i2
  else B_NOT_A i2 :: iterate_ABC_from (x :: a) i1 b (S i2).
Proof. reflexivity. Qed.
Lemma ABC_nil_r a i1 i2 : iterate_ABC_from a i1 [] i2 = map A_NOT_B (seq i1 (length a)).
Proof. destruct a; reflexivity. Qed.
Lemma ABC_nil_l b i1 i2 : iterate_ABC_from [] i1 b i2 = map B_NOT_A (seq i2 (length b)).
Proof. destruct b; reflexivity. Qed.

(** what a call must mean, relative to the arrays and the offsets *)
Definition call_ok (a b : list Z) (i1 i2 : nat) (c : abc_call) : Prop :=
  match c with
  | INTERSECTION i j => exists k l z, i = (i1 + k)%nat /\ j = (i2 + l)%nat /\ nth_error a k = Some z /\ nth_error b l = Some z
  | A_NOT_B i => exists k z, i = (i1 + k)%nat /\ nth_error a k = Some z /\ ~ In z b
  | B_NOT_A j => exists l z, j = (i2 + l)%nat /\ nth_error b l = Some z /\ ~ In z a
  end.

Lemma call_ok_step_eq x a b i1 i2 c : ssorted (x :: a) -> ssorted (x :: b) ->
  (call_ok (x :: a) (x :: b) i1 i2 c <-> INTERSECTION i1 i2 = c \/ call_ok a b (S i1) (S i2) c).
Proof.
  intros Ha Hb. apply ssorted_cons in Ha as [Ha Hxa]. apply ssorted_cons in Hb as [Hb Hxb].
  destruct c as [i j|i|j]; simpl; split.
  - intros (k & l & z & -> & -> & Hk & Hl). destruct k as [|k], l as [|l]; simpl in *.
    + left. f_equal; lia.
    + inversion Hk; subst. apply nth_error_In in Hl. specialize (Hxb _ Hl); lia.
    + inversion Hl; subst. apply nth_error_In in Hk. specialize (Hxa _ Hk); lia.
    + right. exists k, l, z. repeat split; auto; lia.
  - intros [E|(k & l & z & -> & -> & Hk & Hl)].
    + inversion E; subst. exists 0%nat, 0%nat, x. repeat split; auto; lia.
    + exists (S k), (S l), z. repeat split; auto; lia.
  - intros (k & z & -> & Hk & Hn). destruct k as [|k]; simpl in *; [inversion Hk; subst; tauto|].
    right. exists k, z. repeat split; auto; lia.
  - intros [E|(k & z & -> & Hk & Hn)]; [discriminate|]. exists (S k), z. repeat split; auto; try lia.
    intros [<-|Hz]; auto. apply nth_error_In in Hk. specialize (Hxa _ Hk); lia.
  - intros (k & z & -> & Hk & Hn). destruct k as [|k]; simpl in *; [inversion Hk; subst; tauto|].
    right. exists k, z. repeat split; auto; lia.
  - intros [E|(k & z & -> & Hk & Hn)]; [discriminate|]. exists (S k), z. repeat split; auto; try lia.
    intros [<-|Hz]; auto. apply nth_error_In in Hk. specialize (Hxb _ Hk); lia.
Qed.

Lemma call_ok_step_lt x a y b i1 i2 c : ssorted (x :: a) -> ssorted (y :: b) -> x < y ->
  (call_ok (x :: a) (y :: b) i1 i2 c <-> A_NOT_B i1 = c \/ call_ok a (y :: b) (S i1) i2 c).
Proof.
  intros Ha Hb Hxy. apply ssorted_cons in Ha as [Ha Hxa]. apply ssorted_cons in Hb as [Hb Hyb].
  assert (Hnx : ~ In x (y :: b)). { intros [Hx|Hx]; [lia|specialize (Hyb _ Hx); lia]. }
  destruct c as [i j|i|j]; simpl; split.
  - intros (k & l & z & -> & -> & Hk & Hl). destruct k as [|k]; simpl in *.
    + inversion Hk; subst. apply nth_error_In in Hl. tauto.
    + right. exists k, l, z. repeat split; auto; lia.
  - intros [E|(k & l & z & -> & -> & Hk & Hl)]; [discriminate|]. exists (S k), l, z. repeat split; auto; lia.
  - intros (k & z & -> & Hk & Hn). destruct k as [|k]; simpl in *; [left; f_equal; lia|].
    right. exists k, z. repeat split; auto; lia.
  - intros [E|(k & z & -> & Hk & Hn)].
    + inversion E; subst. exists 0%nat, x. repeat split; auto; lia.
    + exists (S k), z. repeat split; auto; lia.
  - intros (l & z & -> & Hl & Hn). right. exists l, z. repeat split; auto.
  - intros [E|(l & z & -> & Hl & Hn)]; [discriminate|]. exists l, z. repeat split; auto.
    intros [<-|Hz]; auto. apply nth_error_In in Hl. tauto.
Qed.

Definition flip (c : abc_call) : abc_call :=
  match c with INTERSECTION i j => INTERSECTION j i | A_NOT_B i => B_NOT_A i | B_NOT_A j => A_NOT_B j end.
Lemma call_ok_flip a b i1 i2 c : call_ok a b i1 i2 c <-> call_ok b a i2 i1 (flip c).
Proof.
  destruct c; simpl; try tauto. split; intros (k & l & z & H); exists l, k, z; tauto.
Qed.

Lemma call_ok_step_gt x a y b i1 i2 c : ssorted (x :: a) -> ssorted (y :: b) -> y < x ->
  (call_ok (x :: a) (y :: b) i1 i2 c <-> B_NOT_A i2 = c \/ call_ok (x :: a) b i1 (S i2) c).
Proof.
  intros Ha Hb H. rewrite call_ok_flip, (call_ok_step_lt y b x a i2 i1) by auto.
  rewrite (call_ok_flip (x :: a) b). split; intros [E|E]; auto; left.
  - destruct c; simpl in E; congruence.
  - subst; reflexivity.
Qed.

Lemma in_map_seq_A n i1 c : In c (map A_NOT_B (seq i1 n)) <-> exists k, (k < n)%nat /\ c = A_NOT_B (i1 + k).
Proof.
  rewrite in_map_iff. split.
  - intros (i & <- & Hi). apply in_seq in Hi. exists (i - i1)%nat. split; [lia|f_equal; lia].
  - intros (k & Hk & ->). exists (i1 + k)%nat. split; auto. apply in_seq; lia.
Qed.
Lemma in_map_seq_B n i1 c : In c (map B_NOT_A (seq i1 n)) <-> exists k, (k < n)%nat /\ c = B_NOT_A (i1 + k).
Proof.
  rewrite in_map_iff. split.
  - intros (i & <- & Hi). apply in_seq in Hi. exists (i - i1)%nat. split; [lia|f_equal; lia].
  - intros (k & Hk & ->). exists (i1 + k)%nat. split; auto. apply in_seq; lia.
Qed.

Lemma nth_error_ex {A} (a : list A) k : (k < length a)%nat <-> exists z, nth_error a k = Some z.
Proof.
  split.
  - intros H. destruct (nth_error a k) eqn:E; eauto. apply nth_error_None in E; lia.
  - intros (z & E). apply nth_error_Some; congruence.
Qed.

Lemma ABC_from_spec a b : ssorted a -> ssorted b -> forall i1 i2 c,
  In c (iterate_ABC_from a i1 b i2) <-> call_ok a b i1 i2 c.
Proof.
  revert a b. apply (two_ind (fun a b => ssorted a -> ssorted b -> forall i1 i2 c, In c (iterate_ABC_from a i1 b i2) <-> call_ok a b i1 i2 c)).
  - intros b _ Hb i1 i2 c. rewrite ABC_nil_l, in_map_seq_B. destruct c as [i j|i|j]; simpl.
    + split; [intros (k & _ & E); discriminate|intros ([|k] & l & z & _ & _ & Hk & _); discriminate].
    + split; [intros (k & _ & E); discriminate|intros ([|k] & z & _ & Hk & _); discriminate].
    + split.
      * intros (k & Hk & E). inversion E; subst. apply nth_error_ex in Hk as (z & Hz). exists k, z; auto.
      * intros (l & z & -> & Hl & _). exists l. split; auto. apply nth_error_ex; eauto.
  - intros x a Ha _ i1 i2 c. rewrite ABC_nil_r, in_map_seq_A. destruct c as [i j|i|j]; simpl.
    + split; [intros (k & _ & E); discriminate|intros (k & [|l] & z & _ & _ & _ & Hk); discriminate].
    + split.
      * intros (k & Hk & E). inversion E; subst. change (S (length a)) with (length (x :: a)) in Hk.
        apply nth_error_ex in Hk as (z & Hz). exists k, z; auto.
      * intros (l & z & -> & Hl & _). exists l. split; auto. change (S (length a)) with (length (x :: a)). apply nth_error_ex; eauto.
    + split; [intros (k & _ & E); discriminate|intros ([|k] & z & _ & Hk & _); discriminate].
  - intros x a y b H1 H2 H3 Ha Hb i1 i2 c.
    pose proof (proj1 (ssorted_cons _ _) Ha) as [Ha' _]. pose proof (proj1 (ssorted_cons _ _) Hb) as [Hb' _].
    rewrite ABC_cons. destruct (Z.eqb_spec x y) as [->|Hne].
    + rewrite call_ok_step_eq by auto. cbn [In]. rewrite H1 by auto. tauto.
    + destruct (Z.ltb_spec x y) as [Hlt|Hge].
      * rewrite call_ok_step_lt by auto. cbn [In]. rewrite H2 by auto. tauto.
      * rewrite call_ok_step_gt by (auto; lia). cbn [In]. rewrite H3 by auto. tauto.
Qed.

(** the values visited, in order *)
Definition call_val (a b : list Z) (c : abc_call) : Z :=
  match c with INTERSECTION i _ => nth i a 0 | A_NOT_B i => nth i a 0 | B_NOT_A j => nth j b 0 end.

Lemma skipn_cons {A} (l : list A) i x t d : skipn i l = x :: t -> nth i l d = x /\ skipn (S i) l = t.
Proof.
  revert l; induction i as [|i IH]; intros [|y l] H; simpl in *; try discriminate.
  - inversion H; subst. auto.
  - apply IH; auto.
Qed.

Lemma map_nth_seq {A} (d : A) (l : list A) i r : skipn i l = r -> map (fun k => nth k l d) (seq i (length r)) = r.
Proof.
  revert i; induction r as [|x r IH]; intros i H; simpl; auto.
  destruct (skipn_cons l i x r d H) as [E1 E2]. f_equal; auto.
Qed.

Lemma ABC_vals A B : forall a b i1 i2, skipn i1 A = a -> skipn i2 B = b ->
  map (call_val A B) (iterate_ABC_from a i1 b i2) = merge_arrays2 a b.
Proof.
  apply (two_ind (fun a b => forall i1 i2, skipn i1 A = a -> skipn i2 B = b -> map (call_val A B) (iterate_ABC_from a i1 b i2) = merge_arrays2 a b)).
  - intros b i1 i2 HA HB. rewrite ABC_nil_l, merge2_nil_l, map_map. cbn [call_val]. apply map_nth_seq; auto.
  - intros x a i1 i2 HA HB. rewrite ABC_nil_r, merge2_nil_r, map_map. cbn [call_val]. apply map_nth_seq; auto.
  - intros x a y b H1 H2 H3 i1 i2 HA HB. rewrite ABC_cons, merge2_cons.
    destruct (skipn_cons A i1 x a 0 HA) as [EA1 EA2]. destruct (skipn_cons B i2 y b 0 HB) as [EB1 EB2].
    destruct (x =? y); [|destruct (x <? y)]; cbn [map call_val]; rewrite ?EA1, ?EB1; f_equal; auto.
Qed.

Lemma iterate_ABC_spec a b : ssorted a -> ssorted b ->
  (forall i j, In (INTERSECTION i j) (iterate_ABC a b) <-> exists z, nth_error a i = Some z /\ nth_error b j = Some z) /\
  (forall i, In (A_NOT_B i) (iterate_ABC a b) <-> exists z, nth_error a i = Some z /\ ~ In z b) /\
  (forall j, In (B_NOT_A j) (iterate_ABC a b) <-> exists z, nth_error b j = Some z /\ ~ In z a) /\
  ssorted (map (call_val a b) (iterate_ABC a b)).
Proof.
  intros Ha Hb. unfold iterate_ABC. repeat split.
  1,3,5: intros H; apply ABC_from_spec in H; auto; simpl in H.
  1: destruct H as (k & l & z & -> & -> & H); eauto.
  1: destruct H as (k & z & -> & H); eauto.
  1: destruct H as (k & z & -> & H); eauto.
  1: intros (z & H1 & H2); apply ABC_from_spec; auto; simpl; exists i, j, z; auto.
  1: intros (z & H1 & H2); apply ABC_from_spec; auto; simpl; exists i, z; auto.
  1: intros (z & H1 & H2); apply ABC_from_spec; auto; simpl; exists j, z; auto.
  rewrite ABC_vals; auto. apply merge2_sorted; auto.
Qed.

Lemma iterate_ABC_once a b : ssorted a -> ssorted b -> NoDup (iterate_ABC a b).
Proof.
  intros Ha Hb. destruct (iterate_ABC_spec a b Ha Hb) as (_ & _ & _ & Hs).
  apply SSorted_lt_NoDup in Hs. eapply NoDup_map_inv; eauto.
Qed.

(** the other iterations are filters of iterate_ABC *)
Definition int_of (c : abc_call) : list (nat * nat) := match c with INTERSECTION i j => [(i, j)] | _ => [] end.
Definition anb_of (c : abc_call) : list nat := match c with A_NOT_B i => [i] | _ => [] end.
Definition not_B (c : abc_call) : bool := match c with B_NOT_A _ => false | _ => true end.

Lemma flat_map_const_nil {A B C} (f : B -> list C) (g : A -> B) l : (forall x, f (g x) = []) -> flat_map f (map g l) = [].
Proof. intros H. induction l; simpl; auto. rewrite H; auto. Qed.

Lemma intersection_filter : forall a b i1 i2, iterate_intersection_from a i1 b i2 = flat_map int_of (iterate_ABC_from a i1 b i2).
Proof.
  apply (two_ind (fun a b => forall i1 i2, iterate_intersection_from a i1 b i2 = flat_map int_of (iterate_ABC_from a i1 b i2))).
  - intros b i1 i2. rewrite ABC_nil_l, flat_map_const_nil by auto. destruct b; reflexivity.
  - intros x a i1 i2. rewrite ABC_nil_r, flat_map_const_nil by auto. reflexivity.
  - intros x a y b H1 H2 H3 i1 i2. rewrite ABC_cons.
    change (iterate_intersection_from (x :: a) i1 (y :: b) i2) with
      (if x =? y then (i1, i2) :: iterate_intersection_from a (S i1) b (S i2)
        else if x <? y then iterate_intersection_from a (S i1) (y :: b) i2
        else iterate_intersection_from (x :: a) i1 b (S i2)).
    destruct (x =? y); [|destruct (x <? y)]; cbn [flat_map int_of app]; [f_equal|..]; auto.
Qed.

Lemma AC_filter : forall a b i1 i2, iterate_AC_from a i1 b i2 = filter not_B (iterate_ABC_from a i1 b i2).
Proof.
  apply (two_ind (fun a b => forall i1 i2, iterate_AC_from a i1 b i2 = filter not_B (iterate_ABC_from a i1 b i2))).
  - intros b i1 i2. rewrite ABC_nil_l. replace (filter not_B _) with (@nil abc_call); [destruct b; reflexivity|].
    induction (seq i2 (length b)); simpl; auto.
  - intros x a i1 i2. rewrite ABC_nil_r. cbn [iterate_AC_from].
    induction (seq i1 (length (x :: a))); simpl; auto. f_equal; auto.
  - intros x a y b H1 H2 H3 i1 i2. rewrite ABC_cons.
    change (iterate_AC_from (x :: a) i1 (y :: b) i2) with
      (if x =? y then INTERSECTION i1 i2 :: iterate_AC_from a (S i1) b (S i2)
        else if x <? y then A_NOT_B i1 :: iterate_AC_from a (S i1) (y :: b) i2
        else iterate_AC_from (x :: a) i1 b (S i2)).
    destruct (x =? y); [|destruct (x <? y)]; cbn [filter not_B]; [f_equal|f_equal|]; auto.
Qed.

Lemma anotb_filter : forall a b i1 i2, iterate_anotb_from a i1 b = flat_map anb_of (iterate_ABC_from a i1 b i2).
Proof.
  apply (two_ind (fun a b => forall i1 i2, iterate_anotb_from a i1 b = flat_map anb_of (iterate_ABC_from a i1 b i2))).
  - intros b i1 i2. rewrite ABC_nil_l, flat_map_const_nil by auto. destruct b; reflexivity.
  - intros x a i1 i2. rewrite ABC_nil_r. cbn [iterate_anotb_from].
    induction (seq i1 (length (x :: a))); simpl; auto. f_equal; auto.
  - intros x a y b H1 H2 H3 i1 i2. rewrite ABC_cons.
    change (iterate_anotb_from (x :: a) i1 (y :: b)) with
      (if x <? y then i1 :: iterate_anotb_from a (S i1) (y :: b)
        else if x =? y then iterate_anotb_from a (S i1) b else iterate_anotb_from (x :: a) i1 b).
    destruct (Z.eqb_spec x y) as [->|]; [rewrite Z.ltb_irrefl|destruct (x <? y)]; cbn [flat_map anb_of app]; [|f_equal|]; auto.
Qed.

Lemma intersect_filter : forall a b A i1 i2, skipn i1 A = a ->
  intersect_sorted_arrays a b = map (fun p => nth (fst p) A 0) (iterate_intersection_from a i1 b i2).
Proof.
  apply (two_ind (fun a b => forall A i1 i2, skipn i1 A = a -> intersect_sorted_arrays a b = map (fun p => nth (fst p) A 0) (iterate_intersection_from a i1 b i2))).
  - intros b A i1 i2 HA. destruct b; reflexivity.
  - intros x a A i1 i2 HA. reflexivity.
  - intros x a y b H1 H2 H3 A i1 i2 HA. destruct (skipn_cons A i1 x a 0 HA) as [EA1 EA2].
    change (iterate_intersection_from (x :: a) i1 (y :: b) i2) with
      (if x =? y then (i1, i2) :: iterate_intersection_from a (S i1) b (S i2)
        else if x <? y then iterate_intersection_from a (S i1) (y :: b) i2
        else iterate_intersection_from (x :: a) i1 b (S i2)).
    change (intersect_sorted_arrays (x :: a) (y :: b)) with
      (if x =? y then x :: intersect_sorted_arrays a b else if x <? y then intersect_sorted_arrays a (y :: b) else intersect_sorted_arrays (x :: a) b).
    destruct (x =? y); [|destruct (x <? y)]; cbn [map fst]; [rewrite EA1; f_equal|..]; auto.
Qed.

Lemma intersect_sorted : forall a b, ssorted a -> ssorted b -> ssorted (intersect_sorted_arrays a b) /\
  forall z, In z (intersect_sorted_arrays a b) <-> In z a /\ In z b.
Proof.
  apply (two_ind (fun a b => ssorted a -> ssorted b -> ssorted (intersect_sorted_arrays a b) /\ forall z, In z (intersect_sorted_arrays a b) <-> In z a /\ In z b)).
  - intros b _ _. destruct b; simpl; (split; [constructor|tauto]).
  - intros x a _ _. simpl. split; [constructor|tauto].
  - intros x a y b H1 H2 H3 Ha Hb.
    pose proof (proj1 (ssorted_cons _ _) Ha) as [Ha' Hxa]. pose proof (proj1 (ssorted_cons _ _) Hb) as [Hb' Hyb].
    change (intersect_sorted_arrays (x :: a) (y :: b)) with
      (if x =? y then x :: intersect_sorted_arrays a b else if x <? y then intersect_sorted_arrays a (y :: b) else intersect_sorted_arrays (x :: a) b).
    destruct (Z.eqb_spec x y) as [->|Hne]; [|destruct (Z.ltb_spec x y) as [Hlt|Hge]].
    + destruct (H1 Ha' Hb') as [I1 I2]. split.
      * apply ssorted_cons. split; auto. intros z Hz. apply I2 in Hz. apply Hxa; tauto.
      * intros z. simpl. rewrite I2. tauto.
    + destruct (H2 Ha' Hb) as [I1 I2]. split; auto. intros z. rewrite I2. simpl. split; [tauto|].
      intros [[E|Hz] [E'|Hz']]; try lia; auto. specialize (Hyb _ Hz'); lia.
    + destruct (H3 Ha Hb') as [I1 I2]. split; auto. intros z. rewrite I2. simpl. split; [tauto|].
      intros [[E|Hz] [E'|Hz']]; try lia; auto. specialize (Hxa _ Hz); lia.
Qed.

Lemma is_intersect_empty_eq : forall a b, is_intersect_empty a b = match intersect_sorted_arrays a b with [] => true | _ => false end.
Proof.
  apply two_ind.
  - intros b. destruct b; reflexivity.
  - reflexivity.
  - intros x a y b H1 H2 H3.
    change (intersect_sorted_arrays (x :: a) (y :: b)) with
      (if x =? y then x :: intersect_sorted_arrays a b else if x <? y then intersect_sorted_arrays a (y :: b) else intersect_sorted_arrays (x :: a) b).
    change (is_intersect_empty (x :: a) (y :: b)) with
      (if x =? y then false else if x <? y then is_intersect_empty a (y :: b) else is_intersect_empty (x :: a) b).
    destruct (x =? y); [|destruct (x <? y)]; auto.
Qed.

Lemma is_intersect_empty_spec a b : ssorted a -> ssorted b ->
  (is_intersect_empty a b = true <-> forall z, ~ (In z a /\ In z b)).
Proof.
  intros Ha Hb. rewrite is_intersect_empty_eq. destruct (intersect_sorted a b Ha Hb) as [_ H].
  destruct (intersect_sorted_arrays a b) as [|z l]; split; auto; try discriminate.
  - intros _ z Hz. apply H in Hz. auto.
  - intros H'. exfalso. apply (H' z), H. simpl; auto.
Qed.

Lemma iterate_intersection_spec a b : ssorted a -> ssorted b ->
  (forall i j, In (i, j) (iterate_intersection a b) <-> exists z, nth_error a i = Some z /\ nth_error b j = Some z) /\
  ssorted (map (fun p => nth (fst p) a 0) (iterate_intersection a b)).
Proof.
  intros Ha Hb. split.
  - intros i j. unfold iterate_intersection. rewrite intersection_filter, in_flat_map.
    destruct (iterate_ABC_spec a b Ha Hb) as (H & _). rewrite <- H. split.
    + intros (c & Hc & Hi). destruct c; simpl in Hi; try tauto. destruct Hi as [Hi|[]]. inversion Hi; subst; auto.
    + intros Hc. exists (INTERSECTION i j). simpl; auto.
  - unfold iterate_intersection. rewrite <- (intersect_filter a b a 0 0) by reflexivity. apply intersect_sorted; auto.
Qed.

Lemma iterate_anotb_spec a b : ssorted a -> ssorted b ->
  (forall i, In i (iterate_anotb a b) <-> exists z, nth_error a i = Some z /\ ~ In z b) /\
  StronglySorted lt (iterate_anotb a b).
Proof.
  intros Ha Hb. split.
  - intros i. unfold iterate_anotb. rewrite (anotb_filter a b 0 0), in_flat_map.
    destruct (iterate_ABC_spec a b Ha Hb) as (_ & H & _). rewrite <- H. split.
    + intros (c & Hc & Hi). destruct c; simpl in Hi; try tauto. destruct Hi as [Hi|[]]. inversion Hi; subst; auto.
    + intros Hc. exists (A_NOT_B i). simpl; auto.
  - assert (G : forall a b i, StronglySorted lt (iterate_anotb_from a i b) /\ forall k, In k (iterate_anotb_from a i b) -> (i <= k)%nat).
    { clear. apply (two_ind (fun a b => forall i, StronglySorted lt (iterate_anotb_from a i b) /\ forall k, In k (iterate_anotb_from a i b) -> (i <= k)%nat)).
      - intros b i. destruct b; simpl; (split; [constructor|tauto]).
      - intros x a i. cbn [iterate_anotb_from]. split.
        + generalize (length (x :: a)) i. clear. induction n as [|n IH]; intros i; simpl; constructor; auto.
          rewrite Forall_forall. intros k Hk. apply in_seq in Hk; lia.
        + intros k Hk. apply in_seq in Hk; lia.
      - intros x a y b H1 H2 H3 i.
        change (iterate_anotb_from (x :: a) i (y :: b)) with
          (if x <? y then i :: iterate_anotb_from a (S i) (y :: b)
           else if x =? y then iterate_anotb_from a (S i) b else iterate_anotb_from (x :: a) i b).
        destruct (x <? y); [|destruct (x =? y)].
        + destruct (H2 (S i)) as [I1 I2]. split.
          * constructor; auto. rewrite Forall_forall. intros k Hk; specialize (I2 k Hk); lia.
          * intros k [<-|Hk]; auto. specialize (I2 k Hk); lia.
        + destruct (H1 (S i)) as [I1 I2]. split; auto. intros k Hk; specialize (I2 k Hk); lia.
        + apply H3. }
    apply G.
Qed.

Lemma setMinus_spec a b : ssorted a -> ssorted b ->
  ssorted (setMinus a b) /\ forall z, In z (setMinus a b) <-> In z a /\ ~ In z b.
Proof.
  intros Ha Hb. destruct (iterate_anotb_spec a b Ha Hb) as [H1 H2]. unfold setMinus. split.
  - assert (Hr : forall k, In k (iterate_anotb a b) -> (k < length a)%nat).
    { intros k Hk. apply H1 in Hk as (z & Hz & _). apply nth_error_ex; eauto. }
    clear H1. induction H2 as [|k l Hs IH Hf]; simpl; constructor.
    + apply IH. intros; apply Hr; simpl; auto.
    + rewrite Forall_forall in *. intros z Hz. apply in_map_iff in Hz as (k' & <- & Hk').
      apply (SSorted_nth Z.lt); auto. apply Hr; simpl; auto.
  - intros z. rewrite in_map_iff. split.
    + intros (i & <- & Hi). apply H1 in Hi as (z & Hz & Hn).
      rewrite (nth_error_nth _ _ 0 Hz). split; auto. eapply nth_error_In; eauto.
    + intros [Hz Hn]. destruct (In_nth_error _ _ Hz) as (i & Hi). exists i. split; [apply nth_error_nth; auto|].
      apply H1. eauto.
Qed.

(** *** partitionAB *)
Lemma AC_counts : forall a b i1 i2, ssorted a -> ssorted b -> (forall z, In z b -> In z a) ->
  length (flat_map int_of (iterate_ABC_from a i1 b i2)) = length b /\
  (length (flat_map anb_of (iterate_ABC_from a i1 b i2)) + length b = length a)%nat.
Proof.
  apply (two_ind (fun a b => forall i1 i2, ssorted a -> ssorted b -> (forall z, In z b -> In z a) ->
    length (flat_map int_of (iterate_ABC_from a i1 b i2)) = length b /\ (length (flat_map anb_of (iterate_ABC_from a i1 b i2)) + length b = length a)%nat)).
  - intros b i1 i2 _ _ H. destruct b as [|y b]; simpl; auto. exfalso. apply (H y). simpl; auto.
  - intros x a i1 i2 _ _ _. rewrite ABC_nil_r, flat_map_const_nil by auto. simpl. split; auto.
    assert (E : forall l, flat_map anb_of (map A_NOT_B l) = l) by (induction l; simpl; congruence).
    rewrite E, seq_length. lia.
  - intros x a y b H1 H2 H3 i1 i2 Ha Hb Hsub.
    pose proof (proj1 (ssorted_cons _ _) Ha) as [Ha' Hxa]. pose proof (proj1 (ssorted_cons _ _) Hb) as [Hb' Hyb].
    rewrite ABC_cons. destruct (Z.eqb_spec x y) as [->|Hne]; [|destruct (Z.ltb_spec x y) as [Hlt|Hge]].
    + destruct (H1 (S i1) (S i2) Ha' Hb') as [I1 I2].
      { intros z Hz. specialize (Hyb z Hz). destruct (Hsub z (or_intror Hz)) as [->|]; auto; lia. }
      simpl. split; lia.
    + destruct (H2 (S i1) i2 Ha' Hb) as [I1 I2].
      { intros z Hz. destruct (Hsub z Hz) as [->|]; auto. destruct Hz as [->|Hz]; [lia|]. specialize (Hyb _ Hz); lia. }
      simpl in *. split; lia.
    + exfalso. destruct (Hsub y (or_introl eq_refl)) as [->|Hy]; [lia|]. specialize (Hxa _ Hy); lia.
Qed.

(** block-wise positions *)
Definition block_inds (BS : nat) (l : list nat) : list nat := flat_map (fun i => map (fun k => BS * i + k)%nat (seq 0 BS)) l.
Lemma block_inds_length BS l : length (block_inds BS l) = (length l * BS)%nat.
Proof. induction l; simpl; auto. rewrite app_length, map_length, seq_length. lia. Qed.

Lemma partitionAB_spec subA bigSet BS : ssorted subA -> ssorted bigSet -> (forall z, In z subA -> In z bigSet) ->
  exists pA pB, partitionAB subA bigSet BS = Ret (block_inds BS pA, block_inds BS pB) /\
    (forall i, In i pA <-> exists z, nth_error bigSet i = Some z /\ In z subA) /\
    (forall i, In i pB <-> exists z, nth_error bigSet i = Some z /\ ~ In z subA) /\
    NoDup pA /\ NoDup pB.
Proof.
  intros Ha Hb Hsub. unfold partitionAB, iterate_AC. rewrite AC_filter.
  set (calls := iterate_ABC_from bigSet 0 subA 0).
  destruct (AC_counts bigSet subA 0 0 Hb Ha Hsub) as [C1 C2]. fold calls in C1, C2.
  assert (EA : flat_map (fun c => match c with INTERSECTION i _ => map (fun l => BS * i + l)%nat (seq 0 BS) | _ => [] end) (filter not_B calls)
               = block_inds BS (map fst (flat_map int_of calls))).
  { clear. induction calls as [|[i j|i|j] l IH]; cbn [filter not_B flat_map int_of map app fst]; auto.
    unfold block_inds in *. simpl. f_equal. auto. }
  assert (EB : flat_map (fun c => match c with A_NOT_B i => map (fun l => BS * i + l)%nat (seq 0 BS) | _ => [] end) (filter not_B calls)
               = block_inds BS (flat_map anb_of calls)).
  { clear. induction calls as [|[i j|i|j] l IH]; cbn [filter not_B flat_map anb_of map app fst]; auto.
    unfold block_inds in *. simpl. f_equal. auto. }
  rewrite EA, EB, !block_inds_length, map_length, C1.
  replace (length (flat_map anb_of calls)) with (length bigSet - length subA)%nat by lia.
  rewrite !Nat.ltb_irrefl. cbn [orb]. eexists; eexists; split; [reflexivity|].
  destruct (iterate_ABC_spec bigSet subA Hb Ha) as (H1 & H2 & _ & _).
  assert (HA : map fst (flat_map int_of calls) = map fst (iterate_intersection bigSet subA)) by (unfold iterate_intersection; rewrite intersection_filter; reflexivity).
  assert (HB : flat_map anb_of calls = iterate_anotb bigSet subA) by (unfold iterate_anotb; rewrite (anotb_filter _ _ _ 0); reflexivity).
  destruct (iterate_intersection_spec bigSet subA Hb Ha) as [I1 I2].
  destruct (iterate_anotb_spec bigSet subA Hb Ha) as [J1 J2].
  rewrite HA, HB. repeat split.
  - intros Hi. apply in_map_iff in Hi as ((i' & j) & <- & Hi). apply I1 in Hi as (z & Hz1 & Hz2). exists z; split; auto. eapply nth_error_In; eauto.
  - intros (z & Hz & Hs). destruct (In_nth_error _ _ Hs) as (j & Hj). apply in_map_iff. exists (i, j). split; auto. apply I1. eauto.
  - intros Hi. apply J1; auto.
  - intros Hi. apply J1; auto.
  - apply SSorted_lt_NoDup in I2.
    replace (map (fun p : nat * nat => nth (fst p) bigSet 0) (iterate_intersection bigSet subA)) with (map (fun i => nth i bigSet 0) (map fst (iterate_intersection bigSet subA))) in I2 by (rewrite map_map; reflexivity).
    eapply NoDup_map_inv; eauto.
  - clear -J2. induction J2 as [|x l Hs IH Hf]; constructor; auto. intros Hx. rewrite Forall_forall in Hf. specialize (Hf x Hx). lia.
Qed.

(** *** posSortedInSorted *)
Lemma pos_from_spec b : forall a ib, ssorted a -> ssorted b -> (forall z, In z a -> In z b) ->
  posSortedInSorted_from a b ib = map (fun z => Z.of_nat ib + Z.of_nat (length (filter (fun y => y <? z) b))) a.
Proof.
  induction b as [|y b IH]; intros a ib Ha Hb Hsub; simpl.
  - destruct a as [|x a]; auto. exfalso. apply (Hsub x); simpl; auto.
  - destruct a as [|x a]; auto. pose proof (proj1 (ssorted_cons _ _) Ha) as [Ha' Hxa]. pose proof (proj1 (ssorted_cons _ _) Hb) as [Hb' Hyb].
    destruct (Z.eqb_spec x y) as [->|Hne].
    + cbn [map]. f_equal.
      * rewrite Z.ltb_irrefl. replace (filter (fun y0 => y0 <? y) b) with (@nil Z); [simpl; lia|].
        symmetry. clear -Hyb. induction b as [|w b IHb]; simpl; auto. destruct (Z.ltb_spec w y).
        -- specialize (Hyb w (or_introl eq_refl)); lia. -- apply IHb. intros; apply Hyb; simpl; auto.
      * rewrite IH; auto.
        -- apply map_ext_in. intros z Hz. specialize (Hxa z Hz). destruct (Z.ltb_spec y z); [|lia]. cbn [length]. lia.
        -- intros z Hz. specialize (Hxa z Hz). destruct (Hsub z (or_intror Hz)); auto; lia.
    + rewrite IH; auto.
      * assert (Hyx : forall z, In z (x :: a) -> y < z).
        { intros z Hz. destruct (Hsub z Hz) as [Hyz|Hyz]; auto. subst y. destruct Hz as [->|Hz]; [congruence|].
          destruct (Hsub x (or_introl eq_refl)) as [->|Hx]; [congruence|]. specialize (Hxa z Hz). specialize (Hyb x Hx). lia. }
        cbn [map]. f_equal.
        -- pose proof (Hyx x (or_introl eq_refl)). destruct (Z.ltb_spec y x); [|lia]. cbn [length]. lia.
        -- apply map_ext_in. intros z Hz. pose proof (Hyx z (or_intror Hz)). destruct (Z.ltb_spec y z); [|lia]. cbn [length]. lia.
      * intros z Hz. destruct (Hsub z Hz) as [Hyz|Hyz]; auto. subst y. destruct Hz as [->|Hz]; [congruence|].
        destruct (Hsub x (or_introl eq_refl)) as [->|Hx]; [congruence|]. specialize (Hxa z Hz). specialize (Hyb x Hx). lia.
Qed.

Lemma rank_is_pos b z : ssorted b -> In z b -> nth_error b (length (filter (fun y => y <? z) b)) = Some z.
Proof.
  induction b as [|y b IH]; simpl; [tauto|]. intros Hs Hin. apply ssorted_cons in Hs as [Hs Hy].
  destruct Hin as [->|Hin].
  - rewrite Z.ltb_irrefl. replace (filter (fun y => y <? z) b) with (@nil Z); [reflexivity|].
    symmetry. clear -Hy. induction b as [|w b IHb]; simpl; auto. destruct (Z.ltb_spec w z).
    + specialize (Hy w (or_introl eq_refl)); lia. + apply IHb. intros; apply Hy; simpl; auto.
  - pose proof (Hy z Hin). destruct (Z.ltb_spec y z); [|lia]. cbn [length nth_error]. auto.
Qed.

Lemma posSortedInSorted_spec a b : ssorted a -> ssorted b -> (forall z, In z a -> In z b) ->
  length (posSortedInSorted a b) = length a /\
  forall k z, nth_error a k = Some z -> exists p, nth_error (posSortedInSorted a b) k = Some (Z.of_nat p) /\ nth_error b p = Some z.
Proof.
  intros Ha Hb Hsub. unfold posSortedInSorted. rewrite pos_from_spec by auto. split; [apply map_length|].
  intros k z Hk. exists (length (filter (fun y => y <? z) b)). split.
  - rewrite nth_error_map, Hk. simpl. f_equal.
  - apply rank_is_pos; auto. apply Hsub. eapply nth_error_In; eauto.
Qed.

(** *** reduce_table *)
Lemma zip_check_ok f out row : length out = length row ->
  exists o, zip_with_check f out row = Ret o /\ length o = length out /\ forall l, (l < length out)%nat -> nth l o 0 = f (nth l out 0) (nth l row 0).
Proof.
  revert row; induction out as [|x out IH]; intros [|y row] H; simpl in *; try discriminate.
  - exists []. repeat split; auto; lia.
  - destruct (IH row ltac:(lia)) as (o & E & L & Hn). rewrite E. cbn [bind]. eexists; split; [reflexivity|].
    split; simpl; [lia|]. intros [|l] Hl; auto. apply Hn; lia.
Qed.

Lemma reduce_table_spec f r0 rest : (forall r, In r rest -> length r = length r0) ->
  exists out, reduce_table f (r0 :: rest) = Ret out /\ length out = length r0 /\
    forall l, (l < length r0)%nat -> nth l out 0 = fold_left f (map (fun r => nth l r 0) rest) (nth l r0 0).
Proof.
  simpl. revert r0; induction rest as [|r rest IH]; intros r0 H; simpl.
  - exists r0; auto.
  - destruct (zip_check_ok f r0 r) as (o & E & L & Hn); [symmetry; apply H; simpl; auto|]. rewrite E. cbn [bind].
    destruct (IH o) as (out & E2 & L2 & H2). { intros r' Hr'. rewrite L. apply H; simpl; auto. }
    exists out. split; auto. split; [lia|]. intros l Hl. rewrite H2 by lia. rewrite Hn by auto. reflexivity.
Qed.
