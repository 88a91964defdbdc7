(** Proofs about ArraysModel. *)
From Verif Require Import Base ArraysModel.
Local Open Scope Z_scope.

Lemma SSorted_nth (R : Z -> Z -> Prop) (a : list Z) : StronglySorted R a ->
  forall i j, (i < j)%nat -> (j < length a)%nat -> R (nth i a 0) (nth j a 0).
Proof.
  induction 1 as [|x l Hs IH Hf]; intros i j Hij Hj; simpl in *; [lia|].
  destruct j as [|j]; [lia|]. destruct i as [|i].
  - rewrite Forall_forall in Hf. apply Hf. apply nth_In. lia.
  - apply IH; lia.
Qed.

Lemma SSorted_of_nth (R : Z -> Z -> Prop) (a : list Z) :
  (forall i j, (i < j)%nat -> (j < length a)%nat -> R (nth i a 0) (nth j a 0)) -> StronglySorted R a.
Proof.
  induction a as [|x l IH]; intros H; constructor.
  - apply IH. intros i j Hij Hj. apply (H (S i) (S j)); simpl; lia.
  - rewrite Forall_forall. intros y Hy. destruct (In_nth l y 0 Hy) as (k & Hk & E). subst y.
    apply (H 0%nat (S k)); simpl; lia.
Qed.

Lemma sorted_le_nth a : StronglySorted Z.le a -> forall i j, (i <= j)%nat -> (j < length a)%nat -> nth i a 0 <= nth j a 0.
Proof.
  intros H i j Hij Hj. destruct (Nat.eq_dec i j) as [->|Hn]; [lia|].
  apply (SSorted_nth Z.le); auto; lia.
Qed.

Lemma SSorted_lt_le a : StronglySorted Z.lt a -> StronglySorted Z.le a.
Proof.
  induction 1 as [|x l Hs IH Hf]; constructor; auto.
  rewrite Forall_forall in *. intros y Hy. specialize (Hf y Hy). lia.
Qed.

Lemma SSorted_lt_NoDup a : StronglySorted Z.lt a -> NoDup a.
Proof.
  induction 1 as [|x l Hs IH Hf]; constructor; auto.
  rewrite Forall_forall in Hf. intros Hx. specialize (Hf x Hx). lia.
Qed.

(** *** find_in_sorted_array *)
Lemma scan_eq_spec n i elem a : (i + n <= length a)%nat ->
  match scan_eq n i elem a with
  | Ret (Some k) => (i <= k < i + n)%nat /\ nth k a 0 = elem
  | Ret None => forall k, (i <= k < i + n)%nat -> nth k a 0 <> elem
  | Err _ => False
  end.
Proof.
  revert i; induction n as [|n IH]; intros i H; cbn [scan_eq].
  - intros k Hk; lia.
  - rewrite (rd_ok a i 0) by lia. cbn [bind].
    destruct (Z.eqb_spec (nth i a 0) elem) as [E|E].
    + split; [lia|auto].
    + specialize (IH (S i) ltac:(lia)). destruct (scan_eq n (S i) elem a) as [[k|]|]; auto.
      * destruct IH; split; [lia|auto].
      * intros k Hk. destruct (Nat.eq_dec k i) as [->|]; [auto|apply IH; lia].
Qed.

Lemma find_loop_spec fuel first last elem a :
  StronglySorted Z.le a -> (last <= length a)%nat -> (first <= last)%nat -> (last - first < fuel)%nat ->
  match find_loop fuel first last elem a with
  | Ret (Some k) => (first <= k < last)%nat /\ nth k a 0 = elem
  | Ret None => forall k, (first <= k < last)%nat -> nth k a 0 <> elem
  | Err _ => False
  end.
Proof.
  intros Hs. revert first last; induction fuel as [|f IH]; intros first last Hl Hfl Hfuel; [lia|].
  cbn [find_loop]. destruct (Nat.ltb_spec (first + 5) last) as [Hw|Hw].
  - set (mid := ((last + first) / 2)%nat).
    assert (Hmid : (first < mid < last)%nat).
    { unfold mid. split; [apply Nat.div_le_lower_bound; lia | apply Nat.div_lt_upper_bound; lia]. }
    rewrite (rd_ok a mid 0) by lia. cbn [bind].
    destruct (Z.gtb_spec (nth mid a 0) elem) as [Hg|Hg].
    + specialize (IH first mid ltac:(lia) ltac:(lia) ltac:(lia)).
      destruct (find_loop f first mid elem a) as [[k|]|]; auto.
      * destruct IH; split; [lia|auto].
      * intros k Hk. destruct (le_lt_dec mid k) as [Hm|Hm]; [|apply IH; lia].
        pose proof (sorted_le_nth a Hs mid k Hm ltac:(lia)). lia.
    + destruct (Z.eqb_spec (nth mid a 0) elem) as [E|E].
      * split; [lia|auto].
      * specialize (IH (S mid) last ltac:(lia) ltac:(lia) ltac:(lia)).
        destruct (find_loop f (S mid) last elem a) as [[k|]|]; auto.
        -- destruct IH; split; [lia|auto].
        -- intros k Hk. destruct (le_lt_dec k mid) as [Hm|Hm]; [|apply IH; lia].
           pose proof (sorted_le_nth a Hs k mid Hm ltac:(lia)). lia.
  - pose proof (scan_eq_spec (last - first) first elem a ltac:(lia)) as H.
    replace (first + (last - first))%nat with last in H by lia. exact H.
Qed.

Lemma find_in_sorted_array_spec elem a : StronglySorted Z.le a ->
  (In elem a -> exists i, find_in_sorted_array elem a = Ret (Some i) /\ nth_error a i = Some elem) /\
  (~ In elem a -> find_in_sorted_array elem a = Ret None).
Proof.
  intros Hs. pose proof (find_loop_spec (S (length a)) 0 (length a) elem a Hs ltac:(lia) ltac:(lia) ltac:(lia)) as H.
  unfold find_in_sorted_array. destruct (find_loop _ _ _ _ _) as [[k|]|]; [| |contradiction].
  - destruct H as [Hk E]. split.
    + intros _. exists k; split; auto. rewrite (nth_error_nth' a 0) by lia. congruence.
    + intros Hn. exfalso; apply Hn. rewrite <- E. apply nth_In; lia.
  - split; auto. intros Hin. destruct (In_nth a elem 0 Hin) as (k & Hk & E). exfalso. apply (H k); auto; lia.
Qed.

(** *** merge_pos_in_sorted_array *)
Lemma scan_gt_spec n i elem a : (i + n <= length a)%nat ->
  match scan_gt n i elem a with
  | Ret (Some k) => (i <= k < i + n)%nat /\ elem < nth k a 0 /\ forall m, (i <= m < k)%nat -> nth m a 0 <= elem
  | Ret None => forall k, (i <= k < i + n)%nat -> nth k a 0 <= elem
  | Err _ => False
  end.
Proof.
  revert i; induction n as [|n IH]; intros i H; cbn [scan_gt].
  - intros k Hk; lia.
  - rewrite (rd_ok a i 0) by lia. cbn [bind].
    destruct (Z.gtb_spec (nth i a 0) elem) as [E|E].
    + split; [lia|]; split; [lia|]. intros m Hm; lia.
    + specialize (IH (S i) ltac:(lia)). destruct (scan_gt n (S i) elem a) as [[k|]|]; auto.
      * destruct IH as (Hk & Hg & Hm); split; [lia|]; split; auto.
        intros m Hm'. destruct (Nat.eq_dec m i) as [->|]; [lia|apply Hm; lia].
      * intros k Hk. destruct (Nat.eq_dec k i) as [->|]; [lia|apply IH; lia].
Qed.

Definition is_merge_pos (elem : Z) (a : list Z) (p : nat) : Prop :=
  (p <= length a)%nat /\ (forall x, In x (firstn p a) -> x <= elem) /\ (forall x, In x (skipn p a) -> elem < x).

Lemma merge_pos_of_nth elem a p : StronglySorted Z.le a -> (0 < p < length a)%nat ->
  nth (p-1) a 0 <= elem -> elem < nth p a 0 -> is_merge_pos elem a p.
Proof.
  intros Hs Hp H1 H2. split; [lia|]. split; intros x Hx.
  - destruct (In_nth _ _ 0 Hx) as (k & Hk & E). rewrite firstn_length in Hk.
    assert (Hnk : nth k (firstn p a) 0 = nth k a 0).
    { rewrite <- (firstn_skipn p a) at 2. rewrite app_nth1; auto. rewrite firstn_length; lia. }
    pose proof (sorted_le_nth a Hs k (p-1) ltac:(lia) ltac:(lia)). lia.
  - destruct (In_nth _ _ 0 Hx) as (k & Hk & E). rewrite skipn_length in Hk.
    assert (Hnk : nth k (skipn p a) 0 = nth (p+k) a 0).
    { rewrite <- (firstn_skipn p a) at 2. rewrite app_nth2; rewrite firstn_length; [f_equal; lia|lia]. }
    pose proof (sorted_le_nth a Hs p (p+k) ltac:(lia) ltac:(lia)). lia.
Qed.


(** The loop invariant is: a[first] <= elem, and last is either the end of the array (whose last element
    is > elem) or a[last-1] > elem. *)
Lemma merge_pos_loop_spec fuel first last elem a :
  StronglySorted Z.le a -> (last <= length a)%nat -> (first < last)%nat -> (last - first < fuel)%nat ->
  nth first a 0 <= elem -> elem < nth (last-1) a 0 ->
  exists p, merge_pos_loop fuel first last elem a = Ret (Some p) /\ is_merge_pos elem a p.
Proof.
  intros Hs. revert first last; induction fuel as [|f IH]; intros first last Hl Hfl Hfuel Hlo Hhi; [lia|].
  cbn [merge_pos_loop]. destruct (Nat.ltb_spec (first + 5) last) as [Hw|Hw].
  - set (mid := ((last + first) / 2)%nat).
    assert (Hmid : (first + 1 < mid < last)%nat).
    { unfold mid. split; [apply (Nat.div_le_lower_bound (last+first) 2 (S (first+1))); lia | apply Nat.div_lt_upper_bound; lia]. }
    rewrite (rd_ok a mid 0) by lia. cbn [bind].
    destruct (Z.leb_spec (nth mid a 0) elem) as [Hg|Hg].
    + apply IH; auto; lia.
    + rewrite (rd_ok a (mid-1) 0) by lia. cbn [bind].
      destruct (Z.gtb_spec (nth (mid-1) a 0) elem) as [Hg2|Hg2].
      * apply IH; auto; lia.
      * exists mid. split; auto. apply merge_pos_of_nth; auto; lia.
  - pose proof (scan_gt_spec (last - first) first elem a ltac:(lia)) as H.
    replace (first + (last - first))%nat with last in H by lia.
    destruct (scan_gt (last - first) first elem a) as [[k|]|]; [| |contradiction].
    + destruct H as (Hk & Hg & Hm). exists k; split; auto.
      assert (k <> first) by (intros ->; lia).
      apply merge_pos_of_nth; auto; try lia. apply Hm; lia.
    + specialize (H (last-1)%nat ltac:(lia)). lia.
Qed.

Lemma merge_pos_spec elem a : StronglySorted Z.le a ->
  exists p, merge_pos_in_sorted_array elem a = Ret (Some p) /\ is_merge_pos elem a p.
Proof.
  intros Hs. unfold merge_pos_in_sorted_array.
  destruct (Nat.eqb_spec (length a) 0) as [E|E].
  - exists 0%nat. split; auto. destruct a; [|discriminate]. split; [simpl; lia|]. split; simpl; tauto.
  - rewrite (rd_ok a 0 0) by lia. cbn [bind]. destruct (Z.ltb_spec elem (nth 0 a 0)) as [H0|H0].
    + exists 0%nat; split; auto. split; [lia|]. split; [simpl; tauto|].
      cbn [skipn]. intros x Hx. destruct (In_nth _ _ 0 Hx) as (k & Hk & Ek).
      pose proof (sorted_le_nth a Hs 0 k ltac:(lia) Hk). lia.
    + rewrite (rd_ok a (length a - 1) 0) by lia. cbn [bind].
      destruct (Z.geb_spec elem (nth (length a - 1) a 0)) as [H1|H1].
      * exists (length a); split; auto. split; [lia|]. rewrite firstn_all, skipn_all. split; [|simpl; tauto].
        intros x Hx. destruct (In_nth _ _ 0 Hx) as (k & Hk & Ek).
        pose proof (sorted_le_nth a Hs k (length a - 1) ltac:(lia) ltac:(lia)). lia.
      * apply merge_pos_loop_spec; auto; lia.
Qed.

Lemma SSorted_app (R : Z -> Z -> Prop) (a b : list Z) : StronglySorted R a -> StronglySorted R b ->
  (forall x y, In x a -> In y b -> R x y) -> StronglySorted R (a ++ b).
Proof.
  induction 1 as [|x l Hs IH Hf]; intros Hb Hab; simpl; auto. constructor.
  - apply IH; auto. intros; apply Hab; simpl; auto.
  - rewrite Forall_forall in *. intros y Hy. apply in_app_or in Hy as [Hy|Hy]; auto. apply Hab; simpl; auto.
Qed.

Lemma SSorted_app_inv (R : Z -> Z -> Prop) (a b : list Z) : StronglySorted R (a ++ b) ->
  StronglySorted R a /\ StronglySorted R b /\ (forall x y, In x a -> In y b -> R x y).
Proof.
  induction a as [|h t IH]; simpl; intros H.
  - repeat split; auto; [constructor|tauto].
  - inversion H as [|? ? Hs Hf]; subst. destruct (IH Hs) as (Ha & Hb & Hab). rewrite Forall_forall in Hf.
    repeat split; auto.
    + constructor; auto. rewrite Forall_forall. intros; apply Hf, in_or_app; auto.
    + intros x y [->|Hx] Hy; [apply Hf, in_or_app; auto|apply Hab; auto].
Qed.

Lemma insert_sorted elem a p : StronglySorted Z.le a -> is_merge_pos elem a p ->
  StronglySorted Z.le (array_insert p elem a) /\ Permutation (array_insert p elem a) (elem :: a).
Proof.
  intros Hs (Hp & Hlo & Hhi). unfold array_insert.
  rewrite <- (firstn_skipn p a) in Hs. apply SSorted_app_inv in Hs as (Ha & Hb & Hab). split.
  - apply SSorted_app; auto.
    + constructor; auto. rewrite Forall_forall. intros x Hx; specialize (Hhi x Hx); lia.
    + intros x y Hx [<-|Hy]; auto.
  - rewrite <- (firstn_skipn p a) at 3. symmetry. apply Permutation_cons_app. reflexivity.
Qed.

Lemma insert_into_sorted_array_spec elem a : StronglySorted Z.le a ->
  exists a', insert_into_sorted_array elem a = Ret a' /\ StronglySorted Z.le a' /\ Permutation a' (elem :: a).
Proof.
  intros Hs. destruct (merge_pos_spec elem a Hs) as (p & E & Hp). unfold insert_into_sorted_array.
  rewrite E. cbn [bind]. eexists; split; [reflexivity|]. apply insert_sorted; auto.
Qed.

Lemma merge_pos_in elem a p : StronglySorted Z.le a -> is_merge_pos elem a p ->
  (In elem a <-> (0 < p)%nat /\ nth (p-1) a 0 = elem).
Proof.
  intros Hs (Hp & Hlo & Hhi). split.
  - intros Hin. rewrite <- (firstn_skipn p a) in Hin. apply in_app_or in Hin as [Hin|Hin]; [|specialize (Hhi _ Hin); lia].
    destruct (In_nth _ _ 0 Hin) as (k & Hk & E). rewrite firstn_length in Hk.
    assert (Hnk : nth k (firstn p a) 0 = nth k a 0).
    { rewrite <- (firstn_skipn p a) at 2. rewrite app_nth1; auto. rewrite firstn_length; lia. }
    split; [lia|]. pose proof (sorted_le_nth a Hs k (p-1) ltac:(lia) ltac:(lia)).
    assert (Hin1 : In (nth (p-1) a 0) (firstn p a)).
    { assert (Hq : nth (p-1) (firstn p a) 0 = nth (p-1) a 0).
      { rewrite <- (firstn_skipn p a) at 2. rewrite app_nth1; auto. rewrite firstn_length; lia. }
      rewrite <- Hq. apply nth_In. rewrite firstn_length; lia. }
    specialize (Hlo _ Hin1). lia.
  - intros [H0 E]. rewrite <- E. apply nth_In. lia.
Qed.

Lemma insert_nodups_ok elem a p : StronglySorted Z.lt a -> is_merge_pos elem a p -> ~ In elem a ->
  StronglySorted Z.lt (array_insert p elem a) /\ Permutation (array_insert p elem a) (elem :: a).
Proof.
  intros Hlt Hp Hn. split; [|apply insert_sorted; auto using SSorted_lt_le]. destruct Hp as (Hpl & Hlo & Hhi). unfold array_insert.
  rewrite <- (firstn_skipn p a) in Hlt. apply SSorted_app_inv in Hlt as (Ha & Hb & Hab).
  apply SSorted_app; auto.
  - constructor; auto. rewrite Forall_forall. auto.
  - intros x y Hx [<-|Hy]; auto. specialize (Hlo x Hx).
    assert (x <> elem). { intros ->. apply Hn. rewrite <- (firstn_skipn p a). apply in_or_app; auto. } lia.
Qed.

Lemma insert_nodups_spec elem a : StronglySorted Z.lt a ->
  (In elem a -> insert_into_sorted_array_nodups elem a = Ret (false, a)) /\
  (~ In elem a -> exists a', insert_into_sorted_array_nodups elem a = Ret (true, a') /\ StronglySorted Z.lt a' /\ Permutation a' (elem :: a)).
Proof.
  intros Hlt. pose proof (SSorted_lt_le a Hlt) as Hs.
  destruct (merge_pos_spec elem a Hs) as (p & E & Hp). unfold insert_into_sorted_array_nodups. rewrite E. cbn [bind].
  pose proof (merge_pos_in elem a p Hs Hp) as Hin. pose proof Hp as (Hpl & Hlo & Hhi).
  destruct (Nat.ltb_spec 0 p) as [H0|H0].
  - rewrite (rd_ok a (p-1) 0) by lia. cbn [bind]. destruct (Z.eqb_spec (nth (p-1) a 0) elem) as [E1|E1].
    + split; auto. intros Hn. exfalso; apply Hn, Hin; auto.
    + split; [intros Hi; apply Hin in Hi; tauto|]. intros Hn. eexists; split; [reflexivity|]. apply insert_nodups_ok; auto.
  - split; [intros Hi; apply Hin in Hi; lia|]. intros Hn. eexists; split; [reflexivity|]. apply insert_nodups_ok; auto.
Qed.

Lemma sorted_insert_unique_spec elem a : StronglySorted Z.lt a ->
  (In elem a -> exists p, sorted_insert_unique elem a = Ret (false, Some p, a) /\ nth_error a (p-1) = Some elem) /\
  (~ In elem a -> exists p a', sorted_insert_unique elem a = Ret (true, Some p, a') /\ nth_error a' p = Some elem /\
       StronglySorted Z.lt a' /\ Permutation a' (elem :: a)).
Proof.
  intros Hlt. pose proof (SSorted_lt_le a Hlt) as Hs.
  destruct (merge_pos_spec elem a Hs) as (p & E & Hp). unfold sorted_insert_unique. rewrite E. cbn [bind].
  pose proof (merge_pos_in elem a p Hs Hp) as Hin. pose proof Hp as (Hpl & Hlo & Hhi).
  assert (Hnth : nth_error (array_insert p elem a) p = Some elem).
  { unfold array_insert. rewrite nth_error_app2 by (rewrite firstn_length; lia).
    rewrite firstn_length, Nat.min_l, Nat.sub_diag by lia. reflexivity. }
  destruct (Nat.ltb_spec 0 p) as [H0|H0].
  - rewrite (rd_ok a (p-1) 0) by lia. cbn [bind]. destruct (Z.eqb_spec (nth (p-1) a 0) elem) as [E1|E1].
    + split; [|intros Hn; exfalso; apply Hn, Hin; auto]. intros _. exists p; split; auto.
      rewrite (nth_error_nth' a 0) by lia. congruence.
    + split; [intros Hi; apply Hin in Hi; tauto|]. intros Hn. exists p; eexists; split; [reflexivity|].
      split; auto. apply insert_nodups_ok; auto.
  - split; [intros Hi; apply Hin in Hi; lia|]. intros Hn. exists p; eexists; split; [reflexivity|].
    split; auto. apply insert_nodups_ok; auto.
Qed.

(** *** removeEntry / ind_of_max *)
Lemma removeEntry_spec {A} pos (a : list A) : (pos < length a)%nat ->
  exists l x r, a = l ++ x :: r /\ length l = pos /\ removeEntry pos a = Ret (l ++ r).
Proof.
  intros H. unfold removeEntry. destruct (Nat.ltb_spec pos (length a)); [|lia].
  destruct (skipn pos a) as [|x r] eqn:E.
  { apply (f_equal (@length A)) in E. rewrite skipn_length in E. simpl in E. lia. }
  exists (firstn pos a), x, r. repeat split.
  - rewrite <- E. symmetry. apply firstn_skipn.
  - rewrite firstn_length. lia.
  - f_equal. f_equal. replace (S pos) with (1 + pos)%nat by lia. clear H H0. revert a E.
    induction pos as [|pos IH]; intros a E; destruct a; simpl in *; try discriminate; [congruence|auto].
Qed.

Lemma ind_of_max_spec a : match ind_of_max a with
  | None => a = []
  | Some i => (i < length a)%nat /\ (forall j, (j < length a)%nat -> nth j a 0 <= nth i a 0) /\
              (forall j, (j < i)%nat -> nth j a 0 < nth i a 0)
  end.
Proof.
  destruct a as [|a0 t]; simpl; auto.
  set (step := fun '(mx, k, ind) v => if v >? mx then (v, S k, k) else (mx, S k, ind)).
  assert (H : forall t pre mx ind, (ind < length pre)%nat -> nth ind pre 0 = mx ->
     (forall j, (j < length pre)%nat -> nth j pre 0 <= mx) -> (forall j, (j < ind)%nat -> nth j pre 0 < mx) ->
     let i := snd (fold_left step t (mx, length pre, ind)) in
     (i < length (pre ++ t))%nat /\ (forall j, (j < length (pre ++ t))%nat -> nth j (pre++t) 0 <= nth i (pre++t) 0) /\
     (forall j, (j < i)%nat -> nth j (pre++t) 0 < nth i (pre++t) 0)).
  { clear. induction t as [|v t IH]; intros pre mx ind Hi Hm Ha Hb; cbn [fold_left].
    - rewrite app_nil_r. cbn. subst mx. auto.
    - replace (pre ++ v :: t) with ((pre ++ [v]) ++ t) by (rewrite <- app_assoc; reflexivity).
      replace (step (mx, length pre, ind) v) with (if v >? mx then (v, S (length pre), length pre) else (mx, S (length pre), ind)) by reflexivity.
      destruct (Z.gtb_spec v mx) as [Hg|Hg].
      + replace (S (length pre)) with (length (pre ++ [v])) by (rewrite app_length; simpl; lia).
        apply IH; rewrite ?app_length; simpl; try lia.
        * rewrite app_nth2 by lia. rewrite Nat.sub_diag. reflexivity.
        * intros j Hj. destruct (Nat.eq_dec j (length pre)) as [->|].
          -- rewrite app_nth2 by lia. rewrite Nat.sub_diag. simpl; lia.
          -- rewrite app_nth1 by lia. specialize (Ha j ltac:(lia)). lia.
        * intros j Hj. rewrite app_nth1 by lia. specialize (Ha j ltac:(lia)). lia.
      + replace (S (length pre)) with (length (pre ++ [v])) by (rewrite app_length; simpl; lia).
        apply IH; rewrite ?app_length; simpl; try lia.
        * rewrite app_nth1 by lia. auto.
        * intros j Hj. destruct (Nat.eq_dec j (length pre)) as [->|].
          -- rewrite app_nth2 by lia. rewrite Nat.sub_diag. simpl; lia.
          -- rewrite app_nth1 by lia. apply Ha; lia.
        * intros j Hj. rewrite app_nth1 by lia. apply Hb; lia. }
  apply (H t [a0] a0 0%nat); simpl; auto; intros; try lia.
  destruct j; simpl; lia.
Qed.

(** *** permutations *)
Definition is_perm (n : nat) (p : list Z) : Prop := Permutation p (map Z.of_nat (seq 0 n)).

Lemma is_perm_length n p : is_perm n p -> length p = n.
Proof. intros H. apply Permutation_length in H. rewrite map_length, seq_length in H. auto. Qed.

Lemma is_perm_range n p k : is_perm n p -> (k < n)%nat -> 0 <= nth k p 0 < Z.of_nat n.
Proof.
  intros H Hk. assert (Hin : In (nth k p 0) p) by (apply nth_In; rewrite (is_perm_length n p); auto).
  apply (Permutation_in _ H) in Hin. apply in_map_iff in Hin as (m & <- & Hm). apply in_seq in Hm. lia.
Qed.

Lemma is_perm_NoDup n p : is_perm n p -> NoDup p.
Proof.
  intros H. eapply Permutation_NoDup; [symmetry; exact H|]. apply FinFun.Injective_map_NoDup; [|apply seq_NoDup].
  intros a b; lia.
Qed.

Lemma is_perm_inj n p i j : is_perm n p -> (i < n)%nat -> (j < n)%nat -> nth i p 0 = nth j p 0 -> i = j.
Proof.
  intros H Hi Hj E. pose proof (is_perm_NoDup n p H) as Hn. rewrite (NoDup_nth _ 0) in Hn.
  apply Hn in E; auto; rewrite (is_perm_length n p); auto.
Qed.

Lemma is_perm_surj n p k : is_perm n p -> (k < n)%nat -> exists i, (i < n)%nat /\ nth i p 0 = Z.of_nat k.
Proof.
  intros H Hk. assert (Hin : In (Z.of_nat k) p).
  { eapply Permutation_in; [symmetry; exact H|]. apply in_map. apply in_seq; lia. }
  destruct (In_nth p _ 0 Hin) as (i & Hi & E). rewrite (is_perm_length n p H) in Hi. eauto.
Qed.

Section ApplyPerm.
  Context {A : Type} (d : A) (orig : list A) (sig : list Z) (mark : Z -> Z).
  Let n := length orig.
  Hypothesis Hperm : is_perm n sig.
  Let s (k : nat) : nat := Z.to_nat (nth k sig 0).

  (* state after the positions in [D] have been resolved *)
  Definition inv (D : nat -> Prop) (arr : list A) (perm : list Z) : Prop :=
    length arr = n /\ length perm = n /\
    (forall k, (k < n)%nat -> D k \/ ~ D k) /\
    (forall k, (k < n)%nat -> D k -> nth k arr d = nth (s k) orig d /\ nth k perm 0 = mark (nth k sig 0)) /\
    (forall k, (k < n)%nat -> ~ D k -> nth k arr d = nth k orig d /\ nth k perm 0 = nth k sig 0).

  Definition closed (D : nat -> Prop) : Prop :=
    forall k, (k < n)%nat -> D k -> exists k', (k' < n)%nat /\ D k' /\ s k' = k.

  Lemma s_range k : (k < n)%nat -> (s k < n)%nat /\ Z.of_nat (s k) = nth k sig 0.
  Proof. intros H. pose proof (is_perm_range n sig k Hperm H). unfold s. split; lia. Qed.

  Lemma s_inj i j : (i < n)%nat -> (j < n)%nat -> s i = s j -> i = j.
  Proof.
    intros Hi Hj E. apply (is_perm_inj n sig); auto.
    pose proof (s_range i Hi). pose proof (s_range j Hj). lia.
  Qed.

  (* state in the middle of a cycle *)
  Definition minv (D : nat -> Prop) (path : list nat) (i check : nat) (arr : list A) (perm : list Z) : Prop :=
    length arr = n /\ length perm = n /\
    (forall k, (k < n)%nat -> D k \/ In k path -> nth k arr d = nth (s k) orig d /\ nth k perm 0 = mark (nth k sig 0)) /\
    nth check arr d = nth i orig d /\ nth check perm 0 = nth check sig 0 /\
    (forall k, (k < n)%nat -> ~ D k -> ~ In k path -> k <> check -> nth k arr d = nth k orig d /\ nth k perm 0 = nth k sig 0).

  Lemma cycle_loop_spec D : closed D -> (forall k, (k < n)%nat -> D k \/ ~ D k) ->
    forall fuel path i check arr perm,
    (i < n)%nat -> ~ D i -> In i (check :: path) ->
    NoDup (check :: path) -> (forall m, In m (check :: path) -> (m < n)%nat /\ ~ D m) ->
    (forall m, In m (check :: path) -> m <> i -> exists m', In m' path /\ s m' = m) ->
    minv D path i check arr perm -> (n < fuel + length path)%nat ->
    exists arr' perm' D', cycle_loop mark fuel i check arr perm = Ret (arr', perm') /\
      inv D' arr' perm' /\ closed D' /\ (forall k, D k -> D' k) /\ D' i.
  Proof.
    intros Hcl Hdec. induction fuel as [|f IH]; intros path i check arr perm Hi HDi Hin Hnd Hpath Hpre Hinv Hfuel.
    - exfalso. assert (H : (length (check :: path) <= length (seq 0 n))%nat).
      { apply NoDup_incl_length; auto. intros m Hm. apply in_seq. destruct (Hpath m Hm); lia. }
      rewrite seq_length in H. simpl in H. lia.
    - destruct Hinv as (La & Lp & Hdone & Hca & Hcp & Hrest).
      assert (Hc : (check < n)%nat) by (apply Hpath; simpl; auto).
      assert (HDc : ~ D check) by (apply Hpath; simpl; auto).
      pose proof (s_range check Hc) as [Hs1 Hs2].
      cbn [cycle_loop]. rewrite (rd_ok perm check 0) by lia. cbn [bind]. rewrite Hcp, <- Hs2.
      assert (Hd2 : forall k, (k < n)%nat -> (D k \/ In k (check :: path)) \/ ~ (D k \/ In k (check :: path))).
      { intros k Hk. destruct (Hdec k Hk); [auto|]. destruct (in_dec Nat.eq_dec k (check :: path)); tauto. }
      destruct (Z.eqb_spec (Z.of_nat (s check)) (Z.of_nat i)) as [E|E].
      + rewrite wr_ok by lia. cbn [bind]. exists arr, (upd perm check (mark (Z.of_nat (s check)))), (fun k => D k \/ In k (check :: path)).
        split; auto. split; [|split; [|split]]; auto.
        * split; [auto|]. split; [rewrite upd_length; auto|]. split; [exact Hd2|]. split.
          -- intros k Hk Hk'. destruct (Nat.eq_dec k check) as [->|Hne].
             ++ rewrite nth_upd_eq by lia. rewrite <- Hs2. split; auto.
                replace (s check) with i by lia. auto.
             ++ rewrite nth_upd_neq by auto. apply Hdone; auto. simpl in Hk'. intuition congruence.
          -- intros k Hk Hk'. rewrite nth_upd_neq by (intros ->; apply Hk'; simpl; auto).
             apply Hrest; auto; [intros Hx; apply Hk'; simpl; auto|intros ->; apply Hk'; simpl; auto].
        * intros k Hk [Hk'|Hk'].
          -- destruct (Hcl k Hk Hk') as (k' & ? & ? & ?). exists k'; auto.
          -- destruct (Nat.eq_dec k i) as [->|Hne].
             ++ exists check. repeat split; auto; [simpl; auto|lia].
             ++ destruct (Hpre k Hk' Hne) as (m' & Hm' & E'). exists m'. repeat split; auto; [|simpl; auto].
                apply Hpath; simpl; auto.
      + destruct (Z.ltb_spec (Z.of_nat (s check)) 0); [lia|]. rewrite Nat2Z.id.
        set (fr := s check) in *.
        assert (Hfr_path : ~ In fr (check :: path)).
        { intros Hx. destruct (Hpre fr Hx ltac:(lia)) as (m' & Hm' & E').
          assert (m' = check). { apply s_inj; auto. apply Hpath; simpl; auto. }
          subst m'. inversion Hnd; auto. }
        assert (HDfr : ~ D fr).
        { intros Hx. destruct (Hcl fr Hs1 Hx) as (k' & Hk' & HDk' & E'). apply s_inj in E'; auto. subst; auto. }
        assert (Hne : fr <> check) by (intros Hx; apply Hfr_path; rewrite Hx; simpl; auto).
        unfold swap. rewrite (rd_ok arr check d), (rd_ok arr fr d) by lia. cbn [bind].
        rewrite wr_ok by lia. cbn [bind]. rewrite wr_ok by (rewrite upd_length; lia). cbn [bind].
        rewrite wr_ok by lia. cbn [bind].
        apply (IH (check :: path)); auto.
        * simpl; auto.
        * constructor; auto.
        * intros m [<-|Hm]; auto.
        * intros m [<-|Hm] Hmi; [exists check; simpl; auto|].
          destruct (Hpre m Hm Hmi) as (m' & Hm' & E'). exists m'; simpl; auto.
        * split; [rewrite !upd_length; auto|]. split; [rewrite upd_length; auto|]. split; [|split; [|split]].
          -- intros k Hk Hk'. destruct (Nat.eq_dec k check) as [->|Hkc].
             ++ rewrite nth_upd_neq by auto. rewrite !nth_upd_eq by lia. rewrite Hs2. split; auto.
                apply Hrest; auto; intros Hx; apply Hfr_path; simpl; auto.
             ++ assert (Hkf : fr <> k). { intros Hx; subst k. destruct Hk' as [Hk'|[Hk'|Hk']]; auto; try congruence; apply Hfr_path; simpl; auto. }
                rewrite !nth_upd_neq by auto. apply Hdone; auto. simpl in Hk'; intuition congruence.
          -- rewrite nth_upd_eq by (rewrite upd_length; lia). auto.
          -- rewrite nth_upd_neq by auto. apply Hrest; auto; intros Hx; apply Hfr_path; simpl; auto.
          -- intros k Hk Hk1 Hk2 Hk3. assert (k <> check) by (intros ->; apply Hk2; simpl; auto).
             rewrite !nth_upd_neq by auto. apply Hrest; auto. intros Hx; apply Hk2; simpl; auto.
        * simpl; lia.
  Qed.

  Lemma apply_fold_spec (skip : Z -> bool) : (forall p, 0 <= p -> skip p = false /\ skip (mark p) = true) ->
    forall ks D arr perm, (forall k, In k ks -> (k < n)%nat) -> inv D arr perm -> closed D ->
    exists arr' perm' D',
      foldM (fun '(arr, perm) i => p <- rd perm i ;;
           if skip p then Ret (arr, perm) else cycle_loop mark (S (length arr)) i i arr perm) ks (arr, perm) = Ret (arr', perm')
      /\ inv D' arr' perm' /\ closed D' /\ (forall k, D k -> D' k) /\ (forall k, In k ks -> D' k).
  Proof.
    intros Hskip. induction ks as [|i ks IH]; intros D arr perm Hks Hinv Hcl; cbn [foldM].
    - exists arr, perm, D. repeat split; auto; try apply Hinv; simpl; tauto.
    - assert (Hi : (i < n)%nat) by (apply Hks; simpl; auto).
      pose proof Hinv as (La & Lp & Hdec & Hd & Hnd).
      rewrite (rd_ok perm i 0) by lia. cbn [bind]. pose proof (is_perm_range n sig i Hperm Hi) as Hr.
      destruct (Hskip (nth i sig 0) ltac:(lia)) as [Hs1 Hs2].
      destruct (Hdec i Hi) as [HDi|HDi].
      + destruct (Hd i Hi HDi) as [_ E]. rewrite E, Hs2. cbn [bind].
        destruct (IH D arr perm) as (arr' & perm' & D' & E1 & E2 & E3 & E4 & E5); auto.
        { intros; apply Hks; simpl; auto. }
        exists arr', perm', D'. split; [auto|]. split; [auto|]. split; [auto|]. split; [auto|]. intros k [<-|Hk]; auto.
      + destruct (Hnd i Hi HDi) as [E0 E]. rewrite E, Hs1.
        destruct (cycle_loop_spec D Hcl Hdec (S (length arr)) [] i i arr perm) as (arr1 & perm1 & D1 & F1 & F2 & F3 & F4 & F5); try (solve [simpl; auto]).
        * repeat constructor; auto.
        * intros m [<-|[]]; auto.
        * intros m [<-|[]] Hx; congruence.
        * split; [auto|]. split; [auto|]. split; [|split; [auto|split; [auto|]]].
          -- intros k Hk [Hk'|[]]; auto.
          -- intros k Hk Hk' _ _; auto.
        * lia.
        * rewrite F1. cbn [bind].
          destruct (IH D1 arr1 perm1) as (arr' & perm' & D' & E1 & E2 & E3 & E4 & E5); auto.
          { intros; apply Hks; simpl; auto. }
          exists arr', perm', D'. split; [auto|]. split; [auto|]. split; [auto|]. split; [auto|]. intros k [<-|Hk]; auto.
  Qed.

  Lemma apply_all_spec (skip : Z -> bool) : (forall p, 0 <= p -> skip p = false /\ skip (mark p) = true) ->
    exists arr' perm',
      foldM (fun '(arr, perm) i => p <- rd perm i ;;
           if skip p then Ret (arr, perm) else cycle_loop mark (S (length arr)) i i arr perm) (seq 0 n) (orig, sig) = Ret (arr', perm')
      /\ arr' = map (fun p => nth (Z.to_nat p) orig d) sig /\ perm' = map mark sig.
  Proof.
    intros Hskip.
    destruct (apply_fold_spec skip Hskip (seq 0 n) (fun _ => False) orig sig) as (arr' & perm' & D' & E1 & E2 & E3 & E4 & E5).
    - intros k Hk. apply in_seq in Hk; lia.
    - split; [auto|]. split; [apply is_perm_length; auto|]. repeat split; auto; try tauto.
    - intros k Hk [].
    - exists arr', perm'. split; auto. destruct E2 as (La & Lp & _ & Hd & _).
      assert (Ls : length sig = n) by (apply is_perm_length; auto).
      assert (HD : forall k, (k < n)%nat -> D' k) by (intros; apply E5, in_seq; lia).
      split.
      + apply (nth_ext_len _ _ d); [rewrite map_length; lia|]. intros k Hk.
        rewrite (nth_indep (map _ _) d ((fun p => nth (Z.to_nat p) orig d) 0)) by (rewrite map_length; lia).
        rewrite (map_nth (fun p => nth (Z.to_nat p) orig d)). apply Hd; auto; try lia. apply HD; lia.
      + apply (nth_ext_len _ _ 0); [rewrite map_length; lia|]. intros k Hk.
        rewrite (nth_indep (map mark _) 0 (mark 0)) by (rewrite map_length; lia).
        rewrite map_nth. apply Hd; auto; try lia. apply HD; lia.
  Qed.
End ApplyPerm.

Lemma ApplyPermutation_spec {A} (d : A) (arr : list A) (perm : list Z) : is_perm (length arr) perm ->
  ApplyPermutation arr perm = Ret (map (fun p => nth (Z.to_nat p) arr d) perm, map (fun _ => -1) perm).
Proof.
  intros H. destruct (apply_all_spec d arr perm (fun _ => -1) H (fun p => p =? -1)) as (a & p & E & -> & ->); auto.
  intros p Hp. split; [destruct (Z.eqb_spec p (-1)); [lia|auto]|reflexivity].
Qed.

Lemma foldM_map_in_place (g : Z -> Z) (p : list Z) :
  foldM (fun perm k => p <- rd perm k ;; wr perm k (g p)) (seq 0 (length p)) p = Ret (map g p).
Proof.
  assert (H : forall r pre, foldM (fun perm k => p <- rd perm k ;; wr perm k (g p)) (seq (length pre) (length r)) (pre ++ r) = Ret (pre ++ map g r)).
  { induction r as [|x r IH]; intros pre; cbn [length seq foldM map].
    - reflexivity.
    - rewrite (rd_ok _ _ 0) by (rewrite app_length; simpl; lia). cbn [bind].
      rewrite app_nth2, Nat.sub_diag by lia. cbn [nth].
      rewrite wr_ok by (rewrite app_length; simpl; lia). cbn [bind].
      replace (upd (pre ++ x :: r) (length pre) (g x)) with ((pre ++ [g x]) ++ r).
      + replace (S (length pre)) with (length (pre ++ [g x])) by (rewrite app_length; simpl; lia).
        rewrite IH, <- app_assoc. reflexivity.
      + rewrite <- app_assoc. simpl. clear. induction pre as [|y pre IHp]; simpl; [reflexivity|f_equal; auto]. }
  apply (H p []).
Qed.

Lemma ApplyAndKeepPermutation_spec {A} (d : A) (arr : list A) (perm : list Z) : is_perm (length arr) perm ->
  ApplyAndKeepPermutation arr perm = Ret (map (fun p => nth (Z.to_nat p) arr d) perm, perm).
Proof.
  intros H. unfold ApplyAndKeepPermutation.
  destruct (apply_all_spec d arr perm (fun p => -1 - p) H (fun p => p <? 0)) as (a & p & E & Ea & Ep).
  { intros p Hp. split; [destruct (Z.ltb_spec p 0); [lia|auto]|destruct (Z.ltb_spec (-1-p) 0); [auto|lia]]. }
  rewrite E. cbn [bind]. pose proof (is_perm_length _ _ H) as Hl.
  replace (length arr) with (length p) by (rewrite Ep, map_length; auto).
  rewrite (foldM_map_in_place (fun p => - p - 1)). cbn [bind]. rewrite Ea, Ep. f_equal. f_equal.
  rewrite map_map. rewrite <- (map_id perm) at 2. apply map_ext. intros; lia.
Qed.

Lemma ApplyPermutation_buffered_spec {A} (d : A) (arr : list A) (perm : list Z) : is_perm (length arr) perm ->
  ApplyPermutation_buffered arr perm = Ret (map (fun p => nth (Z.to_nat p) arr d) perm).
Proof.
  intros H. unfold ApplyPermutation_buffered. pose proof (is_perm_length _ _ H) as Hl.
  assert (G : forall m a', (m <= length arr)%nat -> length a' = length arr ->
    exists a'', foldM (fun a k => p <- rd perm k ;; if p <? 0 then Err OutOfBounds else v <- rd arr (Z.to_nat p) ;; wr a k v) (seq 0 m) a' = Ret a''
      /\ length a'' = length arr /\ (forall k, (k < m)%nat -> nth k a'' d = nth (Z.to_nat (nth k perm 0)) arr d)).
  { induction m as [|m IH]; intros a' Hm La.
    - exists a'. simpl; repeat split; auto; lia.
    - rewrite seq_S, foldM_app. destruct (IH a' ltac:(lia) La) as (a1 & E & L1 & H1). rewrite E. cbn [bind foldM plus].
      rewrite (rd_ok perm m 0) by lia. cbn [bind]. pose proof (is_perm_range _ _ m H ltac:(lia)).
      destruct (Z.ltb_spec (nth m perm 0) 0); [lia|]. rewrite (rd_ok arr _ d) by lia. cbn [bind].
      rewrite wr_ok by lia. cbn [bind]. eexists; split; [reflexivity|]. rewrite upd_length. split; auto.
      intros k Hk. destruct (Nat.eq_dec k m) as [->|]; [apply nth_upd_eq; lia|].
      rewrite nth_upd_neq by auto. apply H1; lia. }
  destruct (G (length arr) arr ltac:(lia) eq_refl) as (a & E & La & Ha). rewrite E. f_equal.
  apply (nth_ext_len _ _ d); [rewrite map_length; lia|]. intros k Hk. rewrite Ha by lia.
  rewrite (nth_indep (map _ _) d ((fun p => nth (Z.to_nat p) arr d) 0)) by (rewrite map_length; lia).
  rewrite (map_nth (fun p => nth (Z.to_nat p) arr d)). reflexivity.
Qed.

Lemma InvertPermutation_spec n (perm inv : list Z) : is_perm n perm -> length inv = n ->
  exists inv', InvertPermutation perm inv = Ret inv' /\ is_perm n inv' /\
    (forall k, (k < n)%nat -> nth (Z.to_nat (nth k perm 0)) inv' 0 = Z.of_nat k) /\
    (forall k, (k < n)%nat -> nth (Z.to_nat (nth k inv' 0)) perm 0 = Z.of_nat k).
Proof.
  intros H Li. pose proof (is_perm_length _ _ H) as Hl. unfold InvertPermutation. rewrite Hl.
  assert (G : forall m, (m <= n)%nat -> exists inv', foldM (fun inv l => p <- rd perm l ;; if p <? 0 then Err OutOfBounds else wr inv (Z.to_nat p) (Z.of_nat l)) (seq 0 m) inv = Ret inv'
      /\ length inv' = n /\ (forall k, (k < m)%nat -> nth (Z.to_nat (nth k perm 0)) inv' 0 = Z.of_nat k)).
  { induction m as [|m IH]; intros Hm.
    - exists inv. simpl; repeat split; auto; lia.
    - rewrite seq_S, foldM_app. destruct (IH ltac:(lia)) as (a1 & E & L1 & H1). rewrite E. cbn [bind foldM plus].
      rewrite (rd_ok perm m 0) by lia. cbn [bind]. pose proof (is_perm_range _ _ m H ltac:(lia)).
      destruct (Z.ltb_spec (nth m perm 0) 0); [lia|]. rewrite wr_ok by lia. cbn [bind].
      eexists; split; [reflexivity|]. rewrite upd_length. split; auto.
      intros k Hk. destruct (Nat.eq_dec k m) as [->|Hne]; [apply nth_upd_eq; lia|].
      rewrite nth_upd_neq; [apply H1; lia|]. intros E2. apply Hne.
      pose proof (is_perm_range _ _ k H ltac:(lia)). symmetry. apply (is_perm_inj n perm); auto; lia. }
  destruct (G n ltac:(lia)) as (inv' & E & L' & H1). exists inv'; split; auto.
  assert (H2 : forall k, (k < n)%nat -> nth (Z.to_nat (nth k inv' 0)) perm 0 = Z.of_nat k).
  { intros k Hk. destruct (is_perm_surj n perm k H Hk) as (i & Hi & Ei).
    specialize (H1 i Hi). rewrite Ei, Nat2Z.id in H1. rewrite H1, Nat2Z.id. auto. }
  split; [|auto].
  unfold is_perm. apply NoDup_Permutation_bis.
  - apply (NoDup_nth _ 0). intros i j Hi Hj E1. rewrite L' in *. apply (f_equal (fun z => nth (Z.to_nat z) perm 0)) in E1.
    rewrite !H2 in E1 by auto. lia.
  - rewrite map_length, seq_length. lia.
  - intros z Hz. destruct (In_nth _ _ 0 Hz) as (k & Hk & <-). rewrite L' in Hk.
    destruct (is_perm_surj n perm k H Hk) as (i & Hi & Ei).
    specialize (H1 i Hi). rewrite Ei, Nat2Z.id in H1. rewrite H1. apply in_map, in_seq; lia.
Qed.
