(** Sorting a loop: the result in terms of the members; loops without branching come out in one piece *)
From Verif Require Import Base ArraysModel ArraysProofs LoopModel LoopSpec LoopProofs.
Import ListNotations.

Section S.
  Context {T P : Type} (flip : T -> T) (orient : T -> bool -> T -> Z) (src dst : T -> P) (eqb : P -> P -> bool) (dT : T).
  Hypothesis eqb_ok : forall a b, eqb a b = true <-> a = b.
  Variable loop : list T.
  Hypothesis Hflip : forall x, In x loop -> src (flip x) = dst x /\ dst (flip x) = src x.
  Hypothesis Hor : forall a f b, In a loop -> In b loop ->
    orient a f b = (let p := if f then src a else dst a in if eqb p (src b) then 1 else if eqb p (dst b) then -1 else 0)%Z.

  Lemma map_nth_all : forall l : list T, map (fun k => nth k l dT) (seq 0 (length l)) = l.
  Proof.
    induction l as [|a l IH]; auto. cbn [length seq map nth]. f_equal. rewrite <- seq_shift, map_map. exact IH.
  Qed.
  Lemma reordered_elem u inds : Permutation inds (seq 0 (length loop)) -> reordered flip loop (map (elem flip dT loop u) inds).
  Proof.
    intros H. exists (map (fun k => nth k loop dT) inds). split.
    - rewrite (Permutation_map _ H), map_nth_all. reflexivity.
    - clear H. induction inds as [|k inds IH]; constructor; auto. unfold elem. destruct (_ =? _)%Z; auto.
  Qed.
  Lemma map_concat {A B} (f : A -> B) : forall l, map f (concat l) = concat (map (map f) l).
  Proof. induction l as [|a l IH]; cbn; auto. rewrite map_app, IH. reflexivity. Qed.

  (** every loop *)
  Lemma sort_any : exists cs : list (list T * list T),
    SortAndOrientLoop flip orient loop = Ret (length cs, concat (map (fun bf => fst bf ++ snd bf) cs)) /\
    reordered flip loop (concat (map (fun bf => fst bf ++ snd bf) cs)) /\
    Forall (fun bf => fst bf <> [] /\ exists s e s', trail src dst s (fst bf) e /\ trail src dst s' (rev (snd bf)) s) cs.
  Proof.
    destruct (sort_ok flip orient src dst eqb dT eqb_ok loop Hflip Hor) as (u & cs & E & Pm & C & _).
    exists (map (fun bf => (map (elem flip dT loop u) (fst bf), map (elem flip dT loop u) (snd bf))) cs).
    assert (X : map (elem flip dT loop u) (concat (map (fun bf => fst bf ++ snd bf) cs)) = concat (map (fun bf : list T * list T => fst bf ++ snd bf) (map (fun bf => (map (elem flip dT loop u) (fst bf), map (elem flip dT loop u) (snd bf))) cs))).
    { rewrite map_concat, !map_map. f_equal. apply map_ext. intros [b f]. cbn. apply map_app. }
    rewrite map_length. rewrite <- X. split; [exact E|]. split; [apply reordered_elem; exact Pm|].
    rewrite Forall_map. eapply Forall_impl; [|exact C]. intros [b f] (s & e & s' & NE & A & B). cbn [fst snd] in *. split.
    - intros Z. apply NE. destruct b; auto. discriminate.
    - exists s, e, s'. split; auto. clear -B. revert s B. induction (map (elem flip dT loop u) f) as [|x l IH]; intros s B; cbn in *; auto.
      destruct B as [B1 B2]. apply IH in B2. subst s. clear -B2. revert s' B2. induction (rev l) as [|y r IHr]; intros s' B; cbn in *; [subst; auto|]. destruct B; split; auto.
  Qed.

  Lemma sort_closed : (forall v, Nat.even (touches eqb src dst loop v) = true) -> exists cs : list (list T),
    SortAndOrientLoop flip orient loop = Ret (length cs, concat cs) /\ reordered flip loop (concat cs) /\ Forall (closed_trail src dst) cs.
  Proof.
    intros EV. destruct (sort_ok flip orient src dst eqb dT eqb_ok loop Hflip Hor) as (u & cs & E & Pm & _ & C). specialize (C EV).
    assert (X : concat (map (fun bf : list nat * list nat => fst bf ++ snd bf) cs) = concat (map fst cs)).
    { clear -C. induction C as [|[b f] cs (s & _ & _ & N) H IH]; cbn in *; auto. subst f. rewrite app_nil_r, IH. reflexivity. }
    rewrite X in *. exists (map (map (elem flip dT loop u)) (map fst cs)). rewrite !map_length, <- map_concat. split; [exact E|]. split; [apply reordered_elem; exact Pm|].
    rewrite !Forall_map. eapply Forall_impl; [|exact C]. intros [b f] (s & NE & A & B). cbn [fst snd] in *. split; [|eauto].
    intros Z. apply NE. destruct b; auto. discriminate.
  Qed.

  Lemma touches_app l l' v : touches eqb src dst (l ++ l') v = (touches eqb src dst l v + touches eqb src dst l' v)%nat.
  Proof. unfold touches. rewrite !filter_app, !app_length. lia. Qed.
  Lemma touches_cons x l v : touches eqb src dst (x :: l) v = ((if eqb (src x) v then 1 else 0) + (if eqb (dst x) v then 1 else 0) + touches eqb src dst l v)%nat.
  Proof. unfold touches. cbn. destruct (eqb (src x) v), (eqb (dst x) v); cbn; lia. Qed.
  Lemma touches_perm l l' v : Permutation l l' -> touches eqb src dst l v = touches eqb src dst l' v.
  Proof. intros H. induction H; rewrite ?touches_cons; try lia. Qed.
  Lemma touches_reordered l' v : reordered flip loop l' -> touches eqb src dst l' v = touches eqb src dst loop v.
  Proof.
    intros (l0 & Pm & F). rewrite <- (touches_perm _ _ v Pm). assert (HH : forall x, In x l0 -> src (flip x) = dst x /\ dst (flip x) = src x) by (intros x Hx; apply Hflip; rewrite <- Pm; auto).
    clear Pm. induction F as [|a b l0 l' H F IH]; auto. rewrite !touches_cons, IH by (intros; apply HH; cbn; auto).
    destruct H as [->| ->]; auto. destruct (HH a) as [-> ->]; [cbn; auto|]. lia.
  Qed.
  Lemma trail_balance v : forall l s e, trail src dst s l e ->
    (length (filter (fun x => eqb (src x) v) l) + (if eqb e v then 1 else 0) = length (filter (fun x => eqb (dst x) v) l) + (if eqb s v then 1 else 0))%nat.
  Proof.
    induction l as [|x l IH]; intros s e H; cbn in *; [subst; auto|]. destruct H as [H1 H2]. subst s. specialize (IH _ _ H2). destruct (eqb (src x) v), (eqb (dst x) v); cbn; lia.
  Qed.
  Lemma touches_in x l v : In x l -> src x = v \/ dst x = v -> (1 <= touches eqb src dst l v)%nat.
  Proof.
    intros H Hv. destruct (in_split _ _ H) as (a & b & ->). rewrite touches_app, touches_cons.
    destruct Hv as [<-|<-]; rewrite (proj2 (eqb_ok _ _) eq_refl); lia.
  Qed.
  Lemma touches_pos l v : (1 <= touches eqb src dst l v)%nat -> exists x, In x l /\ (src x = v \/ dst x = v).
  Proof.
    induction l as [|x l IH]; [cbn; lia|]. rewrite touches_cons. intros H.
    destruct (eqb (src x) v) eqn:E1; [exists x; split; [left; auto|left; apply eqb_ok; auto]|].
    destruct (eqb (dst x) v) eqn:E2; [exists x; split; [left; auto|right; apply eqb_ok; auto]|].
    destruct IH as (y & I & J); [lia|]. exists y; split; [right; auto|auto].
  Qed.
  Lemma closed_two c v : closed_trail src dst c -> (1 <= touches eqb src dst c v)%nat -> (2 <= touches eqb src dst c v)%nat.
  Proof. intros (_ & s & H) L. pose proof (trail_balance v _ _ _ H). unfold touches in *. lia. Qed.

  (** a loop in one piece that visits no vertex twice *)
  Lemma sort_one : loop <> [] -> (forall v, touches eqb src dst loop v = 0 \/ touches eqb src dst loop v = 2)%nat -> one_piece src dst loop ->
    exists out, SortAndOrientLoop flip orient loop = Ret (1%nat, out) /\ reordered flip loop out /\ closed_trail src dst out.
  Proof.
    intros NE T2 OP. destruct sort_closed as (cs & E & R & C). { intros v. destruct (T2 v) as [->| ->]; reflexivity. }
    destruct cs as [|c1 [|c2 cs]].
    - exfalso. destruct R as (l0 & Pm & F). cbn in F. inversion F; subst. apply Permutation_nil in Pm. auto.
    - cbn [concat length] in *. rewrite app_nil_r in *. inversion C; subst. exists c1. auto.
    - exfalso. set (out := concat (c1 :: c2 :: cs)) in *. pose proof (Forall_inv C) as C1. pose proof (Forall_inv (Forall_inv_tail C)) as C2.
      assert (TO : forall v, (touches eqb src dst c1 v + touches eqb src dst (c2 ++ concat cs) v = touches eqb src dst loop v)%nat).
      { intros v. rewrite <- (touches_reordered out v R). unfold out. cbn [concat]. symmetry. apply touches_app. }
      pose (f := fun v => (1 <=? touches eqb src dst c1 v)%nat).
      (* the members of out *)
      assert (FO : forall x, In x out -> f (src x) = f (dst x) /\ (In x c1 -> f (src x) = true) /\ (In x (c2 ++ concat cs) -> f (src x) = false)).
      { intros x Hx. unfold out in Hx. cbn [concat] in Hx. rewrite in_app_iff in Hx.
        assert (A1 : forall y v, In y c1 -> src y = v \/ dst y = v -> f v = true). { intros y v Hy Hv. unfold f. apply Nat.leb_le. apply (touches_in y); auto. }
        assert (A2 : forall y v, In y (c2 ++ concat cs) -> src y = v \/ dst y = v -> f v = false).
        { intros y v Hy Hv. unfold f. apply Nat.leb_gt. pose proof (touches_in y _ v Hy Hv). specialize (TO v). destruct (le_lt_dec 1 (touches eqb src dst c1 v)); [|lia]. pose proof (closed_two c1 v C1 l). destruct (T2 v); lia. }
        split; [|split; eauto]. destruct Hx as [Hx|Hx].
        - rewrite (A1 x (src x)), (A1 x (dst x)); auto.
        - rewrite (A2 x (src x)), (A2 x (dst x)); auto. }
      (* the members of loop are those of out up to flipping *)
      destruct R as (l0 & Pm & F).
      assert (FL : forall y, In y out -> exists x, In x loop /\ f (src x) = f (src y)).
      { intros y Hy. assert (In1 : exists x, In x l0 /\ (y = x \/ y = flip x)).
        { clear -F Hy. induction F as [|a b l0 l' H F IH]; [destruct Hy|]. destruct Hy as [<-|Hy]; [exists a; cbn; auto|]. destruct (IH Hy) as (x & I & J). exists x; cbn; auto. }
        destruct In1 as (x & Ix & [->| ->]); rewrite Pm in Ix; exists x; split; auto. destruct (Hflip x Ix) as [A B]. rewrite A. destruct (FO _ Hy) as (G & _). rewrite A, B in G. auto. }
      assert (FE : forall x, In x loop -> f (src x) = f (dst x)).
      { intros x Hx. rewrite <- Pm in Hx. assert (In2 : exists y, In y out /\ (y = x \/ y = flip x)).
        { clear -F Hx. induction F as [|a b l0 l' H F IH]; [destruct Hx|]. destruct Hx as [<-|Hx]; [exists b; cbn; auto|]. destruct (IH Hx) as (y & I & J). exists y; cbn; auto. }
        destruct In2 as (y & Iy & [->| ->]); destruct (FO _ Iy) as (G & _); auto. rewrite Pm in Hx. destruct (Hflip x Hx) as [A B]. rewrite A, B in G. auto. }
      destruct C1 as (N1 & _), C2 as (N2 & _). destruct c1 as [|y1 c1]; [congruence|]. destruct c2 as [|y2 c2]; [congruence|].
      assert (I1 : In y1 out) by (unfold out; cbn; auto).
      assert (I2 : In y2 out) by (unfold out; cbn [concat]; apply in_or_app; right; cbn; auto).
      destruct (FL _ I1) as (x1 & L1 & F1), (FL _ I2) as (x2 & L2 & F2). pose proof (OP f FE x1 x2 L1 L2) as X.
      destruct (FO _ I1) as (_ & G1 & _), (FO _ I2) as (_ & _ & G2). rewrite F1, F2, G1, G2 in X; [discriminate|cbn; auto|cbn; auto].
  Qed.
End S.
