(** Ghost vertices, unknowns and flip marks of the contracted mesh *)
From Verif Require Import Base ArraysModel ArraysProofs ArraysProps LoopModel SMapModel SMapProofs SMapProofs3 SMapProofs8 SMapProofs9 SMeshModel SMeshProofs2 SCtrModel SCtrProofs SCtrProofs2.
Import ListNotations.

Lemma upd_true b i v : (i < length b)%nat -> (nth v (upd b i true) false = true <-> nth v b false = true \/ v = i).
Proof. intros H. destruct (Nat.eq_dec v i) as [->|NE]; [rewrite nth_upd_eq by auto; tauto|rewrite nth_upd_neq by auto; tauto]. Qed.
(** ** ghost vertices *)
Lemma cgv_entries (mp : mapd) n : (forall v, In v (p_vmap mp) -> (0 <= v < Z.of_nat n)%Z) -> forall gv j bits, (j + length gv <= length (p_vmap mp))%nat -> length bits = n ->
  exists j' b, foldM (fun (st : nat * list bool) g => let '(j, b) := st in
     if (g =? 0)%Z then v <- rd (p_vmap mp) j ;; if (v <? 0)%Z then Err OutOfBounds else b' <- wr b (Z.to_nat v) true ;; Ret (S j, b') else Ret (S j, b)) gv (j, bits) = Ret (j', b) /\ length b = n /\
    forall v, nth v b false = true <-> nth v bits false = true \/ exists i, (i < length gv)%nat /\ nth i gv 1%Z = 0%Z /\ nth (j + i) (p_vmap mp) 0%Z = Z.of_nat v.
Proof.
  intros HV. induction gv as [|g gv IH]; intros j bits HL HB.
  - exists j, bits. split; [reflexivity|]. split; auto. intros v. split; auto. intros [H|(i & Hi & _)]; auto. cbn in Hi. lia.
  - cbn [length] in HL. cbn [foldM].
    assert (ST : forall b1 (Q : nat -> Prop), length b1 = n -> (forall v, nth v b1 false = true <-> nth v bits false = true \/ Q v) -> (forall v, Q v <-> g = 0%Z /\ nth j (p_vmap mp) 0%Z = Z.of_nat v) ->
      exists j' b, foldM (fun (st : nat * list bool) g => let '(j, b) := st in
     if (g =? 0)%Z then v <- rd (p_vmap mp) j ;; if (v <? 0)%Z then Err OutOfBounds else b' <- wr b (Z.to_nat v) true ;; Ret (S j, b') else Ret (S j, b)) gv (S j, b1) = Ret (j', b) /\ length b = n /\
      forall v, nth v b false = true <-> nth v bits false = true \/ exists i, (i < length (g :: gv))%nat /\ nth i (g :: gv) 1%Z = 0%Z /\ nth (j + i) (p_vmap mp) 0%Z = Z.of_nat v).
    { intros b1 Q L1 H1 HQ. destruct (IH (S j) b1 ltac:(lia) L1) as (j' & b & E & L & H). exists j', b. split; [exact E|]. split; auto. intros v. rewrite H, H1, HQ. cbn [length]. split.
      - intros [[X|[X Y]]|(i & Hi & X & Y)]; auto; right; [exists O|exists (S i)]; cbn [nth]; rewrite ?Nat.add_0_r; [|replace (j + S i)%nat with (S j + i)%nat by lia]; repeat split; auto; lia.
      - intros [X|([|i] & Hi & X & Y)]; auto; cbn [nth] in X; [rewrite Nat.add_0_r in Y; auto|]. right. exists i. replace (S j + i)%nat with (j + S i)%nat by lia. repeat split; auto; lia. }
    destruct (Z.eqb_spec g 0) as [->|NG].
    + rewrite (rd_ok _ j 0%Z) by lia. cbn [bind]. assert (Lj : (j < length (p_vmap mp))%nat) by lia. pose proof (HV (nth j (p_vmap mp) 0%Z) (nth_In _ _ Lj)) as R. destruct (Z.ltb_spec (nth j (p_vmap mp) 0%Z) 0); [lia|]. rewrite wr_ok by lia. cbn [bind].
      apply (ST _ (fun v => v = Z.to_nat (nth j (p_vmap mp) 0%Z))); [rewrite upd_length; auto|intros v; apply upd_true; lia|]. intros v. split; [intros ->; split; auto; lia|intros [_ X]; lia].
    + cbn [bind]. apply (ST _ (fun _ => False)); auto; [intros; tauto|intros; split; [tauto|intros [X _]; auto]].
Qed.
Lemma cgv_members n : forall xs bits, (forall u mp, In (u, mp) xs -> (length (u_gv u) <= length (p_vmap mp))%nat /\ forall v, In v (p_vmap mp) -> (0 <= v < Z.of_nat n)%Z) -> length bits = n ->
  exists b, foldM cgv_member xs bits = Ret b /\ length b = n /\ forall v, nth v b false = true <-> nth v bits false = true \/ exists u mp i, In (u, mp) xs /\ (i < length (u_gv u))%nat /\ nth i (u_gv u) 1%Z = 0%Z /\ nth i (p_vmap mp) 0%Z = Z.of_nat v.
Proof.
  induction xs as [|[u mp] xs IH]; intros bits H L.
  - exists bits. split; [reflexivity|]. split; auto. intros v. split; auto. intros [X|(? & ? & ? & [] & _)]; auto.
  - destruct (H u mp (or_introl eq_refl)) as [A B]. destruct (cgv_entries mp n B (u_gv u) O bits ltac:(lia) L) as (j' & b1 & E & L1 & H1).
    destruct (IH b1) as (b & E2 & L2 & H2); [intros; apply H; right; auto|auto|]. exists b. cbn [foldM]. unfold cgv_member at 1. cbn [fst snd]. rewrite E. cbn [bind]. split; [exact E2|]. split; auto.
    intros v. rewrite H2, H1. split.
    + intros [[X|(i & X)]|(u' & mp' & i & X & Y)]; auto; right; [exists u, mp, i|exists u', mp', i]; cbn; auto.
    + intros [X|(u' & mp' & i & [X|X] & Y)]; auto; [injection X as -> ->; left; right; exists i; auto|right; exists u', mp', i; auto].
Qed.
Lemma ctr_ghosts_ok n us ms : length ms = length us -> (forall k, (k < length us)%nat -> (length (u_gv (nth k us dU)) <= length (p_vmap (nth k ms dP)))%nat /\ forall v, In v (p_vmap (nth k ms dP)) -> (0 <= v < Z.of_nat n)%Z) ->
  exists cgv, ctr_ghosts n us ms = Ret cgv /\ length cgv = n /\ forall v, (v < n)%nat -> (nth v cgv false = true <-> forall k i, (k < length us)%nat -> (i < length (u_gv (nth k us dU)))%nat -> nth i (p_vmap (nth k ms dP)) 0%Z = Z.of_nat v -> nth i (u_gv (nth k us dU)) 1%Z <> 0%Z).
Proof.
  intros LM H. unfold ctr_ghosts. assert (CI : forall u mp, In (u, mp) (combine us ms) <-> exists k, (k < length us)%nat /\ nth k us dU = u /\ nth k ms dP = mp) by (intros; apply combine_in; auto).
  destruct (cgv_members n (combine us ms) (repeat false n)) as (b & E & L & HB); [|apply repeat_length|].
  { intros u mp I. apply CI in I. destruct I as (k & Hk & <- & <-). apply H; auto. }
  rewrite E. cbn [bind]. exists (map negb b). split; [reflexivity|]. split; [rewrite map_length; auto|]. intros v Hv. rewrite (nth_map_in _ _ _ _ false) by lia. rewrite negb_true_iff.
  assert (RF : nth v (repeat false n) false = false) by apply nth_repeat. split.
  - intros X k i Hk Hi EV EG. assert (Y : nth v b false = true); [|congruence]. apply HB. right. exists (nth k us dU), (nth k ms dP), i. split; auto. apply CI. eauto.
  - intros X. apply not_true_is_false. rewrite HB. intros [Y|(u & mp & i & I & Hi & G & V)]; [congruence|]. apply CI in I. destruct I as (k & Hk & <- & <-). apply (X k i); auto.
Qed.

(** ** the unknowns of the edges *)
Lemma de_entries (mp : mapd) ce2d : (forall e, In e (p_emap mp) -> (0 <= e < Z.of_nat (length ce2d))%Z) -> forall des j l, (j + length des <= length (p_emap mp))%nat ->
  exists j', foldM (fun (st : nat * list Z) d => let '(j, l) := st in
     if (d =? 1)%Z then e <- rd (p_emap mp) j ;; cd <- rdz ce2d e ;; Ret (S j, l ++ [cd]) else Ret (S j, l)) (map b2z des) (j, l) =
    Ret (j', l ++ map (fun i => nth (Z.to_nat (nth (j + i) (p_emap mp) 0%Z)) ce2d 0%Z) (filter (fun i => nth i des false) (seq 0 (length des)))).
Proof.
  intros HE. induction des as [|d des IH]; intros j l HL.
  - exists j. cbn. rewrite app_nil_r. reflexivity.
  - cbn [length] in HL. cbn [map foldM length seq filter nth]. rewrite <- seq_shift, filter_map_S. cbn [nth]. destruct d; cbn [b2z].
    + cbn [Z.eqb Pos.eqb]. rewrite (rd_ok _ j 0%Z) by lia. cbn [bind]. assert (Lj : (j < length (p_emap mp))%nat) by lia. pose proof (HE (nth j (p_emap mp) 0%Z) (nth_In _ _ Lj)) as R. unfold rdz at 1. destruct (Z.ltb_spec (nth j (p_emap mp) 0%Z) 0); [lia|]. rewrite (rd_ok _ _ 0%Z) by lia. cbn [bind].
      destruct (IH (S j) (l ++ [nth (Z.to_nat (nth j (p_emap mp) 0%Z)) ce2d 0%Z]) ltac:(lia)) as (j' & E). exists j'. rewrite E. rewrite <- app_assoc. cbn [app map]. rewrite Nat.add_0_r, map_map. do 3 f_equal. f_equal. apply map_ext. intros i. replace (S j + i)%nat with (j + S i)%nat by lia. reflexivity.
    + cbn [Z.eqb bind]. destruct (IH (S j) l ltac:(lia)) as (j' & E). exists j'. rewrite E. rewrite map_map. do 3 f_equal. apply map_ext. intros i. replace (S j + i)%nat with (j + S i)%nat by lia. reflexivity.
Qed.
Lemma de_map_ok (u : umsg) mp ce2d des : u_des u = map b2z des -> length des = length (p_emap mp) -> (forall e, In e (p_emap mp) -> (0 <= e < Z.of_nat (length ce2d))%Z) ->
  de_map ce2d (u, mp) = Ret (map (fun i => nth (Z.to_nat (nth i (p_emap mp) 0%Z)) ce2d 0%Z) (filter (fun i => nth i des false) (seq 0 (length des)))).
Proof. intros E L H. unfold de_map. cbn [fst snd]. rewrite E. destruct (de_entries mp ce2d H des O [] ltac:(lia)) as (j' & X). rewrite X. reflexivity. Qed.

(** ** flip marks *)
Lemma flip_entries n : forall (xs : list (Z * bool)) bits, (forall e f, In (e, f) xs -> (0 <= e < Z.of_nat n)%Z) -> length bits = n ->
  exists b, foldM (fun b x => if snd x : bool then if (fst x <? 0)%Z then Err OutOfBounds else f <- rdz b (fst x) ;; if f : bool then Ret b else wr b (Z.to_nat (fst x)) true else Ret b) xs bits = Ret b /\ length b = n /\
    forall v, nth v b false = true <-> nth v bits false = true \/ In (Z.of_nat v, true) xs.
Proof.
  induction xs as [|[e f] xs IH]; intros bits H L.
  - exists bits. split; [reflexivity|]. split; auto. intros v. cbn. tauto.
  - cbn [foldM fst snd]. pose proof (H e f (or_introl eq_refl)) as R. destruct f.
    + destruct (Z.ltb_spec e 0); [lia|]. unfold rdz at 1. destruct (Z.ltb_spec e 0); [lia|]. rewrite (rd_ok _ _ false) by lia. cbn [bind]. destruct (nth (Z.to_nat e) bits false) eqn:B.
      * destruct (IH bits) as (b & E & L2 & HB); [intros e0 f0 I0; apply (H e0 f0); right; auto|auto|]. exists b. split; [exact E|]. split; auto. intros v. rewrite HB. cbn [In]. split; [tauto|]. intros [X|[X|X]]; auto. injection X as X. left. rewrite X, Nat2Z.id in B. auto.
      * rewrite wr_ok by lia. cbn [bind]. destruct (IH (upd bits (Z.to_nat e) true)) as (b & E & L2 & HB); [intros e0 f0 I0; apply (H e0 f0); right; auto|rewrite upd_length; auto|]. exists b. split; [exact E|]. split; auto. intros v. rewrite HB, upd_true by lia. cbn [In]. split.
        -- intros [[X|X]|X]; auto. subst v. right. left. f_equal. lia.
        -- intros [X|[X|X]]; auto. injection X as X. left. right. lia.
    + cbn [bind]. destruct (IH bits) as (b & E & L2 & HB); [intros e0 f0 I0; apply (H e0 f0); right; auto|auto|]. exists b. split; [exact E|]. split; auto. intros v. rewrite HB. cbn [In]. split; [tauto|]. intros [X|[X|X]]; auto. discriminate.
Qed.
Lemma flips_ok n : forall ms bits, (forall m, In m ms -> length (p_flip m) = length (p_emap m) /\ forall e, In e (p_emap m) -> (0 <= e < Z.of_nat n)%Z) -> length bits = n ->
  exists b, foldM flip_member ms bits = Ret b /\ length b = n /\ forall v, nth v b false = true <-> nth v bits false = true \/ exists m j, In m ms /\ (j < length (p_emap m))%nat /\ nth j (p_emap m) 0%Z = Z.of_nat v /\ nth j (p_flip m) false = true.
Proof.
  induction ms as [|m ms IH]; intros bits H L.
  - exists bits. split; [reflexivity|]. split; auto. intros v. split; auto. intros [X|(? & ? & [] & _)]; auto.
  - destruct (H m (or_introl eq_refl)) as [A B]. destruct (flip_entries n (combine (p_emap m) (p_flip m)) bits) as (b1 & E & L1 & H1); [intros e f I; apply B; eapply in_combine_l; eauto|auto|].
    destruct (IH b1) as (b & E2 & L2 & H2); [intros; apply H; right; auto|auto|]. exists b. cbn [foldM]. unfold flip_member at 1. rewrite E. cbn [bind]. split; [exact E2|]. split; auto.
    intros v. rewrite H2, H1. rewrite (combine_in _ _ _ _ 0%Z false) by auto. split.
    + intros [[X|(j & X)]|(m' & j & X & Y)]; auto; right; [exists m, j|exists m', j]; cbn; auto.
    + intros [X|(m' & j & [X|X] & Y)]; auto; [subst m'; left; right; exists j; auto|right; exists m', j; auto].
Qed.
