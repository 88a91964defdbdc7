(** The loops, processes, ghost vertices and unknowns of a contracted mesh *)
From Verif Require Import Base ArraysModel ArraysProofs ArraysProps LoopModel SMapModel SMapProofs SMapProofs3 SMapProofs8 SMapProofs9 SMeshModel SMeshProofs2 SCtrModel SCtrProofs.
Import ListNotations.

Definition dU : umsg := mkU [] [] [] [] [].
Definition dP : mapd := mkMp [] [] [].
(** the signed number of the image of an edge *)
Definition image (mp : mapd) (c : Z) : Z :=
  let e := Z.to_nat (Z.abs c - 1) in
  (let s := nth e (p_emap mp) 0 + 1 in if Bool.eqb (0 <? c) (nth e (p_flip mp) false) then - s else s)%Z.
Definition code_in (mp : mapd) (c : Z) : Prop := (c <> 0 /\ Z.abs c <= Z.of_nat (length (p_emap mp)))%Z.
(** data of a member that fit to each other *)
Record fits (np : nat) (u : umsg) (mp : mapd) : Prop := mkFits {
  ft_loops : length (u_loops u) = length (u_gn u);
  ft_dps : length (u_dps u) = length (u_gn u);
  ft_codes : forall l c, In l (u_loops u) -> In c l -> code_in mp c;
  ft_procs : forall ps p, In ps (u_dps u) -> In p ps -> (0 <= p < Z.of_nat np)%Z;
  ft_flip : length (p_flip mp) = length (p_emap mp)
}.
Lemma map_code_ok mp c : length (p_flip mp) = length (p_emap mp) -> code_in mp c -> map_code mp c = Ret (image mp c).
Proof.
  intros LF [N H]. unfold map_code, image. assert (E : ((if 0 <? c then 1 else -1) * c - 1 = Z.abs c - 1)%Z) by (destruct (Z.ltb_spec 0 c); lia). rewrite E. unfold rdz. destruct (Z.ltb_spec (Z.abs c - 1) 0); [lia|].
  rewrite (rd_ok _ _ 0%Z) by lia. cbn [bind]. rewrite (rd_ok _ _ false) by lia. cbn [bind]. f_equal. destruct (0 <? c)%Z, (nth _ (p_flip mp) false); cbn [Bool.eqb]; lia.
Qed.
Lemma all_gnums_ok us : exists gn, all_gnums us = Ret gn /\ StronglySorted Z.lt gn /\ forall g, In g gn <-> exists u, In u us /\ In g (u_gn u).
Proof.
  destruct (all_loop_dps_ok (map u_gn us) [] ltac:(constructor)) as (a & E & SS & H). exists a. split; [exact E|]. split; auto. intros g. rewrite H. split.
  - intros [[]|(ps & I & J)]. apply in_map_iff in I. destruct I as (u & <- & I). eauto.
  - intros (u & I & J). right. exists (u_gn u). split; auto. apply in_map; auto.
Qed.
Lemma addrow_ok {A} (t : list (list A)) i xs : (i < length t)%nat -> addrow t i xs = Ret (upd t i (nth i t [] ++ xs)).
Proof. intros H. unfold addrow. rewrite (rd_ok t i []) by auto. cbn [bind]. apply wr_ok; auto. Qed.
Lemma addrow_in {A} (t : list (list A)) i xs k x : (i < length t)%nat -> (In x (nth k (upd t i (nth i t [] ++ xs)) []) <-> In x (nth k t []) \/ k = i /\ In x xs).
Proof.
  intros H. destruct (Nat.eq_dec k i) as [->|NE].
  - rewrite nth_upd_eq by auto. rewrite in_app_iff. intuition.
  - rewrite nth_upd_neq by auto. intuition.
Qed.

Section Member.
  Variables (pmap : list Z) (me : Z).
  Lemma loop_ok mp n i l d tl td : length (p_flip mp) = length (p_emap mp) -> (i < n)%nat -> (forall c, In c l -> code_in mp c) -> (forall p, In p d -> (0 <= p < Z.of_nat (length pmap))%Z) ->
    length tl = n -> length td = n -> exists tl' td', ctr_loop pmap me mp (tl, td) (i, (l, d)) = Ret (tl', td') /\ length tl' = n /\ length td' = n /\
      (forall k x, In x (nth k tl' []) <-> In x (nth k tl []) \/ k = i /\ exists c, In c l /\ x = image mp c) /\
      (forall k q, In q (nth k td' []) <-> In q (nth k td []) \/ k = i /\ q <> me /\ exists p, In p d /\ q = nth (Z.to_nat p) pmap 0%Z).
  Proof.
    intros LF Hi HC HD L1 L2. unfold ctr_loop.
    rewrite (mapM_ok (map_code mp) (image mp)) by (intros c Hc; apply map_code_ok; auto). cbn [bind]. rewrite addrow_ok by lia. cbn [bind].
    rewrite (mapM_ok (rdz pmap) (fun p => nth (Z.to_nat p) pmap 0%Z)). 2:{ intros p Hp. specialize (HD p Hp). unfold rdz. destruct (Z.ltb_spec p 0); [lia|]. apply rd_ok. lia. }
    cbn [bind]. rewrite addrow_ok by lia. cbn [bind]. do 2 eexists. split; [reflexivity|]. rewrite !upd_length. split; auto. split; auto. split.
    - intros k x. rewrite addrow_in by lia. rewrite in_map_iff. split; (intros [A|[A (c & B & C)]]; [auto|right; split; auto; exists c; auto]).
    - intros k q. rewrite addrow_in by lia. rewrite filter_In, in_map_iff. split.
      + intros [A|[A [(p & B & C) D]]]; auto. right. split; auto. rewrite negb_true_iff, Z.eqb_neq in D. split; auto. exists p. auto.
      + intros [A|[A [D (p & B & C)]]]; auto. right. split; auto. rewrite negb_true_iff, Z.eqb_neq. split; auto. exists p. auto.
  Qed.
  Lemma loops_fold mp n : length (p_flip mp) = length (p_emap mp) -> forall xs tl td,
    (forall i l d, In (i, (l, d)) xs -> (i < n)%nat /\ (forall c, In c l -> code_in mp c) /\ (forall p, In p d -> (0 <= p < Z.of_nat (length pmap))%Z)) ->
    length tl = n -> length td = n -> exists tl' td', foldM (ctr_loop pmap me mp) xs (tl, td) = Ret (tl', td') /\ length tl' = n /\ length td' = n /\
      (forall k x, In x (nth k tl' []) <-> In x (nth k tl []) \/ exists l d c, In (k, (l, d)) xs /\ In c l /\ x = image mp c) /\
      (forall k q, In q (nth k td' []) <-> In q (nth k td []) \/ q <> me /\ exists l d p, In (k, (l, d)) xs /\ In p d /\ q = nth (Z.to_nat p) pmap 0%Z).
  Proof.
    intros LF. induction xs as [|[i [l d]] xs IH]; intros tl td H L1 L2.
    - exists tl, td. split; [reflexivity|]. split; auto. split; auto. split; intros k x; (split; [auto|]); [intros [A|(? & ? & ? & [] & _)]; auto|intros [A|(_ & ? & ? & ? & [] & _)]; auto].
    - destruct (H i l d (or_introl eq_refl)) as (Hi & HC & HD). destruct (loop_ok mp n i l d tl td LF Hi HC HD L1 L2) as (t1 & d1 & E & A1 & A2 & A3 & A4).
      destruct (IH t1 d1) as (t2 & d2 & E2 & B1 & B2 & B3 & B4); [intros; apply H; right; auto|auto|auto|]. exists t2, d2. cbn [foldM]. rewrite E. cbn [bind]. split; [exact E2|]. split; auto. split; auto. split.
      + intros k x. rewrite B3, A3. split.
        * intros [[X|(-> & c & X & Y)]|(l' & d' & c & X & Y)]; auto; right; [exists l, d, c|exists l', d', c]; cbn; auto.
        * intros [X|(l' & d' & c & [X|X] & Y)]; auto; [|right; exists l', d', c; auto]. injection X as -> -> ->. destruct Y. left. right. split; auto. exists c. auto.
      + intros k q. rewrite B4, A4. split.
        * intros [[X|(-> & N & p & X & Y)]|(N & l' & d' & p & X & Y)]; auto; right; (split; auto); [exists l, d, p|exists l', d', p]; cbn; auto.
        * intros [X|(N & l' & d' & p & [X|X] & Y)]; auto; [|right; split; auto; exists l', d', p; auto]. injection X as -> -> ->. destruct Y. left. right. split; auto. split; auto. exists p. auto.
  Qed.
  Lemma loop_map_ok gnums u : StronglySorted Z.lt gnums -> (forall g, In g (u_gn u) -> In g gnums) -> exists lm, loop_map gnums u = Ret lm /\ length lm = length (u_gn u) /\ forall j, (j < length (u_gn u))%nat -> (nth j lm O < length gnums)%nat /\ nth (nth j lm O) gnums 0%Z = nth j (u_gn u) 0%Z.
  Proof.
    intros SS H. unfold loop_map. destruct (mapM_from (fun g => posn g gnums) (fun g i => (i < length gnums)%nat /\ nth i gnums 0%Z = g) (u_gn u)) as (lm & E & F).
    - intros g Hg. destruct (posn_ok g gnums SS (H g Hg)) as (i & A & B & C). exists i. auto.
    - exists lm. split; auto. split; [symmetry; eapply F2_length; eauto|]. clear - F. induction F as [|a b l l' X F IH]; intros j Hj; [cbn in Hj; lia|]. destruct j as [|j]; [exact X|]. cbn [nth]. apply IH. cbn in Hj; lia.
  Qed.
  Lemma combine_in {A B} (a : list A) (b : list B) x y da db : length a = length b -> (In (x, y) (combine a b) <-> exists j, (j < length a)%nat /\ nth j a da = x /\ nth j b db = y).
  Proof.
    revert b. induction a as [|a0 a IH]; intros [|b0 b] L; cbn in L; try lia.
    - cbn. split; [tauto|]. intros (j & Hj & _). lia.
    - cbn [combine In]. rewrite IH by lia. split.
      + intros [E|(j & Hj & X & Y)]; [injection E as <- <-; exists O; cbn; repeat split; lia|exists (S j); cbn; repeat split; auto; lia].
      + intros ([|j] & Hj & X & Y); cbn in X, Y; [left; congruence|right; exists j; cbn in Hj; repeat split; auto; lia].
  Qed.
  Lemma member_ok gnums u mp tl td : StronglySorted Z.lt gnums -> (forall g, In g (u_gn u) -> In g gnums) -> fits (length pmap) u mp -> length tl = length gnums -> length td = length gnums ->
    exists tl' td', ctr_member pmap me gnums (tl, td) (u, mp) = Ret (tl', td') /\ length tl' = length gnums /\ length td' = length gnums /\
      (forall k x, (k < length gnums)%nat -> (In x (nth k tl' []) <-> In x (nth k tl []) \/ exists j c, (j < length (u_gn u))%nat /\ nth j (u_gn u) 0%Z = nth k gnums 0%Z /\ In c (nth j (u_loops u) []) /\ x = image mp c)) /\
      (forall k q, (k < length gnums)%nat -> (In q (nth k td' []) <-> In q (nth k td []) \/ q <> me /\ exists j p, (j < length (u_gn u))%nat /\ nth j (u_gn u) 0%Z = nth k gnums 0%Z /\ In p (nth j (u_dps u) []) /\ q = nth (Z.to_nat p) pmap 0%Z)).
  Proof.
    intros SS HG [F1 F2 F3 F4 F5] L1 L2. destruct (loop_map_ok gnums u SS HG) as (lm & E & LL & H). unfold ctr_member. cbn [fst snd]. rewrite E. cbn [bind].
    assert (LC : length (combine (u_loops u) (u_dps u)) = length (u_gn u)) by (rewrite combine_length; lia).
    assert (CI : forall k l d, In (k, (l, d)) (combine lm (combine (u_loops u) (u_dps u))) <-> exists j, (j < length (u_gn u))%nat /\ nth j lm O = k /\ nth j (u_loops u) [] = l /\ nth j (u_dps u) [] = d).
    { intros k l d. rewrite (combine_in _ _ _ _ O ([], [])) by lia. rewrite LL. split; intros (j & Hj & A & B); exists j; split; auto; split; auto; rewrite combine_nth in * by lia; [injection B as B1 B2; auto|destruct B as [B1 B2]; congruence]. }
    assert (GE : forall j k, (j < length (u_gn u))%nat -> (k < length gnums)%nat -> (nth j lm O = k <-> nth j (u_gn u) 0%Z = nth k gnums 0%Z)).
    { intros j k Hj Hk. destruct (H j Hj) as [A B]. split; [intros <-; auto|]. intros X. rewrite <- B in X. apply lt_NoDup in SS. rewrite NoDup_nth with (d := 0%Z) in SS. apply SS; auto. }
    destruct (loops_fold mp (length gnums) F5 (combine lm (combine (u_loops u) (u_dps u))) tl td) as (t1 & d1 & E1 & A1 & A2 & A3 & A4); auto.
    - intros i l d X. apply CI in X. destruct X as (j & Hj & <- & <- & <-). split; [apply H; auto|]. split.
      + intros c. apply F3. apply nth_In. lia.
      + intros p. apply F4. apply nth_In. lia.
    - exists t1, d1. split; [exact E1|]. split; auto. split; auto. split.
      + intros k x Hk. rewrite A3. split; (intros [X|X]; [auto|right]).
        * destruct X as (l & d & c & X & Y & Z). apply CI in X. destruct X as (j & Hj & P & <- & <-). exists j, c. apply GE in P; auto.
        * destruct X as (j & c & Hj & P & Y & Z). exists (nth j (u_loops u) []), (nth j (u_dps u) []), c. split; auto. apply CI. exists j. apply GE in P; auto.
      + intros k x Hk. rewrite A4. split; (intros [X|[N X]]; [auto|right; split; auto]).
        * destruct X as (l & d & c & X & Y & Z). apply CI in X. destruct X as (j & Hj & P & <- & <-). exists j, c. apply GE in P; auto.
        * destruct X as (j & c & Hj & P & Y & Z). exists (nth j (u_loops u) []), (nth j (u_dps u) []), c. split; auto. apply CI. exists j. apply GE in P; auto.
  Qed.
  Lemma members_fold gnums : StronglySorted Z.lt gnums -> forall xs tl td, (forall u mp, In (u, mp) xs -> (forall g, In g (u_gn u) -> In g gnums) /\ fits (length pmap) u mp) -> length tl = length gnums -> length td = length gnums ->
    exists tl' td', foldM (ctr_member pmap me gnums) xs (tl, td) = Ret (tl', td') /\ length tl' = length gnums /\ length td' = length gnums /\
      (forall k x, (k < length gnums)%nat -> (In x (nth k tl' []) <-> In x (nth k tl []) \/ exists u mp j c, In (u, mp) xs /\ (j < length (u_gn u))%nat /\ nth j (u_gn u) 0%Z = nth k gnums 0%Z /\ In c (nth j (u_loops u) []) /\ x = image mp c)) /\
      (forall k q, (k < length gnums)%nat -> (In q (nth k td' []) <-> In q (nth k td []) \/ q <> me /\ exists u mp j p, In (u, mp) xs /\ (j < length (u_gn u))%nat /\ nth j (u_gn u) 0%Z = nth k gnums 0%Z /\ In p (nth j (u_dps u) []) /\ q = nth (Z.to_nat p) pmap 0%Z)).
  Proof.
    intros SS. induction xs as [|[u mp] xs IH]; intros tl td H L1 L2.
    - exists tl, td. split; [reflexivity|]. split; auto. split; auto. split; intros k x Hk; (split; [auto|]); [intros [A|(? & ? & ? & ? & [] & _)]; auto|intros [A|(_ & ? & ? & ? & ? & [] & _)]; auto].
    - destruct (H u mp (or_introl eq_refl)) as [HG HF]. destruct (member_ok gnums u mp tl td SS HG HF L1 L2) as (t1 & d1 & E & A1 & A2 & A3 & A4).
      destruct (IH t1 d1) as (t2 & d2 & E2 & B1 & B2 & B3 & B4); [intros; apply H; right; auto|auto|auto|]. exists t2, d2. cbn [foldM]. rewrite E. cbn [bind]. split; [exact E2|]. split; auto. split; auto. split.
      + intros k x Hk. rewrite B3, A3 by auto. split.
        * intros [[X|(j & c & X)]|(u' & mp' & j & c & X & Y)]; auto; right; [exists u, mp, j, c|exists u', mp', j, c]; cbn; auto.
        * intros [X|(u' & mp' & j & c & [X|X] & Y)]; auto; [|right; exists u', mp', j, c; auto]. injection X as -> ->. left. right. exists j, c. auto.
      + intros k q Hk. rewrite B4, A4 by auto. split.
        * intros [[X|(N & j & p & X)]|(N & u' & mp' & j & p & X & Y)]; auto; right; (split; auto); [exists u, mp, j, p|exists u', mp', j, p]; cbn; auto.
        * intros [X|(N & u' & mp' & j & p & [X|X] & Y)]; auto; [|right; split; auto; exists u', mp', j, p; auto]. injection X as -> ->. left. right. split; auto. exists j, p. auto.
  Qed.
  Lemma nth_repeat_nil {A} n k : nth k (repeat (@nil A) n) [] = [].
  Proof. revert k. induction n as [|n IH]; intros [|k]; auto. apply IH. Qed.
  Lemma ctr_loops_ok us ms : length ms = length us -> (forall k, (k < length us)%nat -> fits (length pmap) (nth k us dU) (nth k ms dP)) ->
    exists gnums cl cd, all_gnums us = Ret gnums /\ ctr_loops pmap me us ms = Ret (cl, cd) /\ length cl = length gnums /\ length cd = length gnums /\
      forall i, (i < length gnums)%nat ->
        (StronglySorted Z.lt (nth i cl []) /\ forall x, In x (nth i cl []) <-> exists k j c, (k < length us)%nat /\ (j < length (u_gn (nth k us dU)))%nat /\ nth j (u_gn (nth k us dU)) 0%Z = nth i gnums 0%Z /\ In c (nth j (u_loops (nth k us dU)) []) /\ x = image (nth k ms dP) c) /\
        (StronglySorted Z.lt (nth i cd []) /\ forall q, In q (nth i cd []) <-> q <> me /\ exists k j p, (k < length us)%nat /\ (j < length (u_gn (nth k us dU)))%nat /\ nth j (u_gn (nth k us dU)) 0%Z = nth i gnums 0%Z /\ In p (nth j (u_dps (nth k us dU)) []) /\ q = nth (Z.to_nat p) pmap 0%Z).
  Proof.
    intros LM HF. destruct (all_gnums_ok us) as (gn & E & SS & HG). exists gn.
    assert (CI : forall u mp, In (u, mp) (combine us ms) <-> exists k, (k < length us)%nat /\ nth k us dU = u /\ nth k ms dP = mp) by (intros; apply combine_in; auto).
    destruct (members_fold gn SS (combine us ms) (repeat [] (length gn)) (repeat [] (length gn))) as (tl & td & E1 & A1 & A2 & A3 & A4); try apply repeat_length.
    { intros u mp H. apply CI in H. destruct H as (k & Hk & <- & <-). split; auto. intros g Hg. apply HG. exists (nth k us dU). split; auto. apply nth_In; auto. }
    destruct (RemoveDuplicates_ok tl) as (cl & E2 & B1 & B2). destruct (RemoveDuplicates_ok td) as (cd & E3 & C1 & C2).
    exists cl, cd. split; auto. split. { unfold ctr_loops. rewrite E. cbn [bind]. rewrite E1. cbn [bind]. rewrite E2. cbn [bind]. rewrite E3. reflexivity. }
    split; [lia|]. split; [lia|]. intros i Hi. destruct (B2 i ltac:(lia)) as [B3 B4]. destruct (C2 i ltac:(lia)) as [C3 C4]. split; (split; [auto|]).
    - intros x. rewrite B4, A3, nth_repeat_nil by auto. split.
      + intros [[]|(u & mp & j & c & H & X)]. apply CI in H. destruct H as (k & Hk & <- & <-). exists k, j, c. auto.
      + intros (k & j & c & Hk & X). right. exists (nth k us dU), (nth k ms dP), j, c. split; auto. apply CI. eauto.
    - intros x. rewrite C4, A4, nth_repeat_nil by auto. split.
      + intros [[]|(N & u & mp & j & c & H & X)]. apply CI in H. destruct H as (k & Hk & <- & <-). split; auto. exists k, j, c. auto.
      + intros (N & k & j & c & Hk & X). right. split; auto. exists (nth k us dU), (nth k ms dP), j, c. split; auto. apply CI. eauto.
  Qed.
End Member.
