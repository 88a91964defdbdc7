(** SplitChunk: main lemma *)
From Verif Require Import Base ArraysModel LoopModel LoopSpec LoopProofs2.
Import ListNotations.

Notation d0 := ((0, 0)%Z : pt).
Definition closedc (c : list pt) : Prop := c <> [] /\ hd d0 c = last c d0.
Lemma last_indep {A} (l : list A) d d' : l <> [] -> last l d = last l d'.
Proof. induction l as [|a [|b l] IH]; intros H; cbn in *; auto; try congruence. apply IH; discriminate. Qed.
Lemma last_nth {A} (l : list A) d : last l d = nth (length l - 1) l d.
Proof. induction l as [|a l IH]; auto. destruct l as [|b l]; auto. change (last (a :: b :: l) d) with (last (b :: l) d). rewrite IH. cbn. rewrite Nat.sub_0_r. destruct (length l); auto. Qed.
Lemma hd_nth {A} (l : list A) d : hd d l = nth 0 l d. Proof. destruct l; auto. Qed.
Lemma snoc_last {A} (l : list A) d : l <> [] -> l = removelast l ++ [last l d].
Proof. intros H. apply app_removelast_last; auto. Qed.

Lemma places_sorted (chunk : list pt) v : StronglySorted Nat.lt (places chunk v).
Proof.
  unfold places. generalize (length chunk) 0%nat. induction n as [|n IH]; intros s; cbn; [constructor|]. destruct (pteqb _ v); auto. constructor; auto.
  rewrite Forall_forall. intros x Hx. apply filter_In in Hx. destruct Hx as [Hx _]. apply in_seq in Hx. lia.
Qed.
Lemma in_places chunk v p : In p (places chunk v) <-> (p < length chunk)%nat /\ nth p chunk d0 = v.
Proof. unfold places. rewrite filter_In, in_seq, pteqb_ok. split; intros [A B]; split; auto; lia. Qed.
Lemma last_in {A} (l : list A) d : l <> [] -> In (last l d) l.
Proof. intros H. rewrite (snoc_last l d H) at 2. apply in_or_app. cbn; auto. Qed.
Lemma nth_skipn {A} (d : A) : forall a k l, nth k (skipn a l) d = nth (a + k) l d.
Proof. induction a as [|a IH]; intros k l; auto. destruct l as [|x l]; cbn; [destruct k; auto|apply IH]. Qed.
Lemma nth_firstn {A} (d : A) : forall a k l, (k < a)%nat -> nth k (firstn a l) d = nth k l d.
Proof. induction a as [|a IH]; intros [|k] [|x l] H; cbn; auto; try lia. apply IH. lia. Qed.

(** pieces run from the value to the value and are shorter *)
Lemma pieces_closed (chunk : list pt) v : forall sp a, StronglySorted Nat.lt (a :: sp) -> (forall p, In p (a :: sp) -> (p < length chunk)%nat /\ nth p chunk d0 = v) ->
  Forall (fun c => closedc c /\ exists x y, (x < y)%nat /\ In x (a :: sp) /\ In y (a :: sp) /\ (forall z, In z (a :: sp) -> z <= x \/ y <= z)%nat /\ length c = S (y - x)) (pieces chunk (a :: sp)).
Proof.
  induction sp as [|b sp IH]; intros a HS HP; [constructor|].
  inversion HS as [|? ? H1 H2]; subst. assert (ab : (a < b)%nat) by (inversion H2; auto).
  change (pieces chunk (a :: b :: sp)) with (range_incl chunk a b :: pieces chunk (b :: sp)). constructor.
  - destruct (HP a ltac:(cbn; auto)) as [La Va]. destruct (HP b ltac:(cbn; auto)) as [Lb Vb].
    assert (Len : length (range_incl chunk a b) = S (b - a)) by (unfold range_incl; rewrite firstn_length, skipn_length; lia).
    split.
    + split; [intros E; rewrite E in Len; discriminate|]. rewrite hd_nth, last_nth, Len. unfold range_incl. rewrite !nth_firstn by lia. rewrite !nth_skipn.
      replace (a + 0)%nat with a by lia. replace (a + (S (b - a) - 1))%nat with b by lia. congruence.
    + exists a, b. split; [auto|]. split; [cbn; auto|]. split; [cbn; auto|]. split; [|auto]. intros z [<-|[<-|Hz]]; auto. right. inversion H1 as [|? ? _ F]; subst. rewrite Forall_forall in F. specialize (F _ Hz). lia.
  - eapply Forall_impl; [|apply (IH b H1)].
    + intros c [C (x & y & A1 & A2 & A3 & A4 & A5)]. split; auto. exists x, y. split; [auto|]. split; [right; auto|]. split; [right; auto|]. split; [|auto]. intros z [<-|Hz]; auto.
      left. destruct A2 as [<-|A2]; [lia|]. inversion H2 as [|? ? _ F]; subst. rewrite Forall_forall in F. specialize (F _ A2). lia.
    + intros p Hp. apply HP. right; auto.
Qed.

Section S.
  Variable sorti : list pt -> list nat.
  Hypothesis HS : sorti_ok sorti.
  Definition mu (c : list pt) : nat := (2 * length c + (if pteqb (hd d0 c) (last c d0) then 0 else 1))%nat.
  Definition result (c : list pt) (new : list (list pt)) : Prop :=
    if pteqb (hd d0 c) (last c d0)
    then Forall simple_cycle new /\ Permutation (concat (map steps new)) (proper pteqb (steps c))
    else (NoDup c /\ new = [c]) \/
         (~ NoDup c /\ Forall simple_cycle new /\ Permutation (concat (map steps new)) (proper pteqb ((last c d0, hd d0 c) :: steps c))).

  Lemma result_closed c new : closedc c -> result c new -> Forall simple_cycle new /\ Permutation (concat (map steps new)) (proper pteqb (steps c)).
  Proof. intros [_ C] R. unfold result in R. rewrite C, pteqb_refl in R. exact R. Qed.

  Lemma fold_split f : (forall c out, closedc c -> (mu c < f)%nat -> exists new, split_rec sorti f c out = Ret (out ++ new) /\ result c new) ->
    forall ps out, Forall (fun c => closedc c /\ (mu c < f)%nat) ps -> exists new, foldM (fun o p => split_rec sorti f p o) ps out = Ret (out ++ new) /\
      Forall simple_cycle new /\ Permutation (concat (map steps new)) (concat (map (fun c => proper pteqb (steps c)) ps)).
  Proof.
    intros IH. induction ps as [|c ps IHp]; intros out HF.
    - exists []. cbn. rewrite app_nil_r. auto.
    - inversion HF as [|? ? [C M] HF2]; subst. destruct (IH c out C M) as (n1 & E1 & R1). apply (result_closed _ _ C) in R1. destruct R1 as [S1 P1].
      destruct (IHp (out ++ n1) HF2) as (n2 & E2 & S2 & P2). exists (n1 ++ n2). cbn [foldM]. rewrite E1. cbn [bind]. rewrite E2, <- app_assoc. split; auto.
      split; [apply Forall_app; auto|]. rewrite map_app, concat_app. cbn [map concat]. now apply Permutation_app.
  Qed.

  Lemma split_ok : forall fuel c out, c <> [] -> (mu c < fuel)%nat -> exists new, split_rec sorti fuel c out = Ret (out ++ new) /\ result c new.
  Proof.
    induction fuel as [|fuel IH]; intros c out Hc Hmu; [lia|]. cbn [split_rec].
    destruct c as [|a [|b rest]]; [congruence| |].
    { exists []. rewrite app_nil_r. split; auto. unfold result. cbn. rewrite pteqb_refl. cbn. auto. }
    set (c := a :: b :: rest) in *.
    destruct ((match rest with [] => true | _ => false end) && pteqb a b) eqn:E2.
    { apply andb_true_iff in E2. destruct E2 as [E2 E3]. destruct rest; [|discriminate]. apply pteqb_ok in E3. subst b. exists []. rewrite app_nil_r. split; auto.
      unfold result, c. cbn. rewrite !pteqb_refl. cbn. auto. }
    assert (Hn : (2 <= length c)%nat) by (unfold c; cbn; lia).
    assert (El : last c a = last c d0) by (apply last_indep; auto). rewrite El. change a with (hd d0 c) at 1.
    destruct (find_group_all sorti HS c ltac:(lia)) as [[Ef HN]|(v & Ef & L2 & NE)]; rewrite Ef; cbn [bind].
    - exists [c]. split; auto. unfold result. destruct (pteqb (hd d0 c) (last c d0)) eqn:EC.
      + apply pteqb_ok in EC.
        assert (SC : simple_cycle c).
        { assert (E : c = a :: (removelast (b :: rest) ++ [last (b :: rest) d0])).
          { unfold c. f_equal. apply snoc_last. discriminate. }
          assert (La : last (b :: rest) d0 = a) by (change (last (b :: rest) d0) with (last c d0); rewrite <- EC; reflexivity). rewrite La in E.
          exists a, (removelast (b :: rest)). split; [exact E|]. split.
          - destruct rest as [|x rest]; [|discriminate]. exfalso. cbn in La. subst b. rewrite pteqb_refl in E2. discriminate.
          - assert (Et : removelast (b :: rest) ++ [a] = tl c) by (rewrite E; reflexivity). rewrite Et. apply (NoDup_nth (tl c) d0). intros i j Hi Hj Ee.
            assert (Lt : length c = S (length (tl c))) by reflexivity.
            destruct (Nat.lt_trichotomy i j) as [L|[L|L]]; auto; exfalso.
            + destruct (HN (S i) (S j) ltac:(lia) Ee) as [X _]. lia.
            + destruct (HN (S j) (S i) ltac:(lia) (eq_sym Ee)) as [X _]. lia. }
        split; [repeat constructor; auto|]. cbn [map concat]. rewrite app_nil_r, proper_simple by auto. reflexivity.
      + left. split; auto. apply (NoDup_nth c d0). intros i j Hi Hj Ee. apply pteqb_no in EC. rewrite hd_nth, last_nth in EC.
        destruct (Nat.lt_trichotomy i j) as [L|[L|L]]; auto; exfalso.
        * destruct (HN i j ltac:(lia) Ee) as [-> ->]. auto.
        * destruct (HN j i ltac:(lia) (eq_sym Ee)) as [-> ->]. auto.
    - set (sp := places c v) in *. pose proof (places_sorted c v) as SS. fold sp in SS.
      assert (IP : forall p, In p sp -> (p < length c)%nat /\ nth p c d0 = v) by (intros p Hp; apply in_places; auto).
      destruct sp as [|p0 sp'] eqn:Esp; [cbn in L2; lia|]. rewrite <- Esp in *.
      assert (nsp : sp <> []) by (rewrite Esp; discriminate).
      set (pl := last sp 0%nat). assert (Ipl : In pl sp) by (apply last_in; auto). assert (Ip0 : In p0 sp) by (rewrite Esp; cbn; auto).
      destruct (IP pl Ipl) as [Lpl Vpl]. destruct (IP p0 Ip0) as [Lp0 Vp0].
      assert (p0pl : (p0 < pl)%nat).
      { rewrite Esp in SS. apply StronglySorted_inv in SS. destruct SS as [A B]. destruct sp' as [|q sp'']; [rewrite Esp in L2; cbn in L2; lia|]. rewrite Forall_forall in B. apply B.
        unfold pl. rewrite Esp. change (last (p0 :: q :: sp'') 0%nat) with (last (q :: sp'') 0%nat). apply last_in. discriminate. }
      assert (ST : steps c = steps (firstn (S p0) c) ++ concat (map steps (pieces c sp)) ++ steps (skipn pl c)).
      { rewrite (steps_split p0 c Lp0). f_equal. unfold pl. rewrite Esp. apply steps_pieces; rewrite <- Esp; auto. }
      assert (PC : Forall (fun q => closedc q /\ exists x y, (x < y)%nat /\ In x sp /\ In y sp /\ (forall z, In z sp -> z <= x \/ y <= z)%nat /\ length q = S (y - x)) (pieces c sp)).
      { rewrite Esp. apply (pieces_closed c v); rewrite <- Esp; auto. }
      assert (Esk : skipn pl c = v :: skipn (S pl) c) by (rewrite (skipn_nth d0) by auto; congruence).
      assert (Lsk : last (skipn pl c) d0 = last c d0) by (rewrite !last_nth, nth_skipn, skipn_length; f_equal; lia).
      assert (Nsp0 : nth 0 sp 0%nat = p0) by (rewrite Esp; reflexivity).
      set (B := bnd_arr (pteqb (hd d0 c) (last c d0)) c sp).
      assert (HB : closedc B /\ (mu B < fuel)%nat /\ Permutation (steps B) ((if pteqb (hd d0 c) (last c d0) then [] else [(last c d0, hd d0 c)]) ++ steps (firstn (S p0) c) ++ steps (skipn pl c))).
      { unfold B, bnd_arr. fold pl. rewrite Nsp0. unfold mu in Hmu. destruct (pteqb (hd d0 c) (last c d0)) eqn:EC.
        - apply pteqb_ok in EC. rewrite Nat.add_0_r. change (skipn 1 c) with (tl c).
          set (F := firstn p0 (tl c)). assert (EF : firstn (S p0) c = hd d0 c :: F) by reflexivity.
          assert (LF : length F = p0) by (unfold F; rewrite firstn_length; change (length c) with (S (length (tl c))) in Lp0; lia).
          assert (LB : length (skipn pl c ++ F) = (length c - pl + p0)%nat) by (rewrite app_length, skipn_length, LF; lia).
          assert (CB : closedc (skipn pl c ++ F)).
          { split; [intros E; rewrite E in LB; change (length (@nil pt)) with 0%nat in LB; lia|]. rewrite hd_nth, last_nth, LB. rewrite Esk at 1. cbn [app nth].
            destruct p0 as [|p0].
            - assert (F0 : F = []) by reflexivity. rewrite F0, app_nil_r. replace (length c - pl + 0 - 1)%nat with (length (skipn pl c) - 1)%nat by (rewrite skipn_length; lia).
              rewrite <- last_nth, Lsk, <- EC. rewrite hd_nth. auto.
            - rewrite app_nth2; rewrite skipn_length; [|lia]. replace (length c - pl + S p0 - 1 - (length c - pl))%nat with p0 by lia.
              unfold F. rewrite nth_firstn by lia. change (nth p0 (tl c) d0) with (nth (S p0) c d0). auto. }
          split; [exact CB|]. split.
          + unfold mu. destruct CB as [_ CB]. rewrite CB, pteqb_refl, LB. lia.
          + cbn [app]. rewrite (snoc_last (skipn pl c) d0) at 1 by (rewrite Esk; discriminate). rewrite steps_glue, <- (snoc_last (skipn pl c) d0) by (rewrite Esk; discriminate).
            rewrite Lsk, <- EC, <- EF. apply Permutation_app_comm.
        - replace (p0 + 1)%nat with (S p0) by lia. cbn [skipn]. set (F := firstn (S p0) c).
          assert (LF : length F = S p0) by (unfold F; rewrite firstn_length; lia).
          assert (LB : length (skipn pl c ++ F) = (length c - pl + S p0)%nat) by (rewrite app_length, skipn_length, LF; lia).
          assert (CB : closedc (skipn pl c ++ F)).
          { split; [intros E; rewrite E in LB; change (length (@nil pt)) with 0%nat in LB; lia|]. rewrite hd_nth, last_nth, LB. rewrite Esk at 1. cbn [app nth].
            rewrite app_nth2; rewrite skipn_length; [|lia]. replace (length c - pl + S p0 - 1 - (length c - pl))%nat with p0 by lia.
            unfold F. rewrite nth_firstn by lia. auto. }
          split; [exact CB|]. split.
          + unfold mu. destruct CB as [_ CB]. rewrite CB, pteqb_refl, LB. lia.
          + rewrite (snoc_last (skipn pl c) d0) at 1 by (rewrite Esk; discriminate). rewrite steps_glue, <- (snoc_last (skipn pl c) d0) by (rewrite Esk; discriminate).
            rewrite Lsk. assert (EF : F = hd d0 c :: tl F) by reflexivity. rewrite EF at 1. rewrite steps_cons2, <- EF. cbn [app].
            rewrite <- Permutation_middle. constructor. apply Permutation_app_comm. }
      destruct HB as (CB & MB & PB). destruct (IH B out (proj1 CB) MB) as (n1 & E1 & R1). apply (result_closed _ _ CB) in R1. destruct R1 as [S1 P1].
      rewrite E1. cbn [bind].
      assert (PM : Forall (fun q => closedc q /\ (mu q < fuel)%nat) (pieces c sp)).
      { eapply Forall_impl; [|exact PC]. intros q [C (x & y & A1 & A2 & A3 & A4 & A5)]. split; auto. unfold mu in *. destruct C as [_ C]. rewrite C, pteqb_refl, A5.
        destruct (IP x A2) as [X1 X2]. destruct (IP y A3) as [Y1 Y2].
        destruct (pteqb (hd d0 c) (last c d0)) eqn:EC; [|lia].
        assert (~ (x = 0%nat /\ y = (length c - 1)%nat)); [|lia]. intros [-> ->]. apply NE.
        assert (Z : forall z, In z sp -> z = 0%nat \/ z = (length c - 1)%nat) by (intros z Hz; destruct (IP z Hz); destruct (A4 z Hz); lia).
        clear -Z SS L2 A2 A3 A1. destruct sp as [|s1 [|s2 [|s3 l]]]; cbn in L2; try lia.
        - inversion SS as [|? ? _ F]; subst. inversion F; subst. destruct (Z s1 ltac:(cbn; auto)), (Z s2 ltac:(cbn; auto)); subst; try lia. reflexivity.
        - exfalso. inversion SS as [|? ? SS2 F]; subst. inversion F as [|? ? F1 F2]; subst. inversion SS2 as [|? ? _ G]; subst. inversion G; subst.
          destruct (Z s1 ltac:(cbn; auto)), (Z s2 ltac:(cbn; auto)), (Z s3 ltac:(cbn; auto)); subst; lia. }
      destruct (fold_split fuel (fun q o C M => IH q o (proj1 C) M) (pieces c sp) (out ++ n1) PM) as (n2 & EE & S2 & P2).
      exists (n1 ++ n2). rewrite EE, <- app_assoc. split; auto.
      assert (FS : Forall simple_cycle (n1 ++ n2)) by (apply Forall_app; auto).
      assert (PP : Permutation (concat (map steps (n1 ++ n2))) (proper pteqb ((if pteqb (hd d0 c) (last c d0) then [] else [(last c d0, hd d0 c)]) ++ steps c))).
      { rewrite map_app, concat_app, P1, P2, (proper_perm _ _ _ PB), ST.
        rewrite <- map_map, <- proper_concat, <- proper_app. apply proper_perm. rewrite <- !app_assoc. apply Permutation_app_head. apply Permutation_app_head. apply Permutation_app_comm. }
      unfold result. destruct (pteqb (hd d0 c) (last c d0)) eqn:EC; [auto|]. right. split; [|auto].
      intros ND. rewrite (NoDup_nth c d0) in ND. specialize (ND p0 pl Lp0 Lpl ltac:(congruence)). lia.
  Qed.

  Lemma SplitChunk_ok c out : c <> [] -> exists new, SplitChunk sorti c out = Ret (out ++ new) /\ result c new.
  Proof. intros H. apply split_ok; auto. unfold mu. destruct (pteqb _ _); lia. Qed.
End S.
