(** rotateVLoop *)
From Verif Require Import Base ArraysModel LoopModel LoopSpec LoopProofs2 LoopProofs3 LoopProofs4.
Import ListNotations.

Lemma ptltb_irrefl a : ptltb a a = false.
Proof. destruct a as [x y]. unfold ptltb; cbn. rewrite Z.eqb_refl. apply Z.ltb_irrefl. Qed.
Lemma ptltb_asym a b : ptltb a b = true -> ptltb b a = false.
Proof. destruct a as [a1 a2], b as [b1 b2]. unfold ptltb; cbn. rewrite (Z.eqb_sym b1 a1). destruct (Z.eqb_spec a1 b1); rewrite ?Z.ltb_lt, ?Z.ltb_ge; lia. Qed.
Lemma ptltb_le_lt x v w : ptltb x v = true -> ptltb w v = false -> ptltb x w = true.
Proof.
  intros A B. destruct (ptltb x w) eqn:E; auto. exfalso. assert (X : ptltb x v = false) by (apply (ptltb_trans v w x); auto). congruence.
Qed.

Lemma find_min_ok : forall l pre nsi v, (pre ++ l <> []) -> nth nsi (pre ++ l) d0 = v -> (nsi < length (pre ++ l))%nat ->
  (forall i, (i < length pre)%nat -> ptltb (nth i (pre ++ l) d0) v = false) -> (forall i, (i < nsi)%nat -> ptltb v (nth i (pre ++ l) d0) = true) -> (nsi <= length pre)%nat ->
  let m := find_min l (length pre) nsi v in
  (m < length (pre ++ l))%nat /\ (forall i, (i < length (pre ++ l))%nat -> ptltb (nth i (pre ++ l) d0) (nth m (pre ++ l) d0) = false) /\
  (forall i, (i < m)%nat -> ptltb (nth m (pre ++ l) d0) (nth i (pre ++ l) d0) = true).
Proof.
  induction l as [|x l IH]; intros pre nsi v Hne Hv Hn HA HB Hp; cbn [find_min].
  - rewrite app_nil_r in *. split; auto. rewrite Hv. split; auto.
  - assert (E : pre ++ x :: l = (pre ++ [x]) ++ l) by (rewrite <- app_assoc; reflexivity).
    assert (Nx : nth (length pre) (pre ++ x :: l) d0 = x) by (rewrite app_nth2, Nat.sub_diag; auto).
    assert (L1 : length (pre ++ [x]) = S (length pre)) by (rewrite app_length; cbn; lia).
    destruct (ptltb x v) eqn:EX.
    + specialize (IH (pre ++ [x]) (length pre) x). rewrite <- E, L1 in IH. apply IH; auto.
      * rewrite app_length; cbn; lia.
      * intros i Hi. destruct (Nat.eq_dec i (length pre)) as [->|]; [rewrite Nx; apply ptltb_irrefl|]. apply ptltb_asym. apply (ptltb_le_lt x v); auto. apply HA; lia.
      * intros i Hi. apply (ptltb_le_lt x v); auto.
    + specialize (IH (pre ++ [x]) nsi v). rewrite <- E, L1 in IH. apply IH; auto.
      intros i Hi. destruct (Nat.eq_dec i (length pre)) as [->|]; [rewrite Nx; auto|]. apply HA; lia.
Qed.
Lemma find_min_all slk : slk <> [] -> let m := find_min slk 0 0 (hd d0 slk) in
  (m < length slk)%nat /\ (forall i, (i < length slk)%nat -> ptltb (nth i slk d0) (nth m slk d0) = false) /\ (forall i, (i < m)%nat -> ptltb (nth m slk d0) (nth i slk d0) = true).
Proof.
  intros H. apply (find_min_ok slk [] 0 (hd d0 slk)); cbn [app length]; auto; try (intros; lia).
  - symmetry. apply hd_nth.
  - destruct slk; [congruence|cbn; lia].
Qed.

Lemma combine_app {A B} : forall (l1 l2 : list A) (m1 m2 : list B), length l1 = length m1 -> combine (l1 ++ l2) (m1 ++ m2) = combine l1 m1 ++ combine l2 m2.
Proof. induction l1 as [|a l1 IH]; intros l2 [|b m1] m2 H; cbn in *; try lia; auto. f_equal. apply IH. lia. Qed.
Lemma steps_rev : forall l : list pt, steps (rev l) = rev (map flip4 (steps l)).
Proof.
  induction l as [|a l IH]; [reflexivity|]. destruct l as [|b l]; [reflexivity|]. rewrite steps_cons2. cbn [map rev flip4 fst snd] in *.
  rewrite <- IH. rewrite (steps_glue (rev l) b [a]). reflexivity.
Qed.

(** the loop turned to start at position [m] *)
Definition turned (slk : list pt) (m : nat) : list pt := if (m =? 0)%nat then slk else skipn m slk ++ firstn m (skipn 1 slk).

Section R.
  Variable slk : list pt.
  Hypothesis Hc : hd d0 slk = last slk d0.
  Hypothesis Hn : (2 <= length slk)%nat.
  Variable m : nat.
  Hypothesis Hm : (m < length slk)%nat.
  Notation n := (length slk).

  Lemma turned_form : m <> 0%nat -> turned slk m = skipn m slk ++ firstn m (tl slk) /\ firstn (S m) slk = hd d0 slk :: firstn m (tl slk).
  Proof. intros H. unfold turned. destruct (Nat.eqb_spec m 0); [congruence|]. destruct slk as [|s l]; [cbn in Hn; lia|]. split; reflexivity. Qed.
  Lemma turned_length : length (turned slk m) = n.
  Proof. unfold turned. destruct (m =? 0)%nat; auto. rewrite app_length, firstn_length, !skipn_length. lia. Qed.
  Lemma turned_nth i : (i < n)%nat -> nth i (turned slk m) d0 = if (m + i <? n)%nat then nth (m + i) slk d0 else nth (S (m + i) - n) slk d0.
  Proof.
    intros Hi. unfold turned. destruct (Nat.eqb_spec m 0) as [->|H].
    - cbn [Nat.add]. destruct (Nat.ltb_spec i n); [auto|lia].
    - destruct (Nat.ltb_spec (m + i) n).
      + rewrite app_nth1 by (rewrite skipn_length; lia). apply nth_skipn.
      + rewrite app_nth2; rewrite skipn_length; [|lia]. rewrite nth_firstn by lia. rewrite nth_skipn. f_equal. lia.
  Qed.
  Lemma last_skipn : last (skipn m slk) d0 = hd d0 slk.
  Proof. rewrite Hc, !last_nth, nth_skipn, skipn_length. f_equal. lia. Qed.
  Lemma turned_steps : Permutation (steps (turned slk m)) (steps slk).
  Proof.
    destruct (Nat.eq_dec m 0) as [E|E]; [unfold turned; rewrite E; reflexivity|]. destruct (turned_form E) as [-> F].
    assert (NN : skipn m slk <> []) by (intros X; apply (f_equal (@length pt)) in X; rewrite skipn_length in X; cbn in X; lia).
    rewrite (snoc_last (skipn m slk) d0 NN) at 1. rewrite steps_glue, <- (snoc_last (skipn m slk) d0 NN), last_skipn, <- F.
    rewrite (steps_split m slk Hm). apply Permutation_app_comm.
  Qed.
  Lemma turned_hd : hd d0 (turned slk m) = nth m slk d0.
  Proof. rewrite hd_nth, turned_nth by lia. rewrite Nat.add_0_r. destruct (Nat.ltb_spec m n); auto; lia. Qed.
  Lemma turned_last : last (turned slk m) d0 = nth m slk d0.
  Proof.
    rewrite last_nth, turned_length, turned_nth by lia. destruct (Nat.ltb_spec (m + (n - 1)) n).
    - assert (m = 0)%nat by lia. subst m. cbn [Nat.add]. rewrite <- last_nth, <- Hc, hd_nth. auto.
    - f_equal. lia.
  Qed.
  Lemma turned_tl_perm : Permutation (tl (turned slk m)) (tl slk).
  Proof.
    destruct (Nat.eq_dec m 0) as [E|E]; [unfold turned; rewrite E; reflexivity|]. destruct (turned_form E) as [-> _].
    rewrite (skipn_nth d0 m slk Hm). cbn [app tl]. rewrite Permutation_app_comm.
    assert (X : tl slk = firstn m (tl slk) ++ skipn (S m) slk).
    { rewrite <- (firstn_skipn m (tl slk)) at 1. f_equal. destruct slk; [cbn in Hn; lia|reflexivity]. }
    rewrite X at 2. reflexivity.
  Qed.
End R.

Lemma simple_closed (l : list pt) : simple_cycle l -> hd d0 l = last l d0 /\ (3 <= length l)%nat /\ NoDup (tl l).
Proof.
  intros (a & m & -> & M & N). cbn [hd tl]. split; [|split; auto].
  - change (a :: m ++ [a]) with ((a :: m) ++ [a]). rewrite last_last. reflexivity.
  - cbn. rewrite app_length. cbn. destruct m; [congruence|cbn; lia].
Qed.
Lemma closed_simple (l : list pt) : hd d0 l = last l d0 -> (3 <= length l)%nat -> NoDup (tl l) -> simple_cycle l.
Proof.
  intros H L N. destruct l as [|a l]; [cbn in L; lia|]. cbn [tl hd] in *. assert (NE : l <> []) by (destruct l; [cbn in L; lia|discriminate]).
  exists a, (removelast l). assert (E : l = removelast l ++ [a]).
  { rewrite (snoc_last l d0 NE) at 1. f_equal. f_equal. rewrite H. destruct l; [congruence|reflexivity]. }
  rewrite <- E. split; [reflexivity|]. split; [|auto]. intros X. rewrite X in E. rewrite E in L. cbn in L. lia.
Qed.
Lemma rev_simple (l : list pt) : simple_cycle l -> simple_cycle (rev l).
Proof.
  intros (a & m & -> & M & N). cbn [rev]. rewrite rev_app_distr. cbn [app rev]. exists a, (rev m). split; auto. split.
  - intros X. apply M. rewrite <- (rev_involutive m), X. reflexivity.
  - apply Permutation_NoDup with (m ++ [a]); auto. apply Permutation_app; auto. apply Permutation_rev.
Qed.

Lemma rotate_form slk : (2 <= length slk)%nat -> exists r, rotateVLoop slk = Ret r /\
  let m := find_min slk 0 0 (hd d0 slk) in
  if pteqb (hd d0 slk) (last slk d0) then
    r = (if (if (0 <? m)%nat && (m + 1 <? length slk)%nat then ptltb (nth (m + 1) slk d0) (nth (m - 1) slk d0) else ptltb (nth (length slk - 2) slk d0) (nth 1 slk d0)) then rev (turned slk m) else turned slk m)
  else r = if ptltb (last slk d0) (hd d0 slk) then rev slk else slk.
Proof.
  intros Hn. destruct slk as [|s l]; [cbn in Hn; lia|]. cbv zeta. set (slk := s :: l) in *.
  unfold rotateVLoop. unfold slk at 1. cbv iota. fold slk.
  assert (El : last slk s = last slk d0) by (apply last_indep; discriminate). rewrite El. change (hd d0 slk) with s.
  set (m := find_min slk 0 0 s).
  destruct (pteqb s (last slk d0)) eqn:EC.
  - assert (Hm : (m < length slk)%nat) by (apply (find_min_all slk ltac:(discriminate))).
    assert (B : exists fl, (if (0 <? m)%nat && (m + 1 <? length slk)%nat then a <- rd slk (m + 1);; b <- rd slk (m - 1);; Ret (ptltb a b)
                 else if (length slk <? 2)%nat then Err OutOfBounds else a <- rd slk (length slk - 2);; b <- rd slk 1;; Ret (ptltb a b)) = Ret fl /\
                 fl = (if (0 <? m)%nat && (m + 1 <? length slk)%nat then ptltb (nth (m + 1) slk d0) (nth (m - 1) slk d0) else ptltb (nth (length slk - 2) slk d0) (nth 1 slk d0))).
    { destruct (Nat.ltb_spec 0 m), (Nat.ltb_spec (m + 1) (length slk)); cbn [andb].
      1:{ rewrite (rd_ok slk (m + 1) d0), (rd_ok slk (m - 1) d0) by lia. cbn [bind]. eauto. }
      all: destruct (Nat.ltb_spec (length slk) 2); [lia|]; rewrite (rd_ok slk (length slk - 2) d0), (rd_ok slk 1 d0) by lia; cbn [bind]; eauto. }
    destruct B as (fl & EB & EF). rewrite EB. cbn [bind]. rewrite <- EF. eexists. split; [|reflexivity].
    assert (TR : rev (firstn m (skipn 1 slk)) ++ rev (skipn m slk) = rev (turned slk m)).
    { unfold turned. destruct (Nat.eqb_spec m 0) as [->|]; [reflexivity|]. rewrite rev_app_distr. reflexivity. }
    destruct fl; [rewrite TR; reflexivity|]. unfold turned. destruct (m =? 0)%nat; reflexivity.
  - destruct (ptltb (last slk d0) s); eexists; (split; [reflexivity|reflexivity]).
Qed.

Lemma rev_hd (l : list pt) : l <> [] -> hd d0 (rev l) = last l d0.
Proof. intros H. rewrite (snoc_last l d0 H) at 1. rewrite rev_app_distr. reflexivity. Qed.

Lemma rotate_simple slk : simple_cycle slk -> exists r, rotateVLoop slk = Ret r /\ simple_cycle r /\ length r = length slk /\
  (Permutation (steps r) (steps slk) \/ Permutation (steps r) (map flip4 (steps slk))) /\
  (forall v, In v slk -> ptltb v (hd d0 r) = false) /\
  (hd d0 slk = hd d0 r -> ptltb (nth (length r - 2) r d0) (nth 1 r d0) = false) /\
  (hd d0 slk <> hd d0 r -> ptltb (nth 1 r d0) (nth (length r - 2) r d0) = false).
Proof.
  intros SC. pose proof (simple_closed slk SC) as (Hc & Hn & ND).
  assert (Hn2 : (2 <= length slk)%nat) by lia. assert (NE : slk <> []) by (destruct slk; [cbn in Hn; lia|discriminate]).
  destruct (rotate_form slk Hn2) as (r & Er & Fr). cbv zeta in Fr. rewrite Er. exists r. split; [reflexivity|].
  pose proof (find_min_all slk NE) as (Hm & Mall & Mlt). set (m := find_min slk 0 0 (hd d0 slk)) in *.
  rewrite <- Hc, pteqb_refl in Fr.
  set (fl := if (0 <? m)%nat && (m + 1 <? length slk)%nat then ptltb (nth (m + 1) slk d0) (nth (m - 1) slk d0) else ptltb (nth (length slk - 2) slk d0) (nth 1 slk d0)) in Fr.
  pose proof (turned_length slk Hn2 m Hm) as TL. pose proof (turned_hd slk Hn2 m Hm) as TH. pose proof (turned_last slk Hc Hn2 m Hm) as TLa.
  pose proof (turned_steps slk Hc Hn2 m Hm) as TS. pose proof (turned_tl_perm slk Hc Hn2 m Hm) as TP.
  assert (NT : turned slk m <> []) by (intros X; rewrite X in TL; cbn in TL; lia).
  assert (ST : simple_cycle (turned slk m)). { apply closed_simple; [congruence|lia|]. apply Permutation_NoDup with (tl slk); auto. symmetry; auto. }
  assert (HR : hd d0 r = nth m slk d0).
  { rewrite Fr. destruct fl; auto. rewrite rev_hd; auto. }
  assert (M0 : hd d0 slk = hd d0 r <-> m = 0%nat).
  { rewrite HR. split; intros E; [|rewrite E; apply hd_nth]. destruct (Nat.eq_dec m 0); auto. exfalso.
    specialize (Mlt 0%nat ltac:(lia)). rewrite <- hd_nth, E in Mlt. rewrite ptltb_irrefl in Mlt. discriminate. }
  assert (LR : length r = length slk) by (rewrite Fr; destruct fl; rewrite ?rev_length; auto).
  assert (FLE : m <> 0%nat -> (m + 1 < length slk)%nat).
  { intros Z. destruct (Nat.eq_dec (m + 1) (length slk)); [|lia]. exfalso. specialize (Mlt 0%nat ltac:(lia)).
    rewrite <- hd_nth, Hc, last_nth in Mlt. replace (length slk - 1)%nat with m in Mlt by lia. rewrite ptltb_irrefl in Mlt. discriminate. }
  assert (N1 : nth 1 (turned slk m) d0 = nth (m + 1) slk d0).
  { rewrite turned_nth by (auto; lia). destruct (Nat.ltb_spec (m + 1) (length slk)); auto. destruct (Nat.eq_dec m 0); [lia|]. specialize (FLE n). lia. }
  assert (N2 : m <> 0%nat -> nth (length slk - 2) (turned slk m) d0 = nth (m - 1) slk d0).
  { intros Z. specialize (FLE Z). rewrite turned_nth by (auto; lia). destruct (Nat.ltb_spec (m + (length slk - 2)) (length slk)).
    - assert (m = 1)%nat by lia. replace (m + (length slk - 2))%nat with (length slk - 1)%nat by lia. rewrite <- last_nth, <- Hc, hd_nth. f_equal. lia.
    - f_equal. lia. }
  assert (N2' : m = 0%nat -> turned slk m = slk) by (intros ->; reflexivity).
  assert (RV : forall i, (i < length slk)%nat -> nth i (rev (turned slk m)) d0 = nth (length slk - S i) (turned slk m) d0).
  { intros i Hi. rewrite rev_nth by lia. rewrite TL. reflexivity. }
  split; [rewrite Fr; destruct fl; auto; apply rev_simple; auto|]. split; [auto|]. split.
  { rewrite Fr. destruct fl; [right|left; auto]. rewrite steps_rev. rewrite <- Permutation_rev. apply Permutation_map. auto. }
  split. { intros v Hv. rewrite HR. destruct (In_nth slk v d0 Hv) as (i & Hi & <-). apply Mall; auto. }
  rewrite LR. split; intros E.
  - apply M0 in E. assert (EF : fl = ptltb (nth (length slk - 2) slk d0) (nth 1 slk d0)) by (unfold fl; rewrite E; reflexivity).
    specialize (N2' E). rewrite Fr. destruct fl eqn:EE.
    + rewrite !RV by lia. rewrite N2'. replace (length slk - S (length slk - 2))%nat with 1%nat by lia. replace (length slk - 2)%nat with (length slk - 2)%nat by lia.
      apply ptltb_asym. auto.
    + rewrite N2'. auto.
  - assert (Z : m <> 0%nat) by (intros X; apply E, M0; auto). specialize (FLE Z). specialize (N2 Z).
    assert (EF : fl = ptltb (nth (m + 1) slk d0) (nth (m - 1) slk d0)).
    { unfold fl. destruct (Nat.ltb_spec 0 m); [|lia]. destruct (Nat.ltb_spec (m + 1) (length slk)); [reflexivity|lia]. }
    rewrite Fr. destruct fl eqn:EE.
    + rewrite !RV by lia. replace (length slk - S (length slk - 2))%nat with 1%nat by lia. rewrite N1, N2. apply ptltb_asym. auto.
    + rewrite N1, N2. auto.
Qed.

Lemma rotate_open slk : slk <> [] -> hd d0 slk <> last slk d0 -> rotateVLoop slk = Ret (if ptltb (last slk d0) (hd d0 slk) then rev slk else slk).
Proof.
  intros NE H. assert (Hn : (2 <= length slk)%nat). { destruct slk as [|a [|b l]]; cbn in *; try congruence. lia. }
  destruct (rotate_form slk Hn) as (r & Er & Fr). cbv zeta in Fr. destruct (pteqb (hd d0 slk) (last slk d0)) eqn:E.
  - apply pteqb_ok in E. congruence.
  - congruence.
Qed.
