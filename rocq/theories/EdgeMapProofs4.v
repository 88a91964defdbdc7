(** Proofs about the edge map of an agglomeration step: merging sorted rows, the order of the tuples, first occurrences. *)
From Verif Require Import Base ArraysModel EQCModel UtilProofs EQCProofs EQCProofs2 HybMatProofs MISProofs AggMapModel AggMapProofs EdgeMapModel EdgeMapProofs EdgeMapProofs2 EdgeMapProofs3.
Local Open Scope nat_scope.

(** *** merge_arrays of sorted rows *)
Section MergeBy.
  Context {T : Type} (less eqb : T -> T -> bool).
  Hypotheses (HL : strict_total less) (HQ : forall a b, eqb a b = true <-> a = b).
  Notation ss := (StronglySorted (fun a b => less a b = true)).
  Lemma first_head_none (rows : list (list T)) : first_head_by rows = None -> concat rows = [].
  Proof. induction rows as [|[|h t] rows IH]; cbn; auto. discriminate. Qed.
  Lemma first_head_some (rows : list (list T)) c : first_head_by rows = Some c -> exists t, In (c :: t) rows.
  Proof. induction rows as [|[|h t] rows IH]; cbn; [discriminate| |]. intros H. destruct (IH H) as (t & Ht). eauto. intros H. injection H as <-. eauto. Qed.
  Lemma heads_min_spec (rows : list (list T)) : forall m, (heads_min_by less eqb rows m = m \/ exists t, In (heads_min_by less eqb rows m :: t) rows) /\ less m (heads_min_by less eqb rows m) = false /\
    forall h t, In (h :: t) rows -> less h (heads_min_by less eqb rows m) = false.
  Proof.
    destruct HL as (I & TT & W). induction rows as [|[|h t] rows IH]; intros m; cbn [heads_min_by].
    - split; auto. split; auto. intros h t [].
    - destruct (IH m) as (A & B & C). split. destruct A as [->|(t & Ht)]; auto. right. exists t. now right. split; auto. intros h t [X|X]; [discriminate|]. eauto.
    - set (m' := if eqb h m then m else if less h m then h else m). destruct (IH m') as (A & B & C). set (x := heads_min_by less eqb rows m') in *.
      assert (MM : less m x = false /\ less h x = false).
      { unfold m' in *. destruct (eqb h m) eqn:E. apply HQ in E. subst h. auto. destruct (less h m) eqn:L.
        - split; auto. destruct (less m x) eqn:X; auto. rewrite (TT h m x L X) in B. discriminate.
        - split; auto. destruct (less h x) eqn:X; auto. assert (N : h <> m) by (intros ->; rewrite (proj2 (HQ m m) eq_refl) in E; discriminate). destruct (W h m N) as [Y|Y]; [congruence|]. rewrite (TT m h x Y X) in B. discriminate. }
      split; [|split; [tauto|]].
      + destruct A as [A|(u & Hu)]. rewrite A. unfold m'. destruct (eqb h m); auto. destruct (less h m); auto. right. exists t. now left. right. exists u. now right.
      + intros h' t' [X|X]; [|eauto]. injection X as <- <-. tauto.
  Qed.
  Lemma adv_len m (rows : list (list T)) : length (concat (map (advance_by eqb m) rows)) <= length (concat rows) /\ ((exists t, In (m :: t) rows) -> length (concat (map (advance_by eqb m) rows)) < length (concat rows)).
  Proof.
    induction rows as [|r rows IH]; cbn [map concat]; [split; auto; intros (t & []) | ]. rewrite !app_length. destruct IH as (A & B).
    assert (L : length (advance_by eqb m r) <= length r). { destruct r as [|h t]; cbn; auto. destruct (eqb h m); cbn; lia. }
    split; [lia|]. intros (t & [->|Ht]). cbn [advance_by length]. rewrite (proj2 (HQ m m) eq_refl). lia. specialize (B (ex_intro _ t Ht)). lia.
  Qed.
  Lemma merge_loop_by f : forall rows, length (concat rows) <= f -> (forall r, In r rows -> ss r) -> ss (merge_by_loop less eqb f rows) /\ forall x, In x (merge_by_loop less eqb f rows) <-> In x (concat rows).
  Proof.
    destruct HL as (I & TT & W). induction f as [|f IH]; intros rows LF HS.
    - cbn. destruct (concat rows) as [|a l]; [|cbn in LF; lia]. split; [constructor|]. tauto.
    - cbn [merge_by_loop]. destruct (first_head_by rows) as [c|] eqn:EC.
      + destruct (first_head_some _ _ EC) as (tc & Hc). destruct (heads_min_spec rows c) as (A & B & C). set (m := heads_min_by less eqb rows c) in *.
        assert (HM : exists t, In (m :: t) rows) by (destruct A as [->|A]; eauto). destruct (adv_len m rows) as (_ & LT). specialize (LT HM).
        assert (GT : forall r x, In r rows -> In x (advance_by eqb m r) -> less m x = true).
        { intros r x Hr Hx. pose proof (HS r Hr) as SR. destruct r as [|h t]; [destruct Hx|]. inversion SR as [|? ? S1 S2]; subst. rewrite Forall_forall in S2. cbn [advance_by] in Hx. destruct (eqb h m) eqn:E. apply HQ in E. subst h. auto.
          assert (LM : less m h = true). { assert (N : m <> h) by (intros X; rewrite X in E; rewrite (proj2 (HQ h h) eq_refl) in E; discriminate). destruct (W m h N) as [|Y]; auto. rewrite (C h t Hr) in Y. discriminate. }
          destruct Hx as [<-|Hx]; auto. apply (TT m h x); auto. }
        destruct (IH (map (advance_by eqb m) rows)) as (S1 & S2). lia.
        { intros r Hr. apply in_map_iff in Hr as (r0 & <- & Hr). specialize (HS r0 Hr). destruct r0 as [|h t]; cbn; auto. destruct (eqb h m); auto. now inversion HS. }
        split.
        * constructor; auto. apply Forall_forall. intros x Hx. apply S2 in Hx. apply in_concat in Hx as (r & Hr & Hx). apply in_map_iff in Hr as (r0 & <- & Hr). eauto.
        * intros x. cbn [In]. rewrite S2, !in_concat. split.
          -- intros [<-|(r & Hr & Hx)]. destruct HM as (t & Ht). exists (m :: t). split; auto. now left. apply in_map_iff in Hr as (r0 & <- & Hr). exists r0. split; auto. destruct r0 as [|h t]; auto. cbn in Hx. destruct (eqb h m); auto. now right.
          -- intros (r & Hr & Hx). destruct r as [|h t]; [destruct Hx|]. destruct (eqb h m) eqn:E.
             ++ apply HQ in E. subst h. destruct Hx as [|Hx]; auto. right. exists t. split; auto. apply in_map_iff. exists (m :: t). split; auto. cbn. now rewrite (proj2 (HQ m m) eq_refl).
             ++ right. exists (h :: t). split; auto. apply in_map_iff. exists (h :: t). split; auto. cbn. now rewrite E.
      + apply first_head_none in EC. rewrite EC. split; [constructor|]. tauto.
  Qed.
  Lemma merge_by_ok rows : (forall r, In r rows -> ss r) -> ss (merge_by less eqb rows) /\ forall x, In x (merge_by less eqb rows) <-> exists r, In r rows /\ In x r.
  Proof. intros H. destruct (merge_loop_by _ rows (le_n _) H) as (A & B). split; auto. intros x. unfold merge_by. rewrite B. apply in_concat. Qed.
End MergeBy.
Lemma ss_nodup {T} (less : T -> T -> bool) l : strict_total less -> StronglySorted (fun a b => less a b = true) l -> NoDup l.
Proof. intros (I & _). induction 1 as [|x l H IH HF]; constructor; auto. intros X. rewrite Forall_forall in HF. specialize (HF x X). rewrite I in HF. discriminate. Qed.

(** *** the order of the tuples *)
Definition tflat (t : tup) : nat * (nat * (nat * (nat * nat))) := let '((a0, a1), (a2, a3)) := t in (if a0 =? a1 then 0 else 1, (a0, (a1, (a2, a3)))).
Definition tless := lexp Nat.ltb (lexp Nat.ltb (lexp Nat.ltb (lexp Nat.ltb Nat.ltb))).
Lemma less_flat a b : less_tup a b = tless (tflat a) (tflat b).
Proof.
  destruct a as [[a0 a1] [a2 a3]], b as [[b0 b1] [b2 b3]]. unfold less_tup, tless, tflat, lexp. cbn [fst snd].
  replace (0 <? 0) with false by reflexivity. destruct (a0 =? a1), (b0 =? b1); cbn [andb negb]; replace (0 <? 1) with true by reflexivity; replace (1 <? 0) with false by reflexivity; replace (1 <? 1) with false by reflexivity; replace (0 <? 0) with false by reflexivity; cbv iota; destruct (a0 <? b0), (b0 <? a0), (a1 <? b1), (b1 <? a1), (a2 <? b2), (b2 <? a2), (a3 <? b3); reflexivity.
Qed.
Lemma tflat_inj a b : tflat a = tflat b -> a = b.
Proof. destruct a as [[a0 a1] [a2 a3]], b as [[b0 b1] [b2 b3]]. unfold tflat. intros H. congruence. Qed.
Lemma less_tup_total : strict_total less_tup.
Proof.
  assert (TL : strict_total tless) by (unfold tless; repeat apply lexp_total; apply ltb_total). destruct TL as (I & T & W). split; [|split].
  - intros a. rewrite less_flat. apply I.
  - intros a b c. rewrite !less_flat. apply T.
  - intros a b N. rewrite !less_flat. apply W. intros E. apply N. now apply tflat_inj.
Qed.
Lemma tup_eqb_iff a b : tup_eqb a b = true <-> a = b.
Proof.
  destruct a as [[a0 a1] [a2 a3]], b as [[b0 b1] [b2 b3]]. unfold tup_eqb. cbn [fst snd]. rewrite !andb_true_iff, !Nat.eqb_eq. intuition congruence.
Qed.
Lemma split_cross l : StronglySorted (fun a b => less_tup a b = true) l -> l = filter (fun t => negb (is_cross t)) l ++ filter is_cross l.
Proof.
  induction 1 as [|x l H IH HF]; auto. cbn [filter]. destruct (is_cross x) eqn:E; cbn [negb].
  - rewrite filter_none. cbn [app]. f_equal. symmetry. apply filter_all. all: rewrite Forall_forall in HF; intros y Hy; specialize (HF y Hy).
    + destruct (is_cross y) eqn:EY; auto. exfalso. destruct x as [[a0 a1] [a2 a3]], y as [[b0 b1] [b2 b3]]. unfold is_cross, less_tup in *. cbn [fst snd] in *. rewrite Nat.eqb_sym in E, EY. destruct (a0 =? a1); [discriminate|]. destruct (b0 =? b1); discriminate.
    + destruct (is_cross y) eqn:EY; auto. exfalso. destruct x as [[a0 a1] [a2 a3]], y as [[b0 b1] [b2 b3]]. unfold is_cross, less_tup in *. cbn [fst snd] in *. rewrite Nat.eqb_sym in E, EY. destruct (a0 =? a1); [discriminate|]. destruct (b0 =? b1); discriminate.
  - cbn [app]. now f_equal.
Qed.
(** an unordered pair of numbered vertices *)
Definition s2 (x y : nat * nat) : tup := sort_tup ((fst x, fst y), (snd x, snd y)).
Lemma s2_sym x y : s2 x y = s2 y x.
Proof.
  destruct x as [a i], y as [b j]. unfold s2, sort_tup. cbn [fst snd]. rewrite (Nat.eqb_sym b a). destruct (Nat.eqb_spec a b) as [->|N].
  - destruct (Nat.ltb_spec j i), (Nat.ltb_spec i j); auto; try lia. replace j with i by lia. auto.
  - destruct (Nat.ltb_spec b a), (Nat.ltb_spec a b); auto; lia.
Qed.
Lemma s2_inj x y x' y' : s2 x y = s2 x' y' -> (x = x' /\ y = y') \/ (x = y' /\ y = x').
Proof.
  destruct x as [a i], y as [b j], x' as [a' i'], y' as [b' j']. unfold s2, sort_tup. cbn [fst snd].
  destruct (Nat.eqb_spec a b), (Nat.eqb_spec a' b'), (j <? i), (j' <? i'), (b <? a), (b' <? a'); intros H; injection H; intros; subst; auto; try congruence.
Qed.

(** *** first occurrences *)
Section Dedup.
  Context {T : Type} (eqb : T -> T -> bool).
  Hypothesis HQ : forall a b, eqb a b = true <-> a = b.
  Definition dadd (O : list T) (k : T) : list T := if existsb (eqb k) O then O else O ++ [k].
  Definition dedup (l : list T) : list T := fold_left dadd l [].
  Lemma dedup_snoc l x : dedup (l ++ [x]) = dadd (dedup l) x. Proof. unfold dedup. now rewrite fold_left_app. Qed.
  Lemma ex_in x O : existsb (eqb x) O = true <-> In x O.
  Proof. rewrite existsb_exists. split. intros (y & Hy & E). apply HQ in E. congruence. intros H. exists x. split; auto. now apply HQ. Qed.
  Lemma ex_out x O : existsb (eqb x) O = false <-> ~ In x O.
  Proof. rewrite <- ex_in. destruct (existsb (eqb x) O); intuition congruence. Qed.
  Lemma dadd_in O k x : In x (dadd O k) <-> In x O \/ x = k.
  Proof. unfold dadd. destruct (existsb (eqb k) O) eqn:E. apply ex_in in E. intuition congruence. rewrite in_app_iff. cbn. intuition. Qed.
  Lemma dedup_in l x : In x (dedup l) <-> In x l.
  Proof. induction l as [|y l IH] using rev_ind; [reflexivity|]. rewrite dedup_snoc, dadd_in, IH, in_app_iff. cbn. intuition. Qed.
  Lemma dedup_filter P l : filter P (dedup l) = dedup (filter P l).
  Proof.
    induction l as [|y l IH] using rev_ind; auto. rewrite dedup_snoc, filter_app. cbn [filter]. unfold dadd. destruct (P y) eqn:E.
    - rewrite dedup_snoc. unfold dadd. rewrite <- IH. assert (X : existsb (eqb y) (filter P (dedup l)) = existsb (eqb y) (dedup l)). { apply eq_true_iff_eq. rewrite !ex_in, filter_In. tauto. }
      rewrite X. destruct (existsb (eqb y) (dedup l)); auto. rewrite filter_app. cbn [filter]. now rewrite E.
    - rewrite app_nil_r. destruct (existsb (eqb y) (dedup l)); auto. rewrite filter_app. cbn [filter]. rewrite E, app_nil_r. auto.
  Qed.
End Dedup.
Lemma dedup_map {T U} (eqb : T -> T -> bool) (eqb' : U -> U -> bool) (f : T -> U) l : (forall a b, eqb a b = true <-> a = b) -> (forall a b, eqb' a b = true <-> a = b) ->
  (forall x y, In x l -> In y l -> f x = f y -> x = y) -> map f (dedup eqb l) = dedup eqb' (map f l).
Proof.
  intros HQ HQ'. induction l as [|y l IH] using rev_ind; intros HI; auto. rewrite map_app. cbn [map]. rewrite !dedup_snoc, <- IH by (intros; apply HI; auto; apply in_or_app; auto). unfold dadd.
  assert (X : existsb (eqb' (f y)) (map f (dedup eqb l)) = existsb (eqb y) (dedup eqb l)).
  { apply eq_true_iff_eq. rewrite (ex_in _ HQ), (ex_in _ HQ'), in_map_iff. split; [|eauto]. intros (x & E & Hx). assert (x = y); [|congruence]. apply HI; auto. apply in_or_app. left. exact (proj1 (dedup_in eqb HQ l x) Hx). apply in_or_app. right; now left. }
  rewrite X. destruct (existsb (eqb y) (dedup eqb l)); auto. now rewrite map_app.
Qed.
Lemma map_filter2 {A B C} (f : A -> C) (g : B -> C) (P : A -> bool) (Q : B -> bool) l : forall l', map f l = map g l' -> (forall x y, In x l -> In y l' -> f x = g y -> P x = Q y) -> map f (filter P l) = map g (filter Q l').
Proof.
  induction l as [|x l IH]; intros [|y l'] E H; try discriminate; auto. cbn [map] in E. injection E as E1 E2. cbn [filter]. rewrite (H x y) by (auto; now left). assert (R : map f (filter P l) = map g (filter Q l')) by (apply IH; auto; intros; apply H; auto; now right). destruct (Q y); cbn [map]; congruence.
Qed.
Definition olist {T} (o : option T) : list T := match o with Some x => [x] | None => [] end.
Definition keys (R : emesh) (l : list nat) : list key := flat_map (fun id => olist (key_of R id)) l.
Lemma FI_dedup R l : map (keyd R) (FI R l) = dedup key_eqb (keys R l).
Proof.
  induction l as [|id l IH] using rev_ind; auto. rewrite FI_snoc. unfold keys. rewrite flat_map_app. cbn [flat_map]. rewrite app_nil_r. fold (keys R l). unfold addf. destruct (key_of R id) as [k|] eqn:E; cbn [olist].
  - rewrite dedup_snoc, <- IH. unfold dadd, kmem. destruct (existsb (key_eqb k) (map (keyd R) (FI R l))); auto. rewrite map_app. cbn [map]. unfold keyd at 2. now rewrite E.
  - now rewrite app_nil_r.
Qed.
Lemma keys_app R l l' : keys R (l ++ l') = keys R l ++ keys R l'. Proof. apply flat_map_app. Qed.
Lemma keys_in R l k : In k (keys R l) <-> exists id, In id l /\ key_of R id = Some k.
Proof.
  unfold keys. rewrite in_flat_map. split; intros (id & H & E); exists id; split; auto.
  - destruct (key_of R id) as [k'|]; cbn in E; [|tauto]. destruct E as [->|[]]. auto.
  - rewrite E. now left.
Qed.
(** the edges of a class *)
Lemma nth_concat {T} (ll : list (list T)) : forall e j d, e < length ll -> j < length (nth e ll []) -> nth_error (concat ll) (off (map (@length T) ll) e + j) = Some (nth j (nth e ll []) d).
Proof.
  induction ll as [|l ll IH]; intros e j d He Hj; [cbn in He; lia|]. cbn [concat map]. destruct e as [|e].
  - rewrite off_0. cbn [nth] in *. rewrite nth_error_app1 by lia. now apply nth_error_nth'.
  - rewrite off_cons. cbn [nth length] in *. rewrite nth_error_app2 by lia. replace (length l + off (map (@length T) ll) e + j - length l) with (off (map (@length T) ll) e + j) by lia. apply IH; auto. lia.
Qed.
Lemma keys_seq R b l : (forall j, j < length l -> nth_error (all_edges R) (b + j) = nth_error l j) -> keys R (seq b (length l)) = flat_map (fun e => olist (okey R e)) l.
Proof.
  revert b. induction l as [|e l IH]; intros b H; auto. cbn [length seq flat_map]. unfold keys. cbn [flat_map]. fold (keys R (seq (S b) (length l))). rewrite IH. f_equal. unfold key_of. specialize (H 0 ltac:(cbn; lia)). rewrite Nat.add_0_r in H. rewrite H. reflexivity.
  intros j Hj. specialize (H (S j) ltac:(cbn; lia)). rewrite <- plus_n_Sm in H. exact H.
Qed.
Section Keys.
  Variables (R : emesh) (nq : nat).
  Hypothesis HE : edges_ok nq R.
  Lemma len_nth {T} (ll : list (list T)) e : nth e (map (@length T) ll) 0 = length (nth e ll []).
  Proof. now rewrite (map_nth (@length T) ll []). Qed.
  Lemma keys_E c : c < nq -> keys R (vis_E R c) = flat_map (fun e => olist (okey R e)) (nth c (eedges R) []).
  Proof.
    intros Hc. unfold vis_E. rewrite (len_nth (eedges R) c). apply keys_seq. intros j Hj. unfold all_edges. assert (L := nth_concat (eedges R) c j (0, 0) ltac:(rewrite (e_E _ _ HE); auto) Hj). rewrite nth_error_app1. rewrite L. symmetry. now apply nth_error_nth'. apply nth_error_Some. now rewrite L.
  Qed.
  Lemma keys_X c : c < nq -> keys R (vis_X R c) = flat_map (fun e => olist (okey R e)) (nth c (xedges R) []).
  Proof.
    intros Hc. unfold vis_X. rewrite (len_nth (xedges R) c). assert (SQ : forall n a b, map (fun k => a + k) (seq b n) = seq (a + b) n). { induction n as [|n IH]; intros a b; auto. cbn [seq map]. rewrite IH. now rewrite <- plus_n_Sm. }
    rewrite SQ. apply keys_seq. intros j Hj. unfold all_edges. assert (L := nth_concat (xedges R) c j (0, 0) ltac:(rewrite (e_X _ _ HE); auto) Hj).
    assert (NL : length (concat (eedges R)) = nE R) by (unfold nE; rewrite <- (sum_length (eedges R)); auto). rewrite nth_error_app2 by lia. rewrite <- Nat.add_assoc, <- NL. replace (length (concat (eedges R)) + (off (map (@length (nat * nat)) (xedges R)) c + j) - length (concat (eedges R))) with (off (map (@length (nat * nat)) (xedges R)) c + j) by lia. rewrite L. symmetry. now apply nth_error_nth'.
  Qed.
End Keys.
Lemma olist_map {A B} (f : A -> B) (g : A -> option A) l : map f (flat_map (fun e => olist (g e)) l) = flat_map (fun o => olist o) (map (fun e => option_map f (g e)) l).
Proof. induction l as [|x l IH]; auto. cbn [flat_map map]. rewrite map_app, IH. f_equal. destruct (g x); auto. Qed.
