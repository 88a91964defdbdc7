(** The coarse loops of a fine loop, over all processes *)
From Verif Require Import Base ArraysModel LoopModel LoopSpec LoopProofs LoopProofs2 LoopProofs3 LoopProofs4 LoopProofs5 LoopProps SMapModel SMapProofs SMapProofs2 SMapProofs3 SMapSpec SMapProofs5.
Import ListNotations.

(** the edges of its loop number k that process p enters, in global vertex numbers *)
Definition fine_part (W : list rankd) (vg : nat -> nat -> nat) (p k : nat) : list (nat * nat) :=
  let R := nth p W dR in map (fun c => (vg p (code_from (r_edges R) c), vg p (code_to (r_edges R) c))) (filter (entered R) (nth k (r_loops R) [])).
(** the whole loop: the parts of all processes that share it *)
Definition fine_loop (W : list rankd) (gid vg : nat -> nat -> nat) (r k : nat) : list (nat * nat) :=
  concat (map (fun p => match local_nr gid (length (r_loops (nth (Z.to_nat p) W dR))) (Z.to_nat p) (gid r k) with Some j => fine_part W vg (Z.to_nat p) j | None => [] end)
    (Z.of_nat r :: nth k (r_dps (nth r W dR)) [])).
Definition image (cm : nat -> pt) (e : nat * nat) : edge4 := (cm (fst e), cm (snd e)).

Record wf_world (W : list rankd) (gid : nat -> nat -> nat) : Prop := {
  ww_con : consistent (map r_all W) (map r_dps W) gid;
  ww_len : forall R, In R W -> length (r_dps R) = length (r_loops R);
  ww_rank : forall R, In R W -> wf_rank R;
  ww_entry : forall R l c, In R W -> In l (r_loops R) -> In c l -> wf_entry R c
}.

(** sums over vertices: the number of edges that start over v is a sum over the vertices over v *)
Lemma count_sum (f : nat * nat -> nat) (h : nat -> bool) : forall (us : list nat) (es : list (nat * nat)), NoDup us -> (forall e, In e es -> h (f e) = true -> In (f e) us) ->
  (forall u, In u us -> h u = true) ->
  length (filter (fun e => h (f e)) es) = fold_right (fun u s => length (filter (fun e => (f e =? u)%nat) es) + s)%nat 0%nat us.
Proof.
  intros us es N. induction es as [|e es IH]; intros H1 H2.
  - cbn. clear. induction us; cbn; auto.
  - assert (X : fold_right (fun u s => length (filter (fun e => (f e =? u)%nat) (e :: es)) + s)%nat 0%nat us =
      ((if h (f e) then 1 else 0) + fold_right (fun u s => length (filter (fun e => (f e =? u)%nat) es) + s)%nat 0%nat us)%nat).
    { assert (Hin : h (f e) = true <-> In (f e) us) by (split; [apply H1; cbn; auto|apply H2]). clear - N Hin.
      assert (G : forall us, NoDup us -> fold_right (fun u s => length (filter (fun e => (f e =? u)%nat) (e :: es)) + s)%nat 0%nat us = ((if existsb (Nat.eqb (f e)) us then 1 else 0) + fold_right (fun u s => length (filter (fun e => (f e =? u)%nat) es) + s)%nat 0%nat us)%nat).
      { clear us N Hin. intros us N. induction N as [|u us Hu N IH]; [reflexivity|]. cbn [fold_right existsb]. rewrite IH. cbn [filter]. destruct (Nat.eqb_spec (f e) u) as [<-|NE]; cbn [length orb]; [|lia].
        assert (E : existsb (Nat.eqb (f e)) us = false). { destruct (existsb _ us) eqn:E; auto. apply existsb_exists in E. destruct E as (x & Hx & Ex). apply Nat.eqb_eq in Ex. subst x. contradiction. }
        rewrite E. lia. }
      rewrite G by auto. f_equal. destruct (h (f e)) eqn:E, (existsb (Nat.eqb (f e)) us) eqn:F; auto.
      - assert (I : In (f e) us) by (apply Hin; auto). assert (existsb (Nat.eqb (f e)) us = true) by (apply existsb_exists; exists (f e); rewrite Nat.eqb_refl; auto). congruence.
      - apply existsb_exists in F. destruct F as (x & Hx & Ex). apply Nat.eqb_eq in Ex. subst x. apply Hin in Hx. congruence. }
    etransitivity; [|symmetry; exact X]. clear X. rewrite <- IH by (auto; intros; apply H1; cbn; auto). cbn [filter]. destruct (h (f e)); reflexivity.
Qed.
Lemma balanced_image cm (es : list (nat * nat)) : balanced Nat.eqb es -> balanced pteqb (map (image cm) es).
Proof.
  intros H v. set (h := fun u => pteqb (cm u) v). set (us := filter h (nodup Nat.eq_dec (map fst es ++ map snd es))).
  assert (N : NoDup us) by (apply NoDup_filter, NoDup_nodup).
  assert (U : forall u, In u us -> h u = true) by (intros u Hu; apply filter_In in Hu; tauto).
  assert (A : forall g : edge4 -> pt, forall f : nat * nat -> nat, (forall e, g (image cm e) = cm (f e)) -> length (filter (fun e => pteqb (g e) v) (map (image cm) es)) = length (filter (fun e => h (f e)) es)).
  { intros g f E. clear - E. unfold h. induction es as [|e l IH]; cbn [map filter]; auto. rewrite E. destruct (pteqb _ _); cbn [length]; auto. }
  etransitivity; [apply (A fst fst); reflexivity|]. etransitivity; [|symmetry; apply (A snd snd); reflexivity]. rewrite (count_sum fst h us), (count_sum snd h us); auto.
  - clear - H. induction us as [|u us IH]; cbn; auto.
  - intros e He Hh. apply filter_In. split; auto. apply nodup_In, in_or_app. right. apply in_map; auto.
  - intros e He Hh. apply filter_In. split; auto. apply nodup_In, in_or_app. left. apply in_map; auto.
Qed.
Lemma balanced_proper (es : list edge4) : balanced pteqb es -> balanced pteqb (proper pteqb es).
Proof.
  intros H v. specialize (H v).
  assert (G : forall l : list edge4, exists n, length (filter (fun e => pteqb (fst e) v) l) = (length (filter (fun e => pteqb (fst e) v) (proper pteqb l)) + n)%nat /\
     length (filter (fun e => pteqb (snd e) v) l) = (length (filter (fun e => pteqb (snd e) v) (proper pteqb l)) + n)%nat).
  { induction l as [|e l (n & A & B)]; [exists 0%nat; auto|]. unfold proper in *. cbn [filter]. destruct (pteqb (fst e) (snd e)) eqn:E; cbn [negb].
    - apply pteqb_ok in E. rewrite E. destruct (pteqb (snd e) v); [exists (S n)|exists n]; cbn [length]; split; lia.
    - exists n. cbn [filter]. destruct (pteqb (fst e) v), (pteqb (snd e) v); cbn [length]; split; lia. }
  destruct (G es) as (n & A & B). lia.
Qed.
Lemma balanced_perm (es fs : list edge4) : Permutation es fs -> balanced pteqb es -> balanced pteqb fs.
Proof.
  intros P H v. specialize (H v). assert (G : forall f : edge4 -> bool, length (filter f es) = length (filter f fs)).
  { intros f. clear H. induction P; cbn [filter]; auto; [destruct (f x); cbn; congruence|destruct (f x), (f y); reflexivity|congruence]. }
  rewrite <- !G. exact H.
Qed.

Section W.
  Variable W : list rankd.
  Variables gid vg : nat -> nat -> nat.
  Variable cm : nat -> pt.
  Hypothesis HW : wf_world W gid.
  Hypothesis Hcm : forall p v, (p < length W)%nat -> (v < length (r_vmap (nth p W dR)))%nat -> cm (vg p v) = cpoint (nth p W dR) v.

  Definition initsW (p : nat) : list (list edge4) := map (fun l => proper pteqb (map (cstep (nth p W dR)) (filter (entered (nth p W dR)) l))) (r_loops (nth p W dR)).
  Lemma initsW_ok p : (p < length W)%nat -> init_cl_vs (nth p W dR) = Ret (initsW p).
  Proof. intros H. apply init_cl_vs_ok; [apply (ww_rank _ _ HW), nth_In; auto|]. intros l Hl c Hc. apply (ww_entry _ _ HW _ l); auto. apply nth_In; auto. Qed.
  Lemma eqn sorti fuel r : (r < length W)%nat -> phase2 sorti fuel W r = mapM (fun k => loops_of sorti fuel (map (fun p => part_of W gid initsW (Z.to_nat p) (gid r k)) (group W r k))) (seq 0 (length (r_dps (nth r W dR)))).
  Proof. intros H. apply (phase2_eq W gid (ww_con _ _ HW) (ww_len _ _ HW) initsW initsW_ok r H). Qed.

  (** *** the same coarse loops on all processes *)
  Lemma group_same r p j k : (r < length W)%nat -> (p < length W)%nat -> (j < length (r_dps (nth r W dR)))%nat -> (k < length (r_dps (nth p W dR)))%nat -> gid r j = gid p k -> group W r j = group W p k.
  Proof.
    intros Hr Hp Hj Hk E. unfold group. pose proof (ww_con _ _ HW) as HC.
    assert (ND : forall r j, (r < length W)%nat -> (j < length (r_dps (nth r W dR)))%nat -> NoDup (nth j (r_dps (nth r W dR)) [] ++ [Z.of_nat r])).
    { clear - HC. intros r j Hr Hj. apply Permutation_NoDup with (Z.of_nat r :: nth j (r_dps (nth r W dR)) []); [apply Permutation_cons_append|].
      pose proof (con_rows _ _ _ HC r (nth j (r_dps (nth r W dR)) []) ltac:(rewrite map_length; auto)) as X. rewrite dpss_nth, alls_nth in X by auto. destruct (X (nth_In _ _ Hj)) as [A B].
      constructor; auto. intros I. destruct (con_range _ _ _ HC r (Z.of_nat r)) as [_ Y]; [rewrite map_length; auto|rewrite alls_nth by auto; apply B; auto|congruence]. }
    apply zsort_same; auto. intros q. pose proof (con_group _ _ _ HC r p j k ltac:(rewrite map_length; auto) ltac:(rewrite map_length; auto)) as X. rewrite !dpss_nth in X by auto.
    specialize (X Hj Hk E q). rewrite !in_app_iff. cbn [In] in *. tauto.
  Qed.
  Theorem same_loops sorti fuel r p outr outp j k : (r < length W)%nat -> (p < length W)%nat -> phase2 sorti fuel W r = Ret outr -> phase2 sorti fuel W p = Ret outp ->
    (j < length (r_loops (nth r W dR)))%nat -> (k < length (r_loops (nth p W dR)))%nat -> gid r j = gid p k -> nth j outr [] = nth k outp [].
  Proof.
    intros Hr Hp Er Ep Hj Hk E. rewrite <- (ww_len _ _ HW) in Hj, Hk by (apply nth_In; auto). rewrite eqn in Er, Ep by auto. apply mapM_Forall2 in Er, Ep.
    assert (G : forall (f : nat -> res (list (list pt))) n o i, Forall2 (fun a b => f a = Ret b) (seq 0 n) o -> (i < n)%nat -> f i = Ret (nth i o [])).
    { clear. intros f n. assert (G : forall n m o i, Forall2 (fun a b => f a = Ret b) (seq m n) o -> (i < n)%nat -> f (m + i)%nat = Ret (nth i o [])).
      { clear n. induction n as [|n IH]; intros m o i F H; [lia|]. cbn [seq] in F. inversion F as [|? b ? o' F1 F2]; subst. destruct i as [|i]; [rewrite Nat.add_0_r; auto|]. replace (m + S i)%nat with (S m + i)%nat by lia. cbn [nth]. apply IH; auto. lia. }
      intros o i F H. apply (G n 0%nat o i F H). }
    pose proof (G _ _ _ _ Er Hj) as A. pose proof (G _ _ _ _ Ep Hk) as B. cbv beta in A, B. rewrite (group_same r p j k) in A by auto. rewrite E in A. rewrite A in B. injection B as ->. reflexivity.
  Qed.

  (** *** the flow *)
  Lemma part_image p g : (p < length W)%nat -> part_of W gid initsW p g = proper pteqb (map (image cm) (match local_nr gid (length (r_loops (nth p W dR))) p g with Some j => fine_part W vg p j | None => [] end)).
  Proof.
    intros Hp. unfold part_of, itemg. rewrite dpss_nth, (ww_len _ _ HW) by (auto; apply nth_In; auto). destruct (local_nr _ _ _ _) as [j|] eqn:E; [|reflexivity].
    unfold local_nr in E. apply find_some in E. destruct E as [E _]. apply in_seq in E. unfold initsW.
    set (F := fun l => proper pteqb (map (cstep (nth p W dR)) (filter (entered (nth p W dR)) l))). rewrite (nth_indep _ [] (F [])) by (rewrite map_length; lia). rewrite (map_nth F). unfold F, fine_part. rewrite map_map. f_equal.
    apply map_ext_in. intros c Hc. apply filter_In in Hc. destruct Hc as [Hc _]. unfold image, cstep. cbn [fst snd].
    destruct (ww_entry _ _ HW (nth p W dR) (nth j (r_loops (nth p W dR)) []) c) as [_ _ _ _ [A B] _]; [apply nth_In; auto|apply nth_In; lia|auto|].
    rewrite !Hcm by auto. reflexivity.
  Qed.
  Lemma concat_proper (ls : list (list edge4)) : concat (map (proper pteqb) ls) = proper pteqb (concat ls).
  Proof. induction ls as [|l ls IH]; cbn; auto. rewrite IH. unfold proper. rewrite filter_app. reflexivity. Qed.
  Lemma concat_perm {A B} (f : A -> list B) l l' : Permutation l l' -> Permutation (concat (map f l)) (concat (map f l')).
  Proof. induction 1; cbn; auto; [apply Permutation_app_head; auto|rewrite !app_assoc; apply Permutation_app_tail, Permutation_app_comm|etransitivity; eauto]. Qed.
  Lemma data_perm r k : (r < length W)%nat -> (k < length (r_loops (nth r W dR)))%nat ->
    Permutation (concat (map (fun p => part_of W gid initsW (Z.to_nat p) (gid r k)) (group W r k))) (proper pteqb (map (image cm) (fine_loop W gid vg r k))).
  Proof.
    intros Hr Hk. assert (P : Permutation (group W r k) (Z.of_nat r :: nth k (r_dps (nth r W dR)) [])). { unfold group. rewrite zsort_perm. symmetry. apply Permutation_cons_append. }
    rewrite (concat_perm _ _ _ P). unfold fine_loop. rewrite concat_map, <- concat_proper, !map_map. match goal with |- Permutation ?a ?b => assert (E : a = b); [|rewrite E; reflexivity] end. f_equal. apply map_ext_in. intros p Hp. apply part_image.
    pose proof (ww_con _ _ HW) as HC. destruct Hp as [<-|Hp]; [lia|]. pose proof (con_rows _ _ _ HC r (nth k (r_dps (nth r W dR)) []) ltac:(rewrite map_length; auto)) as X. rewrite dpss_nth, alls_nth in X by auto.
    destruct X as [_ I]; [apply nth_In; rewrite (ww_len _ _ HW) by (apply nth_In; auto); auto|]. destruct (con_range _ _ _ HC r p) as [Y _]; [rewrite map_length; auto|rewrite alls_nth by auto; auto|]. rewrite map_length in Y. lia.
  Qed.
  Lemma data_pos r k : (r < length W)%nat -> (k < length (r_loops (nth r W dR)))%nat ->
    forall e, In e (concat (map (fun p => part_of W gid initsW (Z.to_nat p) (gid r k)) (group W r k))) -> (0 < fst (fst e))%Z.
  Proof.
    intros Hr Hk e He. apply in_concat in He. destruct He as (l & Hl & He). apply in_map_iff in Hl. destruct Hl as (p & <- & Hp).
    assert (Hp' : (Z.to_nat p < length W)%nat).
    { unfold group in Hp. apply (Permutation_in _ (zsort_perm _)) in Hp. apply in_app_or in Hp. destruct Hp as [Hp|[<-|[]]]; [|lia]. pose proof (ww_con _ _ HW) as HC.
      pose proof (con_rows _ _ _ HC r (nth k (r_dps (nth r W dR)) []) ltac:(rewrite map_length; auto)) as X. rewrite dpss_nth, alls_nth in X by auto.
      destruct X as [_ I]; [apply nth_In; rewrite (ww_len _ _ HW) by (apply nth_In; auto); auto|]. destruct (con_range _ _ _ HC r p) as [Y _]; [rewrite map_length; auto|rewrite alls_nth by auto; auto|]. rewrite map_length in Y. lia. }
    set (q := Z.to_nat p) in *. unfold part_of, itemg in He. rewrite dpss_nth, (ww_len _ _ HW) in He by (auto; apply nth_In; auto). destruct (local_nr _ _ _ _) as [j|] eqn:E; [|destruct He].
    unfold local_nr in E. apply find_some in E. destruct E as [E _]. apply in_seq in E. unfold initsW in He.
    set (F := fun l => proper pteqb (map (cstep (nth q W dR)) (filter (entered (nth q W dR)) l))) in He. rewrite (nth_indep _ [] (F [])) in He by (rewrite map_length; lia). rewrite (map_nth F) in He. unfold F in He.
    apply (cstep_pos (nth q W dR)) with (nth j (r_loops (nth q W dR)) []); auto; [apply (ww_rank _ _ HW), nth_In; auto|]. intros c Hc. apply (ww_entry _ _ HW _ (nth j (r_loops (nth q W dR)) [])); auto; apply nth_In; auto; lia.
  Qed.

  Theorem flow sorti r : sorti_ok sorti -> (r < length W)%nat ->
    (forall k, (k < length (r_loops (nth r W dR)))%nat -> balanced Nat.eqb (fine_loop W gid vg r k)) ->
    exists N, forall fuel, (N <= fuel)%nat -> exists outs, phase2 sorti fuel W r = Ret outs /\ length outs = length (r_loops (nth r W dR)) /\
      forall k, (k < length (r_loops (nth r W dR)))%nat -> Forall coarse_loop (nth k outs []) /\
        exists ss, length ss = length (nth k outs []) /\ Forall (fun s => s = 1 \/ s = -1)%Z ss /\
          forall a b, net (map (image cm) (fine_loop W gid vg r k)) a b = loop_sum ss (nth k outs []) a b.
  Proof.
    intros HS Hr HB. set (n := length (r_loops (nth r W dR))) in *. assert (Ln : length (r_dps (nth r W dR)) = n) by (apply (ww_len _ _ HW), nth_In; auto).
    set (D := fun k => map (fun p => part_of W gid initsW (Z.to_nat p) (gid r k)) (group W r k)).
    exists (fold_right (fun k s => S (2 * length (concat (D k))) + s)%nat 0%nat (seq 0 n)). intros fuel HN.
    assert (B : forall k, (k < n)%nat -> (2 * length (concat (D k)) < fuel)%nat).
    { intros k Hk. eapply Nat.lt_le_trans; [|exact HN]. assert (I : In k (seq 0 n)) by (apply in_seq; lia). clear - I. induction (seq 0 n) as [|j l IH]; [destruct I|]. cbn [fold_right]. destruct I as [->|I]; [lia|specialize (IH I); lia]. }
    rewrite eqn by auto. rewrite Ln. fold D.
    destruct (mapM_from (fun k => loops_of sorti fuel (D k)) (fun k out => Forall coarse_loop out /\
        exists ss, length ss = length out /\ Forall (fun s => s = 1 \/ s = -1)%Z ss /\ forall a b, net (map (image cm) (fine_loop W gid vg r k)) a b = loop_sum ss out a b) (seq 0 n)) as (outs & E & F).
    - intros k Hk. apply in_seq in Hk. destruct Hk as [_ Hk]. cbn in Hk. pose proof (data_perm r k Hr Hk) as P. fold (D k) in P.
      destruct (loops_of_ok sorti fuel (D k) HS) as (out & ss & E & C & L & SS & X).
      + apply data_pos; auto.
      + eapply balanced_perm; [symmetry; exact P|]. apply balanced_proper, balanced_image, HB; auto.
      + apply B; auto.
      + exists out. split; [exact E|]. split; auto. exists ss. split; auto. split; auto. intros a b. rewrite <- X, (net_perm _ _ _ _ P), net_proper. reflexivity.
    - exists outs. split; [exact E|]. assert (LO : length outs = n) by (apply F2_length in F; rewrite seq_length in F; auto). split; auto.
      assert (G : forall n m (o : list (list (list pt))) (Q : nat -> list (list pt) -> Prop), Forall2 Q (seq m n) o -> forall i, (i < n)%nat -> Q (m + i)%nat (nth i o [])).
      { clear. induction n as [|n IH]; intros m o Q F i H; [lia|]. cbn [seq] in F. inversion F as [|? b ? o' F1 F2]; subst. destruct i as [|i]; [rewrite Nat.add_0_r; auto|]. replace (m + S i)%nat with (S m + i)%nat by lia. cbn [nth]. apply IH; auto. lia. }
      intros k Hk. apply (G n 0%nat outs _ F k Hk).
  Qed.
End W.
