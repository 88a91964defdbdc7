(** The tables of coarse loops fit as long as equal coarse loops live on the same processes; AddOrientedLoops *)
From Verif Require Import Base ArraysModel ArraysProofs ArraysProps LoopModel LoopSpec LoopProofs2 LoopProps SMapModel SMapProofs SMapProofs2 SMapProofs3 SMapProofs4 SMapSpec SMapProofs5 SMapProofs6 SMapProofs7 SMapProofs8.
Import ListNotations.

Lemma flat_idx (dps : list (list Z)) : forall per : list (list (list pt)), length per = length dps ->
  flat_loops dps per = map (fun x : nat * nat => (nth (snd x) (nth (fst x) per []) [], nth (fst x) dps [])) (concat (map (fun k => map (pair k) (seq 0 (length (nth k per [])))) (seq 0 (length dps)))).
Proof.
  unfold flat_loops. induction dps as [|ps dps IH]; intros per L; destruct per as [|ls per]; try discriminate; [reflexivity|].
  cbn [combine map concat length seq fst snd nth]. rewrite map_app. f_equal.
  - rewrite map_map. cbn [fst snd nth]. rewrite (map_seq_nth (fun l => (l, ps)) ls []). reflexivity.
  - rewrite IH by (cbn in L; lia). rewrite <- seq_shift, !concat_map, !map_map. f_equal. apply map_ext. intros k. cbn [nth]. rewrite !map_map. reflexivity.
Qed.
Lemma sorted_seq_filter P n : forall m, StronglySorted lt (filter P (seq m n)).
Proof.
  induction n as [|n IH]; intros m; cbn; [constructor|]. destruct (P m); auto. constructor; auto. apply Forall_forall. intros x Hx. apply filter_In in Hx. destruct Hx as [Hx _]. apply in_seq in Hx. lia.
Qed.
Lemma sorted_nth_lt l : StronglySorted lt l -> forall a b, (a < b < length l)%nat -> (nth a l 0 < nth b l 0)%nat.
Proof.
  induction 1 as [|x l H IH F]; intros a b L; [cbn in L; lia|]. destruct b as [|b]; [lia|]. cbn [length] in L. destruct a as [|a]; cbn [nth].
  - rewrite Forall_forall in F. apply F. apply nth_In. lia.
  - apply IH. lia.
Qed.

Section Tables.
  Variable W : list rankd.
  Variable gid : nat -> nat -> nat.
  Hypothesis HW : wf_world W gid.
  Variable sorti : list pt -> list nat.
  Variable fuel : nat.
  Variable outs : nat -> list (list (list pt)).
  Hypothesis Houts : forall r, (r < length W)%nat -> phase2 sorti fuel W r = Ret (outs r).
  Definition flat (r : nat) : list (list pt * list Z) := flat_loops (r_dps (nth r W dR)) (outs r).
  Let alls := map r_all W.
  Let dpss := map r_dps W.
  Notation np := (length alls).
  Let HC : consistent alls dpss gid := ww_con _ _ HW.
  Let m (r k : nat) := length (nth k (outs r) []).
  Lemma npW : np = length W. Proof. apply map_length. Qed.
  Lemma outs_len r : (r < length W)%nat -> length (outs r) = length (r_dps (nth r W dR)).
  Proof. intros H. pose proof (Houts r H) as E. rewrite (eqn W gid HW) in E by auto. apply mapM_Forall2 in E. apply F2_length in E. rewrite seq_length in E. auto. Qed.
  Lemma same r p j k : (r < length W)%nat -> (p < length W)%nat -> (j < length (nth r dpss []))%nat -> (k < length (nth p dpss []))%nat -> gid r j = gid p k -> nth j (outs r) [] = nth k (outs p) [].
  Proof.
    intros Hr Hp Hj Hk E. unfold dpss in Hj, Hk. rewrite dpss_nth in Hj, Hk by auto. rewrite (ww_len _ _ HW) in Hj, Hk by (apply nth_In; auto).
    apply (same_loops W gid HW sorti fuel r p (outs r) (outs p) j k); auto.
  Qed.
  Lemma Hm : forall r p j k, (r < np)%nat -> (p < np)%nat -> (j < length (nth r dpss []))%nat -> (k < length (nth p dpss []))%nat -> gid r j = gid p k -> m r j = m p k.
  Proof. intros r p j k Hr Hp Hj Hk E. unfold m. rewrite npW in *. rewrite (same r p j k) by auto. reflexivity. Qed.
  Lemma flat_eq r : (r < length W)%nat -> flat r = map (fun x : nat * nat => (nth (snd x) (nth (fst x) (outs r) []) [], nth (fst x) (r_dps (nth r W dR)) [])) (idx dpss m r).
  Proof. intros H. unfold flat, idx. rewrite flat_idx by (apply outs_len; auto). unfold dpss. rewrite dpss_nth by auto. reflexivity. Qed.
  Lemma flat_snd r : (r < length W)%nat -> map snd (flat r) = flatdps dpss m r.
  Proof. intros H. rewrite flat_eq, map_map by auto. unfold flatdps, dpss. rewrite dpss_nth by auto. reflexivity. Qed.
  Let dpsf := map (flatdps dpss m) (seq 0 np).
  Let gidf := flatgid dpss gid m.
  Let HF : consistent alls dpsf gidf := flat_consistent alls dpss gid HC m Hm.
  Lemma flat_len r : (r < length W)%nat -> length (flat r) = length (idx dpss m r). Proof. intros H. rewrite flat_eq by auto. apply map_length. Qed.
  Lemma dpsf_nth r : (r < length W)%nat -> nth r dpsf [] = map snd (flat r).
  Proof. intros H. unfold dpsf. rewrite map_nth_seq by (rewrite npW; auto). rewrite flat_snd; auto. Qed.
  Definition lp (r i : nat) : list pt := nth i (map fst (flat r)) [].
  Lemma lp_same r p j k : (r < length W)%nat -> (p < length W)%nat -> (j < length (flat r))%nat -> (k < length (flat p))%nat -> gidf r j = gidf p k -> lp r j = lp p k.
  Proof.
    intros Hr Hp Hj Hk E. unfold gidf, flatgid in E. apply enc_inj in E. destruct E as [E1 E2].
    assert (G : forall r i, (r < length W)%nat -> (i < length (flat r))%nat -> lp r i = nth (snd (nth i (idx dpss m r) (0, 0)%nat)) (nth (fst (nth i (idx dpss m r) (0, 0)%nat)) (outs r) []) []).
    { intros q i Hq Hi. unfold lp. rewrite flat_eq in * by auto. rewrite map_map, map_length in *. apply (nth_map_in (fun x : nat * nat => nth (snd x) (nth (fst x) (outs q) []) []) (idx dpss m q) i [] (0, 0)%nat Hi). }
    rewrite !G by auto. rewrite E2. f_equal. rewrite flat_len in * by auto. apply same; auto; [apply (idx_in dpss m r), nth_In; auto|apply (idx_in dpss m p), nth_In; auto].
  Qed.

  (** equal coarse loops live on the same processes *)
  Hypothesis Hdup : forall r j k, (r < length W)%nat -> (j < length (flat r))%nat -> (k < length (flat r))%nat -> lp r j = lp r k ->
    forall q, In q (nth j (map snd (flat r)) []) <-> In q (nth k (map snd (flat r)) []).
  Definition keepF (r i : nat) : bool := negb (existsb (fun l => loopeqb (lp r i) (lp r l)) (seq 0 i)).
  Lemma keepF_false r i : keepF r i = false <-> exists l, (l < i)%nat /\ lp r l = lp r i.
  Proof.
    unfold keepF. rewrite negb_false_iff, existsb_exists. split; intros (l & A & B).
    - apply in_seq in A. apply loopeqb_ok in B. exists l. split; [lia|auto].
    - exists l. split; [apply in_seq; lia|apply loopeqb_ok; auto].
  Qed.
  Lemma keep_half r p j k : (r < length W)%nat -> (p < length W)%nat -> (j < length (flat r))%nat -> (k < length (flat p))%nat -> gidf r j = gidf p k -> keepF r j = false -> keepF p k = false.
  Proof.
    intros Hr Hp Hj Hk E K. apply keepF_false in K. destruct K as (j' & L & Q).
    assert (LR : forall r, (r < length W)%nat -> length (nth r dpsf []) = length (flat r)) by (intros; rewrite dpsf_nth, map_length by auto; auto).
    assert (Hr' : (r < np)%nat) by (rewrite npW; auto). assert (Hp' : (p < np)%nat) by (rewrite npW; auto).
    destruct (Nat.eq_dec r p) as [<-|NE].
    - assert (j = k) by (apply (con_inj _ _ _ HF r); rewrite ?LR; auto). subst k. apply keepF_false. exists j'. auto.
    - assert (Ip : In (Z.of_nat p) (nth j (nth r dpsf []) [])).
      { destruct (proj2 (con_group _ _ _ HF r p j k Hr' Hp' ltac:(rewrite LR; auto) ltac:(rewrite LR; auto) E (Z.of_nat p)) (or_introl eq_refl)) as [X|X]; [lia|auto]. }
      assert (Ip' : In (Z.of_nat p) (nth j' (nth r dpsf []) [])). { rewrite dpsf_nth in * by auto. apply (Hdup r j' j); auto; lia. }
      set (S1 := shared (nth r dpsf []) (Z.of_nat p)). set (S2 := shared (nth p dpsf []) (Z.of_nat r)).
      assert (EO : map (gidf r) S1 = map (gidf p) S2) by (apply (con_order _ _ _ HF); auto).
      assert (SS1 : StronglySorted lt S1) by apply sorted_seq_filter. assert (SS2 : StronglySorted lt S2) by apply sorted_seq_filter.
      assert (I1 : In j S1) by (apply filter_In; split; [apply in_seq; rewrite LR; auto; lia|apply mem_In; auto]).
      assert (I2 : In j' S1) by (apply filter_In; split; [apply in_seq; rewrite LR; auto; lia|apply mem_In; auto]).
      destruct (In_nth _ _ 0%nat I1) as (b & Hb & Eb). destruct (In_nth _ _ 0%nat I2) as (a & Ha & Ea).
      assert (LE : length S1 = length S2) by (apply (f_equal (@length nat)) in EO; rewrite !map_length in EO; auto).
      assert (AB : (a < b)%nat).
      { destruct (Nat.lt_trichotomy a b) as [X|[X|X]]; auto; [subst a; lia|]. pose proof (sorted_nth_lt S1 SS1 b a ltac:(lia)). lia. }
      assert (GN : forall i, (i < length S1)%nat -> gidf r (nth i S1 0%nat) = gidf p (nth i S2 0%nat)).
      { intros i Hi. pose proof (f_equal (fun l => nth i l 0%nat) EO) as X. cbv beta in X. rewrite (nth_map_in (gidf r) S1 i _ 0%nat), (nth_map_in (gidf p) S2 i _ 0%nat) in X by lia. exact X. }
      assert (B2 : forall i, (i < length S2)%nat -> (nth i S2 0 < length (flat p))%nat).
      { intros i Hi. pose proof (nth_In S2 0%nat Hi) as X. apply filter_In in X. destruct X as [X _]. apply in_seq in X. rewrite LR in X by auto. lia. }
      assert (Ek : nth b S2 0%nat = k).
      { apply (con_inj _ _ _ HF p); rewrite ?LR by auto; auto; [apply B2; lia|]. fold gidf. rewrite <- E, <- Eb. symmetry. apply GN; auto. }
      apply keepF_false. exists (nth a S2 0%nat). split; [rewrite <- Ek; apply sorted_nth_lt; auto; lia|].
      rewrite <- (lp_same r p j' (nth a S2 0%nat)); auto; [|lia|apply B2; lia|rewrite <- Ea; apply GN; auto]. rewrite Q. apply lp_same; auto.
  Qed.
  Lemma keep_agree r p j k : (r < length W)%nat -> (p < length W)%nat -> (j < length (flat r))%nat -> (k < length (flat p))%nat -> gidf r j = gidf p k -> keepF r j = keepF p k.
  Proof.
    intros Hr Hp Hj Hk E. destruct (keepF r j) eqn:A, (keepF p k) eqn:B; auto.
    - rewrite (keep_half p r k j) in A; auto.
    - rewrite (keep_half r p j k) in B; auto.
  Qed.
  Definition kept_dps (r : nat) : list (list Z) := map (fun i => nth i (map snd (flat r)) []) (firsts (map fst (flat r))).
  Theorem tables_fit : exists gid', consistent alls (map kept_dps (seq 0 np)) gid' /\
    forall r p j k, (r < length W)%nat -> (p < length W)%nat -> (j < length (kept_dps r))%nat -> (k < length (kept_dps p))%nat -> gid' r j = gid' p k ->
      nth j (map (lp r) (firsts (map fst (flat r)))) [] = nth k (map (lp p) (firsts (map fst (flat p)))) [].
  Proof.
    pose proof (keep_consistent alls dpsf gidf HF keepF) as KC. exists (newgid dpsf gidf keepF).
    assert (LR : forall r, (r < length W)%nat -> length (nth r dpsf []) = length (flat r)) by (intros; rewrite dpsf_nth, map_length by auto; auto).
    assert (KN : forall r, (r < length W)%nat -> keptnr dpsf keepF r = firsts (map fst (flat r))).
    { intros r Hr. unfold keptnr, firsts. rewrite LR, map_length by auto. reflexivity. }
    assert (ND : forall r, (r < length W)%nat -> newdps dpsf gidf keepF r = kept_dps r).
    { intros r Hr. unfold newdps, kept_dps. rewrite KN by auto. apply map_ext_in. intros k Hk. rewrite <- KN in Hk by auto. apply keptnr_in in Hk. destruct Hk as [Hk K].
rewrite (newrow_same alls dpsf gidf HF keepF).
      { rewrite dpsf_nth by auto. reflexivity. }
      { rewrite npW; auto. } { auto. } { auto. }
      { intros p k' Hp Hk' E. rewrite npW in Hp. rewrite LR in Hk' by auto. rewrite (keep_agree p r k' k); auto. rewrite <- LR; auto. } }
    assert (E : map (newdps dpsf gidf keepF) (seq 0 np) = map kept_dps (seq 0 np)) by (apply map_ext_in; intros r Hr; apply in_seq in Hr; apply ND; rewrite <- npW; lia).
    rewrite <- E. split; [exact KC|].
    intros r p j k Hr Hp Hj Hk G. unfold kept_dps in Hj, Hk. rewrite map_length in Hj, Hk. unfold newgid in G. rewrite !KN in G by auto.
    rewrite (nth_map_in (lp r) _ j _ 0%nat), (nth_map_in (lp p) _ k _ 0%nat) by auto. pose proof (nth_In _ 0%nat Hj) as A. pose proof (nth_In _ 0%nat Hk) as B. apply firsts_in in A, B. rewrite map_length in A, B. apply lp_same; tauto.
  Qed.
End Tables.

(** ** AddOrientedLoops *)
Lemma row_map_filt (loops : list (list Z)) : forall n, filt_loops loops (row_map (map (fun l : list Z => match l with [] => true | _ => false end) loops) n) = filter (fun l => match l with [] => false | _ => true end) loops.
Proof.
  induction loops as [|l loops IH]; intros n; [reflexivity|]. cbn [map row_map filter]. destruct l as [|c l]; cbn [filt_loops].
  - change (-1 =? -1)%Z with true. cbv iota. apply IH.
  - destruct (Z.eqb_spec (Z.of_nat n) (-1)); [lia|]. f_equal. apply IH.
Qed.
Lemma all_loop_dps_ok : forall (dps : list (list Z)) eqd, StronglySorted Z.lt eqd -> exists a, all_loop_dps eqd dps = Ret a /\ StronglySorted Z.lt a /\ forall p, In p a <-> In p eqd \/ exists ps, In ps dps /\ In p ps.
Proof.
  intros dps eqd HS. unfold all_loop_dps.
  assert (G : forall l a, StronglySorted Z.lt a -> exists a', foldM (fun a p => ' (_, a') <- insert_into_sorted_array_nodups p a ;; Ret a') l a = Ret a' /\ StronglySorted Z.lt a' /\ forall p, In p a' <-> In p a \/ In p l).
  { induction l as [|x l IH]; intros a Ha; [exists a; cbn; tauto|]. cbn [foldM]. destruct (C02_insert_nodups x a Ha) as [N1 N2]. destruct (in_dec Z.eq_dec x a) as [I|I].
    - rewrite (N1 I). cbn [bind]. destruct (IH a Ha) as (a' & E & S' & H). exists a'. split; auto. split; auto. intros p. rewrite H. cbn [In]. split; [tauto|]. intros [X|[<-|X]]; auto.
    - destruct (N2 I) as (a1 & E1 & S1 & P1). rewrite E1. cbn [bind]. destruct (IH a1 S1) as (a' & E & S' & H). exists a'. split; auto. split; auto. intros p. rewrite H. cbn [In].
      assert (X : In p a1 <-> x = p \/ In p a). { split; intros Y; [apply (Permutation_in _ P1) in Y; exact Y|apply (Permutation_in _ (Permutation_sym P1)); exact Y]. }
      rewrite X. tauto. }
  destruct (G (concat dps) eqd HS) as (a & E & SA & H). exists a. split; auto. split; auto. intros p. rewrite H. rewrite in_concat. tauto.
Qed.

Section Add.
  Variable eqdps : list (list Z).
  Variable loopss : list (list (list Z)).
  Variable dpss : list (list (list Z)).
  Variable gid : nat -> nat -> nat.
  Variable alls0 : list (list Z).
  Hypothesis HC : consistent alls0 dpss gid.
  Notation np := (length eqdps).
  Hypothesis L0 : length alls0 = np.
  Hypothesis L1 : length loopss = np.
  Hypothesis L2 : forall r, (r < np)%nat -> length (nth r loopss []) = length (nth r dpss []).
  Hypothesis Esorted : forall r, (r < np)%nat -> StronglySorted Z.lt (nth r eqdps []).
  Hypothesis Erange : forall r p, (r < np)%nat -> In p (nth r eqdps []) -> (0 <= p < Z.of_nat np)%Z /\ p <> Z.of_nat r.
  Hypothesis Esym : forall r p, (r < np)%nat -> (p < np)%nat -> In (Z.of_nat p) (nth r eqdps []) -> In (Z.of_nat r) (nth p eqdps []).
  Variable r : nat.
  Hypothesis Hr : (r < np)%nat.
  Definition nonempty (p k : nat) : bool := match nth k (nth p loopss []) [] with [] => false | _ => true end.

  Lemma alls_ok : exists alls, mapM (fun x => all_loop_dps (fst x) (snd x)) (combine eqdps dpss) = Ret alls /\ consistent alls dpss gid /\ length alls = np.
  Proof.
    pose proof (con_len _ _ _ HC) as CL.
    destruct (mapM_from (fun x : list Z * list (list Z) => all_loop_dps (fst x) (snd x)) (fun x a => StronglySorted Z.lt a /\ forall p, In p a <-> In p (fst x) \/ exists ps, In ps (snd x) /\ In p ps) (combine eqdps dpss)) as (alls & E & F).
    - intros [eqd dps] Hx. cbn [fst snd]. apply all_loop_dps_ok. apply in_combine_l in Hx. destruct (In_nth _ _ [] Hx) as (i & Hi & <-). apply Esorted; auto.
    - exists alls. split; auto. assert (LA : length alls = np) by (apply F2_length in F; rewrite combine_length in F; lia). split; auto.
      assert (A : forall i, (i < np)%nat -> StronglySorted Z.lt (nth i alls []) /\ forall p, In p (nth i alls []) <-> In p (nth i eqdps []) \/ exists ps, In ps (nth i dpss []) /\ In p ps).
      { intros i Hi. assert (G : forall l a, Forall2 (fun (x : list Z * list (list Z)) a => StronglySorted Z.lt a /\ forall p, In p a <-> In p (fst x) \/ exists ps, In ps (snd x) /\ In p ps) l a -> forall i, (i < length l)%nat ->
          StronglySorted Z.lt (nth i a []) /\ forall p, In p (nth i a []) <-> In p (fst (nth i l ([], []))) \/ exists ps, In ps (snd (nth i l ([], []))) /\ In p ps).
        { clear. induction 1 as [|x a l as' H F IH]; intros i Hi; [cbn in Hi; lia|]. destruct i; [exact H|]. apply IH. cbn in Hi; lia. }
        specialize (G _ _ F i ltac:(rewrite combine_length; lia)). rewrite combine_nth in G by lia. exact G. }
      assert (ROW : forall q k p, (q < np)%nat -> (k < length (nth q dpss []))%nat -> In p (nth k (nth q dpss []) []) -> (0 <= p < Z.of_nat np)%Z /\ p <> Z.of_nat q).
      { intros q k p Hq Hk Hp. destruct (con_rows _ _ _ HC q (nth k (nth q dpss []) []) ltac:(lia) (nth_In _ _ Hk)) as [_ I]. rewrite <- L0. apply (con_range _ _ _ HC q); [lia|auto]. }
      constructor; rewrite ?LA.
      + rewrite <- L0. auto.
      + intros q Hq. apply A; auto.
      + intros q ps Hq Hps. split; [apply (con_rows _ _ _ HC q); auto; lia|]. intros p Hp. apply A; eauto.
      + intros q p Hq Hp. apply A in Hp; auto. destruct Hp as [Hp|(ps & Hps & Hp)]; [apply Erange; auto|]. destruct (In_nth _ _ [] Hps) as (k & Hk & <-). apply (ROW q k); auto.
      + intros q p Hq Hp I. apply A in I; auto. apply A; auto. destruct I as [I|(ps & Hps & I)]; [left; apply Esym; auto|]. right. destruct (In_nth _ _ [] Hps) as (k & Hk & <-).
        destruct (ROW q k (Z.of_nat p) Hq Hk I) as [_ NE].
        destruct (partner' alls0 dpss gid HC (repeat [] (length alls0)) (repeat_length _ _) q ltac:(lia) (Z.of_nat p) k Hk I) as (k' & Hk' & G). rewrite Nat2Z.id in *.
        exists (nth k' (nth p dpss []) []). split; [apply nth_In; auto|].
        destruct (proj1 (con_group _ _ _ HC q p k k' ltac:(lia) ltac:(lia) Hk Hk' (eq_sym G) (Z.of_nat q)) (or_introl eq_refl)) as [X|X]; [lia|auto].
      + apply (con_inj _ _ _ HC).
      + intros; apply (con_order _ _ _ HC); lia.
      + intros q p j k Hq Hp. apply (con_group _ _ _ HC); lia.
  Qed.
  Lemma keepR_nonempty p k : (p < np)%nat -> (k < length (nth p dpss []))%nat -> keepR (map (map (fun l : list Z => match l with [] => true | _ => false end)) loopss) p k = nonempty p k.
  Proof.
    intros Hp Hk. unfold keepR, nonempty. rewrite (nth_map_in _ loopss p [] []) by lia. rewrite (nth_map_in _ (nth p loopss []) k true []) by (rewrite L2; auto). destruct (nth k (nth p loopss []) []); reflexivity.
  Qed.
  Theorem add_ok : AddOrientedLoops eqdps loopss dpss r = Ret (filter (fun l => match l with [] => false | _ => true end) (nth r loopss []), newdps dpss gid nonempty r)
    /\ exists alls, consistent alls (map (newdps dpss gid nonempty) (seq 0 np)) (newgid dpss gid nonempty).
  Proof.
    pose proof (con_len _ _ _ HC) as CL. unfold AddOrientedLoops. destruct alls_ok as (alls & E & HC' & LA). rewrite E. cbn [bind].
    set (rems := map (map (fun l : list Z => match l with [] => true | _ => false end)) loopss).
    assert (KK : forall p, (p < np)%nat -> keptnr dpss (keepR rems) p = keptnr dpss nonempty p).
    { intros p Hp. unfold keptnr. apply filter_ext_in. intros k Hk. apply in_seq in Hk. apply keepR_nonempty; auto; lia. }
    assert (ST : forall p g, (p < np)%nat -> stays dpss gid (keepR rems) p g = stays dpss gid nonempty p g).
    { intros p g Hp. unfold stays. destruct (local_nr gid (length (nth p dpss [])) p g) as [k|] eqn:X; auto. apply find_some in X. destruct X as [X _]. apply in_seq in X. apply keepR_nonempty; auto; lia. }
    rewrite (shrink_ok alls dpss gid HC' rems) by (unfold rems; rewrite ?map_length; try lia; intros q Hq; rewrite (nth_map_in _ loopss q [] []), map_length by lia; apply L2; lia). cbn [bind].
    rewrite (rd_ok loopss r []) by lia. cbn [bind]. split.
    - f_equal. f_equal.
      + unfold rems. rewrite (nth_map_in _ loopss r [] []) by lia. apply row_map_filt.
      + unfold newdps. rewrite KK by auto. apply map_ext_in. intros k Hk. unfold newrow. apply filter_ext_in. intros q Hq. apply ST. apply keptnr_in in Hk. destruct Hk as [Hk _].
        destruct (con_rows _ _ _ HC' r (nth k (nth r dpss []) []) ltac:(lia) (nth_In _ _ Hk)) as [_ I]. destruct (con_range _ _ _ HC' r q ltac:(lia) (I _ Hq)) as [X _]. lia.
    - exists alls. rewrite <- LA. apply keep_consistent. exact HC'.
  Qed.
End Add.
