(** The tables of shared loops of the contracted mesh fit to each other *)
From Verif Require Import Base ArraysModel ArraysProofs ArraysProps LoopModel SMapModel SMapProofs SMapProofs3 SMapProofs8 SMapProofs9 SMeshModel SMeshProofs2 SCtrModel SCtrProofs SCtrProofs2.
Import ListNotations.

Lemma sorted_Zlt_nth l : StronglySorted Z.lt l -> forall a b, (a < b < length l)%nat -> (nth a l 0 < nth b l 0)%Z.
Proof.
  induction 1 as [|x l H IH F]; intros a b L; [cbn in L; lia|]. destruct b as [|b]; [lia|]. cbn [length] in L. destruct a as [|a]; cbn [nth].
  - rewrite Forall_forall in F. apply F. apply nth_In. lia.
  - apply IH. lia.
Qed.
Lemma sorted_map_filter (f : nat -> nat) P n : (forall a b, (a < b < n)%nat -> (f a < f b)%nat) -> StronglySorted lt (map f (filter P (seq 0 n))).
Proof.
  intros H. pose proof (sorted_seq_filter P n 0) as S0. assert (B : forall x, In x (filter P (seq 0 n)) -> (x < n)%nat) by (intros x Hx; apply filter_In in Hx; destruct Hx as [Hx _]; apply in_seq in Hx; lia).
  induction S0 as [|x l H0 IH F]; cbn [map]; constructor.
  - apply IH. intros; apply B; cbn; auto.
  - rewrite Forall_forall in *. intros y Hy. apply in_map_iff in Hy. destruct Hy as (z & <- & Hz). apply H. split; [apply F; auto|apply B; cbn; auto].
Qed.
Lemma sorted_lt_eq : forall l l', StronglySorted lt l -> StronglySorted lt l' -> (forall x, In x l <-> In x l') -> l = l'.
Proof.
  induction l as [|a l IH]; intros [|b l'] H H' E; auto; [destruct (proj2 (E b) (or_introl eq_refl))|destruct (proj1 (E a) (or_introl eq_refl))|].
  apply StronglySorted_inv in H. destruct H as [H F]. apply StronglySorted_inv in H'. destruct H' as [H' F']. rewrite Forall_forall in *.
  assert (a = b). { destruct (proj1 (E a) (or_introl eq_refl)) as [|X]; auto. destruct (proj2 (E b) (or_introl eq_refl)) as [|Y]; auto. specialize (F _ Y). specialize (F' _ X). lia. }
  subst b. f_equal. apply IH; auto. intros x. split; intros X.
  - destruct (proj1 (E x) (or_intror X)) as [<-|]; auto. specialize (F _ X). lia.
  - destruct (proj2 (E x) (or_intror X)) as [<-|]; auto. specialize (F' _ X). lia.
Qed.

Section Fit.
  Variable alls : list (list Z).
  Variable dpss : list (list (list Z)).
  Variable gid : nat -> nat -> nat.
  Hypothesis HC : consistent alls dpss gid.
  Notation np := (length alls).
  Variable groups : list (list nat).
  Notation nc := (length groups).
  Variable pmap : list Z.
  Hypothesis Lp : length pmap = np.
  Hypothesis Hgr : forall q r, (q < nc)%nat -> (In r (nth q groups []) <-> (r < np)%nat /\ nth r pmap 0%Z = Z.of_nat q).
  Hypothesis Hpm : forall r, (r < np)%nat -> (0 <= nth r pmap 0 < Z.of_nat nc)%Z.
  Variable U : nat -> umsg.
  Variable MS : nat -> list mapd.
  Hypothesis Hgn : forall r, (r < np)%nat -> u_gn (U r) = map (fun j => Z.of_nat (gid r j)) (seq 0 (length (nth r dpss []))).
  Hypothesis Hdps : forall r, (r < np)%nat -> u_dps (U r) = nth r dpss [].
  Hypothesis HM : forall q, (q < nc)%nat -> length (MS q) = length (nth q groups []).
  Hypothesis HF : forall q k, (q < nc)%nat -> (k < length (nth q groups []))%nat -> fits np (U (nth k (nth q groups []) O)) (nth k (MS q) dP).

  (** process r has the loop g *)
  Definition holds (r g : nat) : Prop := exists j, (j < length (nth r dpss []))%nat /\ gid r j = g.
  Lemma row_holds r j d : (r < np)%nat -> (j < length (nth r dpss []))%nat -> (In d (Z.of_nat r :: nth j (nth r dpss []) []) <-> (0 <= d < Z.of_nat np)%Z /\ holds (Z.to_nat d) (gid r j)).
  Proof.
    intros Hr Hj. split.
    - intros [<-|I].
      + rewrite Nat2Z.id. split; [lia|]. exists j. auto.
      + destruct (con_rows _ _ _ HC r _ Hr (nth_In _ [] Hj)) as [_ X]. pose proof (con_range _ _ _ HC r d Hr (X _ I)) as [R _]. split; auto.
        assert (J : In (gid r j) (map (gid r) (shared (nth r dpss []) (Z.of_nat (Z.to_nat d))))). { apply in_map. unfold shared. apply filter_In. split; [apply in_seq; lia|]. rewrite Z2Nat.id by lia. apply mem_In; auto. }
        rewrite (con_order _ _ _ HC) in J by lia. apply in_map_iff in J. destruct J as (k & E & K). apply filter_In in K. destruct K as [K _]. apply in_seq in K. exists k. split; [lia|auto].
    - intros [R (k & Hk & E)]. apply (con_group _ _ _ HC r (Z.to_nat d) j k Hr ltac:(lia) Hj Hk (eq_sym E)). left. lia.
  Qed.
  Definition us (q : nat) : list umsg := map U (nth q groups []).
  (** the contracted process q has the loop g *)
  Definition cholds (q g : nat) : Prop := exists r, In r (nth q groups []) /\ holds r g.

  Lemma ctr_q q : (q < nc)%nat -> exists gnums cl cd, all_gnums (us q) = Ret gnums /\ ctr_loops pmap (Z.of_nat q) (us q) (MS q) = Ret (cl, cd) /\ length cl = length gnums /\ length cd = length gnums /\ StronglySorted Z.lt gnums /\
    (forall g, In g gnums <-> exists n, g = Z.of_nat n /\ cholds q n) /\
    (forall i, (i < length gnums)%nat -> StronglySorted Z.lt (nth i cd []) /\ forall x, In x (nth i cd []) <-> x <> Z.of_nat q /\ (0 <= x < Z.of_nat nc)%Z /\ cholds (Z.to_nat x) (Z.to_nat (nth i gnums 0%Z))).
  Proof.
    intros Hq. destruct (all_gnums_ok (us q)) as (gn0 & E0 & SS & HG).
    assert (LU : length (us q) = length (nth q groups [])) by apply map_length.
    assert (UN : forall k, (k < length (us q))%nat -> nth k (us q) dU = U (nth k (nth q groups []) O)) by (intros k Hk; unfold us; apply nth_map_in; lia).
    destruct (ctr_loops_ok pmap (Z.of_nat q) (us q) (MS q)) as (gnums & cl & cd & E1 & E & L1 & L2 & H).
    { rewrite LU. apply HM; auto. }
    { intros k Hk. rewrite UN by auto. rewrite Lp. apply HF; auto; lia. }
    assert (gnums = gn0) by congruence. subst gnums. exists gn0, cl, cd.
    assert (GG : forall g, In g gn0 <-> exists n, g = Z.of_nat n /\ cholds q n).
    { intros g. rewrite HG. split.
      - intros (u & I & J). apply in_map_iff in I. destruct I as (r & <- & I). apply Hgr in I as I'; auto. destruct I' as [Hr _]. rewrite Hgn in J by auto. apply in_map_iff in J. destruct J as (j & <- & J). apply in_seq in J. exists (gid r j). split; auto. exists r. split; auto. exists j. split; auto. lia.
      - intros (n & -> & r & I & j & Hj & <-). exists (U r). split; [apply in_map; auto|]. apply Hgr in I; auto. rewrite Hgn by tauto. apply in_map_iff. exists j. split; auto. apply in_seq. lia. }
    split; auto. split; auto. split; auto. split; auto. split; auto. split; auto.
    intros i Hi. destruct (H i Hi) as [_ [SC HX]]. split; auto. intros x. rewrite HX. clear HX H.
    assert (IG : In (nth i gn0 0%Z) gn0) by (apply nth_In; auto). apply GG in IG. destruct IG as (n & EN & CH). rewrite EN, Nat2Z.id.
    split.
    - intros [NX (k & j & p & Hk & Hj & EJ & IP & ->)]. split; auto. clear NX. rewrite UN in * by auto. set (r := nth k (nth q groups []) O) in *. assert (RG : In r (nth q groups [])) by (apply nth_In; lia). apply Hgr in RG; auto. destruct RG as [Hr PR].
      rewrite Hgn in Hj, EJ by auto. rewrite map_length, seq_length in Hj. rewrite (nth_map_in _ _ _ _ O) in EJ by (rewrite seq_length; auto). rewrite seq_nth in EJ by auto. cbn [Nat.add] in EJ. apply Nat2Z.inj in EJ.
      rewrite Hdps in IP by auto. destruct (proj1 (row_holds r j p Hr Hj) (or_intror IP)) as [RP HP]. rewrite EJ in HP. specialize (Hpm (Z.to_nat p) ltac:(lia)). split; auto. exists (Z.to_nat p). split; auto. apply Hgr; [lia|]. split; [lia|]. rewrite Z2Nat.id; lia.
    - intros [NX [RX (r' & I' & HO')]]. split; auto. destruct CH as (r & I & HO). apply Hgr in I' as J'; [|lia]. destruct J' as [Hr' P']. apply Hgr in I as J; auto. destruct J as [Hr P].
      destruct HO as (j & Hj & EJ). destruct (In_nth _ _ O I) as (k & Hk & EK). rewrite Z2Nat.id in P' by lia.
      exists k, j, (Z.of_nat r'). rewrite UN by lia. rewrite EK. rewrite Hgn by auto. rewrite map_length, seq_length. split; [lia|]. split; auto. rewrite (nth_map_in _ _ _ _ O) by (rewrite seq_length; auto). rewrite seq_nth by auto. cbn [Nat.add]. split; [rewrite EJ; auto|]. rewrite Hdps by auto. rewrite Nat2Z.id. split; auto.
      destruct (proj2 (row_holds r j (Z.of_nat r') Hr Hj)) as [X|X]; auto; [split; [lia|]; rewrite Nat2Z.id, EJ; auto|]. apply Nat2Z.inj in X. subst r'. rewrite P in P'. congruence.
  Qed.

  Definition gnums (q : nat) : list Z := match all_gnums (us q) with Ret g => g | Err _ => [] end.
  Definition ctabs (q : nat) : list (list Z) := match ctr_loops pmap (Z.of_nat q) (us q) (MS q) with Ret (_, cd) => cd | Err _ => [] end.
  Definition cgid (q i : nat) : nat := Z.to_nat (nth i (gnums q) 0%Z).
  Definition call (q : nat) : list Z := match all_loop_dps [] (ctabs q) with Ret a => a | Err _ => [] end.

  Lemma q_facts q : (q < nc)%nat -> length (ctabs q) = length (gnums q) /\ StronglySorted Z.lt (gnums q) /\ (forall g, In g (gnums q) <-> exists n, g = Z.of_nat n /\ cholds q n) /\
    (forall i, (i < length (gnums q))%nat -> cholds q (cgid q i)) /\
    (forall i, (i < length (ctabs q))%nat -> StronglySorted Z.lt (nth i (ctabs q) []) /\ forall x, In x (nth i (ctabs q) []) <-> x <> Z.of_nat q /\ (0 <= x < Z.of_nat nc)%Z /\ cholds (Z.to_nat x) (cgid q i)) /\
    StronglySorted Z.lt (call q) /\ (forall p, In p (call q) <-> exists ps, In ps (ctabs q) /\ In p ps).
  Proof.
    intros Hq. destruct (ctr_q q Hq) as (gn & cl & cd & E1 & E2 & L1 & L2 & SS & HG & HR). unfold gnums, ctabs, cgid, gnums. rewrite E1, E2. unfold call, ctabs. rewrite E2.
    destruct (all_loop_dps_ok cd [] ltac:(constructor)) as (a & E3 & S3 & H3). rewrite E3. split; [lia|]. split; auto. split; auto. split.
    { intros i Hi. destruct (proj1 (HG (nth i gn 0%Z)) (nth_In _ _ Hi)) as (n & -> & H). rewrite Nat2Z.id. auto. }
    split; [intros i Hi; apply HR; lia|]. split; auto. intros p. rewrite H3. split; [intros [[]|H]; auto|auto].
  Qed.
  Lemma cgid_lt q a b : (q < nc)%nat -> (a < b < length (gnums q))%nat -> (cgid q a < cgid q b)%nat.
  Proof.
    intros Hq H. destruct (q_facts q Hq) as (_ & SS & HG & _). unfold cgid. pose proof (sorted_Zlt_nth _ SS a b H).
    assert (La : (a < length (gnums q))%nat) by lia. destruct (proj1 (HG (nth a (gnums q) 0%Z)) (nth_In _ _ La)) as (n & E & _). lia.
  Qed.
  Lemma cgid_inj q a b : (q < nc)%nat -> (a < length (gnums q))%nat -> (b < length (gnums q))%nat -> cgid q a = cgid q b -> a = b.
  Proof. intros Hq Ha Hb E. destruct (Nat.lt_trichotomy a b) as [L|[L|L]]; auto; [pose proof (cgid_lt q a b Hq)|pose proof (cgid_lt q b a Hq)]; lia. Qed.
  Lemma cholds_nr q g : (q < nc)%nat -> cholds q g -> exists i, (i < length (gnums q))%nat /\ cgid q i = g.
  Proof.
    intros Hq H. destruct (q_facts q Hq) as (_ & _ & HG & _). assert (I : In (Z.of_nat g) (gnums q)) by (apply HG; eauto). destruct (In_nth _ _ 0%Z I) as (i & Hi & E). exists i. split; auto. unfold cgid. rewrite E. apply Nat2Z.id.
  Qed.
  (** the loops that q shares with x *)
  Lemma shared_in q x g : (q < nc)%nat -> (x < nc)%nat -> (In g (map (cgid q) (shared (ctabs q) (Z.of_nat x))) <-> x <> q /\ cholds q g /\ cholds x g).
  Proof.
    intros Hq Hx. destruct (q_facts q Hq) as (L & SS & HG & HH & HR & _). rewrite in_map_iff. unfold shared. split.
    - intros (i & <- & I). apply filter_In in I. destruct I as [I M]. apply in_seq in I. apply mem_In in M. apply HR in M; [|lia]. rewrite Nat2Z.id in M. destruct M as (A & _ & B). split; [lia|]. split; auto. apply HH. lia.
    - intros (N & A & B). destruct (cholds_nr q g Hq A) as (i & Hi & E). exists i. split; auto. apply filter_In. split; [apply in_seq; lia|]. apply mem_In. apply HR; [lia|]. rewrite Nat2Z.id, E. split; [lia|]. split; [lia|auto].
  Qed.
  Theorem ctr_consistent : consistent (map call (seq 0 nc)) (map ctabs (seq 0 nc)) cgid.
  Proof.
    assert (NA : forall q, (q < nc)%nat -> nth q (map call (seq 0 nc)) [] = call q) by (intros; apply map_nth_seq; auto).
    assert (NT : forall q, (q < nc)%nat -> nth q (map ctabs (seq 0 nc)) [] = ctabs q) by (intros; apply map_nth_seq; auto).
    assert (NO : forall q, ~ (q < nc)%nat -> nth q (map ctabs (seq 0 nc)) [] = []) by (intros q Hq; apply nth_overflow; rewrite map_length, seq_length; lia).
    assert (LN : length (map call (seq 0 nc)) = nc) by (rewrite map_length, seq_length; auto).
    constructor; rewrite ?LN.
    - rewrite map_length, seq_length. auto.
    - intros q Hq. rewrite NA by auto. apply q_facts; auto.
    - intros q ps Hq I. rewrite NT in I by auto. rewrite NA by auto. destruct (q_facts q Hq) as (_ & _ & _ & _ & HR & _ & HA). split.
      + destruct (In_nth _ _ [] I) as (i & Hi & <-). apply lt_NoDup, HR; auto.
      + intros p Hp. apply HA. eauto.
    - intros q p Hq I. rewrite NA in I by auto. destruct (q_facts q Hq) as (_ & _ & _ & _ & HR & _ & HA). apply HA in I. destruct I as (ps & I & J). destruct (In_nth _ _ [] I) as (i & Hi & E). rewrite <- E in J. apply HR in J; auto. tauto.
    - intros q p Hq Hp I. rewrite NA in * by auto. destruct (q_facts q Hq) as (L & _ & _ & HH & HR & _ & HA). apply HA in I. destruct I as (ps & I & J). destruct (In_nth _ _ [] I) as (i & Hi & E). rewrite <- E in J. apply HR in J; auto. rewrite Nat2Z.id in J. destruct J as (N & _ & C).
      destruct (q_facts p Hp) as (L' & _ & _ & _ & HR' & _ & HA'). apply HA'. destruct (cholds_nr p _ Hp C) as (k & Hk & EK). exists (nth k (ctabs p) []). split; [apply nth_In; lia|]. apply HR'; [lia|]. rewrite Nat2Z.id. split; [lia|]. split; [lia|]. rewrite EK. apply HH. lia.
    - intros q j k Hj Hk E. destruct (lt_dec q nc) as [Hq|Hq]; [|rewrite NO in Hj by auto; cbn in Hj; lia]. rewrite NT in * by auto. destruct (q_facts q Hq) as (L & _). apply (cgid_inj q); auto; lia.
    - intros q p Hq Hp. rewrite !NT by auto. apply sorted_lt_eq.
      + destruct (q_facts q Hq) as (L & _). apply sorted_map_filter. intros a b H. apply cgid_lt; auto. lia.
      + destruct (q_facts p Hp) as (L & _). apply sorted_map_filter. intros a b H. apply cgid_lt; auto. lia.
      + intros g. rewrite !shared_in by auto. intuition.
    - intros q p j k Hq Hp Hj Hk E x. rewrite (NT q Hq) in *. rewrite (NT p Hp) in *. destruct (q_facts q Hq) as (L & _ & _ & HH & HR & _). destruct (q_facts p Hp) as (L' & _ & _ & HH' & HR' & _). cbn [In].
      rewrite (proj2 (HR j Hj)), (proj2 (HR' k Hk)). rewrite <- E. pose proof (HH j ltac:(lia)) as Cq. pose proof (HH' k ltac:(lia)) as Cp. rewrite <- E in Cp.
      assert (G : forall y (y' := Z.of_nat y), (y < nc)%nat -> cholds y (cgid q j) -> (y' = x \/ x <> y' /\ (0 <= x < Z.of_nat nc)%Z /\ cholds (Z.to_nat x) (cgid q j) <-> (0 <= x < Z.of_nat nc)%Z /\ cholds (Z.to_nat x) (cgid q j))).
      { intros y y' Hy C. split; [intros [X|X]; [|tauto]; subst x; unfold y'; rewrite Nat2Z.id; split; [lia|auto]|]. intros X. destruct (Z.eq_dec y' x); auto. }
      rewrite !G by auto. reflexivity.
  Qed.
End Fit.
