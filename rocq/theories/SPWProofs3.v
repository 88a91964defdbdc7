(** Lemmas for C79: the joining iteration. *)
From Coq Require Import QArith.
From Verif Require Import Base SparseModel SparseProofs CtrProofs AuxSpec CDataModel CDataSpec CDataProofs SPWModel SPWSpec SPWProofs SPWProofs2.
Local Open Scope nat_scope.

Section Joining.
  Variable n : nat.
  Variable N : nat -> nat -> Prop.
  Variable h : list bool.
  Hypothesis h_len : length h = n.

  (** after the aggregated ones below k have been numbered *)
  Lemma number_aggs : forall k, k <= n -> exists s,
    foldM (fun s k => b <- rd h k ;; if b : bool then m <- wr (vm s) k (Z.of_nat (cnt s)) ;; Ret (mkMst m (hd s) (S (cnt s))) else Ret s) (seq 0 k) (mkMst (repeat (-1)%Z n) h 0) = Ret s /\
    hd s = h /\ length (vm s) = n /\ map_into (cnt s) (vm s) /\
    (forall v, (exists c, target (vm s) v = Some c) <-> v < k /\ nth v h false = true) /\
    (forall c, c < cnt s -> exists v, v < n /\ forall u, target (vm s) u = Some c <-> u = v).
  Proof.
    induction k as [|k IH]; intros Hk.
    - eexists. split; [reflexivity|]. cbn. split; auto. split; [apply repeat_length|]. split; [apply map_into_none|]. split; [|intros; lia].
      intros v. rewrite target_none. split; [intros (c & E); discriminate|lia].
    - destruct (IH ltac:(lia)) as (s & E & H1 & H2 & H3 & H4 & H5). rewrite seq_S, foldM_app, E. cbn [bind foldM plus].
      rewrite (rd_ok h k false) by lia. cbn [bind]. destruct (nth k h false) eqn:Eh.
      + rewrite wr_ok by lia. cbn [bind]. eexists. split; [reflexivity|]. cbn [hd vm cnt]. split; auto. split; [now rewrite upd_length|].
        split; [apply map_into_upd; [eapply map_into_mono; eauto|]; lia|]. split.
        * intros v. rewrite target_upd by lia. destruct (Nat.eqb_spec v k) as [->|].
          -- split; [intros _; split; auto; lia|eauto].
          -- rewrite H4. intuition lia.
        * intros c Hc. destruct (Nat.eq_dec c (cnt s)) as [->|].
          -- exists k. split; [lia|]. intros u. rewrite target_upd by lia. destruct (Nat.eqb_spec u k) as [->|]; [tauto|].
             split; [intros T; apply (target_lt _ _ _ _ H3) in T; lia|congruence].
          -- destruct (H5 c ltac:(lia)) as (v & Hv & V). exists v. split; auto. intros u. rewrite target_upd by lia. destruct (Nat.eqb_spec u k) as [->|]; [|apply V].
             split; [intros [= E1]; lia|]. intros ->. assert (T : target (vm s) v = Some c) by (now apply V).
             assert (X : v < v /\ nth v h false = true) by (apply H4; eauto). lia.
      + exists s. split; auto. split; auto. split; auto. split; auto. split; auto. intros v. rewrite H4. split; [intuition lia|]. intros [A B]. split; auto.
        destruct (Nat.eq_dec v k) as [->|]; [congruence|lia].
  Qed.

  Record jinv (s : mst) : Prop := mkJinv {
    ji_vm : length (vm s) = n; ji_hd : length (hd s) = n; ji_into : map_into (cnt s) (vm s);
    ji_handled : forall v, v < n -> nth v (hd s) false = true <-> exists c, target (vm s) v = Some c;
    ji_agg : forall v, nth v h false = true -> nth v (hd s) false = true;
    ji_stars : forall c, c < cnt s -> exists v, v < n /\ target (vm s) v = Some c /\
                 forall u, target (vm s) u = Some c -> u = v \/ (N v u /\ nth v h false = true /\ nth u h false = false) }.

  Variable getAgg : nat -> res (option nat).
  Hypothesis GA : forall v, v < n -> exists r, getAgg v = Ret r /\ forall w, r = Some w -> w < n /\ nth w h false = true /\ N w v.

  Lemma join_ok s v : jinv s -> v < n -> nth v (hd s) false = false ->
    exists s', (a <- getAgg v ;;
      s <- match a with
           | Some n => z <- rd (vm s) n ;; m <- wr (vm s) v z ;; Ret (mkMst m (hd s) (cnt s))
           | None => m <- wr (vm s) v (Z.of_nat (cnt s)) ;; Ret (mkMst m (hd s) (S (cnt s)))
           end ;;
      h <- wr (hd s) v true ;; Ret (mkMst (vm s) h (cnt s))) = Ret s' /\ jinv s' /\ nth v (hd s') false = true /\ grows s s'.
  Proof.
    intros HI Hv Hh. destruct (GA v Hv) as (r & Er & R). rewrite Er. cbn [bind]. pose proof (ji_vm s HI) as LV. pose proof (ji_hd s HI) as LH.
    assert (V0 : target (vm s) v = None).
    { destruct (target (vm s) v) eqn:Et; auto. pose proof (proj2 (ji_handled s HI v Hv) (ex_intro _ _ Et)). congruence. }
    assert (VH : nth v h false = false) by (destruct (nth v h false) eqn:E; auto; apply (ji_agg s HI) in E; congruence).
    assert (GR : forall m k, grows s (mkMst m (upd (hd s) v true) k)).
    { intros m k u Hu. cbn [hd]. rewrite nth_upd_b, Hu by lia. now destruct (u =? v). }
    destruct r as [w|].
    - destruct (R w eq_refl) as (Hw & Aw & NN).
      destruct (proj1 (ji_handled s HI w Hw) (ji_agg s HI w Aw)) as (c & Tc). destruct (target_lt _ _ _ _ (ji_into s HI) Tc) as (_ & Hc).
      assert (Ez : rd (vm s) w = Ret (Z.of_nat c)).
      { unfold target in Tc. destruct (nth_error (vm s) w) as [z|] eqn:En; [|discriminate]. destruct (Z.ltb_spec z 0); [discriminate|]. injection Tc as <-.
        unfold rd. rewrite En. f_equal. lia. }
      rewrite Ez. cbn [bind]. rewrite wr_ok by lia. cbn [bind hd vm cnt]. rewrite wr_ok by lia. cbn [bind]. eexists. split; [reflexivity|].
      split; [|split; [cbn [hd]; rewrite nth_upd_b, Nat.eqb_refl by lia; auto|apply GR]].
      constructor; cbn [hd vm cnt].
      + now rewrite upd_length.
      + now rewrite upd_length.
      + apply map_into_upd; auto. apply (ji_into s HI).
      + intros u Hu. rewrite nth_upd_b, target_upd by lia. destruct (u =? v); [split; eauto|]. apply (ji_handled s HI u Hu).
      + intros u Hu. rewrite nth_upd_b by lia. destruct (u =? v); auto. apply (ji_agg s HI u Hu).
      + intros c' Hc'. destruct (ji_stars s HI c' Hc') as (x & Hx & Tx & S). exists x. split; auto.
        assert (Nx : x <> v) by congruence.
        split; [rewrite target_upd by lia; destruct (Nat.eqb_spec x v); congruence|]. intros u. rewrite target_upd by lia. destruct (Nat.eqb_spec u v) as [->|]; [|apply S].
        intros [= <-]. right. destruct (S w Tc) as [<-|(_ & _ & Bad)]; [auto|congruence].
    - rewrite wr_ok by lia. cbn [bind hd vm cnt]. rewrite wr_ok by lia. cbn [bind]. eexists. split; [reflexivity|].
      split; [|split; [cbn [hd]; rewrite nth_upd_b, Nat.eqb_refl by lia; auto|apply GR]].
      constructor; cbn [hd vm cnt].
      + now rewrite upd_length.
      + now rewrite upd_length.
      + apply map_into_upd; [|lia]. eapply map_into_mono; [apply (ji_into s HI)|lia].
      + intros u Hu. rewrite nth_upd_b, target_upd by lia. destruct (u =? v); [split; eauto|]. apply (ji_handled s HI u Hu).
      + intros u Hu. rewrite nth_upd_b by lia. destruct (u =? v); auto. apply (ji_agg s HI u Hu).
      + intros c' Hc'. destruct (Nat.eq_dec c' (cnt s)) as [->|].
        * exists v. split; auto. rewrite target_upd, Nat.eqb_refl by lia. split; auto. intros u. rewrite target_upd by lia.
          destruct (Nat.eqb_spec u v) as [->|]; auto. intros T. apply (target_lt _ _ _ _ (ji_into s HI)) in T. lia.
        * destruct (ji_stars s HI c' ltac:(lia)) as (x & Hx & Tx & S). exists x. split; auto. assert (Nx : x <> v) by congruence.
          split; [rewrite target_upd by lia; destruct (Nat.eqb_spec x v); congruence|]. intros u. rewrite target_upd by lia. destruct (Nat.eqb_spec u v) as [->|]; [|apply S].
          intros [= <-]. lia.
  Qed.
End Joining.

(** who may join whose agglomerate *)
Definition may_join (P : par_info) (veq : list nat) (v w : nat) : Prop :=
  truly_par P = true -> leq P (nth v veq 0) (nth w veq 0) = true \/ leq P (nth w veq 0) (nth v veq 0) = true.
Lemma allow_join_ok P veq h v w : (truly_par P = true -> v < length veq /\ w < length veq) -> w < length h ->
  exists b, allow_join P veq h v w = Ret b /\ (b = true -> nth w h false = true /\ may_join P veq v w).
Proof.
  intros HP Hw. unfold allow_join, may_join. rewrite (rd_ok _ _ false) by auto. cbn [bind]. destruct (nth w h false); cbn [negb]; [|exists false; split; auto; discriminate].
  destruct (truly_par P); cbn [negb]; [|exists true; split; auto; split; auto; discriminate].
  destruct (HP eq_refl) as (H1 & H2). rewrite !(rd_ok veq _ 0) by auto. cbn [bind]. eexists. split; [reflexivity|]. intros E. split; auto. intros _.
  apply andb_true_iff in E as [_ E]. apply orb_true_iff in E. tauto.
Qed.

Lemma joining_ok c O P r M veq h : oracles_ok O -> config_ok c -> mesh_ok M -> length h = m_nv M ->
  (truly_par P = true -> length veq = m_nv M) ->
  exists s, JoiningIteration c O P r (m_econ M) veq (m_nv M) (repeat (-1)%Z (m_nv M)) h = Ret s /\
    star_map (m_nv M) (fun w v => v <> w /\ mesh_adj M w v /\ may_join P veq v w) (fun v => False) (cnt s) (vm s).
Proof.
  intros (HO1 & HO2 & HO3) HC HM HL HP. set (n := m_nv M) in *. set (NN := fun w v => v <> w /\ mesh_adj M w v /\ may_join P veq v w).
  unfold JoiningIteration.
  destruct (number_aggs n NN h HL n (le_n n)) as (s0 & E0 & A1 & A2 & A3 & A4 & A5). rewrite E0. cbn [bind].
  assert (GA : forall v, v < n -> exists r0, FindNeighborToJoin c O r (m_econ M) (allow_join P veq h) v = Ret r0 /\ forall w, r0 = Some w -> w < n /\ nth w h false = true /\ NN w v).
  { intros v Hv. unfold FindNeighborToJoin. rewrite (rd_ok (m_econ M) v []) by (destruct HM as (_ & E & _); fold n in E; lia). cbn [bind].
    set (al := fun w => match allow_join P veq h v w with Ret b => b | Err _ => false end).
    assert (HA : forall w, In w (map fst (nth v (m_econ M) [])) -> exists b, allow_join P veq h v w = Ret b /\ (b = true -> nth w h false = true /\ may_join P veq v w)).
    { intros w Hw. destruct (mesh_row M v w HM Hv Hw) as (Hw1 & _). fold n in Hw1. apply allow_join_ok; [|lia]. intros HT. rewrite (HP HT). auto. }
    match goal with |- context [FindNeib3Step ?cc _ _ _ _ _ _ _] => set (c' := cc) end.
    destruct (FindNeib3Step_ok c' (o_sorti O) (o_ini O r v) (o_rob O r v) (o_crob O r v) (o_cbig O r v) (allow_join P veq h v) al (map fst (nth v (m_econ M) [])) HO1 HC) as (r0 & E & BC).
    { intros w Hw. destruct (HA w Hw) as (b & Eb & _). unfold al. now rewrite Eb. }
    exists r0. split; auto. intros w ->. apply best_choice_allowed in BC as [Hw Aw]. destruct (HA w Hw) as (b & Eb & B). unfold al in Aw. rewrite Eb in Aw.
    destruct (B Aw) as [B1 B2]. destruct (mesh_row M v w HM Hv Hw) as (Q1 & Q2 & e & Q3). fold n in Q1. repeat split; auto. exists e. destruct Q3; [right|left]; auto. }
  assert (J0 : jinv n NN h s0).
  { constructor; auto.
    - now rewrite A1.
    - intros v Hv. rewrite A1, A4. tauto.
    - intros v. now rewrite A1.
    - intros cc Hcc. destruct (A5 cc Hcc) as (v & Hv & V). exists v. split; auto. split; [now apply V|]. intros u Hu. left. now apply V. }
  destruct (iterate_ok n (jinv n NN h) (ji_hd n NN h) _ (join_ok n NN h HL _ GA) (m_econ M) ltac:(apply HM) (fun v w Hv Hw => proj1 (mesh_row M v w HM Hv Hw)) (o_sortd O) HO2
    false (rev (seq 0 n)) (fun v Hv => proj2 (proj1 (in_seq _ _ _) (proj2 (in_rev _ _) Hv))) _ J0) as (s & E & I & G & A).
  exists s. split; [exact E|]. split; [apply I|]. split; [apply I|]. split.
  - intros v Hv. split; [|tauto]. intros T. assert (Hd : nth v (hd s) false = true) by (apply A; rewrite <- in_rev; apply in_seq; lia).
    apply (ji_handled n NN h s I v Hv) in Hd as (cc & Hd). congruence.
  - intros cc Hcc. destruct (ji_stars n NN h s I cc Hcc) as (v & Hv & T & S). exists v. split; auto. split; auto. intros u Hu. destruct (S u Hu) as [|(? & _)]; auto.
Qed.
