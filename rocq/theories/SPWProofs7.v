(** Lemmas for C79, C81: the invariant of the rounds. *)
From Coq Require Import QArith.
From Verif Require Import Base SparseModel SparseProofs CtrProofs AuxModel AuxSpec AuxProofs CDataModel CDataSpec CDataProofs CDataProps CMapProps SPWModel SPWSpec SPWProofs SPWProofs2 SPWProofs3 SPWProofs4 SPWProofs5 SPWProofs6.
Local Open Scope nat_scope.

Section Rounds.
  Variable P : par_info.
  Variable Mf : lmesh.
  Hypothesis HMf : mesh_ok Mf.
  Let n0 := m_nv Mf.
  Let E := m_edges Mf.
  Variable out : nat -> Prop.
  Variable veq : list nat.

  Record base (C : conc) : Prop := mkBase {
    b_len : length (c_vmap C) = n0; b_into : map_into (c_n C) (c_vmap C);
    b_none : forall v, v < n0 -> target (c_vmap C) v = None <-> out v;
    b_rows : rows_of (c_vmap C) (c_n C) (c_aggs C);
    b_conn : forall A, A < c_n C -> connected E (fun v => target (c_vmap C) v = Some A);
    b_inh : forall A, A < c_n C -> exists v, target (c_vmap C) v = Some A }.
  Definition msh (C : conc) (M : lmesh) : Prop := mesh_ok M /\ m_nv M = c_n C /\
    forall A B, adjacent (m_edges M) A B <-> A <> B /\ exists a b, adjacent E a b /\ target (c_vmap C) a = Some A /\ target (c_vmap C) b = Some B.
  Definition size (k : nat) (C : conc) : Prop := forall A, A < c_n C -> length (nth A (c_aggs C) []) <= 2 ^ k.
  Definition eqs (C : conc) : Prop := forall A, A < c_n C ->
    (forall u, target (c_vmap C) u = Some A -> leq P (nth u veq 0) (nth A (c_eq C) 0) = true) /\ exists v, target (c_vmap C) v = Some A /\ nth v veq 0 = nth A (c_eq C) 0.
  Definition topp (C : conc) : Prop := forall A, A < c_n C ->
    exists v, target (c_vmap C) v = Some A /\ forall u, target (c_vmap C) u = Some A -> leq P (nth u veq 0) (nth v veq 0) = true.
  Lemma eqs_top C : eqs C -> topp C.
  Proof. intros H A HA. destruct (H A HA) as (H1 & v & Tv & Ev). exists v. split; auto. intros u Tu. rewrite Ev. auto. Qed.

  (** one more map *)
  Section Step.
    Variables (C : conc) (M : lmesh) (NC : nat) (rm m : list Z) (rows : list (list nat)) (eq' : list nat) (N : nat -> nat -> Prop).
    Hypothesis HB : base C.
    Hypothesis HS : msh C M.
    Hypothesis HN : forall A B, N A B -> adjacent (m_edges M) A B.
    Hypothesis HR : star_map (m_nv M) N (fun _ => False) NC rm.
    Hypothesis HL : length m = length (c_vmap C).
    Hypothesis HT : forall v, target m v = match target (c_vmap C) v with Some A => target rm A | None => None end.
    Hypothesis HX : forall x, In x m -> x = (-1)%Z \/ In x rm.
    Hypothesis HW : rows_of m NC rows.
    Let C' := mkConc NC m rows eq'.

    Lemma rm_total A : A < c_n C -> exists k, target rm A = Some k /\ k < NC.
    Proof using HS HR.
      clear - HS HR. intros HA. destruct HR as (L & I & T & _), HS as (_ & En & _). destruct (target rm A) as [k|] eqn:Et; [exists k; split; auto; apply (target_lt NC) in Et; tauto|].
      exfalso. apply (T A); auto. now rewrite En.
    Qed.
    Lemma base_step : base C'.
    Proof using HMf HB HS HN HR HL HT HX HW.
      clear - HMf HB HS HN HR HL HT HX HW. unfold C'. constructor; cbn [c_vmap c_n c_aggs].
      - rewrite HL. apply HB.
      - intros x Hx. destruct (HX x Hx) as [->|H]; [auto|]. destruct HR as (_ & I & _). now apply I.
      - intros v Hv. rewrite HT. rewrite <- (b_none C HB v Hv). destruct (target (c_vmap C) v) as [A|] eqn:Ta; [|tauto].
        assert (HA : A < c_n C) by (apply (target_lt (c_n C)) in Ta; [tauto|apply HB]). destruct (rm_total A HA) as (k & Tk & _). rewrite Tk. split; discriminate.
      - exact HW.
      - intros k Hk. destruct HR as (L & I & T & S). destruct (S k Hk) as (A & HA & TA & SA). destruct HS as (HM & En & AD).
        apply (connected_iff E (fun x => exists A, target rm A = Some k /\ target (c_vmap C) x = Some A)).
        { intros x. rewrite HT. split; [intros (B & T1 & T2); now rewrite T2|]. intros T1. destruct (target (c_vmap C) x) as [B|]; [eauto|discriminate]. }
        apply (star_connected E (fun A x => target (c_vmap C) x = Some A) (fun A => target rm A = Some k) A TA).
        + intros B TB. apply (b_conn C HB). rewrite <- En. rewrite <- L. apply (target_lt NC) in TB; tauto.
        + intros B TB. destruct (SA B TB) as [->|NB]; [auto|]. right. apply HN, AD in NB as (_ & a & b & H1 & H2 & H3). exists a, b. auto.
      - intros k Hk. destruct HR as (L & I & T & S). destruct (S k Hk) as (A & HA & TA & _). destruct HS as (_ & En & _).
        destruct (b_inh C HB A ltac:(lia)) as (v & Tv). exists v. rewrite HT, Tv. auto.
    Qed.
    Lemma msh_step M' : mesh_ok M' -> m_nv M' = NC ->
      (forall A B, adjacent (m_edges M') A B <-> A <> B /\ exists a b, adjacent (m_edges M) a b /\ target rm a = Some A /\ target rm b = Some B) -> msh C' M'.
    Proof using HB HS HT.
      clear - HB HS HT. intros H1 H2 H3. split; auto. split; auto. intros A B. rewrite H3. destruct HS as (_ & En & AD). cbn [C' c_vmap]. split.
      - intros (NE & a & b & Hab & Ta & Tb). split; auto. apply AD in Hab as (_ & x & y & Hxy & Tx & Ty). exists x, y. split; auto. rewrite !HT, Tx, Ty. auto.
      - intros (NE & x & y & Hxy & Tx & Ty). split; auto. rewrite HT in Tx, Ty. destruct (target (c_vmap C) x) as [a|] eqn:Ea; [|discriminate]. destruct (target (c_vmap C) y) as [b|] eqn:Eb; [|discriminate].
        exists a, b. split; auto. apply AD. split; [congruence|]. eauto 6.
    Qed.
    Lemma size_step k : size k C -> pair_map (m_nv M) N (fun _ => False) NC rm -> size (S k) C'.
    Proof using HB HS HT HW.
      clear - HB HS HT HW. intros HK (L & I & T & S) A HA. cbn [C' c_n c_aggs] in *. destruct (S A HA) as (v & ow & Hv & S1 & S2). destruct HS as (_ & En & _). destruct HW as [WL WR].
      destruct (WR A HA) as [ND WI]. destruct (b_rows C HB) as [RL RR].
      assert (INC : incl (nth A rows []) (nth v (c_aggs C) [] ++ match ow with Some w => nth w (c_aggs C) [] | None => [] end)).
      { intros x Hx. apply WI in Hx. rewrite HT in Hx. destruct (target (c_vmap C) x) as [a|] eqn:Ea; [|discriminate]. apply in_app_iff.
        assert (Ha : a < c_n C) by (apply (target_lt (c_n C)) in Ea; [tauto|apply HB]). apply S1 in Hx as [->|Hx]; [left|right; rewrite Hx]; apply RR; auto. }
      apply NoDup_incl_length in INC; auto. rewrite app_length in INC. pose proof (HK v ltac:(lia)) as KV. cbn [Nat.pow]. destruct ow as [w|]; [|cbn [length] in INC; lia].
      assert (Hw : w < c_n C). { assert (Tw : target rm w = Some A) by (apply S1; auto). apply (target_lt NC) in Tw; auto. lia. }
      specialize (HK w Hw). lia.
    Qed.
    (** if eq' tops the classes of the parts *)
    Lemma eqs_step : eqs C -> order_ok P ->
      (forall c, c < NC -> (forall u, target rm u = Some c -> leq P (nth u (c_eq C) 0) (nth c eq' 0) = true) /\ exists v, target rm v = Some c /\ nth v (c_eq C) 0 = nth c eq' 0) -> eqs C'.
    Proof using HB HS HR HT.
      clear - HB HS HR HT. intros HE (O1 & O2 & O3 & O4) H A HA. cbn [C' c_n c_eq c_vmap] in *. destruct (H A HA) as (H1 & B & TB & EB). destruct HR as (L & I & T & S), HS as (_ & En & _). split.
      - intros u Tu. rewrite HT in Tu. destruct (target (c_vmap C) u) as [D|] eqn:Ed; [|discriminate]. assert (HD : D < c_n C) by (apply (target_lt (c_n C)) in Ed; [tauto|apply HB]).
        apply (O2 _ (nth D (c_eq C) 0)); [now apply HE|now apply H1].
      - assert (HB' : B < c_n C) by (apply (target_lt NC) in TB; auto; lia). destruct (HE B HB') as (_ & v & Tv & Ev). exists v. rewrite HT, Tv. split; auto. congruence.
    Qed.
  End Step.

  (** the relation of a pairing round on a coarse mesh *)
  Definition NNr (C : conc) (M : lmesh) (v w : nat) : Prop := w <> v /\ mesh_adj M v w /\ may_match P (c_eq C) v w.
  Definition Inv (r : nat) (s : rst) : Prop :=
    let '(C, M, pend) := s in
    base C /\ msh C M /\ (truly_par P = true -> length (c_eq C) = c_n C) /\
    (exists k, size k C /\ k + (if pend then 1 else 0) <= r) /\ (truly_par P = true -> order_ok P -> eqs C) /\
    match pend with None => True | Some (nc, rm) => pair_map (m_nv M) (NNr C M) (fun _ => False) nc rm end.

  Lemma base_le C : base C -> c_n C <= n0.
  Proof.
    intros HB. rewrite <- (b_len C HB). rewrite <- (map_length Z.to_nat (c_vmap C)), <- (seq_length (c_n C) 0).
    apply NoDup_incl_length; [apply seq_NoDup|]. intros c Hc. apply in_seq in Hc. destruct (b_inh C HB c ltac:(lia)) as (v & T).
    unfold target in T. destruct (nth_error (c_vmap C) v) as [z|] eqn:Ez; [|discriminate]. destruct (z <? 0)%Z; [discriminate|]. injection T as <-.
    apply in_map. eapply nth_error_In; eauto.
  Qed.

  Variable c : config.
  Variable O : oracles.
  Hypothesis HO : oracles_ok O.
  Hypothesis HC : config_ok c.
  Hypothesis HSol : forall s, solid P = Some s -> length s = n0.

  Lemma flush_ok r C M pend : Inv r (C, M, pend) -> exists C' M',
    match pend with
    | None => Ret (C, M)
    | Some (nc, rm) => ' (c2f, M', _) <- FinishUp (o_find O) M nc rm ;; C' <- ConcatenateProper P C nc rm c2f ;; Ret (C', M')
    end = Ret (C', M') /\ Inv r (C', M', None).
  Proof.
    intros (HB & HS & HQ & (k & HK & Hkr) & HE & HPd). destruct pend as [(nc, rm)|]; [|exists C, M; split; [reflexivity|]; exact (conj HB (conj HS (conj HQ (conj (ex_intro _ k (conj HK Hkr)) (conj HE Logic.I)))))].
    assert (HR := pair_star _ _ _ _ _ HPd). assert (HRc := HR). destruct HRc as (L & I & T & S).
    destruct HS as (HM & En & AD).
    destruct (FinishUp_ok M HM nc rm L I (o_find O)) as (c2f & ce & econ & emap & E1 & E2 & E3 & E4 & _); [apply HO|].
    rewrite E1. cbn [bind]. unfold ConcatenateProper.
    destruct (conc_ok (c_n C) (c_vmap C) rm (b_into C HB) ltac:(lia)) as (m & Em & Lm & Tm & Xm). rewrite Em. cbn [bind].
    destruct (c2f_rows nc rm I) as (c2f' & Ec & R2). assert (c2f' = c2f) by congruence. subst c2f'.
    destruct (proper_rows (c_n C) nc (c_vmap C) rm m (c_aggs C) (b_into C HB) (b_rows C HB) I ltac:(lia) Tm c2f R2) as (its & aggs & Ei & Ea & RA). rewrite Ei. cbn [bind]. rewrite Ea. cbn [bind].
    assert (SU : forall cc, cc < nc -> exists v, target rm v = Some cc) by (intros cc Hcc; destruct (S cc Hcc) as (v & _ & Tv & _); eauto).
    assert (HN : forall A B, NNr C M A B -> adjacent (m_edges M) A B) by (intros A B (_ & H & _); exact H).
    assert (X : exists eq', (if truly_par P then conc_eq (leq P) (c_eq C) c2f else Ret []) = Ret eq' /\ (truly_par P = true -> length eq' = nc) /\
       (truly_par P = true -> order_ok P -> eqs (mkConc nc m aggs eq'))).
    { destruct (truly_par P) eqn:TP; [|exists []; split; auto; split; discriminate].
      destruct (conc_eq_ok P (c_eq C) (c_n C) nc rm c2f (HQ eq_refl) ltac:(lia) I R2 SU) as (eq' & Eq & Lq & Vq). exists eq'. split; auto. split; auto. intros _ OO.
      apply (eqs_step C M nc rm m aggs eq' (NNr C M) HB (conj HM (conj En AD)) HR Tm (HE eq_refl OO) OO). apply Vq; auto.
      eapply pair_comparable; eauto. intros v w (_ & _ & H). exact H. }
    destruct X as (eq' & Eq & Lq & Vq). rewrite Eq. cbn [bind]. eexists. eexists. split; [reflexivity|]. split; [|split; [|split; [|split; [|split]]]].
    - apply (base_step C M nc rm m aggs eq' (NNr C M) HB (conj HM (conj En AD)) HN HR Lm Tm Xm RA).
    - apply (msh_step C M nc rm m aggs eq' HB (conj HM (conj En AD)) Tm); auto.
    - auto.
    - exists (Datatypes.S k). split; [|lia]. eapply (size_step C M nc rm m aggs eq' (NNr C M)); eauto. split; auto.
    - auto.
    - exact Logic.I.
  Qed.

  Lemma pair_round r C M : Inv r (C, M, None) -> exists ms,
    PairingIteration c O P r false (m_econ M) (c_eq C) (rev (seq 0 (m_nv M))) (repeat (-1)%Z (m_nv M)) (repeat false (m_nv M)) = Ret ms /\
    pair_map (m_nv M) (NNr C M) (fun _ => False) (cnt ms) (vm ms).
  Proof.
    intros (HB & (HM & En & AD) & HQ & _).
    destruct (pairing_ok c O P r false M (c_eq C) (rev (seq 0 (m_nv M))) (repeat false (m_nv M)) HO HC HM) as (ms & Em & (Q1 & Q2 & Q3 & Q4)).
    - apply repeat_length.
    - intros TP. split; [rewrite (HQ TP); auto|]. intros s Hs. rewrite (HSol s Hs), En. now apply base_le.
    - intros v. rewrite <- in_rev, in_seq. lia.
    - exists ms. split; auto. split; auto. split; auto. split; auto. intros v Hv. rewrite Q3 by auto. rewrite nth_repeat. split; [discriminate|tauto].
  Qed.

  (** ConcatenateVMap *)
  Lemma last_conc C M NC rm (N : nat -> nat -> Prop) : base C -> msh C M -> (forall A B, N A B -> adjacent (m_edges M) A B) -> star_map (m_nv M) N (fun _ => False) NC rm ->
    exists C', ConcatenateVMap C NC rm = Ret C' /\ base C' /\ (forall k, size k C -> pair_map (m_nv M) N (fun _ => False) NC rm -> size (S k) C') /\
      (eqs C -> order_ok P -> (forall u w cc, target rm u = Some cc -> target rm w = Some cc -> leq P (nth u (c_eq C) 0) (nth w (c_eq C) 0) = true \/ leq P (nth w (c_eq C) 0) (nth u (c_eq C) 0) = true) ->
        pair_map (m_nv M) N (fun _ => False) NC rm -> topp C').
  Proof.
    intros HB HS HN HR. unfold ConcatenateVMap. assert (HRc := HR). destruct HRc as (L & I & T & S). destruct HS as (HM & En & AD).
    destruct (conc_ok (c_n C) (c_vmap C) rm (b_into C HB) ltac:(lia)) as (m & Em & Lm & Tm & Xm). rewrite Em. cbn [bind].
    destruct (vmap_rows (c_n C) NC (c_vmap C) rm m (c_aggs C) (b_into C HB) (b_rows C HB) I ltac:(lia) Tm) as (its & aggs & Ei & Ea & RA). rewrite Ei. cbn [bind]. rewrite Ea. cbn [bind].
    eexists. split; [reflexivity|]. split; [|split].
    - eapply base_step; eauto. split; auto.
    - intros k HK HP. eapply size_step; eauto. split; auto.
    - intros HE OO CMP (_ & _ & _ & PS) A HA. cbn [c_n c_vmap] in *. destruct (PS A HA) as (v & ow & Hv & P1 & P2).
      assert (TV : target rm v = Some A) by (apply P1; auto).
      assert (X : exists t, target rm t = Some A /\ forall u, target rm u = Some A -> leq P (nth u (c_eq C) 0) (nth t (c_eq C) 0) = true).
      { destruct ow as [w|]; [|exists v; split; auto; intros u Hu; apply P1 in Hu as [->|Hu]; [apply OO|discriminate]].
        assert (TW : target rm w = Some A) by (apply P1; auto). destruct (CMP v w A TV TW) as [Q|Q]; [exists w|exists v]; split; auto; intros u Hu; apply P1 in Hu as [->|Hu]; auto; try (injection Hu as <-); auto; apply OO. }
      destruct X as (t & Tt & Xt). assert (LTn : forall u, target rm u = Some A -> u < c_n C) by (intros u Hu; apply (target_lt NC) in Hu; auto; lia).
      destruct (HE t (LTn t Tt)) as (_ & x & Tx & Ex). exists x. split; [rewrite Tm, Tx; auto|]. intros u Tu. rewrite Tm in Tu. destruct (target (c_vmap C) u) as [D|] eqn:ED; [|discriminate].
      destruct (HE D (LTn D Tu)) as (Y & _). destruct OO as (O1 & O2 & O3 & O4). apply (O2 _ (nth D (c_eq C) 0)); [auto|]. rewrite Ex. auto.
  Qed.

  Definition Fin (orphan : bool) (k : nat) (C : conc) : Prop := base C /\ (orphan = false -> size k C /\ (truly_par P = true -> order_ok P -> topp C)).

  Variable I : input.
  Let total := i_rounds I + (if i_orphan I then 1 else 0).

  Lemma mid_round r s : r < total - 1 -> Inv r s -> exists s', one_round c O P I s r = Ret s' /\ Inv (S r) s'.
  Proof.
    intros Hr HI. destruct s as ((C & M) & pend). unfold one_round. destruct (flush_ok r C M pend HI) as (C' & M' & E1 & HI').
    rewrite E1. cbn [bind]. assert (r < i_rounds I) by (unfold total in Hr; destruct (i_orphan I); lia).
    destruct (Nat.ltb_spec r (i_rounds I)); [|lia]. destruct (pair_round r C' M' HI') as (ms & Em & HP). rewrite Em. cbn [bind]. fold total.
    destruct (Nat.eqb_spec r (total - 1)); [lia|]. eexists. split; [reflexivity|]. destruct HI' as (A1 & A2 & A3 & (k & K1 & K2) & A4 & _).
    split; auto. split; auto. split; auto. split; [exists k; split; auto; lia|]. auto.
  Qed.
  Lemma last_round r s : r = total - 1 -> 1 < total -> Inv r s -> exists C' M' p, one_round c O P I s r = Ret (C', M', p) /\ Fin (i_orphan I) (S r) C'.
  Proof.
    intros Hr Ht HI. destruct s as ((C & M) & pend). unfold one_round. destruct (flush_ok r C M pend HI) as (C' & M' & E1 & HI').
    rewrite E1. cbn [bind]. assert (HI2 := HI'). destruct HI2 as (HB & HS & HQ & (k & K1 & K2) & HE & _). destruct (Nat.ltb_spec r (i_rounds I)).
    - destruct (pair_round r C' M' HI') as (ms & Em & HP). rewrite Em. cbn [bind]. fold total. destruct (Nat.eqb_spec r (total - 1)); [|lia].
      assert (HN : forall A B, NNr C' M' A B -> adjacent (m_edges M') A B) by (intros A B (_ & X & _); exact X).
      destruct (last_conc C' M' (cnt ms) (vm ms) (NNr C' M') HB HS HN (pair_star _ _ _ _ _ HP)) as (C2 & E2 & B2 & S2 & T2). rewrite E2. cbn [bind].
      exists C2, M', None. split; auto. split; auto. intros _. split.
      + intros A HA. specialize (S2 k K1 HP A HA). etransitivity; [apply S2|]. apply Nat.pow_le_mono_r; lia.
      + intros TP OO. apply T2; auto. eapply pair_comparable; eauto. intros v w (_ & _ & X). exact X.
    - assert (OR : i_orphan I = true) by (unfold total in Hr; destruct (i_orphan I); [auto|lia]). rewrite OR.
      assert (FC : Fin true (S r) C') by (split; [auto|discriminate]).
      destruct (existsb negb (map (fun a : list nat => 1 <? length a) (c_aggs C'))); [|exists C', M', None; auto].
      destruct HS as (HM & En & AD).
      destruct (joining_ok c O P r M' (c_eq C') (map (fun a : list nat => 1 <? length a) (c_aggs C')) HO HC HM) as (ms & Em & HP).
      + rewrite map_length. destruct (b_rows C' HB) as [-> _]. auto.
      + intros TP. now rewrite HQ, En.
      + rewrite Em. cbn [bind]. destruct (cnt ms <? m_nv M'); [|exists C', M', None; auto].
        destruct (last_conc C' M' (cnt ms) (vm ms) _ HB (conj HM (conj En AD)) (fun A B X => proj1 (proj2 X)) HP) as (C2 & E2 & B2 & _). rewrite E2. cbn [bind].
        exists C2, M', None. split; auto. split; [auto|discriminate].
  Qed.
  Lemma rounds_ok C M : 1 < total -> Inv 1 (C, M, None) -> exists C' M' p, foldM (one_round c O P I) (seq 1 (total - 1)) (C, M, None) = Ret (C', M', p) /\ Fin (i_orphan I) total C'.
  Proof.
    intros Ht HI. assert (G : forall k s, k < total - 1 -> Inv 1 s -> exists s', foldM (one_round c O P I) (seq 1 k) s = Ret s' /\ Inv (S k) s').
    { induction k as [|k IH]; intros s Hk Hs; [exists s; auto|]. destruct (IH s ltac:(lia) Hs) as (s1 & E1 & I1). rewrite seq_S, foldM_app, E1. cbn [bind foldM].
      destruct (mid_round (S k) s1 ltac:(lia) I1) as (s2 & E2 & I2). exists s2. change (1 + k) with (S k). rewrite E2. cbn [bind]. auto. }
    replace (total - 1) with (S (total - 2)) by lia. rewrite seq_S, foldM_app. destruct (G (total - 2) _ ltac:(lia) HI) as (s1 & E1 & I1). rewrite E1. cbn [bind foldM].
    destruct (last_round (1 + (total - 2)) s1 ltac:(lia) Ht I1) as (C' & M' & p & E2 & F2). exists C', M', p. rewrite E2. cbn [bind]. split; auto. replace total with (S (1 + (total - 2))) by lia. auto.
  Qed.
End Rounds.
