(** Lemmas for C79, C81: the whole algorithm. *)
From Coq Require Import QArith.
From Verif Require Import Base SparseModel SparseProofs CtrProofs AuxModel AuxSpec AuxProofs CDataModel CDataSpec CDataProofs CDataProps CMapProps SPWModel SPWSpec SPWProofs SPWProofs2 SPWProofs3 SPWProofs4 SPWProofs5 SPWProofs6 SPWProofs7 SPWProofs8.
Local Open Scope nat_scope.

Lemma in_qsort x l : In x (qsort l) <-> In x l.
Proof. split; apply Permutation_in; auto using Permutation_sym, perm_qsort. Qed.
Lemma par_order_all NV classes veq : classes_match NV classes veq -> forall v, In v (par_order classes) <-> v < NV.
Proof.
  intros (CL & C1 & C2 & C3) v. unfold par_order. rewrite in_flat_map. split.
  - intros (vs & Hvs & Hv). apply in_rev in Hv. apply in_rev in Hvs. apply In_nth with (d := []) in Hvs as (q & Hq & <-). now apply (C2 q v).
  - intros Hv. specialize (C1 v Hv). exists (nth (nth v veq 0) classes []). split; [|now apply in_rev in C1].
    apply -> in_rev. destruct (Nat.lt_ge_cases (nth v veq 0) (length classes)); [now apply nth_In|]. rewrite nth_overflow in C1 by auto. destruct C1.
Qed.
Lemma sorted_lt_of_le l : StronglySorted le l -> NoDup l -> StronglySorted lt l.
Proof.
  induction 1 as [|a l SS IH F]; intros ND; constructor; inversion ND; subst; auto. rewrite Forall_forall in *. intros x Hx. specialize (F x Hx).
  assert (a <> x) by congruence. lia.
Qed.

Section Whole.
  Variable c : config.
  Variable O : oracles.
  Variable P : par_info.
  Variable I : input.
  Hypothesis HO : oracles_ok O.
  Hypothesis HC : config_ok c.
  Hypothesis HI : input_ok P I.
  Let M := i_mesh I.
  Let NV := m_nv M.
  Let total := i_rounds I + (if i_orphan I then 1 else 0).

  Lemma FormAgglomerates_ok : exists aggs v2a C, FormAgglomerates c O P I = Ret (aggs, v2a) /\ ginv P (i_veq I) NV (aggs, v2a) /\
    map a_mems aggs = map qsort (c_aggs C) ++ i_fixed I /\ Fin P M (fun v => ~ takes_part P I v) (i_veq I) (i_orphan I) total C.
  Proof.
    assert (HI0 := HI). destruct HI0 as (HM & HCM & HF & HSo & ND & HFx & HNe & HR & HP). fold M NV in HM, HCM, HF, HSo, HFx.
    unfold FormAgglomerates. fold M NV total. destruct (init_handled_ok P I HI) as (h & Eh & Lh & Nh). fold M NV in Lh, Nh. rewrite Eh. cbn [bind].
    destruct (pairing_ok c O P 0 true M (i_veq I) (par_order (i_classes I)) h HO HC HM Lh) as (ms & Em & PM).
    { intros TP. destruct HCM as (L & _). split; auto. intros s Hs. rewrite (HSo s Hs). auto. }
    { apply (par_order_all NV _ (i_veq I) HCM). }
    fold NV in Em, PM. rewrite Em. cbn [bind]. set (NN := fun v w => w <> v /\ mesh_adj M v w /\ may_match P (i_veq I) v w) in PM.
    assert (PM' : pair_map NV NN (fun v => ~ takes_part P I v) (cnt ms) (vm ms)).
    { destruct PM as (Q1 & Q2 & Q3 & Q4). split; auto. split; auto. split; auto. intros v Hv. rewrite Q3, <- (Nh v Hv) by auto. destruct (nth v h false); split; congruence. }
    clear PM. assert (SM := pair_star _ _ _ _ _ PM'). assert (PMc := PM'). destruct PMc as (L1 & I1 & T1 & S1).
    destruct (c2f_rows (cnt ms) (vm ms) I1) as (c2f & Ec & R1). rewrite Ec. cbn [bind].
    (* the first map *)
    assert (B0 : forall eq, base M (fun v => ~ takes_part P I v) (mkConc (cnt ms) (vm ms) c2f eq)).
    { intros eq. constructor; cbn [c_n c_vmap c_aggs]; auto.
      - intros A HA. destruct (S1 A HA) as (v & ow & Hv & P1 & P2).
        apply (connected_iff (m_edges M) (fun x => exists B, target (vm ms) B = Some A /\ x = B)).
        { intros x. split; [intros (B & T & ->); auto|eauto]. }
        apply (star_connected (m_edges M) (fun A x => x = A) (fun B => target (vm ms) B = Some A) v).
        + apply P1. auto.
        + intros B TB a b -> ->. now apply path_nil.
        + intros B TB. apply P1 in TB as [->|TB]; auto. right. destruct (P2 B TB) as (_ & AD & _). exists v, B. auto.
      - intros A HA. destruct (S1 A HA) as (v & ow & Hv & P1 & P2). exists v. apply P1. auto. }
    assert (Z0 : forall eq, size 1 (mkConc (cnt ms) (vm ms) c2f eq)).
    { intros eq A HA. cbn [c_n c_aggs Nat.pow] in *. destruct (S1 A HA) as (v & ow & Hv & P1 & P2). destruct R1 as [RL RR]. destruct (RR A HA) as [NDr IR].
      assert (INC : incl (nth A c2f []) (v :: match ow with Some w => [w] | None => [] end)).
      { intros x Hx. apply IR, P1 in Hx as [->|Hx]; [now left|]. rewrite Hx. right. now left. }
      apply NoDup_incl_length in INC; auto. destruct ow; cbn in INC; lia. }
    assert (CMP : truly_par P = true -> order_ok P -> forall u w k, target (vm ms) u = Some k -> target (vm ms) w = Some k ->
       leq P (nth u (i_veq I) 0) (nth w (i_veq I) 0) = true \/ leq P (nth w (i_veq I) 0) (nth u (i_veq I) 0) = true).
    { intros TP OO. eapply pair_comparable; eauto. intros v w (_ & _ & X). exact X. }
    assert (SU : forall k, k < cnt ms -> exists v, target (vm ms) v = Some k) by (intros k Hk; destruct (S1 k Hk) as (v & ow & Hv & P1 & _); exists v; apply P1; auto).
    (* the rounds *)
    assert (X : exists C, (if 1 <? total then
          ' (c2f, M', _) <- FinishUp (o_find O) M (cnt ms) (vm ms) ;;
          eq <- (if 1 <? length (i_classes I) then first_v2eq (leq P) (i_classes I) (cnt ms) (vm ms) else Ret []) ;;
          ' (C, _, _) <- foldM (one_round c O P I) (seq 1 (total - 1)) (mkConc (cnt ms) (vm ms) c2f eq, M', None) ;;
          Ret C
        else Ret (mkConc (cnt ms) (vm ms) c2f [])) = Ret C /\ Fin P M (fun v => ~ takes_part P I v) (i_veq I) (i_orphan I) total C).
    { destruct (first_v2eq_ok P NV (i_classes I) (i_veq I) (cnt ms) (vm ms) HCM L1 I1) as (eq & Eq & Lq & Vq).
      destruct (Nat.ltb_spec 1 total) as [Ht|Ht].
      - destruct (FinishUp_ok M HM (cnt ms) (vm ms) L1 I1 (o_find O) ltac:(apply HO)) as (c2f' & ce & econ & emap & F1 & F2 & F3 & F4 & _). assert (c2f' = c2f) by congruence. subst c2f'.
        rewrite F1. cbn [bind].
        assert (Y : exists eq', (if 1 <? length (i_classes I) then first_v2eq (leq P) (i_classes I) (cnt ms) (vm ms) else Ret []) = Ret eq' /\
           (truly_par P = true -> eq' = eq)).
        { destruct (Nat.ltb_spec 1 (length (i_classes I))); [exists eq; auto|]. exists []. split; auto. intros TP. specialize (HP TP). lia. }
        destruct Y as (eq' & Eq' & Ve). rewrite Eq'. cbn [bind].
        destruct (rounds_ok P M HM (fun v => ~ takes_part P I v) (i_veq I) c O HO HC HSo I (mkConc (cnt ms) (vm ms) c2f eq') (mkMesh (cnt ms) ce econ) Ht) as (C' & M' & p & E' & F').
        { split; [apply B0|]. split; [split; [auto|split; [reflexivity|exact F4]]|]. split; [intros TP; cbn [c_eq c_n]; rewrite (Ve TP); auto|]. split; [exists 1; split; [apply Z0|auto]|]. split; [|exact Logic.I].
          intros TP OO A HA. cbn [c_eq c_n c_vmap] in *. rewrite (Ve TP). apply (Vq OO (CMP TP OO) SU); auto. }
        fold total in E', F'. rewrite E'. cbn [bind]. exists C'. auto.
      - exists (mkConc (cnt ms) (vm ms) c2f []). split; auto. split; [apply B0|]. assert (total = 1) by (unfold total in *; lia). intros OR. rewrite H. split; [apply Z0|].
        intros TP OO. apply (eqs_top P (i_veq I) (mkConc (cnt ms) (vm ms) c2f eq)). intros A HA. cbn [c_eq c_n c_vmap] in *. apply (Vq OO (CMP TP OO) SU); auto. }
    destruct X as (C & EC & FC). rewrite EC. cbn [bind]. assert (FB := proj1 FC).
    destruct (b_rows _ _ _ FB) as [RL RR].
    assert (GR : forall g, In g (map qsort (c_aggs C)) -> exists A, A < c_n C /\ g = qsort (nth A (c_aggs C) [])).
    { intros g Hg. apply in_map_iff in Hg as (x & <- & Hx). apply In_nth with (d := []) in Hx as (A & HA & <-). exists A. rewrite <- RL. auto. }
    assert (MEM : forall v, In v (concat (map qsort (c_aggs C))) -> v < NV /\ takes_part P I v).
    { intros v Hv. apply in_concat in Hv as (g & Hg & Hv). destruct (GR g Hg) as (A & HA & ->). apply in_qsort, RR in Hv; auto.
      assert (HvN : v < NV) by (apply (target_lt (c_n C)) in Hv; [|apply FB]; rewrite (b_len _ _ _ FB) in Hv; unfold NV; tauto). split; auto.
      destruct (init_handled_ok P I HI) as (h' & Eh' & Lh' & Nh'). apply Nh'; auto. destruct (nth v h' false) eqn:En; auto. exfalso.
      assert (~ takes_part P I v) by (intros TP; apply (Nh' v HvN) in TP; congruence). apply (b_none _ _ _ FB v HvN) in H. congruence. }
    destruct (set_aggs_ok P (i_veq I) NV ltac:(apply HCM) (map qsort (c_aggs C)) ([], repeat (-1)%Z NV)) as ((aggs1 & v2a1) & E1 & G1 & M1).
    { split; [apply repeat_length|]. split.
      - intros v k. rewrite target_none. split; [discriminate|]. intros (a & Ha & _). destruct k; discriminate.
      - intros k a Ha. destruct k; discriminate. }
    { intros g Hg. destruct (GR g Hg) as (A & HA & ->). destruct (b_inh _ _ _ FB A HA) as (v & Tv). apply RR in Tv; auto. apply in_qsort in Tv. intros Z. rewrite Z in Tv. destruct Tv. }
    { intros v Hv. now apply MEM. }
    { rewrite <- flat_map_concat_map. 
      assert (FM : flat_map qsort (c_aggs C) = flat_map (fun A => qsort (nth A (c_aggs C) [])) (seq 0 (c_n C))).
      { rewrite <- RL. rewrite !flat_map_concat_map. f_equal. rewrite <- (map_map (fun A => nth A (c_aggs C) []) qsort). f_equal.
        apply (list_ext_seq (c_aggs C) (fun A => nth A (c_aggs C) []) (length (c_aggs C)) []); auto. }
      rewrite FM. apply nodup_flat_map; [apply seq_NoDup| |].
      - intros A HA. apply in_seq in HA. apply (Permutation_NoDup (Permutation_sym (perm_qsort _))). apply RR. lia.
      - intros A B v HA HB' H1 H2. apply in_seq in HA, HB'. apply in_qsort, RR in H1; [|lia]. apply in_qsort, RR in H2; [|lia]. congruence. }
    { intros a v []. }
    rewrite E1. cbn [bind]. cbn [fst map app] in M1.
    destruct (set_aggs_ok P (i_veq I) NV ltac:(apply HCM) (i_fixed I) (aggs1, v2a1) G1 HNe HFx ND) as ((aggs & v2a) & E2 & G2 & M2).
    { cbn [fst]. intros a v Ha Hv Hi. assert (In v (concat (map qsort (c_aggs C)))) by (rewrite <- M1; apply in_concat; exists (a_mems a); split; auto; now apply in_map).
      apply MEM in H as (_ & H). destruct H as (_ & _ & _ & H & _). auto. }
    exists aggs, v2a, C. split; auto. split; auto. split; auto. cbn [fst] in M2. rewrite M2, M1. reflexivity.
  Qed.
End Whole.
