(** Proofs about the vertex map of an agglomeration step, all ranks together. *)
From Verif Require Import Base ArraysModel EQCModel UtilProofs FactoryProofs EQCProofs EQCProofs2 EQCProofs3 AggMapModel AggMapProofs.
Local Open Scope nat_scope.

Section All.
  Variable tabs : list (list (list nat)).
  Hypothesis HW : world tabs.
  Variable W : list fine.
  Notation np := (length tabs).
  Notation tab r := (nth r tabs []).
  Notation nq r := (length (tab r)).
  Notation F r := (nth r W no_fine).
  Notation nv r := (sum (nverts (F r))).
  Notation na r := (length (aggs (F r))).
  Notation cl r := (classes tabs r).
  Hypothesis HK : forall r, r < np -> rank_ok (tab r) r (F r).
  Hypothesis H0 : forall r, r < np -> tab r <> [] -> nth 0 (tab r) [] = [].
  Hypothesis HC : forall r q D, r < np -> q < np -> In D (cl r) -> In D (cl q) -> nth (idx D (cl r)) (nverts (F r)) 0 = nth (idx D (cl q)) (nverts (F q)) 0.

  Lemma cl_len r : length (cl r) = nq r. Proof. unfold classes. apply map_length. Qed.
  Lemma cl_nth r e : e < nq r -> nth e (cl r) [] = members r (nth e (tab r) []).
  Proof. intros H. unfold classes. rewrite (nth_indep _ [] (members r [])) by (rewrite map_length; auto). apply map_nth. Qed.
  Lemma cl_in r e : e < nq r -> In (nth e (cl r) []) (cl r). Proof. intros. apply nth_In. now rewrite cl_len. Qed.
  Lemma idx_nth r e : r < np -> e < nq r -> idx (nth e (cl r) []) (cl r) = e.
  Proof. intros. apply posb_nth. apply leqb_iff. now apply classes_nodup. now rewrite cl_len. Qed.
  Lemma idx_in r D : In D (cl r) -> idx D (cl r) < nq r /\ nth (idx D (cl r)) (cl r) [] = D.
  Proof. intros H. destruct (posb_in list_eqb leqb_iff D (cl r) [] H). rewrite cl_len in *. auto. Qed.
  (** the master of a class *)
  Lemma sset_min D x : sset D -> In x D -> hd 0 D <= x /\ In (hd 0 D) D.
  Proof. destruct D as [|p D]; intros S1 H. destruct H. cbn [hd]. split; [|now left]. now apply (sset_hd D). Qed.
  Lemma row_idx r e : r < np -> e < nq r -> nth e (tab r) [] = del r (nth e (cl r) []).
  Proof. intros Hr He. rewrite cl_nth by auto. destruct (w_row tabs HW r (nth e (tab r) []) Hr (nth_In _ _ He)) as (S1 & N1 & _). now rewrite del_members. Qed.
  Lemma master_iff r e : r < np -> e < nq r -> (is_master r (nth e (tab r) []) = true <-> hd 0 (nth e (cl r) []) = r).
  Proof.
    intros Hr He. destruct (w_row tabs HW r (nth e (tab r) []) Hr (nth_In _ _ He)) as (S1 & N1 & _). rewrite cl_nth by auto. destruct (nth e (tab r) []) as [|p d] eqn:E; cbn [is_master].
    - split; auto.
    - rewrite Nat.ltb_lt. split. intros L. now rewrite members_master.
      intros HD. assert (p <> r) by (intros ->; apply N1; now left). assert (SM := members_sset r (p :: d) S1). destruct (sset_min _ p SM) as (L & _). apply in_members. right; now left. lia.
  Qed.
  Lemma master_facts r D : r < np -> In D (cl r) -> hd 0 D < np /\ In D (cl (hd 0 D)) /\ In (hd 0 D) D /\ hd 0 D <= r.
  Proof.
    intros Hr HD. destruct (class_facts tabs HW r D Hr HD) as (S1 & I1 & _ & _). destruct (sset_min D r S1 I1) as (L & I2). destruct (class_cons tabs HW r D (hd 0 D) Hr HD I2). auto.
  Qed.
  Lemma idx_0 r : r < np -> tab r <> [] -> nth 0 (cl r) [] = [r] /\ idx [r] (cl r) = 0.
  Proof.
    intros Hr N. assert (L : 0 < nq r). { destruct (tab r); [congruence|cbn; lia]. } assert (E : nth 0 (cl r) [] = [r]). { rewrite cl_nth by auto. rewrite (H0 r Hr N). reflexivity. }
    split; auto. rewrite <- E. now apply idx_nth.
  Qed.
  (** class 0 is the class that is not shared *)
  Lemma class_0 r e : r < np -> e < nq r -> (e = 0 <-> nth e (cl r) [] = [r]).
  Proof.
    intros Hr He. assert (N : tab r <> []) by (intros X; rewrite X in He; cbn in He; lia). destruct (idx_0 r Hr N) as (A & B). split. now intros ->. intros E. rewrite <- (idx_nth r e Hr He), E. auto.
  Qed.
  Lemma shared_master r e : r < np -> 0 < e < nq r -> 0 < idx (nth e (cl r) []) (cl (hd 0 (nth e (cl r) []))).
  Proof.
    intros Hr He. set (D := nth e (cl r) []). assert (HD : In D (cl r)) by (apply cl_in; lia). destruct (master_facts r D Hr HD) as (M1 & M2 & M3 & M4). destruct (idx_in (hd 0 D) D M2) as (I1 & I2).
    destruct (Nat.eq_dec (idx D (cl (hd 0 D))) 0) as [E|]; [|lia]. exfalso. apply (class_0 (hd 0 D) _ M1 I1) in E. rewrite I2 in E. destruct (class_facts tabs HW r D Hr HD) as (_ & X & _). rewrite E in X. destruct X as [X|[]]. rewrite X in E. apply class_0 in E; auto; lia.
  Qed.

  (** the agglomerates of rank [m] that make the coarse vertices of class [e], in the order of their numbers *)
  Definition num (m e : nat) : list nat := if e =? 0 then inclass (F m) (seq 0 (na m)) 0 else inclass (F m) (order tabs m (F m)) e.
  Definition ccls (m a : nat) : list nat := nth (ce (F m) a) (cl m) [].
  Definition gnum (D : list nat) : list nat := num (hd 0 D) (idx D (cl (hd 0 D))).
  Lemma order_facts m : m < np -> NoDup (order tabs m (F m)) /\ forall a, In a (order tabs m (F m)) -> a < na m /\ ce (F m) a <> 0.
  Proof. intros Hm. destruct (phase1_ok tabs HW m Hm (F m) (HK m Hm) (H0 m Hm)) as (cnt & am & _ & S1). split; apply S1. Qed.
  Lemma num_nodup m e : m < np -> NoDup (num m e).
  Proof. intros Hm. unfold num, inclass. destruct (e =? 0); apply NoDup_filter. apply seq_NoDup. now apply order_facts. Qed.
  Lemma num_in m e a : m < np -> (In a (num m e) <-> a < na m /\ ce (F m) a = e).
  Proof.
    intros Hm. unfold num. destruct (Nat.eqb_spec e 0) as [->|N]; rewrite in_inclass. rewrite in_seq. intuition lia.
    split. intros (A & B). split; auto. now apply order_facts. intros (A & B). split; auto. apply (order_in tabs m Hm (F m) (HK m Hm)); auto. congruence.
  Qed.
  Lemma ccls_in m a : m < np -> a < na m -> ce (F m) a < nq m /\ In (ccls m a) (cl m) /\ hd 0 (ccls m a) = m /\ idx (ccls m a) (cl m) = ce (F m) a.
  Proof.
    intros Hm Ha. assert (L : ce (F m) a < nq m) by (apply (ce_lt tabs m (F m) (HK m Hm)); auto). unfold ccls. split; auto. split; [now apply cl_in|]. split; [|now apply idx_nth].
    apply master_iff; auto. apply (k_leq _ _ _ (HK m Hm) a (cent (F m) a)); auto. now apply (k_cen _ _ _ (HK m Hm)).
  Qed.
  Lemma gnum_ccls m a : m < np -> a < na m -> gnum (ccls m a) = num m (ce (F m) a) /\ In a (gnum (ccls m a)).
  Proof. intros Hm Ha. destruct (ccls_in m a Hm Ha) as (A & B & C & D). unfold gnum. rewrite C, D. split; auto. now apply num_in. Qed.

  (** the vertex of the master *)
  Definition vcl (r v : nat) : list nat := nth (cls (nverts (F r)) v) (cl r) [].
  Definition vown (r v : nat) : nat := hd 0 (vcl r v).
  Definition hv (r v : nat) : nat := off (nverts (F (vown r v))) (idx (vcl r v) (cl (vown r v))) + (v - off (nverts (F r)) (cls (nverts (F r)) v)).
  Lemma cls_lt r v : r < np -> v < nv r -> cls (nverts (F r)) v < nq r.
  Proof. intros Hr Hv. rewrite <- (k_len _ _ _ (HK r Hr)). now apply cls_ok. Qed.
  Lemma vcl_in r v : r < np -> v < nv r -> In (vcl r v) (cl r).
  Proof. intros. apply cl_in. now apply cls_lt. Qed.
  Lemma hv_ok r v : r < np -> v < nv r -> vown r v < np /\ hv r v < nv (vown r v) /\ cls (nverts (F (vown r v))) (hv r v) = idx (vcl r v) (cl (vown r v)) /\ vcl (vown r v) (hv r v) = vcl r v.
  Proof.
    intros Hr Hv. pose proof (vcl_in r v Hr Hv) as HD. destruct (master_facts r _ Hr HD) as (M1 & M2 & M3 & M4). fold (vown r v) in *. split; auto.
    destruct (idx_in _ _ M2) as (I1 & I2). destruct (cls_ok _ _ Hv) as (C1 & C2). pose proof (HC r (vown r v) _ Hr M1 HD M2) as E. assert (I3 : idx (vcl r v) (cl r) = cls (nverts (F r)) v) by (apply idx_nth; auto; now apply cls_lt). rewrite I3 in E.
    assert (L : idx (vcl r v) (cl (vown r v)) < length (nverts (F (vown r v)))) by (rewrite (k_len _ _ _ (HK _ M1)); auto).
    assert (X : cls (nverts (F (vown r v))) (hv r v) = idx (vcl r v) (cl (vown r v))). { apply cls_unique; auto. unfold hv. lia. }
    split; [unfold hv; apply off_lt; auto; lia|]. split; auto. unfold vcl at 1. now rewrite X.
  Qed.
  (** the agglomerate of a vertex, on its master *)
  Definition hagg (r v : nat) : option nat := agg_of (F (vown r v)) (hv r v).
  Lemma hagg_facts r v a : r < np -> v < nv r -> hagg r v = Some a -> a < na (vown r v) /\ In (hv r v) (mems (F (vown r v)) a) /\ In r (ccls (vown r v) a) /\ In (ccls (vown r v) a) (cl r).
  Proof.
    intros Hr Hv E. destruct (hv_ok r v Hr Hv) as (M1 & V1 & V2 & V3). apply (k_agg _ _ _ (HK _ M1) _ _ V1) in E as (Ha & Hm). split; auto. split; auto.
    destruct (k_leq _ _ _ (HK _ M1) a _ Ha Hm) as (_ & I1). destruct (ccls_in _ a M1 Ha) as (C1 & C2 & C3 & C4).
    assert (R : In r (ccls (vown r v) a)).
    { pose proof (vcl_in r v Hr Hv) as HD. destruct (class_facts tabs HW r _ Hr HD) as (_ & R & _). unfold ccls. rewrite cl_nth by auto. apply in_members.
      rewrite <- V3 in R. unfold vcl in R. rewrite cl_nth in R by now apply cls_lt. apply in_members in R as [R|R]; [now left|right; now apply I1]. }
    split; auto. apply (class_cons tabs HW (vown r v)); auto.
  Qed.
  (** the numbers of coarse vertices per class, and the vertex map *)
  Definition cnts (r : nat) : list nat := map (fun D => length (gnum D)) (cl r).
  Definition gval (r v : nat) : option nat :=
    match hagg r v with None => None | Some a => let C := ccls (vown r v) a in Some (off (cnts r) (idx C (cl r)) + pos a (gnum C)) end.

  (** *** the data that is sent *)
  Definition exrow (m e : nat) : ex_row := if e =? 0 then (0, []) else (length (num m e), map (entry tabs m (F m) (order tabs m (F m))) (own_verts tabs m (F m) e)).
  Lemma phase1_row m : m < np -> exists cnt, phase1 tabs m (F m) = Ret (cnt, map (exrow m) (seq 0 (nq m))) /\ length cnt = nq m /\ nth 0 cnt 0 = 0.
  Proof.
    intros Hm. destruct (phase1_ok tabs HW m Hm (F m) (HK m Hm) (H0 m Hm)) as (cnt & am & E & S1). exists cnt. split; [|split; [apply S1|]].
    - rewrite E. do 2 f_equal. pose proof (s_cl _ _ _ _ _ _ S1) as LC. pose proof (s_cnt _ _ _ _ _ _ S1) as LN. destruct (nq m) as [|n] eqn:EN; auto. replace (S n - 1) with n by lia. cbn [seq map]. f_equal.
      assert (EC : skipn 1 cnt = map (fun e => length (num m e)) (seq 1 n)).
      { apply nth_ext with (d := 0) (d' := length (num m 0)). rewrite skipn_length, map_length, seq_length. lia. intros k Hk. rewrite skipn_length in Hk. destruct cnt as [|c cnt]; [cbn in LC; lia|]. cbn [skipn]. rewrite (map_nth (fun e => length (num m e)) (seq 1 n) 0), seq_nth by (cbn in LC, Hk; lia). cbn [length] in Hk, LC. replace (1 + k) with (S k) by lia. change (nth k cnt 0) with (nth (S k) (c :: cnt) 0). rewrite LN by lia. unfold num. destruct (Nat.eqb_spec (S k) 0); [lia|]. reflexivity. }
      rewrite EC. clear. assert (GEN : forall l, (forall e, In e l -> e <> 0) -> combine (map (fun e => length (num m e)) l) (map (fun e => map (entry tabs m (F m) (order tabs m (F m))) (own_verts tabs m (F m) e)) l) = map (exrow m) l).
      { induction l as [|e l IH]; intros H; cbn [map combine]; auto. rewrite IH by (intros; apply H; now right). f_equal. unfold exrow. destruct (Nat.eqb_spec e 0) as [->|]; auto. exfalso. apply (H 0); auto. now left. }
      apply GEN. intros e He. apply in_seq in He. lia.
    - destruct (Nat.eq_dec (nq m) 0) as [Z|Z]. { rewrite nth_overflow; auto. rewrite (s_cl _ _ _ _ _ _ S1). lia. }
      rewrite (s_cnt _ _ _ _ _ _ S1) by lia. unfold inclass. assert (X : forall l, (forall a, In a l -> ce (F m) a <> 0) -> length (filter (fun b => ce (F m) b =? 0) l) = 0). { induction l as [|a l IH]; intros H; auto. cbn [filter]. destruct (Nat.eqb_spec (ce (F m) a) 0) as [Y|]. exfalso. apply (H a); auto. now left. apply IH. intros b Hb. apply H. now right. }
      apply X. intros a Ha. now apply order_facts.
  Qed.
  Definition rowat (D : list nat) : ex_row := exrow (hd 0 D) (idx D (cl (hd 0 D))).
  Definition data : list (list ex_row) := map (fun r => map (exrow r) (seq 0 (nq r))) (seq 0 np).
  Lemma data_ok : mapM (fun r => x <- phase1 tabs r (F r) ;; Ret (snd x)) (seq 0 np) = Ret data.
  Proof.
    unfold data. assert (GEN : forall l, (forall r, In r l -> r < np) -> mapM (fun r => x <- phase1 tabs r (F r) ;; Ret (snd x)) l = Ret (map (fun r => map (exrow r) (seq 0 (nq r))) l)).
    { induction l as [|r l IH]; intros H; cbn [mapM map]; auto. destruct (phase1_row r (H r (or_introl eq_refl))) as (cnt & -> & _). cbn [bind snd]. rewrite IH by (intros; apply H; now right). reflexivity. }
    apply GEN. intros r Hr. apply in_seq in Hr. lia.
  Qed.
  Lemma data_nth r : r < np -> nth r data [] = map (exrow r) (seq 0 (nq r)).
  Proof. intros Hr. unfold data. rewrite (nth_indep _ [] (map (exrow 0) (seq 0 (nq 0)))) by (rewrite map_length, seq_length; auto). rewrite (map_nth (fun r => map (exrow r) (seq 0 (nq r))) (seq 0 np) 0). now rewrite seq_nth. Qed.
  Lemma scatter_row r : r < np -> ScatterEQCData tabs data r = Ret (map rowat (cl r)).
  Proof.
    intros Hr. rewrite (scatter_ok tabs HW ((0, []) : ex_row)); auto. 2: { intros q Hq. rewrite data_nth by auto. now rewrite map_length, seq_length. }
    f_equal. apply map_ext_in. intros D HD. destruct (master_facts r D Hr HD) as (M1 & M2 & M3 & M4). destruct (idx_in _ _ M2) as (I1 & I2).
    unfold mval. assert (E : del (hd 0 D) D = nth (idx D (cl (hd 0 D))) (tab (hd 0 D)) []). { rewrite row_idx by auto. now rewrite I2. }
    rewrite E, lookup_nth; auto. 2: { now apply tab_nodup. } 2: { rewrite data_nth by auto. now rewrite map_length, seq_length. }
    rewrite data_nth by auto. rewrite (nth_indep _ _ (exrow (hd 0 D) 0)) by (rewrite map_length, seq_length; auto). rewrite map_nth, seq_nth by auto. reflexivity.
  Qed.

  (** *** the second pass *)
  Section Pass2.
    Variable r : nat.
    Hypothesis Hr : r < np.
    Definition good (vm : list (option nat)) (dn : nat -> Prop) : Prop :=
      length vm = nv r /\ (forall v, v < nv r -> nth v vm None = None \/ nth v vm None = gval r v) /\ (forall v, v < nv r -> dn v -> nth v vm None = gval r v).
    Lemma good_imp vm (dn dn' : nat -> Prop) : (forall v, dn' v -> dn v) -> good vm dn -> good vm dn'.
    Proof. intros H (A & B & C). split; auto. Qed.
    Lemma wr_good vm dn v c : good vm dn -> v < nv r -> gval r v = Some c -> exists vm', wr vm v (Some c) = Ret vm' /\ good vm' (fun w => dn w \/ w = v).
    Proof.
      intros (A & B & C) Hv E. exists (upd vm v (Some c)). split. apply wr_ok. lia. split. now rewrite upd_length. split.
      - intros w Hw. destruct (Nat.eq_dec w v) as [->|N]. rewrite nth_upd_eq by lia. right. auto. rewrite nth_upd_neq by auto. auto.
      - intros w Hw D. destruct (Nat.eq_dec w v) as [->|N]. rewrite nth_upd_eq by lia. auto. rewrite nth_upd_neq by auto. apply C; auto. tauto.
    Qed.
    Lemma set_good ms c : (forall v, In v ms -> v < nv r /\ gval r v = Some c) -> forall vm dn, good vm dn -> exists vm', set_members ms c vm = Ret vm' /\ good vm' (fun w => dn w \/ In w ms).
    Proof.
      induction ms as [|v ms IH]; intros HM vm dn G; unfold set_members; cbn [foldM]. { exists vm. split; auto. eapply good_imp; [|exact G]. cbn. tauto. }
      destruct (HM v (or_introl eq_refl)) as (V1 & V2). destruct (wr_good vm dn v c G V1 V2) as (vm1 & E1 & G1). cbn beta. rewrite E1. cbn [bind]. destruct (IH (fun w h => HM w (or_intror h)) vm1 _ G1) as (vm2 & E2 & G2). exists vm2. split; auto. eapply good_imp; [|exact G2]. cbn. intros w [X|[X|X]]; auto.
    Qed.
    (** own agglomerates *)
    Lemma own_home v a : a < na r -> In v (mems (F r) a) -> v < nv r /\ vown r v = r /\ hv r v = v /\ hagg r v = Some a.
    Proof.
      intros Ha Hv. assert (V : v < nv r) by (apply (k_mem _ _ _ (HK r Hr) a); auto). split; auto. destruct (k_leq _ _ _ (HK r Hr) a v Ha Hv) as (M & _).
      assert (L := cls_lt r v Hr V). assert (O : vown r v = r) by (unfold vown, vcl; now apply master_iff). split; auto.
      assert (E : hv r v = v). { unfold hv. rewrite O. unfold vcl. rewrite idx_nth by auto. destruct (cls_ok _ _ V). lia. }
      split; auto. unfold hagg. rewrite O, E. apply (k_agg _ _ _ (HK r Hr)); auto.
    Qed.
    Lemma own_val v a : a < na r -> In v (mems (F r) a) -> gval r v = Some (off (cnts r) (ce (F r) a) + pos a (gnum (ccls r a))).
    Proof. intros Ha Hv. destruct (own_home v a Ha Hv) as (V & O & E & A). unfold gval. rewrite A, O. cbv zeta. destruct (ccls_in r a Hr Ha) as (_ & _ & _ & ->). auto. Qed.
    Lemma local_good : forall k vm dn, k <= na r -> good vm dn -> exists vm', foldM (local_agg (F r)) (skipn k (aggs (F r))) (length (inclass (F r) (seq 0 k) 0), vm) = Ret (length (inclass (F r) (seq 0 (na r)) 0), vm') /\
      good vm' (fun w => dn w \/ exists a, k <= a < na r /\ ce (F r) a = 0 /\ In w (mems (F r) a)).
    Proof.
      intros k. remember (na r - k) as n eqn:En. revert k En. induction n as [|n IH]; intros k En vm dn Hk G.
      - assert (k = na r) as -> by lia. rewrite skipn_all. cbn [foldM]. exists vm. split; auto. eapply good_imp; [|exact G]. cbn. intros v [X|(a & L & _)]; auto. lia.
      - assert (Ha : k < na r) by lia. assert (ES : skipn k (aggs (F r)) = nth k (aggs (F r)) (0, []) :: skipn (S k) (aggs (F r))).
        { clear -Ha. revert k Ha. induction (aggs (F r)) as [|x l IH]; intros [|k] H; cbn [length] in H; try lia; auto. cbn [skipn nth]. apply IH. lia. }
        rewrite ES. cbn [foldM]. unfold local_agg at 1. fold (cent (F r) k). fold (mems (F r) k). rewrite eqc_of_vertex by (apply (k_mem _ _ _ (HK r Hr) k); auto; now apply (k_cen _ _ _ (HK r Hr))). fold (ce (F r) k). cbn [bind].
        assert (EN : forall x, inclass (F r) (seq 0 (S k)) x = inclass (F r) (seq 0 k) x ++ if ce (F r) k =? x then [k] else []). { intros x. rewrite seq_S, inclass_app. f_equal. }
        destruct (Nat.eqb_spec (ce (F r) k) 0) as [Z|Z].
        + assert (P : pos k (gnum (ccls r k)) = length (inclass (F r) (seq 0 k) 0)).
          { destruct (gnum_ccls r k Hr Ha) as (-> & _). rewrite Z. unfold num. cbn [Nat.eqb]. replace (na r) with (S k + (na r - S k)) by lia. rewrite seq_app, inclass_app, EN, Z. cbn [Nat.eqb]. rewrite (posb_app Nat.eqb eqb_iff) by (apply in_app_iff; right; now left). apply posb_last. apply eqb_iff. rewrite in_inclass, in_seq. lia. }
          destruct (set_good (mems (F r) k) (length (inclass (F r) (seq 0 k) 0))) with (vm := vm) (dn := dn) as (vm1 & E1 & G1); auto.
          { intros v Hv. split. apply (k_mem _ _ _ (HK r Hr) k); auto. rewrite (own_val v k) by auto. rewrite Z, off_0, P. auto. }
          rewrite E1. cbn [bind]. replace (S (length (inclass (F r) (seq 0 k) 0))) with (length (inclass (F r) (seq 0 (S k)) 0)) by (rewrite EN, Z, app_length; cbn; lia).
          destruct (IH (S k) ltac:(lia) vm1 _ ltac:(lia) G1) as (vm2 & E2 & G2). exists vm2. split; auto. eapply good_imp; [|exact G2]. cbn. intros v [X|(a & L & CA & IA)]; auto. destruct (Nat.eq_dec a k) as [->|]; auto. right. exists a. split; auto; lia.
        + cbn [bind]. replace (length (inclass (F r) (seq 0 k) 0)) with (length (inclass (F r) (seq 0 (S k)) 0)) by (rewrite EN, app_length; destruct (Nat.eqb_spec (ce (F r) k) 0); [congruence|]; cbn; lia).
          destruct (IH (S k) ltac:(lia) vm _ ltac:(lia) G) as (vm2 & E2 & G2). exists vm2. split; auto. eapply good_imp; [|exact G2]. cbn. intros v [X|(a & L & CA & IA)]; auto. right. exists a. split; auto. destruct (Nat.eq_dec a k) as [->|]; [congruence|lia].
    Qed.
    Lemma cnts_len : length (cnts r) = nq r. Proof. unfold cnts. now rewrite map_length, cl_len. Qed.
    (** the entry of a shared vertex in the row that was received *)
    Definition gentry (v : nat) : loc_entry := match hagg r v with None => None | Some a => Some (pos a (gnum (ccls (vown r v) a)), gid tabs (ccls (vown r v) a)) end.
    Lemma row_ok e : 0 < e < nq r -> rowat (nth e (cl r) []) = (length (gnum (nth e (cl r) [])), map gentry (seq (off (nverts (F r)) e) (nth e (nverts (F r)) 0))).
    Proof.
      intros He. set (D := nth e (cl r) []). assert (HD : In D (cl r)) by (apply cl_in; lia). destruct (master_facts r D Hr HD) as (M1 & M2 & M3 & M4). destruct (idx_in _ _ M2) as (I1 & I2). pose proof (shared_master r e Hr He) as P. fold D in P.
      unfold rowat, exrow. destruct (Nat.eqb_spec (idx D (cl (hd 0 D))) 0); [lia|]. f_equal. unfold own_verts. rewrite (proj2 (master_iff (hd 0 D) _ M1 I1)) by now rewrite I2.
      pose proof (HC r (hd 0 D) D Hr M1 HD M2) as E. replace (idx D (cl r)) with e in E by (symmetry; apply idx_nth; auto; lia). rewrite <- E.
      apply nth_ext with (d := entry tabs (hd 0 D) (F (hd 0 D)) (order tabs (hd 0 D) (F (hd 0 D))) 0) (d' := gentry 0). now rewrite !map_length, !seq_length.
      intros k Hk. rewrite map_length, seq_length in Hk. rewrite !map_nth, !seq_nth by auto. set (v := off (nverts (F r)) e + k). assert (Le : e < length (nverts (F r))) by (rewrite (k_len _ _ _ (HK r Hr)); lia).
      assert (V : v < nv r) by (apply off_lt; auto). assert (C : cls (nverts (F r)) v = e) by (apply cls_unique; auto; unfold v; lia). assert (VD : vcl r v = D) by (unfold vcl; now rewrite C). assert (VO : vown r v = hd 0 D) by (unfold vown; now rewrite VD).
      assert (HV : hv r v = off (nverts (F (hd 0 D))) (idx D (cl (hd 0 D))) + k). { unfold hv. rewrite VD, VO, C. unfold v. lia. }
      rewrite <- HV, <- VO. unfold entry, gentry. fold (hagg r v). destruct (hagg r v) as [a|] eqn:EA; auto. do 2 f_equal. destruct (hagg_facts r v a Hr V EA) as (A1 & A2 & A3 & A4).
      assert (M1' : vown r v < np) by (rewrite VO; auto). destruct (gnum_ccls (vown r v) a M1' A1) as (-> & _). unfold num. destruct (Nat.eqb_spec (ce (F (vown r v)) a) 0) as [Z|Z]; auto. exfalso.
      assert (X := ce_0 tabs HW (vown r v) M1' (F (vown r v)) (HK _ M1') (H0 _ M1') a (hv r v) A1 A2 Z). destruct (hv_ok r v Hr V) as (_ & _ & Y & _). rewrite X, VD, VO in Y. lia.
    Qed.
    Lemma vertex_good vm dn v : good vm dn -> v < nv r -> exists vm', ex_vertex tabs r (F r) (disps_of (cnts r)) vm (v, gentry v) = Ret vm' /\ good vm' (fun w => dn w \/ w = v \/ exists a, hagg r v = Some a /\ vown r v = r /\ cent (F r) a = v /\ In w (mems (F r) a)).
    Proof.
      intros G V. unfold ex_vertex, gentry. destruct (hagg r v) as [a|] eqn:EA.
      2: { exists vm. split; auto. destruct G as (A & B & C). assert (GN : gval r v = None) by (unfold gval; now rewrite EA). split; auto. split; auto. intros w Hw [X|[->|(a & X & _)]]; [now apply C| |discriminate]. rewrite GN. destruct (B v V) as [X|X]; congruence. }
      destruct (hagg_facts r v a Hr V EA) as (A1 & A2 & A3 & A4). destruct (idx_in _ _ A4) as (I1 & I2). pose proof (of_id tabs HW r Hr _ I1) as OI. rewrite I2 in OI. rewrite OI. cbn [bind]. rewrite disps_rd by (rewrite cnts_len; lia). cbn [bind]. cbv zeta.
      assert (GV : gval r v = Some (off (cnts r) (idx (ccls (vown r v) a) (cl r)) + pos a (gnum (ccls (vown r v) a)))) by (unfold gval; now rewrite EA).
      destruct (wr_good vm dn v _ G V GV) as (vm1 & E1 & G1). rewrite E1. cbn [bind]. rewrite (rd_ok _ _ None) by (rewrite (k_v2a _ _ _ (HK r Hr)); auto). cbn [bind]. fold (agg_of (F r) v). destruct (agg_of (F r) v) as [b|] eqn:EB.
      - assert (Hb := EB). apply (k_agg _ _ _ (HK r Hr) v b V) in Hb as (B1 & B2). destruct (own_home v b B1 B2) as (_ & O & HVv & HB). assert (b = a) by congruence. subst b. rewrite (rd_ok _ _ (0, [])) by auto. cbn [bind]. fold (cent (F r) a). fold (mems (F r) a).
        destruct (Nat.eqb_spec (cent (F r) a) v) as [EC|NC].
        + destruct (set_good (mems (F r) a) (off (cnts r) (idx (ccls (vown r v) a) (cl r)) + pos a (gnum (ccls (vown r v) a)))) with (vm := vm1) (dn := fun w => dn w \/ w = v) as (vm2 & E2 & G2); auto.
          { intros w Hw. destruct (own_home w a B1 Hw) as (V' & O' & _ & HA'). split; auto. unfold gval. now rewrite HA', O', O. }
          exists vm2. split; auto. eapply good_imp; [|exact G2]. cbn. intros w [X|[X|(a' & X1 & X2 & X3 & X4)]]; auto. right. congruence.
        + exists vm1. split; auto. eapply good_imp; [|exact G1]. cbn. intros w [X|[X|(a' & X1 & X2 & X3 & X4)]]; auto. congruence.
      - exists vm1. split; auto. eapply good_imp; [|exact G1]. cbn. intros w [X|[X|(a' & X1 & X2 & X3 & X4)]]; auto. injection X1 as <-. exfalso. rewrite X2 in A1, A2. assert (In v (mems (F r) a)) by (rewrite <- X3; now apply (k_cen _ _ _ (HK r Hr))). assert (agg_of (F r) v = Some a) by (apply (k_agg _ _ _ (HK r Hr)); auto). congruence.
    Qed.
    Lemma class_good e : 0 < e < nq r -> forall vm dn, good vm dn -> exists vm', ex_class tabs r (F r) (disps_of (cnts r)) (map rowat (cl r)) vm e = Ret vm' /\
      good vm' (fun w => dn w \/ exists v, v < nv r /\ cls (nverts (F r)) v = e /\ (w = v \/ exists a, hagg r v = Some a /\ vown r v = r /\ cent (F r) a = v /\ In w (mems (F r) a))).
    Proof.
      intros He vm dn G. unfold ex_class. rewrite (rd_ok _ _ (rowat [])) by (rewrite map_length, cl_len; lia). cbn [bind]. rewrite map_nth, row_ok by auto. cbn [snd]. assert (Le : e < length (nverts (F r))) by (rewrite (k_len _ _ _ (HK r Hr)); lia). rewrite everts_ok by auto. cbn [bind]. rewrite map_length. destruct (Nat.ltb_spec (length (seq (off (nverts (F r)) e) (nth e (nverts (F r)) 0))) (length (seq (off (nverts (F r)) e) (nth e (nverts (F r)) 0)))); [lia|].
      assert (HV : forall v, In v (seq (off (nverts (F r)) e) (nth e (nverts (F r)) 0)) -> v < nv r /\ cls (nverts (F r)) v = e).
      { intros v Hv. apply in_seq in Hv. split. replace v with (off (nverts (F r)) e + (v - off (nverts (F r)) e)) by lia. apply off_lt; auto. lia. apply cls_unique; auto. }
      assert (HV2 : forall v, v < nv r -> cls (nverts (F r)) v = e -> In v (seq (off (nverts (F r)) e) (nth e (nverts (F r)) 0))).
      { intros v Hv C. destruct (cls_ok _ _ Hv) as (_ & X). rewrite C in X. apply in_seq. lia. }
      assert (GEN : forall l vm dn, (forall v, In v l -> v < nv r) -> good vm dn -> exists vm', foldM (ex_vertex tabs r (F r) (disps_of (cnts r))) (combine l (map gentry l)) vm = Ret vm' /\
        good vm' (fun w => dn w \/ exists v, In v l /\ (w = v \/ exists a, hagg r v = Some a /\ vown r v = r /\ cent (F r) a = v /\ In w (mems (F r) a)))).
      { clear vm dn G. induction l as [|v l IH]; intros vm dn HL G; cbn [map combine foldM]. { exists vm. split; auto. eapply good_imp; [|exact G]. cbn. intros w [X|(v & [] & _)]; auto. }
        destruct (vertex_good vm dn v G (HL v (or_introl eq_refl))) as (vm1 & -> & G1). cbn [bind]. destruct (IH vm1 _ (fun w h => HL w (or_intror h)) G1) as (vm2 & -> & G2). exists vm2. split; auto. eapply good_imp; [|exact G2]. cbn. intros w [X|(u & [->|U] & X)]; auto. right. eauto. }
      destruct (GEN _ vm dn (fun v h => proj1 (HV v h)) G) as (vm' & E & G'). exists vm'. split; auto. eapply good_imp; [|exact G']. cbn. intros w [X|(v & V & C & X)]; auto. right. exists v. split; auto.
    Qed.
    Lemma classes_good es : (forall e, In e es -> 0 < e < nq r) -> forall vm dn, good vm dn -> exists vm', foldM (ex_class tabs r (F r) (disps_of (cnts r)) (map rowat (cl r))) es vm = Ret vm' /\
      good vm' (fun w => dn w \/ exists v, v < nv r /\ In (cls (nverts (F r)) v) es /\ (w = v \/ exists a, hagg r v = Some a /\ vown r v = r /\ cent (F r) a = v /\ In w (mems (F r) a))).
    Proof.
      induction es as [|e es IH]; intros HE vm dn G; cbn [foldM]. { exists vm. split; auto. eapply good_imp; [|exact G]. cbn. intros w [X|(v & _ & [] & _)]; auto. }
      destruct (class_good e (HE e (or_introl eq_refl)) vm dn G) as (vm1 & -> & G1). cbn [bind]. destruct (IH (fun w h => HE w (or_intror h)) vm1 _ G1) as (vm2 & -> & G2). exists vm2. split; auto. eapply good_imp; [|exact G2]. cbn. intros w [X|(v & V & [X|X] & Y)]; auto. left. right. exists v. auto. right. eauto.
    Qed.
    Lemma rowat_0 : nq r <> 0 -> length (gnum [r]) = length (inclass (F r) (seq 0 (na r)) 0).
    Proof. intros N. unfold gnum. cbn [hd]. destruct (idx_0 r Hr) as (_ & ->). intros X. rewrite X in N. auto. reflexivity. Qed.
    Theorem MapVerts_ok : MapVerts tabs W r = Ret (map (gval r) (seq 0 (nv r)), cnts r).
    Proof.
      unfold MapVerts. rewrite data_ok. cbn [bind]. cbv zeta. destruct (phase1_row r Hr) as (cnt & -> & LC & Z). cbn [bind fst snd]. rewrite scatter_row by auto. cbn [bind]. rewrite disps_last.
      assert (G0 : good (repeat None (nv r)) (fun _ => False)). { split. apply repeat_length. split. intros v Hv. left. now rewrite nth_repeat. intros v _ []. }
      assert (C0 : match aggs (F r) with [] => Ret (nth 0 cnt 0) | _ :: _ => rd cnt 0 end = Ret (length (inclass (F r) (seq 0 0) 0))).
      { cbn. destruct (aggs (F r)) as [|x l] eqn:EA. now rewrite Z. rewrite (rd_ok _ _ 0), Z; auto. rewrite LC. assert (A : 0 < na r) by (rewrite EA; cbn; lia). pose proof (ce_lt tabs r (F r) (HK r Hr) 0 A). lia. }
      rewrite C0. cbn [bind]. destruct (local_good 0 _ _ (Nat.le_0_l _) G0) as (vm1 & E1 & G1). cbn [skipn] in E1. rewrite E1. cbn [bind].
      assert (EC : match nq r with 0 => [] | _ => length (inclass (F r) (seq 0 (na r)) 0) :: map fst (skipn 1 (map rowat (cl r))) end = cnts r).
      { unfold cnts. assert (RO := row_ok). assert (RZ := rowat_0). assert (CZ := idx_0 r Hr). destruct (nq r) as [|n] eqn:EN. { assert (X : length (cl r) = 0) by (now rewrite cl_len). destruct (cl r); auto. discriminate X. }
        assert (LCL : length (cl r) = S n) by now rewrite cl_len. destruct CZ as (CZ & _). { intros X. rewrite X in EN. discriminate. }
        destruct (cl r) as [|D0 l] eqn:ECL; [discriminate|]. cbn [map skipn]. cbn [nth] in CZ. rewrite CZ. f_equal. symmetry. apply RZ. lia.
        rewrite map_map. apply map_ext_in. intros D HD. destruct (In_nth _ _ [] HD) as (k & Hk & E). cbn [length] in LCL. specialize (RO (S k) ltac:(lia)). cbn [nth] in RO. rewrite E in RO. rewrite RO. reflexivity. }
      rewrite EC. destruct (classes_good (seq 1 (nq r - 1))) with (vm := vm1) (dn := fun w => False \/ (exists a, 0 <= a < na r /\ ce (F r) a = 0 /\ In w (mems (F r) a))) as (vm2 & E2 & G2); auto. { intros e He. apply in_seq in He. lia. }
      rewrite E2. cbn [bind]. do 2 f_equal. destruct G2 as (LG & GA & GB).
      apply nth_ext with (d := None) (d' := gval r 0). now rewrite map_length, seq_length. rewrite LG. intros v Hv. rewrite (map_nth (gval r) (seq 0 (nv r)) 0), seq_nth by auto. cbn [Nat.add].
      destruct (hagg r v) as [a|] eqn:EA. 2: { assert (GN : gval r v = None) by (unfold gval; now rewrite EA). destruct (GA v Hv) as [X|X]; congruence. }
      apply GB; auto. assert (CL := cls_lt r v Hr Hv). destruct (Nat.eq_dec (cls (nverts (F r)) v) 0) as [Z0|Z0].
      - assert (VD : vcl r v = [r]). { unfold vcl. apply class_0; auto. } assert (VO : vown r v = r) by (unfold vown; now rewrite VD).
        assert (HV : hv r v = v). { unfold hv. rewrite VO, VD, Z0. destruct (idx_0 r Hr) as (_ & ->). intros X. rewrite X in CL. cbn in CL. lia. rewrite off_0. lia. }
        destruct (hagg_facts r v a Hr Hv EA) as (A1 & A2 & _ & _). rewrite VO in A1, A2. rewrite HV in A2. destruct (Nat.eq_dec (ce (F r) a) 0) as [Y|Y]. { left. right. exists a. split; auto. lia. }
        right. exists (cent (F r) a). assert (CM := k_cen _ _ _ (HK r Hr) a A1). destruct (own_home _ a A1 CM) as (B1 & B2 & B3 & B4). split; auto. split. apply in_seq. pose proof (cls_lt r _ Hr B1). unfold ce in Y. lia. right. exists a. auto.
      - right. exists v. split; auto. split; auto. apply in_seq. lia.
    Qed.
  End Pass2.

  (** *** what the numbers mean *)
  Lemma val_lt r v k : r < np -> v < nv r -> gval r v = Some k -> exists a, hagg r v = Some a /\ a < na (vown r v) /\ vown r v < np /\ In (ccls (vown r v) a) (cl r) /\ cls (cnts r) k = idx (ccls (vown r v) a) (cl r) /\ k < sum (cnts r) /\ k = off (cnts r) (idx (ccls (vown r v) a) (cl r)) + pos a (gnum (ccls (vown r v) a)).
  Proof.
    intros Hr Hv E. unfold gval in E. destruct (hagg r v) as [a|] eqn:EA; [|discriminate]. cbv zeta in E. injection E as E. exists a. destruct (hagg_facts r v a Hr Hv EA) as (A1 & A2 & A3 & A4). destruct (hv_ok r v Hr Hv) as (M1 & _).
    destruct (idx_in _ _ A4) as (I1 & I2). destruct (gnum_ccls _ a M1 A1) as (_ & G2). destruct (posb_in Nat.eqb eqb_iff a _ 0 G2) as (P1 & _).
    assert (LE : idx (ccls (vown r v) a) (cl r) < length (cnts r)) by (rewrite cnts_len; auto). assert (CN : nth (idx (ccls (vown r v) a) (cl r)) (cnts r) 0 = length (gnum (ccls (vown r v) a))). { unfold cnts. rewrite (nth_indep _ 0 (length (gnum []))) by (rewrite map_length, cl_len; auto). rewrite (map_nth (fun D => length (gnum D))). now rewrite I2. }
    repeat (split; auto). apply cls_unique; auto. rewrite CN. lia. rewrite <- E. apply off_lt; auto. now rewrite CN.
  Qed.
End All.
