(** Lemmas for C79, C81: the start, the agglomerates, the whole algorithm. *)
From Coq Require Import QArith.
From Verif Require Import Base SparseModel SparseProofs CtrProofs AuxModel AuxSpec AuxProofs CDataModel CDataSpec CDataProofs CDataProps CMapProps SPWModel SPWSpec SPWProofs SPWProofs2 SPWProofs3 SPWProofs4 SPWProofs5 SPWProofs6 SPWProofs7.
Local Open Scope nat_scope.

Lemma mark_fold {X} (F : list bool -> X -> res (list bool)) (cond : X -> nat -> Prop) n (l : list X) :
  (forall h x, length h = n -> In x l -> exists h', F h x = Ret h' /\ length h' = n /\ forall u, nth u h' false = true <-> nth u h false = true \/ cond x u) ->
  forall h, length h = n -> exists h', foldM F l h = Ret h' /\ length h' = n /\ forall u, nth u h' false = true <-> nth u h false = true \/ exists x, In x l /\ cond x u.
Proof.
  induction l as [|x l IH]; intros HF h Hh; cbn [foldM].
  - exists h. split; auto. split; auto. intros u. split; auto. intros [H|(x & [] & _)]; auto.
  - destruct (HF h x Hh ltac:(now left)) as (h1 & E1 & L1 & N1). rewrite E1. cbn [bind].
    destruct (IH ltac:(intros; apply HF; auto; now right) h1 L1) as (h2 & E2 & L2 & N2). exists h2. split; auto. split; auto.
    intros u. rewrite N2, N1. split.
    + intros [[H|H]|(y & Hy & H)]; auto; right; [exists x; split; auto; now left|exists y; split; auto; now right].
    + intros [H|(y & [<-|Hy] & H)]; eauto.
Qed.
Lemma wr_bit h v n u : length h = n -> v < n -> exists h', wr h v true = Ret h' /\ length h' = n /\ (nth u h' false = true <-> nth u h false = true \/ u = v).
Proof.
  intros L H. rewrite wr_ok by lia. eexists. split; [reflexivity|]. split; [now rewrite upd_length|]. rewrite nth_upd_b by lia. destruct (Nat.eqb_spec u v); intuition.
Qed.
Lemma wr_bits h v n : length h = n -> v < n -> exists h', wr h v true = Ret h' /\ length h' = n /\ forall u, nth u h' false = true <-> nth u h false = true \/ u = v.
Proof.
  intros L H. rewrite wr_ok by lia. eexists. split; [reflexivity|]. split; [now rewrite upd_length|]. intros u. rewrite nth_upd_b by lia. destruct (Nat.eqb_spec u v); intuition.
Qed.
Lemma mark_ok n vs : (forall v, In v vs -> v < n) -> forall h, length h = n -> exists h', mark vs h = Ret h' /\ length h' = n /\ forall u, nth u h' false = true <-> nth u h false = true \/ In u vs.
Proof.
  intros HV h Hh. unfold mark. destruct (mark_fold (fun h v => wr h v true) (fun v u => u = v) n vs) with (h := h) as (h' & E & L & N); auto.
  - intros h1 x L1 Hx. apply wr_bits; auto.
  - exists h'. split; auto. split; auto. intros u. rewrite N. split; intros [H|H]; auto; [destruct H as (x & Hx & ->); auto|right; eauto].
Qed.

Section Init.
  Variable P : par_info.
  Variable I : input.
  Hypothesis HI : input_ok P I.
  Let NV := m_nv (i_mesh I).

  Lemma isolated_row v : v < NV -> length (nth v (m_econ (i_mesh I)) []) = 0 <-> forall w, ~ adjacent (m_edges (i_mesh I)) v w.
  Proof.
    intros Hv. destruct HI as (HM & _). split.
    - intros L w A. apply (adj_row (i_mesh I) HM v w Hv) in A. destruct (nth v (m_econ (i_mesh I)) []); [destruct A|discriminate].
    - intros H. destruct (nth v (m_econ (i_mesh I)) []) as [|(w & e) row] eqn:E; auto. exfalso. apply (H w). apply (adj_row (i_mesh I) HM v w Hv). rewrite E. now left.
  Qed.

  Lemma init_handled_ok : exists h, init_handled P I = Ret h /\ length h = NV /\ forall v, v < NV -> nth v h false = false <-> takes_part P I v.
  Proof.
    destruct HI as (HM & (CL & C1 & C2 & C3) & HF & HSo & ND & HFx & HNe & HR & HP). fold NV in CL, C1, C2, HF, HSo, HFx. unfold init_handled. fold NV.
    (* free *)
    assert (S1 : exists h, match i_free I with
       | Some f => foldM (fun h v => b <- rd f v ;; if b : bool then Ret h else wr h v true) (seq 0 NV) (repeat false NV)
       | None => Ret (repeat false NV) end = Ret h /\ length h = NV /\ forall u, u < NV -> nth u h false = true <-> bit (i_free I) u = false).
    { destruct (i_free I) as [f|] eqn:Ef.
      - destruct (mark_fold (fun h v => b <- rd f v ;; if b : bool then Ret h else wr h v true) (fun v u => u = v /\ nth v f false = false) NV (seq 0 NV)) with (h := repeat false NV) as (h & E & L & N).
        + intros h v Lh Hv. apply in_seq in Hv. rewrite (rd_ok f v false) by (rewrite (HF f); auto; lia). cbn [bind]. destruct (nth v f false).
          * exists h. split; auto. split; auto. intros u. intuition congruence.
          * destruct (wr_bits h v NV Lh ltac:(lia)) as (h' & E & L & N). exists h'. split; auto. split; auto. intros u. rewrite N. intuition.
        + apply repeat_length.
        + exists h. split; auto. split; auto. intros u Hu. rewrite N, nth_repeat. cbn [bit]. split.
          * intros [H|(x & _ & -> & H)]; [discriminate|auto].
          * intros H. right. exists u. split; [apply in_seq; lia|auto].
      - exists (repeat false NV). split; auto. split; [apply repeat_length|]. intros u _. rewrite nth_repeat. cbn. split; discriminate. }
    destruct S1 as (h1 & E1 & L1 & N1). rewrite E1. cbn [bind].
    (* processes *)
    set (par_out := fun v => truly_par P = true /\ match solid P with
        | Some s => nth v (i_veq I) 0 <> 0 /\ nth v s false = false
        | None => master P (nth v (i_veq I) 0) = false end).
    assert (S2 : exists h, (if truly_par P then
          match solid P with
          | Some s => foldM (fun h v => b <- rd s v ;; if b : bool then Ret h else wr h v true) (concat (tl (i_classes I))) h1
          | None => foldM (fun h qvs => if master P (fst qvs) then Ret h else mark (snd qvs) h) (numbered (i_classes I)) h1
          end else Ret h1) = Ret h /\ length h = NV /\ forall u, u < NV -> nth u h false = true <-> nth u h1 false = true \/ par_out u).
    { unfold par_out. destruct (truly_par P) eqn:TP.
      - destruct (solid P) as [s|] eqn:Es.
        + destruct (mark_fold (fun h v => b <- rd s v ;; if b : bool then Ret h else wr h v true) (fun v u => u = v /\ nth v s false = false) NV (concat (tl (i_classes I)))) with (h := h1) as (h & E & L & N); auto.
          * intros h v Lh Hv. assert (Hv' : v < NV).
            { apply in_concat in Hv as (x & Hx & Hv). apply In_nth with (d := []) in Hx as (q & Hq & <-). destruct (i_classes I) as [|x0 xs] eqn:Ec; [cbn in Hq; lia|]. cbn [tl] in *. apply (C2 (S q) v). cbn. auto. }
            rewrite (rd_ok s v false) by (rewrite (HSo s); auto; lia). cbn [bind]. destruct (nth v s false).
            -- exists h. split; auto. split; auto. intros u. intuition congruence.
            -- destruct (wr_bits h v NV Lh Hv') as (h' & E & L & N). exists h'. split; auto. split; auto. intros u. rewrite N. intuition.
          * exists h. split; auto. split; auto. intros u Hu. rewrite N. split.
            -- intros [H|(x & Hx & -> & Hs)]; auto. right. split; auto. split; auto. apply in_concat in Hx as (y & Hy & Hx). apply In_nth with (d := []) in Hy as (q & Hq & <-).
               destruct (i_classes I) as [|x0 xs] eqn:Ec; [cbn in Hq; lia|]. cbn [tl] in *. destruct (C2 (S q) x) as [_ E0]; [cbn; auto|]. lia.
            -- intros [H|(_ & H0 & Hs)]; auto. right. exists u. split; auto. specialize (C1 u Hu). apply in_concat.
               destruct (i_classes I) as [|x0 xs] eqn:Ec; [cbn [nth] in C1; destruct (nth u (i_veq I) 0); destruct C1|]. cbn [tl]. destruct (nth u (i_veq I) 0) as [|q] eqn:Eq; [congruence|]. cbn [nth] in C1.
               exists (nth q xs []). split; auto. destruct (Nat.lt_ge_cases q (length xs)); [now apply nth_In|]. rewrite nth_overflow in C1 by auto. destruct C1.
        + destruct (mark_fold (fun h (qvs : nat * list nat) => if master P (fst qvs) then Ret h else mark (snd qvs) h) (fun qvs u => In u (snd qvs) /\ master P (fst qvs) = false) NV (numbered (i_classes I))) with (h := h1) as (h & E & L & N); auto.
          * intros h (q & vs) Lh Hv. cbn [fst snd]. apply in_numbered_lt in Hv as [Hq En]. apply nth_error_nth with (d := []) in En. subst vs. destruct (master P q).
            -- exists h. split; auto. split; auto. intros u. intuition congruence.
            -- destruct (mark_ok NV (nth q (i_classes I) [])) with (h := h) as (h' & E & L & N); auto; [intros v Hv; now apply (C2 q v)|]. exists h'. split; auto. split; auto. intros u. rewrite N. intuition.
          * exists h. split; auto. split; auto. intros u Hu. rewrite N. split.
            -- intros [H|((q & vs) & Hq & Hin & Hm)]; auto. right. split; auto. cbn [fst snd] in *. apply in_numbered_lt in Hq as [Hq En]. apply nth_error_nth with (d := []) in En. subst vs.
               destruct (C2 q u Hin) as [_ ->]. auto.
            -- intros [H|(_ & Hm)]; auto. right. specialize (C1 u Hu). exists (nth u (i_veq I) 0, nth (nth u (i_veq I) 0) (i_classes I) []). cbn [fst snd]. split; auto. apply (in_numbered _ _ _ []). split; auto.
               destruct (Nat.lt_ge_cases (nth u (i_veq I) 0) (length (i_classes I))); auto. rewrite nth_overflow in C1 by auto. destruct C1.
      - exists h1. split; auto. split; auto. intros u Hu. intuition discriminate. }
    destruct S2 as (h2 & E2 & L2 & N2). rewrite E2. cbn [bind].
    destruct (mark_ok NV (concat (i_fixed I)) HFx h2 L2) as (h3 & E3 & L3 & N3). rewrite E3. cbn [bind].
    (* dominant *)
    assert (S4 : exists h, match i_dominant I with
       | Some d => foldM (fun h v => b <- rd h v ;; if negb b && d v then wr h v true else Ret h) (seq 0 NV) h3
       | None => Ret h3 end = Ret h /\ length h = NV /\ forall u, u < NV -> nth u h false = true <-> nth u h3 false = true \/ exists d, i_dominant I = Some d /\ d u = true).
    { destruct (i_dominant I) as [d|] eqn:Ed.
      - destruct (mark_fold (fun h v => b <- rd h v ;; if negb b && d v then wr h v true else Ret h) (fun v u => u = v /\ d v = true) NV (seq 0 NV)) with (h := h3) as (h & E & L & N); auto.
        + intros h v Lh Hv. apply in_seq in Hv. rewrite (rd_ok h v false) by lia. cbn [bind]. destruct (nth v h false) eqn:Eh; cbn [negb andb].
          * exists h. split; auto. split; auto. intros u. split; auto. intros [H|(-> & H)]; auto.
          * destruct (d v) eqn:Edv; [|exists h; split; auto; split; auto; intros u; intuition congruence].
            destruct (wr_bits h v NV Lh ltac:(lia)) as (h' & E & L & N). exists h'. split; auto. split; auto. intros u. rewrite N. intuition.
        + exists h. split; auto. split; auto. intros u Hu. rewrite N. split.
          * intros [H|(x & _ & -> & H)]; eauto.
          * intros [H|(d' & [= <-] & H)]; auto. right. exists u. split; [apply in_seq; lia|auto].
      - exists h3. split; auto. split; auto. intros u _. split; auto. intros [H|(d & H & _)]; [auto|discriminate]. }
    destruct S4 as (h4 & E4 & L4 & N4). rewrite E4. cbn [bind].
    (* isolated *)
    set (iso := fun v => nth v (i_veq I) 0 = 0 /\ forall w, ~ adjacent (m_edges (i_mesh I)) v w).
    assert (S5 : exists h, match i_classes I with
      | [] => Ret h4
      | loc :: _ => foldM (fun (h : list bool) v => b <- rd h v ;; if b : bool then Ret h else row <- rd (m_econ (i_mesh I)) v ;; if length row =? 0 then wr h v true else Ret h) loc h4
      end = Ret h /\ length h = NV /\ forall u, u < NV -> nth u h false = true <-> nth u h4 false = true \/ iso u).
    { destruct (i_classes I) as [|loc rest] eqn:Ec.
      - exists h4. split; auto. split; auto. intros u Hu. exfalso. specialize (C1 u Hu). destruct (nth u (i_veq I) 0); destruct C1.
      - destruct (mark_fold (fun (h : list bool) v => b <- rd h v ;; if b : bool then Ret h else row <- rd (m_econ (i_mesh I)) v ;; if length row =? 0 then wr h v true else Ret h)
                    (fun v u => u = v /\ forall w, ~ adjacent (m_edges (i_mesh I)) v w) NV loc) with (h := h4) as (h & E & L & N); auto.
        + intros h v Lh Hv. destruct (C2 0 v Hv) as [Hv1 Hv2]. rewrite (rd_ok h v false) by lia. cbn [bind]. destruct (nth v h false) eqn:Eh.
          * exists h. split; auto. split; auto. intros u. split; auto. intros [H|(-> & H)]; auto.
          * rewrite (rd_ok (m_econ (i_mesh I)) v []) by (destruct HM as (_ & -> & _); auto). cbn [bind]. destruct (Nat.eqb_spec (length (nth v (m_econ (i_mesh I)) [])) 0) as [Z|Z].
            -- destruct (wr_bits h v NV Lh Hv1) as (h' & E & L & N). exists h'. split; auto. split; auto. intros u. rewrite N. pose proof (proj1 (isolated_row v Hv1) Z) as Z2. intuition.
            -- exists h. split; auto. split; auto. intros u. split; auto. intros [H|(-> & H)]; auto. exfalso. exact (Z (proj2 (isolated_row v Hv1) H)).
        + exists h. split; auto. split; auto. intros u Hu. rewrite N. unfold iso. split.
          * intros [H|(x & Hx & -> & H)]; auto. right. split; auto. now destruct (C2 0 x Hx).
          * intros [H|(H0 & H)]; auto. right. exists u. split; auto. specialize (C1 u Hu). rewrite H0 in C1. exact C1. }
    destruct S5 as (h5 & E5 & L5 & N5). exists h5. split; [exact E5|]. split; auto. intros v Hv.
    assert (D : nth v h5 false = true <-> bit (i_free I) v = false \/ par_out v \/ In v (concat (i_fixed I)) \/ (exists d, i_dominant I = Some d /\ d v = true) \/ iso v).
    { rewrite N5, N4, N3, N2, N1 by auto. tauto. }
    unfold takes_part. fold NV. split.
    - intros H. assert (ND' : ~ (bit (i_free I) v = false \/ par_out v \/ In v (concat (i_fixed I)) \/ (exists d, i_dominant I = Some d /\ d v = true) \/ iso v)) by (intros X; apply D in X; congruence).
      split; auto. split; [destruct (bit (i_free I) v); auto; exfalso; auto|]. split; [|split; [|split; [|exact (fun X => ND' (or_intror (or_intror (or_intror (or_intror X)))))]]].
      + intros TP. destruct (solid P) as [s|] eqn:Es.
        * destruct (Nat.eq_dec (nth v (i_veq I) 0) 0); auto. right. destruct (nth v s false) eqn:Ev; auto. exfalso. apply ND'. right. left. unfold par_out. try rewrite Es. auto.
        * destruct (master P (nth v (i_veq I) 0)) eqn:Em; auto. exfalso. apply ND'. right. left. unfold par_out. try rewrite Es. auto.
      + intros X. apply ND'. auto.
      + intros d Hd. destruct (d v) eqn:Ed; auto. exfalso. apply ND'. right. right. right. left. eauto.
    - intros (_ & T1 & T2 & T3 & T4 & T5). destruct (nth v h5 false) eqn:EE; auto. exfalso. destruct (proj1 D eq_refl) as [E|[E|[E|[(d & Hd & E)|E]]]]; auto; try congruence.
      + destruct E as (TP & E). specialize (T2 TP). destruct (solid P); [destruct E as [E E']; destruct T2; congruence|congruence].
      + specialize (T4 d Hd). congruence.
  Qed.
End Init.

Section SetAgg.
  Variable P : par_info.
  Variable veq : list nat.
  Variable NV : nat.
  Hypothesis HV : length veq = NV.

  Definition topped (a : agglomerate) : Prop := order_ok P -> (exists t, In t (a_mems a) /\ forall u, In u (a_mems a) -> leq P (nth u veq 0) (nth t veq 0) = true) ->
    forall u, In u (a_mems a) -> leq P (nth u veq 0) (nth (a_ctr a) veq 0) = true.

  Lemma set_agg_ok aggs v2a vs : length v2a = NV -> vs <> [] -> (forall v, In v vs -> v < NV) ->
    exists a v2a', set_agg P veq (aggs, v2a) vs = Ret (aggs ++ [a], v2a') /\ a_id a = length aggs /\ a_mems a = vs /\ In (a_ctr a) vs /\ topped a /\
      length v2a' = NV /\ forall v k, target v2a' v = Some k <-> (In v vs /\ k = length aggs) \/ (~ In v vs /\ target v2a v = Some k).
  Proof.
    intros HL NE HI. unfold set_agg. destruct vs as [|v0 vs0] eqn:Evs; [congruence|]. rewrite <- Evs in *. assert (Hv0 : In v0 vs) by (rewrite Evs; now left).
    assert (R0 : rd vs 0 = Ret v0) by (rewrite Evs; reflexivity). rewrite R0. cbn [bind]. rewrite (rd_ok veq v0 0) by (rewrite HV; auto). cbn [bind].
    match goal with |- context [foldM ?F0 _ _] => set (F := F0) end.
    set (good := fun (dn : list nat) (st : nat * nat * list Z) => let '(ctr, ce, m) := st in
      In ctr vs /\ ce = nth ctr veq 0 /\ length m = NV /\ (forall v k, target m v = Some k <-> (In v dn /\ k = length aggs) \/ (~ In v dn /\ target v2a v = Some k)) /\
      (order_ok P -> forall t, In t vs -> (forall u, In u vs -> leq P (nth u veq 0) (nth t veq 0) = true) -> In t dn -> leq P (nth t veq 0) ce = true)).
    assert (G : forall l dn st, (forall v, In v l -> In v vs) -> good dn st -> exists st', foldM F l st = Ret st' /\ good (dn ++ l) st').
    { induction l as [|v l IH]; intros dn ((ctr & ce) & m) Hl HG; cbn [foldM].
      - rewrite app_nil_r. eauto.
      - assert (Hv : In v vs) by (apply Hl; now left). destruct HG as (G1 & G2 & G3 & G4 & G5). unfold F at 1. cbn beta iota.
        rewrite (rd_ok veq v 0) by (rewrite HV; auto). cbn [bind]. rewrite wr_ok by (rewrite G3; auto). cbn [bind].
        replace (dn ++ v :: l) with ((dn ++ [v]) ++ l) by (now rewrite <- app_assoc). apply IH; [intros; apply Hl; now right|].
        assert (T : forall x k, target (upd m v (Z.of_nat (length aggs))) x = Some k <-> (In x (dn ++ [v]) /\ k = length aggs) \/ (~ In x (dn ++ [v]) /\ target v2a x = Some k)).
        { intros x k. rewrite target_upd by (rewrite G3; auto). rewrite in_app_iff. cbn [In]. destruct (Nat.eqb_spec x v) as [->|Nx].
          - split; [intros [= <-]; auto|]. intros [(_ & ->)|(H & _)]; auto. exfalso; auto.
          - rewrite G4. assert (v = x <-> False) by (split; [congruence|tauto]). tauto. }
        assert (OO : forall t, order_ok P -> In t vs -> (forall u, In u vs -> leq P (nth u veq 0) (nth t veq 0) = true) ->
                  leq P (nth t veq 0) (nth v veq 0) = true \/ t <> v) by (intros; destruct (Nat.eq_dec t v) as [->|]; auto; left; apply H).
        destruct (negb (nth v veq 0 =? 0) && negb (ce =? nth v veq 0) && leq P ce (nth v veq 0)) eqn:B.
        + rewrite !andb_true_iff, !negb_true_iff in B. destruct B as ((B1 & B2) & B3). split; auto. split; auto. split; [now rewrite upd_length|]. split; auto.
          intros HO t Ht Hm Hi. apply in_app_iff in Hi as [Hi|[<-|[]]]; [|apply HO]. destruct HO as (O1 & O2 & O3 & O4). apply (O2 _ ce); auto. apply G5; auto. repeat split; auto.
        + split; auto. split; auto. split; [now rewrite upd_length|]. split; auto. intros HO t Ht Hm Hi. apply in_app_iff in Hi as [Hi|[->|[]]]; [auto|].
          destruct HO as (O1 & O2 & O3 & O4). assert (CT : leq P ce (nth t veq 0) = true) by (rewrite G2; auto).
          rewrite CT, andb_true_r in B. apply andb_false_iff in B as [B|B]; apply negb_false_iff, Nat.eqb_eq in B; [rewrite B; auto|rewrite B; auto]. }
    destruct (G vs [] (v0, nth v0 veq 0, v2a)) as (((ctr & ce) & m) & E & G1 & G2 & G3 & G4 & G5); auto.
    { split; auto. split; auto. split; auto. split; [intros v k; cbn [In]; tauto|]. intros _ t _ _ []. }
    rewrite E. cbn [bind]. eexists. exists m. split; [reflexivity|]. split; auto. split; auto. split; auto. split; [|split; auto].
    intros HO (t & Ht & Hm) u Hu. cbn [a_mems a_ctr] in *. rewrite <- G2. assert (HO' := HO). destruct HO' as (O1 & O2 & O3 & O4). apply (O2 _ (nth t veq 0)); auto.
  Qed.

  Definition ginv (st : list agglomerate * list Z) : Prop := let '(aggs, v2a) := st in
    length v2a = NV /\ (forall v k, target v2a v = Some k <-> exists a, nth_error aggs k = Some a /\ In v (a_mems a)) /\
    (forall k a, nth_error aggs k = Some a -> a_id a = k /\ In (a_ctr a) (a_mems a) /\ topped a).
  Lemma set_aggs_ok : forall gs st, ginv st -> (forall g, In g gs -> g <> []) -> (forall v, In v (concat gs) -> v < NV) -> NoDup (concat gs) ->
    (forall a v, In a (fst st) -> In v (a_mems a) -> ~ In v (concat gs)) ->
    exists st', foldM (set_agg P veq) gs st = Ret st' /\ ginv st' /\ map a_mems (fst st') = map a_mems (fst st) ++ gs.
  Proof.
    induction gs as [|g gs IH]; intros (aggs & v2a) (I1 & I2 & I3) HN HB ND DJ; cbn [foldM].
    - eexists. split; [reflexivity|]. cbn [fst]. rewrite app_nil_r. split; auto. split; auto.
    - cbn [concat] in HB, ND, DJ. destruct (set_agg_ok aggs v2a g I1 (HN g ltac:(now left)) ltac:(intros; apply HB, in_app_iff; auto)) as (a & m & E & A1 & A2 & A3 & A4 & A5 & A6).
      rewrite E. cbn [bind]. assert (ND' : NoDup (concat gs) /\ forall v, In v g -> ~ In v (concat gs)).
      { clear - ND. induction g as [|x g IHg]; cbn in *; [split; auto|]. inversion ND; subst. destruct (IHg H2) as [N1 N2]. split; auto. intros v [<-|Hv]; auto. intros X. apply H1, in_app_iff; auto. }
      destruct (IH (aggs ++ [a], m)) as (st' & E' & G' & M'); auto.
      + split; auto. split.
        * intros v k. rewrite A6. rewrite I2. split.
          -- intros [(Hv & ->)|(Hv & a' & Ha & Hm)].
             ++ exists a. rewrite nth_error_app2 by lia. rewrite Nat.sub_diag. cbn. rewrite A2. auto.
             ++ exists a'. split; auto. rewrite nth_error_app1; auto. apply nth_error_Some. congruence.
          -- intros (a' & Ha & Hm). destruct (Nat.lt_ge_cases k (length aggs)).
             ++ rewrite nth_error_app1 in Ha by auto. right. split; [|eauto]. intros Hg. apply (DJ a' v); auto; [cbn [fst]; eapply nth_error_In; eauto|apply in_app_iff; auto].
             ++ rewrite nth_error_app2 in Ha by auto. destruct (k - length aggs) as [|j] eqn:Ek; [|destruct j; discriminate]. injection Ha as <-. rewrite A2 in Hm. left. split; auto. lia.
        * intros k a' Ha. destruct (Nat.lt_ge_cases k (length aggs)).
          -- rewrite nth_error_app1 in Ha by auto. auto.
          -- rewrite nth_error_app2 in Ha by auto. destruct (k - length aggs) as [|j] eqn:Ek; [|destruct j; discriminate]. injection Ha as <-. rewrite A1, A2. split; [lia|auto].
      + intros g' Hg'. apply HN. now right.
      + intros v Hv. apply HB, in_app_iff; auto.
      + tauto.
      + cbn [fst]. intros a' v Ha Hm. apply in_app_iff in Ha as [Ha|[<-|[]]]; [intros X; apply (DJ a' v); auto; apply in_app_iff; auto|]. rewrite A2 in Hm. now apply ND'.
      + exists st'. split; auto. split; auto. rewrite M'. cbn [fst]. rewrite map_app, <- app_assoc. cbn [map app]. now rewrite A2.
  Qed.
End SetAgg.
