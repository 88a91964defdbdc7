(** Proofs about the edge map of an agglomeration step: the order in which the fine edges are visited. *)
From Verif Require Import Base ArraysModel EQCModel UtilProofs EQCProofs EQCProofs2 HybMatProofs AggMapModel AggMapProofs EdgeMapModel EdgeMapProofs.
Local Open Scope nat_scope.

Lemma sum_length {T} (L : list (list T)) : sum (map (@length T) L) = length (concat L).
Proof. induction L as [|x L IH]; auto. cbn [map concat]. rewrite sum_cons, app_length, IH. auto. Qed.
Lemma filter_ext_in {T} (f g : T -> bool) l : (forall x, In x l -> f x = g x) -> filter f l = filter g l.
Proof. induction l as [|x l IH]; intros H; auto. cbn [filter]. rewrite (H x) by now left. rewrite IH; auto. intros; apply H; now right. Qed.
Lemma ss_app {T} (Q : T -> T -> Prop) l l' : StronglySorted Q l -> StronglySorted Q l' -> (forall x y, In x l -> In y l' -> Q x y) -> StronglySorted Q (l ++ l').
Proof. induction 1 as [|x l H IH HF]; intros H' HX; cbn [app]; auto. constructor. apply IH; auto. intros; apply HX; auto. now right. rewrite Forall_forall in *. intros y Hy. apply in_app_iff in Hy as [Hy|Hy]; auto. apply HX; auto. now left. Qed.
Lemma ss_app_inv {T} (Q : T -> T -> Prop) l x l' : StronglySorted Q (l ++ x :: l') -> forall y, In y l' -> Q x y.
Proof. induction l as [|z l IH]; cbn [app]; intros H y Hy; inversion H as [|? ? HS HF]; subst. rewrite Forall_forall in HF. auto. now apply IH. Qed.

(** the numbers of the fine edges, in the order in which they are visited *)
Definition nE (R : emesh) : nat := sum (map (@length _) (eedges R)).
Definition feq (R : emesh) (id : nat) : nat := if id <? nE R then cls (map (@length _) (eedges R)) id else cls (map (@length _) (xedges R)) (id - nE R).
Definition vis_E (R : emesh) (e : nat) : list nat := seq (off (map (@length _) (eedges R)) e) (nth e (map (@length _) (eedges R)) 0).
Definition vis_X (R : emesh) (e : nat) : list nat := map (fun k => nE R + k) (seq (off (map (@length _) (xedges R)) e) (nth e (map (@length _) (xedges R)) 0)).
Definition vis (R : emesh) (nq : nat) : list nat := flat_map (fun e => vis_E R e ++ vis_X R e) (seq 0 nq).
(** first edge of each coarse edge *)
Definition keyd (R : emesh) (id : nat) : key := match key_of R id with Some k => k | None => (0, 0) end.
Definition addf (R : emesh) (O : list nat) (id : nat) : list nat := match key_of R id with None => O | Some k => if kmem k (map (keyd R) O) then O else O ++ [id] end.
Definition FI (R : emesh) (l : list nat) : list nat := fold_left (addf R) l [].

Section Visit.
  Variable R : emesh.
  Variable nq : nat.
  Hypothesis HE : edges_ok nq R.
  Notation edges := (all_edges R).
  Notation ne := (length edges).
  Notation nx := (sum (map (@length _) (xedges R))).
  Lemma ne_sum : ne = nE R + nx.
  Proof. unfold all_edges, nE. rewrite app_length, !sum_length. auto. Qed.
  Lemma vis_E_in e id : e < nq -> (In id (vis_E R e) <-> id < nE R /\ feq R id = e).
  Proof.
    intros He. unfold vis_E, feq. rewrite in_seq. assert (L : e < length (map (@length _) (eedges R))) by (rewrite map_length, (e_E _ _ HE); auto). split.
    - intros H. assert (X : id < nE R). { replace id with (off (map (@length _) (eedges R)) e + (id - off (map (@length _) (eedges R)) e)) by lia. apply off_lt; auto. lia. } split; auto. destruct (Nat.ltb_spec id (nE R)); [|lia]. now apply cls_unique.
    - intros (X & E). destruct (Nat.ltb_spec id (nE R)); [|lia]. destruct (cls_ok _ _ X) as (_ & B). rewrite E in B. lia.
  Qed.
  Lemma vis_X_in e id : e < nq -> (In id (vis_X R e) <-> nE R <= id < ne /\ feq R id = e).
  Proof.
    intros He. unfold vis_X, feq. rewrite in_map_iff. assert (L : e < length (map (@length _) (xedges R))) by (rewrite map_length, (e_X _ _ HE); auto). rewrite ne_sum. split.
    - intros (k & <- & H). apply in_seq in H. assert (X : k < nx). { replace k with (off (map (@length _) (xedges R)) e + (k - off (map (@length _) (xedges R)) e)) by lia. apply off_lt; auto. lia. } split; [lia|]. destruct (Nat.ltb_spec (nE R + k) (nE R)); [lia|]. replace (nE R + k - nE R) with k by lia. now apply cls_unique.
    - intros (X & E). destruct (Nat.ltb_spec id (nE R)); [lia|]. exists (id - nE R). split; [lia|]. apply in_seq. destruct (cls_ok (map (@length _) (xedges R)) (id - nE R) ltac:(lia)) as (_ & B). rewrite E in B. lia.
  Qed.
  Lemma feq_lt id : id < ne -> feq R id < nq.
  Proof. intros H. rewrite ne_sum in H. unfold feq. destruct (Nat.ltb_spec id (nE R)). rewrite <- (e_E _ _ HE), <- (map_length (@length _)). now apply cls_ok. rewrite <- (e_X _ _ HE), <- (map_length (@length _) (xedges R)). apply cls_ok. lia. Qed.
  Lemma vis_in id : In id (vis R nq) <-> id < ne.
  Proof.
    unfold vis. rewrite in_flat_map. split.
    - intros (e & He & H). apply in_seq in He. apply in_app_iff in H as [H|H]. apply vis_E_in in H; [|lia]. rewrite ne_sum. lia. apply vis_X_in in H; lia.
    - intros H. exists (feq R id). pose proof (feq_lt id H) as L. split. apply in_seq. lia. apply in_app_iff. destruct (Nat.lt_ge_cases id (nE R)). left. now apply vis_E_in. right. now apply vis_X_in.
  Qed.
  Definition before (i j : nat) : Prop := feq R i < feq R j \/ (feq R i = feq R j /\ i < j).
  Lemma seq_sorted n : forall s, sset (seq s n).
  Proof. induction n as [|n IH]; intros s; cbn [seq]; constructor; auto. apply Forall_forall. intros x Hx. apply in_seq in Hx. lia. Qed.
  Lemma vis_sorted : StronglySorted before (vis R nq).
  Proof.
    unfold vis. assert (G : forall n, n <= nq -> StronglySorted before (flat_map (fun e => vis_E R e ++ vis_X R e) (seq 0 n)) /\ forall id, In id (flat_map (fun e => vis_E R e ++ vis_X R e) (seq 0 n)) -> feq R id < n).
    { induction n as [|n IH]; intros Hn. { split. constructor. intros id []. } destruct (IH ltac:(lia)) as (A & B). rewrite seq_S, flat_map_app. cbn [flat_map Nat.add]. rewrite app_nil_r.
      assert (C : forall id, In id (vis_E R n ++ vis_X R n) -> feq R id = n). { intros id H. apply in_app_iff in H as [H|H]. apply vis_E_in in H; [tauto|lia]. apply vis_X_in in H; [tauto|lia]. }
      split.
      - apply ss_app; auto.
        + assert (X : sset (vis_E R n ++ vis_X R n)). { apply ss_app. apply seq_sorted. unfold vis_X. apply ss_map. apply seq_sorted. intros; lia. intros x y Hx Hy. apply vis_E_in in Hx; [|lia]. apply vis_X_in in Hy; lia. }
          revert C X. clear. induction 2 as [|x l H IH HF]; constructor. apply IH. intros; apply C; now right. rewrite Forall_forall in *. intros y Hy. right. rewrite (C x), (C y) by (cbn; auto). auto.
        + intros x y Hx Hy. left. rewrite (C y Hy). auto.
      - intros id H. apply in_app_iff in H as [H|H]. specialize (B id H). lia. rewrite (C id H). lia. }
    apply G. lia.
  Qed.
  Lemma vis_nodup : NoDup (vis R nq).
  Proof. pose proof vis_sorted as H. induction H as [|x l H IH HF]; constructor; auto. intros X. rewrite Forall_forall in HF. specialize (HF x X). unfold before in HF. lia. Qed.
  Lemma vis_split pre id suf : vis R nq = pre ++ id :: suf -> forall id', id' < ne -> ~ In id' pre -> id' = id \/ before id id'.
  Proof. intros E id' H N. apply vis_in in H. rewrite E in H. apply in_app_iff in H as [H|[H|H]]; auto. contradiction. right. pose proof vis_sorted as S1. rewrite E in S1. now apply (ss_app_inv _ _ _ _ S1). Qed.

  (** *** first edges *)
  Lemma FI_snoc l id : FI R (l ++ [id]) = addf R (FI R l) id. Proof. unfold FI. now rewrite fold_left_app. Qed.
  Lemma FI_facts l : NoDup (map (keyd R) (FI R l)) /\ (forall id, In id (FI R l) -> In id l /\ key_of R id = Some (keyd R id)) /\ (forall id k, In id l -> key_of R id = Some k -> In k (map (keyd R) (FI R l))).
  Proof.
    induction l as [|id l IH] using rev_ind. { split. constructor. split. intros ? []. intros ? ? []. }
    destruct IH as (A & B & C). rewrite FI_snoc. unfold addf. destruct (key_of R id) as [k|] eqn:EK. 2: { split; auto. split. intros i Hi. rewrite in_app_iff. split; [left|]; now apply B. intros i k Hi E. apply in_app_iff in Hi as [Hi|[->|[]]]. now apply (C i). congruence. }
    assert (KD : keyd R id = k) by (unfold keyd; now rewrite EK). destruct (kmem k (map (keyd R) (FI R l))) eqn:EM.
    - apply kmem_in in EM. split; auto. split. intros i Hi. rewrite in_app_iff. split; [left|]; now apply B. intros i k' Hi E. apply in_app_iff in Hi as [Hi|[->|[]]]. now apply (C i). congruence.
    - apply kmem_out in EM. rewrite map_app. cbn [map]. rewrite KD. split. { apply nodup_app; auto. repeat constructor. auto. intros x Hx [->|[]]. contradiction. }
      split. intros i Hi. rewrite in_app_iff. apply in_app_iff in Hi as [Hi|[->|[]]]. split; [left|]; now apply B. split. right; now left. congruence.
      intros i k' Hi E. apply in_app_iff. apply in_app_iff in Hi as [Hi|[->|[]]]. left. now apply (C i). right. left. congruence.
  Qed.
  Lemma FI_ext l l' : exists O, FI R (l ++ l') = FI R l ++ O.
  Proof.
    induction l' as [|id l' IH] using rev_ind. { exists []. now rewrite !app_nil_r. } destruct IH as (O & E). rewrite app_assoc, FI_snoc, E. unfold addf. destruct (key_of R id); [|now exists O]. destruct (kmem _ _). now exists O. exists (O ++ [id]). now rewrite app_assoc.
  Qed.
  Lemma FI_nodup l : NoDup (FI R l).
  Proof. apply (NoDup_map_inv (keyd R)). apply FI_facts. Qed.
  (** the first edge of a coarse edge comes before the others *)
  Lemma first_before id k id' : In id (FI R (vis R nq)) -> key_of R id = Some k -> key_of R id' = Some k -> id' = id \/ before id id'.
  Proof.
    intros H E E'. assert (X : forall l suf, vis R nq = l ++ suf -> In id (FI R l) -> exists pre suf', vis R nq = pre ++ id :: suf' /\ forall j, In j pre -> key_of R j <> Some k).
    { induction l as [|j l IH] using rev_ind; intros suf EV HI. destruct HI. rewrite FI_snoc in HI. rewrite <- app_assoc in EV. cbn [app] in EV. unfold addf in HI. destruct (key_of R j) as [kj|] eqn:EJ; [|now apply (IH (j :: suf))]. destruct (kmem kj (map (keyd R) (FI R l))) eqn:EM; [now apply (IH (j :: suf))|]. apply in_app_iff in HI as [HI|[->|[]]]; [now apply (IH (j :: suf))|].
      exists l, suf. split; auto. intros i Hi EI. apply kmem_out in EM. apply EM. assert (kj = k) by congruence. subst kj. destruct (FI_facts l) as (_ & _ & C). now apply (C i). }
    destruct (X (vis R nq) [] ltac:(now rewrite app_nil_r) H) as (pre & suf & EV & HP). apply (vis_split pre id suf EV). destruct (key_facts R nq HE id' k E'). auto. intros HI. now apply (HP id' HI).
  Qed.
End Visit.

(** *** the loops over the edges *)
Section Trav.
  Variable tabs : list (list (list nat)).
  Variables (me : nat) (R : emesh).
  Notation tab := (nth me tabs []).
  Notation nq := (length tab).
  Hypothesis HE : edges_ok nq R.
  Notation edges := (all_edges R).
  Notation ne := (length edges).
  Notation qv := (cls (ecv R)).
  Variable qk : key -> nat.
  Record classes_ok : Prop := {
    q_in : forall id a b, key_of R id = Some (a, b) -> qv a = qv b -> qk (a, b) = qv a;
    q_cross : forall id a b, key_of R id = Some (a, b) -> qv a <> qv b -> GetCommonEQC tab (qv a) (qv b) = Ret (Some (qk (a, b))) /\ GetCommonEQC tab (qv b) (qv a) = Ret (Some (qk (a, b)));
    q_le : forall id k, key_of R id = Some k -> feq R id <= qk k /\ qk k < nq }.
  Hypothesis HQ : classes_ok.
  Notation VIS := (vis R nq).
  Definition crossk (k : key) : bool := negb (qv (fst k) =? qv (snd k)).
  Definition call_of (id : nat) : call :=
    let k := keyd R id in {| k_id := id; k_feq := feq R id; k_ceq := qk k; k_cross := crossk k; k_v0 := fst k; k_q0 := qv (fst k); k_v1 := snd k; k_q1 := qv (snd k); k_fes := fes R (fst k) (snd k) |}.
  Lemma set_bits_ok l : forall f, (forall i, In i l -> i < ne) -> set_bits (map f (seq 0 ne)) l = Ret (map (fun i => f i || existsb (Nat.eqb i) l) (seq 0 ne)).
  Proof.
    unfold set_bits. induction l as [|i l IH]; intros f H; cbn [foldM]. { f_equal. apply map_seq_ext. intros k _. cbn. now rewrite orb_false_r. }
    rewrite wr_map_seq by (apply H; now left). cbn [bind]. rewrite IH by (intros; apply H; now right). f_equal. apply map_seq_ext. intros k _. cbn [existsb]. destruct (k =? i); cbn; auto. now rewrite orb_true_r.
  Qed.
  Section Gen.
    Context {S : Type} (check : S -> nat -> res bool) (order : bool) (lam : S -> call -> res S) (ok : key -> bool) (Inv : list nat -> S -> Prop).
    Definition calls (l : list nat) : list nat := filter (fun id => ok (keyd R id)) (FI R l).
    Hypothesis Hcheck : forall dn s id k, Inv dn s -> key_of R id = Some k -> ~ In k (map (keyd R) dn) -> check s id = Ret (ok k).
    Hypothesis Hcheck0 : forall dn s id, Inv dn s -> id < ne -> exists b, check s id = Ret b.
    Hypothesis Hord : order = true -> forall id k, In id (FI R VIS) -> key_of R id = Some k -> ok k = true -> 0 < qk k -> forall id', key_of R id' = Some k -> feq R id' = feq R id.
    Hypothesis Hlam : forall dn id rest s, Inv dn s -> calls VIS = dn ++ id :: rest -> key_of R id = Some (keyd R id) -> ok (keyd R id) = true -> exists s', lam s (call_of id) = Ret s' /\ Inv (dn ++ [id]) s'.
    Definition markf (dn : list nat) (id : nat) : bool := match key_of R id with Some k => kmem k (map (keyd R) dn) | None => false end.
    Definition st_ok (dn : list nat) (st : list bool * list bool * S) : Prop := fst (fst st) = map (markf dn) (seq 0 ne) /\ snd (fst st) = repeat false ne /\ Inv dn (snd st).
    Lemma mark_step dn id a b : key_of R id = Some (a, b) -> (forall l, incl l (fes R a b) -> incl (fes R a b) l -> map (fun i => markf dn i || existsb (Nat.eqb i) l) (seq 0 ne) = map (markf (dn ++ [id])) (seq 0 ne)).
    Proof.
      intros EK l I1 I2. destruct (key_facts R nq HE id _ EK) as (_ & L & _). cbn [fst snd] in L. apply map_seq_ext. intros i _. unfold markf. rewrite map_app. cbn [map]. replace (keyd R id) with (a, b) by (unfold keyd; now rewrite EK).
      assert (X : existsb (Nat.eqb i) l = true <-> key_of R i = Some (a, b)). { rewrite eqb_in. transitivity (In i (fes R a b)). split; auto. rewrite (fes_in R nq HE) by lia. now rewrite Nat.min_l, Nat.max_r by lia. }
      destruct (key_of R i) as [k|] eqn:EI.
      - rewrite kmem_app. f_equal. unfold kmem. cbn [existsb]. rewrite orb_false_r. destruct (key_eqb k (a, b)) eqn:EQ. apply key_iff in EQ as ->. now apply X. destruct (existsb (Nat.eqb i) l); auto. destruct X as (X & _). specialize (X eq_refl). injection X as ->. rewrite (proj2 (key_iff _ _) eq_refl) in EQ. discriminate.
      - destruct (existsb (Nat.eqb i) l); auto. destruct X as (X & _). specialize (X eq_refl). discriminate.
    Qed.
    Lemma wrap_ok pre id suf st : VIS = pre ++ id :: suf -> st_ok (calls pre) st -> exists st', wrap_edge tabs me R check order lam (feq R id) st id = Ret st' /\ st_ok (calls (pre ++ [id])) st'.
    Proof.
      intros EV ST. assert (Hid : id < ne). { apply (vis_in R nq HE). rewrite EV. apply in_app_iff. right; now left. }
      destruct st as [[mark desig] s]. unfold wrap_edge. pose proof ST as (M1 & M2 & M3). cbn [fst snd] in M1, M2, M3. subst mark desig. rewrite rd_map_seq by auto. cbn [bind].
      assert (CALLS : calls (pre ++ [id]) = match key_of R id with None => calls pre | Some k => if kmem k (map (keyd R) (FI R pre)) then calls pre else if ok k then calls pre ++ [id] else calls pre end).
      { unfold calls. rewrite FI_snoc. unfold addf. destruct (key_of R id) as [k|] eqn:EK; auto. destruct (kmem k _); auto. rewrite filter_app. cbn [filter]. replace (keyd R id) with k by (unfold keyd; now rewrite EK). destruct (ok k); auto. now rewrite app_nil_r. }
      (* the marked edges *)
      assert (MK : forall k, key_of R id = Some k -> kmem k (map (keyd R) (calls pre)) = kmem k (map (keyd R) (FI R pre)) && ok k).
      { intros k EK. apply eq_true_iff_eq. rewrite andb_true_iff, !kmem_in, !in_map_iff. unfold calls. split.
        - intros (i & E & H). apply filter_In in H as (H1 & H2). rewrite E in H2. split; auto. exists i. auto.
        - intros ((i & E & H) & O). exists i. split; auto. apply filter_In. split; auto. now rewrite E. }
      unfold markf at 1. destruct (key_of R id) as [k|] eqn:EK.
      2: { (* not mapped *)
        destruct (Hcheck0 _ s id M3 Hid) as (b & ->). cbn [bind]. assert (ST' : exists st', Ret (map (markf (calls pre)) (seq 0 ne), repeat false ne, s) = Ret st' /\ st_ok (calls (pre ++ [id])) st') by (rewrite CALLS; eauto). destruct b; cbn [negb]; auto.
        rewrite (rd_ok _ _ (0, 0)) by auto. cbn [bind]. destruct (nth_error edges id) as [[u v]|] eqn:EN; [|apply nth_error_None in EN; lia]. rewrite (nth_error_nth _ _ _ EN). cbn [fst snd]. destruct (e_in _ _ HE u v) as (U & V & _). { now apply nth_error_In in EN. }
        rewrite !(rd_ok _ _ None) by auto. cbn [bind]. unfold key_of in EK. rewrite EN in EK. unfold okey in EK. cbn [fst snd] in EK. destruct (nth u (evmap R) None) as [a|]; auto. destruct (nth v (evmap R) None) as [b|]; auto. destruct (a =? b); auto. discriminate. }
      rewrite MK by auto. destruct (kmem k (map (keyd R) (FI R pre))) eqn:EM; cbn [andb].
      { destruct (ok k) eqn:EO. { cbn [bind]. rewrite CALLS. eauto. }
        rewrite (Hcheck (calls pre) s id k) by (auto; apply kmem_out; rewrite MK by auto; now rewrite EO, andb_false_r). cbn [bind]. rewrite EO. cbn [negb]. rewrite CALLS. eauto. }
      rewrite (Hcheck (calls pre) s id k) by (auto; apply kmem_out; rewrite MK by auto; now rewrite EM). cbn [bind]. destruct (ok k) eqn:EO; cbn [negb]. 2: { rewrite CALLS. eauto. }
      assert (NI : forall j, In j pre -> key_of R j <> Some k). { intros j Hj EJ. apply kmem_out in EM. apply EM. destruct (FI_facts R pre) as (_ & _ & C). now apply (C j). }
      assert (FIid : FI R (pre ++ [id]) = FI R pre ++ [id]) by (rewrite FI_snoc; unfold addf; now rewrite EK, EM).
      assert (IF : In id (FI R VIS)). { rewrite EV. replace (pre ++ id :: suf) with ((pre ++ [id]) ++ suf) by now rewrite <- app_assoc. destruct (FI_ext R (pre ++ [id]) suf) as (O & ->). rewrite FIid. rewrite !in_app_iff. left; right; now left. }
      assert (CV : exists rest, calls VIS = calls pre ++ id :: rest). { rewrite EV. replace (pre ++ id :: suf) with ((pre ++ [id]) ++ suf) by now rewrite <- app_assoc. destruct (FI_ext R (pre ++ [id]) suf) as (O & X). exists (filter (fun id => ok (keyd R id)) O). unfold calls at 1. rewrite X, FIid, !filter_app. cbn [filter]. replace (keyd R id) with k by (unfold keyd; now rewrite EK). rewrite EO. now rewrite <- app_assoc. }
      destruct CV as (rest & CV).
      rewrite (rd_ok _ _ (0, 0)) by auto. cbn [bind]. destruct (nth_error edges id) as [[u v]|] eqn:EN; [|apply nth_error_None in EN; lia]. rewrite (nth_error_nth _ _ _ EN). cbn [fst snd]. destruct (e_in _ _ HE u v) as (U & V & _). { now apply nth_error_In in EN. }
      rewrite !(rd_ok _ _ None) by auto. cbn [bind]. assert (EK' := EK). unfold key_of in EK'. rewrite EN in EK'. unfold okey in EK'. cbn [fst snd] in EK'. destruct (nth u (evmap R) None) as [a|] eqn:EU; [|discriminate]. destruct (nth v (evmap R) None) as [b|] eqn:EB; [|discriminate]. destruct (Nat.eqb_spec a b) as [|NAB]; [discriminate|]. injection EK' as EK'.
      pose proof (e_map _ _ HE u a EU) as LA. pose proof (e_map _ _ HE v b EB) as LB. rewrite !eqc_of_vertex by auto. cbn [bind].
      assert (CEQ : (if negb (qv a =? qv b) then (o <- GetCommonEQC tab (qv a) (qv b) ;; match o with Some c => Ret c | None => Err OutOfBounds end) else Ret (qv a)) = Ret (qk k)).
      { rewrite <- EK' in EK |- *. destruct (Nat.eqb_spec (qv a) (qv b)) as [E|N]; cbn [negb].
        - f_equal. symmetry. destruct (Nat.le_ge_cases a b) as [L|L]. rewrite Nat.min_l, Nat.max_r in * by auto. now apply (q_in HQ id). rewrite Nat.min_r, Nat.max_l in * by auto. rewrite E. apply (q_in HQ id); auto.
        - destruct (Nat.le_ge_cases a b) as [L|L]. rewrite Nat.min_l, Nat.max_r in * by auto. destruct (q_cross HQ id a b EK N) as (-> & _). reflexivity. rewrite Nat.min_r, Nat.max_l in * by auto. destruct (q_cross HQ id b a EK (not_eq_sym N)) as (_ & ->). reflexivity. }
      cbv zeta. rewrite CEQ. cbn [bind]. rewrite (rd_ok _ _ false) by (rewrite repeat_length; auto). rewrite nth_repeat. cbn [bind].
      (* the designated edge is this one *)
      assert (FAB : forall l, (l = fes R a b \/ l = fes R (fst k) (snd k)) -> incl l (fes R (fst k) (snd k)) /\ incl (fes R (fst k) (snd k)) l).
      { destruct (key_facts R nq HE id k EK) as (_ & KL & _). intros l [->| ->]; [|split; apply incl_refl]. split; intros i Hi; apply (fes_in R nq HE) in Hi; try lia; apply (fes_in R nq HE); try lia; rewrite Hi; f_equal; rewrite <- EK'; cbn [fst snd]; f_equal; lia. }
      assert (FLT : forall l, (l = fes R a b \/ l = fes R (fst k) (snd k)) -> forall i, In i l -> i < ne /\ key_of R i = Some k).
      { destruct (key_facts R nq HE id k EK) as (_ & KL & _). intros l Hl i Hi. apply FAB in Hl as (I1 & _). apply I1 in Hi. apply (fes_in R nq HE) in Hi; [|lia]. rewrite Nat.min_l, Nat.max_r in Hi by lia. destruct k as [k0 k1]. cbn [fst snd] in Hi. split; auto. now destruct (key_facts R nq HE i _ Hi). }
      assert (DES : exists m, (if order && (0 <? qk k) && negb false then
               fes <- it_feids R a b ;; mark <- set_bits (map (markf (calls pre)) (seq 0 ne)) fes ;;
               ' (max_eq, spec) <- foldM (fun '(max_eq, spec) feid => eq_fe <- GetEQCOfEdge R feid ;; if eq_fe =? max_eq then Ret (max_eq, Nat.min spec feid) else leq <- IsLEQ tab max_eq eq_fe ;; if leq : bool then Ret (eq_fe, feid) else Ret (max_eq, spec)) fes (feq R id, id) ;;
               Ret (mark, max_eq, spec) else Ret (map (markf (calls pre)) (seq 0 ne), feq R id, id)) = Ret (m, feq R id, id) /\ (m = map (markf (calls pre)) (seq 0 ne) \/ m = map (markf (calls pre ++ [id])) (seq 0 ne))).
      { destruct (order && (0 <? qk k) && negb false) eqn:EC; [|eauto]. apply andb_prop in EC as (EC & _). apply andb_prop in EC as (EC1 & EC2). apply Nat.ltb_lt in EC2. rewrite (feids_ok R nq HE) by auto. cbn [bind]. rewrite set_bits_ok by (intros i Hi; now apply (FLT _ (or_introl eq_refl))). cbn [bind].
        assert (FOLD : forall l, incl l (fes R a b) -> foldM (fun '(max_eq, spec) feid => eq_fe <- GetEQCOfEdge R feid ;; if eq_fe =? max_eq then Ret (max_eq, Nat.min spec feid) else leq <- IsLEQ tab max_eq eq_fe ;; if leq : bool then Ret (eq_fe, feid) else Ret (max_eq, spec)) l (feq R id, id) = Ret (feq R id, id)).
        { induction l as [|i l IH]; intros HI; cbn [foldM]; auto. destruct (FLT _ (or_introl eq_refl) i (HI i (or_introl eq_refl))) as (I1 & I2). pose proof (Hord EC1 id k IF EK EO EC2 i I2) as I3.
          assert (EQ : GetEQCOfEdge R i = Ret (feq R i)). { unfold GetEQCOfEdge, feq. cbv zeta. unfold edisp, xdisp. rewrite disps_last. fold (nE R). destruct (Nat.ltb_spec i (nE R)). now apply eqc_of_vertex. apply eqc_of_vertex. rewrite (ne_sum R) in I1. lia. }
          rewrite EQ. cbn [bind]. rewrite I3, Nat.eqb_refl. cbn [bind]. replace (Nat.min id i) with id. apply IH. intros j Hj. apply HI. now right.
          destruct (first_before R nq HE id k i IF EK I2) as [->|[B|B]]; lia. }
        rewrite FOLD by apply incl_refl. cbn [bind]. eexists. split; [reflexivity|]. right. destruct k as [k0 k1]. apply (mark_step (calls pre) id k0 k1); auto; now apply (FAB _ (or_introl eq_refl)). }
      destruct DES as (m & -> & HM). cbn [bind]. rewrite Nat.eqb_refl. cbn [negb].
      assert (SW : (if b <? a then (b, qv b, a, qv a) else (a, qv a, b, qv b)) = (fst k, qv (fst k), snd k, qv (snd k))). { rewrite <- EK'. cbn [fst snd]. destruct (Nat.ltb_spec b a). rewrite Nat.min_r, Nat.max_l by lia. auto. rewrite Nat.min_l, Nat.max_r by lia. auto. }
      rewrite SW. destruct (key_facts R nq HE id k EK) as (_ & KL & KM). rewrite (feids_ok R nq HE) by lia. cbn [bind].
      assert (KD : keyd R id = k) by (unfold keyd; now rewrite EK).
      assert (CX : negb (qv a =? qv b) = crossk k). { unfold crossk. rewrite <- EK'. cbn [fst snd]. f_equal. destruct (Nat.le_ge_cases a b). now rewrite Nat.min_l, Nat.max_r by auto. rewrite Nat.min_r, Nat.max_l by auto. apply Nat.eqb_sym. }
      rewrite CX. destruct (Hlam (calls pre) id rest s M3 CV) as (s' & L1 & L2). congruence. now rewrite KD. unfold call_of in L1. cbv zeta in L1. rewrite KD in L1. rewrite L1. cbn [bind].
      rewrite CALLS. assert (FL := FLT _ (or_intror eq_refl)).
      assert (SB : set_bits m (fes R (fst k) (snd k)) = Ret (map (markf (calls pre ++ [id])) (seq 0 ne))).
      { destruct k as [k0 k1]. cbn [fst snd] in *. destruct HM as [->| ->]; rewrite set_bits_ok by (intros i Hi; now apply FL); f_equal. apply (mark_step (calls pre) id k0 k1); auto; apply incl_refl.
        apply map_seq_ext. intros i _. destruct (existsb (Nat.eqb i) (fes R k0 k1)) eqn:X; [|apply orb_false_r]. apply eqb_in in X. apply FL in X as (_ & X). rewrite orb_true_r. symmetry. unfold markf. rewrite X. apply kmem_in. rewrite map_app. apply in_app_iff. right. left. auto. }
      rewrite SB. cbn [bind]. eexists. split; [reflexivity|]. split; cbn [fst snd]; auto.
    Qed.
    Lemma wraps_ok suf : forall pre st, VIS = pre ++ suf -> st_ok (calls pre) st -> exists st', foldM (fun st id => wrap_edge tabs me R check order lam (feq R id) st id) suf st = Ret st' /\ st_ok (calls VIS) st'.
    Proof.
      induction suf as [|id suf IH]; intros pre st EV ST; cbn [foldM]. { rewrite app_nil_r in EV. rewrite EV. eauto. }
      destruct (wrap_ok pre id suf st EV ST) as (st1 & -> & ST1). cbn [bind]. apply (IH (pre ++ [id])); auto. rewrite EV, <- app_assoc. auto.
    Qed.
    Lemma it_es_u_ok s0 : Inv [] s0 -> exists s', it_es_u tabs me R check order lam s0 = Ret s' /\ Inv (calls VIS) s'.
    Proof.
      intros I0. unfold it_es_u. cbv zeta. set (W := fun st id => wrap_edge tabs me R check order lam (feq R id) st id).
      assert (CL : forall st e, e < nq -> (es <- GetENodes R e ;; st <- foldM (wrap_edge tabs me R check order lam e) es st ;; xs <- GetCNodes R e ;; foldM (wrap_edge tabs me R check order lam e) xs st) = foldM W (vis_E R e ++ vis_X R e) st).
      { intros st e He. unfold GetENodes, GetCNodes, edisp, xdisp. rewrite !everts_ok by (rewrite map_length; rewrite ?(e_E _ _ HE), ?(e_X _ _ HE); auto). cbn [bind]. rewrite disps_last. fold (nE R). fold (vis_E R e). fold (vis_X R e). rewrite foldM_app.
        rewrite (foldM_ext (wrap_edge tabs me R check order lam e) W (vis_E R e)). 2: { intros s id Hid. apply (vis_E_in R nq HE) in Hid; auto. unfold W. now replace (feq R id) with e by (symmetry; tauto). }
        destruct (foldM W (vis_E R e) st); cbn [bind]; auto. apply foldM_ext. intros s id Hid. apply (vis_X_in R nq HE) in Hid; auto. unfold W. now replace (feq R id) with e by (symmetry; tauto). }
      assert (ALL : forall cs : list nat, (forall e, In e cs -> e < nq) -> forall st : list bool * list bool * S, foldM (fun (st : list bool * list bool * S) (e : nat) => es <- GetENodes R e ;; st <- foldM (wrap_edge tabs me R check order lam e) es st ;; xs <- GetCNodes R e ;; foldM (wrap_edge tabs me R check order lam e) xs st) cs st = foldM W (flat_map (fun e => vis_E R e ++ vis_X R e) cs) st).
      { induction cs as [|e cs IH]; intros H st; cbn [foldM flat_map]; auto. rewrite CL by (apply H; now left). rewrite (foldM_app W (vis_E R e ++ vis_X R e) (flat_map (fun e => vis_E R e ++ vis_X R e) cs)). destruct (foldM W (vis_E R e ++ vis_X R e) st); cbn [bind]; auto. apply IH. intros; apply H; now right. }
      rewrite ALL by (intros e He; apply in_seq in He; lia). fold (vis R nq).
      destruct (wraps_ok VIS [] (repeat false ne, repeat false ne, s0) eq_refl) as (st' & E & ST).
      { split; [|split]; cbn [fst snd]; auto. rewrite repeat_seq. apply map_seq_ext. intros i _. unfold markf. cbn. destruct (key_of R i); auto. }
      fold W in E. rewrite E. cbn [bind]. destruct st' as [[m d] s']. exists s'. split; auto. apply ST.
    Qed.
  End Gen.
End Trav.
