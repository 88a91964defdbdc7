(** Proofs about the edge map of an agglomeration step, all ranks together. *)
From Verif Require Import Base ArraysModel EQCModel ReduceModel UtilProofs EQCProofs EQCProofs2 EQCProofs3 EQCProps ReduceProofs ReduceProps HybMatProofs MISProofs AggMapModel AggMapProofs AggMapProofs2 EdgeMapModel EdgeMapProofs EdgeMapProofs2 EdgeMapProofs3 EdgeMapProofs4.
Local Open Scope nat_scope.

Lemma map_nth_seq {A B} (f : A -> B) l d : map (fun i => f (nth i l d)) (seq 0 (length l)) = map f l.
Proof. induction l as [|x l IH]; auto. cbn [length seq map nth]. f_equal. rewrite <- seq_shift, map_map. exact IH. Qed.
Lemma map_filter_k {A B} (f : A -> B) (P : B -> bool) l : map f (filter (fun x => P (f x)) l) = filter P (map f l).
Proof. induction l as [|x l IH]; auto. cbn [filter map]. destruct (P (f x)); cbn [map]; congruence. Qed.
Lemma filter_flat_one {A} (P : A -> bool) (f : nat -> list A) c n : (forall e, e < n -> e <> c -> filter P (f e) = []) -> filter P (flat_map f (seq 0 n)) = if c <? n then filter P (f c) else [].
Proof.
  induction n as [|n IH]; intros H; auto. rewrite seq_S, flat_map_app, filter_app. cbn [flat_map Nat.add]. rewrite app_nil_r, IH by (intros; apply H; lia). destruct (Nat.eq_dec n c) as [->|N].
  - rewrite Nat.ltb_irrefl. destruct (Nat.ltb_spec c (S c)); [auto|lia].
  - rewrite (H n) by lia. rewrite app_nil_r. destruct (Nat.ltb_spec c n), (Nat.ltb_spec c (S n)); auto; lia.
Qed.

Section All.
  Variable tabs : list (list (list nat)).
  Hypothesis HW : world tabs.
  Notation np := (length tabs).
  Notation tab r := (nth r tabs []).
  Notation nq r := (length (tab r)).
  Notation cl r := (classes tabs r).
  Variable RS : list emesh.
  Notation Rr r := (nth r RS no_emesh).
  Notation nc r := (sum (ecv (Rr r))).
  Notation qv r := (cls (ecv (Rr r))).
  Hypothesis HI : forall r c c', r < np -> c < nq r -> c' < nq r -> In (inter (nth c (cl r) []) (nth c' (cl r) [])) (cl r).
  Hypothesis H0 : forall r, r < np -> tab r <> [] -> nth 0 (tab r) [] = [].
  Hypothesis HE : forall r, r < np -> edges_ok (nq r) (Rr r).
  Hypothesis HCV : forall r q D, r < np -> q < np -> In D (cl r) -> In D (cl q) -> nth (idx D (cl r)) (ecv (Rr r)) 0 = nth (idx D (cl q)) (ecv (Rr q)) 0.
  Definition vset (r v : nat) : list nat := nth (qv r v) (cl r) [].
  Definition kset (r : nat) (k : key) : list nat := inter (vset r (fst k)) (vset r (snd k)).
  Definition qk (r : nat) (k : key) : nat := idx (kset r k) (cl r).
  Definition gq (r c : nat) : nat := gid tabs (nth c (cl r) []).
  Notation tk r := (tupk (Rr r) (gq r)).
  Notation ck r := (crossk (Rr r)).
  Hypothesis HF : forall r id k, r < np -> key_of (Rr r) id = Some k -> incl (nth (feq (Rr r) id) (cl r) []) (kset r k).
  Definition otup (r : nat) (e : nat * nat) : option tup := option_map (tk r) (okey (Rr r) e).
  Hypothesis HSE : forall r q D, r < np -> q < np -> In D (cl r) -> In D (cl q) -> map (otup r) (nth (idx D (cl r)) (eedges (Rr r)) []) = map (otup q) (nth (idx D (cl q)) (eedges (Rr q)) []).
  Hypothesis HSX : forall r q D, r < np -> q < np -> In D (cl r) -> In D (cl q) -> map (otup r) (nth (idx D (cl r)) (xedges (Rr r)) []) = map (otup q) (nth (idx D (cl q)) (xedges (Rr q)) []).
  (** keys of a rank *)
  Definition iskey (r : nat) (k : key) : Prop := fst k < snd k /\ snd k < nc r.

  (** *** classes *)
  Lemma qvl r v : r < np -> v < nc r -> qv r v < nq r.
  Proof. intros Hr Hv. rewrite <- (e_cv _ _ (HE r Hr)). now apply cls_ok. Qed.
  Lemma vset_in r v : r < np -> v < nc r -> In (vset r v) (cl r). Proof. intros. apply cl_in. now apply qvl. Qed.
  Lemma vset_ss r v : r < np -> v < nc r -> sset (vset r v) /\ In r (vset r v). Proof. intros. destruct (class_facts tabs HW r _ H (vset_in r v H H1)) as (A & B & _). auto. Qed.
  Lemma kset_in r k : r < np -> iskey r k -> In (kset r k) (cl r).
  Proof. intros Hr (A & B). apply HI; auto; apply qvl; auto; lia. Qed.
  Lemma qk_lt r k : r < np -> iskey r k -> qk r k < nq r /\ nth (qk r k) (cl r) [] = kset r k.
  Proof. intros Hr Hk. apply idx_in. now apply kset_in. Qed.
  Lemma inter_self A : sset A -> inter A A = A.
  Proof. intros H. apply sset_ext; auto. now apply inter_sset. intros x. rewrite inter_in. tauto. Qed.
  Lemma inter_comm A B : sset A -> sset B -> inter A B = inter B A.
  Proof. intros H H'. apply sset_ext; try now apply inter_sset. intros x. rewrite !inter_in. tauto. Qed.
  Lemma key_is r id k : r < np -> key_of (Rr r) id = Some k -> iskey r k.
  Proof. intros Hr E. destruct (key_facts _ _ (HE r Hr) _ _ E) as (_ & A & B). split; auto. Qed.
  Lemma common_ok r a b : r < np -> a < nq r -> b < nq r -> GetCommonEQC (tab r) a b = Ret (Some (idx (inter (nth a (cl r) []) (nth b (cl r) [])) (cl r))).
  Proof.
    intros Hr Ha Hb. destruct (C41_common (tab r) a b) as (o & E & RO); auto. intros d Hd. now apply (w_row tabs HW r). now apply tab_nodup. rewrite E. do 2 f_equal.
    pose proof (HI r a b Hr Ha Hb) as I1. set (D := inter (nth a (cl r) []) (nth b (cl r) [])) in *. destruct (idx_in tabs r D I1) as (L & N). set (c := idx D (cl r)) in *.
    assert (RC : forall x, In x (nth c (tab r) []) <-> In x (nth a (tab r) []) /\ In x (nth b (tab r) [])).
    { intros x. rewrite !(row_idx tabs HW r) by auto. rewrite N. rewrite !in_del. unfold D. rewrite inter_in. tauto. }
    destruct o as [k|]; cbn in RO.
    - destruct RO as (Lk & RK). f_equal. apply (proj1 (NoDup_nth (tab r) []) (tab_nodup tabs HW r Hr)); auto. apply sset_ext. apply (w_row tabs HW r); auto. now apply nth_In. apply (w_row tabs HW r); auto. now apply nth_In. intros x. now rewrite RK, RC.
    - exfalso. now apply (RO c L).
  Qed.
  Lemma sub_idx r D D' : r < np -> In D (cl r) -> In D' (cl r) -> incl D D' -> idx D (cl r) <= idx D' (cl r).
  Proof.
    intros Hr HD HD' IN. destruct (idx_in tabs r D HD) as (L & N), (idx_in tabs r D' HD') as (L' & N'). destruct (Nat.le_gt_cases (idx D (cl r)) (idx D' (cl r))) as [|G]; auto. exfalso.
    pose proof (classes_sorted tabs HW r Hr) as SS. assert (LL : dps_less D' D = true). { rewrite <- N, <- N'. apply (ss_nth (fun a b => dps_less a b = true) (cl r) [] SS). rewrite cl_len. auto. }
    destruct (class_facts tabs HW r D Hr HD) as (S1 & _), (class_facts tabs HW r D' Hr HD') as (S2 & _). pose proof (NoDup_incl_length (sset_nodup _ S1) IN) as LE. assert (LE' : length D' <= length D). { unfold dps_less in LL. destruct (length D <? length D') eqn:E. discriminate. apply Nat.ltb_ge in E. auto. }
    assert (D = D'). { apply sset_ext; auto. intros x. split; auto. intros Hx. apply (NoDup_length_incl (sset_nodup _ S1) LE' IN). auto. } subst D'. lia.
  Qed.
  Lemma feq_lt' r id k : r < np -> key_of (Rr r) id = Some k -> feq (Rr r) id < nq r.
  Proof. intros Hr E. apply (feq_lt _ _ (HE r Hr)). now destruct (key_facts _ _ (HE r Hr) _ _ E). Qed.
  Lemma feq_le r id k : r < np -> key_of (Rr r) id = Some k -> feq (Rr r) id <= qk r k < nq r.
  Proof.
    intros Hr E. pose proof (key_is r id k Hr E) as IK. split; [|now apply qk_lt]. pose proof (feq_lt' r id k Hr E) as L. rewrite <- (idx_nth tabs HW r _ Hr L). apply sub_idx; [auto|now apply cl_in|now apply kset_in|now apply HF].
  Qed.
  Lemma classes_ok_all r : r < np -> EdgeMapProofs2.classes_ok tabs r (Rr r) (qk r).
  Proof.
    intros Hr. constructor.
    - intros id a b E EQ. destruct (key_is r id _ Hr E) as (A & B). cbn [fst snd] in *. unfold qk, kset. cbn [fst snd]. unfold vset at 2. rewrite <- EQ. fold (vset r a). rewrite inter_self by (apply vset_ss; auto; lia). apply idx_nth; auto. apply qvl; auto. lia.
    - intros id a b E _. destruct (key_is r id _ Hr E) as (A & B). cbn [fst snd] in *. assert (QA : qv r a < nq r) by (apply qvl; auto; lia). assert (QB : qv r b < nq r) by (apply qvl; auto). rewrite !common_ok by auto. split; auto. rewrite inter_comm. reflexivity. apply (vset_ss r b); auto. apply (vset_ss r a); auto. lia.
    - intros id k E. now apply feq_le.
  Qed.
  Lemma HGq r : r < np -> forall c, c < nq r -> GetEQCID tabs r c = Ret (gq r c). Proof. intros Hr c Hc. now apply gid_id. Qed.
  Lemma HOq r : r < np -> forall c, c < nq r -> GetEQCOfID tabs r (gq r c) = Ret (Some c). Proof. intros Hr c Hc. now apply of_id. Qed.

  (** *** coarse vertices and coarse edges across ranks *)
  Definition gv (r v : nat) : nat * nat := (gid tabs (vset r v), v - off (ecv (Rr r)) (qv r v)).
  Lemma tk_s2 r k : tk r k = s2 (gv r (fst k)) (gv r (snd k)). Proof. reflexivity. Qed.
  Lemma gid_cl r q D D' : r < np -> q < np -> In D (cl r) -> In D' (cl q) -> gid tabs D = gid tabs D' -> D = D'.
  Proof. intros Hr Hq HD HD' E. destruct (class_kind tabs HW r D Hr HD) as (m & K), (class_kind tabs HW q D' Hq HD') as (m' & K'). now apply (gid_inj tabs D D' m m'). Qed.
  Lemma gv_set r q v w : r < np -> q < np -> v < nc r -> w < nc q -> gv r v = gv q w -> vset r v = vset q w.
  Proof. intros Hr Hq Hv Hw E. unfold gv in E. injection E as E _. apply (gid_cl r q); auto; apply vset_in; auto. Qed.
  Lemma gv_inj r v w : r < np -> v < nc r -> w < nc r -> gv r v = gv r w -> v = w.
  Proof.
    intros Hr Hv Hw E. pose proof (gv_set r r v w Hr Hr Hv Hw E) as ES. assert (Q : qv r v = qv r w). { unfold vset in ES. rewrite <- (idx_nth tabs HW r (qv r v)), <- (idx_nth tabs HW r (qv r w)) by (auto; apply qvl; auto). now rewrite ES. }
    unfold gv in E. injection E as _ E. destruct (cls_ok _ _ Hv) as (_ & B), (cls_ok _ _ Hw) as (_ & B'). rewrite Q in *. lia.
  Qed.
  Lemma gv_move q r v : q < np -> r < np -> v < nc q -> In r (vset q v) -> exists w, w < nc r /\ gv r w = gv q v /\ vset r w = vset q v.
  Proof.
    intros Hq Hr Hv IR. set (D := vset q v) in *. pose proof (vset_in q v Hq Hv) as DQ. fold D in DQ. destruct (class_cons tabs HW q D r Hq DQ IR) as (_ & DR). destruct (idx_in tabs r D DR) as (L & N). destruct (cls_ok _ _ Hv) as (LQ & B). pose proof (HCV q r D Hq Hr DQ DR) as EC.
    assert (IQ : idx D (cl q) = qv q v) by (apply idx_nth; auto; apply qvl; auto). rewrite IQ in EC. rewrite EC in B. assert (LE : idx D (cl r) < length (ecv (Rr r))) by now rewrite (e_cv _ _ (HE r Hr)).
    exists (off (ecv (Rr r)) (idx D (cl r)) + (v - off (ecv (Rr q)) (qv q v))). assert (W1 : off (ecv (Rr r)) (idx D (cl r)) + (v - off (ecv (Rr q)) (qv q v)) < nc r) by (apply off_lt; auto; lia). split; auto.
    assert (W2 : qv r (off (ecv (Rr r)) (idx D (cl r)) + (v - off (ecv (Rr q)) (qv q v))) = idx D (cl r)) by (apply cls_unique; auto; lia).
    unfold gv, vset. rewrite W2, N. fold (vset q v). fold D. split; auto. f_equal. lia.
  Qed.
  Lemma tk_eq r q k k' : r < np -> q < np -> iskey r k -> iskey q k' -> tk r k = tk q k' -> kset r k = kset q k' /\ ck r k = ck q k' /\
    ((gv r (fst k) = gv q (fst k') /\ gv r (snd k) = gv q (snd k')) \/ (gv r (fst k) = gv q (snd k') /\ gv r (snd k) = gv q (fst k'))).
  Proof.
    intros Hr Hq (A & B) (A' & B') E. rewrite !tk_s2 in E. assert (L1 : fst k < nc r) by lia. assert (L1' : fst k' < nc q) by lia.
    assert (CR : forall r k, r < np -> fst k < nc r -> snd k < nc r -> ck r k = negb (list_eqb (vset r (fst k)) (vset r (snd k)))).
    { clear - HW HE. intros r k Hr H1 H2. unfold crossk. f_equal. destruct (Nat.eqb_spec (qv r (fst k)) (qv r (snd k))) as [EQ|N]; symmetry. apply leqb_iff. unfold vset. now rewrite EQ. destruct (list_eqb (vset r (fst k)) (vset r (snd k))) eqn:X; auto. apply leqb_iff in X. exfalso. apply N. unfold vset in X. rewrite <- (idx_nth tabs HW r (qv r (fst k))), <- (idx_nth tabs HW r (qv r (snd k))) by (auto; apply qvl; auto). now rewrite X. }
    rewrite !CR by auto. unfold kset. destruct (s2_inj _ _ _ _ E) as [(X & Y)|(X & Y)].
    - rewrite (gv_set r q _ _ Hr Hq L1 L1' X), (gv_set r q _ _ Hr Hq B B' Y). auto.
    - rewrite (gv_set r q _ _ Hr Hq L1 B' X), (gv_set r q _ _ Hr Hq B L1' Y). split; [|split; auto]. apply inter_comm; apply vset_ss; auto. f_equal. destruct (list_eqb (vset q (snd k')) (vset q (fst k'))) eqn:P; symmetry. apply leqb_iff. apply leqb_iff in P. auto. destruct (list_eqb (vset q (fst k')) (vset q (snd k'))) eqn:Q; auto. apply leqb_iff in Q. rewrite Q in P. assert (list_eqb (vset q (snd k')) (vset q (snd k')) = true) by now apply leqb_iff. congruence.
  Qed.
  Lemma tk_inj r k k' : r < np -> iskey r k -> iskey r k' -> tk r k = tk r k' -> k = k'.
  Proof.
    intros Hr IK IK' E. destruct (tk_eq r r k k' Hr Hr IK IK' E) as (_ & _ & X). destruct k as [a b], k' as [a' b'], IK as (A & B), IK' as (A' & B'). cbn [fst snd] in *. destruct X as [(X & Y)|(X & Y)]; apply gv_inj in X; auto; try lia; apply gv_inj in Y; auto; try lia.
  Qed.
  Lemma key_move q r k : q < np -> r < np -> iskey q k -> In r (kset q k) -> exists k', iskey r k' /\ tk r k' = tk q k /\ kset r k' = kset q k.
  Proof.
    intros Hq Hr (A & B) IR. apply inter_in in IR as (IA & IB). destruct (gv_move q r (fst k) Hq Hr ltac:(lia) IA) as (v & V1 & V2 & V3). destruct (gv_move q r (snd k) Hq Hr B IB) as (w & W1 & W2 & W3).
    assert (N : v <> w). { intros <-. rewrite V2 in W2. apply gv_inj in W2; auto; lia. }
    destruct (Nat.lt_ge_cases v w) as [L|L].
    - assert (IK : iskey r (v, w)) by (split; auto). exists (v, w). split; auto. assert (ET : tk r (v, w) = tk q k) by (rewrite !tk_s2; cbn [fst snd]; congruence). split; auto. apply tk_eq; auto. split; auto.
    - assert (IK : iskey r (w, v)) by (split; cbn; lia). exists (w, v). split; auto. assert (ET : tk r (w, v) = tk q k) by (rewrite !tk_s2; cbn [fst snd]; rewrite s2_sym; congruence). split; auto. apply tk_eq; auto. split; auto.
  Qed.

  (** *** the additional edges of a class *)
  Definition tent (q c : nat) : list tup := sort_by less_tup (map (tid (Rr q) (gq q)) (addid tabs q (Rr q) (qk q) c)).
  Definition addt (D : list nat) : list tup := merge_by less_tup tup_eqb (map (fun q => tent q (idx D (cl q))) D).
  Lemma addid_in q c id : q < np -> In id (addid tabs q (Rr q) (qk q) c) -> exists k, key_of (Rr q) id = Some k /\ keyd (Rr q) id = k /\ qk q k = c /\ feq (Rr q) id <> c.
  Proof.
    intros Hq H. unfold addid in H. apply filter_In in H as (H & S1). destruct (FI_facts (Rr q) (vis (Rr q) (nq q))) as (_ & F2 & _). destruct (F2 id H) as (_ & EK). exists (keyd (Rr q) id). unfold selA in S1. apply andb_true_iff in S1 as (S1 & S2). apply Nat.eqb_eq in S1. apply negb_true_iff, Nat.eqb_neq in S2. auto.
  Qed.
  Lemma tent_in q c t : q < np -> In t (tent q c) -> exists id k, key_of (Rr q) id = Some k /\ qk q k = c /\ feq (Rr q) id <> c /\ t = tk q k.
  Proof.
    intros Hq H. apply (Permutation_in _ (sort_by_perm less_tup _)) in H. apply in_map_iff in H as (id & <- & H). destruct (addid_in q c id Hq H) as (k & A & B & C & E). exists id, k. split; auto. split; auto. split; auto. unfold tid. now rewrite B.
  Qed.
  Lemma tent_ss q c : q < np -> StronglySorted (fun a b => less_tup a b = true) (tent q c).
  Proof.
    intros Hq. apply sort_by_ss. apply less_tup_total. unfold addid. destruct (FI_facts (Rr q) (vis (Rr q) (nq q))) as (F1 & F2 & _).
    assert (ND := FI_nodup (Rr q) (vis (Rr q) (nq q))). set (L := FI (Rr q) (vis (Rr q) (nq q))) in *. assert (G : forall l, incl l L -> NoDup l -> NoDup (map (tid (Rr q) (gq q)) l)).
    { induction l as [|x l IH]; intros IN N; cbn [map]; constructor; inversion N as [|? ? NI N']; subst.
      - intros X. apply in_map_iff in X as (y & EY & Hy). assert (x = y); [|congruence]. destruct (F2 x) as (_ & KX). apply IN; now left. destruct (F2 y) as (_ & KY). apply IN; now right. unfold tid in EY. apply tk_inj in EY; auto. 2, 3: eapply key_is; eauto.
        assert (IX : In x L) by (apply IN; now left). assert (IY : In y L) by (apply IN; now right). clear - F1 ND IX IY EY. induction L as [|z L IHL]; [destruct IX|]. cbn [map] in F1. inversion F1; inversion ND; subst. destruct IX as [->|IX], IY as [->|IY]; auto. exfalso. apply H1. rewrite <- EY. now apply in_map. exfalso. apply H1. rewrite EY. now apply in_map.
      - apply IH; auto. intros z Hz. apply IN. now right. }
    apply G. intros x Hx. apply filter_In in Hx. tauto. apply NoDup_filter. auto.
  Qed.
  Lemma tent_own q id k : q < np -> key_of (Rr q) id = Some k -> feq (Rr q) id <> qk q k -> In (tk q k) (tent q (qk q k)).
  Proof.
    intros Hq E N. destruct (FI_facts (Rr q) (vis (Rr q) (nq q))) as (_ & F2 & F3). assert (IV : In id (vis (Rr q) (nq q))). { apply (vis_in _ _ (HE q Hq)). now destruct (key_facts _ _ (HE q Hq) _ _ E). }
    pose proof (F3 id k IV E) as IK. apply in_map_iff in IK as (id0 & K0 & I0). destruct (F2 id0 I0) as (_ & E0). rewrite K0 in E0. pose proof (feq_le q id k Hq E) as B. pose proof (first_before _ _ (HE q Hq) id0 k id I0 E0 E) as FB.
    assert (L : feq (Rr q) id0 < qk q k). { destruct FB as [<-|FB]; [lia|]. unfold before in FB. lia. }
    apply (Permutation_in _ (Permutation_sym (sort_by_perm less_tup _))). apply in_map_iff. exists id0. split. unfold tid. now rewrite K0. unfold addid. apply filter_In. split; auto. unfold selA. rewrite K0, Nat.eqb_refl. cbn [andb]. apply negb_true_iff, Nat.eqb_neq. lia.
  Qed.
  Lemma addt_ss D : (forall q, In q D -> q < np) -> StronglySorted (fun a b => less_tup a b = true) (addt D) /\ forall t, In t (addt D) <-> exists q, In q D /\ In t (tent q (idx D (cl q))).
  Proof.
    intros HD. destruct (merge_by_ok less_tup tup_eqb less_tup_total tup_eqb_iff (map (fun q => tent q (idx D (cl q))) D)) as (A & B).
    - intros r Hr. apply in_map_iff in Hr as (q & <- & Hq). apply tent_ss. auto.
    - split; auto. intros t. unfold addt. rewrite B. split. intros (r & Hr & Ht). apply in_map_iff in Hr as (q & <- & Hq). eauto. intros (q & Hq & Ht). exists (tent q (idx D (cl q))). split; auto. apply in_map_iff. eauto.
  Qed.
  (** a tuple of class D on rank r of D *)
  Lemma addt_src D t r : r < np -> In D (cl r) -> In t (addt D) -> exists q id k, In q D /\ q < np /\ key_of (Rr q) id = Some k /\ kset q k = D /\ feq (Rr q) id <> qk q k /\ t = tk q k /\ exists k', iskey r k' /\ tk r k' = t /\ kset r k' = D.
  Proof.
    intros Hr HD Ht. destruct (class_facts tabs HW r D Hr HD) as (S1 & IR & _ & BD). apply addt_ss in Ht as (q & IQ & Ht); auto. pose proof (BD q IQ) as Hq. destruct (class_cons tabs HW r D q Hr HD IQ) as (_ & DQ). destruct (tent_in q _ t Hq Ht) as (id & k & E & QK & NF & ->).
    pose proof (key_is q id k Hq E) as IK. assert (KD : kset q k = D). { destruct (qk_lt q k Hq IK) as (_ & X). rewrite <- X, QK. now apply (idx_in tabs q D). }
    exists q, id, k. split; auto. split; auto. split; auto. split; auto. split; [congruence|]. split; auto. rewrite <- KD in IR. destruct (key_move q r k Hq Hr IK IR) as (k' & A & B & C). exists k'. split; auto. split; auto. congruence.
  Qed.
  Definition inv (r : nat) (t : tup) : key := match tup_verts tabs r (Rr r) t with Ret (v0, v1) => (Nat.min v0 v1, Nat.max v0 v1) | Err _ => (0, 0) end.
  Lemma inv_ok r k : r < np -> iskey r k -> inv r (tk r k) = k /\ is_cross (tk r k) = ck r k.
  Proof.
    intros Hr (A & B). destruct (tupk_verts tabs r (Rr r) (HE r Hr) (gq r) (HOq r Hr) k A B) as (v0 & v1 & E & X & C). split; auto. unfold inv. rewrite E. destruct k as [a b]. cbn [fst snd] in *. destruct X as [X|X]; injection X as <- <-; f_equal; lia.
  Qed.
  Definition ake (r c : nat) : list key := map (inv r) (filter (fun t => negb (is_cross t)) (addt (nth c (cl r) []))).
  Definition akx (r c : nat) : list key := map (inv r) (filter is_cross (addt (nth c (cl r) []))).
  Lemma addt_big r c : ~ c < nq r -> addt (nth c (cl r) []) = [].
  Proof. intros H. rewrite nth_overflow by (rewrite cl_len; lia). reflexivity. Qed.
  Lemma ake_src r c k : r < np -> c < nq r -> In k (ake r c ++ akx r c) -> iskey r k /\ qk r k = c /\ kset r k = nth c (cl r) [] /\ In (tk r k) (addt (nth c (cl r) [])).
  Proof.
    intros Hr Hc H. assert (ET : exists t, In t (addt (nth c (cl r) [])) /\ k = inv r t). { apply in_app_or in H as [H|H]; apply in_map_iff in H as (t & <- & Ht); apply filter_In in Ht as (Ht & _); eauto. }
    destruct ET as (t & Ht & ->). destruct (addt_src _ t r Hr (cl_in tabs r c Hc) Ht) as (q & id & k & _ & _ & _ & _ & _ & _ & k' & A & B & C). rewrite <- B. destruct (inv_ok r k' Hr A) as (-> & _). split; auto. split; [|split; auto]. unfold qk. rewrite C. now apply idx_nth. now rewrite B.
  Qed.
  Lemma ake_in r c k : r < np -> c < nq r -> iskey r k -> In (tk r k) (addt (nth c (cl r) [])) -> In k (ake r c ++ akx r c).
  Proof.
    intros Hr Hc IK H. destruct (inv_ok r k Hr IK) as (I1 & _). apply in_or_app. destruct (is_cross (tk r k)) eqn:E.
    - right. apply in_map_iff. exists (tk r k). split; auto. apply filter_In. auto.
    - left. apply in_map_iff. exists (tk r k). split; auto. apply filter_In. split; auto. now rewrite E.
  Qed.
  Lemma tk_inv r c t : r < np -> c < nq r -> In t (addt (nth c (cl r) [])) -> tk r (inv r t) = t /\ ck r (inv r t) = is_cross t.
  Proof.
    intros Hr Hc Ht. destruct (addt_src _ t r Hr (cl_in tabs r c Hc) Ht) as (q & id & k & _ & _ & _ & _ & _ & _ & k' & A & B & C). destruct (inv_ok r k' Hr A) as (I1 & I2). rewrite B in I1, I2. rewrite I1. auto.
  Qed.
  Lemma map_tk r c l : r < np -> c < nq r -> incl l (addt (nth c (cl r) [])) -> map (tk r) (map (inv r) l) = l.
  Proof. intros Hr Hc. induction l as [|t l IH]; intros IN; auto. cbn [map]. rewrite IH by (intros x Hx; apply IN; now right). f_equal. apply (tk_inv r c); auto. apply IN. now left. Qed.
  Lemma row_addt r c : r < np -> c < nq r -> map (tk r) (ake r c ++ akx r c) = addt (nth c (cl r) []).
  Proof.
    intros Hr Hc. rewrite map_app. unfold ake, akx. rewrite !(map_tk r c); auto. symmetry. apply split_cross. apply addt_ss. destruct (class_facts tabs HW r _ Hr (cl_in tabs r c Hc)) as (_ & _ & _ & B). auto. intros x Hx. apply filter_In in Hx. tauto. intros x Hx. apply filter_In in Hx. tauto.
  Qed.
  Lemma adds_ok_all r : r < np -> adds_ok tabs r (Rr r) (qk r) (ake r) (akx r).
  Proof.
    intros Hr. assert (BD : forall c, c < nq r -> forall q, In q (nth c (cl r) []) -> q < np). { intros c Hc. destruct (class_facts tabs HW r _ Hr (cl_in tabs r c Hc)) as (_ & _ & _ & B). auto. }
    assert (CC : forall (c : nat) (b : bool) (k : key), In k (map (inv r) (filter (fun t => if b then is_cross t else negb (is_cross t)) (addt (nth c (cl r) [])))) -> ck r k = b).
    { intros c b k H. destruct (Nat.lt_ge_cases c (nq r)) as [Hc|Hc]; [|rewrite addt_big in H by lia; destruct H]. apply in_map_iff in H as (t & <- & Ht). apply filter_In in Ht as (Ht & E). destruct (tk_inv r c t Hr Hc Ht) as (_ & ->). destruct b; auto. now apply negb_true_iff. }
    constructor.
    - intros c k H. now apply (CC c false).
    - intros c k H. now apply (CC c true).
    - intros c k Hc H. destruct (ake_src r c k Hr Hc H) as ((A & B) & C & _). auto.
    - intros c Hc. apply (NoDup_map_inv (tk r)). rewrite row_addt by auto. apply (ss_nodup less_tup). apply less_tup_total. apply addt_ss. exact (BD c Hc).
    - unfold ake, akx. destruct (Nat.lt_ge_cases 0 (nq r)) as [Hc|Hc]; [|rewrite addt_big by lia; reflexivity]. replace (addt (nth 0 (cl r) [])) with (@nil tup); auto. symmetry. destruct (addt (nth 0 (cl r) [])) as [|t l] eqn:E; auto. exfalso.
      assert (Ht : In t (addt (nth 0 (cl r) []))) by (rewrite E; now left). destruct (addt_src _ t r Hr (cl_in tabs r 0 Hc) Ht) as (q & id & k & IQ & Hq & EK & KD & NF & _). assert (T0 : nth 0 (tab r) [] = []). { apply H0; auto. intros X. rewrite X in Hc. cbn in Hc. lia. }
      assert (QR : q = r). { rewrite cl_nth in IQ by auto. rewrite T0 in IQ. apply in_members in IQ as [|[]]. auto. } clear IQ Hq. subst q. assert (QZ : qk r k = 0) by (unfold qk; rewrite KD; now apply idx_nth). pose proof (feq_le r id k Hr EK). lia.
    - intros id k E NF. pose proof (key_is r id k Hr E) as IK. destruct (qk_lt r k Hr IK) as (Hc & ND). apply ake_in; auto. apply addt_ss. exact (BD _ Hc). exists r. split. destruct (class_facts tabs HW r _ Hr (cl_in tabs r _ Hc)) as (_ & B & _). auto. rewrite idx_nth by auto. now apply (tent_own r id).
  Qed.

  (** *** the reduction *)
  Lemma scl r e q e' : r < np -> q < np -> e < nq r -> e' < nq q -> (same_class r (nth e (tab r) []) q (nth e' (tab q) []) <-> nth e (cl r) [] = nth e' (cl q) []).
  Proof. intros Hr Hq He He'. rewrite same_members. rewrite !cl_nth by auto. reflexivity. apply (w_row tabs HW r); auto. now apply nth_In. apply (w_row tabs HW q); auto. now apply nth_In. Qed.
  Definition tents : list (list (list tup)) := map (fun r => map (tent r) (seq 0 (nq r))) (seq 0 np).
  Lemma tents_nth r : r < np -> nth r tents [] = map (tent r) (seq 0 (nq r)).
  Proof. intros Hr. unfold tents. rewrite (nth_indep _ [] (map (tent 0) (seq 0 (nq 0)))) by (rewrite map_length, seq_length; auto). rewrite (map_nth (fun r => map (tent r) (seq 0 (nq r)))), seq_nth by auto. reflexivity. Qed.
  Lemma tents_nth2 r c : r < np -> c < nq r -> nth c (nth r tents []) [] = tent r c.
  Proof. intros Hr Hc. rewrite tents_nth by auto. rewrite (nth_indep _ [] (tent r 0)) by (rewrite map_length, seq_length; auto). rewrite map_nth, seq_nth by auto. reflexivity. Qed.
  Lemma reduced : ReduceTable tabs tents (fun _ _ rows => merge_by less_tup tup_eqb rows) = Ret (map (fun r => map addt (cl r)) (seq 0 np)).
  Proof.
    destruct (reduce_world tabs HW tup tup tents (fun _ _ rows => merge_by less_tup tup_eqb rows)) as (out & EO & LO & LR & HO).
    - unfold tents. now rewrite map_length, seq_length.
    - intros r Hr. rewrite tents_nth by auto. now rewrite map_length, seq_length.
    - rewrite EO. f_equal. apply nth_ext with (d := []) (d' := map addt (cl 0)). rewrite map_length, seq_length. auto. rewrite LO. intros r Hr. rewrite (map_nth (fun r => map addt (cl r))), seq_nth by auto. cbn [Nat.add].
      apply nth_ext with (d := []) (d' := addt []). rewrite map_length, cl_len. auto. rewrite LR by auto. intros k Hk. rewrite (map_nth addt). destruct (HO r k Hr Hk) as (m & km & rows & Hm & Hkm & SC & MM & -> & LN & RW). apply scl in SC; auto. unfold addt. f_equal.
      set (D := nth k (cl r) []) in *. assert (HD : In D (cl r)) by now apply cl_in. destruct (class_facts tabs HW r D Hr HD) as (SD & _ & _ & BD). destruct (w_row tabs HW m (nth km (tab m) []) Hm (nth_In _ _ Hkm)) as (S1 & N1 & _). set (d := nth km (tab m) []) in *.
      assert (SM : sset (m :: d)) by (constructor; auto; apply Forall_forall; auto). assert (ED : D = m :: d). { apply sset_ext; auto. intros x. rewrite <- SC, cl_nth by auto. fold d. rewrite in_members. cbn. intuition. }
      apply nth_ext with (d := []) (d' := tent 0 (idx D (cl 0))). rewrite map_length, ED. auto. intros i Li. rewrite (map_nth (fun q => tent q (idx D (cl q)))). assert (Li' : i < length D) by (rewrite ED; cbn [length]; lia). set (q := nth i D 0). assert (IQ : In q D) by now apply nth_In. pose proof (BD q IQ) as Hq. destruct (class_cons tabs HW r D q Hr HD IQ) as (_ & DQ). destruct (idx_in tabs q D DQ) as (L1 & N2).
      assert (PQ : position q m d = i). { unfold position. rewrite <- ED. rewrite position_pos by auto. destruct (pos_of_in q D 0 IQ) as (P1 & P2). apply (proj1 (NoDup_nth D 0) (sset_nodup _ SD)); auto. }
      rewrite <- (tents_nth2 q) by auto. rewrite <- PQ. apply RW; auto. apply scl; auto.
  Qed.
  Notation pkr r := (pk tabs r (Rr r) (qk r) (ake r) (akx r)).
  Notation CEr r := (CE tabs r (Rr r) (qk r) (ake r) (akx r)).
  Notation nsEr r := (nsE tabs r (Rr r) (qk r) (ake r) (akx r)).
  Notation nsXr r := (nsX tabs r (Rr r) (qk r) (ake r) (akx r)).
  Notation sgE r := (segE tabs r (Rr r) (qk r) (ake r) (akx r)).
  Notation sgX r := (segX tabs r (Rr r) (qk r) (ake r) (akx r)).
  Theorem MapEdges_ok r : r < np -> MapEdges tabs RS r = Ret (map (fun id => option_map (pkr r) (key_of (Rr r) id)) (seq 0 (length (all_edges (Rr r)))), map Some (CEr r), nsEr r, nsXr r).
  Proof.
    intros Hr. unfold MapEdges. assert (EQ : mapM (fun r => x <- rounds12 tabs r (Rr r) ;; Ret (snd x)) (seq 0 np) = Ret tents).
    { apply mapM_map. intros q Hq. apply in_seq in Hq. rewrite (rounds12_ok tabs q (Rr q) (HE q ltac:(lia)) (qk q) (classes_ok_all q ltac:(lia)) (gq q) (HGq q ltac:(lia))). reflexivity. }
    rewrite EQ. cbn [bind]. rewrite reduced. cbn [bind]. rewrite (rounds12_ok tabs r (Rr r) (HE r Hr) (qk r) (classes_ok_all r Hr) (gq r) (HGq r Hr)). cbn [bind]. rewrite rd_map_seq by auto. cbn [bind].
    rewrite <- (finish_ok tabs r (Rr r) (HE r Hr) (qk r) (classes_ok_all r Hr) (gq r) (HGq r Hr) (HOq r Hr) (ake r) (akx r) (adds_ok_all r Hr)). f_equal. rewrite <- (map_nth_seq addt (cl r) []). rewrite cl_len. apply map_ext_in. intros c Hc. apply in_seq in Hc. symmetry. apply row_addt; auto. lia.
  Qed.

  (** *** agreement of the ranks *)
  Definition psel (r c : nat) (cr : bool) (k : key) : bool := (qk r k =? c) && (if cr then ck r k else negb (ck r k)) && negb (kmem k (allk tabs r (ake r) (akx r))).
  Definition ckeys (r c : nat) : list key := keys (Rr r) (vis_E (Rr r) c ++ vis_X (Rr r) c).
  Lemma psel_feq r c cr id k : r < np -> key_of (Rr r) id = Some k -> psel r c cr k = true -> feq (Rr r) id = c.
  Proof.
    intros Hr E P. unfold psel in P. apply andb_true_iff in P as (P & P2). apply andb_true_iff in P as (P & _). apply Nat.eqb_eq in P. apply negb_true_iff, kmem_out in P2. destruct (Nat.eq_dec (feq (Rr r) id) c) as [|N]; auto. exfalso. apply P2. apply (allk_in _ _ _ _ _ _ (adds_ok_all r Hr)). split. apply qk_lt; auto. now apply (key_is r id). apply (ad_own _ _ _ _ _ _ (adds_ok_all r Hr) id); auto. congruence.
  Qed.
  Lemma rest_dedup r c cr : r < np -> c < nq r -> map (keyd (Rr r)) (filter (fun id => psel r c cr (keyd (Rr r) id)) (FI (Rr r) (vis (Rr r) (nq r)))) = dedup key_eqb (filter (psel r c cr) (ckeys r c)).
  Proof.
    intros Hr Hc. rewrite map_filter_k, FI_dedup, (dedup_filter _ key_iff). f_equal. assert (FM : forall l, keys (Rr r) (flat_map (fun e => vis_E (Rr r) e ++ vis_X (Rr r) e) l) = flat_map (ckeys r) l). { induction l as [|e l IH]; auto. cbn [flat_map]. rewrite keys_app, IH. auto. }
    unfold vis. rewrite FM. rewrite (filter_flat_one _ _ c). destruct (Nat.ltb_spec c (nq r)); auto; lia.
    intros e He N. apply filter_none. intros k Hk. apply keys_in in Hk as (id & Hid & E). destruct (psel r c cr k) eqn:P; auto. exfalso. apply (psel_feq r c cr id k Hr E) in P. apply in_app_or in Hid as [Hid|Hid]. apply (vis_E_in _ _ (HE r Hr)) in Hid; auto. destruct Hid. congruence. apply (vis_X_in _ _ (HE r Hr)) in Hid; auto. destruct Hid. congruence.
  Qed.
  Lemma ckeys_eq r q D : r < np -> q < np -> In D (cl r) -> In D (cl q) -> map (tk r) (ckeys r (idx D (cl r))) = map (tk q) (ckeys q (idx D (cl q))).
  Proof.
    intros Hr Hq HD HD'. destruct (idx_in tabs r D HD) as (L & _), (idx_in tabs q D HD') as (L' & _). unfold ckeys. rewrite !keys_app, !map_app. rewrite (keys_E _ _ (HE r Hr)), (keys_E _ _ (HE q Hq)), (keys_X _ _ (HE r Hr)), (keys_X _ _ (HE q Hq)) by auto. rewrite !(olist_map _ (okey _)).
    assert (X := HSE r q D Hr Hq HD HD'). assert (Y := HSX r q D Hr Hq HD HD'). unfold otup in X, Y. unfold key in *. f_equal; [exact (f_equal _ X)|exact (f_equal _ Y)].
  Qed.
  Lemma ckeys_key r c k : r < np -> In k (ckeys r c) -> iskey r k.
  Proof. intros Hr H. apply keys_in in H as (id & _ & E). now apply (key_is r id). Qed.
  Lemma qk_eqb r k D : r < np -> iskey r k -> In D (cl r) -> (qk r k =? idx D (cl r)) = list_eqb (kset r k) D.
  Proof.
    intros Hr IK HD. pose proof (kset_in r k Hr IK) as KI. apply eq_true_iff_eq. rewrite Nat.eqb_eq, leqb_iff. unfold qk. split; [|congruence]. intros E. destruct (idx_in tabs r _ KI) as (_ & A), (idx_in tabs r D HD) as (_ & B). congruence.
  Qed.
  Lemma allk_addt r k D : r < np -> iskey r k -> In D (cl r) -> kset r k = D -> (kmem k (allk tabs r (ake r) (akx r)) = true <-> In (tk r k) (addt D)).
  Proof.
    intros Hr IK HD KD. rewrite kmem_in, (allk_in _ _ _ _ _ _ (adds_ok_all r Hr)). destruct (qk_lt r k Hr IK) as (L & N). rewrite KD in N. split.
    - intros (_ & H). destruct (ake_src r _ k Hr L H) as (_ & _ & _ & X). now rewrite N in X.
    - intros H. split; auto. apply ake_in; auto. now rewrite N.
  Qed.
  Lemma psel_eq r q D cr k k' : r < np -> q < np -> In D (cl r) -> In D (cl q) -> iskey r k -> iskey q k' -> tk r k = tk q k' -> psel r (idx D (cl r)) cr k = psel q (idx D (cl q)) cr k'.
  Proof.
    intros Hr Hq HD HD' IK IK' E. destruct (tk_eq r q k k' Hr Hq IK IK' E) as (KS & CK & _). unfold psel. rewrite !qk_eqb by auto. rewrite KS, CK. destruct (list_eqb (kset q k') D) eqn:EQ; auto. apply leqb_iff in EQ. cbn [andb]. f_equal. f_equal. apply eq_true_iff_eq. rewrite (allk_addt r k D), (allk_addt q k' D) by (auto; congruence). now rewrite E.
  Qed.
  Lemma rest_eq r q D cr : r < np -> q < np -> In D (cl r) -> In D (cl q) ->
    map (tk r) (dedup key_eqb (filter (psel r (idx D (cl r)) cr) (ckeys r (idx D (cl r))))) = map (tk q) (dedup key_eqb (filter (psel q (idx D (cl q)) cr) (ckeys q (idx D (cl q))))).
  Proof.
    intros Hr Hq HD HD'. rewrite !(dedup_map key_eqb tup_eqb _ _ key_iff tup_eqb_iff).
    - f_equal. apply map_filter2. now apply ckeys_eq. intros x y Hx Hy E. apply psel_eq; auto; eapply ckeys_key; eauto.
    - intros x y Hx Hy. apply filter_In in Hx as (Hx & _), Hy as (Hy & _). apply tk_inj; auto; eapply ckeys_key; eauto.
    - intros x y Hx Hy. apply filter_In in Hx as (Hx & _), Hy as (Hy & _). apply tk_inj; auto; eapply ckeys_key; eauto.
  Qed.
  Lemma segE_eq r q D : r < np -> q < np -> In D (cl r) -> In D (cl q) -> map (tk r) (sgE r (idx D (cl r))) = map (tk q) (sgE q (idx D (cl q))).
  Proof.
    intros Hr Hq HD HD'. destruct (idx_in tabs r D HD) as (L & N), (idx_in tabs q D HD') as (L' & N'). unfold segE. rewrite !map_app. f_equal.
    - pose proof (rest_eq r q D false Hr Hq HD HD') as X. rewrite <- !rest_dedup in X by auto. exact X.
    - unfold ake. rewrite (map_tk r (idx D (cl r))), (map_tk q (idx D (cl q))); auto. now rewrite N, N'. intros x Hx. apply filter_In in Hx. tauto. intros x Hx. apply filter_In in Hx. tauto.
  Qed.
  Lemma segX_eq r q D : r < np -> q < np -> In D (cl r) -> In D (cl q) -> map (tk r) (sgX r (idx D (cl r))) = map (tk q) (sgX q (idx D (cl q))).
  Proof.
    intros Hr Hq HD HD'. destruct (idx_in tabs r D HD) as (L & N), (idx_in tabs q D HD') as (L' & N'). unfold segX. rewrite !map_app. f_equal.
    - pose proof (rest_eq r q D true Hr Hq HD HD') as X. rewrite <- !rest_dedup in X by auto. exact X.
    - unfold akx. rewrite (map_tk r (idx D (cl r))), (map_tk q (idx D (cl q))); auto. now rewrite N, N'. intros x Hx. apply filter_In in Hx. tauto. intros x Hx. apply filter_In in Hx. tauto.
  Qed.
End All.
