(** Proofs about DccModel. *)
From Verif Require Import Base AGroup LinAlg EQCModel ReduceModel NetModel DccModel UtilProofs EQCProofs EQCProofs2 ReduceProofs EQCProps ReduceProps NetProofs.
Local Open Scope nat_scope.

(** *** which dofs are exchanged *)
Section World.
  Variables (dps : list (list (list nat))) (key : nat -> nat -> nat).
  Hypothesis RM : rows_match dps dps key.
  Notation np := (nranks dps).
  Notation nd r := (ndof dps r).
  Notation dp r k := (dproc dps r k).
  Lemma rHR r k : r < np -> k < nd r -> sset (dp r k) /\ ~ In r (dp r k) /\ forall q, In q (dp r k) -> q < np.
  Proof. apply (rm_row _ _ _ RM). Qed.
  Lemma rHI r k k' : r < np -> k < nd r -> k' < nd r -> key r k = key r k' -> k = k'.
  Proof. apply (rm_inj _ _ _ RM). Qed.
  Lemma rHK r k q : r < np -> k < nd r -> In q (dp r k) -> exists k', k' < nd q /\ key q k' = key r k.
  Proof. apply (rm_known _ _ _ RM). Qed.
  Lemma rHS r k q k' : r < np -> k < nd r -> q < np -> k' < nd q -> key r k = key q k' -> members r (dp r k) = members q (dp q k').
  Proof. intros. apply same_members; try (now apply rHR). now apply (rm_same _ _ _ RM). Qed.
  Lemma rHO r q i j i' j' : r < np -> q < np -> i < nd r -> j < nd r -> i' < nd q -> j' < nd q -> key r i = key q i' -> key r j = key q j' -> i < j -> i' < j'.
  Proof. apply (rm_order _ _ _ RM). Qed.

  Lemma master_owner r k : r < np -> k < nd r -> is_master dps r k = owner dps r k.
  Proof.
    intros Hr Hk. destruct (rHR r k Hr Hk) as (_ & N & _). unfold is_master, owner. change (ReduceModel.dp dps r k) with (dp r k). destruct (dp r k) as [|d0 d]; auto.
    assert (d0 <> r) by (intros ->; apply N; now left). destruct (Nat.ltb_spec d0 r), (Nat.ltb_spec r d0); auto; lia.
  Qed.
  Lemma master_spec r k : r < np -> k < nd r -> (is_master dps r k = true <-> forall x, In x (dp r k) -> r < x).
  Proof. intros Hr Hk. rewrite master_owner by auto. apply (owner_spec dps dps); auto. apply rHR. Qed.
  Lemma g_ex_eq r p : r < np -> p <> r -> g_ex dps r p = master_of_rows dps dps r p.
  Proof.
    intros Hr Hp. unfold g_ex, master_of_rows. apply filter_ext_in. intros k Hk. apply in_seq in Hk. assert (Hk' : k < nd r) by exact (proj2 Hk). destruct (rHR r k Hr Hk') as (_ & N & _). unfold is_master. change (ReduceModel.dp dps r k) with (dp r k). destruct (dp r k) as [|d0 d].
    - cbn. destruct (Nat.eqb_spec p r); [congruence|reflexivity].
    - assert (d0 <> r) by (intros ->; apply N; now left). rewrite negb_involutive. destruct (Nat.ltb_spec d0 r), (Nat.ltb_spec r d0); cbn; auto; try lia. destruct (Nat.eqb_spec p r); [congruence|reflexivity].
  Qed.
  Lemma m_ex_eq r p : r < np -> m_ex dps r p = slave_of_rows dps dps r p.
  Proof.
    intros Hr. unfold m_ex, slave_of_rows. apply filter_ext_in. intros k Hk. apply in_seq in Hk. assert (Hk' : k < nd r) by exact (proj2 Hk). destruct (rHR r k Hr Hk') as (_ & N & _). unfold is_master. change (ReduceModel.dp dps r k) with (dp r k). destruct (dp r k) as [|d0 d]; auto.
    assert (d0 <> r) by (intros ->; apply N; now left). destruct (Nat.ltb_spec d0 r), (Nat.ltb_spec r d0); cbn; auto; lia.
  Qed.
  Lemma in_g r p k : r < np -> (In k (g_ex dps r p) <-> k < nd r /\ is_master dps r k = false /\ exists d, dp r k = p :: d).
  Proof.
    intros Hr. unfold g_ex. rewrite filter_In, in_seq, andb_true_iff, negb_true_iff. split.
    - intros (H1 & H2 & H3). split; [lia|]. split; auto. destruct (dp r k) as [|d0 d]; [discriminate|]. apply Nat.eqb_eq in H3. subst. eauto.
    - intros (H1 & H2 & d & ->). rewrite Nat.eqb_refl. split; [lia|]. auto.
  Qed.
  Lemma in_m r p k : In k (m_ex dps r p) <-> k < nd r /\ is_master dps r k = true /\ In p (dp r k).
  Proof. unfold m_ex. rewrite filter_In, in_seq, andb_true_iff, has_in. intuition lia. Qed.
  Lemma g_nodup r p : NoDup (g_ex dps r p). Proof. apply NoDup_filter, seq_NoDup. Qed.
  Lemma m_nodup r p : NoDup (m_ex dps r p). Proof. apply NoDup_filter, seq_NoDup. Qed.
  Lemma g_lt r p k : r < np -> In k (g_ex dps r p) -> p < r.
  Proof.
    intros Hr H. apply in_g in H as (H1 & H2 & d & E); auto. unfold is_master in H2. rewrite E in H2. apply negb_false_iff, Nat.ltb_lt in H2. auto.
  Qed.
  Lemma m_gt r p k : r < np -> In k (m_ex dps r p) -> r < p /\ p < np.
  Proof. intros Hr H. apply in_m in H as (H1 & H2 & H3). split; [apply (proj1 (master_spec r k Hr H1) H2 p H3)|]. now apply (rHR r k). Qed.
  (** both sides list the same dofs in the same order *)
  Lemma ex_corr m q : m < np -> q < np -> map (key m) (m_ex dps m q) = map (key q) (g_ex dps q m).
  Proof.
    intros Hm Hq. destruct (Nat.lt_ge_cases m q) as [LT|GE].
    - rewrite m_ex_eq, g_ex_eq by (auto; lia). exact (corr dps dps (fun _ _ _ => @nil nat) key rHR rHI rHK rHS rHO m q LT Hq).
    - replace (m_ex dps m q) with (@nil nat). 2:{ destruct (m_ex dps m q) as [|k l] eqn:E; auto. destruct (m_gt m q k Hm); [rewrite E; now left|lia]. }
      replace (g_ex dps q m) with (@nil nat); auto. destruct (g_ex dps q m) as [|k l] eqn:E; auto. pose proof (g_lt q m k Hq). rewrite E in H. specialize (H (or_introl eq_refl)). lia.
  Qed.
  Lemma ex_len m q : m < np -> q < np -> length (m_ex dps m q) = length (g_ex dps q m).
  Proof. intros A B. pose proof (f_equal (@length nat) (ex_corr m q A B)) as X. now rewrite !map_length in X. Qed.
  Lemma ex_nth m q t : m < np -> q < np -> t < length (m_ex dps m q) -> key m (nth t (m_ex dps m q) 0) = key q (nth t (g_ex dps q m) 0).
  Proof.
    intros A B C. pose proof (f_equal (fun l => nth t l 0) (ex_corr m q A B)) as X. cbv beta in X. rewrite (nth_indep (map (key m) _) 0 (key m 0)) in X by now rewrite map_length. rewrite (nth_indep (map (key q) _) 0 (key q 0)) in X by (rewrite map_length, <- ex_len; auto). now rewrite !map_nth in X.
  Qed.
  Lemma req_match k r q : r < np -> q < np -> dcc_sends dps k r q = dcc_recvs dps k q r.
  Proof. intros Hr Hq. destruct k; cbn; f_equal; rewrite ex_len; auto. Qed.
  (** every dof has exactly one master *)
  Lemma home r k : r < np -> k < nd r -> exists m km, m < np /\ km < nd m /\ key m km = key r k /\ is_master dps m km = true.
  Proof.
    intros Hr Hk. destruct (is_master dps r k) eqn:EM. { exists r, k. auto. } destruct (rHR r k Hr Hk) as (S1 & N1 & L1). destruct (dp r k) as [|m d] eqn:ED. { unfold is_master in EM. rewrite ED in EM. discriminate. }
    destruct (rHK r k m Hr Hk) as (km & K1 & K2). { rewrite ED. now left. } assert (Lm : m < np) by (apply L1; now left). exists m, km. split; auto. split; auto. split; auto.
    apply master_spec; auto. intros x Hx. pose proof (rHS r k m km Hr Hk Lm K1 (eq_sym K2)) as E. rewrite ED in E. assert (Y : In x (members r (m :: d))) by (rewrite E; apply in_members; auto).
    assert (NM : ~ In m (dp m km)) by now apply rHR. assert (LT : m < r). { unfold is_master in EM. rewrite ED in EM. apply negb_false_iff, Nat.ltb_lt in EM. auto. }
    apply in_members in Y as [->|Y]; auto. pose proof (sset_hd d x m S1 Y). enough (x <> m) by lia. intros ->. contradiction.
  Qed.
  Lemma home_unique m km q kq : m < np -> km < nd m -> is_master dps m km = true -> q < np -> kq < nd q -> is_master dps q kq = true -> key m km = key q kq -> m = q /\ km = kq.
  Proof.
    intros Hm Hk M1 Hq Hkq M2 E. assert (m = q). { pose proof (rHS m km q kq Hm Hk Hq Hkq E) as EM. pose proof (proj1 (master_spec m km Hm Hk) M1) as O1. pose proof (proj1 (master_spec q kq Hq Hkq) M2) as O2.
      assert (A : In q (members m (dp m km))) by (rewrite EM; apply in_members; auto). assert (C : In m (members q (dp q kq))) by (rewrite <- EM; apply in_members; auto). apply in_members in A as [A|A], C as [C|C]; auto. specialize (O1 _ A). specialize (O2 _ C). lia. }
    subst q. split; auto. now apply (rHI m).
  Qed.
  (** copies of a master dof *)
  Lemma copy_iff m km q : m < np -> km < nd m -> is_master dps m km = true -> q < np -> q <> m -> ((exists kq, kq < nd q /\ key q kq = key m km) <-> In q (dp m km)).
  Proof.
    intros Hm Hk M1 Hq NE. split; [|now apply rHK]. intros (kq & K1 & K2). pose proof (rHS m km q kq Hm Hk Hq K1 (eq_sym K2)) as EM. assert (A : In q (members m (dp m km))) by (rewrite EM; apply in_members; auto). apply in_members in A as [A|A]; auto. congruence.
  Qed.
  Lemma in_g_home r k : r < np -> k < nd r -> is_master dps r k = false -> exists m km, m < np /\ In km (m_ex dps m r) /\ In k (g_ex dps r m) /\ key m km = key r k /\ m <> r.
  Proof.
    intros Hr Hk EM. destruct (home r k Hr Hk) as (m & km & A1 & A2 & A3 & A4). assert (NE : m <> r). { intros ->. assert (km = k) by now apply (rHI r). subst. congruence. }
    assert (A5 : In r (dp m km)). { apply copy_iff; auto. exists k. auto. } assert (A6 : In km (m_ex dps m r)) by (apply in_m; auto). exists m, km. split; auto. split; auto. split; auto.
    destruct (In_nth _ _ 0 A6) as (t & T1 & T2). pose proof (ex_nth m r t A1 Hr T1) as E. rewrite T2, A3 in E. assert (G : In (nth t (g_ex dps r m) 0) (g_ex dps r m)) by (apply nth_In; rewrite <- ex_len; auto). pose proof G as G'. apply in_g in G as (G1 & _); auto. apply (rHI r) in E; auto. now rewrite E.
  Qed.
End World.

(** *** the exchanged values *)
Section Vals.
  Context {B : Blk} (L : BlkLaws B).
  Local Notation X := (X B).
  Let LX := lawX B L.
  Variables (dps : list (list (list nat))) (key : nat -> nat -> nat).
  Hypothesis RM : rows_match dps dps key.
  Notation np := (nranks dps).
  Notation nd r := (ndof dps r).
  Notation dp r k := (dproc dps r k).
  (** contribution of a rank to a global dof *)
  Definition val (r : nat) (v : list X) (g : nat) : X := xsum (nd r) (fun k => if key r k =? g then ent v k else x0).
  Definition total (vs : nat -> list X) (g : nat) : X := xsum np (fun r => val r (vs r) g).

  Lemma val_at r v k : r < np -> k < nd r -> val r v (key r k) = ent v k.
  Proof.
    intros Hr Hk. unfold val. rewrite (xsum_ext _ _ (fun j => if k =? j then ent v k else x0)). now apply xsum_delta.
    intros j Hj. destruct (Nat.eqb_spec (key r j) (key r k)) as [E|E]. apply (rHI dps key RM r) in E; auto. subst. now rewrite Nat.eqb_refl. destruct (Nat.eqb_spec k j); [subst; congruence|reflexivity].
  Qed.
  Lemma val_none r v g : (forall k, k < nd r -> key r k <> g) -> val r v g = x0.
  Proof. intros H. unfold val. rewrite (xsum_ext _ _ (fun _ => x0)). now apply xsum_zero. intros j Hj. destruct (Nat.eqb_spec (key r j) g); auto. now destruct (H j Hj). Qed.
  Lemma val_ext r v w g : (forall k, k < nd r -> ent v k = ent w k) -> val r v g = val r w g.
  Proof. intros H. apply xsum_ext. intros k Hk. now rewrite H. Qed.
  Lemma total_ext vs ws g : (forall r k, r < np -> k < nd r -> ent (vs r) k = ent (ws r) k) -> total vs g = total ws g.
  Proof. intros H. apply xsum_ext. intros r Hr. apply val_ext. auto. Qed.

  Lemma has_dec (k : nat) l : {In k l} + {~ In k l}. Proof. apply in_dec, Nat.eq_dec. Qed.
  Lemma bufg_inner l : forall (v : list X) buf, NoDup l ->
    fold_left (fun '(v, buf) d => (upd v d x0, buf ++ [ent v d])) l (v, buf) =
    (fold_left (fun v d => upd v d x0) l v, buf ++ map (ent v) l).
  Proof.
    induction l as [|d l IH]; intros v buf HN; cbn [fold_left map]. { now rewrite app_nil_r. } inversion HN as [|? ? N1 N2]; subst. rewrite IH by auto. f_equal. rewrite <- app_assoc. cbn [app]. f_equal. f_equal. apply map_ext_in. intros k Hk. rewrite ent_upd. destruct (Nat.eqb_spec d k); [subst; contradiction|]. now rewrite ?andb_false_r, ?andb_false_l.
  Qed.
  Lemma zero_fold l : forall (v : list X), length (fold_left (fun v d => upd v d x0) l v) = length v /\ forall k, ent (fold_left (fun v d => upd v d x0) l v) k = if has k l then x0 else ent v k.
  Proof.
    induction l as [|d l IH]; intros v; cbn [fold_left]. { split; auto. } destruct (IH (upd v d x0)) as (A1 & A2). rewrite upd_length in A1. split; auto. intros k. rewrite A2. destruct (has_dec k l) as [I|I].
    - rewrite (proj2 (has_in k l) I), (proj2 (has_in k (d :: l))); auto. now right.
    - rewrite (proj2 (has_out k l) I). destruct (Nat.eq_dec k d) as [->|NE].
      + rewrite (proj2 (has_in d (d :: l))) by now left. rewrite ent_upd, Nat.eqb_refl. destruct (Nat.ltb_spec d (length v)); cbn; auto. rewrite ent_out; auto.
      + rewrite (proj2 (has_out k (d :: l))). 2:{ intros [|]; auto. } rewrite ent_upd. destruct (Nat.eqb_spec d k); [subst; contradiction|]. reflexivity.
  Qed.
  Lemma g_disj r p q k : r < np -> In k (g_ex dps r p) -> In k (g_ex dps r q) -> p = q.
  Proof. intros Hr A1 A2. apply in_g in A1 as (_ & _ & d & E1); auto. apply in_g in A2 as (_ & _ & d' & E2); auto. congruence. Qed.
  Definition ghost (r k : nat) : bool := negb (is_master dps r k).
  Lemma BufferG_ok r (v : list X) : r < np -> let (w, b) := BufferG dps r v in
    length w = length v /\ b = map (fun p => map (ent v) (g_ex dps r p)) (seq 0 np) /\ forall k, k < nd r -> ent w k = if ghost r k then x0 else ent v k.
  Proof.
    intros Hr. unfold BufferG.
    assert (G : forall n a (v' : list X) bufs, length v' = length v -> (forall k, ent v' k = if existsb (fun p => has k (g_ex dps r p)) (seq 0 a) then x0 else ent v k) ->
      let (w, b) := fold_left (fun '(v, bufs) p => let '(v, buf) := fold_left (fun '(v, buf) d => (upd v d x0, buf ++ [ent v d])) (g_ex dps r p) (v, []) in (v, bufs ++ [buf])) (seq a n) (v', bufs) in
      length w = length v /\ b = bufs ++ map (fun p => map (ent v) (g_ex dps r p)) (seq a n) /\ (forall k, ent w k = if existsb (fun p => has k (g_ex dps r p)) (seq 0 (a + n)) then x0 else ent v k)).
    { induction n as [|n IH]; intros a v' bufs HL HV; cbn [seq fold_left map]. { rewrite app_nil_r, Nat.add_0_r. auto. }
      rewrite bufg_inner by apply g_nodup. cbn [app]. destruct (zero_fold (g_ex dps r a) v') as (Z1 & Z2). specialize (IH (S a) (fold_left (fun v d => upd v d x0) (g_ex dps r a) v') (bufs ++ [map (ent v') (g_ex dps r a)])).
      match type of IH with _ -> _ -> match ?f with _ => _ end => destruct f as [w b] end. destruct IH as (I1 & I2 & I3).
      - congruence.
      - intros k. rewrite Z2, HV. rewrite seq_S, existsb_app. cbn [existsb Nat.add]. rewrite orb_false_r. destruct (existsb _ (seq 0 a)); cbn; auto. now destruct (has k _).
      - split; auto. split. 2:{ intros k. rewrite I3. now rewrite Nat.add_succ_comm. }
        rewrite I2, <- app_assoc. cbn [app]. f_equal. f_equal. apply map_ext_in. intros k Hk. rewrite HV. replace (existsb _ (seq 0 a)) with false; auto. symmetry. apply not_true_is_false. intros X. apply existsb_exists in X as (p & P1 & P2). apply has_in in P2. pose proof (g_disj r a p k Hr Hk P2). apply in_seq in P1. lia. }
    specialize (G np 0 v [] eq_refl (fun k => eq_refl)). destruct (fold_left _ (seq 0 np) (v, [])) as [w b]. cbn [app Nat.add] in G. destruct G as (G1 & G2 & G3). split; auto. split; auto. intros k Hk. rewrite G3. unfold ghost. destruct (is_master dps r k) eqn:EM; cbn.
    - replace (existsb _ _) with false; auto. symmetry. apply not_true_is_false. intros X. apply existsb_exists in X as (p & P1 & P2). apply has_in, in_g in P2 as (_ & P2 & _); auto. congruence.
    - replace (existsb _ _) with true; auto. symmetry. apply existsb_exists. destruct (in_g_home dps key RM r k Hr Hk EM) as (m & km & A1 & _ & A3 & _). exists m. split. apply in_seq; lia. now apply has_in.
  Qed.
  Lemma inbox_len {A} n (f : nat -> list (msg A)) wants q old : length (NetModel.inbox n f wants q old) = length old.
  Proof. unfold NetModel.inbox. revert old. induction (seq 0 n) as [|a l IH]; intros old; cbn [fold_left]; auto. rewrite IH. destruct (wants a); auto. apply upd_length. Qed.
  Lemma inbox_nth {A} n (f : nat -> list (msg A)) wants q old p : p < n -> length old = n -> nth p (NetModel.inbox n f wants q old) [] = if wants p then nth q (f p) [] else nth p old [].
  Proof.
    intros Hp HL. unfold NetModel.inbox. assert (G : forall l o, NoDup l -> (forall x, In x l -> x < length o) -> nth p (fold_left (fun b r => if wants r then upd b r (nth q (f r) []) else b) l o) [] = if has p l && wants p then nth q (f p) [] else nth p o []).
    { induction l as [|a l IH]; intros o HN HB; cbn [fold_left]; auto. inversion HN as [|? ? N1 N2]; subst. rewrite IH; auto. 2:{ intros x Hx. destruct (wants a); rewrite ?upd_length; apply HB; now right. }
      destruct (Nat.eq_dec p a) as [->|NE].
      - rewrite (proj2 (has_out a l) N1), (proj2 (has_in a (a :: l))) by now left. cbn. destruct (wants a); auto. now rewrite nth_upd_eq by (apply HB; now left).
      - destruct (has_dec p l) as [I|I]. rewrite (proj2 (has_in p l) I), (proj2 (has_in p (a :: l))) by now right. cbn. destruct (wants p); auto. destruct (wants a); auto. now rewrite nth_upd_neq by congruence.
        rewrite (proj2 (has_out p l) I), (proj2 (has_out p (a :: l))). 2:{ intros [|]; auto. } cbn. destruct (wants a); auto. now rewrite nth_upd_neq by congruence. }
    rewrite G. rewrite (proj2 (has_in p _)) by (apply in_seq; lia). reflexivity. apply seq_NoDup. intros x Hx. apply in_seq in Hx. lia.
  Qed.

  (** adding a list of contributions *)
  Lemma addall l : forall (v : list X), (forall q, In q l -> fst q < length v) ->
    length (fold_left (fun v q => vinc v (fst q) (snd q)) l v) = length v /\ forall k, ent (fold_left (fun v q => vinc v (fst q) (snd q)) l v) k = xadd (ent v k) (fold_right (fun q s => if fst q =? k then xadd (snd q) s else s) x0 l).
  Proof.
    induction l as [|a l IH]; intros v HB; cbn [fold_left fold_right]. { split; auto. intros k. ag LX. }
    assert (HB' : forall q, In q l -> fst q < length (vinc v (fst a) (snd a))). { intros q Hq. unfold vinc. rewrite upd_length. apply HB. now right. }
    destruct (IH _ HB') as (A1 & A2). split. { rewrite A1. unfold vinc. apply upd_length. } intros k. rewrite A2, ent_vinc. specialize (HB a (or_introl eq_refl)). destruct (Nat.ltb_spec (fst a) (length v)); [|lia]. destruct (Nat.eqb_spec (fst a) k); cbn; auto. subst. ag LX.
  Qed.
  Lemma comb_out (f : nat -> X) k ks : forall ls, ~ In k ks -> fold_right (fun q s => if fst q =? k then xadd (snd q) s else s) x0 (combine ks (map f ls)) = x0.
  Proof.
    induction ks as [|a ks IH]; intros [|b ls] HN; cbn [combine map fold_right fst snd]; auto. destruct (Nat.eqb_spec a k). { subst. destruct HN. now left. } apply IH. intros H. apply HN. now right.
  Qed.
  Lemma comb_in (f : nat -> X) ks : forall ls t, NoDup ks -> length ls = length ks -> t < length ks -> fold_right (fun q s => if fst q =? nth t ks 0 then xadd (snd q) s else s) x0 (combine ks (map f ls)) = f (nth t ls 0).
  Proof.
    induction ks as [|a ks IH]; intros ls t HN HL Ht; [inversion Ht|]. destruct ls as [|b ls]; [discriminate|]. inversion HN as [|? ? N1 N2]; subst. cbn [combine map fold_right fst snd]. destruct t as [|t]; cbn [nth].
    - rewrite Nat.eqb_refl, comb_out by auto. ag LX.
    - cbn [length] in HL, Ht. destruct (Nat.eqb_spec a (nth t ks 0)). { subst. destruct N1. apply nth_In. lia. } apply IH; auto; lia.
  Qed.
  Lemma nth_map_seq {T} (f : nat -> T) n p d : p < n -> nth p (map f (seq 0 n)) d = f p.
  Proof. intros H. rewrite (nth_indep _ d (f 0)) by (rewrite map_length, seq_length; auto). rewrite map_nth, seq_nth by auto. reflexivity. Qed.
  Lemma ApplyM_ok r (v : list X) bufs (vs : nat -> list X) : r < np -> length v = nd r ->
    (forall p, p < np -> m_ex dps r p <> [] -> nth p bufs [] = map (ent (vs p)) (g_ex dps p r)) ->
    length (ApplyM dps r v bufs) = length v /\ forall k, k < nd r ->
      ent (ApplyM dps r v bufs) k = xadd (ent v k) (xsum np (fun p => if is_master dps r k && has p (dp r k) then val p (vs p) (key r k) else x0)).
  Proof.
    intros Hr HV HB. unfold ApplyM, xsum.
    assert (G : forall ps (v' : list X), (forall p, In p ps -> p < np) -> length v' = nd r -> let w := fold_left (fun v p => fold_left (fun v q => vinc v (fst q) (snd q)) (combine (m_ex dps r p) (nth p bufs [])) v) ps v' in
      length w = nd r /\ forall k, k < nd r -> ent w k = xadd (ent v' k) (fold_right (fun p s => xadd (if is_master dps r k && has p (dp r k) then val p (vs p) (key r k) else x0) s) x0 ps)).
    { induction ps as [|p ps IH]; intros v' HP HV'; cbn [fold_left fold_right]. { split; auto. intros. ag LX. }
      assert (Hp : p < np) by (apply HP; now left). destruct (addall (combine (m_ex dps r p) (nth p bufs [])) v') as (A1 & A2). { intros [a b] Hq. apply in_combine_l in Hq. cbn [fst]. apply in_m in Hq as (Hq & _). congruence. }
      destruct (IH _ (fun q Hq => HP q (or_intror Hq)) (eq_trans A1 HV')) as (I1 & I2). split; auto. intros k Hk. cbv zeta in I2. rewrite I2, A2 by auto. clear I2 A2.
      assert (E : fold_right (fun q s => if fst q =? k then xadd (snd q) s else s) x0 (combine (m_ex dps r p) (nth p bufs [])) = if is_master dps r k && has p (dp r k) then val p (vs p) (key r k) else x0).
      { destruct (is_master dps r k && has p (dp r k)) eqn:EC.
        - apply andb_true_iff in EC as (C1 & C2). apply has_in in C2. assert (IM : In k (m_ex dps r p)) by (apply in_m; auto). rewrite HB; auto. 2:{ intros X. rewrite X in IM. inversion IM. }
          destruct (In_nth _ _ 0 IM) as (t & T1 & T2). rewrite <- T2. rewrite comb_in; auto using m_nodup. 2:{ symmetry. now apply (ex_len dps key RM). }
          rewrite (ex_nth dps key RM r p t) by auto. symmetry. apply val_at; auto. assert (G : In (nth t (g_ex dps p r) 0) (g_ex dps p r)) by (apply nth_In; rewrite <- (ex_len dps key RM); auto). now apply in_g in G as (G & _).
        - destruct (m_ex dps r p) as [|a l] eqn:EL; auto. rewrite HB by (auto; rewrite EL; discriminate). rewrite <- EL. apply comb_out. intros X. apply in_m in X as (_ & X1 & X2). apply has_in in X2. rewrite X1, X2 in EC. discriminate. }
      rewrite E. ag LX. }
    rewrite HV. apply G; auto. intros p Hp. apply in_seq in Hp. lia.
  Qed.
  Lemma setall (f : nat -> X) ks : forall ls (v : list X), NoDup ks -> length ls = length ks -> (forall k, In k ks -> k < length v) ->
    let w := fold_left (fun v q => upd v (fst q) (snd q)) (combine ks (map f ls)) v in
    length w = length v /\ (forall k, ~ In k ks -> ent w k = ent v k) /\ forall t, t < length ks -> ent w (nth t ks 0) = f (nth t ls 0).
  Proof.
    induction ks as [|a ks IH]; intros ls v HN HL HB; cbn [combine map fold_left]. { split; auto. split; auto. intros t Ht. inversion Ht. } destruct ls as [|b ls]; [discriminate|]. inversion HN as [|? ? N1 N2]; subst. cbn [combine map fold_left fst snd].
    destruct (IH ls (upd v a (f b)) N2) as (I1 & I2 & I3). cbn in HL; lia. { intros k Hk. rewrite upd_length. apply HB. now right. } cbv zeta. rewrite upd_length in I1. split; auto. split.
    - intros k Hk. rewrite I2. 2:{ intros H. apply Hk. now right. } rewrite ent_upd. destruct (Nat.eqb_spec a k); auto. subst. destruct Hk. now left.
    - intros [|t] Ht; cbn [nth]. 2:{ apply I3. cbn in Ht. lia. } rewrite I2 by auto. rewrite ent_upd, Nat.eqb_refl. destruct (Nat.ltb_spec a (length v)); auto. specialize (HB a (or_introl eq_refl)). lia.
  Qed.
  Lemma ApplyG_ok r (v : list X) bufs (vs : nat -> list X) : r < np -> length v = nd r ->
    (forall p, p < np -> g_ex dps r p <> [] -> nth p bufs [] = map (ent (vs p)) (m_ex dps p r)) ->
    length (ApplyG dps r v bufs) = length v /\ (forall k, k < nd r -> is_master dps r k = true -> ent (ApplyG dps r v bufs) k = ent v k) /\
    forall k m km, k < nd r -> m < np -> m <> r -> km < nd m -> key m km = key r k -> is_master dps m km = true -> ent (ApplyG dps r v bufs) k = ent (vs m) km.
  Proof.
    intros Hr HV HB. unfold ApplyG.
    assert (G : forall ps (v' : list X), NoDup ps -> (forall p, In p ps -> p < np) -> length v' = nd r -> let w := fold_left (fun v p => fold_left (fun v q => upd v (fst q) (snd q)) (combine (g_ex dps r p) (nth p bufs [])) v) ps v' in
      length w = nd r /\ (forall k, (forall p, In p ps -> ~ In k (g_ex dps r p)) -> ent w k = ent v' k) /\ forall p t, In p ps -> t < length (g_ex dps r p) -> ent w (nth t (g_ex dps r p) 0) = ent (vs p) (nth t (m_ex dps p r) 0)).
    { induction ps as [|p ps IH]; intros v' HN HP HV'; cbn [fold_left]. { split; auto. split; auto. intros p t []. } inversion HN as [|? ? N1 N2]; subst.
      assert (Hp : p < np) by (apply HP; now left).
      assert (S1 : let w := fold_left (fun v q => upd v (fst q) (snd q)) (combine (g_ex dps r p) (nth p bufs [])) v' in
        length w = length v' /\ (forall k, ~ In k (g_ex dps r p) -> ent w k = ent v' k) /\ forall t, t < length (g_ex dps r p) -> ent w (nth t (g_ex dps r p) 0) = ent (vs p) (nth t (m_ex dps p r) 0)).
      { destruct (g_ex dps r p) as [|a l] eqn:EL. { cbn. split; auto. split; auto. intros t Ht. inversion Ht. } rewrite HB by (auto; rewrite EL; discriminate). rewrite <- EL. apply setall. apply g_nodup. now apply (ex_len dps key RM). intros k Hk. rewrite HV'. now apply in_g in Hk as (Hk & _). }
      destruct S1 as (A1 & A2 & A3). destruct (IH _ N2 (fun q Hq => HP q (or_intror Hq)) (eq_trans A1 HV')) as (I1 & I2 & I3). split; auto. split.
      - intros k Hk. cbv zeta. rewrite I2. apply A2. apply Hk; now left. intros q Hq. apply Hk. now right.
      - intros q t [->|Hq] Ht; [|now apply I3]. cbv zeta. rewrite I2. now apply A3. intros p' Hp' Hk. assert (q = p') by (apply (g_disj r q p' _ Hr (nth_In _ 0 Ht) Hk)). subst. contradiction. }
    destruct (G (seq 0 np) v (seq_NoDup _ _)) as (G1 & G2 & G3); auto. { intros p Hp. apply in_seq in Hp. lia. } cbv zeta in G1, G2, G3. rewrite HV. split; auto. split.
    - intros k Hk EM. apply G2. intros p _ X. apply in_g in X as (_ & X & _); auto. congruence.
    - intros k m km Hk Hm NE Hkm EK EM. assert (IR : In r (dp m km)) by (apply (copy_iff dps key RM); auto; exists k; auto). assert (IM : In km (m_ex dps m r)) by (apply in_m; auto). destruct (In_nth _ _ 0 IM) as (t & T1 & T2).
      assert (T3 : t < length (g_ex dps r m)) by (rewrite <- (ex_len dps key RM); auto). pose proof (ex_nth dps key RM m r t Hm Hr T1) as E. rewrite T2, EK in E.
      assert (GI : In (nth t (g_ex dps r m) 0) (g_ex dps r m)) by now apply nth_In. apply in_g in GI as (GI & _); auto. apply (rHI dps key RM r) in E; auto. rewrite E, <- T2. apply G3; auto. apply in_seq. lia.
  Qed.

  (** *** the two exchanges, executed in lockstep *)
  Context {V : Type} (get : V -> list X) (put : V -> list X -> V).
  Hypothesis GP : forall v w, get (put v w) = w.
  Hypothesis PP : forall v w w', put (put v w) w' = put v w'.
  Notation bufs_ok s := (forall r, r < np -> length (lg s r) = np /\ length (lm s r) = np).
  Notation vecs_ok s := (forall r, r < np -> length (get (lv s r)) = nd r).
  (** masters have the total, the others nothing *)
  Definition concentrated (vs ws : nat -> list X) : Prop := forall r, r < np -> length (ws r) = nd r /\ forall k, k < nd r -> ent (ws r) k = if is_master dps r k then total vs (key r k) else x0.
  Definition cumulated (vs ws : nat -> list X) : Prop := forall r, r < np -> length (ws r) = nd r /\ forall k, k < nd r -> ent (ws r) k = total vs (key r k).
  Lemma onr_at {T} n (f old : nat -> T) r : r < n -> onr n f old r = f r.
  Proof. intros H. unfold onr. now destruct (Nat.ltb_spec r n); [|lia]. Qed.
  Lemma lockstep_app rc (P Q : list (instr V X)) s : lockstep np rc (P ++ Q) s = lockstep np rc Q (lockstep np rc P s).
  Proof. unfold lockstep. apply fold_left_app. Qed.

  (** the total on the master: its own value and those of the ranks having a copy *)
  Lemma total_master r k (vs : nat -> list X) : r < np -> k < nd r -> is_master dps r k = true ->
    total vs (key r k) = xadd (ent (vs r) k) (xsum np (fun p => if has p (dp r k) then val p (vs p) (key r k) else x0)).
  Proof.
    intros Hr Hk EM. unfold total. rewrite (xsum_ext _ _ (fun p => xadd (if r =? p then ent (vs r) k else x0) (if has p (dp r k) then val p (vs p) (key r k) else x0))).
    - rewrite (xsum_add L), (xsum_delta L); auto.
    - intros p Hp. destruct (rHR dps key RM r k Hr Hk) as (_ & NR & _). destruct (Nat.eqb_spec r p) as [<-|NE].
      + rewrite (proj2 (has_out r _)) by auto. rewrite val_at by auto. ag LX.
      + destruct (has_dec p (dp r k)) as [I|I]. { rewrite (proj2 (has_in p _) I). ag LX. } rewrite (proj2 (has_out p _) I). rewrite val_none. ag LX. intros kp Hkp E. apply I. apply (copy_iff dps key RM); auto. exists kp. auto.
  Qed.
  Notation g_filled b vs := (forall r, r < np -> b r = map (fun p => map (ent (vs r)) (g_ex dps r p)) (seq 0 np)).
  Lemma map_seq_len {T} (f : nat -> T) n : length (map f (seq 0 n)) = n. Proof. now rewrite map_length, seq_length. Qed.
  Lemma d2c_lock s : bufs_ok s -> vecs_ok s -> let t := lockstep np (dcc_recvs dps) (fst (DIS2CO dps get put DISTRIBUTED)) s in
    bufs_ok t /\ concentrated (fun r => get (lv s r)) (fun r => get (lv t r)) /\ (forall r, r < np -> lv t r = put (lv s r) (get (lv t r))) /\ (forall r, np <= r -> lv t r = lv s r).
  Proof.
    intros HB HV. unfold DIS2CO, FinishDIS2CO. cbn [StartDIS2CO ApplyDIS2CO fst app]. cbv zeta. unfold lockstep. cbn [fold_left]. unfold iBufferG, iApplyM. cbn [lock1 lv lg lm].
    set (vs := fun r => get (lv s r)). set (bg := fun r => BufferG dps r (vs r)).
    set (lv1 := onr np (fun r => fst (let '(w, b) := BufferG dps r (get (lv s r)) in (put (lv s r) w, b))) (lv s)). set (lg1 := onr np (fun r => snd (let '(w, b) := BufferG dps r (get (lv s r)) in (put (lv s r) w, b))) (lg s)).
    set (lm1 := onr np (fun q => NetModel.inbox np lg1 (dcc_recvs dps D2C q) q (lm s q)) (lm s)).
    assert (F1 : forall r, r < np -> lv1 r = put (lv s r) (fst (bg r)) /\ lg1 r = map (fun p => map (ent (vs r)) (g_ex dps r p)) (seq 0 np) /\ length (fst (bg r)) = nd r /\ forall k, k < nd r -> ent (fst (bg r)) k = if ghost r k then x0 else ent (vs r) k).
    { intros r Hr. unfold lv1, lg1. rewrite !onr_at by auto. pose proof (BufferG_ok r (vs r) Hr) as Y. unfold bg. change (get (lv s r)) with (vs r). destruct (BufferG dps r (vs r)) as [w b]. cbn [fst snd]. destruct Y as (Y1 & Y2 & Y3). split; auto. split; auto. split; auto. rewrite Y1. now apply HV. }
    assert (F2 : forall r p, r < np -> p < np -> m_ex dps r p <> [] -> nth p (lm1 r) [] = map (ent (vs p)) (g_ex dps p r)).
    { intros r p Hr Hp NE. unfold lm1. rewrite onr_at by auto. rewrite inbox_nth; auto. 2: now apply HB. cbn [dcc_recvs]. destruct (m_ex dps r p); [contradiction|]. cbn [length Nat.ltb Nat.leb]. destruct (F1 p Hp) as (_ & E & _). rewrite E. now rewrite nth_map_seq. }
    assert (F3 : forall r, r < np -> length (lm1 r) = np). { intros r Hr. unfold lm1. rewrite onr_at by auto. rewrite inbox_len. now apply HB. }
    change (let t := mkLst (onr np (fun r => put (lv1 r) (ApplyM dps r (get (lv1 r)) (lm1 r))) lv1) lg1 (onr np lm1 lm1) in
      bufs_ok t /\ concentrated (fun r => get (lv s r)) (fun r => get (lv t r)) /\ (forall r, r < np -> lv t r = put (lv s r) (get (lv t r))) /\ (forall r, np <= r -> lv t r = lv s r)).
    cbv zeta. cbn [lv lg lm]. split; [|split; [|split]].
    - intros r Hr. destruct (F1 r Hr) as (_ & E & _). rewrite E, onr_at by auto. split. apply map_seq_len. now apply F3.
    - intros r Hr. rewrite onr_at by auto. cbn [fst]. rewrite GP. destruct (F1 r Hr) as (E1 & E2 & E3 & E4). rewrite E1, GP. destruct (ApplyM_ok r (fst (bg r)) (lm1 r) vs Hr E3 (fun p Hp => F2 r p Hr Hp)) as (A1 & A2). split. now rewrite A1.
      intros k Hk. rewrite A2, E4 by auto. unfold ghost. destruct (is_master dps r k) eqn:EM; cbn [negb andb].
      + now rewrite total_master.
      + rewrite (xsum_zero L). ag LX.
    - intros r Hr. rewrite onr_at by auto. cbn [fst]. destruct (F1 r Hr) as (E1 & _). rewrite E1, GP, PP. now rewrite GP.
    - intros r Hr. unfold onr. destruct (Nat.ltb_spec r np); [lia|]. unfold lv1, onr. now destruct (Nat.ltb_spec r np); [lia|].
  Qed.
  (** second half: from the values on the masters *)
  Definition from_masters (ws us : nat -> list X) : Prop := forall r, r < np -> length (us r) = nd r /\ forall k m km, k < nd r -> m < np -> km < nd m -> key m km = key r k -> is_master dps m km = true -> ent (us r) k = ent (ws m) km.
  Lemma c2c_lock s : bufs_ok s -> vecs_ok s -> let t := lockstep np (dcc_recvs dps) (fst (CO2CU dps get put DISTRIBUTED)) s in
    bufs_ok t /\ from_masters (fun r => get (lv s r)) (fun r => get (lv t r)) /\ (forall r, r < np -> lv t r = put (lv s r) (get (lv t r))) /\ (forall r, np <= r -> lv t r = lv s r).
  Proof.
    intros HB HV. unfold CO2CU, FinishCO2CU. cbn [StartCO2CU ApplyCO2CU fst app]. cbv zeta. unfold lockstep. cbn [fold_left]. unfold iBufferM, iApplyG. cbn [lock1 lv lg lm fst snd].
    set (vs := fun r => get (lv s r)).
    set (lv1 := onr np (fun r => lv s r) (lv s)). set (lm1 := onr np (fun r => BufferM dps r (get (lv s r))) (lm s)).
    set (lg1 := onr np (fun q => NetModel.inbox np lm1 (dcc_recvs dps C2C q) q (lg s q)) (lg s)).
    assert (F1 : forall r, lv1 r = lv s r). { intros r. unfold lv1, onr. now destruct (r <? np). }
    assert (F2 : forall r p, r < np -> p < np -> g_ex dps r p <> [] -> nth p (lg1 r) [] = map (ent (vs p)) (m_ex dps p r)).
    { intros r p Hr Hp NE. unfold lg1. rewrite onr_at by auto. rewrite inbox_nth; auto. 2: now apply HB. cbn [dcc_recvs]. destruct (g_ex dps r p); [contradiction|]. cbn [length Nat.ltb Nat.leb]. unfold lm1. rewrite onr_at by auto. unfold BufferM. now rewrite nth_map_seq. }
    change (let t := mkLst (onr np (fun r => put (lv1 r) (ApplyG dps r (get (lv1 r)) (lg1 r))) lv1) (onr np lg1 lg1) lm1 in
      bufs_ok t /\ from_masters (fun r => get (lv s r)) (fun r => get (lv t r)) /\ (forall r, r < np -> lv t r = put (lv s r) (get (lv t r))) /\ (forall r, np <= r -> lv t r = lv s r)).
    cbv zeta. cbn [lv lg lm]. split; [|split; [|split]].
    - intros r Hr. rewrite !onr_at by auto. split. unfold lg1. rewrite onr_at by auto. rewrite inbox_len. now apply HB. unfold lm1. rewrite onr_at by auto. unfold BufferM. apply map_seq_len.
    - intros r Hr. rewrite onr_at by auto. rewrite GP, F1. destruct (ApplyG_ok r (vs r) (lg1 r) vs Hr (HV r Hr) (fun p Hp => F2 r p Hr Hp)) as (A1 & A2 & A3). split. unfold vs in A1 at 2. rewrite <- (HV r Hr). exact A1.
      intros k m km Hk Hm Hkm EK EM. destruct (Nat.eq_dec m r) as [->|NE]. { apply (rHI dps key RM r) in EK; auto. subst km. now apply A2. } now apply A3.
    - intros r Hr. rewrite onr_at by auto. rewrite GP. now rewrite F1.
    - intros r Hr. unfold onr. destruct (Nat.ltb_spec r np); [lia|]. apply F1.
  Qed.
  Lemma conc_cum vs ws us : concentrated vs ws -> from_masters ws us -> cumulated vs us.
  Proof.
    intros H1 H2 r Hr. destruct (H2 r Hr) as (A1 & A2). split; auto. intros k Hk. destruct (home dps key RM r k Hr Hk) as (m & km & B1 & B2 & B3 & B4). rewrite (A2 k m km) by auto. destruct (H1 m B1) as (_ & C2). rewrite C2, B4 by auto. now rewrite B3.
  Qed.
  Lemma occurs_dec g : (exists r k, r < np /\ k < nd r /\ key r k = g) \/ forall r k, r < np -> k < nd r -> key r k <> g.
  Proof.
    destruct (existsb (fun r => existsb (fun k => key r k =? g) (seq 0 (nd r))) (seq 0 np)) eqn:E.
    - left. apply existsb_exists in E as (r & R1 & E). apply existsb_exists in E as (k & K1 & E). apply in_seq in R1, K1. apply Nat.eqb_eq in E. exists r, k. split; [lia|]. split; [lia|]. auto.
    - right. intros r k Hr Hk EK. apply not_true_iff_false in E. apply E. apply existsb_exists. exists r. split. apply in_seq; lia. apply existsb_exists. exists k. split. apply in_seq; lia. now apply Nat.eqb_eq.
  Qed.
  Lemma total_none vs g : (forall r k, r < np -> k < nd r -> key r k <> g) -> total vs g = x0.
  Proof. intros H. unfold total. rewrite (xsum_ext _ _ (fun _ => x0)). apply (xsum_zero L). intros r Hr. apply val_none. intros k Hk. now apply H. Qed.
  (** a vector that is zero except on the masters *)
  Lemma total_conc (ws : nat -> list X) m km : m < np -> km < nd m -> is_master dps m km = true -> (forall r k, r < np -> k < nd r -> is_master dps r k = false -> ent (ws r) k = x0) -> total ws (key m km) = ent (ws m) km.
  Proof.
    intros Hm Hkm EM HZ. rewrite total_master by auto. rewrite (xsum_ext _ _ (fun _ => x0)). rewrite (xsum_zero L). ag LX. intros p Hp. destruct (has_dec p (dp m km)) as [I|I]. 2: now rewrite (proj2 (has_out p _) I). rewrite (proj2 (has_in p _) I).
    destruct (rHK dps key RM m km p Hm Hkm I) as (kp & K1 & K2). rewrite <- K2, val_at by auto. apply HZ; auto. destruct (is_master dps p kp) eqn:EP; auto. destruct (home_unique dps key RM m km p kp) as (-> & _); auto. now destruct (rHR dps key RM p km Hm Hkm).
  Qed.
  Lemma conc_total vs ws g : concentrated vs ws -> total ws g = total vs g.
  Proof.
    intros H. destruct (occurs_dec g) as [(r & k & Hr & Hk & <-)|N]. 2: now rewrite !total_none. destruct (home dps key RM r k Hr Hk) as (m & km & B1 & B2 & B3 & B4). rewrite <- B3, total_conc; auto.
    - destruct (H m B1) as (_ & C2). now rewrite C2, B4.
    - intros q kq Hq Hkq EQ. destruct (H q Hq) as (_ & C2). now rewrite C2, EQ.
  Qed.
End Vals.
