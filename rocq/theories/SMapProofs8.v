(** Tables of shared loops that fit: several loops for one, some loops left out; ShrinkDPTable *)
From Coq Require Import Cantor.
From Verif Require Import Base ArraysModel ArraysProofs ArraysProps LoopModel SMapModel SMapProofs SMapProofs2 SMapProofs3.
Import ListNotations.

Lemma filter_pos {A B} (f : A -> B) (P : A -> bool) (d : A) : forall l, map (fun i => f (nth i l d)) (filter (fun i => P (nth i l d)) (seq 0 (length l))) = map f (filter P l).
Proof.
  induction l as [|a l IH]; [reflexivity|]. cbn [length seq filter]. rewrite <- seq_shift. rewrite (filter_map_S (fun i => P (nth i (a :: l) d))). change (nth 0 (a :: l) d) with a. destruct (P a); cbn [map]; rewrite map_map.
  - f_equal. exact IH.
  - exact IH.
Qed.
Lemma map_filter_comp {A B} (f : A -> B) (P : B -> bool) l : map f (filter (fun x => P (f x)) l) = filter P (map f l).
Proof. induction l as [|a l IH]; cbn; auto. destruct (P (f a)); cbn; congruence. Qed.
Lemma mem_filter q P l : mem q (filter P l) = mem q l && P q.
Proof.
  induction l as [|a l IH]; [reflexivity|]. cbn [filter]. unfold mem in *. cbn [existsb]. destruct (P a) eqn:E; cbn [existsb]; rewrite IH.
  - destruct (Z.eqb_spec q a) as [->|]; cbn [orb]; [rewrite E; auto|auto].
  - destruct (Z.eqb_spec q a) as [->|]; cbn [orb]; [rewrite E, andb_false_r; auto|auto].
Qed.
Lemma map_nth_seq {A} (f : nat -> A) n i d : (i < n)%nat -> nth i (map f (seq 0 n)) d = f i.
Proof. intros H. rewrite (nth_indep _ d (f 0%nat)) by (rewrite map_length, seq_length; auto). rewrite map_nth, seq_nth by auto. reflexivity. Qed.
Lemma nth_map_in {A B} (f : A -> B) l i d d' : (i < length l)%nat -> nth i (map f l) d = f (nth i l d').
Proof. intros H. rewrite (nth_indep _ d (f d')) by (rewrite map_length; auto). apply map_nth. Qed.

Section Keep.
  Variable alls : list (list Z).
  Variable dpss : list (list (list Z)).
  Variable gid : nat -> nat -> nat.
  Hypothesis HC : consistent alls dpss gid.
  Notation np := (length alls).
  Variable keep : nat -> nat -> bool.
  Definition stays (p g : nat) : bool := match local_nr gid (length (nth p dpss [])) p g with Some k => keep p k | None => false end.
  Definition keptnr (r : nat) : list nat := filter (keep r) (seq 0 (length (nth r dpss []))).
  (** the processes that keep it too *)
  Definition newrow (r k : nat) : list Z := filter (fun q => stays (Z.to_nat q) (gid r k)) (nth k (nth r dpss []) []).
  Definition newdps (r : nat) : list (list Z) := map (newrow r) (keptnr r).
  Definition newgid (r i : nat) : nat := gid r (nth i (keptnr r) 0%nat).
  Lemma keptnr_in r k : In k (keptnr r) <-> (k < length (nth r dpss []))%nat /\ keep r k = true.
  Proof. unfold keptnr. rewrite filter_In, in_seq. intuition lia. Qed.
  Lemma stays_ok r k : (k < length (nth r dpss []))%nat -> stays r (gid r k) = keep r k.
  Proof. intros H. unfold stays. rewrite (local_nr_ok _ _ _ HC) by auto. reflexivity. Qed.
  Lemma newdps_nth r : (r < np)%nat -> nth r (map newdps (seq 0 np)) [] = newdps r.
  Proof. intros H. apply map_nth_seq; auto. Qed.
  Lemma newdps_row r i : (i < length (keptnr r))%nat -> nth i (newdps r) [] = newrow r (nth i (keptnr r) 0%nat).
  Proof. intros H. unfold newdps. apply nth_map_in; auto. Qed.

  Lemma new_shared r p : (r < np)%nat -> (p < np)%nat ->
    map (newgid r) (shared (newdps r) (Z.of_nat p)) = filter (fun g => stays r g && stays p g) (map (gid r) (shared (nth r dpss []) (Z.of_nat p))).
  Proof.
    intros Hr Hp. unfold shared at 1. unfold newgid. assert (L : length (newdps r) = length (keptnr r)) by (unfold newdps; apply map_length). rewrite L.
    rewrite (filter_ext_in _ (fun i => mem (Z.of_nat p) (newrow r (nth i (keptnr r) 0%nat)))) by (intros i Hi; apply in_seq in Hi; rewrite newdps_row by lia; reflexivity).
    rewrite (filter_pos (gid r) (fun k => mem (Z.of_nat p) (newrow r k)) 0%nat). rewrite <- map_filter_comp. f_equal. unfold keptnr, shared.
    assert (G : forall l, (forall k, In k l -> (k < length (nth r dpss []))%nat) -> filter (fun k => mem (Z.of_nat p) (newrow r k)) (filter (keep r) l) = filter (fun k => stays r (gid r k) && stays p (gid r k)) (filter (fun k => mem (Z.of_nat p) (nth k (nth r dpss []) [])) l)).
    { induction l as [|k l IH]; intros Hl; [reflexivity|]. cbn [filter].
      assert (E : mem (Z.of_nat p) (newrow r k) = mem (Z.of_nat p) (nth k (nth r dpss []) []) && stays p (gid r k)) by (unfold newrow; rewrite mem_filter, Nat2Z.id; reflexivity).
      destruct (keep r k) eqn:K, (mem (Z.of_nat p) (nth k (nth r dpss []) [])) eqn:M; cbn [filter]; rewrite ?E; cbn [andb]; rewrite ?stays_ok, ?K by (apply Hl; cbn; auto); cbn [andb]; rewrite IH by (intros; apply Hl; cbn; auto); try reflexivity. }
    apply G. intros k Hk. apply in_seq in Hk. lia.
  Qed.

  Lemma kept_nth r i : (i < length (keptnr r))%nat -> (nth i (keptnr r) 0 < length (nth r dpss []))%nat /\ keep r (nth i (keptnr r) 0%nat) = true.
  Proof. intros H. apply keptnr_in. apply nth_In; auto. Qed.
  Theorem keep_consistent : consistent alls (map newdps (seq 0 np)) newgid.
  Proof.
    assert (LN : forall r, length (newdps r) = length (keptnr r)) by (intros; unfold newdps; apply map_length).
    constructor.
    - rewrite map_length, seq_length. reflexivity.
    - apply (con_sorted _ _ _ HC).
    - intros r ps Hr Hps. rewrite newdps_nth in Hps by auto. unfold newdps in Hps. apply in_map_iff in Hps. destruct Hps as (k & <- & Hk). apply keptnr_in in Hk. destruct Hk as [Hk _].
      destruct (con_rows _ _ _ HC r (nth k (nth r dpss []) []) Hr (nth_In _ _ Hk)) as [A B]. unfold newrow. split; [apply NoDup_filter; auto|]. intros q Hq. apply filter_In in Hq. apply B. tauto.
    - apply (con_range _ _ _ HC).
    - apply (con_sym _ _ _ HC).
    - intros r j k Hj Hk E. destruct (Nat.lt_ge_cases r np) as [Hr|Hr]; [|rewrite nth_overflow in Hj by (rewrite map_length, seq_length; auto); cbn in Hj; lia].
      rewrite newdps_nth, LN in * by auto. unfold newgid in E. apply (con_inj _ _ _ HC) in E; [|apply kept_nth; auto|apply kept_nth; auto].
      assert (ND : NoDup (keptnr r)) by (apply NoDup_filter, seq_NoDup). rewrite NoDup_nth with (d := 0%nat) in ND. apply ND; auto.
    - intros r p Hr Hp. rewrite !newdps_nth by auto. rewrite !new_shared by auto. rewrite (con_order _ _ _ HC r p) by auto. apply filter_ext. intros g. apply andb_comm.
    - intros r p j k Hr Hp Hj Hk E q. rewrite !newdps_nth in * by auto. rewrite LN in *. rewrite !newdps_row by auto. unfold newgid in E.
      destruct (kept_nth r j Hj) as [A1 A2]. destruct (kept_nth p k Hk) as [B1 B2]. set (j' := nth j (keptnr r) 0%nat) in *. set (k' := nth k (keptnr p) 0%nat) in *.
      pose proof (con_group _ _ _ HC r p j' k' Hr Hp A1 B1 E q) as G. cbn [In] in *. unfold newrow. rewrite !filter_In, <- E.
      assert (S1 : stays r (gid r j') = true) by (rewrite stays_ok; auto). assert (S2 : stays p (gid r j') = true) by (rewrite E, stays_ok; auto).
      split; intros [X|[X Y]].
      + subst q. destruct (proj1 G (or_introl eq_refl)) as [Z|Z]; [auto|]. right. split; auto. rewrite Nat2Z.id. auto.
      + destruct (proj1 G (or_intror X)) as [Z|Z]; [auto|]. right. auto.
      + subst q. destruct (proj2 G (or_introl eq_refl)) as [Z|Z]; [auto|]. right. split; auto. rewrite Nat2Z.id. auto.
      + destruct (proj2 G (or_intror X)) as [Z|Z]; [auto|]. right. auto.
  Qed.
  (** nothing is lost when all processes agree *)
  Lemma newrow_same r k : (r < np)%nat -> (k < length (nth r dpss []))%nat -> keep r k = true ->
    (forall p k', (p < np)%nat -> (k' < length (nth p dpss []))%nat -> gid p k' = gid r k -> keep p k' = true) -> newrow r k = nth k (nth r dpss []) [].
  Proof.
    intros Hr Hk K H. unfold newrow. assert (G : forall l, (forall q, In q l -> stays (Z.to_nat q) (gid r k) = true) -> filter (fun q => stays (Z.to_nat q) (gid r k)) l = l).
    { induction l as [|q l IH]; intros Hl; auto. cbn [filter]. rewrite Hl by (cbn; auto). f_equal. apply IH. intros; apply Hl; cbn; auto. }
    apply G. intros q Hq. destruct (con_rows _ _ _ HC r (nth k (nth r dpss []) []) Hr (nth_In _ _ Hk)) as [_ I]. destruct (con_range _ _ _ HC r q Hr (I _ Hq)) as [Rq _].
    pose proof (con_order _ _ _ HC r (Z.to_nat q) Hr ltac:(lia)) as E. rewrite Z2Nat.id in E by lia.
    assert (J : In (gid r k) (map (gid r) (shared (nth r dpss []) q))) by (apply in_map; unfold shared; apply filter_In; split; [apply in_seq; lia|apply mem_In; auto]).
    rewrite E in J. apply in_map_iff in J. destruct J as (k' & E' & J). unfold shared in J. apply filter_In in J. destruct J as [J _]. apply in_seq in J. rewrite <- E', stays_ok by lia. apply H; auto; lia.
  Qed.
End Keep.

(** ** several loops for one *)
Section Flat.
  Variable alls : list (list Z).
  Variable dpss : list (list (list Z)).
  Variable gid : nat -> nat -> nat.
  Hypothesis HC : consistent alls dpss gid.
  Notation np := (length alls).
  Variable m : nat -> nat -> nat.
  Hypothesis Hm : forall r p j k, (r < np)%nat -> (p < np)%nat -> (j < length (nth r dpss []))%nat -> (k < length (nth p dpss []))%nat -> gid r j = gid p k -> m r j = m p k.
  Definition idx (r : nat) : list (nat * nat) := concat (map (fun k => map (pair k) (seq 0 (m r k))) (seq 0 (length (nth r dpss [])))).
  Definition flatdps (r : nat) : list (list Z) := map (fun x => nth (fst x) (nth r dpss []) []) (idx r).
  Definition enc (r : nat) (x : nat * nat) : nat := Cantor.to_nat (gid r (fst x), snd x).
  Definition flatgid (r i : nat) : nat := enc r (nth i (idx r) (0, 0)%nat).
  Lemma idx_in r x : In x (idx r) <-> (fst x < length (nth r dpss []))%nat /\ (snd x < m r (fst x))%nat.
  Proof.
    unfold idx. rewrite in_concat. split.
    - intros (l & Hl & Hx). apply in_map_iff in Hl. destruct Hl as (k & <- & Hk). apply in_seq in Hk. apply in_map_iff in Hx. destruct Hx as (i & <- & Hi). apply in_seq in Hi. cbn. lia.
    - intros [A B]. exists (map (pair (fst x)) (seq 0 (m r (fst x)))). split; [apply in_map_iff; exists (fst x); split; auto; apply in_seq; lia|]. apply in_map_iff. exists (snd x). split; [symmetry; apply surjective_pairing|apply in_seq; lia].
  Qed.
  Lemma idx_nodup r : NoDup (idx r).
  Proof.
    unfold idx. generalize (seq_NoDup (length (nth r dpss [])) 0). induction (seq 0 (length (nth r dpss []))) as [|k l IH]; intros N; [constructor|]. inversion N as [|? ? N1 N2]; subst. cbn [map concat].
    assert (D : forall a b : list (nat * nat), NoDup a -> NoDup b -> (forall x, In x a -> ~ In x b) -> NoDup (a ++ b)).
    { clear. induction a as [|x a IH]; intros b Na Nb H; auto. inversion Na; subst. cbn. constructor; [rewrite in_app_iff; intros [?|?]; [auto|]; eapply H; [left; reflexivity|auto]|]. apply IH; auto. intros y Hy. apply H. right; auto. }
    apply D; auto.
    - apply FinFun.Injective_map_NoDup; [intros ? ? E; congruence|apply seq_NoDup].
    - intros x Hx Hx'. apply in_map_iff in Hx. destruct Hx as (i & <- & _). apply in_concat in Hx'. destruct Hx' as (l' & Hl' & Hi). apply in_map_iff in Hl'. destruct Hl' as (k' & <- & Hk'). apply in_map_iff in Hi. destruct Hi as (i' & E & _). injection E as <- _. contradiction.
  Qed.
  Lemma enc_inj r p x y : enc r x = enc p y -> gid r (fst x) = gid p (fst y) /\ snd x = snd y.
  Proof. unfold enc. intros E. apply (f_equal Cantor.of_nat) in E. rewrite !Cantor.cancel_of_to in E. injection E as A B. auto. Qed.
  Lemma flat_shared r p : map (flatgid r) (shared (flatdps r) (Z.of_nat p)) = concat (map (fun k => map (fun i => Cantor.to_nat (gid r k, i)) (seq 0 (m r k))) (shared (nth r dpss []) (Z.of_nat p))).
  Proof.
    unfold shared at 1. assert (L : length (flatdps r) = length (idx r)) by (unfold flatdps; apply map_length). rewrite L. unfold flatgid.
    rewrite (filter_ext_in _ (fun i => mem (Z.of_nat p) (nth (fst (nth i (idx r) (0, 0)%nat)) (nth r dpss []) []))).
    2:{ intros i Hi. apply in_seq in Hi. unfold flatdps. rewrite (nth_map_in _ _ _ _ (0, 0)%nat) by lia. reflexivity. }
    rewrite (filter_pos (enc r) (fun x => mem (Z.of_nat p) (nth (fst x) (nth r dpss []) [])) (0, 0)%nat). unfold idx, shared.
    induction (seq 0 (length (nth r dpss []))) as [|k l IH]; [reflexivity|]. cbn [map concat filter]. rewrite filter_app, map_app, IH. clear IH.
    destruct (mem (Z.of_nat p) (nth k (nth r dpss []) [])) eqn:M; cbn [map concat].
    - f_equal. assert (X : filter (fun x : nat * nat => mem (Z.of_nat p) (nth (fst x) (nth r dpss []) [])) (map (pair k) (seq 0 (m r k))) = map (pair k) (seq 0 (m r k))).
      { induction (seq 0 (m r k)) as [|i s IH]; auto. cbn [map filter fst]. rewrite M. f_equal. exact IH. }
      rewrite X, map_map. reflexivity.
    - assert (X : filter (fun x : nat * nat => mem (Z.of_nat p) (nth (fst x) (nth r dpss []) [])) (map (pair k) (seq 0 (m r k))) = []).
      { induction (seq 0 (m r k)) as [|i s IH]; auto. cbn [map filter fst]. rewrite M. exact IH. }
      rewrite X. reflexivity.
  Qed.
  Theorem flat_consistent : consistent alls (map flatdps (seq 0 np)) flatgid.
  Proof.
    assert (LN : forall r, length (flatdps r) = length (idx r)) by (intros; unfold flatdps; apply map_length).
    assert (NT : forall r, (r < np)%nat -> nth r (map flatdps (seq 0 np)) [] = flatdps r) by (intros; apply map_nth_seq; auto).
    assert (IX : forall r i, (i < length (idx r))%nat -> (fst (nth i (idx r) (0, 0)%nat) < length (nth r dpss []))%nat /\ (snd (nth i (idx r) (0, 0)%nat) < m r (fst (nth i (idx r) (0, 0)%nat)))%nat) by (intros r i Hi; apply idx_in, nth_In; auto).
    constructor.
    - rewrite map_length, seq_length. reflexivity.
    - apply (con_sorted _ _ _ HC).
    - intros r ps Hr Hps. rewrite NT in Hps by auto. unfold flatdps in Hps. apply in_map_iff in Hps. destruct Hps as (x & <- & Hx). apply idx_in in Hx. apply (con_rows _ _ _ HC r); auto. apply nth_In. tauto.
    - apply (con_range _ _ _ HC).
    - apply (con_sym _ _ _ HC).
    - intros r j k Hj Hk E. destruct (Nat.lt_ge_cases r np) as [Hr|Hr]; [|rewrite nth_overflow in Hj by (rewrite map_length, seq_length; auto); cbn in Hj; lia].
      rewrite NT, LN in * by auto. unfold flatgid in E. apply enc_inj in E. destruct E as [E1 E2]. apply (con_inj _ _ _ HC) in E1; [|apply IX; auto|apply IX; auto].
      pose proof (idx_nodup r) as ND. rewrite (NoDup_nth _ (0, 0)%nat) in ND. apply ND; auto. rewrite (surjective_pairing (nth j _ _)), (surjective_pairing (nth k _ _)), E1, E2. reflexivity.
    - intros r p Hr Hp. rewrite !NT by auto. rewrite !flat_shared. pose proof (con_order _ _ _ HC r p Hr Hp) as E.
      assert (B1 : forall k, In k (shared (nth r dpss []) (Z.of_nat p)) -> (k < length (nth r dpss []))%nat) by (intros k Hk; unfold shared in Hk; apply filter_In in Hk; destruct Hk as [Hk _]; apply in_seq in Hk; lia).
      assert (B2 : forall k, In k (shared (nth p dpss []) (Z.of_nat r)) -> (k < length (nth p dpss []))%nat) by (intros k Hk; unfold shared in Hk; apply filter_In in Hk; destruct Hk as [Hk _]; apply in_seq in Hk; lia).
      revert E B1 B2. generalize (shared (nth r dpss []) (Z.of_nat p)) as L1, (shared (nth p dpss []) (Z.of_nat r)) as L2. intros L1. induction L1 as [|j L1 IH]; intros L2 E B1 B2; destruct L2 as [|k L2]; try discriminate; auto.
      cbn [map] in E. injection E as E1 E2. cbn [map concat]. rewrite (IH L2) by (auto; intros; (apply B1 || apply B2); cbn; auto). f_equal. rewrite E1, (Hm r p j k) by (auto; (apply B1 || apply B2); cbn; auto). reflexivity.
    - intros r p j k Hr Hp Hj Hk E q. rewrite !NT in * by auto. rewrite LN in *. unfold flatdps. rewrite !(nth_map_in _ _ _ _ (0, 0)%nat) by auto. unfold flatgid in E. apply enc_inj in E. destruct E as [E1 _].
      apply (con_group _ _ _ HC r p); auto; apply IX; auto.
  Qed.
End Flat.

(** ** ShrinkDPTable *)
Section Shrink.
  Variable alls : list (list Z).
  Variable dpss : list (list (list Z)).
  Variable gid : nat -> nat -> nat.
  Hypothesis HC : consistent alls dpss gid.
  Notation np := (length alls).
  Variable rems : list (list bool).
  Hypothesis Hrems : length rems = np.
  Hypothesis Hrem : forall r, (r < np)%nat -> length (nth r rems []) = length (nth r dpss []).
  Definition keepR (r k : nat) : bool := negb (nth k (nth r rems []) true).
  Definition itm (p : nat) : list (list Z) := map istay (nth p rems []).
  Lemma itm_len p : (p < np)%nat -> length (itm p) = length (nth p dpss []).
  Proof. intros H. unfold itm. rewrite map_length. apply Hrem; auto. Qed.
  Variable r : nat.
  Hypothesis Hr : (r < np)%nat.
  Notation dps := (nth r dpss []).
  Notation all := (nth r alls []).
  Definition Ms (p : Z) (k : nat) : list Z := istay (negb (stays dpss gid keepR (Z.to_nat p) (gid r k))).
  Lemma partner' p k : (k < length dps)%nat -> In p (nth k dps []) -> exists k', (k' < length (nth (Z.to_nat p) dpss []))%nat /\ gid (Z.to_nat p) k' = gid r k.
  Proof.
    intros Hk Hp. destruct (con_rows _ _ _ HC r (nth k dps []) Hr (nth_In _ _ Hk)) as [_ I]. destruct (con_range _ _ _ HC r p Hr (I _ Hp)) as [Rp _].
    pose proof (con_order _ _ _ HC r (Z.to_nat p) Hr ltac:(lia)) as E. rewrite Z2Nat.id in E by lia.
    assert (J : In (gid r k) (map (gid r) (shared dps p))) by (apply in_map; unfold shared; apply filter_In; split; [apply in_seq; lia|apply mem_In; auto]).
    rewrite E in J. apply in_map_iff in J. destruct J as (k' & E' & J). exists k'. split; auto. unfold shared in J. apply filter_In in J. destruct J as [J _]. apply in_seq in J. lia.
  Qed.
  Lemma itemg_Ms p k : (k < length dps)%nat -> In p (nth k dps []) -> itemg dpss gid itm (Z.to_nat p) (gid r k) = Ms p k.
  Proof.
    intros Hk Hp. destruct (partner' p k Hk Hp) as (k' & H' & E). unfold Ms. rewrite <- E. rewrite (itemg_ok _ _ _ HC itm) by auto. rewrite (stays_ok _ _ _ HC) by auto.
    assert (Rp : (Z.to_nat p < np)%nat) by (destruct (con_rows _ _ _ HC r (nth k dps []) Hr (nth_In _ _ Hk)) as [_ I]; destruct (con_range _ _ _ HC r p Hr (I _ Hp)) as [Rp _]; lia).
    unfold itm, keepR. rewrite (nth_map_in _ _ _ _ true) by (rewrite Hrem; auto). rewrite negb_involutive. reflexivity.
  Qed.
  Definition recvs : list (list Z) := map (fun p => concat (map (Ms p) (shared dps p))) all.

  Theorem shrink_ok : ShrinkDPTable alls dpss rems r = Ret (newdps dpss gid keepR r, row_map (nth r rems []) 0).
  Proof.
    unfold ShrinkDPTable. pose proof (con_len _ _ _ HC) as CL. destruct (send_world alls dpss gid HC itm) as (sent & E & L & H).
    assert (X : mapM (fun x => send_table (fst (fst x)) (snd (fst x)) (map istay (snd x))) (combine (combine alls dpss) rems) = Ret sent).
    { rewrite <- E. assert (RM : rems = map (fun p => nth p rems []) (seq 0 np)) by (rewrite <- Hrems; rewrite <- (map_id rems) at 1; apply (map_seq_nth (fun x => x))).
      assert (G : forall (a : list (list Z * list (list Z))) ps, length ps = length a -> mapM (fun x => send_table (fst (fst x)) (snd (fst x)) (map istay (snd x))) (combine a (map (fun p => nth p rems []) ps)) = mapM (fun x => send_table (fst (fst x)) (snd (fst x)) (snd x)) (combine a (map itm ps))).
      { induction a as [|y a IH]; intros ps Lp; destruct ps as [|p ps]; try discriminate; auto. cbn [map combine mapM fst snd]. rewrite IH by (cbn in Lp; lia). reflexivity. }
      rewrite RM at 1. apply G. rewrite seq_length, combine_length, CL. lia. }
    rewrite X. cbn [bind]. rewrite (exchange_ok alls dpss gid HC itm itm_len sent r Hr L H). cbn [bind].
    assert (RE : map (fun p => concat (map (fun k => itemg dpss gid itm (Z.to_nat p) (gid r k)) (shared dps p))) all = recvs).
    { unfold recvs. apply map_ext. intros p. f_equal. apply map_ext_in. intros k Hk. unfold shared in Hk. apply filter_In in Hk. destruct Hk as [H1 H2]. apply in_seq in H1. apply mem_In in H2. apply itemg_Ms; auto. lia. }
    rewrite RE. rewrite (rd_ok alls r []) by auto. cbn [bind]. rewrite (rd_ok dpss r []) by lia. cbn [bind]. rewrite (rd_ok rems r []) by lia. cbn [bind]. rewrite (rd_ok sent r []) by lia. cbn [bind].
    assert (SZ : sizes_ok (nth r sent []) recvs = true).
    { destruct (H r Hr) as [L1 H1].
      assert (G : forall (a : list (list Z)) (b : list (list Z)), length a = length b -> (forall i, (i < length a)%nat -> length (nth i a []) = length (nth i b [])) -> sizes_ok a b = true).
      { clear. induction a as [|x a IH]; intros b L H; destruct b as [|y b]; try discriminate; auto. cbn [sizes_ok]. pose proof (H 0%nat ltac:(cbn; lia)) as H0. cbn [nth] in H0. rewrite H0, Nat.eqb_refl. cbn [andb]. apply IH; [cbn in L; lia|]. intros i Hi. apply (H (S i)). cbn; lia. }
      apply G; [unfold recvs; rewrite map_length; auto|]. intros i Hi. rewrite H1 by lia. unfold recvs. rewrite (recv_nth all dps Ms i) by lia. rewrite chan_shared by (apply itm_len; auto).
      assert (Q : forall (f g : nat -> list Z) l, (forall k, In k l -> length (f k) = 1%nat) -> (forall k, length (g k) = 1%nat) -> length (concat (map f l)) = length (concat (map g l))).
      { clear. induction l as [|k l IH]; intros A B; auto. cbn [map concat]. rewrite !app_length, A, B by (cbn; auto). f_equal. apply IH; auto. intros; apply A; cbn; auto. }
      apply Q; [|reflexivity]. intros k Hk. unfold shared in Hk. apply filter_In in Hk. destruct Hk as [Hk _]. apply in_seq in Hk. unfold itm. rewrite (nth_map_in _ _ _ _ true) by (rewrite Hrem; auto; lia). reflexivity. }
    rewrite SZ. cbn [negb].
    set (g := fun (o : list Z * bool) (i : nat) (p : Z) (c : nat) (x : Z) => (if (x =? 1)%Z && negb (snd o) then fst o ++ [p] else fst o, snd o)).
    assert (ALL : forall ps, In ps dps -> NoDup ps /\ incl ps all) by (intros; apply (con_rows _ _ _ HC r); auto).
    destruct (gouter (O := list Z * bool) all (con_sorted _ _ _ HC r Hr) dps ALL Ms 0%Z (fun _ => 1%nat)) with (g := g) (aux := nth r rems []) (init := fun b : bool => (@nil Z, b))
      (fin := fun (q : list (list Z)) (b : bool) (o : list Z * bool) => if b then q else q ++ [fst o]) (dA := true) (q := @nil (list Z)) as (cnt & EQ).
    - intros p k Hk Hp. split; [discriminate|reflexivity].
    - apply Hrem; auto.
    - assert (SL : forall xs cnt (q : list (list Z)), foldM (shrink_loop all recvs) xs (cnt, q) = foldM (gloop all dps Ms (fun _ => 1%nat) g (fun b : bool => (@nil Z, b)) (fun (q : list (list Z)) (b : bool) (o : list Z * bool) => if b then q else q ++ [fst o])) xs (cnt, q)).
      { assert (SP : forall b ps cnt o, (' (c, o') <- foldM (gproc all dps Ms (fun _ => 1%nat) g) ps (cnt, (o, b)) ;; Ret (c, fst o')) = foldM (shrink_proc all recvs b) ps (cnt, o) /\ forall c o', foldM (gproc all dps Ms (fun _ => 1%nat) g) ps (cnt, (o, b)) = Ret (c, o') -> snd o' = b).
        { intros b. induction ps as [|p ps IH]; intros c0 o; [split; [reflexivity|intros c o' Y; cbn in Y; injection Y as <- <-; reflexivity]|]. cbn [foldM]. unfold shrink_proc at 1, gproc at 1 3. fold recvs. destruct (posn p all); [|split; [reflexivity|discriminate]]. cbn [bind].
          destruct (rd c0 _); [|split; [reflexivity|discriminate]]. cbn [bind]. destruct (rd recvs _); [|split; [reflexivity|discriminate]]. cbn [bind]. destruct (rd _ _); [|split; [reflexivity|discriminate]]. cbn [bind]. destruct (wr c0 _ _); [|split; [reflexivity|discriminate]]. cbn [bind].
          unfold g at 2 4. cbn [fst snd]. apply IH. }
        induction xs as [|[ps b] xs IH]; intros c q; [reflexivity|]. cbn [foldM]. unfold shrink_loop at 1, gloop at 1. cbn [fst snd]. destruct (SP b ps c []) as [SP1 SP2]. rewrite <- SP1.
        destruct (foldM (gproc all dps Ms (fun _ => 1%nat) g) ps (c, ([], b))) as [[c1 o1]|]; [|reflexivity]. cbn [bind]. rewrite IH. destruct b; reflexivity. }
      rewrite SL, EQ. cbn [bind]. f_equal. f_equal.
      assert (LO : forall k, (k < length dps)%nat -> nth k (nth r rems []) true = false -> fst (loop_out all dps Ms 0%Z g (nth r rems []) (fun b : bool => (@nil Z, b)) true k) = newrow dpss gid keepR r k).
      { intros k Hk B. unfold loop_out. rewrite B. unfold newrow.
        assert (Q : forall ps o, fold_left (fun o p => g o (pos all p) p (pre dps Ms p k) (hd 0%Z (Ms p k))) ps (o, false) = (o ++ filter (fun q => stays dpss gid keepR (Z.to_nat q) (gid r k)) ps, false)).
        { induction ps as [|p ps IH]; intros o; [cbn; rewrite app_nil_r; reflexivity|]. cbn [fold_left filter]. unfold g at 2. cbn [fst snd negb]. rewrite andb_true_r, IH. unfold Ms. destruct (stays dpss gid keepR (Z.to_nat p) (gid r k)); cbn [negb istay hd]; [change (1 =? 1)%Z with true|change (0 =? 1)%Z with false]; cbv iota; [rewrite <- app_assoc|]; reflexivity. }
        rewrite Q. reflexivity. }
      unfold newdps, keptnr.
      assert (Q : forall ks q, (forall k, In k ks -> (k < length dps)%nat) -> fold_left (fun q k => if nth k (nth r rems []) true then q else q ++ [fst (loop_out all dps Ms 0%Z g (nth r rems []) (fun b : bool => (@nil Z, b)) true k)]) ks q = q ++ map (newrow dpss gid keepR r) (filter (keepR r) ks)).
      { induction ks as [|k ks IH]; intros q Hks; [cbn; rewrite app_nil_r; reflexivity|]. cbn [fold_left filter]. assert (KE : keepR r k = negb (nth k (nth r rems []) true)) by reflexivity. rewrite KE. clear KE. destruct (nth k (nth r rems []) true) eqn:B; cbn [negb]; rewrite IH by (intros; apply Hks; cbn; auto); [reflexivity|].
        rewrite LO by (auto; apply Hks; cbn; auto). cbn [map]. rewrite <- app_assoc. reflexivity. }
      apply (Q _ []). intros k Hk. apply in_seq in Hk. lia.
  Qed.
End Shrink.
