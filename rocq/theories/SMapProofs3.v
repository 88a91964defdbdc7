(** Every process that has a loop cuts the same chunks *)
From Verif Require Import Base ArraysModel ArraysProofs ArraysProps LoopModel SMapModel SMapProofs SMapProofs2.
Import ListNotations.

Fixpoint zins (a : Z) (l : list Z) : list Z := match l with [] => [a] | b :: l' => if (a <=? b)%Z then a :: l else b :: zins a l' end.
Definition zsort (l : list Z) : list Z := fold_right zins [] l.
Lemma zins_perm a l : Permutation (zins a l) (a :: l).
Proof. induction l as [|b l IH]; cbn; auto. destruct (a <=? b)%Z; auto. rewrite IH. apply perm_swap. Qed.
Lemma zsort_perm l : Permutation (zsort l) l.
Proof. induction l as [|a l IH]; cbn; auto. fold (zsort l). rewrite zins_perm, IH. reflexivity. Qed.
Lemma zins_sorted a l : StronglySorted Z.le l -> StronglySorted Z.le (zins a l).
Proof.
  induction 1 as [|b l H IH F]; cbn; [repeat constructor|]. destruct (Z.leb_spec a b).
  - constructor; [constructor; auto|]. constructor; auto. eapply Forall_impl; [|exact F]. cbn; intros; lia.
  - constructor; auto. rewrite Forall_forall in *. intros x Hx. apply (Permutation_in _ (zins_perm a l)) in Hx. destruct Hx as [<-|Hx]; [lia|auto].
Qed.
Lemma zsort_sorted l : StronglySorted Z.le (zsort l).
Proof. induction l as [|a l IH]; cbn; [constructor|]. apply zins_sorted; auto. Qed.
Lemma sorted_same : forall l l', StronglySorted Z.le l -> StronglySorted Z.le l' -> Permutation l l' -> l = l'.
Proof.
  induction l as [|a l IH]; intros l' H H' P; [apply Permutation_nil in P; auto|]. destruct l' as [|b l']; [symmetry in P; apply Permutation_nil in P; discriminate|].
  apply StronglySorted_inv in H. destruct H as [H F]. apply StronglySorted_inv in H'. destruct H' as [H' F']. rewrite Forall_forall in *.
  assert (a = b). { assert (A : In a (b :: l')) by (rewrite <- P; cbn; auto). assert (B : In b (a :: l)) by (rewrite P; cbn; auto). destruct A as [A|A], B as [B|B]; auto. specialize (F _ B). specialize (F' _ A). lia. }
  subst b. f_equal. apply IH; auto. eapply Permutation_cons_inv; eauto.
Qed.
Lemma zsort_same l l' : NoDup l -> NoDup l' -> (forall q, In q l <-> In q l') -> zsort l = zsort l'.
Proof. intros N N' H. apply sorted_same; try apply zsort_sorted. rewrite !zsort_perm. apply NoDup_Permutation; auto. Qed.

Definition rankof (x : coord) : Z := snd (fst (fst x)).
Lemma sort_coords_rank l : map rankof (sort_coords l) = zsort (map rankof l).
Proof.
  induction l as [|x l IH]; cbn; auto. fold (sort_coords l). fold (zsort (map rankof l)). rewrite <- IH. clear IH. induction (sort_coords l) as [|y m IH]; cbn; auto.
  change (snd (fst (fst x))) with (rankof x). change (snd (fst (fst y))) with (rankof y). destruct (rankof x <=? rankof y)%Z; cbn; auto. rewrite IH. reflexivity.
Qed.
Lemma ins_coord_perm x l : Permutation (ins_coord x l) (x :: l).
Proof. induction l as [|y l IH]; cbn; auto. destruct (_ <=? _)%Z; auto. rewrite IH. apply perm_swap. Qed.
Lemma sort_coords_perm l : Permutation (sort_coords l) l.
Proof. induction l as [|x l IH]; cbn; auto. fold (sort_coords l). rewrite ins_coord_perm, IH. reflexivity. Qed.

Definition dR : rankd := mkR [] [] [] [] [] [] [] [] (fun _ => None) (fun _ _ => (-1)%Z) [].

Section W.
  Variable W : list rankd.
  Variable gid : nat -> nat -> nat.
  Let alls := map r_all W.
  Let dpss := map r_dps W.
  Hypothesis HC : consistent alls dpss gid.
  Hypothesis Hlen : forall R, In R W -> length (r_dps R) = length (r_loops R).
  Variable inits : nat -> list (list edge4).
  Hypothesis Hinits : forall p, (p < length W)%nat -> init_cl_vs (nth p W dR) = Ret (inits p).
  Let np := length W.

  Lemma np_eq : length alls = np. Proof. apply map_length. Qed.
  Lemma alls_nth p : (p < np)%nat -> nth p alls [] = r_all (nth p W dR).
  Proof. intros H. unfold alls. change (@nil Z) with (r_all dR). apply map_nth. Qed.
  Lemma dpss_nth p : (p < np)%nat -> nth p dpss [] = r_dps (nth p W dR).
  Proof. intros H. unfold dpss. change (@nil (list Z)) with (r_dps dR). apply map_nth. Qed.
  Lemma inits_len p : (p < np)%nat -> length (inits p) = length (nth p dpss []).
  Proof.
    intros H. rewrite dpss_nth by auto. rewrite Hlen by (apply nth_In; auto). specialize (Hinits p H). unfold init_cl_vs in Hinits. apply mapM_Forall2 in Hinits. symmetry. eapply F2_length; eauto.
  Qed.
  Definition msgs (p : nat) : list (list edge4) := map message (inits p).
  Lemma msgs_len p : (p < np)%nat -> length (msgs p) = length (nth p dpss []).
  Proof. intros H. unfold msgs. rewrite map_length. apply inits_len; auto. Qed.
  (** the part of the loop [g] that process p enters *)
  Definition part_of (p g : nat) : list edge4 := itemg dpss gid inits p g.

  Lemma inits_mapM : mapM init_cl_vs W = Ret (map inits (seq 0 np)).
  Proof.
    assert (G : forall l k, (forall i, (i < length l)%nat -> nth i l dR = nth (k + i) W dR) -> (k + length l = np)%nat -> mapM init_cl_vs l = Ret (map inits (seq k (length l)))).
    { induction l as [|R l IH]; intros k H L; [reflexivity|]. cbn [mapM length seq map] in *. pose proof (H 0%nat ltac:(lia)) as E. cbn in E. rewrite Nat.add_0_r in E. rewrite E, Hinits by (unfold np in L; lia). cbn [bind].
      rewrite (IH (S k)); [reflexivity| |lia]. intros i Hi. specialize (H (S i) ltac:(lia)). cbn [nth] in H. rewrite H. f_equal. lia. }
    apply (G W 0%nat); auto.
  Qed.
  Lemma map_seq_nth {A B} (f : A -> B) (l : list A) d : map f l = map (fun i => f (nth i l d)) (seq 0 (length l)).
  Proof. induction l as [|a l IH]; auto. cbn [length seq map nth]. f_equal. rewrite <- seq_shift, map_map. exact IH. Qed.

  Lemma sent_eq : mapM (fun x => send_table (r_all (fst x)) (r_dps (fst x)) (map message (snd x))) (combine W (map inits (seq 0 np)))
    = mapM (fun x => send_table (fst (fst x)) (snd (fst x)) (snd x)) (combine (combine alls dpss) (map msgs (seq 0 (length alls)))).
  Proof.
    rewrite np_eq. unfold alls, dpss, msgs, np. clear. generalize 0%nat. induction W as [|R l IH]; intros k; [reflexivity|]. cbn [length seq map combine mapM fst snd]. rewrite IH. reflexivity.
  Qed.

  Variable r : nat.
  Hypothesis Hr : (r < np)%nat.
  Notation dps := (r_dps (nth r W dR)).
  Notation all := (r_all (nth r W dR)).
  Definition Mr (p : Z) (k : nat) : list edge4 := message (part_of (Z.to_nat p) (gid r k)).

  Lemma dps_rows ps : In ps dps -> NoDup ps /\ incl ps all.
  Proof. intros H. rewrite <- alls_nth by auto. apply (con_rows _ _ _ HC r); [rewrite np_eq; auto|]. rewrite dpss_nth; auto. Qed.
  Lemma all_range p : In p all -> (0 <= p < Z.of_nat np)%Z /\ p <> Z.of_nat r.
  Proof. intros H. rewrite <- alls_nth in H by auto. rewrite <- np_eq. apply (con_range _ _ _ HC r); [rewrite np_eq; auto|auto]. Qed.
  Lemma all_sorted : StronglySorted Z.lt all.
  Proof. rewrite <- alls_nth by auto. apply (con_sorted _ _ _ HC). rewrite np_eq; auto. Qed.

  (** the partner of a shared loop *)
  Lemma partner p k : (k < length dps)%nat -> In p (nth k dps []) -> exists k', (k' < length (nth (Z.to_nat p) dpss []))%nat /\ gid (Z.to_nat p) k' = gid r k.
  Proof.
    intros Hk Hp. destruct (dps_rows (nth k dps []) (nth_In _ _ Hk)) as [_ I]. destruct (all_range p (I _ Hp)) as [Rp _].
    pose proof (con_order _ _ _ HC r (Z.to_nat p) ltac:(rewrite np_eq; auto) ltac:(rewrite np_eq; lia)) as E. rewrite Z2Nat.id in E by lia.
    assert (J : In (gid r k) (map (gid r) (shared (nth r dpss []) p))).
    { apply in_map. unfold shared. apply filter_In. rewrite dpss_nth by auto. split; [apply in_seq; lia|apply mem_In; auto]. }
    rewrite E in J. apply in_map_iff in J. destruct J as (k' & E' & J). exists k'. split; auto. unfold shared in J. apply filter_In in J. destruct J as [J _]. apply in_seq in J. lia.
  Qed.
  Lemma itemg_msgs p k : (k < length dps)%nat -> In p (nth k dps []) -> itemg dpss gid msgs (Z.to_nat p) (gid r k) = Mr p k.
  Proof.
    intros Hk Hp. destruct (partner p k Hk Hp) as (k' & H' & E). unfold Mr, part_of. rewrite <- E. 
    assert (Rp : (Z.to_nat p < np)%nat) by (destruct (dps_rows (nth k dps []) (nth_In _ _ Hk)) as [_ I]; destruct (all_range p (I _ Hp)) as [Rp _]; lia).
    rewrite (itemg_ok _ _ _ HC msgs) by auto. rewrite (itemg_ok _ _ _ HC inits) by auto. unfold msgs.
    rewrite (nth_indep _ [] (message [])) by (rewrite map_length, inits_len; auto). rewrite map_nth. reflexivity.
  Qed.

  Definition recvr : list (list edge4) := map (fun p => concat (map (Mr p) (shared dps p))) all.
  Lemma recv_ok sent : length sent = length alls -> (forall p, (p < length alls)%nat -> length (nth p sent []) = length (nth p alls []) /\
      forall i, (i < length (nth p alls []))%nat -> nth i (nth p sent []) [] = chan (nth i (nth p alls []) 0%Z) (combine (nth p dpss []) (msgs p))) ->
    exchange alls sent r = Ret recvr.
  Proof.
    intros L H. rewrite (exchange_ok alls dpss gid HC msgs ltac:(intros p Hp; apply msgs_len; rewrite <- np_eq; auto) sent r ltac:(rewrite np_eq; auto) L H). f_equal. unfold recvr. rewrite alls_nth, dpss_nth by auto.
    apply map_ext. intros p. f_equal. apply map_ext_in. intros k Hk. unfold shared in Hk. apply filter_In in Hk. destruct Hk as [H1 H2]. apply in_seq in H1. apply mem_In in H2. apply itemg_msgs; auto. lia.
  Qed.

  Definition coordof (p : Z) (k : nat) : coord := (Z.of_nat (pos all p), p, (pre dps Mr p k + 1)%nat, Z.of_nat (length (part_of (Z.to_nat p) (gid r k)))).
  Definition crow (k : nat) : list coord := sort_coords (map (fun p => coordof p k) (nth k dps []) ++ [((-1)%Z, Z.of_nat r, 0%nat, Z.of_nat (length (nth k (r_loops (nth r W dR)) [])))]).
  Lemma chunk_ijks_ok : chunk_ijks all dps (r_loops (nth r W dR)) recvr (Z.of_nat r) = Ret (map crow (seq 0 (length dps))).
  Proof.
    unfold chunk_ijks.
    set (g := fun (o : list coord) (i : nat) (p : Z) (c : nat) (x : edge4) => o ++ [(Z.of_nat i, p, (c + 1)%nat, fst (fst x))]).
    set (adv := fun x : edge4 => (1 + Z.to_nat (fst (fst x)))%nat).
    destruct (gouter (O := list coord) all all_sorted dps dps_rows Mr ((0, 0), (0, 0))%Z adv) with (g := g) (aux := r_loops (nth r W dR)) (init := fun _ : list Z => @nil coord)
      (fin := fun (q : list (list coord)) (l : list Z) (o : list coord) => q ++ [sort_coords (o ++ [((-1)%Z, Z.of_nat r, 0%nat, Z.of_nat (length l))])]) (dA := @nil Z) (q := @nil (list coord)) as (cnt & E).
    - intros p k Hk Hp. split; [discriminate|]. cbn. rewrite Nat2Z.id. reflexivity.
    - symmetry. apply Hlen. apply nth_In; auto.
    - match type of E with foldM ?F _ _ = _ => match goal with |- context [foldM ?G _ _] => assert (EE : G = F) by reflexivity; rewrite EE, E end end. cbn [bind]. f_equal.
      assert (LO : forall k, loop_out all dps Mr ((0, 0), (0, 0))%Z g (r_loops (nth r W dR)) (fun _ : list Z => @nil coord) [] k = map (fun p => coordof p k) (nth k dps [])).
      { intros k. unfold loop_out. assert (G : forall ps o, fold_left (fun o p => g o (pos all p) p (pre dps Mr p k) (hd ((0, 0), (0, 0))%Z (Mr p k))) ps o = o ++ map (fun p => coordof p k) ps).
        { induction ps as [|p ps IH]; intros o; cbn [fold_left map]; [rewrite app_nil_r; auto|]. rewrite IH. unfold g, coordof at 2. rewrite <- app_assoc. reflexivity. }
        apply (G _ []). }
      assert (G : forall ks q, fold_left (fun q k => q ++ [sort_coords (loop_out all dps Mr ((0, 0), (0, 0))%Z g (r_loops (nth r W dR)) (fun _ : list Z => @nil coord) [] k ++ [((-1)%Z, Z.of_nat r, 0%nat, Z.of_nat (length (nth k (r_loops (nth r W dR)) [])))])]) ks q = q ++ map crow ks).
      { induction ks as [|k ks IH]; intros q; cbn [fold_left map]; [rewrite app_nil_r; auto|]. rewrite IH, LO, <- app_assoc. reflexivity. }
      apply (G _ []).
  Qed.

  Lemma part_ok {A} (a m b : list A) : part (a ++ m ++ b) (length a) (Z.of_nat (length m)) = Ret m.
  Proof.
    unfold part. destruct (Z.ltb_spec (Z.of_nat (length m)) 0); [lia|]. rewrite Nat2Z.id, !app_length. destruct (Nat.ltb_spec (length a + (length m + length b)) (length a + length m)); [lia|]. cbn [orb]. f_equal.
    rewrite skipn_app, skipn_all, Nat.sub_diag. cbn [skipn app]. rewrite firstn_app, firstn_all, Nat.sub_diag. cbn. apply app_nil_r.
  Qed.
  Lemma chunk_of p k mine : (k < length dps)%nat -> In p (nth k dps []) -> chunk_data recvr mine (coordof p k) = Ret (part_of (Z.to_nat p) (gid r k)).
  Proof.
    intros Hk Hp. unfold chunk_data, coordof. destruct (Z.ltb_spec (Z.of_nat (pos all p)) 0); [lia|]. unfold rdz. destruct (Z.ltb_spec (Z.of_nat (pos all p)) 0); [lia|]. rewrite Nat2Z.id.
    destruct (dps_rows (nth k dps []) (nth_In _ _ Hk)) as [_ I]. destruct (posn_ok p all all_sorted (I _ Hp)) as (i & E & Hi & Ei). unfold pos. rewrite E.
    rewrite (rd_ok recvr i []) by (unfold recvr; rewrite map_length; auto). cbn [bind]. unfold recvr. rewrite (recv_nth all dps Mr i Hi), Ei. destruct (row_split dps Mr p k Hk Hp) as (a & b & -> & La).
    rewrite <- La. unfold Mr, message. cbn [app]. set (cl := part_of (Z.to_nat p) (gid r k)).
    pose proof (part_ok (a ++ [((Z.of_nat (length cl), (-1)%Z), ((-1)%Z, (-1)%Z))]) cl b) as X. rewrite app_length, <- app_assoc in X. exact X.
  Qed.

  (** the processes of a loop, in ascending order *)
  Definition group (k : nat) : list Z := zsort (nth k dps [] ++ [Z.of_nat r]).
  Lemma data_ok k : (k < length dps)%nat -> mapM (chunk_data recvr (nth k (inits r) [])) (crow k) = Ret (map (fun p => part_of (Z.to_nat p) (gid r k)) (group k)).
  Proof.
    intros Hk. rewrite (mapM_ok _ (fun x => part_of (Z.to_nat (rankof x)) (gid r k))).
    - f_equal. rewrite <- (map_map rankof (fun p => part_of (Z.to_nat p) (gid r k))). f_equal. unfold crow, group. rewrite sort_coords_rank, map_app, map_map. f_equal. f_equal. rewrite <- map_id. apply map_ext. reflexivity.
    - intros x Hx. unfold crow in Hx. apply (Permutation_in _ (sort_coords_perm _)) in Hx. apply in_app_or in Hx. destruct Hx as [Hx|[<-|[]]].
      + apply in_map_iff in Hx. destruct Hx as (p & <- & Hp). apply chunk_of; auto.
      + unfold chunk_data, rankof. cbn [fst snd]. change (-1 <? 0)%Z with true. cbv iota. rewrite Nat2Z.id. f_equal. unfold part_of. symmetry. apply (itemg_ok _ _ _ HC). rewrite dpss_nth; auto.
  Qed.

  Theorem phase2_eq sorti fuel : phase2 sorti fuel W r = mapM (fun k => loops_of sorti fuel (map (fun p => part_of (Z.to_nat p) (gid r k)) (group k))) (seq 0 (length dps)).
  Proof.
    unfold phase2. rewrite inits_mapM. cbn [bind]. rewrite sent_eq.
    destruct (send_world alls dpss gid HC msgs) as (sent & E & L & H). fold alls. rewrite E. cbn [bind]. rewrite (recv_ok sent L H). cbn [bind].
    rewrite (rd_ok W r dR) by auto. cbn [bind]. rewrite (rd_ok _ r []) by (rewrite map_length, seq_length; auto). cbn [bind].
    replace (nth r (map inits (seq 0 np)) []) with (inits r).
    2:{ rewrite (nth_indep _ [] (inits 0)) by (rewrite map_length, seq_length; auto). rewrite map_nth, seq_nth by auto. reflexivity. }
    rewrite chunk_ijks_ok. cbn [bind].
    assert (LI : length (inits r) = length dps) by (rewrite inits_len, dpss_nth; auto).
    assert (CB : combine (map crow (seq 0 (length dps))) (inits r) = map (fun k => (crow k, nth k (inits r) [])) (seq 0 (length dps))).
    { rewrite <- LI. assert (G : forall (l : list (list edge4)) j, combine (map crow (seq j (length l))) l = map (fun k => (crow k, nth (k - j) l [])) (seq j (length l))).
      { induction l as [|a l IH]; intros j; [reflexivity|]. cbn [length seq map combine]. rewrite IH, Nat.sub_diag. f_equal. apply map_ext_in. intros k Hk. apply in_seq in Hk. f_equal. replace (k - j)%nat with (S (k - S j))%nat by lia. reflexivity. }
      rewrite (G _ 0%nat). apply map_ext. intros k. rewrite Nat.sub_0_r. reflexivity. }
    rewrite CB. clear CB.
    assert (G : forall ks, (forall k, In k ks -> (k < length dps)%nat) -> mapM (it_loop sorti fuel recvr) (map (fun k => (crow k, nth k (inits r) [])) ks) = mapM (fun k => loops_of sorti fuel (map (fun p => part_of (Z.to_nat p) (gid r k)) (group k))) ks).
    { induction ks as [|k ks IH]; intros Hks; [reflexivity|]. cbn [map mapM]. unfold it_loop at 1. cbn [fst snd]. rewrite data_ok by (apply Hks; cbn; auto). cbn [bind]. rewrite IH by (intros; apply Hks; cbn; auto). reflexivity. }
    apply G. intros k Hk. apply in_seq in Hk. lia.
  Qed.
End W.
