(** Proofs about the model of equivalence classes, part 2: order and ids of the classes, scattering. *)
From Verif Require Import Base EQCModel UtilProofs MISProofs EQCProofs FactoryProofs.
Local Open Scope nat_scope.

(** all ranks of a class of rank [r] *)
Definition members (r : nat) (d : list nat) : list nat := merge_arrays [r] d.
Lemma in_members r d x : In x (members r d) <-> x = r \/ In x d.
Proof. unfold members. rewrite merge_in. cbn. intuition. Qed.
Lemma members_sset r d : sset d -> sset (members r d).
Proof. intros. apply merge_sset; auto. repeat constructor. Qed.
Lemma del_members r d : sset d -> ~ In r d -> del r (members r d) = d.
Proof. intros. apply sset_ext; auto. now apply del_sset, members_sset. intros x. rewrite in_del, in_members. split; [tauto|]. intros X. split; auto. congruence. Qed.
Lemma members_del r D : sset D -> In r D -> members r (del r D) = D.
Proof. intros. apply sset_ext; auto. now apply members_sset, del_sset. intros x. rewrite in_members, in_del. split; [intros [->|]; tauto|]. intros X. destruct (Nat.eq_dec x r); auto. Qed.
Lemma members_inj r d d' : sset d -> sset d' -> ~ In r d -> ~ In r d' -> members r d = members r d' -> d = d'.
Proof. intros. rewrite <- (del_members r d), <- (del_members r d') by auto. now f_equal. Qed.
Lemma sset_hd d x p : sset (p :: d) -> In x (p :: d) -> p <= x.
Proof. intros H [->|X]; auto. inversion H as [|? ? _ F]; subst. rewrite Forall_forall in F. specialize (F x X). lia. Qed.

(** consistent sorted tables of all ranks *)
Record world (tabs : list (list (list nat))) : Prop := {
  w_row : forall r d, r < length tabs -> In d (nth r tabs []) -> sset d /\ ~ In r d /\ forall q, In q d -> q < length tabs;
  w_sort : forall r, r < length tabs -> StronglySorted (fun a b => dps_less a b = true) (nth r tabs []);
  w_cons : forall r d q, r < length tabs -> In d (nth r tabs []) -> In q d -> In (del q (members r d)) (nth q tabs []) }.
Definition classes (tabs : list (list (list nat))) (r : nat) : list (list nat) := map (members r) (nth r tabs []).
(** shared and master *)
Definition mst (r : nat) (d : list nat) : bool := match d with [] => false | p :: _ => r <? p end.

Section World.
  Variable tabs : list (list (list nat)).
  Hypothesis HW : world tabs.
  Notation np := (length tabs).
  Notation tab r := (nth r tabs []).

  Lemma class_facts r D : r < np -> In D (classes tabs r) -> sset D /\ In r D /\ In (del r D) (tab r) /\ (forall q, In q D -> q < np).
  Proof.
    intros Hr H. apply in_map_iff in H as (d & <- & Hd). destruct (w_row tabs HW r d Hr Hd) as (S1 & N1 & L1). split; [now apply members_sset|]. split; [apply in_members; auto|]. split; [now rewrite del_members|].
    intros q X. apply in_members in X as [->|]; auto.
  Qed.
  Lemma class_mem r D : sset D -> In r D -> In (del r D) (tab r) -> In D (classes tabs r).
  Proof. intros S1 I1 H. apply in_map_iff. exists (del r D). split; auto. now apply members_del. Qed.
  Lemma class_cons r D q : r < np -> In D (classes tabs r) -> In q D -> q < np /\ In D (classes tabs q).
  Proof.
    intros Hr H Hq. destruct (class_facts r D Hr H) as (S1 & I1 & T1 & L1). split; auto. destruct (Nat.eq_dec q r) as [->|N]; auto. apply class_mem; auto. rewrite <- (members_del r D S1 I1) at 1. apply (w_cons tabs HW r); auto. now apply in_del.
  Qed.
  Lemma less_asym a b : dps_less a b = true -> dps_less b a = false.
  Proof. apply st_asym. apply dps_less_total. Qed.
  Lemma less_irrefl a : dps_less a a = false. Proof. apply dps_less_total. Qed.
  Lemma classes_sorted r : r < np -> StronglySorted (fun a b => dps_less a b = true) (classes tabs r).
  Proof.
    intros Hr. pose proof (w_sort tabs HW r Hr) as HS. unfold classes.
    assert (HF : forall d, In d (tab r) -> sset d /\ ~ In r d). { intros d Hd. destruct (w_row tabs HW r d Hr Hd). tauto. }
    induction HS as [|d l H IH HFo]; cbn [map]. constructor. constructor. apply IH. intros; apply HF; now right.
    rewrite Forall_forall in *. intros D HD. apply in_map_iff in HD as (d' & <- & Hd'). destruct (HF d (or_introl eq_refl)), (HF d' (or_intror Hd')).
    rewrite <- (dps_del r) by (try apply members_sset; try apply in_members; auto). rewrite !del_members by auto. auto.
  Qed.
  Lemma less_trans a b c : dps_less a b = true -> dps_less b c = true -> dps_less a c = true. Proof. apply dps_less_total. Qed.
  Lemma tab_nodup r : r < np -> NoDup (tab r).
  Proof. intros Hr. pose proof (w_sort tabs HW r Hr) as HS. induction HS as [|d l H IH HF]; constructor; auto. rewrite Forall_forall in HF. intros X. specialize (HF d X). rewrite less_irrefl in HF. discriminate. Qed.

  (** *** the ids a rank gives to its classes *)
  Definition id_of (r tag : nat) (l : list (list nat)) (d : list nat) : nat := tag + length (filter (fun x => mst r x && dps_less x d) l).
  Definition own_id (r tag : nat) (l : list (list nat)) (d : list nat) : option nat :=
    match d with [] => Some (AMG_TAG_BASE + r) | p :: _ => if r <? p then Some (id_of r tag l d) else None end.
  Lemma own_ids_ok r l : StronglySorted (fun a b => dps_less a b = true) l -> forall tag, own_ids r tag l = (map (own_id r tag l) l, tag + length (filter (mst r) l)).
  Proof.
    induction 1 as [|d l H IH HF]; intros tag. cbn. now rewrite Nat.add_0_r. rewrite Forall_forall in HF.
    assert (Z : filter (fun x => mst r x && dps_less x d) (d :: l) = []).
    { assert (G : forall k, incl k (d :: l) -> filter (fun x => mst r x && dps_less x d) k = []); [|apply G, incl_refl].
      induction k as [|x k IHk]; intros HI; auto. cbn. rewrite IHk by (intros y Y; apply HI; now right). destruct (HI x (or_introl eq_refl)) as [<-|X]. now rewrite less_irrefl, Bool.andb_false_r. now rewrite (less_asym d x), Bool.andb_false_r by auto. }
    assert (E : forall d', In d' l -> forall b, mst r d = b -> id_of r tag (d :: l) d' = id_of r (if b then S tag else tag) l d').
    { intros d' Hd' b <-. unfold id_of. cbn [filter]. rewrite (HF d' Hd'), Bool.andb_true_r. destruct (mst r d); cbn; lia. }
    cbn [own_ids map]. destruct d as [|p d].
    - rewrite IH. reflexivity.
    - cbn [own_id]. unfold id_of at 1. rewrite Z. cbn [length filter mst]. destruct (r <? p) eqn:B.
      + rewrite IH. f_equal; [|cbn [length]; lia]. f_equal. f_equal. lia. apply map_ext_in. intros d' Hd'. unfold own_id. destruct d'; auto. destruct (r <? n); auto. now rewrite (E _ Hd' true).
      + rewrite IH. f_equal. f_equal. apply map_ext_in. intros d' Hd'. unfold own_id. destruct d'; auto. destruct (r <? n); auto. now rewrite (E _ Hd' false).
  Qed.
  (** the id of a class: given by its lowest rank *)
  Notation nb := (nblocks_of tabs).
  Notation tb r := (tagbase np r nb).
  Definition gid (D : list nat) : nat :=
    match D with [] => 0 | [r] => AMG_TAG_BASE + r | m :: _ => id_of m (tb m) (tab m) (del m D) end.
  Lemma mst_nb r l : nblocks_loc r l = length (filter (mst r) l). Proof. reflexivity. Qed.
  Lemma nth_nb r : r < np -> nth r nb 0 = length (filter (mst r) (tab r)).
  Proof. intros H. unfold nblocks_of. rewrite nth_indep with (d' := nblocks_loc 0 (tab 0)) by (rewrite map_length, seq_length; auto). rewrite (map_nth (fun r => nblocks_loc r (tab r)) (seq 0 np) 0), seq_nth by auto. apply mst_nb. Qed.
  (** first entry of the full set *)
  Lemma members_master r p d : sset (p :: d) -> r < p -> members r (p :: d) = r :: p :: d.
  Proof. intros H1 H2. apply sset_ext. now apply members_sset. constructor; auto. apply Forall_forall. intros x X. pose proof (sset_hd d x p H1 X). lia. intros x. rewrite in_members. cbn. intuition. Qed.
  Lemma members_slave r p d : p < r -> exists t, members r (p :: d) = p :: t /\ In r t.
  Proof.
    intros H. unfold members. rewrite merge_cons. destruct (Nat.eqb_spec r p); [lia|]. destruct (Nat.ltb_spec r p); [lia|]. exists (merge_arrays [r] d). split; auto. apply merge_in. cbn. auto.
  Qed.
  Lemma gid_local r : gid (members r []) = AMG_TAG_BASE + r. Proof. reflexivity. Qed.
  Lemma gid_master r p d : sset (p :: d) -> r < p -> gid (members r (p :: d)) = id_of r (tb r) (tab r) (p :: d).
  Proof. intros H1 H2. rewrite members_master by auto. cbn [gid]. rewrite del_cons, Nat.eqb_refl, del_notin; auto. intros X. pose proof (sset_hd d r p H1 X). lia. Qed.

  (** *** channels: the classes that go from [src] to [dst], seen from both ends *)
  Definition to_ (src dst : nat) (d : list nat) : bool := match d with r :: _ => (src <? r) && has dst d | [] => false end.
  Definition from_ (src me : nat) (d : list nat) : bool := match d with p :: _ => negb (me <? p) && (p =? src) | [] => false end.
  Lemma channel src me : src < np -> me < np -> map (members src) (filter (to_ src me) (tab src)) = map (members me) (filter (from_ src me) (tab me)).
  Proof.
    intros Hs Hm.
    assert (SF : forall r f, r < np -> StronglySorted (fun a b => dps_less a b = true) (map (members r) (filter f (tab r)))).
    { intros r f Hr. pose proof (classes_sorted r Hr) as CS. unfold classes in CS. clear -CS. induction (tab r) as [|d l IH]; cbn; [constructor|]. cbn in CS. inversion CS as [|? ? H1 H2]; subst. destruct (f d); auto. cbn. constructor; auto.
      rewrite Forall_forall in *. intros x Hx. apply H2. apply in_map_iff in Hx as (y & <- & Hy). apply in_map. now apply filter_In in Hy. }
    apply (ss_ext (fun a b => dps_less a b = true)); auto. intros x; rewrite less_irrefl; discriminate. apply less_trans.
    intros D. rewrite !in_map_iff. split.
    - intros (d & <- & H). apply filter_In in H as (Hd & HT). destruct d as [|p d]; [discriminate|]. cbn [to_] in HT. apply andb_true_iff in HT as (T1 & T2). apply Nat.ltb_lt in T1. apply has_in in T2.
      destruct (w_row tabs HW src _ Hs Hd) as (S1 & N1 & L1). exists (del me (members src (p :: d))). split. apply members_del. now apply members_sset. apply in_members; auto.
      apply filter_In. split. now apply (w_cons tabs HW src). rewrite members_master by auto. rewrite del_cons. assert (src < me) by (pose proof (sset_hd d me p S1 T2); lia). destruct (Nat.eqb_spec src me); [lia|]. cbn [from_]. rewrite Nat.eqb_refl. destruct (Nat.ltb_spec me src); [lia|auto].
    - intros (d & <- & H). apply filter_In in H as (Hd & HT). destruct d as [|p d]; [discriminate|]. cbn [from_] in HT. apply andb_true_iff in HT as (T1 & T2). apply Nat.eqb_eq in T2. subst p. apply Bool.negb_true_iff, Nat.ltb_ge in T1.
      destruct (w_row tabs HW me _ Hm Hd) as (S1 & N1 & L1). assert (src < me) by (assert (src <> me) by (intros ->; apply N1; now left); lia).
      exists (del src (members me (src :: d))). split. apply members_del. now apply members_sset. apply in_members; right; now left.
      apply filter_In. split. apply (w_cons tabs HW me); auto. now left.
      assert (I1 : In me (del src (members me (src :: d)))) by (apply in_del; split; [apply in_members; auto|lia]).
      assert (S2 : sset (del src (members me (src :: d)))) by now apply del_sset, members_sset.
      destruct (del src (members me (src :: d))) as [|q t] eqn:E; [destruct I1|]. cbn [to_]. apply andb_true_iff. split; [|now apply has_in].
      apply Nat.ltb_lt. assert (Hq : In q (del src (members me (src :: d)))) by (rewrite E; now left). apply in_del in Hq as (Q1 & Q2). apply in_members in Q1 as [->|[Q1|Q1]]; [auto|congruence|]. inversion S1 as [|? ? _ F]; subst. rewrite Forall_forall in F. now apply F.
  Qed.
  (** receiving: the channels hold the values of the classes still to come *)
  Definition chan_ok {T} (g : list nat -> T) (me : nat) (l : list (list nat)) (chan : list (list T)) : Prop :=
    length chan = np /\ forall src, src < np -> nth src chan [] = map (fun d => g (members me d)) (filter (from_ src me) l).
  Lemma chan_pop {T} (g : list nat -> T) me p d l chan : p < np -> ~ me < p -> chan_ok g me ((p :: d) :: l) chan -> exists c, nth p chan [] = g (members me (p :: d)) :: c /\ chan_ok g me l (upd chan p c).
  Proof.
    intros Hp Hm (L & H). pose proof (H p Hp) as Hc. cbn [filter from_] in Hc. rewrite Nat.eqb_refl in Hc. destruct (Nat.ltb_spec me p); [lia|]. cbn [negb andb map] in Hc. eexists. split; [exact Hc|]. split; [now rewrite upd_length|].
    intros src Hs. destruct (Nat.eq_dec src p) as [->|N]. now rewrite nth_upd_eq by lia. rewrite nth_upd_neq by auto. rewrite H by auto. cbn [filter from_]. destruct (Nat.eqb_spec p src); [congruence|]. now rewrite Bool.andb_false_r.
  Qed.
  Lemma chan_skip {T} (g : list nat -> T) me d l chan : (match d with [] => True | p :: _ => me < p end) -> chan_ok g me (d :: l) chan -> chan_ok g me l chan.
  Proof. intros Hm (L & H). split; auto. intros src Hs. rewrite H by auto. cbn [filter]. destruct d as [|p d]; auto. cbn [from_]. destruct (Nat.ltb_spec me p); [auto|lia]. Qed.

  Lemma sent_ok src me : src < np -> sent np tabs nb src me = map (fun d => gid (members src d)) (filter (to_ src me) (tab src)).
  Proof.
    intros Hs. unfold sent. rewrite (own_ids_ok src (tab src) (w_sort tabs HW src Hs)). cbn [fst].
    assert (HF : forall d, In d (tab src) -> sset d) by (intros d Hd; now apply (w_row tabs HW src d)).
    assert (G : forall l, incl l (tab src) -> flat_map (fun p => match fst p, snd p with r :: _, Some i => if (src <? r) && has me (fst p) then [i] else [] | _, _ => [] end) (combine l (map (own_id src (tb src) (tab src)) l)) = map (fun d => gid (members src d)) (filter (to_ src me) l)).
    { induction l as [|d l IH]; intros HI; auto. cbn [map combine flat_map filter fst snd]. rewrite IH by (intros x X; apply HI; now right). destruct d as [|p d]; auto. cbn [own_id to_]. destruct (Nat.ltb_spec src p) as [B|B]; auto. cbn [andb]. destruct (has me (p :: d)); auto.
      cbn [map app]. f_equal. rewrite gid_master; auto. apply HF, HI. now left. }
    apply G, incl_refl.
  Qed.
  Lemma recv_ids_ok me l : me < np -> incl l (tab me) -> forall chan, chan_ok gid me l chan -> recv_ids chan l (map (own_id me (tb me) (tab me)) l) = Ret (map (fun d => gid (members me d)) l).
  Proof.
    intros Hm. induction l as [|d l IH]; intros HI chan HC; auto. destruct (w_row tabs HW me d Hm (HI d (or_introl eq_refl))) as (S1 & N1 & L1). assert (HI' : incl l (tab me)) by (intros x X; apply HI; now right).
    cbn [map recv_ids]. destruct d as [|p d]; cbn [own_id].
    - rewrite (IH HI' chan). reflexivity. eapply chan_skip; [|exact HC]. exact I.
    - destruct (Nat.ltb_spec me p) as [B|B].
      + rewrite (IH HI' chan). cbn [bind]. now rewrite gid_master. eapply chan_skip; [|exact HC]. exact B.
      + unfold rd at 1. cbn [nth_error bind]. assert (Hp : p < np) by (apply L1; now left). destruct HC as (LC & HC'). assert (HC : chan_ok gid me ((p :: d) :: l) chan) by (split; auto). rewrite (rd_ok _ _ []) by lia. cbn [bind].
        destruct (chan_pop gid me p d l chan Hp ltac:(lia) HC) as (c & Ec & Hc). rewrite Ec. rewrite wr_ok by lia. cbn [bind]. rewrite (IH HI' _ Hc). reflexivity.
  Qed.
  Lemma eqc_ids_ok me : me < np -> eqc_ids tabs me = Ret (map gid (classes tabs me)).
  Proof.
    intros Hm. unfold eqc_ids. cbv zeta. rewrite (own_ids_ok me (tab me) (w_sort tabs HW me Hm)). cbn [fst]. rewrite recv_ids_ok; auto using incl_refl. unfold classes. now rewrite map_map.
    split; [now rewrite map_length, seq_length|]. intros src Hs. rewrite nth_indep with (d' := sent np tabs nb 0 me) by (rewrite map_length, seq_length; auto). rewrite (map_nth (fun src => sent np tabs nb src me) (seq 0 np) 0), seq_nth by auto. cbn [Nat.add].
    rewrite sent_ok by auto. rewrite <- !(map_map (members _) gid). f_equal. now apply channel.
  Qed.

  (** *** ids are different for different classes *)
  Lemma sum_firstn_S l : forall k, k < length l -> sum (firstn (S k) l) = sum (firstn k l) + nth k l 0.
  Proof. induction l as [|x l IH]; intros k Hk; cbn in Hk; [lia|]. destruct k as [|k]; cbn [firstn sum fold_right nth]; [destruct l; cbn; lia|]. specialize (IH k ltac:(lia)). unfold sum in IH |- *. cbn [firstn fold_right] in *. lia. Qed.
  Lemma sum_firstn_le l : forall a b, a <= b -> sum (firstn a l) <= sum (firstn b l).
  Proof. induction l as [|x l IH]; intros [|a] [|b] H; cbn; try lia. specialize (IH a b ltac:(lia)). unfold sum in IH. lia. Qed.
  Lemma nb_len : length nb = np. Proof. unfold nblocks_of. now rewrite map_length, seq_length. Qed.
  Lemma tb_next r : r < np -> tb (S r) = tb r + length (filter (mst r) (tab r)).
  Proof. intros H. unfold tagbase. rewrite sum_firstn_S by (rewrite nb_len; auto). rewrite nth_nb by auto. lia. Qed.
  Lemma tb_mono a b : a <= b -> tb a <= tb b.
  Proof. intros H. unfold tagbase. pose proof (sum_firstn_le nb a b H). lia. Qed.
  Lemma tb_base r : AMG_TAG_BASE + np <= tb r. Proof. unfold tagbase. lia. Qed.
  Lemma filter_len_mono {A} (f g : A -> bool) l : (forall x, In x l -> f x = true -> g x = true) -> length (filter f l) <= length (filter g l).
  Proof. induction l as [|x l IH]; cbn; intros H; auto. specialize (IH (fun y Y => H y (or_intror Y))). specialize (H x (or_introl eq_refl)). destruct (f x), (g x); cbn; try lia. Qed.
  Lemma filter_len_strict {A} (f g : A -> bool) l x : (forall x, In x l -> f x = true -> g x = true) -> In x l -> f x = false -> g x = true -> length (filter f l) < length (filter g l).
  Proof.
    induction l as [|y l IH]; cbn; intros H [].
    - subst. intros -> ->. cbn. pose proof (filter_len_mono f g l (fun y Y => H y (or_intror Y))). lia.
    - intros F1 F2. specialize (IH (fun y Y => H y (or_intror Y)) H0 F1 F2). specialize (H y (or_introl eq_refl)). destruct (f y), (g y); cbn; try lia.
  Qed.
  Lemma id_range r d : In d (tab r) -> mst r d = true -> tb r <= id_of r (tb r) (tab r) d < tb r + length (filter (mst r) (tab r)).
  Proof.
    intros H1 H2. unfold id_of. split; [lia|]. apply Nat.add_lt_mono_l. apply filter_len_strict with (x := d); auto. intros x _ X. now apply andb_true_iff in X. now rewrite less_irrefl, Bool.andb_false_r.
  Qed.
  Lemma id_mono r d d' : In d (tab r) -> mst r d = true -> dps_less d d' = true -> id_of r (tb r) (tab r) d < id_of r (tb r) (tab r) d'.
  Proof.
    intros H1 H2 H3. unfold id_of. apply Nat.add_lt_mono_l. apply filter_len_strict with (x := d); auto.
    - intros x _ X. apply andb_true_iff in X as (X1 & X2). rewrite X1. cbn. now apply less_trans with d.
    - now rewrite less_irrefl, Bool.andb_false_r.
    - now rewrite H2, H3.
  Qed.
  (** a class has its lowest rank as master *)
  Inductive kind (D : list nat) : nat -> Prop :=
  | k_loc r : D = [r] -> gid D = AMG_TAG_BASE + r -> r < np -> kind D r
  | k_sh m p d : D = m :: p :: d -> m < np -> In (p :: d) (tab m) -> mst m (p :: d) = true -> gid D = id_of m (tb m) (tab m) (p :: d) -> kind D m.
  Lemma class_kind r D : r < np -> In D (classes tabs r) -> exists m, kind D m.
  Proof.
    intros Hr H. destruct (class_facts r D Hr H) as (S1 & I1 & T1 & L1). destruct D as [|m D]; [destruct I1|]. destruct D as [|p d].
    - exists m. apply k_loc; auto. apply L1. now left.
    - exists m. destruct (class_cons r _ m Hr H (or_introl eq_refl)) as (Hm & Hc). destruct (class_facts m _ Hm Hc) as (_ & _ & Tm & _).
      assert (E : del m (m :: p :: d) = p :: d). { rewrite del_cons, Nat.eqb_refl. apply del_notin. inversion S1 as [|? ? _ F]; subst. rewrite Forall_forall in F. intros X. specialize (F m X). lia. }
      rewrite E in Tm. assert (MP : m < p). { inversion S1 as [|? ? _ F]; subst. rewrite Forall_forall in F. apply F. now left. }
      apply k_sh with (p := p) (d := d); auto. cbn. now apply Nat.ltb_lt. cbn [gid]. now rewrite E.
  Qed.
  Lemma gid_inj D D' m m' : kind D m -> kind D' m' -> gid D = gid D' -> D = D'.
  Proof.
    intros K K' E. destruct K as [r E1 E2 E3|m p d E1 E2 E3 E4 E5], K' as [r' F1 F2 F3|m' p' d' F1 F2 F3 F4 F5].
    - assert (r = r') by lia. congruence.
    - pose proof (id_range m' _ F3 F4). pose proof (tb_base m'). lia.
    - pose proof (id_range m _ E3 E4). pose proof (tb_base m). lia.
    - pose proof (id_range m _ E3 E4). pose proof (id_range m' _ F3 F4). pose proof (tb_next m E2). pose proof (tb_next m' F2).
      assert (m = m'). { destruct (Nat.lt_trichotomy m m') as [X|[X|X]]; auto. pose proof (tb_mono (S m) m' X). lia. pose proof (tb_mono (S m') m X). lia. }
      subst m'. rewrite E1, F1. f_equal. destruct (list_eq_dec Nat.eq_dec (p :: d) (p' :: d')) as [|N]; auto. exfalso.
      destruct (proj2 (proj2 dps_less_total) _ _ N) as [X|X]; [pose proof (id_mono m _ _ E3 E4 X)|pose proof (id_mono m _ _ F3 F4 X)]; lia.
  Qed.
  Lemma gid_bound D m : kind D m -> gid D < AMG_TAG_BASE + np + sum nb.
  Proof.
    intros [r E1 E2 E3|m' p d E1 E2 E3 E4 E5]; [lia|]. pose proof (id_range m' _ E3 E4). pose proof (tb_next m' E2). pose proof (tb_mono (S m') np ltac:(lia)). unfold tagbase in *. rewrite (firstn_all2 (n := np) nb) in * by (rewrite nb_len; auto). lia.
  Qed.

  (** *** sizes *)
  Lemma sum_split l : forall k, sum (firstn k l) + sum (skipn k l) = sum l.
  Proof. induction l as [|x l IH]; intros [|k]; cbn; auto. specialize (IH k). unfold sum in IH. lia. Qed.
  Lemma ids_size_ok me : me < np -> ids_size tabs me = AMG_TAG_BASE + np + sum nb + length (filter (mst me) (tab me)).
  Proof. intros Hm. unfold ids_size. cbv zeta. rewrite (own_ids_ok me _ (w_sort tabs HW me Hm)). cbn [snd]. unfold tagbase. pose proof (sum_split nb me). lia. Qed.
  Lemma classes_nodup r : r < np -> NoDup (classes tabs r).
  Proof. intros Hr. pose proof (classes_sorted r Hr) as HS. induction HS as [|d l H IH HF]; constructor; auto. rewrite Forall_forall in HF. intros X. specialize (HF d X). rewrite less_irrefl in HF. discriminate. Qed.
  Lemma idf_ok me : me < np -> exists t, idf_2_ind tabs me (map gid (classes tabs me)) = Ret t /\ forall k, k < length (tab me) -> nth (gid (nth k (classes tabs me) [])) t None = Some k.
  Proof.
    intros Hm. unfold idf_2_ind. set (ids := map gid (classes tabs me)). assert (LC : length (classes tabs me) = length (tab me)) by (unfold classes; now rewrite map_length).
    assert (LI : length ids = length (tab me)) by (unfold ids; now rewrite map_length).
    assert (NI : forall k, k < length (tab me) -> nth k ids 0 = gid (nth k (classes tabs me) [])). { intros k Hk. unfold ids. rewrite nth_indep with (d' := gid []) by (rewrite map_length; lia). apply map_nth. }
    assert (KN : forall k, k < length (tab me) -> exists m, kind (nth k (classes tabs me) []) m). { intros k Hk. apply (class_kind me); auto. apply nth_In. lia. }
    assert (BD : forall k, k < length (tab me) -> nth k ids 0 < ids_size tabs me). { intros k Hk. rewrite NI by auto. destruct (KN k Hk) as (m & Km). pose proof (gid_bound _ _ Km). rewrite ids_size_ok by auto. lia. }
    assert (IJ : forall k k', k < length (tab me) -> k' < length (tab me) -> nth k ids 0 = nth k' ids 0 -> k = k').
    { intros k k' Hk Hk' E. rewrite !NI in E by auto. destruct (KN k Hk) as (m & Km), (KN k' Hk') as (m' & Km'). apply (gid_inj _ _ m m' Km Km') in E. apply (proj1 (NoDup_nth (classes tabs me) []) (classes_nodup me Hm)); auto; lia. }
    assert (G : forall n, n <= length (tab me) -> exists t, foldM (fun a k => i <- rd ids k ;; wr a i (Some k)) (seq 0 n) (repeat None (ids_size tabs me)) = Ret t /\ length t = ids_size tabs me /\ forall k, k < n -> nth (nth k ids 0) t None = Some k).
    { induction n as [|n IH]; intros Hn. eexists. split; [reflexivity|]. split; [apply repeat_length|]. intros; lia. destruct (IH ltac:(lia)) as (t & E & L & H). rewrite seq_S, foldM_app, E. cbn [bind foldM Nat.add]. rewrite (rd_ok _ _ 0) by lia. cbn [bind]. rewrite wr_ok by (rewrite L; apply BD; lia). cbn [bind].
      eexists. split; [reflexivity|]. split; [now rewrite upd_length|]. intros k Hk. destruct (Nat.eq_dec k n) as [->|N]. rewrite nth_upd_eq; auto. rewrite L. apply BD. lia. rewrite nth_upd_neq. apply H. lia. intros X. apply N. apply IJ; auto; lia. }
    destruct (G (length (tab me)) (le_n _)) as (t & E & L & H). exists t. split; auto. intros k Hk. rewrite <- NI by auto. auto.
  Qed.

  (** *** all classes *)
  Definition local_of (r : nat) : list (list nat) := if existsb (list_eqb []) (tab r) then [[r]] else [].
  Definition all_classes : list (list nat) := flat_map (fun r => local_of r ++ map (members r) (filter (mst r) (tab r))) (seq 0 np).
  Lemma in_part r D : r < np -> (In D (local_of r ++ map (members r) (filter (mst r) (tab r))) <-> In D (classes tabs r) /\ hd 0 D = r).
  Proof.
    intros Hr. rewrite in_app_iff. split.
    - intros [H|H].
      + unfold local_of in H. destruct (existsb _ _) eqn:E; [|destruct H]. destruct H as [<-|[]]. apply exists_eqb in E. split; auto. apply in_map_iff. exists []. auto.
      + apply in_map_iff in H as (d & <- & Hd). apply filter_In in Hd as (Hd & M). split; [now apply in_map|]. destruct (w_row tabs HW r d Hr Hd) as (S1 & N1 & _). destruct d as [|p d]; [discriminate|]. apply Nat.ltb_lt in M. now rewrite members_master.
    - intros (H & E). apply in_map_iff in H as (d & <- & Hd). destruct d as [|p d].
      + left. unfold local_of. replace (existsb (list_eqb []) (tab r)) with true. now left. symmetry. now apply exists_eqb.
      + right. apply in_map. apply filter_In. split; auto. cbn. destruct (w_row tabs HW r _ Hr Hd) as (S1 & N1 & _). apply Nat.ltb_lt. destruct (Nat.lt_trichotomy r p) as [|[X|X]]; auto. exfalso; apply N1; now left.
        destruct (members_slave r p d X) as (t & Et & _). rewrite Et in E. cbn in E. lia.
  Qed.
  Lemma all_classes_in D : In D all_classes <-> exists r, r < np /\ In D (classes tabs r).
  Proof.
    unfold all_classes. rewrite in_flat_map. split.
    - intros (r & Hr & H). apply in_seq in Hr. apply in_part in H; [|lia]. exists r. split; [lia|tauto].
    - intros (r & Hr & H). destruct (class_kind r D Hr H) as (m & K). assert (HM : m < np /\ hd 0 D = m /\ In m D). { destruct K as [r' E1 E2 E3|m p d E1 E2 E3 E4 E5]; subst; cbn; auto. }
      destruct HM as (H1 & H2 & H3). exists m. split; [apply in_seq; lia|]. apply in_part; auto. split; auto. now apply (class_cons r).
  Qed.
  Lemma nodup_app {A} (l l' : list A) : NoDup l -> NoDup l' -> (forall x, In x l -> In x l' -> False) -> NoDup (l ++ l').
  Proof. induction 1 as [|x l H1 H2 IH]; cbn; auto. intros H3 H4. constructor. { intros X. apply in_app_or in X as [X|X]; auto. apply (H4 x); auto. } apply IH; auto. intros y Y. apply H4. now right. Qed.
  Lemma nodup_flat {A} (f : nat -> list A) l : NoDup l -> (forall r, In r l -> NoDup (f r)) -> (forall r r' x, In r l -> In r' l -> In x (f r) -> In x (f r') -> r = r') -> NoDup (flat_map f l).
  Proof.
    induction 1 as [|a l H1 H2 IH]; cbn; intros HF HD. constructor. apply nodup_app. apply HF; now left. apply IH. intros; apply HF; now right. intros r r' x R R'. apply HD; now right.
    intros x X Y. apply in_flat_map in Y as (r & R & Y). apply H1. rewrite (HD a r x); auto.
  Qed.
  Lemma all_classes_nodup : NoDup all_classes.
  Proof.
    unfold all_classes. apply nodup_flat. apply seq_NoDup.
    - intros r Hr. apply in_seq in Hr. assert (R : r < np) by lia. apply nodup_app.
      + unfold local_of. destruct (existsb _ _); repeat constructor. auto.
      + pose proof (classes_nodup r R) as ND. unfold classes in ND. revert ND. induction (tab r) as [|d l IH]; cbn; intros ND; auto. inversion ND; subst. destruct (mst r d); auto. cbn. constructor; auto. intros X. apply H1. apply in_map_iff in X as (y & E & Y). apply in_map_iff. exists y. split; auto. now apply filter_In in Y.
      + intros x X Y. unfold local_of in X. destruct (existsb _ _); [|destruct X]. destruct X as [<-|[]]. apply in_map_iff in Y as (d & E & Y). apply filter_In in Y as (Y & M). destruct (w_row tabs HW r d R Y) as (S1 & _). destruct d as [|p d]; [discriminate|]. apply Nat.ltb_lt in M. rewrite members_master in E by auto. discriminate.
    - intros r r' x R R' X X'. apply in_seq in R, R'. apply in_part in X; [|lia]. apply in_part in X'; [|lia]. destruct X, X'. congruence.
  Qed.
  Definition has_local (r : nat) : bool := existsb (list_eqb []) (tab r).
  Lemma all_classes_length : length all_classes = sum nb + length (filter has_local (seq 0 np)).
  Proof.
    unfold all_classes, nblocks_of, sum. induction (seq 0 np) as [|r l IH]; cbn [flat_map map filter fold_right]; auto. rewrite !app_length, map_length, IH. unfold local_of, has_local at 2, nblocks_loc. destruct (existsb (list_eqb []) (tab r)); cbn [length]; unfold mst; lia.
  Qed.

  (** *** scatter *)
  Section Scatter.
    Context {T : Type} (t0 : T) (data : list (list T)).
    Hypothesis HD : forall r, r < np -> length (nth r data []) = length (tab r).
    Fixpoint lookup (d : list nat) (l : list (list nat)) (row : list T) : T :=
      match l, row with x :: l, y :: row => if list_eqb x d then y else lookup d l row | _, _ => t0 end.
    (** the master's value *)
    Definition mval (D : list nat) : T := lookup (del (hd 0 D) D) (tab (hd 0 D)) (nth (hd 0 D) data []).
    Lemma lookup_nth l : NoDup l -> forall row k, k < length l -> length row = length l -> lookup (nth k l []) l row = nth k row t0.
    Proof.
      induction 1 as [|x l H1 H2 IH]; intros [|y row] k Hk HL; cbn in Hk, HL; try lia; try discriminate. destruct k as [|k]; cbn [lookup nth]. now rewrite list_eqb_refl.
      destruct (list_eqb x (nth k l [])) eqn:E. apply list_eqb_eq in E. exfalso. apply H1. rewrite E. apply nth_In. lia. apply IH; lia.
    Qed.
    Lemma scatter_sent_gen src me f l : NoDup l -> incl l (tab src) -> (forall d, In d l -> lookup d (tab src) (nth src data []) = f d) -> forall row, length row = length l -> (forall k, k < length l -> nth k row t0 = f (nth k l [])) ->
      flat_map (fun p => match fst p with r :: _ => if (src <? r) && has me (fst p) then [snd p] else [] | [] => [] end) (combine l row) = map f (filter (to_ src me) l).
    Proof.
      induction 1 as [|d l H1 H2 IH]; intros HI HF [|y row] HL HR; cbn in HL; try lia; auto. cbn [combine flat_map fst snd filter].
      rewrite (IH ltac:(intros x X; apply HI; now right) ltac:(intros; apply HF; now right) row ltac:(lia) ltac:(intros k Hk; apply (HR (S k)); cbn; lia)).
      pose proof (HR 0 ltac:(cbn; lia)) as E. cbn in E. destruct d as [|p d]; auto. cbn [to_]. destruct ((src <? p) && has me (p :: d)); auto. cbn [map app]. now rewrite E.
    Qed.
    Lemma scatter_sent_ok src me : src < np -> scatter_sent tabs data src me = map (fun d => mval (members src d)) (filter (to_ src me) (tab src)).
    Proof.
      intros Hs. unfold scatter_sent. rewrite (scatter_sent_gen src me (fun d => lookup d (tab src) (nth src data []))); auto using incl_refl, tab_nodup.
      - apply map_ext_in. intros d Hd. apply filter_In in Hd as (Hd & HT). destruct d as [|p d]; [discriminate|]. cbn [to_] in HT. apply andb_true_iff in HT as (T1 & _). apply Nat.ltb_lt in T1.
        destruct (w_row tabs HW src _ Hs Hd) as (S1 & N1 & _). unfold mval. pose proof (del_members src _ S1 N1) as E. rewrite members_master in * by auto. cbn [hd]. now rewrite E.
      - intros k Hk. rewrite lookup_nth; auto using tab_nodup.
    Qed.
    Lemma scatter_recv_ok me : me < np -> forall l row, incl l (tab me) -> length row = length l -> (forall k, k < length l -> nth k row t0 = lookup (nth k l []) (tab me) (nth me data [])) ->
      forall chan, chan_ok mval me l chan -> scatter_recv me chan l row = Ret (map (fun d => mval (members me d)) l).
    Proof.
      intros Hm. induction l as [|d l IH]; intros [|y row] HI HL HR chan HC; cbn in HL; try discriminate; auto. destruct (w_row tabs HW me d Hm (HI d (or_introl eq_refl))) as (S1 & N1 & L1). assert (HI' : incl l (tab me)) by (intros x X; apply HI; now right).
      assert (HR' : forall k, k < length l -> nth k row t0 = lookup (nth k l []) (tab me) (nth me data [])) by (intros k Hk; apply (HR (S k)); cbn; lia).
      pose proof (HR 0 ltac:(cbn; lia)) as E0. cbn [nth] in E0. cbn [map scatter_recv]. destruct d as [|p d].
      - rewrite (IH row HI' ltac:(lia) HR' chan). cbn [bind]. f_equal. f_equal. rewrite E0. unfold mval. cbn [members merge_arrays hd]. rewrite del_cons, Nat.eqb_refl. reflexivity. eapply chan_skip; [|exact HC]. exact I.
      - destruct (Nat.ltb_spec me p) as [B|B].
        + rewrite (IH row HI' ltac:(lia) HR' chan). cbn [bind]. f_equal. f_equal. rewrite E0. unfold mval. pose proof (del_members me _ S1 N1) as E. rewrite members_master in * by auto. cbn [hd]. now rewrite E. eapply chan_skip; [|exact HC]. exact B.
        + assert (Hp : p < np) by (apply L1; now left). destruct HC as (LC & HC'). assert (HC : chan_ok mval me ((p :: d) :: l) chan) by (split; auto). rewrite (rd_ok _ _ []) by lia. cbn [bind].
          destruct (chan_pop mval me p d l chan Hp ltac:(lia) HC) as (c & Ec & Hc). rewrite Ec. rewrite wr_ok by lia. cbn [bind]. rewrite (IH row HI' ltac:(lia) HR' _ Hc). reflexivity.
    Qed.
    Lemma scatter_ok me : me < np -> ScatterEQCData tabs data me = Ret (map mval (classes tabs me)).
    Proof.
      intros Hm. unfold ScatterEQCData, classes. rewrite map_map. apply scatter_recv_ok; auto using incl_refl.
      - intros k Hk. rewrite lookup_nth; auto using tab_nodup.
      - split; [now rewrite map_length, seq_length|]. intros src Hs. rewrite nth_indep with (d' := scatter_sent tabs data 0 me) by (rewrite map_length, seq_length; auto). rewrite (map_nth (fun src => scatter_sent tabs data src me) (seq 0 np) 0), seq_nth by auto. cbn [Nat.add].
        rewrite scatter_sent_ok by auto. rewrite <- !(map_map (members _) mval). f_equal. now apply channel.
    Qed.
  End Scatter.
End World.
