(** Proofs about the model of equivalence classes, part 3: completion of the classes. *)
From Verif Require Import Base EQCModel UtilProofs MISProofs EQCProofs EQCProofs2.
Local Open Scope nat_scope.

(** *** all sublists *)
Fixpoint subs (l : list nat) : list (list nat) := match l with [] => [[]] | x :: l => map (cons x) (subs l) ++ subs l end.
Lemma subs_length l : length (subs l) = 2 ^ length l.
Proof. induction l as [|x l IH]; cbn [subs length]; auto. rewrite app_length, map_length, IH. cbn [Nat.pow]. lia. Qed.
Lemma subs_in l : sset l -> forall d, sset d -> incl d l -> In d (subs l).
Proof.
  induction 1 as [|x l H IH HF]; intros d Hd HI; cbn [subs].
  - destruct d as [|y d]; [now left|]. destruct (HI y (or_introl eq_refl)).
  - rewrite Forall_forall in HF. apply in_or_app. destruct (in_dec Nat.eq_dec x d) as [X|X].
    + left. destruct d as [|y d]; [destruct X|]. assert (y = x). { destruct X as [|X]; auto. inversion Hd as [|? ? H1 H2]; subst. rewrite Forall_forall in H2. specialize (H2 x X). destruct (HI y (or_introl eq_refl)) as [|Y]; auto. specialize (HF y Y). lia. }
      subst y. apply in_map. inversion Hd as [|? ? H1 H2]; subst. apply IH; auto. intros z Hz. rewrite Forall_forall in H2. specialize (H2 z Hz). destruct (HI z (or_intror Hz)); auto. lia.
    + right. apply IH; auto. intros z Hz. destruct (HI z Hz); auto. congruence.
Qed.
Lemma neighbours_in dps x : In x (neighbours dps) <-> In x (concat dps).
Proof. unfold neighbours. rewrite sort_nat_in. apply nodup_In. Qed.
Lemma neighbours_sset dps : sset (neighbours dps).
Proof. unfold neighbours. apply sort_nat_set. apply NoDup_nodup. Qed.

Section Rank.
  Variable dps : list (list nat).
  Notation N := (2 ^ length (neighbours dps)).
  (** different sorted rows, each contained in an initial one *)
  Record inv (nd : list (list nat)) : Prop := { v_nd : NoDup nd; v_ss : forall d, In d nd -> sset d; v_sub : forall d, In d nd -> exists d0, In d0 dps /\ incl d d0 }.
  Lemma inv_len nd : inv nd -> length nd <= N.
  Proof.
    intros [H1 H2 H3]. rewrite <- subs_length. apply NoDup_incl_length; auto. intros d Hd. apply subs_in; auto using neighbours_sset. intros x Hx. destruct (H3 d Hd) as (d0 & D0 & I0). apply neighbours_in. apply in_concat. exists d0. auto.
  Qed.
  Lemma inv_add nd c : inv nd -> ~ In c nd -> sset c -> (exists d0, In d0 dps /\ incl c d0) -> inv (nd ++ [c]).
  Proof.
    intros [H1 H2 H3] HN HS HC. constructor.
    - apply nodup_app; auto. repeat constructor; auto. intros x X [<-|[]]. contradiction.
    - intros d Hd. apply in_app_or in Hd as [|[<-|[]]]; auto.
    - intros d Hd. apply in_app_or in Hd as [|[<-|[]]]; auto.
  Qed.

  (** *** merging *)
  Lemma scan_ok m rows : sset m -> (forall r, In r rows -> sset r) -> forall v v' n', scan m rows v = (v', n') -> (n' = true -> ~ In m rows) /\ (v' = true -> v = true \/ exists r, In r rows /\ incl m r).
  Proof.
    intros Sm. induction rows as [|r rows IH]; intros SR v v' n'; cbn [scan].
    - intros [= <- <-]. split; auto.
    - destruct (forallb (fun p => has p r) m) eqn:B; cbn [andb].
      + assert (IM : incl m r) by (rewrite forallb_forall in B; intros x X; apply has_in; now apply B).
        destruct (Nat.eqb_spec (length r) (length m)) as [E|E].
        * intros [= <- <-]. split; [discriminate|]. intros _. right. exists r. split; auto. now left.
        * intros H. destruct (IH (fun x X => SR x (or_intror X)) _ _ _ H) as (H1 & H2). split.
          { intros Hn [<-|X]; auto. now apply (H1 Hn). } intros _. right. exists r. split; auto. now left.
      + intros H. rewrite Bool.orb_false_r in H. destruct (IH (fun x X => SR x (or_intror X)) _ _ _ H) as (H1 & H2). split.
        * intros Hn [<-|X]; [|now apply (H1 Hn)]. apply Bool.not_true_iff_false in B. apply B. apply forallb_forall. intros x X. now apply has_in.
        * intros Hv. destruct (H2 Hv) as [|(r0 & R0 & I0)]; auto. right. exists r0. split; auto. now right.
  Qed.
  Lemma merge_inner_ok fuel : forall e1 e2 nd, inv nd -> e1 < length nd -> e1 - e2 < fuel -> exists ext, merge_inner fuel e1 e2 nd = Ret (nd ++ ext) /\ inv (nd ++ ext).
  Proof.
    induction fuel as [|f IH]; intros e1 e2 nd HI H1 HF; [lia|]. cbn [merge_inner]. destruct (Nat.ltb_spec e2 e1) as [B|B].
    - rewrite !(rd_ok _ _ []) by lia. cbn [bind]. set (m := merge_arrays _ _). assert (Sm : sset m) by (apply merge_sset; apply (v_ss nd HI); apply nth_In; lia).
      destruct (scan m nd false) as (valid, is_new) eqn:ES. destruct (scan_ok m nd Sm (v_ss nd HI) _ _ _ ES) as (S1 & S2). destruct (valid && is_new) eqn:EV.
      + apply andb_true_iff in EV as (-> & ->). assert (HI' : inv (nd ++ [m])). { apply inv_add; auto. destruct (S2 eq_refl) as [|(r & R1 & R2)]; [discriminate|]. destruct (v_sub nd HI r R1) as (d0 & D0 & I0). exists d0. split; auto. intros x X. auto. }
        destruct (IH e1 (S e2) _ HI') as (ext & E & I'); [rewrite app_length; cbn; lia|lia|]. exists (m :: ext). replace (nd ++ m :: ext) with ((nd ++ [m]) ++ ext) by now rewrite <- app_assoc. auto.
      + apply IH; auto. lia.
    - exists []. rewrite app_nil_r. auto.
  Qed.
  Lemma merge_outer_ok fuel : forall e1 nd, inv nd -> e1 <= length nd -> 2 * N + 2 <= fuel + e1 -> exists ext, merge_outer fuel e1 nd = Ret (nd ++ ext) /\ inv (nd ++ ext).
  Proof.
    induction fuel as [|f IH]; intros e1 nd HI H1 HF. pose proof (inv_len nd HI). lia. cbn [merge_outer]. destruct (Nat.ltb_spec e1 (length nd)) as [B|B].
    - pose proof (inv_len nd HI). destruct (merge_inner_ok (S f) e1 0 nd HI B) as (ext & E & I'); [lia|]. rewrite E. cbn [bind]. destruct (IH (S e1) _ I') as (ext' & E' & I''); [rewrite app_length; lia|lia|]. exists (ext ++ ext'). rewrite app_assoc. auto.
    - exists []. rewrite app_nil_r. auto.
  Qed.

  (** *** intersections *)
  Definition inter (a b : list nat) : list nat := sort_by Nat.ltb (filter (fun p => has p b) a).
  Lemma inter_in a b x : In x (inter a b) <-> In x a /\ In x b.
  Proof. unfold inter. rewrite sort_nat_in, filter_In, has_in. tauto. Qed.
  Lemma inter_sset a b : sset a -> sset (inter a b).
  Proof. intros H. unfold inter. apply sort_nat_set. apply NoDup_filter. now apply sset_nodup. Qed.
  Inductive gen (base : list (list nat)) : list nat -> Prop :=
  | g_base d : In d base -> gen base d
  | g_int a b : gen base a -> gen base b -> gen base (inter a b).
  Section Gen.
    Variable base : list (list nat).
    Record ginv (nd : list (list nat)) : Prop := { gi_inv : inv nd; gi_gen : forall d, In d nd -> gen base d }.
    Lemma ginv_add nd k j : ginv nd -> k < length nd -> j < length nd -> ~ In (inter (nth k nd []) (nth j nd [])) nd -> ginv (nd ++ [inter (nth k nd []) (nth j nd [])]).
    Proof.
      intros [HI HG] Hk Hj HN. pose proof (nth_In nd [] Hk) as Ik. pose proof (nth_In nd [] Hj) as Ij. constructor.
      - apply inv_add; auto. apply inter_sset, (v_ss nd HI); auto. destruct (v_sub nd HI _ Ik) as (d0 & D0 & I0). exists d0. split; auto. intros x X. apply inter_in in X. apply I0. tauto.
      - intros d Hd. apply in_app_or in Hd as [|[<-|[]]]; auto. apply g_int; auto.
    Qed.
    Lemma inner_ok fuel : forall k j nd ch, ginv nd -> k < length nd -> j <= length nd -> N < fuel + j -> exists ext ch', isect_inner fuel k j nd ch = Ret (nd ++ ext, ch') /\ ginv (nd ++ ext) /\
      (ext <> [] -> ch' = true) /\ (ch = true -> ch' = true) /\ (ch' = false -> ext = [] /\ forall i, j <= i < length nd -> In (inter (nth k nd []) (nth i nd [])) nd) /\ (ext = [] -> ch' = ch).
    Proof.
      induction fuel as [|f IH]; intros k j nd ch HG Hk Hj HF. pose proof (inv_len nd (gi_inv nd HG)). lia. cbn [isect_inner]. destruct (Nat.ltb_spec j (length nd)) as [B|B].
      - rewrite !(rd_ok _ _ []) by lia. cbn [bind]. fold (inter (nth k nd []) (nth j nd [])). destruct (existsb _ _) eqn:E.
        + apply exists_eqb in E. destruct (IH k (S j) nd ch HG Hk B ltac:(lia)) as (ext & ch' & E1 & E2 & E3 & E4 & E5 & E6). exists ext, ch'. split; auto. split; auto. split; auto. split; auto. split; auto. intros X. destruct (E5 X) as (Y & Z). split; auto. intros i Hi. destruct (Nat.eq_dec i j) as [->|]; auto. apply Z. lia.
        + apply exists_eqb_false in E. pose proof (ginv_add nd k j HG Hk B E) as HG'. destruct (IH k (S j) _ true HG') as (ext & ch' & E1 & E2 & E3 & E4 & E5 & E6). rewrite app_length; cbn; lia. rewrite app_length; cbn; lia. lia.
          exists (inter (nth k nd []) (nth j nd []) :: ext), ch'. replace (nd ++ _ :: ext) with ((nd ++ [inter (nth k nd []) (nth j nd [])]) ++ ext) by now rewrite <- app_assoc. rewrite (E4 eq_refl) in *. split; auto. split; auto. split; auto. split; auto. split; [discriminate|discriminate].
      - exists [], ch. rewrite app_nil_r. split; auto. split; auto. split; [contradiction|]. split; auto. split; auto. intros _. split; auto. intros; lia.
    Qed.
    Lemma outer_ok fuel : forall k nd ch, ginv nd -> k <= length nd -> 2 * N + 2 <= fuel + k -> exists ext ch', isect_outer fuel k nd ch = Ret (nd ++ ext, ch') /\ ginv (nd ++ ext) /\
      (ch = true -> ch' = true) /\ (ch' = false -> ext = [] /\ forall a i, k <= a < length nd -> i < length nd -> In (inter (nth a nd []) (nth i nd [])) nd) /\ (ext = [] -> ch' = ch).
    Proof.
      induction fuel as [|f IH]; intros k nd ch HG Hk HF. pose proof (inv_len nd (gi_inv nd HG)). lia. cbn [isect_outer]. destruct (Nat.ltb_spec k (length nd)) as [B|B].
      - pose proof (inv_len nd (gi_inv nd HG)). destruct (inner_ok (S f) k 0 nd ch HG B ltac:(lia) ltac:(lia)) as (ext & ch1 & E1 & E2 & E3 & E4 & E5 & E6). rewrite E1. cbn [bind].
        destruct (IH (S k) (nd ++ ext) ch1 E2) as (ext' & ch' & F1 & F2 & F3 & F4 & F5). rewrite app_length; lia. lia. exists (ext ++ ext'), ch'. rewrite app_assoc. split; auto. split; auto. split; auto. split.
        + intros X. destruct (F4 X) as (Y & Z). subst ext'. assert (ch1 = false) by (destruct ch1; auto; rewrite F3 in X; auto). destruct (E5 H0) as (-> & Z'). rewrite app_nil_r in Z. split; auto. intros a i Ha Hi. destruct (Nat.eq_dec a k) as [->|]. apply Z'. lia. apply Z; lia.
        + intros X. apply app_eq_nil in X as (-> & ->). rewrite F5, E6; auto.
      - exists [], ch. rewrite app_nil_r. split; auto. split; auto. split; auto. split; auto. intros _. split; auto. intros; lia.
    Qed.
    Lemma loop_ok fuel fi : 2 * N + 2 <= fi -> forall nd, ginv nd -> N < fuel + length nd -> exists ext, isect_loop fuel fi nd = Ret (nd ++ ext) /\ ginv (nd ++ ext) /\ forall a b, In a (nd ++ ext) -> In b (nd ++ ext) -> In (inter a b) (nd ++ ext).
    Proof.
      intros HFi. induction fuel as [|f IH]; intros nd HG HF. pose proof (inv_len nd (gi_inv nd HG)). lia. cbn [isect_loop].
      destruct (outer_ok fi 0 nd false HG ltac:(lia) ltac:(lia)) as (ext & ch & E1 & E2 & E3 & E4 & E5). rewrite E1. cbn [bind]. destruct ch.
      - assert (ext <> []) by (intros X; specialize (E5 X); discriminate). assert (0 < length ext) by (destruct ext; [contradiction|cbn; lia]).
        destruct (IH (nd ++ ext) E2) as (ext' & F1 & F2 & F3). rewrite app_length. lia. exists (ext ++ ext'). rewrite app_assoc. auto.
      - destruct (E4 eq_refl) as (-> & Z). rewrite app_nil_r in *. exists []. rewrite app_nil_r. split; auto. split; auto. intros a b Ha Hb. apply In_nth with (d := []) in Ha as (i & Hi & <-). apply In_nth with (d := []) in Hb as (j & Hj & <-). apply Z; lia.
    Qed.
  End Gen.
End Rank.

(** *** receiving *)
Lemma swap_rank_ok me from row : sset row -> ~ In from row -> In me row -> swap_rank me from row = del me (members from row).
Proof.
  intros S1 N1 I1. assert (NE : from <> me) by congruence. apply sset_ext.
  - unfold swap_rank. apply sort_nat_set. assert (G : NoDup row) by now apply sset_nodup. clear S1 I1. induction G as [|x l H1 H2 IH]; cbn; constructor.
    + intros X. apply in_map_iff in X as (y & E & Y). destruct (Nat.eqb_spec y me), (Nat.eqb_spec x me); subst; auto; apply N1; cbn; auto.
    + apply IH. intros X. apply N1. now right.
  - now apply del_sset, members_sset.
  - intros x. unfold swap_rank. rewrite sort_nat_in, in_map_iff, in_del, in_members. split.
    + intros (y & E & Y). destruct (Nat.eqb_spec y me); subst; auto.
    + intros ([->|X] & N2). exists me. rewrite Nat.eqb_refl. auto. exists x. destruct (Nat.eqb_spec x me); [contradiction|auto].
Qed.
Lemma add_class_in nd c x : In x (add_class nd c) <-> In x nd \/ x = c.
Proof. unfold add_class. destruct (existsb _ _) eqn:E. apply exists_eqb in E. split; auto. intros [| -> ]; auto. rewrite in_app_iff. cbn. intuition. Qed.
Lemma add_class_nodup nd c : NoDup nd -> NoDup (add_class nd c).
Proof. intros H. unfold add_class. destruct (existsb _ _) eqn:E; auto. apply exists_eqb_false in E. apply nodup_app; auto. repeat constructor; auto. intros x X [<-|[]]. contradiction. Qed.
Lemma receive_ok me from news : forall nd, (forall x, In x (receive me from news nd) <-> In x nd \/ exists row, In row news /\ In me row /\ x = swap_rank me from row) /\ (NoDup nd -> NoDup (receive me from news nd)).
Proof.
  unfold receive. induction news as [|row news IH]; intros nd; cbn [filter]. { cbn. split; auto. intros x. split; auto. intros [|(r & [] & _)]; auto. }
  destruct (has me row) eqn:E; cbn [fold_left].
  - apply has_in in E. destruct (IH (add_class nd (swap_rank me from row))) as (H1 & H2). split; [|intros; apply H2; now apply add_class_nodup]. intros x. rewrite H1, add_class_in. split.
    + intros [[| -> ]|(r & R1 & R2 & R3)]; auto. right. exists row. split; auto. now left. right. exists r. split; auto. now right.
    + intros [|(r & [<-|R1] & R2 & R3)]; auto. right. exists r. auto.
  - apply has_out in E. destruct (IH nd) as (H1 & H2). split; auto. intros x. rewrite H1. split; (intros [|(r & R1 & R2 & R3)]; [auto|right; exists r]). split; auto. now right. destruct R1 as [<-|]; [contradiction|auto].
Qed.
Lemma receive_all me (news : nat -> list (list nat)) l : forall nd,
  (forall x, In x (fold_left (fun nd from => receive me from (news from) nd) l nd) <-> In x nd \/ exists from row, In from l /\ In row (news from) /\ In me row /\ x = swap_rank me from row) /\
  (NoDup nd -> NoDup (fold_left (fun nd from => receive me from (news from) nd) l nd)).
Proof.
  induction l as [|f l IH]; intros nd; cbn [fold_left]. { split; auto. intros x. split; auto. intros [|(f & r & [] & _)]; auto. }
  destruct (IH (receive me f (news f) nd)) as (H1 & H2), (receive_ok me f (news f) nd) as (R1 & R2). split; auto. intros x. rewrite H1, R1. split.
  - intros [[|(r & X1 & X2 & X3)]|(g & r & X0 & X1 & X2 & X3)]; auto; right. exists f, r. split; auto. now left. exists g, r. split; auto. now right.
  - intros [|(g & r & [<-|X0] & X1 & X2 & X3)]; auto. left. right. eauto. right. eauto 10.
Qed.
Lemma mapM_ok {A B} (f : A -> res B) l : forall ys, length ys = length l -> (forall k, k < length l -> exists x y, nth_error l k = Some x /\ nth_error ys k = Some y /\ f x = Ret y) -> mapM f l = Ret ys.
Proof.
  induction l as [|x l IH]; intros [|y ys] HL H; cbn in HL; try discriminate; auto. cbn [mapM]. destruct (H 0 ltac:(cbn; lia)) as (a & b & [= <-] & [= <-] & E). rewrite E. cbn [bind]. rewrite (IH ys); [reflexivity|lia|]. intros k Hk. apply (H (S k)). cbn; lia.
Qed.
Lemma mapM_exists {A B} (f : A -> res B) (P : A -> B -> Prop) l : (forall x, In x l -> exists y, f x = Ret y /\ P x y) -> exists ys, mapM f l = Ret ys /\ length ys = length l /\ forall k x, nth_error l k = Some x -> exists y, nth_error ys k = Some y /\ P x y.
Proof.
  induction l as [|x l IH]; intros H; cbn [mapM]. exists []. split; auto. split; auto. intros [|k] x [=].
  destruct (H x (or_introl eq_refl)) as (y & E & Py). rewrite E. cbn [bind]. destruct (IH (fun z Z => H z (or_intror Z))) as (ys & E' & L & HP). rewrite E'. cbn [bind]. exists (y :: ys). split; auto. split; [cbn; lia|]. intros [|k] z; cbn. intros [= <-]. eauto. apply HP.
Qed.

(** *** all ranks *)
(** tables of rank sets: sorted rows without the own rank, no duplicates, every class is known to all its members *)
Record tables_ok (W : list (list (list nat))) : Prop := {
  t_row : forall r d, r < length W -> In d (nth r W []) -> sset d /\ ~ In r d /\ forall q, In q d -> q < length W;
  t_nd : forall r, r < length W -> NoDup (nth r W []);
  t_cons : forall r d q, r < length W -> In d (nth r W []) -> In q d -> In (del q (members r d)) (nth q W []) }.
Section All.
  Variable W : list (list (list nat)).
  Hypothesis HW : tables_ok W.
  Notation np := (length W).
  Notation tab r := (nth r W []).
  Lemma base_inv r : r < np -> inv (tab r) (tab r).
  Proof. intros Hr. constructor. now apply t_nd. intros d Hd. now apply (t_row W HW r d). intros d Hd. exists d. split; auto using incl_refl. Qed.
  Lemma merged_ok : exists Mg, mapM (fun dps => merge_outer (loop_fuel dps) 0 dps) W = Ret Mg /\ length Mg = np /\ forall r, r < np -> exists ext, nth r Mg [] = tab r ++ ext /\ inv (tab r) (tab r ++ ext).
  Proof.
    destruct (mapM_exists (fun dps => merge_outer (loop_fuel dps) 0 dps) (fun dps y => exists ext, y = dps ++ ext /\ inv dps (dps ++ ext)) W) as (Mg & E & L & HP).
    - intros dps Hd. apply In_nth with (d := []) in Hd as (r & Hr & <-). destruct (merge_outer_ok (tab r) (loop_fuel (tab r)) 0 (tab r) (base_inv r Hr)) as (ext & E & I'). lia. unfold loop_fuel. lia. exists (tab r ++ ext). split; auto. exists ext. auto.
    - exists Mg. split; auto. split; auto. intros r Hr. destruct (HP r (tab r)) as (y & Y & ext & -> & I'). now apply nth_error_nth'. exists ext. split; auto. now apply nth_error_nth with (d := []) in Y.
  Qed.

  Lemma setup_ok : exists W', SetupFromInitialDPs W = Ret W' /\ length W' = np /\ tables_ok W' /\
    (forall r d, r < np -> In d (tab r) -> In d (nth r W' [])) /\
    (forall r d, r < np -> In d (nth r W' []) -> exists d0, In d0 (tab r) /\ incl d d0) /\
    (forall r a b, r < np -> In a (nth r W' []) -> In b (nth r W' []) -> In (inter a b) (nth r W' [])).
  Proof.
    unfold SetupFromInitialDPs. destruct merged_ok as (Mg & EM & LM & HM). rewrite EM. cbn [bind].
    set (news := fun from => skipn (length (tab from)) (nth from Mg [])).
    set (R := fun me => fold_left (fun nd from => receive me from (news from) nd) (neighbours (tab me)) (nth me Mg [])).
    assert (NW : forall r, r < np -> nth r Mg [] = tab r ++ news r /\ inv (tab r) (tab r ++ news r)).
    { intros r Hr. destruct (HM r Hr) as (ext & E & I'). unfold news. rewrite E. rewrite skipn_app, skipn_all, Nat.sub_diag. cbn. auto. }
    (* a new class of a rank is contained in an initial class, so all its ranks are known everywhere *)
    assert (ROW : forall r d, r < np -> In d (tab r ++ news r) -> sset d /\ ~ In r d /\ exists d0, In d0 (tab r) /\ incl d d0).
    { intros r d Hr Hd. destruct (NW r Hr) as (_ & I'). split; [now apply (v_ss _ _ I')|]. destruct (v_sub _ _ I' d Hd) as (d0 & D0 & I0). split; [|eauto]. intros X. apply I0 in X. exact (proj1 (proj2 (t_row W HW r d0 Hr D0)) X). }
    assert (SEES : forall r d q, r < np -> In d (tab r ++ news r) -> In q d -> q < np /\ In r (neighbours (tab q)) /\ exists d0, In d0 (tab q) /\ incl (del q (members r d)) d0).
    { intros r d q Hr Hd Hq. destruct (ROW r d Hr Hd) as (S1 & N1 & d0 & D0 & I0). destruct (t_row W HW r d0 Hr D0) as (S2 & N2 & L2). assert (Q0 : In q d0) by auto. pose proof (t_cons W HW r d0 q Hr D0 Q0) as TQ.
      split; [now apply L2|]. split.
      - apply neighbours_in. apply in_concat. exists (del q (members r d0)). split; auto. apply in_del. split; [apply in_members; auto|]. congruence.
      - exists (del q (members r d0)). split; auto. intros x X. apply in_del in X as (X & Y). apply in_del. split; auto. apply in_members in X as [->|X]; apply in_members; auto. }
    assert (RIN : forall me x, me < np -> (In x (R me) <-> In x (tab me ++ news me) \/ exists from row, from < np /\ In row (tab from ++ news from) /\ In row (news from) /\ In me row /\ x = del me (members from row))).
    { intros me x Hme. unfold R. destruct (receive_all me news (neighbours (tab me)) (nth me Mg [])) as (H1 & _). rewrite H1. destruct (NW me Hme) as (-> & _). split.
      - intros [|(from & row & F & X1 & X2 & X3)]; auto. right. assert (Hf : from < np). { apply neighbours_in in F. apply in_concat in F as (d & D1 & D2). exact (proj2 (proj2 (t_row W HW me d Hme D1)) from D2). }
        exists from, row. assert (X1' : In row (tab from ++ news from)) by (apply in_or_app; now right). destruct (ROW from row Hf X1') as (S1 & N1 & _). rewrite <- swap_rank_ok by auto. auto.
      - intros [|(from & row & F & X1 & X1' & X2 & X3)]; auto. right. exists from, row. destruct (ROW from row F X1) as (S1 & N1 & _). rewrite swap_rank_ok by auto. destruct (SEES from row me F X1 X2) as (_ & Y & _). auto. }
    assert (RND : forall me, me < np -> NoDup (R me)).
    { intros me Hme. unfold R. apply (receive_all me news). destruct (NW me Hme) as (-> & I'). apply I'. }
    assert (RINV : forall me, me < np -> inv (tab me) (R me)).
    { intros me Hme. constructor. now apply RND.
      - intros d Hd. apply RIN in Hd as [Hd|(from & row & F & X1 & _ & X2 & ->)]; auto. now apply (ROW me). apply del_sset, members_sset. now apply (ROW from).
      - intros d Hd. apply RIN in Hd as [Hd|(from & row & F & X1 & _ & X2 & ->)]; auto. now apply (ROW me). destruct (SEES from row me F X1 X2) as (_ & _ & Y). exact Y. }
    assert (RMEM : forall r d, r < np -> In d (R r) -> ~ In r d /\ forall q, In q d -> q < np).
    { intros r d Hr Hd. destruct (v_sub _ _ (RINV r Hr) d Hd) as (d0 & D0 & I0). destruct (t_row W HW r d0 Hr D0) as (_ & N0 & L0). split; auto. }
    assert (RCONS : forall r d q, r < np -> In d (R r) -> In q d -> In (del q (members r d)) (R q)).
    { intros r d q Hr Hd Hq. destruct (RMEM r d Hr Hd) as (N1 & L1). specialize (L1 q Hq). pose proof Hd as Hd'. apply RIN in Hd as [Hd|(from & row & F & X1 & X1' & X2 & E)]; auto.
      - apply RIN; auto. apply in_app_or in Hd as [Hd|Hd].
        + left. apply in_or_app. left. now apply (t_cons W HW r).
        + right. exists r, d. split; auto. split; auto. apply in_or_app; auto.
      - destruct (ROW from row F X1) as (S1 & N2 & _). assert (EM' : members r d = members from row). { subst d. apply members_del. now apply members_sset. apply in_members; auto. }
        rewrite EM'. destruct (Nat.eq_dec q from) as [->|NQ].
        + rewrite del_members by auto. apply RIN; auto.
        + apply RIN; auto. right. exists from, row. split; auto. split; auto. split; auto. split; auto. subst d. apply in_del in Hq as (Hq & _). apply in_members in Hq as [|]; auto. contradiction. }
    destruct (mapM_exists (fun me => isect_loop (loop_fuel (tab me)) (loop_fuel (tab me)) (R me)) (fun me y => exists ext, y = R me ++ ext /\ ginv (tab me) (R me) y /\ forall a b, In a y -> In b y -> In (inter a b) y) (seq 0 np)) as (W' & EW & LW & HP).
    { intros me Hme. apply in_seq in Hme. destruct (loop_ok (tab me) (R me) (loop_fuel (tab me)) (loop_fuel (tab me))) with (nd := R me) as (ext & E & G1 & G2). unfold loop_fuel; lia. constructor. apply RINV; lia. intros d Hd. now apply g_base. unfold loop_fuel. lia. exists (R me ++ ext). split; auto. exists ext. auto. }
    rewrite seq_length in LW. exists W'. cbv zeta. unfold R, news in EW. split; [exact EW|]. split; auto.
    assert (RES : forall r, r < np -> exists ext, nth r W' [] = R r ++ ext /\ ginv (tab r) (R r) (nth r W' []) /\ forall a b, In a (nth r W' []) -> In b (nth r W' []) -> In (inter a b) (nth r W' [])).
    { intros r Hr. destruct (HP r r) as (y & Y & ext & E1 & E2 & E3). rewrite nth_error_nth' with (d := 0) by (rewrite seq_length; lia). rewrite seq_nth by auto. auto. apply nth_error_nth with (d := []) in Y. rewrite Y. exists ext. auto. }
    (* generated classes are generated on every member *)
    assert (GEN : forall r d, r < np -> gen (R r) d -> sset d /\ ~ In r d /\ (forall q, In q d -> q < np) /\ forall q, In q d -> gen (R q) (del q (members r d))).
    { intros r d Hr Hg. induction Hg as [d Hd|a b Ha IHa Hb IHb].
      - split; [now apply (v_ss _ _ (RINV r Hr))|]. destruct (RMEM r d Hr Hd). split; auto. split; auto. intros q Hq. apply g_base. now apply RCONS.
      - destruct IHa as (Sa & Na & La & Ga), IHb as (Sb & Nb & Lb & Gb). split; [now apply inter_sset|]. split. { rewrite inter_in. tauto. } split. { intros q Hq. apply inter_in in Hq. apply La. tauto. }
        intros q Hq. apply inter_in in Hq as (Qa & Qb). replace (del q (members r (inter a b))) with (inter (del q (members r a)) (del q (members r b))). apply g_int; auto.
        apply sset_ext. apply inter_sset. now apply del_sset, members_sset. apply del_sset, members_sset. now apply inter_sset. intros x. rewrite inter_in, !in_del, !in_members, inter_in. destruct (Nat.eq_dec x r) as [ -> | ]; tauto. }
    assert (CLOSED : forall r d, r < np -> gen (R r) d -> In d (nth r W' [])).
    { intros r d Hr Hg. destruct (RES r Hr) as (ext & E1 & _ & E3). induction Hg as [d Hd|a b Ha IHa Hb IHb]; auto. rewrite E1. apply in_or_app. auto. }
    split; [|split; [|split]].
    - constructor; rewrite LW.
      + intros r d Hr Hd. destruct (RES r Hr) as (_ & _ & G & _). destruct (GEN r d Hr (gi_gen _ _ _ G d Hd)) as (X1 & X2 & X3 & _). auto.
      + intros r Hr. destruct (RES r Hr) as (_ & _ & G & _). apply (gi_inv _ _ _ G).
      + intros r d q Hr Hd Hq. destruct (RES r Hr) as (_ & _ & G & _). destruct (GEN r d Hr (gi_gen _ _ _ G d Hd)) as (_ & _ & X3 & X4). apply CLOSED; auto.
    - intros r d Hr Hd. apply CLOSED; auto. apply g_base. apply RIN; auto. left. apply in_or_app. auto.
    - intros r d Hr Hd. destruct (RES r Hr) as (_ & _ & G & _). now apply (gi_inv _ _ _ G).
    - intros r a b Hr. destruct (RES r Hr) as (_ & _ & _ & E3). apply E3.
  Qed.
End All.

(** sorting gives consistent sorted tables *)
Lemma sorted_world W : tables_ok W -> world (map dist_procs W).
Proof.
  intros HW. assert (LN : length (map dist_procs W) = length W) by apply map_length. assert (NT : forall r, nth r (map dist_procs W) [] = dist_procs (nth r W [])) by (intros r; apply (map_nth dist_procs W [])).
  assert (IN : forall r d, In d (dist_procs (nth r W [])) <-> In d (nth r W [])). { intros r d. unfold dist_procs. split; apply Permutation_in; [|apply Permutation_sym]; apply sort_by_perm. }
  constructor; rewrite LN.
  - intros r d Hr. rewrite NT, IN. apply (t_row W HW); auto.
  - intros r Hr. rewrite NT. apply sort_by_ss. apply dps_less_total. now apply t_nd.
  - intros r d q Hr. rewrite !NT, !IN. apply (t_cons W HW); auto.
Qed.
