(** BuildCEQCH: classes of a group of processes and of the contracted hierarchy. *)
From Verif Require Import Base EQCModel UtilProofs EQCProofs EQCProofs2 EQCProofs3 GCModel.
Local Open Scope nat_scope.

(** *** generic *)
Lemma mapM_map {A B} (f : A -> res B) (g : A -> B) l : (forall x, In x l -> f x = Ret (g x)) -> mapM f l = Ret (map g l).
Proof. induction l as [|x l IH]; intros X; cbn [mapM map]; auto. rewrite X by now left. cbn [bind]. rewrite IH by (intros; apply X; now right). reflexivity. Qed.
Fixpoint idx {A} (eqb : A -> A -> bool) (x : A) (l : list A) : nat := match l with [] => 0 | y :: l => if eqb y x then 0 else S (idx eqb x l) end.
Lemma pos_by_idx {A} (eqb : A -> A -> bool) x l : (forall a b, eqb a b = true <-> a = b) -> In x l -> forall i, pos_by eqb x l i = Ret (i + idx eqb x l) /\ idx eqb x l < length l /\ forall d, nth (idx eqb x l) l d = x.
Proof.
  intros E. induction l as [|y l IH]; intros HI i; [destruct HI|]. cbn [pos_by idx length]. destruct (eqb y x) eqn:X.
  - apply E in X. subst y. split. now rewrite Nat.add_0_r. split. lia. reflexivity.
  - destruct HI as [->|HI]; [rewrite (proj2 (E x x) eq_refl) in X; discriminate|]. destruct (IH HI (S i)) as (A1 & A2 & A3). rewrite A1. split. f_equal. lia. split. lia. intros d. cbn [nth]. apply A3.
Qed.
(** writes *)
Lemma wr_all {A B} (f : B -> nat) (v : B -> A) (n : nat) (P : nat -> A -> Prop) d l : (forall s, In s l -> f s < n) -> (forall s, In s l -> P (f s) (v s)) ->
  forall a, length a = n -> exists a', foldM (fun a s => wr a (f s) (v s)) l a = Ret a' /\ length a' = n /\
    (forall m, (exists s, In s l /\ f s = m) -> P m (nth m a' d)) /\ (forall m, m < n -> P m (nth m a d) -> P m (nth m a' d)).
Proof.
  induction l as [|s l IH]; intros HB HP a La; cbn [foldM].
  - exists a. split; auto. split; auto. split; auto. intros m (s & [] & _).
  - assert (Hs : f s < n) by (apply HB; now left). rewrite wr_ok by lia. cbn [bind].
    destruct (IH ltac:(intros; apply HB; now right) ltac:(intros; apply HP; now right) (upd a (f s) (v s)) ltac:(now rewrite upd_length)) as (a' & E & L & K1 & K2).
    exists a'. split; auto. split; auto. split.
    + intros m (s' & [->|HI] & <-); [|apply K1; eauto]. apply K2; auto. rewrite nth_upd_eq by lia. apply HP. now left.
    + intros m Hm X. apply K2; auto. destruct (Nat.eq_dec (f s) m) as [<-|N]. rewrite nth_upd_eq by lia. apply HP. now left. rewrite nth_upd_neq; auto.
Qed.
(** the same with a body that is only known to be such a write *)
Lemma foldM_ext_in {A B} (f g : A -> B -> res A) l : forall s, (forall s x, In x l -> f s x = g s x) -> foldM f l s = foldM g l s.
Proof. induction l as [|x l IH]; intros s E; cbn [foldM]; auto. rewrite E by now left. destruct (g s x); cbn [bind]; auto. apply IH. intros. apply E. now right. Qed.
Lemma slots_in tabs k j : In (k, j) (slots tabs) <-> k < length tabs /\ j < length (nth k tabs []).
Proof.
  unfold slots. rewrite in_flat_map. split.
  - intros (x & X1 & X2). apply in_seq in X1. apply in_map_iff in X2 as (l & E & X2). apply in_seq in X2. inversion E; subst. lia.
  - intros (H1 & H2). exists k. rewrite in_seq. split. lia. apply in_map_iff. exists j. rewrite in_seq. split; auto. lia.
Qed.

Section GC.
  Variables (H : list (list (list nat))) (groups : list (list nat)).
  Hypothesis HW : world H.
  Notation np := (length H).
  Notation ng := (length groups).
  Notation grp g := (nth g groups []).
  Hypothesis G_rank : forall g p, g < ng -> In p (grp g) -> p < np.
  Hypothesis G_all : forall p, p < np -> exists g, g < ng /\ In p (grp g).
  Hypothesis G_one : forall g g' p, g < ng -> g' < ng -> In p (grp g) -> In p (grp g') -> g = g'.
  Hypothesis G_ne : forall g, g < ng -> grp g <> [].

  (** proc_map *)
  Definition gof (p : nat) : nat := match find (fun g => has p (grp g)) (seq 0 ng) with Some g => g | None => 0 end.
  Lemma gof_ok g p : g < ng -> In p (grp g) -> gof p = g.
  Proof.
    intros Hg Hp. unfold gof. destruct (find _ _) as [g'|] eqn:E.
    - apply find_some in E as (E1 & E2). apply in_seq in E1. apply has_in in E2. apply (G_one g' g p); auto; lia.
    - apply find_none with (x := g) in E; [|apply in_seq; lia]. cbv beta in E. apply has_out in E. contradiction.
  Qed.
  Lemma gof_in p : p < np -> gof p < ng /\ In p (grp (gof p)).
  Proof. intros Hp. destruct (G_all p Hp) as (g & Hg & HI). rewrite (gof_ok g p Hg HI). auto. Qed.
  Lemma pm_ok : exists pm, proc_map np groups = Ret pm /\ forall p, p < np -> pm_at pm p = Ret (gof p).
  Proof.
    assert (K : forall n, n <= ng -> exists pm, foldM (fun pm g => row <- rd groups g ;; foldM (fun pm p => wr pm p (Some g)) row pm) (seq 0 n) (repeat None np) = Ret pm /\ length pm = np /\ forall p, p < np -> gof p < n -> nth p pm None = Some (gof p)).
    { induction n as [|n IH]; intros Hn.
      - exists (repeat None np). cbn [seq foldM]. rewrite repeat_length. split; auto. split; auto. intros; lia.
      - destruct (IH ltac:(lia)) as (pm & E & L & K). rewrite seq_S, foldM_app, E. cbn [bind foldM plus]. rewrite (rd_ok _ _ []) by lia. cbn [bind].
        destruct (wr_all (fun p : nat => p) (fun _ => Some n) np (fun p o => gof p < S n -> o = Some (gof p)) None (grp n)) with (a := pm) as (pm' & E' & L' & K1 & K2); auto.
        { intros p Hp. apply (G_rank n); auto. } { intros p Hp _. f_equal. symmetry. now apply gof_ok. }
        rewrite E'. cbn [bind]. exists pm'. split; auto. split; auto. intros p Hp Hg. destruct (Nat.eq_dec (gof p) n) as [e|N].
        + apply (K1 p); auto. exists p. split; auto. rewrite <- e. now apply gof_in.
        + apply (K2 p); auto. intros _. apply K; auto. lia. }
    destruct (K ng (le_n _)) as (pm & E & L & KK). exists pm. split; auto. intros p Hp. unfold pm_at. rewrite (rd_ok _ _ None) by lia. cbn [bind]. rewrite KK; auto. now apply gof_in.
  Qed.
  (** groups hit by a class *)
  Definition cset (D : list nat) : list nat := sort_by Nat.ltb (nodup Nat.eq_dec (map gof D)).
  Lemma cset_sset D : sset (cset D). Proof. apply sort_nat_set, NoDup_nodup. Qed.
  Lemma cset_in D g : In g (cset D) <-> exists p, In p D /\ gof p = g.
  Proof. unfold cset. rewrite sort_nat_in, nodup_In, in_map_iff. split; intros (p & A & B); exists p; auto. Qed.
  Lemma crs_ok pm me D : (forall p, p < np -> pm_at pm p = Ret (gof p)) -> (forall p, In p D -> p < np) -> crs_dps pm me D = Ret (del me (cset D)).
  Proof.
    intros HP HD. unfold crs_dps.
    assert (K : forall D out, (forall p, In p D -> p < np) -> NoDup out -> (forall x, In x out -> x <> me) -> exists out', foldM (fun out p => dcr <- pm_at pm p ;; Ret (if negb (dcr =? me) && negb (has dcr out) then out ++ [dcr] else out)) D out = Ret out' /\ NoDup out' /\ forall x, In x out' <-> In x out \/ (x <> me /\ exists p, In p D /\ gof p = x)).
    { clear D HD. induction D as [|p D IH]; intros out HD ND HM; cbn [foldM].
      - exists out. split; auto. split; auto. intros x. split; auto. intros [|(_ & p & [] & _)]; auto.
      - rewrite HP by (apply HD; now left). cbn [bind]. destruct (negb (gof p =? me) && negb (has (gof p) out)) eqn:C.
        + apply andb_prop in C as (C1 & C2). apply negb_true_iff, Nat.eqb_neq in C1. apply negb_true_iff, has_out in C2.
          destruct (IH (out ++ [gof p])) as (out' & E & N' & I'). { intros; apply HD; now right. } { apply nodup_app; auto. now constructor; auto; constructor. intros x X [<-|[]]. auto. } { intros x X. apply in_app_iff in X as [X|[<-|[]]]; auto. }
          exists out'. split; auto. split; auto. intros x. rewrite I', in_app_iff. cbn [In]. split.
          * intros [[X|[<-|[]]]|(X & q & Q)]; auto. right. split; auto. exists p. auto. right. split; auto. exists q. tauto.
          * intros [X|(X & q & [->|Q] & <-)]; auto. right. split; auto. exists q. auto.
        + destruct (IH out) as (out' & E & N' & I'); auto. { intros; apply HD; now right. }
          exists out'. split; auto. split; auto. intros x. rewrite I'. cbn [In]. split.
          * intros [X|(X & q & Q)]; auto. right. split; auto. exists q. tauto.
          * intros [X|(X & q & [->|Q] & <-)]; auto; [|right; split; auto; exists q; auto]. left. apply andb_false_iff in C as [C|C]; apply negb_false_iff in C. apply Nat.eqb_eq in C. contradiction. now apply has_in. }
    destruct (K D [] HD (NoDup_nil _) ltac:(intros x [])) as (out & E & N & I). rewrite E. cbn [bind]. f_equal. apply sset_ext.
    - now apply sort_nat_set. - apply del_sset, cset_sset. - intros x. rewrite sort_nat_in, I, in_del, cset_in. cbn [In]. tauto.
  Qed.

  (** *** merged classes of group [g] *)
  Definition gless (a b : list nat) : bool := gid H a <? gid H b.
  Definition MC (g : nat) : list (list nat) := sort_by gless (nodup (list_eq_dec Nat.eq_dec) (flat_map (classes H) (grp g))).
  Lemma MC_in g D : In D (MC g) <-> exists r, In r (grp g) /\ In D (classes H r).
  Proof.
    unfold MC. split.
    - intros X. apply (Permutation_in _ (sort_by_perm gless _)) in X. rewrite nodup_In, in_flat_map in X. auto.
    - intros X. apply (Permutation_in _ (Permutation_sym (sort_by_perm gless _))). rewrite nodup_In, in_flat_map. auto.
  Qed.
  Lemma MC_nodup g : NoDup (MC g).
  Proof. apply Permutation_NoDup with (1 := Permutation_sym (sort_by_perm gless _)). apply NoDup_nodup. Qed.
  Lemma gid_eq r r' D D' : r < np -> r' < np -> In D (classes H r) -> In D' (classes H r') -> gid H D = gid H D' -> D = D'.
  Proof. intros Hr Hr' HD HD' E. destruct (class_kind H HW r D Hr HD) as (m & K). destruct (class_kind H HW r' D' Hr' HD') as (m' & K'). now apply (gid_inj H D D' m m'). Qed.
  Lemma MC_facts g D : g < ng -> In D (MC g) -> sset D /\ (forall p, In p D -> p < np) /\ (exists r, In r (grp g) /\ In r D).
  Proof. intros Hg X. apply MC_in in X as (r & X1 & X2). destruct (class_facts H HW r D) as (A1 & A2 & A3 & A4); eauto. Qed.
  Lemma MC_has g r D : g < ng -> In D (MC g) -> In r (grp g) -> In r D -> In D (classes H r).
  Proof. intros Hg X Y Z. apply MC_in in X as (r' & X1 & X2). apply (class_cons H HW r' D r); eauto. Qed.
  (** known to every group that it meets *)
  Lemma MC_other g q D p : g < ng -> q < ng -> In D (MC g) -> In p D -> In p (grp q) -> In D (MC q).
  Proof. intros Hg Hq X Y Z. apply MC_in in X as (r & X1 & X2). apply MC_in. exists p. split; auto. apply (class_cons H HW r D p); eauto. Qed.
  Lemma sort_by_map {A} (f : A -> nat) l : map f (sort_by (fun a b => f a <? f b) l) = sort_by Nat.ltb (map f l).
  Proof.
    induction l as [|x l IH]; auto. cbn [sort_by fold_right map]. fold (sort_by (fun a b => f a <? f b) l). fold (sort_by Nat.ltb (map f l)). rewrite <- IH. generalize (sort_by (fun a b => f a <? f b) l). clear.
    induction l as [|y l IH]; auto. cbn [insert_by map]. destruct (f x <? f y) eqn:E; cbn [map]; auto. now rewrite IH.
  Qed.
  Lemma gid_nodup_list l : (forall D, In D l -> exists r, r < np /\ In D (classes H r)) -> NoDup l -> NoDup (map (gid H) l).
  Proof.
    induction l as [|D l IH]; intros HL ND; cbn; constructor.
    - intros X. apply in_map_iff in X as (D' & E & X). inversion ND; subst. destruct (HL D ltac:(now left)) as (r & Hr & R). destruct (HL D' ltac:(now right)) as (r' & Hr' & R'). rewrite (gid_eq r' r D' D) in X; auto.
    - apply IH. intros; apply HL; now right. now inversion ND.
  Qed.
  Lemma MC_sorted g : g < ng -> sset (map (gid H) (MC g)).
  Proof.
    intros Hg. unfold MC, gless. rewrite sort_by_map. apply sort_nat_set, gid_nodup_list, NoDup_nodup. intros D X. apply nodup_In, in_flat_map in X as (r & X1 & X2). eauto.
  Qed.
  (** gids *)
  Lemma add_ids ids : forall g, (forall x, In x (fold_left add_id ids g) <-> In x g \/ In x ids) /\ (NoDup g -> NoDup (fold_left add_id ids g)).
  Proof.
    induction ids as [|i ids IH]; intros g; cbn [fold_left In]. split; [tauto|auto]. destruct (IH (add_id g i)) as (A & B). unfold add_id in *. destruct (has i g) eqn:E.
    - apply has_in in E. split; [|exact B]. intros x. rewrite A. intuition. subst. auto.
    - apply has_out in E. split. intros x. rewrite A, in_app_iff. cbn. tauto. intros ND. apply B, nodup_app; auto. constructor; auto. constructor. intros x X [<-|[]]. auto.
  Qed.
  Lemma add_all l : forall g, (forall x, In x (fold_left (fun g ids => fold_left add_id ids g) l g) <-> In x g \/ exists ids, In ids l /\ In x ids) /\ (NoDup g -> NoDup (fold_left (fun g ids => fold_left add_id ids g) l g)).
  Proof.
    induction l as [|ids l IH]; intros g; cbn [fold_left In]. { split; auto. intros x. split; auto. intros [|(i & [] & _)]; auto. }
    destruct (IH (fold_left add_id ids g)) as (A & B). destruct (add_ids ids g) as (A' & B'). split; auto. intros x. rewrite A, A'. split.
    - intros [[X|X]|(i & X1 & X2)]; auto. right. exists ids. auto. right. exists i. auto.
    - intros [X|(i & [->|X1] & X2)]; auto. right. exists i. auto.
  Qed.
  Definition ids_of (r : nat) : list nat := map (gid H) (classes H r).
  Lemma gids_ok g : g < ng -> merge_ids (map ids_of (grp g)) = map (gid H) (MC g).
  Proof.
    intros Hg. pose proof (G_rank g) as GR. pose proof (MC_sorted g Hg) as SM. assert (IM : forall x, In x (map (gid H) (MC g)) <-> exists r, In r (grp g) /\ In x (ids_of r)).
    { intros x. rewrite in_map_iff. split. intros (D & <- & X). apply MC_in in X as (r & X1 & X2). exists r. split; auto. now apply in_map. intros (r & X1 & X2). apply in_map_iff in X2 as (D & <- & X2). exists D. split; auto. apply MC_in. eauto. }
    destruct (grp g) as [|r0 l] eqn:EG. { exfalso. now apply (G_ne g). } cbn [map merge_ids]. destruct (add_all (map ids_of l) (ids_of r0)) as (A & B). apply sset_ext; auto.
    - apply sort_nat_set, B. apply gid_nodup_list. intros D X. exists r0. split; auto. apply (GR r0); auto. now left. apply classes_nodup; auto. apply (GR r0); auto. now left.
    - intros x. rewrite sort_nat_in, A, IM. split.
      + intros [X|(ids & X1 & X2)]. exists r0. split; auto. now left. apply in_map_iff in X1 as (r & <- & X1). exists r. split; auto. now right.
      + intros (r & [<-|X1] & X2); auto. right. exists (ids_of r). split; auto. now apply in_map.
  Qed.
  (** number of a class in the merged list *)
  Definition mnr (g : nat) (D : list nat) : nat := idx list_eqb D (MC g).
  Lemma mnr_ok g D : In D (MC g) -> mnr g D < length (MC g) /\ nth (mnr g D) (MC g) [] = D.
  Proof. intros X. destruct (pos_by_idx list_eqb D (MC g) (fun a b => list_eqb_eq a b) X 0) as (_ & A & B). split; auto. Qed.
  Lemma mnr_nth g m : m < length (MC g) -> mnr g (nth m (MC g) []) = m.
  Proof. intros Hm. destruct (mnr_ok g (nth m (MC g) []) (nth_In _ _ Hm)) as (A & B). apply (proj1 (NoDup_nth (MC g) []) (MC_nodup g)); auto. Qed.
  Lemma idx_gid g D : g < ng -> In D (MC g) -> idx Nat.eqb (gid H D) (map (gid H) (MC g)) = mnr g D.
  Proof.
    intros Hg X. unfold mnr. assert (K : forall l, incl l (MC g) -> idx Nat.eqb (gid H D) (map (gid H) l) = idx list_eqb D l).
    { induction l as [|y l IH]; intros HI; auto. cbn [map idx]. rewrite IH by (intros z Z; apply HI; now right). replace (gid H y =? gid H D) with (list_eqb y D); auto.
      assert (Y : In y (MC g)) by (apply HI; now left). apply MC_in in X as (r & X1 & X2). apply MC_in in Y as (r' & Y1 & Y2).
      destruct (list_eqb y D) eqn:E1. apply list_eqb_eq in E1. subst. symmetry. apply Nat.eqb_refl. symmetry. apply Nat.eqb_neq. intros E. apply (gid_eq r' r) in E; eauto. subst. rewrite list_eqb_refl in E1. discriminate. }
    apply K. intros z; auto.
  Qed.
  Definition om_of (g r : nat) : list nat := map (mnr g) (classes H r).
  Lemma om_ok g : g < ng -> mapM (mapM (fun i => pos_by Nat.eqb i (map (gid H) (MC g)) 0)) (map ids_of (grp g)) = Ret (map (om_of g) (grp g)).
  Proof.
    intros Hg. assert (K : forall l, incl l (grp g) -> mapM (mapM (fun i => pos_by Nat.eqb i (map (gid H) (MC g)) 0)) (map ids_of l) = Ret (map (om_of g) l)).
    { induction l as [|r l IH]; intros HI; auto. cbn [map mapM]. rewrite IH by (intros z Z; apply HI; now right).
      replace (mapM (fun i => pos_by Nat.eqb i (map (gid H) (MC g)) 0) (ids_of r)) with (Ret (om_of g r)); auto. symmetry. unfold ids_of, om_of.
      assert (R : forall l', incl l' (classes H r) -> mapM (fun i => pos_by Nat.eqb i (map (gid H) (MC g)) 0) (map (gid H) l') = Ret (map (mnr g) l')); [|apply R; intros z; auto].
      induction l' as [|D l' IH']; intros HI'; auto. cbn [map mapM]. rewrite IH' by (intros z Z; apply HI'; now right).
      assert (X : In D (MC g)). { apply MC_in. exists r. split. apply HI; now left. apply HI'; now left. }
      destruct (pos_by_idx Nat.eqb (gid H D) (map (gid H) (MC g)) Nat.eqb_eq (in_map _ _ _ X) 0) as (E & _ & _). rewrite E, idx_gid by auto. reflexivity. }
    apply K. intros z; auto.
  Qed.
  (** the tables *)
  Definition tabs_of (g : nat) : list (list (list nat)) := map (fun r => nth r H []) (grp g).
  Lemma nth_map_ok {A B} (f : A -> B) l i da db : i < length l -> nth i (map f l) db = f (nth i l da).
  Proof. intros Hi. rewrite (nth_indep _ db (f da)) by now rewrite map_length. apply map_nth. Qed.
  Lemma tabs_nth g k : k < length (grp g) -> nth k (tabs_of g) [] = nth (nth k (grp g) 0) H [].
  Proof. intros Hk. unfold tabs_of. now rewrite (nth_map_ok _ _ _ 0). Qed.
  (** class [j] of member [k] *)
  Definition cl (g k j : nat) : list nat := nth j (classes H (nth k (grp g) 0)) [].
  Lemma cl_in g k j : k < length (grp g) -> j < length (nth (nth k (grp g) 0) H []) -> In (cl g k j) (MC g).
  Proof. intros Hk Hj. apply MC_in. exists (nth k (grp g) 0). split. now apply nth_In. apply nth_In. unfold classes. now rewrite map_length. Qed.
  Lemma cl_members g k j : j < length (nth (nth k (grp g) 0) H []) -> cl g k j = members (nth k (grp g) 0) (nth j (nth (nth k (grp g) 0) H []) []).
  Proof. intros Hj. unfold cl, classes. now rewrite (nth_map_ok _ _ _ []). Qed.
  Lemma MC_slot g D : g < ng -> In D (MC g) -> exists k j, k < length (grp g) /\ j < length (nth (nth k (grp g) 0) H []) /\ cl g k j = D.
  Proof.
    intros Hg X. apply MC_in in X as (r & X1 & X2). apply In_nth with (d := 0) in X1 as (k & K1 & <-). apply In_nth with (d := []) in X2 as (j & J1 & <-). unfold classes in J1. rewrite map_length in J1. exists k, j. auto.
  Qed.
  Lemma members_len r d : sset d -> ~ In r d -> length (members r d) = length d + 1.
  Proof. intros A B. rewrite (del_length r (members r d)), del_members; auto. lia. now apply members_sset. apply in_members. auto. Qed.
  Lemma row_facts r d : r < np -> In d (nth r H []) -> sset d /\ ~ In r d.
  Proof. intros Hr Hd. destruct (w_row H HW r d Hr Hd) as (A & B & _). auto. Qed.
  Lemma slot_reads g k j : g < ng -> k < length (grp g) -> j < length (nth (nth k (grp g) 0) H []) ->
    rd (tabs_of g) k = Ret (nth (nth k (grp g) 0) H []) /\ rd (nth (nth k (grp g) 0) H []) j = Ret (nth j (nth (nth k (grp g) 0) H []) []) /\
    rd (map (om_of g) (grp g)) k = Ret (om_of g (nth k (grp g) 0)) /\ rd (om_of g (nth k (grp g) 0)) j = Ret (mnr g (cl g k j)).
  Proof.
    intros Hg Hk Hj. assert (LT : length (tabs_of g) = length (grp g)) by (unfold tabs_of; apply map_length).
    split; [|split; [|split]].
    - rewrite (rd_ok _ _ []) by lia. now rewrite tabs_nth.
    - now apply rd_ok.
    - rewrite (rd_ok _ _ []) by (now rewrite map_length). now rewrite (nth_map_ok _ _ _ 0).
    - rewrite (rd_ok _ _ 0) by (unfold om_of, classes; now rewrite !map_length). unfold om_of. rewrite (nth_map_ok _ _ _ []) by (unfold classes; now rewrite map_length). reflexivity.
  Qed.
  Lemma tslot g k j : In (k, j) (slots (tabs_of g)) <-> k < length (grp g) /\ j < length (nth (nth k (grp g) 0) H []).
  Proof. rewrite slots_in. unfold tabs_of at 1. rewrite map_length. split; intros (A & B); split; auto; now rewrite tabs_nth in *. Qed.
  Lemma sizes_ok g : g < ng -> mmems_sizes (tabs_of g) (map (om_of g) (grp g)) (length (MC g)) = Ret (map (@length nat) (MC g)).
  Proof.
    intros Hg. unfold mmems_sizes.
    rewrite foldM_ext_in with (g := fun sz s => wr sz (mnr g (cl g (fst s) (snd s))) (length (cl g (fst s) (snd s)))).
    - destruct (wr_all (fun s => mnr g (cl g (fst s) (snd s))) (fun s => length (cl g (fst s) (snd s))) (length (MC g)) (fun m n => n = length (nth m (MC g) [])) 0 (slots (tabs_of g))) with (a := repeat 0 (length (MC g))) as (a & E & L & K & _).
      + intros (k, j) S. apply tslot in S as (Hk & Hj). apply mnr_ok. now apply cl_in.
      + intros (k, j) S. apply tslot in S as (Hk & Hj). cbn [fst snd]. now rewrite (proj2 (mnr_ok g _ (cl_in g k j Hk Hj))).
      + apply repeat_length.
      + rewrite E. f_equal. apply nth_ext with (d := 0) (d' := 0). now rewrite map_length. rewrite L. intros m Hm. rewrite (nth_map_ok _ _ _ []) by auto. apply K.
        destruct (MC_slot g (nth m (MC g) []) Hg (nth_In _ _ Hm)) as (k & j & Hk & Hj & Ec). exists (k, j). split. now apply tslot. cbn [fst snd]. rewrite Ec. now apply mnr_nth.
    - intros sz (k, j) S. apply tslot in S as (Hk & Hj). cbn [fst snd]. destruct (slot_reads g k j Hg Hk Hj) as (R1 & R2 & R3 & R4). rewrite R1. cbn [bind]. rewrite R2. cbn [bind]. rewrite R3. cbn [bind]. rewrite R4. cbn [bind].
      f_equal. rewrite cl_members by auto. symmetry. apply members_len; apply (row_facts (nth k (grp g) 0)); eauto using nth_In.
  Qed.
  Lemma mrow_ok row d rank : length row = length d + 1 -> mmems_row row d rank = Ret (d ++ [rank]).
  Proof.
    intros L. unfold mmems_row.
    assert (K : forall n, n <= length d -> foldM (fun row i => x <- rd d i ;; wr row i x) (seq 0 n) row = Ret (firstn n d ++ skipn n row)).
    { induction n as [|n IH]; intros Hn. reflexivity. rewrite seq_S, foldM_app, IH by lia. cbn [bind foldM plus]. rewrite (rd_ok _ _ 0) by lia. cbn [bind].
      rewrite wr_ok by (rewrite app_length, firstn_length, skipn_length; lia). cbn [bind]. f_equal. apply nth_ext_len with (d := 0). rewrite upd_length, !app_length, !firstn_length, !skipn_length. lia.
      intros i Hi. rewrite upd_length, app_length, firstn_length, skipn_length in Hi. destruct (Nat.eq_dec n i) as [<-|N].
      - rewrite nth_upd_eq by (rewrite app_length, firstn_length, skipn_length; lia). rewrite app_nth1 by (rewrite firstn_length; lia). clear. rewrite <- (firstn_skipn (S n) d) at 1. destruct (Nat.lt_ge_cases n (length d)) as [A|A].
        rewrite app_nth1 by (rewrite firstn_length; lia). reflexivity. rewrite !nth_overflow; auto. rewrite firstn_length; lia. rewrite firstn_skipn. lia.
      - rewrite nth_upd_neq by auto. destruct (Nat.lt_ge_cases i n) as [A|A].
        + rewrite !app_nth1 by (rewrite firstn_length; lia). rewrite <- (firstn_skipn n (firstn (S n) d)). rewrite firstn_firstn, Nat.min_l by lia. rewrite app_nth1; auto. rewrite firstn_length; lia.
        + rewrite !app_nth2 by (rewrite firstn_length; lia). rewrite !firstn_length, !Nat.min_l by lia. replace (i - n) with (S (i - S n)) by lia. rewrite <- (firstn_skipn 1 (skipn n row)). rewrite app_nth2 by (rewrite firstn_length, skipn_length; lia). rewrite firstn_length, skipn_length, Nat.min_l by lia. replace (skipn 1 (skipn n row)) with (skipn (S n) row). f_equal. lia.
          clear. revert n. induction row as [|x row IH]; intros [|n]; auto. cbn [skipn]. apply IH. }
    rewrite K by lia. cbn [bind]. rewrite firstn_all. rewrite app_length, skipn_length. replace (length d + (length row - length d) =? 0) with false by (symmetry; apply Nat.eqb_neq; lia).
    rewrite wr_ok by (rewrite app_length, skipn_length; lia). f_equal. apply nth_ext_len with (d := 0). rewrite upd_length, !app_length, skipn_length. cbn [length]. lia.
    intros i Hi. rewrite upd_length, app_length, skipn_length in Hi. destruct (Nat.eq_dec (length d + (length row - length d) - 1) i) as [<-|N].
    - rewrite nth_upd_eq by (rewrite app_length, skipn_length; lia). rewrite app_nth2 by lia. replace (length d + (length row - length d) - 1 - length d) with 0 by lia. reflexivity.
    - rewrite nth_upd_neq by auto. rewrite !app_nth1 by lia. reflexivity.
  Qed.
  Lemma mmems_ok g : g < ng -> make_mmems (grp g) (tabs_of g) (map (om_of g) (grp g)) (map (@length nat) (MC g)) = Ret (MC g).
  Proof.
    intros Hg. unfold make_mmems. set (F := fun mm s => t <- rd (tabs_of g) (fst s) ;; d <- rd t (snd s) ;; o <- rd (map (om_of g) (grp g)) (fst s) ;; m <- rd o (snd s) ;; rank <- rd (grp g) (fst s) ;; row <- rd mm m ;; row <- mmems_row row d rank ;; wr mm m row).
    assert (K : forall l, incl l (slots (tabs_of g)) -> forall mm, length mm = length (MC g) -> (forall m, m < length (MC g) -> length (nth m mm []) = length (nth m (MC g) [])) ->
      exists mm', foldM F l mm = Ret mm' /\ length mm' = length (MC g) /\ (forall m, m < length (MC g) -> length (nth m mm' []) = length (nth m (MC g) [])) /\
        (forall m, m < length (MC g) -> (exists s, In s l /\ mnr g (cl g (fst s) (snd s)) = m) \/ Permutation (nth m mm []) (nth m (MC g) []) -> Permutation (nth m mm' []) (nth m (MC g) []))).
    { induction l as [|(k, j) l IH]; intros HI mm L LR; cbn [foldM].
      - exists mm. split; auto. split; auto. split; auto. intros m Hm [(s & [] & _)|X]; auto.
      - destruct (proj1 (tslot g k j) (HI _ ltac:(now left))) as (Hk & Hj). destruct (slot_reads g k j Hg Hk Hj) as (R1 & R2 & R3 & R4). destruct (mnr_ok g _ (cl_in g k j Hk Hj)) as (M1 & M2). set (m0 := mnr g (cl g k j)) in *.
        destruct (row_facts (nth k (grp g) 0) (nth j (nth (nth k (grp g) 0) H []) [])) as (S1 & S2); eauto using nth_In.
        assert (Lc : length (nth m0 mm []) = length (nth j (nth (nth k (grp g) 0) H []) []) + 1) by (rewrite LR, M2, cl_members, members_len by auto; auto).
        assert (EF : F mm (k, j) = Ret (upd mm m0 (nth j (nth (nth k (grp g) 0) H []) [] ++ [nth k (grp g) 0]))).
        { unfold F. cbn [fst snd]. rewrite R1. cbn [bind]. rewrite R2. cbn [bind]. rewrite R3. cbn [bind]. rewrite R4. cbn [bind]. rewrite (rd_ok _ _ 0) by auto. cbn [bind]. fold m0. rewrite (rd_ok _ _ []) by lia. cbn [bind]. rewrite mrow_ok by auto. cbn [bind]. apply wr_ok. lia. }
        rewrite EF. cbn [bind].
        assert (PD : Permutation (nth j (nth (nth k (grp g) 0) H []) [] ++ [nth k (grp g) 0]) (nth m0 (MC g) [])).
        { rewrite M2, cl_members by auto. apply NoDup_Permutation.
          - apply nodup_app. now apply sset_nodup. constructor; auto. constructor. intros x X [<-|[]]. auto.
          - apply sset_nodup. now apply members_sset.
          - intros x. rewrite in_app_iff, in_members. cbn [In]. intuition. }
        destruct (IH ltac:(intros z Z; apply HI; now right) (upd mm m0 (nth j (nth (nth k (grp g) 0) H []) [] ++ [nth k (grp g) 0]))) as (mm' & E & L' & LR' & P').
        + now rewrite upd_length.
        + intros m Hm. destruct (Nat.eq_dec m0 m) as [<-|N]. rewrite nth_upd_eq by lia. now rewrite (Permutation_length PD). rewrite nth_upd_neq; auto.
        + exists mm'. split; auto. split; auto. split; auto. intros m Hm X. apply P'; auto. destruct (Nat.eq_dec m0 m) as [<-|N].
          * right. rewrite nth_upd_eq by lia. exact PD.
          * rewrite nth_upd_neq by auto. destruct X as [(s & [<-|X] & e)|X]; auto. contradiction. left. exists s. auto. }
    destruct (K (slots (tabs_of g)) ltac:(intros z; auto) (map (fun n => repeat 0 n) (map (@length nat) (MC g)))) as (mm & E & L & _ & P).
    - now rewrite !map_length.
    - intros m Hm. rewrite map_map. rewrite (nth_map_ok _ _ _ []) by auto. apply repeat_length.
    - rewrite E. cbn [bind]. f_equal. apply nth_ext_len with (d := []). now rewrite map_length. rewrite map_length. intros m Hm. rewrite (nth_map_ok _ _ _ []) by auto. rewrite L in Hm.
      destruct (MC_facts g (nth m (MC g) []) Hg (nth_In _ _ Hm)) as (S1 & _). assert (PP : Permutation (nth m mm []) (nth m (MC g) [])).
      { apply P; auto. left. destruct (MC_slot g _ Hg (nth_In (MC g) [] Hm)) as (k & j & Hk & Hj & Ec). exists (k, j). split. now apply tslot. cbn [fst snd]. rewrite Ec. now apply mnr_nth. }
      apply sset_ext; auto. apply sort_nat_set. apply Permutation_NoDup with (1 := Permutation_sym PP). now apply sset_nodup. intros x. rewrite sort_nat_in. split; apply Permutation_in; [|apply Permutation_sym]; auto.
  Qed.
  (** contracted classes *)
  Definition crow (g : nat) (D : list nat) : list nat := del g (cset D).
  Lemma scan_ok rows cd : forall l, (exists i, i < length rows /\ nth i rows [] = cd /\ scan_c rows cd l true = (false, S (l + i))) \/ (~ In cd rows /\ scan_c rows cd l true = (true, l + length rows)).
  Proof.
    induction rows as [|r rows IH]; intros l; cbn [scan_c length].
    - right. split; [intros [] | now rewrite Nat.add_0_r].
    - destruct (list_eqb r cd) eqn:E; cbn [negb].
      + apply list_eqb_eq in E. left. exists 0. split. lia. split; auto. destruct rows; cbn; rewrite Nat.add_0_r; auto.
      + destruct (IH (S l)) as [(i & I1 & I2 & I3)|(N & I3)].
        * left. exists (S i). split. lia. split; auto. rewrite I3. f_equal. lia.
        * right. split. intros [->|X]; auto. rewrite list_eqb_refl in E. discriminate. rewrite I3. f_equal. lia.
  Qed.
  Lemma contract_ok g pm : (forall p, p < np -> pm_at pm p = Ret (gof p)) -> g < ng -> exists mc ceqcs, contract_classes pm g (MC g) = Ret (mc, ceqcs) /\ length mc = length (MC g) /\ NoDup ceqcs /\
    (forall m, m < length (MC g) -> nth m mc 0 < length ceqcs /\ nth (nth m mc 0) ceqcs [] = crow g (nth m (MC g) [])) /\ (forall c, In c ceqcs <-> exists D, In D (MC g) /\ c = crow g D).
  Proof.
    intros HP Hg. unfold contract_classes.
    set (F := fun '(mc, ceqcs) mems => cd <- crs_dps pm g mems ;; let '(is_new, l) := scan_c ceqcs cd 0 true in Ret (mc ++ [if is_new then l else l - 1], if is_new then ceqcs ++ [cd] else ceqcs)).
    assert (K : forall l, (forall D, In D l -> In D (MC g)) -> exists mc ceqcs, foldM F l ([], []) = Ret (mc, ceqcs) /\ length mc = length l /\ NoDup ceqcs /\
      (forall m, m < length l -> nth m mc 0 < length ceqcs /\ nth (nth m mc 0) ceqcs [] = crow g (nth m l [])) /\ (forall c, In c ceqcs <-> exists D, In D l /\ c = crow g D)).
    { intros l. induction l as [|D l IH] using rev_ind; intros HL.
      - exists [], []. split; auto. split; auto. split. constructor. split. intros m Hm. cbn in Hm. lia. intros c. split. intros []. intros (D & [] & _).
      - destruct IH as (mc & ce & E & L & ND & N & I). { intros D' X. apply HL, in_app_iff. auto. } rewrite foldM_app, E. cbn [bind foldM]. unfold F at 1. assert (HD : In D (MC g)) by (apply HL, in_app_iff; right; now left).
        rewrite crs_ok; auto; [|apply (MC_facts g D Hg HD)]. cbn [bind]. fold (crow g D). destruct (scan_ok ce (crow g D) 0) as [(i & I1 & I2 & ->)|(NI & ->)].
        + cbn [bind]. exists (mc ++ [i]), ce. split. cbn. repeat f_equal. lia. rewrite !app_length. cbn [length]. split. lia. split; auto. split.
          * intros m Hm. destruct (Nat.lt_ge_cases m (length l)) as [A|A]. rewrite !(app_nth1 _ _ _ (n := m)) by lia. auto. replace m with (length l) by lia. rewrite app_nth2 by lia. rewrite L, Nat.sub_diag. cbn [nth]. rewrite app_nth2, Nat.sub_diag by lia. auto.
          * intros c. rewrite I. split. intros (D' & A & B). exists D'. rewrite in_app_iff. auto. intros (D' & A & ->). apply in_app_iff in A as [A|[<-|[]]]. exists D'. auto. apply I. rewrite <- I2. now apply nth_In.
        + cbn [bind]. exists (mc ++ [length ce]), (ce ++ [crow g D]). split. reflexivity. rewrite !app_length. cbn [length]. split. lia. split. { apply nodup_app; auto. constructor; auto. constructor. intros x X [<-|[]]. auto. } split.
          * intros m Hm. destruct (Nat.lt_ge_cases m (length l)) as [A|A].
            -- rewrite !(app_nth1 mc) by lia. rewrite (app_nth1 l) by lia. destruct (N m A). split. lia. now rewrite app_nth1.
            -- replace m with (length l) by lia. rewrite (app_nth2 mc) by lia. rewrite L, Nat.sub_diag. cbn [nth]. rewrite (app_nth2 l), Nat.sub_diag by lia. split. lia. rewrite app_nth2, Nat.sub_diag by lia. auto.
          * intros c. rewrite in_app_iff, I. split. intros [(D' & A & B)|[<-|[]]]. exists D'. rewrite in_app_iff. auto. exists D. rewrite in_app_iff. cbn. auto. intros (D' & A & ->). apply in_app_iff in A as [A|[<-|[]]]; auto. left. exists D'. auto. right. now left. }
    apply K. auto.
  Qed.
  (** contracted number of a class *)
  Definition ctab_of (g : nat) : list (list nat) := dist_procs (nodup (list_eq_dec Nat.eq_dec) (map (crow g) (MC g))).
  Lemma ctab_in g c : In c (ctab_of g) <-> exists D, In D (MC g) /\ c = crow g D.
  Proof.
    unfold ctab_of, dist_procs. split.
    - intros X. apply (Permutation_in _ (sort_by_perm dps_less _)) in X. rewrite nodup_In, in_map_iff in X. destruct X as (D & A & B). eauto.
    - intros (D & A & B). apply (Permutation_in _ (Permutation_sym (sort_by_perm dps_less _))). rewrite nodup_In, in_map_iff. eauto.
  Qed.
  Lemma ctab_ss g : StronglySorted (fun a b => dps_less a b = true) (ctab_of g). Proof. apply sort_by_ss. apply dps_less_total. apply NoDup_nodup. Qed.
  Lemma ctab_nodup g : NoDup (ctab_of g). Proof. apply Permutation_NoDup with (1 := Permutation_sym (sort_by_perm dps_less _)). apply NoDup_nodup. Qed.
  Definition cnr (g : nat) (D : list nat) : nat := idx list_eqb (crow g D) (ctab_of g).
  Lemma cnr_ok g D : In D (MC g) -> cnr g D < length (ctab_of g) /\ nth (cnr g D) (ctab_of g) [] = crow g D.
  Proof. intros X. destruct (pos_by_idx list_eqb (crow g D) (ctab_of g) (fun a b => list_eqb_eq a b) (proj2 (ctab_in g _) (ex_intro _ D (conj X eq_refl))) 0) as (_ & A & B). split; auto. Qed.
  Definition contr (g : nat) : ceqch := mkC (map (om_of g) (grp g)) (MC g) (map (cnr g) (MC g)) (map (fun r => map (cnr g) (classes H r)) (grp g)) (ctab_of g).
  Lemma BuildCEQCH_ok g : g < ng -> BuildCEQCH H groups g = Ret (contr g).
  Proof.
    intros Hg. unfold BuildCEQCH. destruct pm_ok as (pm & EP & KP). rewrite EP. cbn [bind]. rewrite (rd_ok _ _ []) by auto. cbn [bind].
    rewrite (mapM_map _ (fun r => nth r H [])). 2:{ intros r Hr. apply rd_ok. eauto. } cbn [bind]. fold (tabs_of g).
    rewrite (mapM_map _ ids_of). 2:{ intros r Hr. apply eqc_ids_ok; eauto. } cbn [bind]. rewrite gids_ok by auto. rewrite om_ok by auto. cbn [bind]. rewrite map_length. rewrite sizes_ok by auto. cbn [bind]. rewrite mmems_ok by auto. cbn [bind].
    destruct (contract_ok g pm KP Hg) as (mc & ce & E & L & ND & N & I). rewrite E. cbn [bind].
    assert (EC : dist_procs ce = ctab_of g).
    { apply (ss_ext (fun a b => dps_less a b = true)). intros x X. rewrite less_irrefl in X. discriminate. apply less_trans. apply sort_by_ss; auto. apply dps_less_total. apply ctab_ss. intros x. rewrite ctab_in, <- I. unfold dist_procs. split; apply Permutation_in; [|apply Permutation_sym]; apply sort_by_perm. }
    rewrite EC. rewrite (mapM_map _ (fun set => idx list_eqb set (ctab_of g))). 2:{ intros c Hc. destruct (pos_by_idx list_eqb c (ctab_of g) (fun a b => list_eqb_eq a b)) with (i := 0) as (A & _); auto. apply ctab_in, I; auto. } cbn [bind].
    assert (EM : mapM (fun c => rd (map (fun set => idx list_eqb set (ctab_of g)) ce) c) mc = Ret (map (cnr g) (MC g))).
    { rewrite (mapM_map _ (fun c => nth c (map (fun set => idx list_eqb set (ctab_of g)) ce) 0)).
      - f_equal. apply nth_ext_len with (d := 0). now rewrite !map_length. rewrite map_length. intros m Hm. rewrite (nth_map_ok _ _ _ 0) by auto. rewrite (nth_map_ok _ (MC g) _ []) by lia. destruct (N m ltac:(lia)) as (N1 & N2). rewrite (nth_map_ok _ _ _ []) by auto. unfold cnr. now rewrite N2.
      - intros c Hc. apply rd_ok. rewrite map_length. apply In_nth with (d := 0) in Hc as (m & Hm & <-). apply N. lia. }
    rewrite EM. cbn [bind].
    rewrite (mapM_map _ (map (fun m => nth m (map (cnr g) (MC g)) 0))).
    - cbn [bind]. unfold contr. do 2 f_equal. rewrite map_map. apply map_ext_in. intros r Hr. unfold om_of. rewrite map_map. apply map_ext_in. intros D HD. assert (X : In D (MC g)) by (apply MC_in; eauto). destruct (mnr_ok g D X) as (A & B). rewrite (nth_map_ok _ _ _ []) by auto. now rewrite B.
    - intros l Hl. apply in_map_iff in Hl as (r & <- & Hr). apply mapM_map. intros m Hm. apply in_map_iff in Hm as (D & <- & HD). apply rd_ok. rewrite map_length. apply mnr_ok, MC_in. eauto.
  Qed.
End GC.
