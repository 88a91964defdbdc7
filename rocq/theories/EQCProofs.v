(** Proofs about the model of equivalence classes, part 1: sets as sorted lists, sorting, tables. *)
From Verif Require Import Base EQCModel UtilProofs MISProofs.
Local Open Scope nat_scope.

Notation sset := (StronglySorted lt).
Lemma has_in p l : has p l = true <-> In p l.
Proof. exact (mem_in p l). Qed.
Lemma has_out p l : has p l = false <-> ~ In p l.
Proof. exact (mem_out p l). Qed.
Lemma list_eqb_eq a : forall b, list_eqb a b = true <-> a = b.
Proof. induction a as [|x a IH]; intros [|y b]; cbn; try (split; congruence). rewrite Bool.andb_true_iff, Nat.eqb_eq, IH. split; [intros (-> & ->); auto|intros [= -> ->]; auto]. Qed.
Lemma list_eqb_refl a : list_eqb a a = true. Proof. now apply list_eqb_eq. Qed.
Lemma exists_eqb c nd : existsb (list_eqb c) nd = true <-> In c nd.
Proof. rewrite existsb_exists. split; [intros (x & H & E); apply list_eqb_eq in E; now subst|intros; exists c; split; auto using list_eqb_refl]. Qed.
Lemma exists_eqb_false c nd : existsb (list_eqb c) nd = false <-> ~ In c nd.
Proof. rewrite <- exists_eqb. now destruct (existsb (list_eqb c) nd). Qed.

(** *** sorted lists without duplicates as sets *)
Lemma sset_nodup l : sset l -> NoDup l.
Proof. induction 1 as [|x l H IH HF]; constructor; auto. rewrite Forall_forall in HF. intros X. specialize (HF x X). lia. Qed.
Section Unique.
  Context {A} (R : A -> A -> Prop) (HI : forall x, ~ R x x) (HT : forall x y z, R x y -> R y z -> R x z).
  Lemma ss_ext l : forall l', StronglySorted R l -> StronglySorted R l' -> (forall x, In x l <-> In x l') -> l = l'.
  Proof.
    induction l as [|a l IH]; intros [|b l'] H H' E; auto.
    - destruct (proj2 (E b)); now left.
    - destruct (proj1 (E a)); now left.
    - inversion H as [|? ? H1 H2]; inversion H' as [|? ? H1' H2']; subst. rewrite Forall_forall in *.
      assert (a = b). { destruct (proj1 (E a) (or_introl eq_refl)) as [X|X]; auto. destruct (proj2 (E b) (or_introl eq_refl)) as [Y|Y]; auto. exfalso. apply (HI a). apply (HT a b a); auto. }
      subst b. f_equal. apply IH; auto. intros x. split; intros Hx.
      + destruct (proj1 (E x) (or_intror Hx)) as [<-|]; auto. exfalso. apply (HI a). auto.
      + destruct (proj2 (E x) (or_intror Hx)) as [<-|]; auto. exfalso. apply (HI a). auto.
  Qed.
  Lemma ss_filter_r f l : StronglySorted R l -> StronglySorted R (filter f l).
  Proof. induction 1 as [|x l H IH HF]; cbn; [constructor|]. destruct (f x); auto. constructor; auto. rewrite Forall_forall in *. intros y Hy. apply filter_In in Hy. now apply HF. Qed.
End Unique.
Lemma sset_ext l l' : sset l -> sset l' -> (forall x, In x l <-> In x l') -> l = l'.
Proof. apply ss_ext; intros; lia. Qed.

(** *** sorting *)
Section SortBy.
  Context {A : Type} (less : A -> A -> bool).
  Lemma insert_by_perm x l : Permutation (insert_by less x l) (x :: l).
  Proof. induction l as [|y l IH]; cbn; auto. destruct (less x y); auto. rewrite IH. apply perm_swap. Qed.
  Lemma sort_by_perm l : Permutation (sort_by less l) l.
  Proof. induction l as [|x l IH]; cbn; auto. rewrite insert_by_perm. now constructor. Qed.
  Hypothesis HR : strict_total less.
  Lemma insert_by_ss x l : StronglySorted (fun a b => less a b = true) l -> ~ In x l -> StronglySorted (fun a b => less a b = true) (insert_by less x l).
  Proof.
    destruct HR as (I & T & W). intros HS. induction HS as [|y l H IH HF]; cbn; intros HN; [repeat constructor|]. destruct (less x y) eqn:E.
    - constructor; [constructor; auto|]. rewrite Forall_forall in *. intros z [<-|Hz]; auto. apply (T x y z); auto.
    - constructor. apply IH. tauto. rewrite Forall_forall in *. intros z Hz. apply (Permutation_in _ (insert_by_perm x l)) in Hz as [<-|Hz]; auto.
      assert (N : x <> y) by (intros ->; apply HN; now left). destruct (W x y N); congruence.
  Qed.
  Lemma sort_by_ss l : NoDup l -> StronglySorted (fun a b => less a b = true) (sort_by less l).
  Proof. induction 1 as [|x l H HN IH]; cbn. constructor. apply insert_by_ss; auto. intros X. apply (Permutation_in _ (sort_by_perm l)) in X. contradiction. Qed.
End SortBy.
Lemma ltb_total : strict_total Nat.ltb.
Proof. split; [apply Nat.ltb_irrefl|split]. intros a b c. rewrite !Nat.ltb_lt. lia. intros a b. rewrite !Nat.ltb_lt. lia. Qed.
Lemma ss_impl {A} (R S : A -> A -> Prop) l : (forall x y, R x y -> S x y) -> StronglySorted R l -> StronglySorted S l.
Proof. intros H. induction 1 as [|x l HS IH HF]; constructor; auto. eapply Forall_impl; [|exact HF]. auto. Qed.
Lemma sort_nat_set l : NoDup l -> sset (sort_by Nat.ltb l).
Proof. intros H. eapply ss_impl; [|apply (sort_by_ss _ ltb_total _ H)]. intros x y. apply Nat.ltb_lt. Qed.
Lemma sort_nat_in l x : In x (sort_by Nat.ltb l) <-> In x l.
Proof. split; apply Permutation_in; [|apply Permutation_sym]; apply sort_by_perm. Qed.
Lemma sort_nat_id l : sset l -> sort_by Nat.ltb l = l.
Proof. intros H. apply sset_ext; auto. apply sort_nat_set. now apply sset_nodup. intros x. apply sort_nat_in. Qed.

(** *** the order of the classes *)
Lemma lex_less_irrefl a : lex_less a a = false.
Proof. induction a as [|x a IH]; cbn [lex_less]; auto. now rewrite Nat.ltb_irrefl. Qed.
Lemma lex_less_trans a : forall b c, lex_less a b = true -> lex_less b c = true -> lex_less a c = true.
Proof.
  induction a as [|x a IH]; intros [|y b] [|z c]; cbn [lex_less]; try discriminate.
  destruct (Nat.ltb_spec x y), (Nat.ltb_spec y z), (Nat.ltb_spec x z), (Nat.ltb_spec z x), (Nat.ltb_spec y x), (Nat.ltb_spec z y); try lia; auto; try discriminate.
  apply IH.
Qed.
Lemma lex_less_total a : forall b, length a = length b -> a <> b -> lex_less a b = true \/ lex_less b a = true.
Proof.
  induction a as [|x a IH]; intros [|y b]; cbn [lex_less length]; intros HL N; try discriminate. contradiction.
  destruct (Nat.ltb_spec x y), (Nat.ltb_spec y x); auto. apply IH. lia. intros ->. apply N. f_equal. lia.
Qed.
Lemma dps_less_total : strict_total dps_less.
Proof.
  unfold dps_less. split; [|split].
  - intros a. now rewrite Nat.ltb_irrefl, lex_less_irrefl.
  - intros a b c. destruct (Nat.ltb_spec (length b) (length a)), (Nat.ltb_spec (length c) (length b)), (Nat.ltb_spec (length a) (length b)), (Nat.ltb_spec (length b) (length c)),
      (Nat.ltb_spec (length c) (length a)), (Nat.ltb_spec (length a) (length c)); try lia; auto; try discriminate. apply lex_less_trans.
  - intros a b N. destruct (Nat.ltb_spec (length b) (length a)), (Nat.ltb_spec (length a) (length b)); auto; try lia. apply lex_less_total; auto. lia.
Qed.
(** removing the same element from two sets does not change their order *)
Definition del (p : nat) (l : list nat) : list nat := filter (fun x => negb (x =? p)) l.
Lemma in_del p l x : In x (del p l) <-> In x l /\ x <> p.
Proof. unfold del. rewrite filter_In, Bool.negb_true_iff, Nat.eqb_neq. tauto. Qed.
Lemma del_sset p l : sset l -> sset (del p l). Proof. apply ss_filter_r. Qed.
Lemma del_notin p l : ~ In p l -> del p l = l.
Proof. induction l as [|x l IH]; cbn; auto. intros H. destruct (Nat.eqb_spec x p). subst. tauto. cbn. f_equal. tauto. Qed.
Lemma del_cons p x l : del p (x :: l) = if x =? p then del p l else x :: del p l.
Proof. unfold del. cbn [filter]. now destruct (x =? p). Qed.
Lemma del_length p l : sset l -> In p l -> length l = S (length (del p l)).
Proof.
  induction 1 as [|x l H IH HF]; intros []; rewrite ?Forall_forall in HF; rewrite del_cons; cbn [length].
  - subst x. rewrite Nat.eqb_refl. rewrite del_notin; auto. intros X. specialize (HF p X). lia.
  - destruct (Nat.eqb_spec x p). subst. specialize (HF p H0). lia. cbn. now rewrite IH.
Qed.
Lemma lex_del p a : forall b, sset a -> sset b -> In p a -> In p b -> length a = length b -> lex_less (del p a) (del p b) = lex_less a b.
Proof.
  induction a as [|x a IH]; intros [|y b] HA HB PA PB HL; try destruct PA; try destruct PB; try discriminate.
  - subst x y. rewrite !del_cons. rewrite Nat.eqb_refl. cbn [lex_less]. rewrite Nat.ltb_irrefl. inversion HA as [|? ? _ FA]; inversion HB as [|? ? _ FB]; subst. rewrite Forall_forall in *. rewrite !del_notin; auto; intros X; [specialize (FB p X)|specialize (FA p X)]; lia.
  - subst x. inversion HA as [|? ? SA FA]; inversion HB as [|? ? SB FB]; subst. rewrite Forall_forall in *. pose proof (FB p H0). rewrite !del_cons. rewrite Nat.eqb_refl. destruct (Nat.eqb_spec y p); [lia|]. cbn [lex_less].
    destruct (Nat.ltb_spec p y); [lia|]. destruct (Nat.ltb_spec y p); [|lia]. rewrite (del_notin p a) by (intros X; specialize (FA p X); lia).
    pose proof (del_length p b SB H0). cbn in HL. destruct a as [|x' a]; [cbn in *; lia|]. cbn [lex_less]. pose proof (FA x' (or_introl eq_refl)). destruct (Nat.ltb_spec x' y); [lia|]. destruct (Nat.ltb_spec y x'); [auto|lia].
  - subst y. inversion HA as [|? ? SA FA]; inversion HB as [|? ? SB FB]; subst. rewrite Forall_forall in *. pose proof (FA p H). rewrite !del_cons. rewrite Nat.eqb_refl. destruct (Nat.eqb_spec x p); [lia|]. cbn [lex_less].
    destruct (Nat.ltb_spec x p); [|lia]. rewrite (del_notin p b) by (intros X; specialize (FB p X); lia).
    pose proof (del_length p a SA H). cbn in HL. destruct b as [|y' b]; [cbn in *; lia|]. cbn [lex_less]. pose proof (FB y' (or_introl eq_refl)). destruct (Nat.ltb_spec x y'); [auto|lia].
  - inversion HA as [|? ? SA FA]; inversion HB as [|? ? SB FB]; subst. rewrite Forall_forall in *. pose proof (FA p H). pose proof (FB p H0). rewrite !del_cons. destruct (Nat.eqb_spec x p), (Nat.eqb_spec y p); try lia. cbn [lex_less].
    destruct (x <? y); auto. destruct (y <? x); auto.
Qed.
Lemma dps_del p a b : sset a -> sset b -> In p a -> In p b -> dps_less (del p a) (del p b) = dps_less a b.
Proof.
  intros HA HB PA PB. unfold dps_less. rewrite (del_length p a HA PA), (del_length p b HB PB).
  destruct (Nat.ltb_spec (length (del p b)) (length (del p a))), (Nat.ltb_spec (S (length (del p b))) (S (length (del p a)))), (Nat.ltb_spec (length (del p a)) (length (del p b))), (Nat.ltb_spec (S (length (del p a))) (S (length (del p b)))); try lia; auto.
  apply lex_del; auto. rewrite (del_length p a HA PA), (del_length p b HB PB). lia.
Qed.

(** *** union and intersection *)
Lemma merge_cons x a y b : merge_arrays (x :: a) (y :: b) = if x =? y then x :: merge_arrays a b else if x <? y then x :: merge_arrays a (y :: b) else y :: merge_arrays (x :: a) b.
Proof. reflexivity. Qed.
Lemma isect_cons x a y b : intersect_arrays (x :: a) (y :: b) = if x =? y then x :: intersect_arrays a b else if x <? y then intersect_arrays a (y :: b) else intersect_arrays (x :: a) b.
Proof. reflexivity. Qed.
Lemma merge_in a : forall b x, In x (merge_arrays a b) <-> In x a \/ In x b.
Proof.
  induction a as [|y a IHa]. destruct b; cbn; tauto. induction b as [|z b IHb]; intros x. cbn; tauto.
  rewrite merge_cons. destruct (Nat.eqb_spec y z) as [->|]. cbn [In]. rewrite IHa. tauto. destruct (y <? z).
  - cbn [In]. rewrite IHa. cbn [In]. tauto.
  - cbn [In]. rewrite IHb. cbn [In]. tauto.
Qed.
Lemma merge_sset a : forall b, sset a -> sset b -> sset (merge_arrays a b).
Proof.
  induction a as [|y a IHa]. destruct b; cbn; auto. induction b as [|z b IHb]; intros HA HB. exact HA.
  inversion HA as [|? ? SA FA]; inversion HB as [|? ? SB FB]; subst. rewrite Forall_forall in *. rewrite merge_cons. destruct (Nat.eqb_spec y z) as [->|N]; [|destruct (Nat.ltb_spec y z)].
  - constructor; auto. apply Forall_forall. intros x Hx. apply merge_in in Hx as []; auto.
  - constructor; auto. apply Forall_forall. intros x Hx. apply merge_in in Hx as [|[<-|Hx]]; auto. specialize (FB x Hx). lia.
  - constructor; auto. apply Forall_forall. intros x Hx. apply merge_in in Hx as [[<-|Hx]|]; auto. lia. specialize (FA x Hx). lia.
Qed.
Lemma isect_in a : forall b x, sset a -> sset b -> (In x (intersect_arrays a b) <-> In x a /\ In x b).
Proof.
  induction a as [|y a IHa]. destruct b; cbn; tauto. induction b as [|z b IHb]; intros x HA HB. cbn; tauto.
  inversion HA as [|? ? SA FA]; inversion HB as [|? ? SB FB]; subst. rewrite Forall_forall in *. rewrite isect_cons. destruct (Nat.eqb_spec y z) as [->|N]; [|destruct (Nat.ltb_spec y z)].
  - cbn [In]. rewrite IHa by auto. split; [intuition|]. intros ([->|X] & [Y|Y]); auto.
  - rewrite IHa by auto. cbn [In]. split; [intuition|]. intros ([->|X] & [Y|Y]); auto. lia. specialize (FB x Y). lia.
  - rewrite IHb by auto. cbn [In]. split; [intuition|]. intros ([->|X] & [Y|Y]); auto. lia. specialize (FA x X). lia.
Qed.
Lemma isect_sset a : forall b, sset a -> sset b -> sset (intersect_arrays a b).
Proof.
  induction a as [|y a IHa]. destruct b; cbn; constructor. induction b as [|z b IHb]; intros HA HB. constructor.
  pose proof HA as HA'. pose proof HB as HB'. inversion HA as [|? ? SA FA]; inversion HB as [|? ? SB FB]; subst. rewrite Forall_forall in *. rewrite isect_cons. destruct (Nat.eqb_spec y z) as [->|N]; [|destruct (Nat.ltb_spec y z)]; auto.
  constructor; auto. apply Forall_forall. intros x Hx. apply isect_in in Hx as []; auto.
Qed.
Lemma merge_comm a b : sset a -> sset b -> merge_arrays a b = merge_arrays b a.
Proof. intros. apply sset_ext; auto using merge_sset. intros x. rewrite !merge_in. tauto. Qed.
Lemma isect_comm a b : sset a -> sset b -> intersect_arrays a b = intersect_arrays b a.
Proof. intros. apply sset_ext; auto using isect_sset. intros x. rewrite !isect_in by auto. tauto. Qed.

(** *** the tables *)
Lemma find_last_ok dp arr : NoDup dp -> forall k, find_last dp arr = Some k <-> nth_error dp k = Some arr.
Proof.
  intros ND. unfold find_last.
  assert (G : forall m, m <= length dp -> forall k, fold_left (fun pos k => if list_eqb (nth k dp []) arr then Some k else pos) (seq 0 m) None = Some k <-> k < m /\ nth_error dp k = Some arr).
  { induction m as [|m IH]; intros Hm k. cbn. split; [discriminate|lia]. rewrite seq_S, fold_left_app. cbn [fold_left]. cbn [Nat.add]. destruct (list_eqb (nth m dp []) arr) eqn:E.
    - apply list_eqb_eq in E. assert (EM : nth_error dp m = Some arr) by (rewrite <- E; apply nth_error_nth'; lia). split.
      + intros [= <-]. split; [lia|auto].
      + intros (H1 & H2). f_equal. assert (m < length dp) by lia. apply (proj1 (NoDup_nth_error dp) ND); auto. congruence.
    - rewrite IH by lia. split; [intros (A & B); split; [lia|auto]|]. intros (A & B). split; auto. assert (k <> m); [|lia]. intros ->. apply nth_error_nth with (d := []) in B. apply Bool.not_true_iff_false in E. apply E. now apply list_eqb_eq. }
  intros k. rewrite G by lia. split; [tauto|]. intros H. split; auto. apply nth_error_Some. congruence.
Qed.
Lemma find_last_none dp arr : NoDup dp -> (find_last dp arr = None <-> ~ In arr dp).
Proof.
  intros ND. destruct (find_last dp arr) as [k|] eqn:E.
  - apply find_last_ok in E; auto. apply nth_error_In in E. split; [discriminate|tauto].
  - split; auto. intros _ X. apply In_nth_error in X as (k & X). apply (find_last_ok dp arr ND) in X. congruence.
Qed.
Lemma find_first_ok dp arr : NoDup dp -> FindEQCWithDPs dp arr = find_last dp arr.
Proof.
  intros ND. unfold FindEQCWithDPs. destruct (find _ _) as [k|] eqn:E.
  - symmetry. apply find_last_ok; auto. apply find_some in E as (E1 & E2). apply in_seq in E1. apply list_eqb_eq in E2. rewrite <- E2. apply nth_error_nth'. lia.
  - symmetry. apply find_last_none; auto. intros X. apply In_nth with (d := []) in X as (k & Hk & <-). apply (find_none _ _ E k) in Hk || (assert (F := find_none _ _ E k ltac:(apply in_seq; lia)); cbn in F; rewrite list_eqb_refl in F; discriminate).
Qed.

Section Tables.
  Variables (dp : list (list nat)) (f : list nat -> list nat -> list nat).
  Notation n := (length dp).
  Hypothesis HC : forall a b, In a dp -> In b dp -> f a b = f b a.
  Definition cell (i j : nat) : option nat := find_last dp (f (nth i dp []) (nth j dp [])).
  Lemma cell_comm i j : i < n -> j < n -> cell i j = cell j i.
  Proof. intros. unfold cell. f_equal. apply HC; apply nth_In; auto. Qed.
  Lemma idx_lt i j : i < n -> j < n -> i + n * j < n * n.
  Proof. intros. assert (S j <= n) by lia. apply (Nat.mul_le_mono_l _ _ n) in H1. rewrite Nat.mul_succ_r in H1. lia. Qed.
  Lemma idx_inj i j i' j' : i < n -> i' < n -> i + n * j = i' + n * j' -> i = i' /\ j = j'.
  Proof.
    intros Hi Hi' E. assert (N : n <> 0) by lia. pose proof (Nat.div_unique (i + n * j) n j i Hi ltac:(lia)). pose proof (Nat.div_unique (i' + n * j') n j' i' Hi' ltac:(lia)).
    assert (j = j') by congruence. subst. lia.
  Qed.
  (** cells written so far *)
  Definition filled (D : nat -> nat -> Prop) (M : list (option nat)) : Prop := length M = n * n /\ forall i j, i < n -> j < n -> D i j -> nth (i + n * j) M None = cell i j.
  Lemma fill_step D M e1 e2 : e1 < n -> e2 < n -> filled D M -> exists M',
    (a <- rd dp e1 ;; b <- rd dp e2 ;; let pos := find_last dp (f a b) in M <- wr M (e1 + n * e2) pos ;; wr M (e2 + n * e1) pos) = Ret M' /\ filled (fun i j => D i j \/ (i = e1 /\ j = e2) \/ (i = e2 /\ j = e1)) M'.
  Proof.
    intros H1 H2 (HL & HM). rewrite !(rd_ok _ _ []) by auto. cbn [bind]. rewrite wr_ok by (rewrite HL; now apply idx_lt). cbn [bind]. rewrite wr_ok by (rewrite upd_length, HL; now apply idx_lt). eexists. split; [reflexivity|].
    split; [now rewrite !upd_length|]. fold (cell e1 e2). intros i j Hi Hj HD.
    destruct (Nat.eq_dec (e2 + n * e1) (i + n * j)) as [E|N].
    - rewrite <- E. rewrite nth_upd_eq by (rewrite upd_length, HL; now apply idx_lt). apply idx_inj in E as (-> & ->); auto. now apply cell_comm.
    - rewrite nth_upd_neq by auto. destruct (Nat.eq_dec (e1 + n * e2) (i + n * j)) as [E|N'].
      + rewrite <- E. rewrite nth_upd_eq by (rewrite HL; now apply idx_lt). apply idx_inj in E as (-> & ->); auto.
      + rewrite nth_upd_neq by auto. apply HM; auto. destruct HD as [|[(-> & ->)|(-> & ->)]]; auto; contradiction.
  Qed.
  Lemma filled_impl (D D' : nat -> nat -> Prop) M : (forall i j, i < n -> j < n -> D' i j -> D i j) -> filled D M -> filled D' M.
  Proof. intros H (HL & HM). split; auto. Qed.
  Lemma fill_row e1 l : e1 < n -> (forall e2, In e2 l -> e2 < n) -> forall D M, filled D M -> exists M',
    foldM (fun M e2 => a <- rd dp e1 ;; b <- rd dp e2 ;; let pos := find_last dp (f a b) in M <- wr M (e1 + n * e2) pos ;; wr M (e2 + n * e1) pos) l M = Ret M' /\
    filled (fun i j => D i j \/ (i = e1 /\ In j l) \/ (In i l /\ j = e1)) M'.
  Proof.
    intros H1. induction l as [|e2 l IH]; intros HL D M HM; cbn [foldM].
    - exists M. split; auto. eapply filled_impl; [|exact HM]. intros i j _ _ [|[(_ & [])|([] & _)]]; auto.
    - destruct (fill_step D M e1 e2 H1 (HL _ (or_introl eq_refl)) HM) as (M1 & E1 & F1). cbv zeta in E1 |- *. rewrite E1. cbn [bind]. destruct (IH ltac:(intros; apply HL; now right) _ _ F1) as (M2 & E2 & F2). exists M2. split; auto.
      eapply filled_impl; [|exact F2]. cbn [In]. intros i j _ _. intuition.
  Qed.
  Lemma fill_ok : exists M, fill_sym f dp = Ret M /\ length M = n * n /\ forall i j, i < n -> j < n -> nth (i * n + j) M None = cell i j.
  Proof.
    unfold fill_sym. cbv zeta.
    assert (G : forall m, m <= n -> exists M, foldM (fun M e1 => foldM (fun M e2 => a <- rd dp e1 ;; b <- rd dp e2 ;; let pos := find_last dp (f a b) in M <- wr M (e1 + n * e2) pos ;; wr M (e2 + n * e1) pos) (seq e1 (n - e1)) M) (seq 0 m) (repeat None (n * n)) = Ret M /\ filled (fun i j => i < m \/ j < m) M).
    { induction m as [|m IH]; intros Hm. exists (repeat None (n * n)). split; auto. split; [apply repeat_length|]. intros; lia.
      destruct (IH ltac:(lia)) as (M & E & F). rewrite seq_S, foldM_app, E. cbn [bind foldM Nat.add].
      destruct (fill_row m (seq m (n - m)) ltac:(lia) ltac:(intros e2 X; apply in_seq in X; lia) _ _ F) as (M' & E' & F'). cbv zeta in E' |- *. rewrite E'. cbn [bind]. exists M'. split; auto. eapply filled_impl; [|exact F'].
      intros i j Hi Hj [H|H]; rewrite !in_seq; lia. }
    destruct (G n (le_n n)) as (M & E & (HL & HM)). exists M. split; auto. split; auto. intros i j Hi Hj. rewrite (Nat.mul_comm i n), Nat.add_comm. rewrite HM by auto. now apply cell_comm.
  Qed.
End Tables.

Section Order.
  Variable dp : list (list nat).
  Notation n := (length dp).
  Lemma subset_test_ok a b : subset_test a b = true <-> incl a b.
  Proof.
    unfold subset_test. destruct b as [|y b]; [destruct a as [|x a]|].
    - split; auto. intros _ x [].
    - split; [discriminate|]. intros H. destruct (H x (or_introl eq_refl)).
    - rewrite forallb_forall. split; intros H x Hx; apply has_in; auto; now apply H.
  Qed.
  Definition hfilled (D : nat -> nat -> Prop) (H : list bool) : Prop := length H = n * n /\ forall i j, i < n -> j < n -> (nth (i * n + j) H false = true <-> D i j /\ incl (nth i dp []) (nth j dp [])).
  Lemma hrow e1 l : e1 < n -> (forall e2, In e2 l -> e2 < n) -> forall D H, hfilled D H -> exists H',
    foldM (fun H e2 => a <- rd dp e1 ;; b <- rd dp e2 ;; if subset_test a b then wr H (e1 * n + e2) true else Ret H) l H = Ret H' /\ hfilled (fun i j => D i j \/ (i = e1 /\ In j l)) H'.
  Proof.
    intros H1. induction l as [|e2 l IH]; intros HL D H (LL & HH); cbn [foldM].
    - exists H. split; auto. split; auto. intros i j Hi Hj. rewrite HH by auto. cbn. tauto.
    - pose proof (HL e2 (or_introl eq_refl)) as H2.
      assert (IX : forall i j, i < n -> j < n -> i * n + j < n * n) by (intros i j Hi Hj; rewrite (Nat.mul_comm i), Nat.add_comm; now apply idx_lt).
      assert (S1 : exists H', (a <- rd dp e1 ;; b <- rd dp e2 ;; if subset_test a b then wr H (e1 * n + e2) true else Ret H) = Ret H' /\ hfilled (fun i j => D i j \/ (i = e1 /\ j = e2)) H').
      { rewrite !(rd_ok _ _ []) by auto. cbn [bind]. destruct (subset_test _ _) eqn:E.
        - apply subset_test_ok in E. rewrite wr_ok by (rewrite LL; auto). eexists. split; [reflexivity|]. split; [now rewrite upd_length|]. intros i j Hi Hj.
          destruct (Nat.eq_dec (e1 * n + e2) (i * n + j)) as [X|N].
          + rewrite <- X, nth_upd_eq by (rewrite LL; auto). rewrite (Nat.add_comm _ e2), (Nat.add_comm _ j), (Nat.mul_comm e1), (Nat.mul_comm i) in X. apply idx_inj in X as (-> & ->); auto. tauto.
          + rewrite nth_upd_neq by auto. rewrite HH by auto. split; [tauto|]. intros ([|(-> & ->)] & ?); [tauto|contradiction].
        - eexists. split; [reflexivity|]. split; auto. intros i j Hi Hj. rewrite HH by auto. split; [tauto|]. intros ([|(-> & ->)] & X); [tauto|]. apply subset_test_ok in X. congruence. }
      destruct S1 as (H' & E' & F'). rewrite E'. cbn [bind]. destruct (IH ltac:(intros; apply HL; now right) _ _ F') as (H'' & E'' & (L'' & F'')). exists H''. split; auto. split; auto. intros i j Hi Hj. rewrite F'' by auto. cbn [In]. intuition.
  Qed.
  Lemma horder_ok : exists H, hierarchic_order dp = Ret H /\ length H = n * n /\ forall i j, i < n -> j < n -> (nth (i * n + j) H false = true <-> incl (nth i dp []) (nth j dp [])).
  Proof.
    unfold hierarchic_order. cbv zeta.
    assert (G : forall m, m <= n -> exists H, foldM (fun H e1 => foldM (fun H e2 => a <- rd dp e1 ;; b <- rd dp e2 ;; if subset_test a b then wr H (e1 * n + e2) true else Ret H) (seq 0 n) H) (seq 0 m) (repeat false (n * n)) = Ret H /\ hfilled (fun i j => i < m) H).
    { induction m as [|m IH]; intros Hm. eexists. split; [reflexivity|]. split; [apply repeat_length|]. intros i j Hi Hj. assert (X : nth (i * n + j) (repeat false (n * n)) false = false) by apply nth_repeat. rewrite X. split; [discriminate|lia].
      destruct (IH ltac:(lia)) as (H & E & F). rewrite seq_S, foldM_app, E. cbn [bind foldM Nat.add].
      destruct (hrow m (seq 0 n) ltac:(lia) ltac:(intros e2 X; apply in_seq in X; lia) _ _ F) as (H' & E' & (L' & F')). rewrite E'. cbn [bind]. exists H'. split; auto. split; auto. intros i j Hi Hj. rewrite F' by auto. rewrite in_seq. split; intros (X & Y); split; auto; lia. }
    destruct (G n (le_n n)) as (H & E & (HL & HM)). exists H. split; auto. split; auto. intros i j Hi Hj. rewrite HM by auto. tauto.
  Qed.
End Order.
