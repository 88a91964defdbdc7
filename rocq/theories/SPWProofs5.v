(** Lemmas for C79, C81: concatenation of the maps of the rounds. *)
From Coq Require Import QArith.
From Verif Require Import Base SparseModel SparseProofs CtrProofs AuxModel AuxSpec AuxProofs CDataModel CDataSpec CDataProofs CDataProps CMapProps SPWModel SPWSpec SPWProofs SPWProofs2 SPWProofs3 SPWProofs4.
Local Open Scope nat_scope.

Lemma nodup_flat_map {A B} (f : A -> list B) l : NoDup l -> (forall x, In x l -> NoDup (f x)) ->
  (forall x y b, In x l -> In y l -> In b (f x) -> In b (f y) -> x = y) -> NoDup (flat_map f l).
Proof.
  induction 1 as [|a l NI ND IH]; intros H1 H2; cbn; [constructor|].
  assert (IH' : NoDup (flat_map f l)).
  { apply IH; [intros; apply H1; now right|]. intros x y b Hx Hy. apply H2; now right. }
  assert (D : forall b, In b (f a) -> ~ In b (flat_map f l)).
  { intros b Hb Hi. apply in_flat_map in Hi as (x & Hx & Hb'). apply NI. rewrite (H2 a x b); auto; [now left|now right]. }
  assert (NA : NoDup (f a)) by (apply H1; now left). revert NA D. generalize (f a) as g. induction g as [|b g IHg]; intros NA D; cbn; auto.
  inversion NA; subst. constructor.
  - intros Hi. apply in_app_iff in Hi as [Hi|Hi]; auto. apply (D b); auto. now left.
  - apply IHg; auto. intros b' Hb'. apply D. now right.
Qed.
Lemma nodup_map_in {A B} (f : A -> B) l : NoDup l -> (forall x y, In x l -> In y l -> f x = f y -> x = y) -> NoDup (map f l).
Proof.
  induction 1 as [|a l NI ND IH]; intros H; cbn; constructor.
  - intros Hi. apply in_map_iff in Hi as (x & E & Hx). apply NI. rewrite (H a x); auto; [now left|now right].
  - apply IH. intros x y Hx Hy. apply H; now right.
Qed.
Lemma nodup_bucket {T} (items : list (nat * T)) k : NoDup items -> NoDup (bucket items k).
Proof.
  intros H. unfold bucket. apply nodup_map_in; [now apply NoDup_filter|]. intros (a & x) (b & y) Hx Hy E. cbn in E.
  apply filter_In in Hx as [_ Hx], Hy as [_ Hy]. cbn in *. apply Nat.eqb_eq in Hx, Hy. congruence.
Qed.
Lemma nodup_numbered {A} (l : list A) : NoDup (numbered l).
Proof.
  unfold numbered. generalize 0. induction l as [|a l IH]; intros s; cbn; constructor; auto.
  intros Hi. apply in_combine_l, in_seq in Hi. lia.
Qed.

(** rows that list the classes of a map *)
Definition rows_of (m : list Z) (NC : nat) (rows : list (list nat)) : Prop :=
  length rows = NC /\ forall A, A < NC -> NoDup (nth A rows []) /\ forall v, In v (nth A rows []) <-> target m v = Some A.

Lemma c2f_rows NC m : map_into NC m -> exists t, GetMapC2F NC m = Ret t /\ rows_of m NC t.
Proof.
  intros H. destruct (C76_reverse_map NC m H) as (t & E & L & R). exists t. split; auto. split; auto. intros A HA. rewrite R by auto. split; [apply NoDup_filter, seq_NoDup|].
  intros v. rewrite filter_In, in_seq. unfold hits. split.
  - intros (_ & T). destruct (target m v); [|discriminate]. apply Nat.eqb_eq in T. congruence.
  - intros T. rewrite T, Nat.eqb_refl. apply (target_lt NC) in T as [T _]; auto. split; [lia|auto].
Qed.

(** ConcatenateProper and ConcatenateVMap: map and rows *)
Section Concat.
  Variables (n1 n2 : nat) (m1 m2 m : list Z) (rows1 : list (list nat)).
  Hypothesis H1 : map_into n1 m1.
  Hypothesis R1 : rows_of m1 n1 rows1.
  Hypothesis H2 : map_into n2 m2.
  Hypothesis L2 : length m2 = n1.
  Hypothesis HT : forall v, target m v = match target m1 v with Some A => target m2 A | None => None end.

  Lemma proper_rows rows2 : rows_of m2 n2 rows2 -> exists its aggs,
    mapM (fun ka : nat * list nat => ls <- mapM (fun v => rd rows1 v) (snd ka) ;; Ret (map (fun v => (fst ka, v)) (concat ls))) (numbered rows2) = Ret its /\
    count_fill n2 (concat its) = Ret aggs /\ rows_of m n2 aggs.
  Proof using H1 R1 H2 L2 HT.
    clear - H1 R1 H2 L2 HT.
    intros R2. set (g := fun ka : nat * list nat => map (fun v => (fst ka, v)) (concat (map (fun v => nth v rows1 []) (snd ka)))).
    assert (B : forall ka A, In ka (numbered rows2) -> In A (snd ka) -> A < n1 /\ target m2 A = Some (fst ka) /\ fst ka < n2).
    { intros (k & a) A Hk HA. cbn [fst snd] in *. apply in_numbered_lt in Hk as [Hk E]. destruct R2 as [RL RR]. rewrite RL in Hk. apply nth_error_nth with (d := []) in E. subst a.
      apply RR in HA; auto. split; [|auto]. apply (target_lt n2) in HA; auto. lia. }
    exists (map g (numbered rows2)).
    assert (E : mapM (fun ka : nat * list nat => ls <- mapM (fun v => rd rows1 v) (snd ka) ;; Ret (map (fun v => (fst ka, v)) (concat ls))) (numbered rows2) = Ret (map g (numbered rows2))).
    { unfold mapM. apply mapM_ok. intros ka Hk. rewrite (mapM_ok _ (fun v => nth v rows1 [])); [reflexivity|]. intros A HA. apply rd_ok. destruct R1 as [-> _]. now apply (B ka). }
    rewrite <- flat_map_concat_map.
    assert (IN : forall k v, In (k, v) (flat_map g (numbered rows2)) <-> k < n2 /\ exists A, target m2 A = Some k /\ target m1 v = Some A).
    { intros k v. rewrite in_flat_map. split.
      - intros ((k' & a) & Hk & Hi). unfold g in Hi. cbn [fst snd] in Hi. apply in_map_iff in Hi as (v' & [= -> ->] & Hi). apply in_concat in Hi as (x & Hx & Hv). apply in_map_iff in Hx as (A & <- & HA).
        destruct (B _ A Hk HA) as (B1 & B2 & B3). cbn [fst] in *. split; auto. exists A. split; auto. now apply R1.
      - intros (Hk & A & T2 & T1). exists (k, nth k rows2 []). split; [apply (in_numbered _ _ _ []); split; auto; destruct R2 as [-> _]; auto|].
        unfold g. cbn [fst snd]. apply in_map. apply in_concat. exists (nth A rows1 []). split; [apply (in_map (fun v => nth v rows1 [])); now apply R2|].
        apply R1; auto. apply (target_lt n1) in T1; tauto. }
    assert (CF := count_fill_ok n2 (flat_map g (numbered rows2))). eexists. split; [exact E|]. split; [apply CF; intros (k & v) Hi; apply IN in Hi; tauto|].
    split; [now rewrite map_length, seq_length|]. intros A HA. rewrite nth_map_seq by auto. split.
    - apply nodup_bucket. apply nodup_flat_map; [apply nodup_numbered| |].
      + intros (k & a) Hk. unfold g. cbn [fst snd]. apply nodup_map_in; [|intros x y _ _ [= ->]; auto]. rewrite <- flat_map_concat_map. apply nodup_flat_map.
        * apply in_numbered_lt in Hk as [Hk E']. destruct R2 as [RL RR]. rewrite RL in Hk. apply nth_error_nth with (d := []) in E'. subst a. now apply RR.
        * intros A' HA'. destruct (B _ A' Hk HA') as (B1 & _). now apply R1.
        * intros x y b Hx Hy Bx By. destruct (B _ x Hk Hx) as (X1 & _), (B _ y Hk Hy) as (Y1 & _). apply R1 in Bx, By; auto. congruence.
      + intros (k & a) (k' & a') (kk & b) Hk Hk' Bx By. unfold g in Bx, By. cbn [fst snd] in Bx, By. apply in_map_iff in Bx as (? & [= -> _] & _), By as (? & [= -> _] & _).
        apply in_numbered_lt in Hk as [_ Hk], Hk' as [_ Hk']. congruence.
    - intros v. rewrite in_bucket, IN, HT. split.
      + intros (_ & A' & T2 & T1). now rewrite T1.
      + intros T. split; auto. destruct (target m1 v) as [A'|]; [|discriminate]. eauto.
  Qed.

  Lemma vmap_rows : exists its aggs,
    mapM (fun ka : nat * list nat => z <- rd m2 (fst ka) ;;
            if (z =? -1)%Z then Ret [] else if (z <? 0)%Z then Err OutOfBounds else Ret (map (fun v => (Z.to_nat z, v)) (snd ka))) (numbered rows1) = Ret its /\
    count_fill n2 (concat its) = Ret aggs /\ rows_of m n2 aggs.
  Proof using H1 R1 H2 L2 HT.
    clear - H1 R1 H2 L2 HT.
    set (g := fun ka : nat * list nat => match target m2 (fst ka) with Some k => map (fun v => (k, v)) (snd ka) | None => [] end).
    exists (map g (numbered rows1)).
    match goal with |- exists aggs, ?L0 = _ /\ _ => assert (E : L0 = Ret (map g (numbered rows1))) end.
    { unfold mapM. apply mapM_ok. intros (A & a) Hk. cbn [fst snd]. apply in_numbered_lt in Hk as [Hk E]. destruct R1 as [RL RR]. rewrite RL in Hk. unfold g. cbn [fst snd].
      destruct (target_nth n2 m2 A H2 ltac:(lia)) as [(Ea & Ta)|(B & Ea & Ta & HA)]; rewrite (rd_nth_error _ _ _ Ea), Ta; cbn [bind]; [reflexivity|].
      destruct (Z.eqb_spec (Z.of_nat B) (-1)); [lia|]. destruct (Z.ltb_spec (Z.of_nat B) 0); [lia|]. now rewrite Nat2Z.id. }
    rewrite <- flat_map_concat_map.
    assert (RR : forall A a, In (A, a) (numbered rows1) -> A < n1 /\ NoDup a /\ forall v, In v a <-> target m1 v = Some A).
    { intros A a Hk. apply in_numbered_lt in Hk as [Hk E']. destruct R1 as [RL RR]. rewrite RL in Hk. apply nth_error_nth with (d := []) in E'. subst a. split; auto. }
    assert (IN : forall k v, In (k, v) (flat_map g (numbered rows1)) <-> k < n2 /\ exists A, target m2 A = Some k /\ target m1 v = Some A).
    { intros k v. rewrite in_flat_map. split.
      - intros ((A & a) & Hk & Hi). unfold g in Hi. cbn [fst snd] in Hi. destruct (target m2 A) as [k'|] eqn:T; [|destruct Hi]. apply in_map_iff in Hi as (v' & [= -> ->] & Hi).
        destruct (RR _ _ Hk) as (_ & _ & R). apply R in Hi. split; eauto. apply (target_lt n2) in T; tauto.
      - intros (Hk & A & T2 & T1). assert (A < n1) by (apply (target_lt n1) in T1; tauto). exists (A, nth A rows1 []). split; [apply (in_numbered _ _ _ []); split; auto; destruct R1 as [-> _]; auto|].
        unfold g. cbn [fst snd]. rewrite T2. apply in_map. now apply R1. }
    assert (CF := count_fill_ok n2 (flat_map g (numbered rows1))). eexists. split; [exact E|]. split; [apply CF; intros (k & v) Hi; apply IN in Hi; tauto|].
    split; [now rewrite map_length, seq_length|]. intros k Hk. rewrite nth_map_seq by auto. split.
    - apply nodup_bucket. apply nodup_flat_map; [apply nodup_numbered| |].
      + intros (A & a) Ha. unfold g. cbn [fst snd]. destruct (target m2 A); [|constructor]. apply nodup_map_in; [|intros x y _ _ [= ->]; auto]. now apply (RR _ _ Ha).
      + intros (A & a) (A' & a') (kk & b) Ha Ha' Bx By. unfold g in Bx, By. cbn [fst snd] in Bx, By. destruct (target m2 A); [|destruct Bx]. destruct (target m2 A'); [|destruct By].
        apply in_map_iff in Bx as (? & [= _ ->] & Bx), By as (? & [= _ ->] & By). destruct (RR _ _ Ha) as (_ & _ & R), (RR _ _ Ha') as (_ & _ & R'). apply R in Bx. apply R' in By.
        assert (A = A') by congruence. subst A'. apply in_numbered_lt in Ha as [_ Ha], Ha' as [_ Ha']. congruence.
    - intros v. rewrite in_bucket, IN, HT. split.
      + intros (_ & A' & T2 & T1). now rewrite T1.
      + intros T. split; auto. destruct (target m1 v) as [A'|]; [|discriminate]. eauto.
  Qed.
End Concat.

(** paths *)
Section Paths.
  Variable E : list (nat * nat).
  Lemma path_sub (S T : nat -> Prop) a b : (forall x, S x -> T x) -> path E S a b -> path E T a b.
  Proof. intros H. induction 1; [apply path_nil; auto|eapply path_step; eauto]. Qed.
  Lemma path_trans (S : nat -> Prop) a b c : path E S a b -> path E S b c -> path E S a c.
  Proof. induction 1; auto. intros. eapply path_step; eauto. Qed.
  Lemma path_start S a b : path E S a b -> S a. Proof. destruct 1; auto. Qed.
  Lemma path_sym (S : nat -> Prop) a b : path E S a b -> path E S b a.
  Proof.
    induction 1 as [a Ha|a b d Ha Hab Hp IH]; [now apply path_nil|]. eapply path_trans; [apply IH|]. eapply path_step; [eapply path_start; eauto|eapply adj_sym; eauto|now apply path_nil].
  Qed.

  (** classes of a map between coarse vertices whose fine classes are connected *)
  Lemma star_connected (cls : nat -> nat -> Prop) (C : nat -> Prop) (v : nat) :
    C v -> (forall A, C A -> connected E (cls A)) ->
    (forall A, C A -> A = v \/ exists a b, adjacent E a b /\ cls v a /\ cls A b) ->
    connected E (fun x => exists A, C A /\ cls A x).
  Proof.
    intros Cv CC AD.
    assert (sub : forall A, C A -> forall x, cls A x -> exists A, C A /\ cls A x) by eauto.
    assert (ToV : forall A x y, C A -> cls A x -> cls v y -> path E (fun x => exists A, C A /\ cls A x) x y).
    { intros A x y HA Hx Hy. destruct (AD A HA) as [->|(a & b & Hab & Ha & Hb)].
      - apply (path_sub (cls v)); eauto. apply CC; auto.
      - apply (path_trans _ _ b); [apply (path_sub (cls A)); eauto; apply CC; auto|]. apply (path_step _ _ _ a); eauto using adj_sym.
        apply (path_sub (cls v)); eauto. apply CC; auto. }
    intros x y (A & HA & Hx) (B & HB & Hy). destruct (AD A HA) as [->|(a & b & Hab & Ha & Hb)].
    - apply path_sym, (ToV B); auto.
    - apply (path_trans _ _ a); [apply (ToV A); auto|]. apply path_sym, (ToV B); auto.
  Qed.
End Paths.
