(** Exchange of loop data between processes *)
From Verif Require Import Base ArraysModel ArraysProofs ArraysProps LoopModel SMapModel.
Import ListNotations.

Definition mem (p : Z) (l : list Z) : bool := existsb (Z.eqb p) l.
Lemma mem_In p l : mem p l = true <-> In p l.
Proof. unfold mem. rewrite existsb_exists. split; [intros (x & H & E); apply Z.eqb_eq in E; subst; auto|intros H; exists p; split; auto; apply Z.eqb_refl]. Qed.
Lemma mem_not p l : mem p l = false <-> ~ In p l.
Proof. rewrite <- mem_In. destruct (mem p l); split; congruence. Qed.
Lemma lt_le l : StronglySorted Z.lt l -> StronglySorted Z.le l.
Proof. induction 1 as [|a l H IH F]; constructor; auto. eapply Forall_impl; [|exact F]. cbn; intros; lia. Qed.
Lemma lt_NoDup l : StronglySorted Z.lt l -> NoDup l.
Proof. induction 1 as [|a l H IH F]; constructor; auto. intros X. rewrite Forall_forall in F. specialize (F a X). lia. Qed.
Lemma posn_ok p all : StronglySorted Z.lt all -> In p all -> exists i, posn p all = Ret i /\ (i < length all)%nat /\ nth i all 0%Z = p.
Proof.
  intros S H. destruct (C01_find_in_sorted_array p all (lt_le _ S)) as [F _]. destruct (F H) as (i & E & N). exists i. unfold posn. rewrite E. cbn [bind]. split; [reflexivity|].
  split; [apply nth_error_Some; congruence|]. apply nth_error_nth; auto.
Qed.
Lemma posn_inj p q all i : StronglySorted Z.lt all -> In p all -> posn p all = Ret i -> In q all -> posn q all = Ret i -> p = q.
Proof.
  intros S Hp Ep Hq Eq. destruct (posn_ok p all S Hp) as (a & A & _ & B), (posn_ok q all S Hq) as (b & C & _ & D). congruence.
Qed.
Lemma posn_nth all i : StronglySorted Z.lt all -> (i < length all)%nat -> posn (nth i all 0%Z) all = Ret i.
Proof.
  intros S H. destruct (posn_ok (nth i all 0%Z) all S (nth_In _ _ H)) as (j & -> & Hj & E). f_equal. apply lt_NoDup in S. rewrite NoDup_nth with (d := 0%Z) in S. apply S; auto.
Qed.
Lemma posn_at p all i : StronglySorted Z.lt all -> (i < length all)%nat -> nth i all 0%Z = p -> posn p all = Ret i.
Proof. intros S H <-. apply posn_nth; auto. Qed.

Section Send.
  Context {A : Type}.
  Variable all : list Z.
  Hypothesis Sall : StronglySorted Z.lt all.
  Definition chan (p : Z) (xs : list (list Z * list A)) : list A := concat (map snd (filter (fun x => mem p (fst x)) xs)).

  Lemma send_loop_ok (t : list (list A)) ps it : length t = length all -> NoDup ps -> incl ps all ->
    exists t', send_loop all t (ps, it) = Ret t' /\ length t' = length all /\
      forall i, (i < length all)%nat -> nth i t' [] = nth i t [] ++ (if mem (nth i all 0%Z) ps then it else []).
  Proof.
    unfold send_loop. cbn [fst snd]. revert t. induction ps as [|p ps IH]; intros t L N I.
    - exists t. split; [reflexivity|]. split; auto. intros i Hi. cbn. rewrite app_nil_r. reflexivity.
    - inversion N as [|? ? N1 N2]; subst. destruct (posn_ok p all Sall (I p ltac:(cbn; auto))) as (i & E & Hi & Ei).
      cbn [foldM]. rewrite E. cbn [bind]. unfold addrow at 1. rewrite (rd_ok t i []) by lia. cbn [bind]. rewrite wr_ok by lia. cbn [bind].
      destruct (IH (upd t i (nth i t [] ++ it))) as (t' & E' & L' & F); auto; [rewrite upd_length; auto|intros q Hq; apply I; cbn; auto|].
      exists t'. split; [exact E'|]. split; auto. intros j Hj. rewrite F by auto. unfold mem. cbn [existsb]. fold (mem (nth j all 0%Z) ps).
      destruct (Nat.eq_dec j i) as [->|NE].
      + rewrite nth_upd_eq by lia. rewrite Ei, Z.eqb_refl. cbn [orb]. assert (X : mem p ps = false) by (apply mem_not; auto). rewrite X, app_nil_r. reflexivity.
      + rewrite nth_upd_neq by auto. destruct (Z.eqb_spec (nth j all 0%Z) p) as [X|X]; [|reflexivity]. exfalso. apply NE.
        pose proof (lt_NoDup _ Sall) as ND. rewrite NoDup_nth with (d := 0%Z) in ND. apply ND; auto. congruence.
  Qed.
  Lemma sends_ok : forall (xs : list (list Z * list A)) t, length t = length all -> Forall (fun x => NoDup (fst x) /\ incl (fst x) all) xs ->
    exists t', foldM (send_loop all) xs t = Ret t' /\ length t' = length all /\ forall i, (i < length all)%nat -> nth i t' [] = nth i t [] ++ chan (nth i all 0%Z) xs.
  Proof.
    induction xs as [|[ps it] xs IH]; intros t L F; [exists t; split; [reflexivity|]; split; auto; intros; unfold chan; cbn; rewrite app_nil_r; auto|].
    inversion F as [|? ? [F1 F2] F3]; subst. cbn [fst] in *. destruct (send_loop_ok t ps it L F1 F2) as (t1 & E1 & L1 & G1). cbn [foldM]. rewrite E1. cbn [bind].
    destruct (IH t1 L1 F3) as (t2 & E2 & L2 & G2). exists t2. split; [exact E2|]. split; auto. intros i Hi. rewrite G2, G1 by auto. rewrite <- app_assoc. f_equal.
    unfold chan. cbn [filter fst]. destruct (mem (nth i all 0%Z) ps); reflexivity.
  Qed.
  Lemma send_table_ok dps items : Forall (fun ps => NoDup ps /\ incl ps all) dps ->
    exists t, send_table all dps items = Ret t /\ length t = length all /\ forall i, (i < length all)%nat -> nth i t [] = chan (nth i all 0%Z) (combine dps items).
  Proof.
    intros F. unfold send_table. destruct (sends_ok (combine dps items) (repeat [] (length all)) (repeat_length _ _)) as (t & E & L & G).
    - rewrite Forall_forall in *. intros [ps it] H. apply in_combine_l in H. cbn. auto.
    - exists t. split; [exact E|]. split; auto. intros i Hi. rewrite G by auto. rewrite nth_repeat. reflexivity.
  Qed.
End Send.

Lemma mapM_ok {A B} (f : A -> res B) (g : A -> B) : forall l, (forall a, In a l -> f a = Ret (g a)) -> mapM f l = Ret (map g l).
Proof. induction l as [|a l IH]; intros H; cbn; auto. rewrite H by (cbn; auto). cbn [bind]. rewrite IH by (intros; apply H; cbn; auto). reflexivity. Qed.
Lemma mapM_ext {A B} (f g : A -> res B) l : (forall a, In a l -> f a = g a) -> mapM f l = mapM g l.
Proof. induction l as [|a l IH]; intros H; cbn; auto. rewrite H by (cbn; auto). rewrite IH by (intros; apply H; cbn; auto). reflexivity. Qed.
Lemma mapM_Forall2 {A B} (f : A -> res B) : forall l r, mapM f l = Ret r -> Forall2 (fun a b => f a = Ret b) l r.
Proof.
  induction l as [|a l IH]; intros r E; cbn in E; [injection E as <-; constructor|]. destruct (f a) eqn:F; [|discriminate]. cbn [bind] in E. destruct (mapM f l) eqn:G; [|discriminate]. cbn [bind] in E. injection E as <-. constructor; auto.
Qed.
Lemma mapM_from {A B} (f : A -> res B) (P : A -> B -> Prop) : forall l, (forall a, In a l -> exists b, f a = Ret b /\ P a b) -> exists r, mapM f l = Ret r /\ Forall2 P l r.
Proof.
  induction l as [|a l IH]; intros H; [exists []; split; auto|]. destruct (H a ltac:(cbn; auto)) as (b & E & Q). destruct IH as (r & E' & F); [intros; apply H; cbn; auto|].
  exists (b :: r). cbn. rewrite E. cbn [bind]. rewrite E'. split; auto.
Qed.

Lemma filter_map_S (f : nat -> bool) l : filter f (map S l) = map S (filter (fun k => f (S k)) l).
Proof. induction l as [|k l IH]; cbn; auto. rewrite IH. destruct (f (S k)); reflexivity. Qed.
Lemma F2_length {A B} (P : A -> B -> Prop) l r : Forall2 P l r -> length l = length r.
Proof. induction 1; cbn; auto. Qed.

(** ** all processes *)
(** the loop [g] (global number) as process p sees it *)
Definition local_nr (gid : nat -> nat -> nat) (n p g : nat) : option nat := find (fun k => (gid p k =? g)%nat) (seq 0 n).
Definition shared (dps : list (list Z)) (p : Z) : list nat := filter (fun k => mem p (nth k dps [])) (seq 0 (length dps)).

(** the tables of shared loops of all processes fit: [gid p k] is the loop with the number k on process p *)
Record consistent (alls : list (list Z)) (dpss : list (list (list Z))) (gid : nat -> nat -> nat) : Prop := mkCon {
  con_len : length dpss = length alls;
  con_sorted : forall r, (r < length alls)%nat -> StronglySorted Z.lt (nth r alls []);
  con_rows : forall r ps, (r < length alls)%nat -> In ps (nth r dpss []) -> NoDup ps /\ incl ps (nth r alls []);
  con_range : forall r p, (r < length alls)%nat -> In p (nth r alls []) -> (0 <= p < Z.of_nat (length alls))%Z /\ p <> Z.of_nat r;
  con_sym : forall r p, (r < length alls)%nat -> (p < length alls)%nat -> In (Z.of_nat p) (nth r alls []) -> In (Z.of_nat r) (nth p alls []);
  con_inj : forall r j k, (j < length (nth r dpss []))%nat -> (k < length (nth r dpss []))%nat -> gid r j = gid r k -> j = k;
  con_order : forall r p, (r < length alls)%nat -> (p < length alls)%nat ->
    map (gid r) (shared (nth r dpss []) (Z.of_nat p)) = map (gid p) (shared (nth p dpss []) (Z.of_nat r));
  con_group : forall r p j k, (r < length alls)%nat -> (p < length alls)%nat -> (j < length (nth r dpss []))%nat -> (k < length (nth p dpss []))%nat -> gid r j = gid p k ->
    forall q, In q (Z.of_nat r :: nth j (nth r dpss []) []) <-> In q (Z.of_nat p :: nth k (nth p dpss []) [])
}.

Section World.
  Context {A : Type}.
  Variable alls : list (list Z).
  Variable dpss : list (list (list Z)).
  Variable gid : nat -> nat -> nat.
  Hypothesis HC : consistent alls dpss gid.
  Notation np := (length alls).
  Variable items : nat -> list (list A).     (* items p : what p sends for its loops *)
  Hypothesis Hitems : forall p, (p < np)%nat -> length (items p) = length (nth p dpss []).

  Definition itemg (p g : nat) : list A := match local_nr gid (length (nth p dpss [])) p g with Some k => nth k (items p) [] | None => [] end.
  Lemma local_nr_ok r k : (k < length (nth r dpss []))%nat -> local_nr gid (length (nth r dpss [])) r (gid r k) = Some k.
  Proof.
    intros H. unfold local_nr. destruct (find _ _) as [j|] eqn:E.
    - apply find_some in E. destruct E as [E1 E2]. apply in_seq in E1. apply Nat.eqb_eq in E2. f_equal. apply (con_inj _ _ _ HC r); auto. lia.
    - exfalso. pose proof (find_none _ _ E k ltac:(apply in_seq; lia)) as X. cbn in X. rewrite Nat.eqb_refl in X. discriminate.
  Qed.
  Lemma itemg_ok r k : (k < length (nth r dpss []))%nat -> itemg r (gid r k) = nth k (items r) [].
  Proof. intros H. unfold itemg. rewrite local_nr_ok; auto. Qed.

  Lemma chan_shared (q : Z) : forall dps (its : list (list A)), length its = length dps ->
    chan q (combine dps its) = concat (map (fun k => nth k its []) (shared dps q)).
  Proof.
    unfold chan, shared. intros dps its. revert its. induction dps as [|ps dps IH]; intros its L; [reflexivity|]. destruct its as [|it its]; [discriminate|].
    cbn [combine filter length seq fst map concat]. rewrite <- seq_shift.
    assert (X : filter (fun k => mem q (nth k (ps :: dps) [])) (map S (seq 0 (length dps))) = map S (filter (fun k => mem q (nth k dps [])) (seq 0 (length dps)))).
    { exact (filter_map_S (fun k => mem q (nth k (ps :: dps) [])) _). }
    change (mem q (nth 0 (ps :: dps) [])) with (mem q ps). rewrite X. destruct (mem q ps); cbn [map concat snd]; rewrite IH by (cbn in L; lia); rewrite map_map; reflexivity.
  Qed.
  (** what p sends to r, told by the numbers of r *)
  Lemma chan_world r p : (r < np)%nat -> (p < np)%nat ->
    chan (Z.of_nat r) (combine (nth p dpss []) (items p)) = concat (map (fun k => itemg p (gid r k)) (shared (nth r dpss []) (Z.of_nat p))).
  Proof.
    intros Hr Hp. rewrite chan_shared by auto.
    rewrite <- (map_map (gid r) (itemg p)), (con_order _ _ _ HC r p Hr Hp), map_map. f_equal. apply map_ext_in. intros k Hk. symmetry. apply itemg_ok.
    unfold shared in Hk. apply filter_In in Hk. destruct Hk as [Hk _]. apply in_seq in Hk. lia.
  Qed.

  Lemma send_world : exists sent, mapM (fun x => send_table (fst (fst x)) (snd (fst x)) (snd x)) (combine (combine alls dpss) (map items (seq 0 np))) = Ret sent /\ length sent = np /\
    forall p, (p < np)%nat -> length (nth p sent []) = length (nth p alls []) /\
      forall i, (i < length (nth p alls []))%nat -> nth i (nth p sent []) [] = chan (nth i (nth p alls []) 0%Z) (combine (nth p dpss []) (items p)).
  Proof.
    set (xs := combine (combine alls dpss) (map items (seq 0 np))).
    assert (LX : length xs = np) by (unfold xs; rewrite !combine_length, map_length, seq_length, (con_len _ _ _ HC); lia).
    assert (NX : forall p, (p < np)%nat -> nth p xs ([], [], []) = (nth p alls [], nth p dpss [], items p)).
    { intros p Hp. unfold xs. rewrite combine_nth by (rewrite combine_length, map_length, seq_length, (con_len _ _ _ HC); lia). rewrite combine_nth by (symmetry; apply (con_len _ _ _ HC)). f_equal.
      rewrite (nth_indep _ [] (items 0)) by (rewrite map_length, seq_length; auto). rewrite map_nth, seq_nth by auto. reflexivity. }
    destruct (mapM_from (fun x : list Z * list (list Z) * list (list A) => send_table (fst (fst x)) (snd (fst x)) (snd x))
      (fun x t => length t = length (fst (fst x)) /\ forall i, (i < length (fst (fst x)))%nat -> nth i t [] = chan (nth i (fst (fst x)) 0%Z) (combine (snd (fst x)) (snd x))) xs) as (sent & E & F).
    - intros x Hx. destruct (In_nth _ _ ([], [], []) Hx) as (p & Hp & Ep). rewrite LX in Hp. rewrite NX in Ep by auto. subst x. cbn [fst snd].
      apply send_table_ok; [apply (con_sorted _ _ _ HC); auto|]. apply Forall_forall. intros ps Hps. apply (con_rows _ _ _ HC p); auto.
    - exists sent. split; [exact E|]. assert (LS : length sent = np) by (rewrite <- LX; symmetry; eapply F2_length; eauto). split; auto.
      intros p Hp. assert (G : forall l r, Forall2 (fun (x : list Z * list (list Z) * list (list A)) (t : list (list A)) => length t = length (fst (fst x)) /\ forall i, (i < length (fst (fst x)))%nat -> nth i t [] = chan (nth i (fst (fst x)) 0%Z) (combine (snd (fst x)) (snd x))) l r ->
         forall p, (p < length l)%nat -> let x := nth p l ([], [], []) in let t := nth p r [] in length t = length (fst (fst x)) /\ forall i, (i < length (fst (fst x)))%nat -> nth i t [] = chan (nth i (fst (fst x)) 0%Z) (combine (snd (fst x)) (snd x))).
      { clear. induction 1 as [|a b l r H F IH]; intros p Hp; [cbn in Hp; lia|]. destruct p as [|p]; [exact H|]. apply IH. cbn in Hp; lia. }
      specialize (G xs sent F p ltac:(lia)). rewrite NX in G by auto. cbv zeta in G. cbn [fst snd] in G. exact G.
  Qed.

  Lemma exchange_ok sent r : (r < np)%nat -> length sent = np -> (forall p, (p < np)%nat -> length (nth p sent []) = length (nth p alls []) /\
      forall i, (i < length (nth p alls []))%nat -> nth i (nth p sent []) [] = chan (nth i (nth p alls []) 0%Z) (combine (nth p dpss []) (items p))) ->
    exchange alls sent r = Ret (map (fun p => concat (map (fun k => itemg (Z.to_nat p) (gid r k)) (shared (nth r dpss []) p))) (nth r alls [])).
  Proof.
    intros Hr LS H. unfold exchange. rewrite (rd_ok alls r []) by auto. cbn [bind]. apply mapM_ok. intros p Hp. destruct (con_range _ _ _ HC r p Hr Hp) as [Rp _].
    assert (Hp' : (Z.to_nat p < np)%nat) by lia. unfold rdz. destruct (Z.ltb_spec p 0); [lia|]. rewrite (rd_ok alls (Z.to_nat p) []) by auto. cbn [bind]. rewrite (rd_ok sent (Z.to_nat p) []) by lia. cbn [bind].
    assert (Ir : In (Z.of_nat r) (nth (Z.to_nat p) alls [])) by (apply (con_sym _ _ _ HC); auto; rewrite Z2Nat.id by lia; auto).
    destruct (posn_ok _ _ (con_sorted _ _ _ HC (Z.to_nat p) Hp') Ir) as (i & -> & Hi & Ei). cbn [bind]. destruct (H _ Hp') as [L1 H1]. rewrite (rd_ok _ i []) by lia. f_equal.
    rewrite H1, Ei by auto. rewrite chan_world by auto. rewrite Z2Nat.id by lia. reflexivity.
  Qed.
End World.
