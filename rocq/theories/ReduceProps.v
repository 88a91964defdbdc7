(** C45: ReduceTable. *)
From Verif Require Import Base EQCModel ReduceModel UtilProofs EQCProofs EQCProofs2 EQCProofs3 ReduceProofs EQCProps.
Local Open Scope nat_scope.

(** *** specification
    Rows are named across ranks by [key]: rows with the same name on different ranks belong together.
    "Number and order of rows has to be consistent" (reducetable.hpp:586): proper rank sets, different rows of a rank have different names, all ranks sharing a row have it, agree on who shares it and have their common rows in the same order. *)
Record rows_match {T} (dps : list (list (list nat))) (tabs : list (list (list T))) (key : nat -> nat -> nat) : Prop := {
  rm_row : forall r k, r < length tabs -> k < length (nth r tabs []) -> increasing (nth k (nth r dps []) []) /\ ~ In r (nth k (nth r dps []) []) /\ forall q, In q (nth k (nth r dps []) []) -> q < length tabs;
  rm_inj : forall r k k', r < length tabs -> k < length (nth r tabs []) -> k' < length (nth r tabs []) -> key r k = key r k' -> k = k';
  rm_known : forall r k q, r < length tabs -> k < length (nth r tabs []) -> In q (nth k (nth r dps []) []) -> exists k', k' < length (nth q tabs []) /\ key q k' = key r k;
  rm_same : forall r k q k', r < length tabs -> k < length (nth r tabs []) -> q < length tabs -> k' < length (nth q tabs []) -> key r k = key q k' -> same_class r (nth k (nth r dps []) []) q (nth k' (nth q dps []) []);
  rm_order : forall r q i j i' j', r < length tabs -> q < length tabs -> i < length (nth r tabs []) -> j < length (nth r tabs []) -> i' < length (nth q tabs []) -> j' < length (nth q tabs []) ->
    key r i = key q i' -> key r j = key q j' -> i < j -> i' < j' }.
(** position of rank [q] among the ranks of a class, in increasing order *)
Definition position (q m : nat) (d : list nat) : nat := length (filter (fun x => x <? q) (m :: d)).

Lemma position_pos q l : sset l -> In q l -> length (filter (fun x => x <? q) l) = pos_of q l.
Proof.
  induction 1 as [|x l HS IH HF]; intros HI; [destruct HI|]. cbn [filter pos_of]. rewrite Forall_forall in HF. destruct (Nat.eqb_spec x q) as [->|NE].
  - rewrite Nat.ltb_irrefl. replace (filter (fun x => x <? q) l) with (@nil nat); auto. clear - HF. induction l as [|y l IH]; auto. cbn [filter]. destruct (Nat.ltb_spec y q). specialize (HF y (or_introl eq_refl)). lia. apply IH. intros; apply HF; now right.
  - destruct HI as [|HI]; [contradiction|]. specialize (HF q HI). destruct (Nat.ltb_spec x q); [|lia]. cbn [length]. now rewrite IH.
Qed.

(** Every rank ends up, for each of its rows, with the result of one call of lambda, made on the lowest rank sharing the row, on the rows of all ranks sharing it ordered by rank *)
Theorem C45_reduce : forall T TR dps (tabs : list (list (list T))) (lam : nat -> nat -> list (list T) -> list TR) key, rows_match dps tabs key ->
  exists out, ReduceTable dps tabs lam = Ret out /\ length out = length tabs /\ forall r, r < length tabs -> length (nth r out []) = length (nth r tabs []) /\
    forall k, k < length (nth r tabs []) -> exists m km rows,
      m < length tabs /\ km < length (nth m tabs []) /\ key m km = key r k /\ (forall x, In x (nth km (nth m dps []) []) -> m < x) /\
      nth k (nth r out []) [] = lam m km rows /\ length rows = S (length (nth km (nth m dps []) [])) /\
      forall q kq, q < length tabs -> kq < length (nth q tabs []) -> key q kq = key r k -> nth (position q m (nth km (nth m dps []) [])) rows [] = nth kq (nth q tabs []) [].
Proof.
  intros T TR dps tabs lam key [H1 H2 H3 H4 H5].
  assert (H4' : forall r k q k', r < np tabs -> k < nrows tabs r -> q < np tabs -> k' < nrows tabs q -> key r k = key q k' -> members r (dp dps r k) = members q (dp dps q k')).
  { intros r k q k' Hr Hk Hq Hk' E. apply same_members. now apply H1. now apply H1. now apply H4. }
  pose proof (ReduceTable_ok dps tabs lam key H1 H2 H3 H4' H5) as E. eexists. split; [exact E|]. rewrite map_length, seq_length. split; auto. intros r Hr.
  rewrite (nth_indep _ [] (map (final dps tabs lam 0) (seq 0 (nrows tabs 0)))) by (rewrite map_length, seq_length; auto). rewrite (map_nth (fun r => map (final dps tabs lam r) (seq 0 (nrows tabs r)))), seq_nth by auto. cbn [Nat.add]. rewrite map_length, seq_length. split; auto.
  intros k Hk. rewrite (nth_indep _ [] (final dps tabs lam r 0)) by (rewrite map_length, seq_length; auto). rewrite map_nth, seq_nth by auto. cbn [Nat.add].
  (* the master *)
  assert (MA : exists m km, m < np tabs /\ km < nrows tabs m /\ key m km = key r k /\ owner dps m km = true).
  { destruct (owner dps r k) eqn:EO. { exists r, k. auto. } destruct (H1 r k Hr Hk) as (S1 & N1 & L1). fold (dp dps r k) in *. destruct (dp dps r k) as [|m d] eqn:ED. { unfold owner in EO. rewrite ED in EO. discriminate. }
    destruct (H3 r k m Hr Hk) as (km & K1 & K2). fold (dp dps r k). rewrite ED. now left. assert (Lm : m < np tabs) by (apply L1; now left). exists m, km. split; auto. split; auto. split; auto.
    apply (owner_spec dps tabs H1); auto. intros x X. pose proof (H4' r k m km Hr Hk Lm K1 (eq_sym K2)) as EM. rewrite ED in EM. assert (Y : In x (members r (m :: d))) by (rewrite EM; apply in_members; auto). assert (NM : ~ In m (dp dps m km)) by now apply H1.
    assert (LT : m < r). { unfold owner in EO. rewrite ED in EO. apply Nat.ltb_ge in EO. enough (m <> r) by lia. intros ->. apply N1. now left. }
    apply in_members in Y as [->|Y]; auto. pose proof (sset_hd d x m S1 Y). enough (x <> m) by lia. intros ->. contradiction. }
  destruct MA as (m & km & Hm & Hkm & EK & OM). pose proof (proj1 (owner_spec dps tabs H1 m km Hm Hkm) OM) as OW. exists m, km, (nth km (nth m tabs []) [] :: map (contrib dps tabs m km) (dp dps m km)). split; auto. split; auto. split; auto. split; auto. split; [|split].
  - rewrite (final_ok dps tabs lam key H1 H2 H3 H4' H5 r k m km); auto. unfold red_row. rewrite OM. reflexivity.
  - cbn. now rewrite map_length.
  - intros q kq Hq Hkq EQ. destruct (H1 m km Hm Hkm) as (S1 & N1 & _). fold (dp dps m km) in *. assert (SO : sset (m :: dp dps m km)) by (constructor; auto; now apply Forall_forall).
    assert (IQ : In q (m :: dp dps m km)). { pose proof (H4' q kq m km Hq Hkq Hm Hkm ltac:(congruence)) as EM. assert (X : In q (members m (dp dps m km))) by (rewrite <- EM; apply in_members; auto). apply in_members in X as [->|]; cbn; auto. }
    unfold position. rewrite position_pos by auto. destruct (Nat.eq_dec q m) as [->|NE].
    + cbn [pos_of]. rewrite Nat.eqb_refl. cbn. f_equal. apply (H2 m); auto; congruence.
    + cbn [pos_of]. destruct (Nat.eqb_spec m q); [congruence|]. cbn [nth]. destruct IQ as [|IQ]; [contradiction|]. destruct (pos_of_in q _ 0 IQ) as (P1 & P2). rewrite (nth_indep _ [] (contrib dps tabs m km 0)) by now rewrite map_length. rewrite map_nth, P2. apply (contrib_ok dps tabs lam key H1 H2 H3 H4' H5); auto. congruence.
Qed.
(** one row per class of a hierarchy, reducetable.hpp:608-613 *)
Lemma reduce_world H : world H -> forall T TR (tabs : list (list (list T))) (lam : nat -> nat -> list (list T) -> list TR),
  length tabs = length H -> (forall r, r < length H -> length (nth r tabs []) = length (nth r H [])) ->
  exists out, ReduceTable H tabs lam = Ret out /\ length out = length H /\ (forall r, r < length H -> length (nth r out []) = length (nth r H [])) /\ forall r k, r < length H -> k < length (nth r H []) -> exists m km rows,
      m < length H /\ km < length (nth m H []) /\ same_class m (nth km (nth m H []) []) r (nth k (nth r H []) []) /\ (forall x, In x (nth km (nth m H []) []) -> m < x) /\
      nth k (nth r out []) [] = lam m km rows /\ length rows = S (length (nth km (nth m H []) [])) /\
      forall q kq, q < length H -> kq < length (nth q H []) -> same_class q (nth kq (nth q H []) []) r (nth k (nth r H []) []) -> nth (position q m (nth km (nth m H []) [])) rows [] = nth kq (nth q tabs []) [].
Proof.
  intros HW T TR tabs lam LT LR.
  set (key := fun r k => gid H (members r (nth k (nth r H []) []))).
  assert (KEY : forall r k q k', r < length H -> k < length (nth r H []) -> q < length H -> k' < length (nth q H []) -> (key r k = key q k' <-> same_class r (nth k (nth r H []) []) q (nth k' (nth q H []) []))) by (intros; now apply gid_iff).
  assert (RM : rows_match H tabs key).
  { constructor; rewrite LT.
    - intros r k Hr Hk. rewrite LR in Hk by auto. apply (w_row H HW r); auto. now apply nth_In.
    - intros r k k' Hr Hk Hk' EK. rewrite LR in Hk, Hk' by auto. apply KEY in EK; auto. pose proof (w_row H HW r _ Hr (nth_In _ [] Hk)) as (A1 & A2 & _). pose proof (w_row H HW r _ Hr (nth_In _ [] Hk')) as (B1 & B2 & _). apply same_members in EK; auto. apply members_inj in EK; auto. eapply NoDup_nth; eauto. now apply tab_nodup.
    - intros r k q Hr Hk Hq. rewrite LR in Hk by auto. pose proof (w_row H HW r _ Hr (nth_In _ [] Hk)) as (A1 & A2 & A3). pose proof (w_cons H HW r _ q Hr (nth_In _ [] Hk) Hq) as X. apply In_nth with (d := []) in X as (k' & K1 & K2). exists k'. rewrite LR by auto. split; auto. apply KEY; auto. rewrite K2. apply same_members; auto. now apply del_sset, members_sset. apply members_del. now apply members_sset. apply in_members; auto.
    - intros r k q k' Hr Hk Hq Hk' EK. rewrite LR in Hk, Hk' by auto. apply KEY in EK; auto.
    - intros r q i j i' j' Hr Hq Hi Hj Hi' Hj' E1 E2. rewrite LR in Hi, Hj, Hi', Hj' by auto. apply KEY in E1, E2; auto. now apply (order_ok H HW r q). }
  destruct (C45_reduce T TR H tabs lam key RM) as (out & EO & LO & HO). exists out. split; auto. split; [congruence|]. split. { intros r Hr. rewrite <- LR by auto. apply HO. now rewrite LT. } intros r k Hr Hk. rewrite <- LT in Hr. destruct (HO r Hr) as (_ & HO'). rewrite LT in Hr. rewrite <- LR in Hk by auto. destruct (HO' k Hk) as (m & km & rows & A1 & A2 & A3 & A4 & A5 & A6 & A7). rewrite LT in A1. rewrite LR in A2, Hk by auto.
  exists m, km, rows. split; auto. split; auto. split; [apply KEY; auto|]. split; auto. split; auto. split; auto. intros q kq Hq Hkq SC. apply A7. now rewrite LT. now rewrite LR. apply KEY; auto.
Qed.
Theorem C45_classes : forall W, consistent W -> exists H, EQCHierarchy W = Ret H /\ forall T TR (tabs : list (list (list T))) (lam : nat -> nat -> list (list T) -> list TR),
  length tabs = length H -> (forall r, r < length H -> length (nth r tabs []) = length (nth r H [])) ->
  exists out, ReduceTable H tabs lam = Ret out /\ length out = length H /\ (forall r, r < length H -> length (nth r out []) = length (nth r H [])) /\ forall r k, r < length H -> k < length (nth r H []) -> exists m km rows,
      m < length H /\ km < length (nth m H []) /\ same_class m (nth km (nth m H []) []) r (nth k (nth r H []) []) /\ (forall x, In x (nth km (nth m H []) []) -> m < x) /\
      nth k (nth r out []) [] = lam m km rows /\ length rows = S (length (nth km (nth m H []) [])) /\
      forall q kq, q < length H -> kq < length (nth q H []) -> same_class q (nth kq (nth q H []) []) r (nth k (nth r H []) []) -> nth (position q m (nth km (nth m H []) [])) rows [] = nth kq (nth q tabs []) [].
Proof. intros W HC. destruct (hierarchy_world W HC) as (H & E & L & HW & _). exists H. split; auto. now apply reduce_world. Qed.

(** three ranks, rows with different sharing, also several rows per class and rows of different lengths *)
Definition d3 : list (list (list nat)) := [[[1]; []; [1; 2]; [1]]; [[0]; [0; 2]; [0]; [2]]; [[0; 1]; [1]]].
Definition t3 : list (list (list nat)) := [[[1]; [2]; []; [3; 4]]; [[5; 6]; [7]; []; []]; [[8]; [9; 10; 11]]].
Definition k3 (r k : nat) : nat := nth k (nth r [[0; 1; 2; 3]; [0; 2; 3; 4]; [2; 4]] []) 0.
Definition join3 (r k : nat) (rows : list (list nat)) : list nat := 100 * r + k :: concat rows.
Lemma ex3_ok : rows_match d3 t3 k3.
Proof.
  constructor.
  - intros r k Hr Hk. do 3 (destruct r as [|r]; [cbn in Hk; do 4 (destruct k as [|k]; [cbn; split; [repeat constructor|split; [lia|intros q; lia]]|]); lia|]). cbn in Hr. lia.
  - intros r k k' Hr Hk Hk'. do 3 (destruct r as [|r]; [cbn in Hk, Hk'; do 4 (destruct k as [|k]; [do 4 (destruct k' as [|k']; [cbn; lia|]); lia|]); lia|]). cbn in Hr. lia.
  - intros r k q Hr Hk Hq. do 3 (destruct r as [|r]; [cbn in Hk; do 4 (destruct k as [|k]; [cbn in Hq; repeat (destruct Hq as [<-|Hq]; [first [exists 0; cbn; split; [lia|reflexivity] | exists 1; cbn; split; [lia|reflexivity] | exists 2; cbn; split; [lia|reflexivity] | exists 3; cbn; split; [lia|reflexivity]]|]); destruct Hq|]); lia|]). cbn in Hr. lia.
  - intros r k q k' Hr Hk Hq Hk'. do 3 (destruct r as [|r]; [cbn in Hk; do 4 (destruct k as [|k]; [do 3 (destruct q as [|q]; [cbn in Hk'; do 4 (destruct k' as [|k']; [cbn; try discriminate; intros _ x; unfold shares; cbn; lia|]); lia|]); cbn in Hq; lia|]); lia|]). cbn in Hr. lia.
  - intros r q i j i' j' Hr Hq Hi Hj Hi' Hj'. do 3 (destruct r as [|r]; [do 3 (destruct q as [|q]; [cbn in Hi, Hj, Hi', Hj'; do 4 (destruct i as [|i]; [do 4 (destruct i' as [|i']; [cbn; try discriminate; do 4 (destruct j as [|j]; [do 4 (destruct j' as [|j']; [cbn; lia|]); lia|]); lia|]); lia|]); lia|]); cbn in Hq; lia|]). cbn in Hr. lia.
Qed.
Example C45_ex : rows_match d3 t3 k3 /\ ReduceTable d3 t3 join3 = Ret
  [[[0; 1; 5; 6]; [1; 2]; [2; 7; 8]; [3; 3; 4]]; [[0; 1; 5; 6]; [2; 7; 8]; [3; 3; 4]; [103; 9; 10; 11]]; [[2; 7; 8]; [103; 9; 10; 11]]].
Proof. split; [exact ex3_ok|]. vm_compute. reflexivity. Qed.
Print Assumptions C45_reduce.
Print Assumptions C45_classes.
