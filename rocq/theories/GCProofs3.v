(** The groups of processes. *)
From Verif Require Import Base EQCModel UtilProofs EQCProofs EQCProofs2 EQCProofs3 GCModel GCProofs GCProofs2.
Local Open Scope nat_scope.

Lemma insert_le (key : nat -> nat) x l : StronglySorted (fun a b => key a <= key b) l -> StronglySorted (fun a b => key a <= key b) (insert_by (fun a b => key a <? key b) x l).
Proof.
  induction l as [|y l IH]; intros S; cbn [insert_by]. constructor; constructor. inversion S as [|? ? S1 S2]; subst. rewrite Forall_forall in S2. destruct (Nat.ltb_spec (key x) (key y)).
  - constructor; auto. rewrite Forall_forall. intros z [<-|Z]. lia. specialize (S2 z Z). lia.
  - constructor; auto. rewrite Forall_forall. intros z Z. apply (Permutation_in _ (insert_by_perm _ x l)) in Z. destruct Z as [<-|Z]; auto. 
Qed.
Lemma sort_le (key : nat -> nat) l : StronglySorted (fun a b => key a <= key b) (sort_by (fun a b => key a <? key b) l).
Proof. induction l as [|x l IH]; cbn [sort_by fold_right]. constructor. now apply insert_le. Qed.
Lemma ss_nth_le (key : nat -> nat) l : StronglySorted (fun a b => key a <= key b) l -> forall i j, i <= j < length l -> key (nth i l 0) <= key (nth j l 0).
Proof.
  induction 1 as [|x l HS IH HF]; intros i j Hij; cbn in Hij; [lia|]. destruct j as [|j]. replace i with 0 by lia. auto. destruct i as [|i]; cbn [nth]. rewrite Forall_forall in HF. apply HF, nth_In. lia. apply IH. lia.
Qed.
Lemma table_nth adds j : j < length (table_of adds) -> nth j (table_of adds) [] = map snd (filter (fun a => fst a =? j) adds).
Proof. unfold table_of. rewrite map_length, seq_length. intros Hj. rewrite (nth_map_ok _ _ _ 0) by now rewrite seq_length. now rewrite seq_nth. Qed.
Lemma table_len adds j : j < length (table_of adds) <-> exists a, In a adds /\ j <= fst a.
Proof.
  unfold table_of. rewrite map_length, seq_length. assert (K : forall n, j < fold_left (fun n a => Nat.max n (S (fst a))) adds n <-> j < n \/ exists a, In a adds /\ j <= fst a).
  { induction adds as [|a adds IH]; intros n; cbn [fold_left]. split; auto. intros [|(a & [] & _)]; auto. rewrite IH. split.
    - intros [X|(b & X & Y)]. destruct (Nat.lt_ge_cases j n); auto. right. exists a. split. now left. lia. right. exists b. split; auto. now right.
    - intros [X|(b & [->|X] & Y)]. left. lia. left. lia. right. exists b. auto. }
  rewrite K. split. intros [|]; auto. lia. auto.
Qed.
Lemma min_ranks_ok np nparts first part : length part = np -> (forall p, first <= p < np -> nth p part 0 < nparts) -> first <= np ->
  exists a, min_ranks np nparts first part = Ret a /\ length a = nparts /\ forall q, q < nparts -> (forall p, first <= p < np -> nth p part 0 = q -> nth q a 0 <= p) /\ (nth q a 0 = np \/ (first <= nth q a 0 < np /\ nth (nth q a 0) part 0 = q)).
Proof.
  intros L HB Hf. unfold min_ranks.
  assert (K : forall n, n <= np - first -> exists a, foldM (fun a k => p <- rd part k ;; o <- rd a p ;; wr a p (Nat.min o k)) (seq first n) (repeat np nparts) = Ret a /\ length a = nparts /\ forall q, q < nparts -> (forall p, first <= p < first + n -> nth p part 0 = q -> nth q a 0 <= p) /\ (nth q a 0 = np \/ (first <= nth q a 0 < np /\ nth (nth q a 0) part 0 = q))).
  { induction n as [|n IH]; intros Hn.
    - exists (repeat np nparts). split; auto. rewrite repeat_length. split; auto. intros q Hq. split. intros; lia. left. rewrite (nth_indep _ 0 np) by now rewrite repeat_length. apply nth_repeat.
    - destruct (IH ltac:(lia)) as (a & E & La & A). rewrite seq_S, foldM_app, E. cbn [bind foldM]. assert (Hp : nth (first + n) part 0 < nparts) by (apply HB; lia). rewrite (rd_ok _ _ 0) by lia. cbn [bind]. rewrite (rd_ok _ _ 0) by lia. cbn [bind]. rewrite wr_ok by lia. cbn [bind]. eexists. split; [reflexivity|]. rewrite upd_length. split; auto.
      intros q Hq. destruct (A q Hq) as (A1 & A2). destruct (Nat.eq_dec (nth (first + n) part 0) q) as [e|N].
      + subst q. rewrite nth_upd_eq by lia. split. intros p Hp' Eq. destruct (Nat.eq_dec p (first + n)) as [->|]. lia. assert (nth (nth (first + n) part 0) a 0 <= p) by (apply A1; auto; lia). lia.
        right. destruct (Nat.min_spec (nth (nth (first + n) part 0) a 0) (first + n)) as [(X & ->)|(X & ->)]. destruct A2 as [A2|A2]; auto. lia. split; auto. lia.
      + rewrite nth_upd_neq by auto. split; auto. intros p Hp' Eq. apply A1; auto. destruct (Nat.eq_dec p (first + n)) as [->|]. contradiction. lia. }
  destruct (K (np - first) (le_n _)) as (a & E & La & A). exists a. split; auto. split; auto. intros q Hq. destruct (A q Hq) as (A1 & A2). split; auto. intros p Hp. apply A1. lia.
Qed.
Lemma order_ok arra : exists ord, part_order arra = Ret ord /\ length ord = length arra /\ exists arrb, Permutation arrb (seq 0 (length arra)) /\ StronglySorted (fun a b => nth a arra 0 <= nth b arra 0) arrb /\ (forall k, k < length arra -> nth (nth k arrb 0) ord 0 = k) /\ forall q, q < length arra -> nth q ord 0 < length arra /\ nth (nth q ord 0) arrb 0 = q.
Proof.
  unfold part_order. set (arrb := sort_by (fun a b => nth a arra 0 <? nth b arra 0) (seq 0 (length arra))). assert (P : Permutation arrb (seq 0 (length arra))) by apply sort_by_perm. assert (LB : length arrb = length arra) by (rewrite (Permutation_length P); apply seq_length).
  assert (ND : NoDup arrb) by (apply Permutation_NoDup with (1 := Permutation_sym P); apply seq_NoDup).
  assert (BN : forall k, k < length arra -> nth k arrb 0 < length arra). { intros k Hk. assert (Hk' : k < length arrb) by lia. assert (X := Permutation_in _ P (nth_In arrb 0 Hk')). apply in_seq in X. lia. }
  rewrite foldM_ext_in with (g := fun a k => wr a (nth k arrb 0) k). 2:{ intros a k Hk. apply in_seq in Hk. rewrite (rd_ok _ _ 0) by lia. reflexivity. }
  destruct (wr_all (fun k => nth k arrb 0) (fun k => k) (length arra) (fun m k => k < length arra /\ nth k arrb 0 = m) 0 (seq 0 (length arra))) with (a := arra) as (ord & E & L & K & _); auto.
  { intros k Hk. apply in_seq in Hk. apply BN. lia. } { intros k Hk. apply in_seq in Hk. split. lia. auto. }
  exists ord. split; auto. split; auto. exists arrb. split; auto. split. apply sort_le. assert (KQ : forall q, q < length arra -> nth q ord 0 < length arra /\ nth (nth q ord 0) arrb 0 = q). { intros q Hq. apply K. assert (X : In q arrb) by (apply (Permutation_in _ (Permutation_sym P)), in_seq; lia). apply In_nth with (d := 0) in X as (k & K1 & K2). exists k. split; auto. apply in_seq. lia. }
  split; auto. intros k Hk. destruct (KQ (nth k arrb 0) (BN k Hk)) as (A & B). apply (proj1 (NoDup_nth arrb 0) ND); auto; lia.
Qed.
(** everything a user of the groups needs *)
Definition good_groups (np : nat) (groups : list (list nat)) : Prop :=
  (forall g p, g < length groups -> In p (nth g groups []) -> p < np) /\ (forall p, p < np -> exists g, g < length groups /\ In p (nth g groups [])) /\
  (forall g g' p, g < length groups -> g' < length groups -> In p (nth g groups []) -> In p (nth g' groups []) -> g = g') /\ (forall g, g < length groups -> nth g groups [] <> []) /\ (forall g, g < length groups -> sset (nth g groups [])) /\
  (forall g g', g < g' -> g' < length groups -> hd 0 (nth g groups []) < hd 0 (nth g' groups [])).
Lemma table_good np (adds : list (nat * nat)) (rk : list nat) (f : nat -> nat) (mn : nat -> nat) : adds = map (fun p => (f p, p)) rk -> sset rk -> (forall p, In p rk <-> p < np) ->
  (forall p p', In p rk -> In p' rk -> f p < f p' -> mn (f p) < mn (f p')) -> (forall p, In p rk -> mn (f p) <= p /\ In (mn (f p)) rk /\ f (mn (f p)) = f p) -> (forall p j, In p rk -> j <= f p -> exists p', In p' rk /\ f p' = j) ->
  good_groups np (table_of adds).
Proof.
  intros -> SR IR HM HI HN. set (adds := map (fun p => (f p, p)) rk).
  assert (ROW : forall j, j < length (table_of adds) -> nth j (table_of adds) [] = filter (fun p => f p =? j) rk). { intros j Hj. rewrite table_nth by auto. unfold adds. clear. induction rk as [|p rk IH]; auto. cbn [map filter fst]. destruct (f p =? j); cbn [map snd]; now rewrite IH. }
  assert (LEN : forall j, j < length (table_of adds) <-> exists p, In p rk /\ j <= f p). { intros j. rewrite table_len. unfold adds. split. intros (a & X & Y). apply in_map_iff in X as (p & <- & X). exists p. auto. intros (p & X & Y). exists (f p, p). split; auto. apply in_map_iff. exists p. auto. }
  assert (IN : forall j p, j < length (table_of adds) -> (In p (nth j (table_of adds) []) <-> In p rk /\ f p = j)). { intros j p Hj. rewrite ROW by auto. rewrite filter_In, Nat.eqb_eq. tauto. }
  assert (HD : forall j, j < length (table_of adds) -> exists p, In p rk /\ f p = j /\ hd 0 (nth j (table_of adds) []) = mn j).
  { intros j Hj. destruct (proj1 (LEN j) Hj) as (p & X & Y). destruct (HN p j X Y) as (p' & X' & Y'). exists p'. split; auto. split; auto. destruct (HI p' X') as (I1 & I2 & I3). rewrite Y' in *. assert (Z : In (mn j) (nth j (table_of adds) [])) by now apply IN. assert (SJ : sset (nth j (table_of adds) [])) by (rewrite ROW by auto; now apply ss_filter_r).
    destruct (nth j (table_of adds) []) as [|h t] eqn:ER; [destruct Z|]. cbn [hd]. assert (HH : In h (nth j (table_of adds) [])) by (rewrite ER; now left). apply IN in HH as (H1 & H2); auto. destruct (HI h H1) as (J1 & _). rewrite H2 in J1. assert (h <= mn j) by now apply (sset_hd t). lia. }
  split; [|split; [|split; [|split; [|split]]]].
  - intros g p Hg X. apply IN in X as (X & _); auto. now apply IR.
  - intros p Hp. apply IR in Hp. assert (L : f p < length (table_of adds)) by (apply LEN; eauto). exists (f p). split; auto. now apply IN.
  - intros g g' p Hg Hg' X X'. apply IN in X as (_ & <-); auto. apply IN in X' as (_ & <-); auto.
  - intros g Hg E. destruct (HD g Hg) as (p & X & Y & _). assert (Z : In p (nth g (table_of adds) [])) by now apply IN. rewrite E in Z. destruct Z.
  - intros g Hg. rewrite ROW by auto. now apply ss_filter_r.
  - intros g g' Hlt Hg'. destruct (HD g ltac:(lia)) as (p & X & Y & ->). destruct (HD g' Hg') as (p' & X' & Y' & ->). subst. apply HM; auto.
Qed.
Lemma seq_sset a n : sset (seq a n).
Proof. revert a. induction n as [|n IH]; intros a; cbn [seq]; constructor; auto. rewrite Forall_forall. intros x X. apply in_seq in X. lia. Qed.
Lemma partition_good (np nparts : nat) (sep : bool) (part : list nat) : length part = np -> 0 < np -> (forall p, p < np -> nth p part 0 < (if sep then nparts - 1 else nparts)) ->
  exists groups, groups_of_partition np nparts sep part = Ret groups /\ length groups <= nparts /\ good_groups np groups /\ (sep = true -> nth 0 groups [] = [0]).
Proof.
  intros L Hnp HB. unfold groups_of_partition. set (first := if sep then 1 else 0). assert (HB' : forall p, first <= p < np -> nth p part 0 < nparts). { intros p Hp. specialize (HB p ltac:(lia)). destruct sep; lia. }
  destruct (min_ranks_ok np nparts first part L HB' ltac:(unfold first; destruct sep; lia)) as (a & E & La & A). rewrite E. cbn [bind]. destruct (order_ok a) as (ord & E2 & Lo & arrb & P & SS & O1 & O2). rewrite E2. cbn [bind].
  set (f := fun p => if sep then nth (nth p part 0) ord 0 + 1 else nth (nth p part 0) ord 0).
  rewrite (mapM_map _ (fun p => (f p, p))). 2:{ intros p Hp. apply in_seq in Hp. assert (X : nth p part 0 < nparts) by (apply HB'; lia). rewrite (rd_ok _ _ 0) by lia. cbn [bind]. rewrite (rd_ok _ _ 0) by lia. reflexivity. }
  cbn [bind]. eexists. split; [reflexivity|]. assert (LB : length arrb = nparts) by (rewrite (Permutation_length P), seq_length; lia).
  (* the smallest rank of a position *)
  set (mn := fun j => nth (nth j arrb 0) a 0).
  assert (MO : forall i j, i <= j < nparts -> mn i <= mn j) by (intros i j Hij; unfold mn; apply (ss_nth_le (fun q => nth q a 0)); auto; lia).
  assert (BQ : forall j, j < nparts -> nth j arrb 0 < nparts). { intros j Hj. assert (Hj' : j < length arrb) by lia. assert (X := Permutation_in _ P (nth_In arrb 0 Hj')). apply in_seq in X. lia. }
  assert (MN : forall p, first <= p < np -> let j := nth (nth p part 0) ord 0 in j < nparts /\ mn j <= p /\ first <= mn j /\ nth (mn j) part 0 = nth p part 0).
  { intros p Hp. cbn zeta. destruct (O2 (nth p part 0)) as (X1 & X2). rewrite La. now apply HB'. rewrite La in X1. split; auto. unfold mn. rewrite X2. destruct (A (nth p part 0) (HB' p Hp)) as (A1 & A2). specialize (A1 p Hp eq_refl). destruct A2 as [A2|(A2 & A3)]. lia. split; auto. split; auto. lia. }
  assert (INJ : forall i j, i < j < nparts -> mn i < np -> mn i <> mn j). { intros i j Hij Hm Eq. destruct (A (nth i arrb 0) ltac:(apply BQ; lia)) as (_ & A1). destruct (A (nth j arrb 0) ltac:(apply BQ; lia)) as (_ & A2). fold (mn i) in A1. fold (mn j) in A2. destruct A1 as [|(_ & A1)]. lia. destruct A2 as [|(_ & A2)]. lia. assert (nth i arrb 0 = nth j arrb 0) by congruence. assert (i = j). { rewrite <- (O1 i), <- (O1 j) by lia. congruence. } lia. }
  assert (ROW : forall p j, first <= p < np -> j <= nth (nth p part 0) ord 0 -> exists p', first <= p' < np /\ nth (nth p' part 0) ord 0 = j).
  { intros p j Hp Hj. destruct (MN p Hp) as (M1 & M2 & M3 & M4). cbn zeta in *. exists (mn j). assert (mn j <= mn (nth (nth p part 0) ord 0)) by (apply MO; lia). destruct (A (nth j arrb 0) ltac:(apply BQ; lia)) as (_ & A1). fold (mn j) in A1. destruct A1 as [|(A1 & A2)]. lia. split. lia. rewrite A2. apply O1. lia. }
  assert (FEW : forall p, first <= p < np -> nth (nth p part 0) ord 0 < (if sep then nparts - 1 else nparts)).
  { intros p Hp. destruct (MN p Hp) as (M1 & M2 & _). set (j := nth (nth p part 0) ord 0) in *. assert (IC : incl (map (fun i => nth i arrb 0) (seq 0 (S j))) (seq 0 (if sep then nparts - 1 else nparts))).
    { intros q X. apply in_map_iff in X as (i & <- & X). apply in_seq in X. assert (mn i <= mn j) by (apply MO; lia). destruct (A (nth i arrb 0) ltac:(apply BQ; lia)) as (_ & A1). fold (mn i) in A1. destruct A1 as [|(A1 & A2)]. lia. rewrite <- A2. apply in_seq. specialize (HB (mn i) ltac:(lia)). lia. }
    apply NoDup_incl_length in IC. rewrite map_length, !seq_length in IC. lia. assert (K : forall i j, i < nparts -> j < nparts -> nth i arrb 0 = nth j arrb 0 -> i = j). { intros a1 a2 Ha1 Ha2 Eq. rewrite <- (O1 a1), <- (O1 a2) by lia. congruence. }
    clear - K M1. assert (G : forall l, NoDup l -> (forall i, In i l -> i < nparts) -> NoDup (map (fun i => nth i arrb 0) l)). { induction l as [|i l IH]; intros ND HI; cbn [map]; constructor. intros X. apply in_map_iff in X as (i' & Eq & X). inversion ND; subst. apply K in Eq. subst. contradiction. apply HI. now right. apply HI. now left. apply IH. now inversion ND. intros; apply HI; now right. }
    apply G. apply seq_NoDup. intros i X. apply in_seq in X. lia. }
  assert (LEN : forall adds, (forall a, In a adds -> fst a < nparts) -> length (table_of adds) <= nparts). { intros adds HA. clear - HA. destruct (Nat.le_gt_cases (length (table_of adds)) nparts) as [|X]; auto. apply table_len in X as (z & X & Y). specialize (HA z X). lia. }
  split. { apply LEN. assert (HF : forall a0, In a0 (map (fun p => (f p, p)) (seq first (np - first))) -> fst a0 < nparts). { intros a0 X. apply in_map_iff in X as (p & <- & X). apply in_seq in X. cbn [fst]. specialize (FEW p ltac:(lia)). unfold f. destruct sep; lia. } destruct sep; auto. intros a0 [<-|X]; auto. cbn [fst]. specialize (HB 0 Hnp). lia. }
  destruct sep.
  - split.
    + change ((0, 0) :: map (fun p => (f p, p)) (seq first (np - first))) with (map (fun p => (if p =? 0 then 0 else f p, p)) [0] ++ map (fun p => (f p, p)) (seq first (np - first))).
      apply (table_good np) with (rk := seq 0 np) (f := fun p => if p =? 0 then 0 else f p) (mn := fun j => if j =? 0 then 0 else mn (j - 1)).
      * replace np with (1 + (np - 1)) at 2 by lia. rewrite seq_app, map_app. cbn [plus]. f_equal. apply map_ext_in. intros p Hp. apply in_seq in Hp. unfold first in Hp. replace (p =? 0) with false; auto. symmetry. apply Nat.eqb_neq. lia.
      * apply seq_sset.
      * intros p. rewrite in_seq. lia.
      * intros p p' X X'. apply in_seq in X, X'. destruct (Nat.eqb_spec p' 0) as [->|N']. lia. assert (F' : f p' = nth (nth p' part 0) ord 0 + 1) by reflexivity. destruct (MN p' ltac:(unfold first; lia)) as (M1 & M2 & M3 & M4). destruct (Nat.eqb_spec p 0) as [->|N].
        -- intros _. cbn [Nat.eqb]. rewrite F'. replace (nth (nth p' part 0) ord 0 + 1 =? 0) with false by (symmetry; apply Nat.eqb_neq; lia). replace (nth (nth p' part 0) ord 0 + 1 - 1) with (nth (nth p' part 0) ord 0) by lia. unfold first in M3. lia.
        -- assert (F : f p = nth (nth p part 0) ord 0 + 1) by reflexivity. rewrite F, F'. intros Hlt. destruct (MN p ltac:(unfold first; lia)) as (M1' & M2' & M3' & M4'). replace (nth (nth p' part 0) ord 0 + 1 =? 0) with false by (symmetry; apply Nat.eqb_neq; lia). replace (nth (nth p part 0) ord 0 + 1 =? 0) with false by (symmetry; apply Nat.eqb_neq; lia). rewrite !Nat.add_sub.
           assert (mn (nth (nth p part 0) ord 0) <= mn (nth (nth p' part 0) ord 0)) by (apply MO; lia). assert (mn (nth (nth p part 0) ord 0) <> mn (nth (nth p' part 0) ord 0)) by (apply INJ; lia). lia.
      * intros p X. apply in_seq in X. destruct (Nat.eqb_spec p 0) as [->|N]. cbn. split; auto. split; auto. apply in_seq. lia.
        assert (F : f p = nth (nth p part 0) ord 0 + 1) by reflexivity. destruct (MN p ltac:(unfold first; lia)) as (M1 & M2 & M3 & M4). rewrite F. replace (nth (nth p part 0) ord 0 + 1 =? 0) with false by (symmetry; apply Nat.eqb_neq; lia). rewrite !Nat.add_sub. unfold first in M3. split; auto. split. apply in_seq. lia. replace (mn (nth (nth p part 0) ord 0) =? 0) with false by (symmetry; apply Nat.eqb_neq; lia). unfold f. now rewrite M4.
      * intros p j X Hj. apply in_seq in X. destruct (Nat.eq_dec j 0) as [->|Nj]. exists 0. split. apply in_seq. lia. reflexivity. destruct (Nat.eqb_spec p 0) as [->|N]. lia. assert (F : f p = nth (nth p part 0) ord 0 + 1) by reflexivity. destruct (ROW p (j - 1) ltac:(unfold first; lia) ltac:(lia)) as (p' & P1 & P2). unfold first in P1. exists p'. split. apply in_seq. lia. replace (p' =? 0) with false by (symmetry; apply Nat.eqb_neq; lia). unfold f. lia.
    + intros _. rewrite table_nth. 2:{ apply table_len. exists (0, 0). split. now left. auto. } cbn [filter fst Nat.eqb map snd]. f_equal. replace (filter (fun a0 => fst a0 =? 0) (map (fun p => (f p, p)) (seq first (np - first)))) with (@nil (nat * nat)); auto. symmetry. generalize (seq first (np - first)). induction l as [|p l IH]; auto. cbn [map filter fst]. replace (f p =? 0) with false; auto. symmetry. apply Nat.eqb_neq. unfold f. lia.
  - split; [|discriminate]. apply (table_good np) with (rk := seq 0 np) (f := f) (mn := mn).
    + unfold first. now rewrite Nat.sub_0_r.
    + apply seq_sset.
    + intros p. rewrite in_seq. lia.
    + intros p p' X X' Hlt. apply in_seq in X, X'. unfold f in *. destruct (MN p' ltac:(unfold first; lia)) as (M1 & M2 & M3 & M4). destruct (MN p ltac:(unfold first; lia)) as (M1' & M2' & M3' & M4'). assert (mn (nth (nth p part 0) ord 0) <= mn (nth (nth p' part 0) ord 0)) by (apply MO; lia). assert (mn (nth (nth p part 0) ord 0) <> mn (nth (nth p' part 0) ord 0)) by (apply INJ; lia). lia.
    + intros p X. apply in_seq in X. unfold f. destruct (MN p ltac:(unfold first; lia)) as (M1 & M2 & M3 & M4). split; auto. split. apply in_seq. lia. now rewrite M4.
    + intros p j X Hj. apply in_seq in X. unfold f in *. destruct (ROW p j ltac:(unfold first; lia) Hj) as (p' & P1 & P2). exists p'. split; auto. apply in_seq. lia.
Qed.
(** one part, or rank 0 and all others *)
Lemma fill_tail row n start : length row = start + n -> exists row', foldM (fun r k => wr r (start + k) (k + 1)) (seq 0 n) row = Ret row' /\ row' = firstn start row ++ seq 1 n.
Proof.
  intros L. assert (K : forall m, m <= n -> foldM (fun r k => wr r (start + k) (k + 1)) (seq 0 m) row = Ret (firstn start row ++ seq 1 m ++ skipn (start + m) row)).
  { induction m as [|m IH]; intros Hm. cbn [seq foldM app]. rewrite Nat.add_0_r. now rewrite firstn_skipn. rewrite seq_S, foldM_app, IH by lia. cbn [bind foldM plus]. rewrite wr_ok by (rewrite !app_length, firstn_length, seq_length, skipn_length; lia). cbn [bind]. f_equal. apply nth_ext_len with (d := 0).
    - rewrite upd_length, !app_length, !firstn_length, !seq_length, !skipn_length. lia.
    - intros i Hi. rewrite upd_length, !app_length, firstn_length, seq_length, skipn_length in Hi. rewrite !app_assoc. assert (E1 : length (firstn start row ++ seq 1 m) = start + m) by (rewrite app_length, firstn_length, seq_length; lia). assert (E2 : length (firstn start row ++ seq 1 (S m)) = start + S m) by (rewrite app_length, firstn_length, seq_length; lia). destruct (Nat.eq_dec (start + m) i) as [<-|N].
      + rewrite nth_upd_eq by (rewrite app_length, skipn_length, E1; lia). rewrite app_nth1 by lia. rewrite app_nth2 by (rewrite firstn_length; lia). rewrite firstn_length. replace (start + m - Nat.min start (length row)) with m by lia. rewrite seq_nth; lia.
      + rewrite nth_upd_neq by auto. destruct (Nat.lt_ge_cases i (start + m)) as [A|A].
        * rewrite !(app_nth1 (firstn start row ++ _)) by lia. rewrite seq_S, app_assoc. rewrite (app_nth1 _ [_]) by lia. reflexivity.
        * rewrite !(app_nth2 (firstn start row ++ _)) by lia. rewrite E1, E2. replace (i - (start + m)) with (S (i - (start + S m))) by lia. replace (start + S m) with (S (start + m)) at 3 by lia. clear. revert row. generalize (start + m) as a, (i - (start + S m)) as b. intros a b. induction a as [|a IH]; intros [|x row]; cbn; auto; try (now destruct b). apply IH. }
  eexists. split. apply K. lia. rewrite skipn_all2 by lia. now rewrite app_nil_r.
Qed.
Lemma trivial_one np : 0 < np -> trivial_groups np 1 = Ret [seq 0 np].
Proof.
  intros Hn. unfold trivial_groups. cbn [repeat upd Nat.sub rd nth_error bind map Nat.eqb plus]. replace (repeat 0 (S (np - 1))) with (0 :: repeat 0 (np - 1)) by reflexivity. cbn [wr length Nat.ltb Nat.leb upd bind].
  rewrite foldM_ext_in with (g := fun g k => r <- rd g 0 ;; r <- wr r (1 + k) (k + 1) ;; wr g 0 r) by reflexivity.
  assert (K : forall l (row : list nat) rest row', foldM (fun r k => wr r (1 + k) (k + 1)) l row = Ret row' -> foldM (fun g k => r <- rd g 0 ;; r <- wr r (1 + k) (k + 1) ;; wr g 0 r) l (row :: rest) = Ret (row' :: rest)).
  { induction l as [|k l IH]; intros row rest row' E; cbn [foldM] in *. inversion E. reflexivity. cbn [rd nth_error bind]. destruct (wr row (1 + k) (k + 1)) as [r|e]; cbn [bind] in *; [|discriminate]. cbn [wr length Nat.ltb Nat.leb upd bind]. apply IH, E. }
  destruct (fill_tail (0 :: repeat 0 (np - 1)) (np - 1) 1) as (row' & E & ->). cbn [length]. rewrite repeat_length. lia. rewrite (K _ _ [] _ E). cbn [firstn app]. do 2 f_equal. destruct np as [|n]; [lia|]. cbn [Nat.sub seq]. now rewrite Nat.sub_0_r.
Qed.
Lemma trivial_two np : 0 < np -> trivial_groups np 2 = Ret [[0]; seq 1 (np - 1)].
Proof.
  intros Hn. unfold trivial_groups. cbn [repeat upd Nat.sub rd nth_error bind map Nat.eqb plus]. cbn [wr length Nat.ltb Nat.leb upd bind].
  assert (K : forall l (row : list nat) r0 row', foldM (fun r k => wr r (0 + k) (k + 1)) l row = Ret row' -> foldM (fun g k => r <- rd g 1 ;; r <- wr r (0 + k) (k + 1) ;; wr g 1 r) l [r0; row] = Ret [r0; row']).
  { induction l as [|k l IH]; intros row r0 row' E; cbn [foldM] in *. inversion E. reflexivity. cbn [rd nth_error bind]. destruct (wr row (0 + k) (k + 1)) as [r|e]; cbn [bind] in *; [|discriminate]. cbn [wr length Nat.ltb Nat.leb upd bind]. apply IH, E. }
  destruct (fill_tail (repeat 0 (np - 1)) (np - 1) 0) as (row' & E & ->). now rewrite repeat_length. apply (K _ _ [0] _ E).
Qed.
Lemma good_one np : 0 < np -> good_groups np [seq 0 np].
Proof.
  intros Hn. unfold good_groups. cbn [length]. assert (Z : forall g, g < 1 -> g = 0) by (intros; lia). split; [|split; [|split; [|split; [|split]]]].
  - intros g p Hg X. rewrite (Z g Hg) in X. cbn [nth] in X. apply in_seq in X. lia.
  - intros p Hp. exists 0. split; auto. cbn [nth]. apply in_seq. lia.
  - intros; lia.
  - intros g Hg. rewrite (Z g Hg). cbn [nth]. destruct np; [lia|discriminate].
  - intros g Hg. rewrite (Z g Hg). cbn [nth]. apply seq_sset.
  - intros; lia.
Qed.
Lemma good_two np : 1 < np -> good_groups np [[0]; seq 1 (np - 1)].
Proof.
  intros Hn. unfold good_groups. cbn [length]. assert (Z : forall g, g < 2 -> g = 0 \/ g = 1) by (intros; lia). split; [|split; [|split; [|split; [|split]]]].
  - intros g p Hg X. destruct (Z g Hg); subst; cbn [nth] in X. destruct X as [<-|[]]. lia. apply in_seq in X. lia.
  - intros p Hp. destruct (Nat.eq_dec p 0) as [->|N]. exists 0. split; auto. now left. exists 1. split; auto. cbn [nth]. apply in_seq. lia.
  - intros g g' p Hg Hg' X X'. destruct (Z g Hg), (Z g' Hg'); subst; auto; cbn [nth] in *; [destruct X as [<-|[]]; apply in_seq in X'|destruct X' as [<-|[]]; apply in_seq in X]; lia.
  - intros g Hg. destruct (Z g Hg); subst; cbn [nth]. discriminate. destruct np as [|[|]]; try lia. discriminate.
  - intros g Hg. destruct (Z g Hg); subst; cbn [nth]. repeat constructor. apply seq_sset.
  - intros g g' A B. assert (g = 0) by lia. assert (g' = 1) by lia. subst. cbn [nth hd]. destruct np as [|[|]]; try lia. cbn. lia.
Qed.
