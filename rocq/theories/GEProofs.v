(** Loops of the numbering of edges (GEModel): sums, shifts, tables. *)
From Verif Require Import Base EQCModel AggMapModel GCModel GCProofs GCProofs2 GEModel.
Local Open Scope nat_scope.

Definition sg (f : nat -> nat) (n : nat) : nat := list_sum (map f (seq 0 n)).
Lemma sg_S f n : sg f (S n) = sg f n + f n. Proof. unfold sg. rewrite seq_S, map_app, sum_app. cbn. lia. Qed.
Lemma sg_ext f g n : (forall i, i < n -> f i = g i) -> sg f n = sg g n.
Proof. intros E. unfold sg. f_equal. apply map_ext_in. intros i X. apply in_seq in X. apply E. lia. Qed.
Lemma sg_filter (P : nat -> bool) (a : nat -> nat) n : sg (fun i => if P i then a i else 0) n = list_sum (map a (filter P (seq 0 n))).
Proof. induction n; auto. rewrite sg_S, IHn, seq_S, filter_app, map_app, sum_app. cbn [Nat.add filter]. destruct (P n); cbn; lia. Qed.

Notation z5 := (mk5 0 0 0 0 0).
Section Five.
  Variable X : list c5.
  Notation x c := (nth c X z5).
  Definition b3 (c : nat) : nat := sg (fun c => n_ii (x c) + n_ci (x c) + n_ia (x c)) c.
  Definition b2 (c : nat) : nat := sg (fun c => n_cc (x c) + n_ca (x c)) c.
  Definition fw (c : nat) : c5 := mk5 (b3 c + n_ii (x c)) (b3 c + n_ii (x c) + n_ci (x c)) (b3 (S c)) (b2 c + n_cc (x c)) (b2 (S c)).
  Definition bw (c : nat) : c5 := mk5 (b3 c) (b3 c + n_ii (x c)) (b3 c + n_ii (x c) + n_ci (x c)) (b2 c) (b2 c + n_cc (x c)).
  Lemma fwd k : forall t, k < length X -> length t = length X -> nth 0 t z5 = fw 0 -> (forall c, 0 < c -> c < length X -> nth c t z5 = x c) ->
    exists t', foldM (fun t c => p <- rd t (c - 1) ;; x <- rd t c ;; wr t c (five_sum p x)) (seq 1 k) t = Ret t' /\ length t' = length X /\ (forall c, c <= k -> nth c t' z5 = fw c) /\ forall c, k < c -> c < length X -> nth c t' z5 = x c.
  Proof.
    induction k as [|k IH]; intros t Hk L T0 TR.
    - exists t. split; auto. split; auto. split. intros c Hc. replace c with 0 by lia. auto. intros; apply TR; lia.
    - destruct (IH t ltac:(lia) L T0 TR) as (t1 & E1 & L1 & A1 & B1). rewrite seq_S, foldM_app, E1. cbn [bind foldM]. replace (1 + k) with (S k) by lia. replace (S k - 1) with k by lia. rewrite (rd_ok _ _ z5) by lia. cbn [bind]. rewrite (rd_ok _ _ z5) by lia. cbn [bind]. rewrite wr_ok by lia. cbn [bind].
      eexists. split; [reflexivity|]. rewrite upd_length. split; auto. split.
      + intros c Hc. destruct (Nat.eq_dec c (S k)) as [->|NE]. rewrite nth_upd_eq by lia. rewrite A1, B1 by lia. unfold five_sum, fw. cbn [n_ii n_ci n_ia n_cc n_ca]. unfold b3, b2. rewrite !sg_S. f_equal; lia. rewrite nth_upd_neq by lia. apply A1. lia.
      + intros c Hc Hc'. rewrite nth_upd_neq by lia. apply B1; lia.
  Qed.
  Lemma bwd k : forall t, k < length X -> length t = length X -> (forall c, c <= k -> nth c t z5 = fw c) -> (forall c, k < c -> c < length X -> nth c t z5 = bw c) ->
    exists t', foldM (fun t c => p <- rd t (c - 1) ;; x <- rd t c ;; wr t c (five_shift p x)) (rev (seq 1 k)) t = Ret t' /\ length t' = length X /\ nth 0 t' z5 = fw 0 /\ forall c, 0 < c -> c < length X -> nth c t' z5 = bw c.
  Proof.
    induction k as [|k IH]; intros t Hk L A B.
    - exists t. split; auto.
    - rewrite seq_S, rev_app_distr. cbn [rev app]. cbn [foldM]. replace (1 + k) with (S k) by lia. replace (S k - 1) with k by lia. rewrite (rd_ok _ _ z5) by lia. cbn [bind]. rewrite (rd_ok _ _ z5) by lia. cbn [bind]. rewrite wr_ok by lia. cbn [bind].
      apply IH. lia. now rewrite upd_length. intros c Hc. rewrite nth_upd_neq by lia. apply A. lia. intros c Hc Hc'. destruct (Nat.eq_dec c (S k)) as [->|NE]. rewrite nth_upd_eq by lia. rewrite !A by lia. reflexivity. rewrite nth_upd_neq by lia. apply B; lia.
  Qed.
  Lemma sum_five_ok : exists t, sum_five X = Ret t /\ length t = length X /\ forall c, c < length X -> nth c t z5 = bw c.
  Proof.
    unfold sum_five. destruct X as [|x0 X'] eqn:EX. { exists []. split; auto. split; auto. cbn. intros; lia. }
    rewrite <- EX. assert (LX : 0 < length X) by (rewrite EX; cbn; lia). rewrite (rd_ok _ _ z5) by lia. cbn [bind]. rewrite wr_ok by lia. cbn [bind]. rewrite upd_length.
    destruct (fwd (length X - 1) (upd X 0 (five_sum z5 (x 0)))) as (t1 & E1 & L1 & A1 & _). lia. apply upd_length. { rewrite nth_upd_eq by lia. unfold five_sum, fw, b3, b2. rewrite !sg_S. cbn [n_ii n_ci n_ia n_cc n_ca sg]. unfold sg; cbn. f_equal; lia. } { intros c Hc Hc'. now rewrite nth_upd_neq by lia. }
    rewrite E1. cbn [bind]. rewrite L1. destruct (bwd (length X - 1) t1) as (t2 & E2 & L2 & Z2 & A2). lia. auto. intros; apply A1; lia. intros; lia. rewrite E2. cbn [bind]. rewrite (rd_ok _ _ z5) by lia. cbn [bind]. rewrite wr_ok by lia. eexists. split; [reflexivity|]. rewrite upd_length. split; auto.
    intros c Hc. destruct (Nat.eq_dec c 0) as [->|NE]. rewrite nth_upd_eq by lia. rewrite Z2. reflexivity. rewrite nth_upd_neq by lia. apply A2; lia.
  Qed.
  Lemma disps_nth n : forall s c, c <= length n -> nth c (prefix_from s n) 0 = s + list_sum (firstn c n).
  Proof. induction n as [|a n IH]; intros s c Hc; cbn [length] in Hc. replace c with 0 by lia. cbn. lia. destruct c; cbn [prefix_from nth firstn]. cbn; lia. rewrite IH by lia. unfold list_sum. cbn. lia. Qed.
  Lemma disps_len n : forall s, length (prefix_from s n) = S (length n). Proof. induction n; intros; cbn; auto. Qed.
  Lemma firstn_map_seq {A} (l : list A) d c : c <= length l -> firstn c l = map (fun i => nth i l d) (seq 0 c).
  Proof. revert c. induction l as [|a l IH]; intros c Hc; cbn [length] in Hc. replace c with 0 by lia. auto. destruct c; auto. cbn [firstn seq map nth]. rewrite IH by lia. rewrite <- seq_shift, map_map. reflexivity. Qed.
  Lemma die_ok : length (disp_ie X) = S (length X) /\ (forall c, c <= length X -> nth c (disp_ie X) 0 = b3 c) /\ length (disp_ce X) = S (length X) /\ (forall c, c <= length X -> nth c (disp_ce X) 0 = b2 c).
  Proof.
    unfold disp_ie, disp_ce, disps_of. rewrite !disps_len, !map_length. split; auto. split; [|split; auto].
    - intros c Hc. rewrite disps_nth by now rewrite map_length. rewrite firstn_map, (firstn_map_seq X z5), map_map by auto. reflexivity.
    - intros c Hc. rewrite disps_nth by now rewrite map_length. rewrite firstn_map, (firstn_map_seq X z5), map_map by auto. reflexivity.
  Qed.
  Lemma last_nth_len {A} (l : list A) d : last l d = nth (length l - 1) l d.
  Proof. induction l as [|a l IH]; auto. destruct l as [|b l]; auto. change (last (a :: b :: l) d) with (last (b :: l) d). rewrite IH. cbn [length]. replace (S (S (length l)) - 1) with (S (S (length l) - 1)) by lia. reflexivity. Qed.
  Lemma last_die : last (disp_ie X) 0 = b3 (length X) /\ last (disp_ce X) 0 = b2 (length X).
  Proof. destruct die_ok as (A & B & C & D). rewrite !last_nth_len, A, C. replace (S (length X) - 1) with (length X) by lia. split; [apply B|apply D]; auto. Qed.
End Five.

(** blocks placed one after another within the classes *)
Section Blocks.
  Variable (mc : list nat).
  Notation nm := (length mc).
  Definition psum (a : nat -> nat) (m : nat) : nat := list_sum (map a (filter (fun i => nth i mc 0 =? nth m mc 0) (seq 0 m))).
  Definition upto (a : nat -> nat) (k c : nat) : nat := list_sum (map a (filter (fun i => nth i mc 0 =? c) (seq 0 k))).
  Lemma upto_S a k c : upto a (S k) c = upto a k c + if nth k mc 0 =? c then a k else 0.
  Proof. unfold upto. rewrite seq_S, filter_app, map_app, sum_app. cbn [Nat.add filter]. destruct (nth k mc 0 =? c); cbn; lia. Qed.
  Lemma place_blocks_ok C cnie (a b : nat -> nat) ii cc cts : c_mc C = mc -> (forall m, m < nm -> nth m mc 0 < length cts) -> length ii = nm -> length cc = nm -> (forall m, m < nm -> nth m ii 0 = a m) -> (forall m, m < nm -> nth m cc 0 = b m) ->
    exists ii' cc' cts', place_blocks C cnie ii cc cts = Ret (ii', cc', cts') /\ length ii' = nm /\ length cc' = nm /\ length cts' = length cts /\
      (forall m, m < nm -> nth m ii' 0 = n_ii (nth (nth m mc 0) cts z5) + psum a m) /\ (forall m, m < nm -> nth m cc' 0 = cnie + (n_cc (nth (nth m mc 0) cts z5) + psum b m)) /\ (forall c, n_ci (nth c cts' z5) = n_ci (nth c cts z5)).
  Proof.
    intros EC HB LI LC HI HCC. unfold place_blocks. rewrite EC.
    assert (IND : forall k, k <= nm -> exists ii' cc' cts', foldM (fun '(ii, cc, cts) m => c <- rd mc m ;; x <- rd cts c ;; a <- rd ii m ;; b <- rd cc m ;;
      ii <- wr ii m (n_ii x) ;; cc <- wr cc m (cnie + n_cc x) ;; cts <- wr cts c (mk5 (n_ii x + a) (n_ci x) (n_ia x) (n_cc x + b) (n_ca x)) ;; Ret (ii, cc, cts)) (seq 0 k) (ii, cc, cts) = Ret (ii', cc', cts') /\
      length ii' = nm /\ length cc' = nm /\ length cts' = length cts /\ (forall m, m < k -> nth m ii' 0 = n_ii (nth (nth m mc 0) cts z5) + psum a m) /\ (forall m, k <= m -> m < nm -> nth m ii' 0 = a m) /\
      (forall m, m < k -> nth m cc' 0 = cnie + (n_cc (nth (nth m mc 0) cts z5) + psum b m)) /\ (forall m, k <= m -> m < nm -> nth m cc' 0 = b m) /\
      (forall c, c < length cts -> n_ii (nth c cts' z5) = n_ii (nth c cts z5) + upto a k c /\ n_cc (nth c cts' z5) = n_cc (nth c cts z5) + upto b k c) /\ (forall c, n_ci (nth c cts' z5) = n_ci (nth c cts z5))).
    { induction k as [|k IH]; intros Hk.
      - exists ii, cc, cts. split; auto. repeat (split; auto); try (intros; lia). 
      - destruct IH as (i1 & c1 & t1 & E & L1 & L2 & L3 & A1 & A2 & B1 & B2 & T1 & T2). lia. rewrite seq_S, foldM_app, E. cbn [bind foldM Nat.add]. rewrite (rd_ok _ _ 0) by lia. cbn [bind]. assert (Hc := HB k ltac:(lia)). rewrite (rd_ok _ _ z5) by lia. cbn [bind]. rewrite (rd_ok i1 _ 0) by lia. cbn [bind]. rewrite (rd_ok c1 _ 0) by lia. cbn [bind]. repeat (rewrite wr_ok by lia; cbn [bind]).
        destruct (T1 _ Hc) as (U1 & U2). eexists _, _, _. split; [reflexivity|]. rewrite !upd_length. split; auto. split; auto. split; auto. split; [|split; [|split; [|split; [|split]]]].
        + intros m Hm. destruct (Nat.eq_dec m k) as [->|NE]. rewrite nth_upd_eq by lia. rewrite U1. reflexivity. rewrite nth_upd_neq by lia. apply A1. lia.
        + intros m Hm Hm'. rewrite nth_upd_neq by lia. apply A2; lia.
        + intros m Hm. destruct (Nat.eq_dec m k) as [->|NE]. rewrite nth_upd_eq by lia. rewrite U2. reflexivity. rewrite nth_upd_neq by lia. apply B1. lia.
        + intros m Hm Hm'. rewrite nth_upd_neq by lia. apply B2; lia.
        + intros c Hc'. rewrite !upto_S. destruct (Nat.eqb_spec (nth k mc 0) c) as [<-|NE]. rewrite nth_upd_eq by lia. cbn [n_ii n_cc]. rewrite A2, B2 by lia. lia. rewrite nth_upd_neq by lia. rewrite !Nat.add_0_r. apply T1; auto.
        + intros c. destruct (Nat.eq_dec c (nth k mc 0)) as [->|NE]. rewrite nth_upd_eq by lia. cbn [n_ci]. apply T2. rewrite nth_upd_neq by lia. apply T2. }
    destruct (IND nm (Nat.le_refl _)) as (i1 & c1 & t1 & E & L1 & L2 & L3 & A1 & _ & B1 & _ & _ & T2). exists i1, c1, t1. split; auto. repeat (split; auto).
  Qed.
  (** position of an entry of block m *)
  Lemma block_nth {A} (f : nat -> list A) m i d : m < nm -> i < length (f m) -> nth (psum (fun m => length (f m)) m + i) (flat_map f (filter (fun i => nth i mc 0 =? nth m mc 0) (seq 0 nm))) d = nth i (f m) d.
  Proof. intros Hm Hi. rewrite (seq_split_at m nm Hm), filter_app. cbn [filter]. rewrite Nat.eqb_refl. unfold psum. rewrite <- flat_len. now apply flat_app. Qed.
  Lemma block_lt {A} (f : nat -> list A) m i : m < nm -> i < length (f m) -> psum (fun m => length (f m)) m + i < length (flat_map f (filter (fun i => nth i mc 0 =? nth m mc 0) (seq 0 nm))).
  Proof. intros Hm Hi. rewrite (seq_split_at m nm Hm), filter_app. cbn [filter]. rewrite Nat.eqb_refl. unfold psum. rewrite flat_map_app, app_length. cbn [flat_map]. rewrite app_length, <- flat_len. lia. Qed.
End Blocks.

(** tables of numbers *)
Definition mat (t : list (list nat)) (nr nc : nat) (f : nat -> nat -> nat) : Prop := length t = nr /\ (forall i, i < nr -> length (nth i t []) = nc) /\ forall i j, i < nr -> j < nc -> nth j (nth i t []) 0 = f i j.
Lemma mat_ext t nr nc f g : mat t nr nc f -> (forall i j, i < nr -> j < nc -> f i j = g i j) -> mat t nr nc g.
Proof. intros (A & B & C) E. split; auto. split; auto. intros. rewrite C by auto. now apply E. Qed.
Lemma at2_mat t nr nc f i j : mat t nr nc f -> i < nr -> j < nc -> at2 t (i, j) = Ret (f i j).
Proof. intros (A & B & C) Hi Hj. unfold at2. cbn [fst snd]. rewrite (rd_ok _ _ []) by lia. cbn [bind]. rewrite (rd_ok _ _ 0) by (rewrite B; lia). now rewrite C. Qed.
Lemma set2_mat t nr nc f i j x : mat t nr nc f -> i < nr -> j < nc -> exists t', set2 t i j x = Ret t' /\ mat t' nr nc (fun i' j' => if (i' =? i) && (j' =? j) then x else f i' j').
Proof.
  intros (A & B & C) Hi Hj. unfold set2. rewrite (rd_ok _ _ []) by lia. cbn [bind]. rewrite wr_ok by (rewrite B; lia). cbn [bind]. rewrite wr_ok by lia. eexists. split; [reflexivity|]. split. now rewrite upd_length. split.
  - intros i' Hi'. destruct (Nat.eq_dec i' i) as [->|NE]. rewrite nth_upd_eq by lia. rewrite upd_length. now apply B. rewrite nth_upd_neq by lia. now apply B.
  - intros i' j' Hi' Hj'. destruct (Nat.eqb_spec i' i) as [->|NE]; cbn [andb]. rewrite nth_upd_eq by lia. destruct (Nat.eqb_spec j' j) as [->|NJ]. rewrite nth_upd_eq by (rewrite B; lia). auto. rewrite nth_upd_neq by lia. now apply C. rewrite nth_upd_neq by lia. now apply C.
Qed.
Lemma incr2_mat t nr nc f i j : mat t nr nc f -> i < nr -> j < nc -> exists t', incr2 t i j = Ret t' /\ mat t' nr nc (fun i' j' => if (i' =? i) && (j' =? j) then S (f i' j') else f i' j').
Proof.
  intros M Hi Hj. assert (M' := M). destruct M' as (A & B & C). destruct (set2_mat t nr nc f i j (S (f i j)) M Hi Hj) as (t' & E & M'). exists t'. split.
  - unfold incr2, incr, set2 in *. rewrite (rd_ok _ _ []) in * by lia. cbn [bind] in *. rewrite (rd_ok _ _ 0) by (rewrite B; lia). cbn [bind]. rewrite C by auto. exact E.
  - eapply mat_ext; [exact M'|]. intros i' j' _ _. cbn. destruct (Nat.eqb_spec i' i) as [->|], (Nat.eqb_spec j' j) as [->|]; auto.
Qed.
Lemma place_ci_ok nm nc cts ci a : nc <= length cts -> mat ci (nm + 1) nc a -> exists t, place_ci nm nc cts ci = Ret t /\ mat t (nm + 1) nc (fun m c => if m <? nm then n_ci (nth c cts z5) + sg (fun i => a i c) m else nth c (nth m t []) 0).
Proof.
  intros HL HM.
  assert (IN1 : forall m t f, m < nm -> mat t (nm + 1) nc f -> forall k, k <= nc -> exists t', foldM (fun t c => a <- at2 t (m, c) ;; b <- at2 t (m + 1, c) ;; set2 t (m + 1) c (b + a)) (seq 0 k) t = Ret t' /\ mat t' (nm + 1) nc (fun i j => if (i =? m + 1) && (j <? k) then f (m + 1) j + f m j else f i j)).
  { intros m t f Hm Mt. induction k as [|k IH]; intros Hk.
    - exists t. split; auto. eapply mat_ext; [exact Mt|]. intros i j _ _. rewrite andb_false_r. auto.
    - destruct IH as (t1 & E1 & M1). lia. rewrite seq_S, foldM_app, E1. cbn [bind foldM Nat.add]. rewrite (at2_mat _ _ _ _ m k M1) by lia. cbn [bind]. rewrite (at2_mat _ _ _ _ (m + 1) k M1) by lia. cbn [bind]. destruct (set2_mat _ _ _ _ (m + 1) k ((if (m + 1 =? m + 1) && (k <? k) then f (m + 1) k + f m k else f (m + 1) k) + (if (m =? m + 1) && (k <? k) then f (m + 1) k + f m k else f m k)) M1) as (t2 & E2 & M2); try lia. rewrite E2. exists t2. split; auto. eapply mat_ext; [exact M2|]. intros i j Hi Hj. cbn beta.
      rewrite Nat.ltb_irrefl, !andb_false_r. destruct (Nat.eqb_spec i (m + 1)) as [->|NE]; cbn [andb]; auto. destruct (Nat.eqb_spec j k) as [->|NJ]. destruct (Nat.ltb_spec k (S k)); lia. destruct (Nat.ltb_spec j k), (Nat.ltb_spec j (S k)); auto; lia. }
  assert (O1 : forall k, k <= nm -> exists t', foldM (fun t m => foldM (fun t c => a <- at2 t (m, c) ;; b <- at2 t (m + 1, c) ;; set2 t (m + 1) c (b + a)) (seq 0 nc) t) (seq 0 k) ci = Ret t' /\ mat t' (nm + 1) nc (fun i j => if i <=? k then sg (fun i => a i j) (S i) else a i j)).
  { induction k as [|k IH]; intros Hk.
    - exists ci. split; auto. eapply mat_ext; [exact HM|]. intros i j _ _. destruct (Nat.leb_spec i 0); auto. replace i with 0 by lia. rewrite sg_S. reflexivity.
    - destruct IH as (t1 & E1 & M1). lia. rewrite seq_S, foldM_app, E1. cbn [bind foldM Nat.add]. destruct (IN1 k t1 _ ltac:(lia) M1 nc (Nat.le_refl _)) as (t2 & E2 & M2). cbn [bind] in *. rewrite E2. exists t2. split; auto. eapply mat_ext; [exact M2|]. intros i j Hi Hj. cbn beta. destruct (Nat.ltb_spec j nc); [|lia]. rewrite andb_true_r. destruct (Nat.eqb_spec i (k + 1)) as [->|NE].
      + replace (k + 1) with (S k) by lia. destruct (Nat.leb_spec (S k) k); [lia|]. rewrite (Nat.leb_refl (S k)), (Nat.leb_refl k). rewrite (sg_S _ (S k)). lia.
      + destruct (Nat.leb_spec i k), (Nat.leb_spec i (S k)); auto; lia. }
  assert (IN2 : forall c y, c < nc -> forall k, k < nm + 1 -> forall t f, mat t (nm + 1) nc f -> exists t', foldM (fun t m => a <- at2 t (m, c) ;; set2 t (m + 1) c (y + a)) (rev (seq 0 k)) t = Ret t' /\ mat t' (nm + 1) nc (fun i j => if (j =? c) && (1 <=? i) && (i <=? k) then y + f (i - 1) c else f i j)).
  { intros c y Hc. induction k as [|k IH]; intros Hk t f Mt.
    - exists t. split; auto. eapply mat_ext; [exact Mt|]. intros i j _ _. destruct (Nat.leb_spec 1 i), (Nat.leb_spec i 0); rewrite ?andb_false_r; auto. lia.
    - rewrite seq_S, rev_app_distr. cbn [rev app Nat.add foldM]. rewrite (at2_mat _ _ _ _ k c Mt) by lia. cbn [bind]. destruct (set2_mat _ _ _ _ (k + 1) c (y + f k c) Mt) as (t1 & E1 & M1); try lia. rewrite E1. cbn [bind]. destruct (IH ltac:(lia) t1 _ M1) as (t2 & E2 & M2). exists t2. split; auto. eapply mat_ext; [exact M2|]. intros i j Hi Hj. cbn beta. rewrite Nat.eqb_refl.
      destruct (Nat.eqb_spec j c) as [->|NJ]; cbn [andb]; rewrite ?andb_false_r; auto. rewrite ?andb_true_r. destruct (Nat.leb_spec 1 i), (Nat.leb_spec i k), (Nat.leb_spec i (S k)), (Nat.eqb_spec i (k + 1)), (Nat.eqb_spec (i - 1) (k + 1)); cbn [andb]; try lia. replace (i - 1) with k by lia. auto. }
  destruct (O1 nm (Nat.le_refl _)) as (t1 & E1 & M1). unfold place_ci. rewrite E1. cbn [bind].
  assert (O2 : forall k, k <= nc -> exists t' h, foldM (fun t c => x <- rd cts c ;; t <- foldM (fun t m => a <- at2 t (m, c) ;; set2 t (m + 1) c (n_ci x + a)) (rev (seq 0 (nm - 1))) t ;; set2 t 0 c (n_ci x)) (seq 0 k) t1 = Ret t' /\ mat t' (nm + 1) nc h /\ (forall i j, i < nm -> j < k -> h i j = n_ci (nth j cts z5) + sg (fun i => a i j) i) /\ forall i j, i < nm -> k <= j -> h i j = sg (fun i => a i j) (S i)).
  { induction k as [|k IH]; intros Hk.
    - eexists _, _. split; [reflexivity|]. split; [exact M1|]. split. intros; lia. intros i j Hi _. cbn beta. destruct (Nat.leb_spec i nm); auto. lia.
    - destruct IH as (t2 & h & E2 & M2 & A & B). lia. rewrite seq_S, foldM_app, E2. cbn [bind foldM Nat.add]. rewrite (rd_ok _ _ z5) by lia. cbn [bind]. destruct (IN2 k (n_ci (nth k cts z5)) ltac:(lia) (nm - 1) ltac:(lia) t2 h M2) as (t3 & E3 & M3). rewrite E3. cbn [bind]. destruct (set2_mat _ _ _ _ 0 k (n_ci (nth k cts z5)) M3) as (t4 & E4 & M4); try lia. rewrite E4. eexists _, _. split; [reflexivity|]. split; [exact M4|]. cbn beta. split.
      + intros i j Hi Hj. destruct (Nat.eqb_spec j k) as [->|NJ]; cbn [andb]; rewrite ?andb_false_r, ?andb_true_r. 2: apply A; lia. destruct (Nat.eqb_spec i 0) as [->|NI]. unfold sg. cbn. lia. destruct (Nat.leb_spec 1 i); [|lia]. destruct (Nat.leb_spec i (nm - 1)); [|lia]. cbn [andb]. rewrite B by lia. do 2 f_equal. lia.
      + intros i j Hi Hj. destruct (Nat.eqb_spec j k) as [->|NJ]; [lia|]. cbn [andb]; rewrite ?andb_false_r. apply B; lia. }
  destruct (O2 nc (Nat.le_refl _)) as (t2 & h & E2 & M2 & A & B). exists t2. split; auto. split; [apply M2|]. split; [apply M2|]. intros i j Hi Hj. destruct (Nat.ltb_spec i nm); auto. rewrite <- A by auto. apply M2; auto.
Qed.
