(** MapNodeData with nodes that several groups share but no member of some group has. *)
From Verif Require Import Base EQCModel ReduceModel UtilProofs EQCProofs EQCProofs2 EQCProofs3 EQCProps ReduceProofs ReduceProps AggMapModel AggMapProofs GCModel GCProofs GCProofs3 GCProps GEModel GEProofs GEProofs2 GESpec GECheck DataModel DataSpec DataProofs DataProofs2 DataProofs3.
Local Open Scope nat_scope.

Lemma first_rows rows : forall r n, length r = n -> (forall x, In x rows -> length x = n) -> length (fold_left first_value rows r) = n /\
  forall l x, l < n -> (forall a, In a (r :: rows) -> nth l a 0%Z = 0%Z \/ nth l a 0%Z = x) -> (x <> 0%Z -> exists a, In a (r :: rows) /\ nth l a 0%Z = x) -> nth l (fold_left first_value rows r) 0%Z = x.
Proof.
  induction rows as [|y rows IH]; intros r n L A.
  - split; auto. intros l x Hl B C. cbn [fold_left]. destruct (Z.eq_dec x 0) as [->|N]. destruct (B r); auto; now left. destruct (C N) as (a & [<-|[]] & Q). auto.
  - cbn [fold_left]. assert (LA : length (first_value r y) = n) by (unfold first_value; now rewrite map_length, seq_length). destruct (IH (first_value r y) n LA) as (B & C). intros; apply A; now right. split; auto. intros l x Hl D E. assert (F : nth l (first_value r y) 0%Z = if (nth l r 0 =? 0)%Z then nth l y 0%Z else nth l r 0%Z). { unfold first_value. rewrite (nth_map_ok _ _ _ 0) by (rewrite seq_length; lia). rewrite seq_nth by lia. reflexivity. }
    apply C; auto.
    + intros a [<-|X]. rewrite F. destruct (nth l r 0 =? 0)%Z; apply D. right; now left. now left. apply D. right; now right.
    + intros N. destruct (E N) as (a & X & Q). destruct X as [<-|[<-|X]].
      * exists (first_value r y). split. now left. rewrite F. destruct (Z.eqb_spec (nth l r 0%Z) 0); congruence.
      * exists (first_value r y). split. now left. rewrite F. destruct (Z.eqb_spec (nth l r 0%Z) 0); auto. destruct (D r) as [Z|Z]. now left. contradiction. exact Z.
      * exists a. split; auto. now right.
Qed.
Lemma put_ids_ok (T : list (nat * Z)) : forall (out : list Z) (ids : list nat) (row : list Z), length ids = length row -> (forall i, In i ids -> i < length out) ->
  foldM (fun out j => i <- rd ids j ;; x <- rd row j ;; wr out i x) (seq 0 (length ids)) out = Ret (puts out (combine ids row)).
Proof.
  intros out ids row L B. assert (G : forall n s out, (forall i, In i ids -> i < length out) -> s + n = length ids -> foldM (fun out j => i <- rd ids j ;; x <- rd row j ;; wr out i x) (seq s n) out = Ret (puts out (skipn s (combine ids row)))).
  { induction n as [|n IH]; intros s o B' E. cbn [seq foldM]. rewrite skipn_all2 by (rewrite combine_length; lia). reflexivity. cbn [seq foldM]. rewrite (rd_nth ids s 0), (rd_nth row s 0%Z) by lia. cbn [bind]. rewrite wr_ok by (apply B', nth_In; lia). cbn [bind]. rewrite IH by (try lia; intros; rewrite upd_length; auto).
    f_equal. replace (skipn s (combine ids row)) with ((nth s ids 0, nth s row 0%Z) :: skipn (S s) (combine ids row)). reflexivity. rewrite <- combine_nth by auto. clear - L E. assert (X : s < length (combine ids row)) by (rewrite combine_length; lia). clear L E. revert s X. induction (combine ids row) as [|p l IH]; intros s X. cbn in X. lia. destruct s as [|s]; cbn [skipn nth]; auto. rewrite <- IH. reflexivity. cbn in X. lia. }
  rewrite (G _ 0) by auto. reflexivity.
Qed.
Lemma sum_list_seq {A} (f : A -> Z) d l : sumZ (map f l) = sumZ (map (fun i => f (nth i l d)) (seq 0 (length l))).
Proof. f_equal. apply (nth_ext_eq _ _ 0%Z). now rewrite !map_length, seq_length. intros i Hi. rewrite map_length in Hi. rewrite (nth_map_ok _ _ _ d) by auto. rewrite (nth_map_ok _ _ _ 0) by now rewrite seq_length. now rewrite seq_nth. Qed.
Lemma sum_in_seq (f : nat -> Z) n : forall l, NoDup l -> (forall x, In x l -> x < n) -> (forall x, x < n -> ~ In x l -> f x = 0%Z) -> sumZ (map f l) = sumZ (map f (seq 0 n)).
Proof.
  intros l ND B Z. assert (P : Permutation (seq 0 n) (l ++ filter (fun x => negb (existsb (Nat.eqb x) l)) (seq 0 n))).
  { apply NoDup_Permutation. apply seq_NoDup. apply nodup_app; auto. apply NoDup_filter, seq_NoDup. intros x X Y. apply filter_In in Y as (_ & Y). rewrite negb_true_iff in Y. assert (Q : existsb (Nat.eqb x) l = true). { apply existsb_exists. exists x. split; auto. apply Nat.eqb_refl. } congruence.
    intros x. rewrite in_app_iff, filter_In, in_seq. split.
    - intros X. destruct (existsb (Nat.eqb x) l) eqn:E. left. apply existsb_exists in E as (y & Y & Q). apply Nat.eqb_eq in Q. now subst. right. split; auto.
    - intros [X|X]. specialize (B x X). lia. apply X. }
  rewrite (sumZ_map_perm f _ _ P), map_app, sumZ_app. rewrite (sumZ_zero f (filter _ _)). lia. intros x X. apply filter_In in X as (X1 & X2). apply in_seq in X1. apply Z. lia. intros Y. rewrite negb_true_iff in X2. assert (Q : existsb (Nat.eqb x) l = true). { apply existsb_exists. exists x. split; auto. apply Nat.eqb_refl. } congruence.
Qed.

Section Annoy.
  Variables (A : Type) (dec : forall x y : A, {x = y} + {x <> y}) (dA : A).
  Variables (CT : list (list (list nat))) (groups : list (list nat)) (maps : list (list (list (option nat)))) (NN : list nat) (data : list (list Z)) (np : nat) (n : nat -> nat) (im : nat -> nat -> nat -> nat).
  Variables (key : nat -> nat -> A) (nw : nat -> list A) (AGc : nat -> nat -> list A) (pos : nat -> nat -> nat -> nat).
  Notation ng := (length groups).
  Notation grp g := (nth g groups []).
  Notation CN g := (length (nth g CT [])).
  Hypothesis HW : world CT.
  Hypothesis HG : grouping np groups.
  Hypothesis HC : length CT = ng.
  Hypothesis M1 : length maps = ng.
  Hypothesis M2 : length NN = ng.
  Hypothesis M3 : forall g, g < ng -> length (nth g maps []) = length (grp g) /\ 0 < length (grp g).
  Hypothesis M4 : forall g k, g < ng -> k < length (grp g) -> rk groups g k < np /\ length (nth k (nth g maps []) []) = n (rk groups g k) /\ forall i, i < n (rk groups g k) -> nth i (nth k (nth g maps []) []) None = Some (im g k i) /\ im g k i < nth g NN 0.
  Hypothesis HD : length data = np.
  Hypothesis HN : forall q, q < np -> size data q = n q.
  Hypothesis N0 : forall g, g < ng -> nth g NN 0 = length (nw g).
  Hypothesis K1 : forall g k i, g < ng -> k < length (grp g) -> i < n (rk groups g k) -> nth (im g k i) (nw g) dA = key (rk groups g k) i.
  Hypothesis K2 : forall g, g < ng -> NoDup (nw g).
  Hypothesis P1 : forall g c l, g < ng -> c < CN g -> l < length (AGc g c) -> pos g c l < length (nw g) /\ nth (pos g c l) (nw g) dA = nth l (AGc g c) dA.
  Hypothesis Sh : forall g g' c c', g < ng -> g' < ng -> c < CN g -> c' < CN g' -> members g (row CT g c) = members g' (row CT g' c') -> AGc g c = AGc g' c'.
  Hypothesis Nd : forall g c, g < ng -> c < CN g -> NoDup (AGc g c).
  Hypothesis Cl : forall g c c' e, g < ng -> c < CN g -> c' < CN g -> In e (AGc g c) -> In e (AGc g c') -> c = c'.
  Hypothesis H4 : forall g c r i, g < ng -> c < CN g -> r < np -> i < n r -> In (key r i) (AGc g c) -> exists q, In q (members g (row CT g c)) /\ In r (grp q).
  Definition ann : list (list (list nat)) := map (fun g => map (fun c => map (pos g c) (seq 0 (length (AGc g c)))) (seq 0 (CN g))) (seq 0 ng).
  Notation outs := (outs groups NN data im).
  Definition here (e : A) (r i : nat) : Z := if dec (key r i) e then val data r i else 0%Z.
  Definition Fsum (e : A) : Z := sumZ (map (fun r => sumZ (map (here e r) (seq 0 (n r)))) (seq 0 np)).
  (** position of [e] *)
  Lemma part_sum g p : g < ng -> p < length (nw g) -> nth p (outs true g) 0%Z = sumZ (map (fun k => sumZ (map (here (nth p (nw g) dA) (rk groups g k)) (seq 0 (n (rk groups g k))))) (seq 0 (length (grp g)))).
  Proof.
    intros Hg Hp. rewrite (outs_dist groups maps NN data np n im M1 M2 M3 M4 HD HN) by auto. apply sumZ_ext. intros k K. apply in_seq in K. apply sumZ_ext. intros i I. apply in_seq in I. unfold here. destruct (M4 g k) as (_ & _ & X); try lia. destruct (X i) as (_ & X2); [lia|]. rewrite N0 in X2 by auto. destruct (dec (key (rk groups g k) i) (nth p (nw g) dA)) as [Q|Q].
    - rewrite <- K1 in Q by (auto; lia). apply (proj1 (NoDup_nth (nw g) dA) (K2 g Hg)) in Q; auto. now rewrite Q, Nat.eqb_refl.
    - destruct (Nat.eqb_spec (im g k i) p) as [<-|]; auto. exfalso. apply Q. rewrite K1; auto; lia.
  Qed.
  Lemma part_cum g p x : g < ng -> p < length (nw g) -> (forall r i, r < np -> i < n r -> key r i = nth p (nw g) dA -> val data r i = x) ->
    (nth p (outs false g) 0%Z = 0%Z \/ nth p (outs false g) 0%Z = x) /\ forall k i, k < length (grp g) -> i < n (rk groups g k) -> key (rk groups g k) i = nth p (nw g) dA -> nth p (outs false g) 0%Z = x.
  Proof.
    intros Hg Hp U. assert (B : forall k i, k < length (grp g) -> i < n (rk groups g k) -> key (rk groups g k) i = nth p (nw g) dA -> nth p (outs false g) 0%Z = x).
    { intros k i Hk Hi Q. destruct (M4 g k Hg Hk) as (Hr & _ & X). destruct (X i Hi) as (_ & X2). rewrite N0 in X2 by auto. assert (E : im g k i = p). { apply (proj1 (NoDup_nth (nw g) dA) (K2 g Hg)); auto. rewrite K1; auto. } rewrite <- E. rewrite <- (U _ i Hr Hi Q). apply (outs_cum groups maps NN data np n im); auto. intros k' i' Hk' Hi' Q'. destruct (M4 g k' Hg Hk') as (Hr' & _). rewrite (U _ i Hr Hi Q). apply U; auto. rewrite <- K1 by auto. now rewrite Q', E. }
    split; auto. destruct (In_dec (list_eq_dec Nat.eq_dec) [p] (flat_map (fun k => map (fun i => [im g k i]) (seq 0 (n (rk groups g k)))) (seq 0 (length (grp g))))) as [X|X].
    - right. apply in_flat_map in X as (k & K & X). apply in_seq in K. apply in_map_iff in X as (i & Q & I). apply in_seq in I. injection Q as Q. apply (B k i); try lia. rewrite <- K1 by (auto; lia). now rewrite Q.
    - left. apply (outs_none groups maps NN data np n im M1 M2 M3 M4 HD HN); auto. intros k i Hk Hi Q. apply X. apply in_flat_map. exists k. split. apply in_seq. lia. apply in_map_iff. exists i. split. now rewrite Q. apply in_seq. lia.
  Qed.
  Lemma outs_len d g : length (outs d g) = nth g NN 0. Proof. apply outs_length. Qed.
  Definition tabs (d : bool) (g : nat) : list (list Z) := map (fun c => map (fun l => nth (pos g c l) (outs d g) 0%Z) (seq 0 (length (AGc g c)))) (seq 0 (CN g)).
  Definition class_of (g c : nat) : list nat := members g (row CT g c).
  Lemma cls_group g c q : g < ng -> c < CN g -> In q (class_of g c) -> q < ng /\ cidx CT q (class_of g c) < CN q /\ class_of q (cidx CT q (class_of g c)) = class_of g c.
  Proof. intros Hg Hc X. destruct (cls_mem CT HW g c q ltac:(lia) Hc X) as (Q1 & Q2). rewrite HC in Q1. destruct (cidx_ok CT q (class_of g c) Q2) as (Q3 & Q4). auto. Qed.
  (** value of node [l] of class [c] after the exchange *)
  Lemma row_value (d : bool) g c l (x : Z) : g < ng -> c < CN g -> l < length (AGc g c) ->
    (if d then x = Fsum (nth l (AGc g c) dA) else (forall r i, r < np -> i < n r -> key r i = nth l (AGc g c) dA -> val data r i = x) /\ (x <> 0%Z -> exists r i, r < np /\ i < n r /\ key r i = nth l (AGc g c) dA)) ->
    nth l (reduce_values d (map (fun q => nth (cidx CT q (class_of g c)) (tabs d q) []) (class_of g c))) 0%Z = x /\
    length (reduce_values d (map (fun q => nth (cidx CT q (class_of g c)) (tabs d q) []) (class_of g c))) = length (AGc g c).
  Proof.
    intros Hg Hc Hl X. set (D := class_of g c) in *. set (e := nth l (AGc g c) dA) in *.
    assert (E : forall q, In q D -> nth (cidx CT q D) (tabs d q) [] = map (fun l => nth (pos q (cidx CT q D) l) (outs d q) 0%Z) (seq 0 (length (AGc g c)))). { intros q Q. destruct (cls_group g c q Hg Hc Q) as (Q1 & Q2 & Q3). fold D in Q2, Q3. unfold tabs. rewrite (nth_map_ok _ _ _ 0) by (now rewrite seq_length). rewrite seq_nth by auto. cbn [Nat.add]. rewrite (Sh q g _ c) by auto. reflexivity. }
    assert (EV : forall q, In q D -> nth l (nth (cidx CT q D) (tabs d q) []) 0%Z = nth (pos q (cidx CT q D) l) (outs d q) 0%Z). { intros q Q. rewrite E by auto. rewrite (nth_map_ok _ _ _ 0) by now rewrite seq_length. now rewrite seq_nth. }
    assert (PO : forall q, In q D -> q < ng /\ pos q (cidx CT q D) l < length (nw q) /\ nth (pos q (cidx CT q D) l) (nw q) dA = e). { intros q Q. destruct (cls_group g c q Hg Hc Q) as (Q1 & Q2 & Q3). fold D in Q2, Q3. assert (S1 : AGc q (cidx CT q D) = AGc g c) by (apply Sh; auto). destruct (P1 q _ l Q1 Q2) as (B1 & B2). now rewrite S1. rewrite S1 in B2. auto. }
    assert (EL : forall y, In y (map (fun q => nth (cidx CT q D) (tabs d q) []) D) -> length y = length (AGc g c)). { intros y Y. apply in_map_iff in Y as (q & <- & Q). rewrite E by auto. now rewrite map_length, seq_length. }
    assert (SD : sset D). { destruct (w_row CT HW g (row CT g c)) as (S1 & S2 & _). lia. now apply nth_In. apply members_sset; auto. }
    assert (HQ : forall r i, r < np -> i < n r -> key r i = e -> exists q, In q D /\ In r (grp q)). { intros r i Hr Hi Q. apply (H4 g c r i); auto. rewrite Q. now apply nth_In. }
    destruct D as [|q0 D'] eqn:ED. { exfalso. assert (Y : In g []) by (rewrite <- ED; apply in_members; now left). destruct Y. } cbn [map] in *. unfold reduce_values. destruct d.
    - destruct (sum_rows (map (fun q => nth (cidx CT q (q0 :: D')) (tabs true q) []) D') (nth (cidx CT q0 (q0 :: D')) (tabs true q0) []) (length (AGc g c))) as (R1 & R2). apply EL; now left. intros; apply EL; now right. split; auto. rewrite R2 by auto. subst x. rewrite <- (map_cons (fun q => nth (cidx CT q (q0 :: D')) (tabs true q) [])). rewrite map_map.
      rewrite (sumZ_ext _ (fun q => sumZ (map (fun k => sumZ (map (here e (rk groups q k)) (seq 0 (n (rk groups q k))))) (seq 0 (length (grp q)))))). 2: { intros q Q. rewrite EV by auto. destruct (PO q Q) as (O1 & O2 & O3). rewrite part_sum by auto. now rewrite O3. }
      rewrite (sum_in_seq _ ng). exact (sum_groups np groups (fun r => sumZ (map (here e r) (seq 0 (n r)))) HG). now apply sset_nodup. intros q Q. now apply PO. intros q Hq NQ. apply sumZ_zero. intros k K. apply in_seq in K. apply sumZ_zero. intros i I. apply in_seq in I. unfold here. destruct (dec (key (rk groups q k) i) e) as [Q|]; auto. exfalso. apply NQ. destruct (M4 q k Hq) as (Hr & _); [lia|]. destruct (HQ _ i Hr) as (q' & Q1 & Q2); [lia|auto|]. rewrite (gr_one _ _ HG q q' (rk groups q k)); auto. now apply PO. apply nth_In. lia.
    - destruct X as (X1 & X2). destruct (first_rows (map (fun q => nth (cidx CT q (q0 :: D')) (tabs false q) []) D') (nth (cidx CT q0 (q0 :: D')) (tabs false q0) []) (length (AGc g c))) as (R1 & R2). apply EL; now left. intros; apply EL; now right. split; auto. apply R2; auto.
      + intros a Y. rewrite <- (map_cons (fun q => nth (cidx CT q (q0 :: D')) (tabs false q) [])) in Y. apply in_map_iff in Y as (q & <- & Q). rewrite EV by auto. destruct (PO q Q) as (O1 & O2 & O3). apply part_cum; auto. now rewrite O3.
      + intros N. destruct (X2 N) as (r & i & Hr & Hi & Q). destruct (HQ r i Hr Hi Q) as (q & Q1 & Q2). exists (nth (cidx CT q (q0 :: D')) (tabs false q) []). split. rewrite <- (map_cons (fun q => nth (cidx CT q (q0 :: D')) (tabs false q) [])). now apply in_map with (f := fun q => nth (cidx CT q (q0 :: D')) (tabs false q) []). rewrite EV by auto. destruct (PO q Q1) as (O1 & O2 & O3). destruct (In_nth _ _ 0 Q2) as (k & Hk & Ek). destruct (part_cum q (pos q (cidx CT q (q0 :: D')) l) x O1 O2) as (_ & PC). now rewrite O3. apply (PC k i); auto. now rewrite Ek. rewrite Ek. now rewrite O3.
  Qed.
  Definition agree : Prop := forall r i r' i', r < np -> r' < np -> i < n r -> i' < n r' -> key r i = key r' i' -> val data r i = val data r' i'.
  Hypothesis Fr : forall g c l, g < ng -> c < CN g -> l < length (AGc g c) -> exists r i, r < np /\ i < n r /\ key r i = nth l (AGc g c) dA.
  Definition holds (d : bool) (e : A) (x : Z) : Prop := if d then x = Fsum e else forall r i, r < np -> i < n r -> key r i = e -> val data r i = x.
  Theorem MapNodeData_annoy d : (d = false -> agree) ->
    exists out, MapNodeData CT groups NN maps ann d data = Ret out /\ length out = ng /\
      forall g, g < ng -> length (nth g out []) = length (nw g) /\ (forall c l, c < CN g -> l < length (AGc g c) -> holds d (nth l (AGc g c) dA) (val out g (pos g c l))) /\
        forall p, p < length (nw g) -> (forall c l, c < CN g -> l < length (AGc g c) -> pos g c l <> p) -> val out g p = nth p (outs d g) 0%Z.
  Proof.
    intros AGR. unfold MapNodeData.
    rewrite (mapM_map _ (outs d)). 2: { intros g X. apply in_seq in X. apply (members_ok groups maps NN data np n im); auto. lia. } cbn [bind].
    set (o1 := map (outs d) (seq 0 ng)). assert (RO : forall g, g < ng -> rd o1 g = Ret (outs d g)). { intros g Hg. rewrite (rd_nth o1 g []) by (unfold o1; now rewrite map_length, seq_length). unfold o1. rewrite (nth_map_ok _ _ _ 0) by now rewrite seq_length. now rewrite seq_nth. }
    set (ag := fun g => map (fun c => map (pos g c) (seq 0 (length (AGc g c)))) (seq 0 (CN g))). assert (RA : forall g, g < ng -> rd ann g = Ret (ag g)). { intros g Hg. rewrite (rd_nth ann g []) by (unfold ann; now rewrite map_length, seq_length). unfold ann. rewrite (nth_map_ok _ _ _ 0) by now rewrite seq_length. now rewrite seq_nth. }
    rewrite (mapM_map _ (tabs d)). 2: { intros g X. apply in_seq in X. rewrite RA, RO by lia. cbn [bind]. unfold ag, tabs. rewrite (mapM_map _ (map (fun i => nth i (outs d g) 0%Z))). now rewrite map_map; f_equal; apply map_ext; intros c; rewrite map_map. intros a Y. apply in_map_iff in Y as (c & <- & Y). apply in_seq in Y. apply mapM_map. intros i I. apply in_map_iff in I as (l & <- & I). apply in_seq in I. apply rd_nth. rewrite outs_len, N0 by lia. apply P1; lia. } cbn [bind].
    assert (E0 : map (fun x : list (list nat) * list (list nat) => if length (snd x) =? 0 then [] else fst x) (combine CT ann) = CT).
    { apply (nth_ext_eq _ _ []). unfold ann. rewrite map_length, combine_length, map_length, seq_length. lia. intros g Hg. rewrite map_length in Hg. assert (LC : length CT = length ann) by (unfold ann; now rewrite map_length, seq_length). rewrite (nth_map_ok _ _ _ ([], [])) by auto. rewrite combine_nth by auto. cbn [fst snd]. rewrite combine_length, <- LC, Nat.min_id, HC in Hg. pose proof (RA g Hg) as Q. rewrite (rd_nth ann g []) in Q by lia. injection Q as Q. rewrite Q. unfold ag. rewrite map_length, seq_length. destruct (Nat.eqb_spec (CN g) 0) as [Z|]; auto. destruct (nth g CT []); auto. discriminate. }
    rewrite E0. set (tb := map (tabs d) (seq 0 ng)). assert (RT : forall g, g < ng -> nth g tb [] = tabs d g). { intros g Hg. unfold tb. rewrite (nth_map_ok _ _ _ 0) by now rewrite seq_length. now rewrite seq_nth. }
    assert (TL : forall r, r < length CT -> length (nth r tb []) = length (nth r CT [])). { intros r Hr. rewrite RT by lia. unfold tabs. now rewrite map_length, seq_length. } destruct (reduce_some CT CT (fun _ => false) tb (fun _ _ rows => reduce_values d rows) HW eq_refl (fun _ _ => eq_refl) (fun _ _ _ _ _ _ _ => eq_refl)) as (red & ER & LR & LR2 & VR); auto. { unfold tb. now rewrite map_length, seq_length. }
    rewrite ER. cbn [bind].
    assert (RR : forall g c, g < ng -> c < CN g -> row red g c = reduce_values d (map (fun q => nth (cidx CT q (class_of g c)) (tabs d q) []) (class_of g c))). { intros g c Hg Hc. destruct (VR g c) as (m & km & Q); auto. lia. rewrite Q. f_equal. apply map_ext_in. intros q X. rewrite RT; auto. now apply (cls_group g c). }
    assert (RV : forall g c l, g < ng -> c < CN g -> l < length (AGc g c) -> holds d (nth l (AGc g c) dA) (nth l (row red g c) 0%Z) /\ length (row red g c) = length (AGc g c)).
    { intros g c l Hg Hc Hl. rewrite RR by auto. destruct d.
      - destruct (row_value true g c l _ Hg Hc Hl eq_refl) as (A1 & A2). auto.
      - destruct (Fr g c l Hg Hc Hl) as (r & i & Hr & Hi & Q). destruct (row_value false g c l (val data r i) Hg Hc Hl) as (A1 & A2). split. intros r' i' Hr' Hi' Q'. apply AGR; auto. congruence. intros _. exists r, i. auto. split; auto. rewrite A1. intros r' i' Hr' Hi' Q'. apply AGR; auto. congruence. }
    assert (RL : forall g c, g < ng -> c < CN g -> length (row red g c) = length (AGc g c)). { intros g c Hg Hc. destruct (AGc g c) as [|a l0] eqn:EA. 2: { rewrite <- EA. apply (RV g c 0); auto. rewrite EA. cbn. lia. } rewrite RR by auto. unfold reduce_values. assert (Z : forall q, In q (class_of g c) -> nth (cidx CT q (class_of g c)) (tabs d q) [] = []). { intros q Q. destruct (cls_group g c q Hg Hc Q) as (Q1 & Q2 & Q3). unfold tabs. rewrite (nth_map_ok _ _ _ 0) by (now rewrite seq_length). rewrite seq_nth by auto. cbn [Nat.add]. rewrite (Sh q g _ c) by auto. now rewrite EA. }
      destruct (class_of g c) as [|q0 D'] eqn:ED; auto. cbn [map]. destruct d. apply (sum_rows _ _ 0). rewrite Z. auto. now left. intros x X. apply in_map_iff in X as (q & <- & X). rewrite Z; auto. now right. apply (first_rows _ _ 0). rewrite Z. auto. now left. intros x X. apply in_map_iff in X as (q & <- & X). rewrite Z; auto. now right. }
    set (src := fun g => flat_map (fun c => combine (map (pos g c) (seq 0 (length (AGc g c)))) (row red g c)) (seq 0 (CN g))).
    exists (map (fun g => puts (outs d g) (src g)) (seq 0 ng)). split; [|split].
    - apply mapM_map. intros g X. apply in_seq in X. rewrite RA, RO by lia. cbn [bind]. rewrite (rd_nth red g []) by lia. cbn [bind]. unfold ag at 2. rewrite map_length, seq_length.
      assert (G : forall cs, (forall c, In c cs -> c < CN g) -> forall av, length av = length (nw g) -> foldM (fun out c => ids <- rd (ag g) c ;; row <- rd (nth g red []) c ;; foldM (fun out j => i <- rd ids j ;; x <- rd row j ;; wr out i x) (seq 0 (length ids)) out) cs av = Ret (puts av (flat_map (fun c => combine (map (pos g c) (seq 0 (length (AGc g c)))) (row red g c)) cs))).
      { induction cs as [|c cs IH]; intros B av LA; auto. assert (Hc : c < CN g) by (apply B; now left). cbn [foldM flat_map]. rewrite (rd_nth (ag g) c []) by (unfold ag; now rewrite map_length, seq_length). rewrite (rd_nth (nth g red []) c []) by (rewrite LR2; lia). cbn [bind]. replace (nth c (ag g) []) with (map (pos g c) (seq 0 (length (AGc g c)))). 2: { unfold ag. rewrite (nth_map_ok _ _ _ 0) by now rewrite seq_length. now rewrite seq_nth. } rewrite (put_ids_ok []). cbn [bind]. rewrite IH. now rewrite puts_app. intros; apply B; now right. now rewrite puts_length. rewrite map_length, seq_length. symmetry. apply RL; auto; lia. intros i I. apply in_map_iff in I as (l & <- & I). apply in_seq in I. rewrite LA. apply P1; auto; lia. }
      apply G. intros c C. apply in_seq in C. lia. rewrite outs_len. apply N0. lia.
    - now rewrite map_length, seq_length.
    - intros g Hg. assert (EO : nth g (map (fun g => puts (outs d g) (src g)) (seq 0 ng)) [] = puts (outs d g) (src g)) by (rewrite (nth_map_ok _ _ _ 0) by (now rewrite seq_length); now rewrite seq_nth). unfold val. rewrite EO. split. rewrite puts_length, outs_len. auto.
      assert (SI : forall q, In q (src g) <-> exists c l, c < CN g /\ l < length (AGc g c) /\ q = (pos g c l, nth l (row red g c) 0%Z)).
      { intros q. unfold src. rewrite in_flat_map. split.
        - intros (c & C & X). apply in_seq in C. destruct (In_nth _ _ (0, 0%Z) X) as (l & Hl & <-). rewrite combine_length, map_length, seq_length, RL, Nat.min_id in Hl by lia. exists c, l. split. lia. split; auto. rewrite combine_nth by (rewrite map_length, seq_length; symmetry; apply RL; lia). f_equal. rewrite (nth_map_ok _ _ _ 0) by now rewrite seq_length. now rewrite seq_nth.
        - intros (c & l & Hc & Hl & ->). exists c. split. apply in_seq. lia. replace (pos g c l) with (nth l (map (pos g c) (seq 0 (length (AGc g c)))) 0). 2: { rewrite (nth_map_ok _ _ _ 0) by now rewrite seq_length. now rewrite seq_nth. } rewrite <- combine_nth by (rewrite map_length, seq_length; symmetry; now apply RL). apply nth_In. rewrite combine_length, map_length, seq_length, RL by auto. lia. }
      split.
      + intros c l Hc Hl. destruct (RV g c l Hg Hc Hl) as (V1 & _). replace (nth (pos g c l) (puts (outs d g) (src g)) 0%Z) with (nth l (row red g c) 0%Z); auto. symmetry. apply puts_in.
        * intros q Q. apply SI in Q as (c' & l' & Hc' & Hl' & ->). rewrite outs_len, N0 by auto. now apply P1.
        * intros y Q. apply SI in Q as (c' & l' & Hc' & Hl' & Q). injection Q as Q ->. destruct (P1 g c l Hg Hc Hl) as (_ & B). destruct (P1 g c' l' Hg Hc' Hl') as (_ & B'). assert (EC : c = c'). { apply (Cl g c c' (nth l (AGc g c) dA)); auto. now apply nth_In. rewrite <- B, Q, B'. now apply nth_In. } subst c'. f_equal. apply (proj1 (NoDup_nth _ dA) (Nd g c Hg Hc)); auto. rewrite <- B, <- B'. now rewrite Q.
        * apply in_map_iff. exists (pos g c l, nth l (row red g c) 0%Z). split; auto. apply SI. exists c, l. auto.
      + intros p Hp NP. apply puts_not. { intros q Q. apply SI in Q as (c' & l' & Hc' & Hl' & ->). rewrite outs_len, N0 by auto. now apply P1. } intros X. apply in_map_iff in X as (q & Q & X). apply SI in X as (c & l & Hc & Hl & ->). exact (NP c l Hc Hl Q).
  Qed.
End Annoy.
