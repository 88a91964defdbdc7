(** MapNodeData: the data of the members. *)
From Verif Require Import Base EQCModel ReduceModel UtilProofs EQCProofs EQCProofs2 EQCProofs3 EQCProps ReduceProps GCModel GCProofs GCProofs3 GCProps GEModel GESpec GECheck DataModel DataSpec DataProofs DataProofs2.
Local Open Scope nat_scope.

Lemma sumZ_map_perm {A} (f : A -> Z) l l' : Permutation l l' -> sumZ (map f l) = sumZ (map f l').
Proof. intros P. apply sumZ_perm. now apply Permutation_map. Qed.
Lemma last_first n : 0 < n -> Permutation (seq 1 (n - 1) ++ [0]) (seq 0 n).
Proof. intros Hn. destruct n as [|n]; [lia|]. cbn [seq]. replace (S n - 1) with n by lia. apply Permutation_sym, Permutation_cons_append. Qed.
(** a node and its value *)
Definition pairs (f : nat -> nat) (buf : list Z) : list (nat * Z) := map (fun i => (f i, nth i buf 0%Z)) (seq 0 (length buf)).
Definition put_all (dist : bool) (av : list Z) (l : list (nat * Z)) : list Z := if dist then adds av l else puts av l.
Lemma put_all_length d av l : length (put_all d av l) = length av. Proof. destruct d. apply adds_length. apply puts_length. Qed.
Lemma put_all_app d av l l' : put_all d av (l ++ l') = put_all d (put_all d av l) l'. Proof. destruct d. apply adds_app. apply puts_app. Qed.
Lemma put_values_ok d m buf f out : length m = length buf -> (forall i, i < length m -> nth i m None = Some (f i) /\ f i < length out) -> put_values d m buf out = Ret (put_all d out (pairs f buf)).
Proof.
  intros L X. unfold put_values, pairs. rewrite L in *. assert (G : forall ks, (forall k, In k ks -> k < length buf) -> forall av, length av = length out ->
    foldM (fun out k => i <- map_at m k ;; x <- rd buf k ;; if d then y <- rd out i ;; wr out i (y + x)%Z else wr out i x) ks av = Ret (put_all d av (map (fun i => (f i, nth i buf 0%Z)) ks))).
  { induction ks as [|k ks IH]; intros B av LA. destruct d; auto. assert (Hk : k < length buf) by (apply B; now left). destruct (X k Hk) as (X1 & X2). cbn [foldM]. unfold map_at at 1. rewrite (rd_nth m k None) by lia. cbn [bind]. rewrite X1. cbn [bind]. rewrite (rd_nth buf k 0%Z) by auto. cbn [bind]. destruct d.
    - rewrite (rd_nth av (f k) 0%Z) by lia. cbn [bind]. rewrite wr_ok by lia. cbn [bind]. rewrite IH; auto. intros; apply B; now right. now rewrite upd_length.
    - rewrite wr_ok by lia. cbn [bind]. rewrite IH; auto. intros; apply B; now right. now rewrite upd_length. }
  apply G; auto. intros k K. apply in_seq in K. lia.
Qed.
Lemma pairs_in f buf p : In p (pairs f buf) -> exists i, i < length buf /\ p = (f i, nth i buf 0%Z).
Proof. intros X. apply in_map_iff in X as (i & <- & X). apply in_seq in X. exists i. split; auto. lia. Qed.

Section Members.
  Variables (groups : list (list nat)) (maps : list (list (list (option nat)))) (NN : list nat) (data : list (list Z)) (np : nat) (n : nat -> nat) (im : nat -> nat -> nat -> nat).
  Notation ng := (length groups).
  Notation grp g := (nth g groups []).
  Hypothesis M1 : length maps = ng.
  Hypothesis M2 : length NN = ng.
  Hypothesis M3 : forall g, g < ng -> length (nth g maps []) = length (grp g) /\ 0 < length (grp g).
  Hypothesis M4 : forall g k, g < ng -> k < length (grp g) -> rk groups g k < np /\ length (nth k (nth g maps []) []) = n (rk groups g k) /\ forall i, i < n (rk groups g k) -> nth i (nth k (nth g maps []) []) None = Some (im g k i) /\ im g k i < nth g NN 0.
  Hypothesis HD : length data = np.
  Hypothesis HN : forall q, q < np -> size data q = n q.
  Definition outs (d : bool) (g : nat) : list Z := put_all d (repeat 0%Z (nth g NN 0)) (flat_map (fun k => pairs (im g k) (nth (rk groups g k) data [])) (seq 1 (length (grp g) - 1) ++ [0])).
  Lemma outs_length d g : length (outs d g) = nth g NN 0. Proof. unfold outs. now rewrite put_all_length, repeat_length. Qed.
  Lemma members_ok d g : g < ng -> (grp <- rd groups g ;; n <- rd NN g ;; m <- rd maps g ;; bufs <- mapM (rd data) grp ;; map_members d n m bufs) = Ret (outs d g).
  Proof.
    intros Hg. destruct (M3 g Hg) as (L1 & L2). rewrite (rd_nth groups g []), (rd_nth NN g 0), (rd_nth maps g []) by lia. cbn [bind]. rewrite (mapM_map _ (fun r => nth r data [])). 2: { intros r X. destruct (In_nth _ _ 0 X) as (k & Hk & <-). apply rd_nth. rewrite HD. now apply (M4 g k). } cbn [bind]. unfold map_members, outs.
    assert (G : forall ks, (forall k, In k ks -> k < length (grp g)) -> forall av, length av = nth g NN 0 -> foldM (fun out k => m <- rd (nth g maps []) k ;; b <- rd (map (fun r => nth r data []) (grp g)) k ;; put_values d m b out) ks av = Ret (put_all d av (flat_map (fun k => pairs (im g k) (nth (rk groups g k) data [])) ks))).
    { induction ks as [|k ks IH]; intros B av LA. destruct d; auto. assert (Hk : k < length (grp g)) by (apply B; now left). cbn [foldM flat_map]. rewrite (rd_nth _ k []) by lia. cbn [bind]. rewrite (rd_nth _ k []) by now rewrite map_length. cbn [bind]. rewrite (nth_map_ok _ _ _ 0) by auto. destruct (M4 g k Hg Hk) as (A1 & A2 & A3). assert (LB : length (nth (rk groups g k) data []) = n (rk groups g k)) by (apply HN; auto).
      rewrite (put_values_ok d _ _ (im g k)). cbn [bind]. rewrite IH. now rewrite put_all_app. intros; apply B; now right. now rewrite put_all_length. rewrite A2. symmetry. exact LB. intros i Hi. rewrite LA. apply A3. now rewrite A2 in Hi. }
    rewrite L1. apply G. intros k X. apply in_app_or in X as [X|[<-|[]]]; auto. apply in_seq in X. lia. now rewrite repeat_length.
  Qed.
  Lemma src_in g p : g < ng -> In p (flat_map (fun k => pairs (im g k) (nth (rk groups g k) data [])) (seq 1 (length (grp g) - 1) ++ [0])) <-> exists k i, k < length (grp g) /\ i < n (rk groups g k) /\ p = (im g k i, val data (rk groups g k) i).
  Proof.
    intros Hg. destruct (M3 g Hg) as (L1 & L2). rewrite in_flat_map. split.
    - intros (k & K & X). apply pairs_in in X as (i & Hi & ->). assert (Hk : k < length (grp g)). { apply in_app_or in K as [K|[<-|[]]]; auto. apply in_seq in K. lia. } exists k, i. split; auto. split; auto. change (i < size data (rk groups g k)) in Hi. rewrite HN in Hi; auto. now apply (M4 g k).
    - intros (k & i & Hk & Hi & ->). exists k. split. apply (Permutation_in _ (Permutation_sym (last_first _ L2))). apply in_seq. lia. unfold pairs. apply in_map_iff. exists i. split; auto. apply in_seq. change (0 <= i < 0 + size data (rk groups g k)). rewrite HN; auto. lia. now apply (M4 g k).
  Qed.
  (** cumulated: the value of any member *)
  Lemma outs_cum g k i : g < ng -> k < length (grp g) -> i < n (rk groups g k) -> (forall k' i', k' < length (grp g) -> i' < n (rk groups g k') -> im g k' i' = im g k i -> val data (rk groups g k') i' = val data (rk groups g k) i) -> nth (im g k i) (outs false g) 0%Z = val data (rk groups g k) i.
  Proof.
    intros Hg Hk Hi U. unfold outs, put_all. apply puts_in.
    - intros p X. apply (src_in g p Hg) in X as (k' & i' & Hk' & Hi' & ->). rewrite repeat_length. now apply (M4 g k' Hg Hk').
    - intros y X. apply (src_in g _ Hg) in X as (k' & i' & Hk' & Hi' & Q). injection Q as Q ->. now apply U.
    - apply in_map_iff. exists (im g k i, val data (rk groups g k) i). split; auto. apply (src_in g _ Hg). exists k, i. auto.
  Qed.
  Lemma outs_none (d : bool) g p : g < ng -> (forall k i, k < length (grp g) -> i < n (rk groups g k) -> im g k i <> p) -> nth p (outs d g) 0%Z = 0%Z.
  Proof.
    intros Hg U. assert (R : nth p (repeat 0%Z (nth g NN 0)) 0%Z = 0%Z). { destruct (Nat.lt_ge_cases p (nth g NN 0)). now rewrite nth_repeat. apply nth_overflow. now rewrite repeat_length. } assert (B : forall q, In q (flat_map (fun k => pairs (im g k) (nth (rk groups g k) data [])) (seq 1 (length (grp g) - 1) ++ [0])) -> fst q < length (repeat 0%Z (nth g NN 0)) /\ fst q <> p). { intros q X. apply (src_in g _ Hg) in X as (k' & i' & Hk' & Hi' & ->). rewrite repeat_length. split. now apply (M4 g k' Hg Hk'). now apply U. }
    unfold outs, put_all. destruct d.
    - rewrite adds_nth by (intros; now apply B). rewrite R, sumZ_zero. auto. intros q X. destruct (Nat.eqb_spec (fst q) p) as [Q|]; auto. destruct (proj2 (B q X) Q).
    - rewrite puts_not. auto. intros; now apply B. intros X. apply in_map_iff in X as (q & Q & X). exact (proj2 (B q X) Q).
  Qed.
  (** distributed: the sum of the values of the members *)
  Lemma outs_dist g p : g < ng -> nth p (outs true g) 0%Z = sumZ (map (fun k => sumZ (map (fun i => if im g k i =? p then val data (rk groups g k) i else 0%Z) (seq 0 (n (rk groups g k))))) (seq 0 (length (grp g)))).
  Proof.
    intros Hg. destruct (M3 g Hg) as (L1 & L2). unfold outs, put_all. rewrite adds_nth. 2: { intros q X. apply (src_in g _ Hg) in X as (k' & i' & Hk' & Hi' & ->). rewrite repeat_length. now apply (M4 g k' Hg Hk'). }
    assert (R : nth p (repeat 0%Z (nth g NN 0)) 0%Z = 0%Z). { destruct (Nat.lt_ge_cases p (nth g NN 0)). now rewrite nth_repeat. apply nth_overflow. now rewrite repeat_length. } rewrite R, Z.add_0_l. rewrite <- (sumZ_map_perm _ _ _ (last_first _ L2)).
    assert (G : forall ks, (forall k, In k ks -> k < length (grp g)) -> sumZ (map (fun q : nat * Z => if (fst q =? p)%nat then snd q else 0%Z) (flat_map (fun k => pairs (im g k) (nth (rk groups g k) data [])) ks)) = sumZ (map (fun k => sumZ (map (fun i => if im g k i =? p then val data (rk groups g k) i else 0%Z) (seq 0 (n (rk groups g k))))) ks)).
    { induction ks as [|k ks IH]; intros B; auto. cbn [flat_map map]. rewrite map_app, sumZ_app, IH by (intros; apply B; now right). cbn [sumZ fold_right]. f_equal. unfold pairs. rewrite map_map. cbn [fst snd]. change (length (nth (rk groups g k) data [])) with (size data (rk groups g k)). rewrite HN. auto. apply (M4 g k Hg). apply B. now left. }
    apply G. intros k X. apply in_app_or in X as [X|[<-|[]]]; auto. apply in_seq in X. lia.
  Qed.
End Members.
(** sum over the members of all groups *)
Lemma sum_groups np groups (f : nat -> Z) : grouping np groups -> sumZ (map (fun g => sumZ (map (fun k => f (rk groups g k)) (seq 0 (length (nth g groups []))))) (seq 0 (length groups))) = sumZ (map f (seq 0 np)).
Proof.
  intros G. transitivity (sumZ (map f (concat groups))).
  - assert (E : forall (A B : Type) (h : A -> B) (l : list A) d, map (fun i => h (nth i l d)) (seq 0 (length l)) = map h l). { intros A B h l d. induction l as [|a l IH]; auto. cbn [length seq map nth]. f_equal. rewrite <- seq_shift, map_map. exact IH. }
    transitivity (sumZ (map (fun l => sumZ (map f l)) groups)). rewrite <- (E _ _ (fun l => sumZ (map f l)) groups []). apply sumZ_ext. intros g _. f_equal. apply (E _ _ f (nth g groups []) 0). clear. induction groups as [|l gs IH]; auto. cbn [concat map]. rewrite map_app, sumZ_app, <- IH. reflexivity.
  - apply sumZ_map_perm. apply NoDup_Permutation; [|apply seq_NoDup|].
    + assert (E : concat groups = flat_map (fun g => nth g groups []) (seq 0 (length groups))). { rewrite flat_map_concat_map. f_equal. clear. induction groups as [|l gs IH]; auto. cbn [length seq map nth]. f_equal. rewrite <- seq_shift, map_map. exact IH. } rewrite E. apply nodup_flat. apply seq_NoDup. intros g X. apply in_seq in X. apply sset_nodup. apply (gr_sorted _ _ G). lia.
      intros g g' x X X' Y Y'. apply in_seq in X, X'. apply (gr_one _ _ G g g' x); auto; lia.
    + intros x. rewrite in_seq, in_concat. split. intros (l & L & X). destruct (In_nth _ _ [] L) as (g & Hg & <-). pose proof (gr_rank _ _ G g x Hg X). lia. intros X. destruct (gr_all _ _ G x) as (g & Hg & Y). lia. exists (nth g groups []). split; auto. now apply nth_In.
Qed.
