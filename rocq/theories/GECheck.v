(** Decision procedures for the hypotheses of C97, C98 (used for the examples). *)
From Verif Require Import Base EQCModel UtilProofs EQCProofs EQCProofs2 EQCProps GCModel GCProps GEModel GESpec.
Local Open Scope nat_scope.

Definition memb (x : nat) (l : list nat) : bool := existsb (Nat.eqb x) l.
Lemma memb_ok x l : memb x l = true <-> In x l.
Proof. unfold memb. rewrite existsb_exists. split. intros (y & A & B). apply Nat.eqb_eq in B. now subst. intros X. exists x. split; auto. apply Nat.eqb_refl. Qed.
Definition same_class_b (r : nat) (d : list nat) (r' : nat) (d' : list nat) : bool := forallb (fun x => memb x (r' :: d')) (r :: d) && forallb (fun x => memb x (r :: d)) (r' :: d').
Lemma shares_in r d x : shares r d x <-> In x (r :: d). Proof. unfold shares. cbn. intuition. Qed.
Lemma same_class_ok r d r' d' : same_class_b r d r' d' = true <-> same_class r d r' d'.
Proof.
  unfold same_class_b, same_class. rewrite andb_true_iff, !forallb_forall. split.
  - intros (A & B) x. rewrite !shares_in. split; intros X; apply memb_ok; auto.
  - intros X. split; intros x Y; apply memb_ok; apply shares_in, X, shares_in; auto.
Qed.
Lemma all_lt n (f : nat -> bool) : forallb f (seq 0 n) = true <-> forall i, i < n -> f i = true.
Proof. rewrite forallb_forall. split; intros X i Hi; apply X; [|apply in_seq in Hi]; [apply in_seq|]; lia. Qed.
Lemma ex_lt n (f : nat -> bool) : existsb f (seq 0 n) = true -> exists i, i < n /\ f i = true.
Proof. rewrite existsb_exists. intros (x & A & B). apply in_seq in A. exists x. split; auto. lia. Qed.

Section B.
  Variables (H V : list (list (list nat))).
  Notation np := (length H).
  Notation nc r := (length (nth r H [])).
  Definition tables_b : bool :=
    (length V =? np) && forallb (fun r => (length (nth r V []) =? nc r) && list_eqb (concat (nth r V [])) (seq 0 (length (concat (nth r V []))))) (seq 0 np) &&
    forallb (fun r => forallb (fun r' => forallb (fun j => forallb (fun j' => implb (same_class_b r (row H r j) r' (row H r' j')) (length (row V r j) =? length (row V r' j'))) (seq 0 (nc r'))) (seq 0 (nc r))) (seq 0 np)) (seq 0 np).
  Lemma tables_ok : tables_b = true -> vertex_tables H V.
  Proof.
    unfold tables_b. rewrite !andb_true_iff, !all_lt. intros ((A & B) & C). constructor.
    - now apply Nat.eqb_eq.
    - intros r Hr. specialize (B r Hr). apply andb_true_iff in B as (B & _). now apply Nat.eqb_eq.
    - intros r Hr. specialize (B r Hr). apply andb_true_iff in B as (_ & B). now apply list_eqb_eq.
    - intros r r' j j' Hr Hr' Hj Hj' X. apply same_class_ok in X. specialize (C r Hr). rewrite all_lt in C. specialize (C r' Hr'). rewrite all_lt in C. specialize (C j Hj). rewrite all_lt in C. specialize (C j' Hj'). rewrite X in C. now apply Nat.eqb_eq.
  Qed.
  (** position of a vertex in a row; class and position of a vertex *)
  Definition at_vertex_b (r v j l : nat) : bool := (j <? nc r) && (l <? length (row V r j)) && (nth l (row V r j) 0 =? v).
  Lemma at_vertex_ok r v j l : at_vertex_b r v j l = true -> at_vertex H V r v j l.
  Proof. unfold at_vertex_b. rewrite !andb_true_iff, !Nat.ltb_lt, Nat.eqb_eq. intros ((A & B) & C). split; auto. Qed.
  Definition in_class_b (r v j : nat) : bool := existsb (at_vertex_b r v j) (seq 0 (length (row V r j))).
  Lemma in_class_ok r v j : in_class_b r v j = true -> exists l, at_vertex H V r v j l.
  Proof. intros X. apply ex_lt in X as (l & _ & X). exists l. now apply at_vertex_ok. Qed.
  Definition same_vertex_b (r v r' v' : nat) : bool :=
    existsb (fun j => existsb (fun j' => existsb (fun l => at_vertex_b r v j l && at_vertex_b r' v' j' l && same_class_b r (row H r j) r' (row H r' j')) (seq 0 (length (row V r j)))) (seq 0 (nc r'))) (seq 0 (nc r)).
  Lemma same_vertex_ok r v r' v' : same_vertex_b r v r' v' = true -> same_vertex H V r v r' v'.
  Proof. intros X. apply ex_lt in X as (j & _ & X). apply ex_lt in X as (j' & _ & X). apply ex_lt in X as (l & _ & X). rewrite !andb_true_iff in X. destruct X as ((A & B) & C). exists j, j', l. split; [now apply at_vertex_ok|]. split; [now apply at_vertex_ok|]. now apply same_class_ok. Qed.
  Definition same_ends_b (r r' : nat) (e e' : fedge) : bool := same_vertex_b r (fst (fst e)) r' (fst (fst e')) && same_vertex_b r (snd (fst e)) r' (snd (fst e')).
  Fixpoint forall2_b {A} (f : A -> A -> bool) (l l' : list A) : bool := match l, l' with [], [] => true | x :: l, y :: l' => f x y && forall2_b f l l' | _, _ => false end.
  Lemma forall2_ok r r' l : forall l', forall2_b (same_ends_b r r') l l' = true -> Forall2 (same_ends H V r r') l l'.
  Proof. induction l as [|x l IH]; intros [|y l']; cbn; try discriminate; auto. rewrite andb_true_iff. intros (A & B). constructor; auto. unfold same_ends_b in A. apply andb_true_iff in A as (A1 & A2). split; now apply same_vertex_ok. Qed.
  Fixpoint nodup_b (l : list (nat * nat)) : bool := match l with [] => true | x :: l => negb (existsb (fun y => (fst x =? fst y) && (snd x =? snd y)) l) && nodup_b l end.
  Lemma nodup_b_ok l : nodup_b l = true -> NoDup l.
  Proof. induction l as [|x l IH]; cbn; [constructor|]. rewrite andb_true_iff, negb_true_iff. intros (A & B). constructor; auto. intros X. assert (Y : existsb (fun y => (fst x =? fst y) && (snd x =? snd y)) l = true). { apply existsb_exists. exists x. split; auto. now rewrite !Nat.eqb_refl. } congruence. Qed.
  (** the ranks of [d] are the common ranks of [d0] and [d1] *)
  Definition common_b (r : nat) (d d0 d1 : list nat) : bool := forallb (fun x => eqb (memb x (r :: d)) (memb x (r :: d0) && memb x (r :: d1))) (r :: d ++ d0 ++ d1).
  Lemma common_ok r d d0 d1 : common_b r d d0 d1 = true -> forall x, shares r d x <-> shares r d0 x /\ shares r d1 x.
  Proof.
    unfold common_b. rewrite forallb_forall. intros A x. rewrite !shares_in, <- !memb_ok. destruct (in_dec Nat.eq_dec x (r :: d ++ d0 ++ d1)) as [X|X].
    - apply A, eqb_prop in X. rewrite X. apply andb_true_iff.
    - rewrite !memb_ok. assert (N : ~ In x (r :: d) /\ ~ In x (r :: d0)). { split; intros Y; apply X; destruct Y as [Y|Y]; [now left|right; apply in_or_app; now left|now left|right; apply in_or_app; right; apply in_or_app; now left]. } destruct N as (N1 & N2). split; [intros Y; destruct (N1 Y)|intros (Y & _); destruct (N2 Y)].
  Qed.
  Variables (EI EC : list (list (list fedge))).
  Definition edges_b : bool :=
    (length EI =? np) && (length EC =? np) &&
    forallb (fun r => (length (nth r EI []) =? nc r) && (length (nth r EC []) =? nc r) && list_eqb (map snd (rank_edges EI EC r)) (seq 0 (length (rank_edges EI EC r))) &&
      forallb (fun e => fst (fst e) <? snd (fst e)) (rank_edges EI EC r) && nodup_b (map fst (rank_edges EI EC r)) &&
      forallb (fun j => forallb (fun e => in_class_b r (fst (fst e)) j && in_class_b r (snd (fst e)) j) (row EI r j) &&
        forallb (fun e => existsb (fun j0 => existsb (fun j1 => in_class_b r (fst (fst e)) j0 && in_class_b r (snd (fst e)) j1 && negb (j0 =? j1) && common_b r (row H r j) (row H r j0) (row H r j1)) (seq 0 (nc r))) (seq 0 (nc r))) (row EC r j)) (seq 0 (nc r))) (seq 0 np) &&
    forallb (fun r => forallb (fun r' => forallb (fun j => forallb (fun j' => implb (same_class_b r (row H r j) r' (row H r' j')) (forall2_b (same_ends_b r r') (row EI r j) (row EI r' j') && forall2_b (same_ends_b r r') (row EC r j) (row EC r' j'))) (seq 0 (nc r'))) (seq 0 (nc r))) (seq 0 np)) (seq 0 np).
  Lemma edges_ok : edges_b = true -> edge_tables H V EI EC.
  Proof.
    unfold edges_b. rewrite !andb_true_iff, !all_lt. intros (((A & A') & B) & C).
    assert (D : forall r, r < np -> (length (nth r EI []) = nc r /\ length (nth r EC []) = nc r) /\ map snd (rank_edges EI EC r) = seq 0 (length (rank_edges EI EC r)) /\ (forall e, In e (rank_edges EI EC r) -> fst (fst e) < snd (fst e)) /\ NoDup (map fst (rank_edges EI EC r)) /\
      forall j, j < nc r -> (forall e, In e (row EI r j) -> (exists l, at_vertex H V r (fst (fst e)) j l) /\ (exists l, at_vertex H V r (snd (fst e)) j l)) /\
        forall e, In e (row EC r j) -> exists j0 l0 j1 l1, at_vertex H V r (fst (fst e)) j0 l0 /\ at_vertex H V r (snd (fst e)) j1 l1 /\ j0 <> j1 /\ forall x, shares r (row H r j) x <-> shares r (row H r j0) x /\ shares r (row H r j1) x).
    { intros r Hr. specialize (B r Hr). rewrite !andb_true_iff in B. destruct B as (((((B1 & B2) & B3) & B4) & B5) & B6). split. split; now apply Nat.eqb_eq. split. now apply list_eqb_eq. split. { intros e X. rewrite forallb_forall in B4. apply Nat.ltb_lt. now apply B4. } split. now apply nodup_b_ok.
      intros j Hj. rewrite all_lt in B6. specialize (B6 j Hj). apply andb_true_iff in B6 as (B7 & B8). rewrite forallb_forall in B7, B8. split.
      - intros e X. specialize (B7 e X). apply andb_true_iff in B7 as (B7 & B9). split; now apply in_class_ok.
      - intros e X. specialize (B8 e X). apply ex_lt in B8 as (j0 & _ & B8). apply ex_lt in B8 as (j1 & _ & B8). rewrite !andb_true_iff in B8. destruct B8 as (((B8 & B9) & B10) & B11). apply in_class_ok in B8 as (l0 & B8). apply in_class_ok in B9 as (l1 & B9). exists j0, l0, j1, l1. split; auto. split; auto. split. apply negb_true_iff, Nat.eqb_neq in B10. auto. now apply common_ok. }
    constructor.
    - split; now apply Nat.eqb_eq.
    - intros r Hr. apply (D r Hr).
    - intros r Hr. apply (D r Hr).
    - intros r e Hr X. now apply (D r Hr).
    - intros r Hr. apply (D r Hr).
    - intros r j e Hr Hj X. now apply (D r Hr).
    - intros r j e Hr Hj X. destruct (D r Hr) as (_ & _ & _ & _ & D'). now apply (D' j Hj).
    - intros r r' j j' Hr Hr' Hj Hj' X. apply same_class_ok in X. specialize (C r Hr). rewrite all_lt in C. specialize (C r' Hr'). rewrite all_lt in C. specialize (C j Hj). rewrite all_lt in C. specialize (C j' Hj'). rewrite X in C. apply andb_true_iff in C as (C1 & C2). split; now apply forall2_ok.
  Qed.
  Variable groups : list (list nat).
  Notation ng := (length groups).
  Definition meets_b (q r : nat) (d : list nat) : bool := existsb (fun x => memb x (grp groups q)) (r :: d).
  Lemma meets_ok q r d : meets_b q r d = true <-> meets groups q r d.
  Proof. unfold meets_b, meets. rewrite existsb_exists. split; intros (x & A & B); exists x; [apply memb_ok in B|apply shares_in in A]; split; auto. now apply shares_in. now apply memb_ok. Qed.
  Definition closed_b : bool :=
    forallb (fun g => let ks := flat_map (fun k => map (pair k) (seq 0 (nc (rk groups g k)))) (seq 0 (length (grp groups g))) in
      let R a := row H (rk groups g (fst a)) (snd a) in
      forallb (fun a => forallb (fun b => existsb (fun c => forallb (fun q => eqb (meets_b q (rk groups g (fst c)) (R c)) (meets_b q (rk groups g (fst a)) (R a) && meets_b q (rk groups g (fst b)) (R b))) (seq 0 ng)) ks) ks) ks) (seq 0 ng).
  Lemma closed_ok : closed_b = true -> groups_closed H groups.
  Proof.
    unfold closed_b. rewrite all_lt. intros A g k j k' j' Hg (Hk & Hj) (Hk' & Hj'). specialize (A g Hg). cbn zeta in A. set (ks := flat_map _ _) in A. assert (K : forall k j, In (k, j) ks <-> is_class H groups g k j). { intros a b. unfold ks, is_class. rewrite in_flat_map. split. intros (x & X & Y). apply in_seq in X. apply in_map_iff in Y as (y & Y & Z). apply in_seq in Z. injection Y as -> ->. split; lia. intros (X & Y). exists a. split. apply in_seq. lia. apply in_map_iff. exists b. split; auto. apply in_seq. lia. }
    rewrite forallb_forall in A. specialize (A (k, j) (proj2 (K k j) (conj Hk Hj))). rewrite forallb_forall in A. specialize (A (k', j') (proj2 (K k' j') (conj Hk' Hj'))). apply existsb_exists in A as ((k2 & j2) & A1 & A2). apply K in A1. exists k2, j2. split; auto. intros q Hq. rewrite all_lt in A2. specialize (A2 q Hq). apply eqb_prop in A2. cbn [fst snd] in A2. rewrite <- !meets_ok, A2, andb_true_iff. reflexivity.
  Qed.
End B.
(** classes of all ranks, groups *)
Definition consistent_b (W : list (list (list nat))) : bool :=
  forallb (fun r => let T := nth r W [] in
    forallb (fun i => forallb (fun j => (nth j (nth i T []) 0 <? nth (j + 1) (nth i T []) 0)) (seq 0 (length (nth i T []) - 1))) (seq 0 (length T)) &&
    forallb (fun d => negb (memb r d) && forallb (fun q => q <? length W) d && forallb (fun q => existsb (fun d' => same_class_b r d q d') (nth q W [])) d) T &&
    forallb (fun i => forallb (fun j => implb (i <? j) (negb (list_eqb (nth i T []) (nth j T [])))) (seq 0 (length T))) (seq 0 (length T))) (seq 0 (length W)).
Lemma increasing_nth (l : list nat) : (forall j, j < length l - 1 -> nth j l 0 < nth (j + 1) l 0) -> increasing l.
Proof.
  unfold increasing. induction l as [|a l IH]; intros X; constructor.
  - apply IH. intros j Hj. specialize (X (S j)). cbn [length] in X. cbn [nth Nat.add] in X. apply X. lia.
  - destruct l as [|b l]; [constructor|]. assert (Y : a < b) by (apply (X 0); cbn; lia). assert (Z : StronglySorted lt (b :: l)). { apply IH. intros j Hj. specialize (X (S j)). cbn [length] in X. cbn [nth Nat.add] in X. apply X. cbn [length] in Hj. lia. } inversion Z as [|? ? Z1 Z2]. constructor; auto. eapply Forall_impl; [|exact Z2]. cbn. lia.
Qed.
Lemma consistent_ok W : consistent_b W = true -> consistent W.
Proof.
  unfold consistent_b. rewrite all_lt. intros A.
  assert (B : forall r, r < length W -> (forall d, In d (nth r W []) -> increasing d) /\ (forall d, In d (nth r W []) -> (~ In r d) /\ (forall q, In q d -> q < length W) /\ forall q, In q d -> exists d', In d' (nth q W []) /\ same_class r d q d') /\ NoDup (nth r W [])).
  { intros r Hr. specialize (A r Hr). cbn zeta in A. rewrite !andb_true_iff, !all_lt in A. destruct A as ((A1 & A2) & A3). split; [|split].
    - intros d X. destruct (In_nth _ _ [] X) as (i & Hi & <-). specialize (A1 i Hi). rewrite all_lt in A1. apply increasing_nth. intros j Hj. apply Nat.ltb_lt. auto.
    - intros d X. rewrite forallb_forall in A2. specialize (A2 d X). rewrite !andb_true_iff, !forallb_forall in A2. destruct A2 as ((B1 & B2) & B3). split. { intros Y. apply memb_ok in Y. rewrite Y in B1. discriminate. } split. { intros q Y. apply Nat.ltb_lt. auto. } intros q Y. apply B3, existsb_exists in Y as (d' & Y1 & Y2). exists d'. split; auto. now apply same_class_ok.
    - apply (NoDup_nth _ []). intros i j Hi Hj Q. destruct (Nat.lt_trichotomy i j) as [L|[L|L]]; auto; exfalso.
      + specialize (A3 i Hi). rewrite all_lt in A3. specialize (A3 j Hj). rewrite (proj2 (Nat.ltb_lt i j) L), Q, list_eqb_refl in A3. discriminate.
      + specialize (A3 j Hj). rewrite all_lt in A3. specialize (A3 i Hi). rewrite (proj2 (Nat.ltb_lt j i) L), Q, list_eqb_refl in A3. discriminate. }
  constructor.
  - intros r d Hr X. destruct (B r Hr) as (B1 & B2 & _). split. auto. split; apply (B2 d X).
  - intros r Hr. apply (B r Hr).
  - intros r d q Hr X Y. destruct (B r Hr) as (_ & B2 & _). now apply (B2 d X).
Qed.
Definition grouping_b (np : nat) (groups : list (list nat)) : bool :=
  let gs := seq 0 (length groups) in
  forallb (fun g => forallb (fun p => p <? np) (grp groups g) && negb (list_eqb (grp groups g) []) && forallb (fun j => nth j (grp groups g) 0 <? nth (j + 1) (grp groups g) 0) (seq 0 (length (grp groups g) - 1))) gs &&
  forallb (fun p => existsb (fun g => memb p (grp groups g)) gs) (seq 0 np) &&
  forallb (fun g => forallb (fun g' => implb (negb (g =? g')) (forallb (fun p => negb (memb p (grp groups g'))) (grp groups g))) gs) gs.
Lemma grouping_ok np groups : grouping_b np groups = true -> grouping np groups.
Proof.
  unfold grouping_b. cbn zeta. rewrite !andb_true_iff, !all_lt. intros ((A & B) & C).
  assert (D : forall g, g < length groups -> (forall p, In p (grp groups g) -> p < np) /\ grp groups g <> [] /\ increasing (grp groups g)). { intros g Hg. specialize (A g Hg). rewrite !andb_true_iff, forallb_forall, all_lt in A. destruct A as ((A1 & A2) & A3). split. intros p X. apply Nat.ltb_lt. auto. split. intros Q. rewrite Q in A2. discriminate. apply increasing_nth. intros j Hj. apply Nat.ltb_lt. auto. }
  constructor.
  - intros g p Hg X. now apply (D g Hg).
  - intros p Hp. specialize (B p Hp). apply ex_lt in B as (g & Hg & B). exists g. split; auto. now apply memb_ok.
  - intros g g' p Hg Hg' X X'. destruct (Nat.eq_dec g g') as [|N]; auto. exfalso. specialize (C g Hg). rewrite all_lt in C. specialize (C g' Hg'). rewrite (proj2 (Nat.eqb_neq g g') N) in C. cbn in C. rewrite forallb_forall in C. specialize (C p X). apply memb_ok in X'. rewrite X' in C. discriminate.
  - intros g Hg. apply (D g Hg).
  - intros g Hg. apply (D g Hg).
Qed.
