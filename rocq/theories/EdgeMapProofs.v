(** Proofs about the edge map of an agglomeration step: one rank. *)
From Verif Require Import Base ArraysModel ArraysProofs ArraysProofs2 EQCModel UtilProofs EQCProofs EQCProofs2 HybMatProofs AggMapModel AggMapProofs EdgeMapModel.
Local Open Scope nat_scope.

Definition key : Type := (nat * nat)%type.
Definition key_eqb (a b : key) : bool := (fst a =? fst b) && (snd a =? snd b).
Lemma key_iff a b : key_eqb a b = true <-> a = b.
Proof. destruct a as [a0 a1], b as [b0 b1]. unfold key_eqb. cbn. rewrite andb_true_iff, !Nat.eqb_eq. split. intros (-> & ->). auto. intros E. now injection E. Qed.
Definition kmem (k : key) (l : list key) : bool := existsb (key_eqb k) l.
Lemma kmem_in k l : kmem k l = true <-> In k l.
Proof. unfold kmem. rewrite existsb_exists. split. intros (x & H & E). apply key_iff in E as ->. auto. intros H. exists k. split; auto. now apply key_iff. Qed.
Lemma kmem_out k l : kmem k l = false <-> ~ In k l.
Proof. rewrite <- kmem_in. destruct (kmem k l); intuition congruence. Qed.
Lemma kmem_app k l l' : kmem k (l ++ l') = kmem k l || kmem k l'. Proof. apply existsb_app. Qed.

(** the coarse edge of a fine edge *)
Definition okey (R : emesh) (e : nat * nat) : option key :=
  match nth (fst e) (evmap R) None, nth (snd e) (evmap R) None with
  | Some a, Some b => if a =? b then None else Some (Nat.min a b, Nat.max a b)
  | _, _ => None
  end.
Definition key_of (R : emesh) (id : nat) : option key := match nth_error (all_edges R) id with Some e => okey R e | None => None end.
Record edges_ok (nq : nat) (R : emesh) : Prop := {
  e_E : length (eedges R) = nq;
  e_X : length (xedges R) = nq;
  e_cv : length (ecv R) = nq;
  e_in : forall u v, In (u, v) (all_edges R) -> u < length (evmap R) /\ v < length (evmap R) /\ u <> v;
  e_simple : forall i j u v u' v', nth_error (all_edges R) i = Some (u, v) -> nth_error (all_edges R) j = Some (u', v') -> (u = u' /\ v = v') \/ (u = v' /\ v = u') -> i = j;
  e_map : forall v k, nth v (evmap R) None = Some k -> k < sum (ecv R) }.

(** *** the fine edges between two coarse vertices *)
Lemma insert_fst (x : nat * nat) l : map fst (insert_by (fun a b : nat * nat => fst a <? fst b) x l) = insert_by Nat.ltb (fst x) (map fst l).
Proof. induction l as [|y l IH]; cbn [insert_by map]; auto. destruct (fst x <? fst y); cbn [map]; auto. now rewrite IH. Qed.
Lemma sort_fst (l : list (nat * nat)) : map fst (sort_by (fun a b : nat * nat => fst a <? fst b) l) = sort_by Nat.ltb (map fst l).
Proof. induction l as [|x l IH]; auto. unfold sort_by in *. cbn [fold_right map]. now rewrite insert_fst, IH. Qed.
Lemma combine_seq_in {T} (l : list T) i x : forall s, In (s + i, x) (combine (seq s (length l)) l) <-> nth_error l i = Some x.
Proof.
  revert i. induction l as [|y l IH]; intros i s; cbn [length seq combine]. { split. intros []. destruct i; discriminate. }
  destruct i as [|i]; cbn [nth_error In].
  - split. intros [E|H]. injection E; intros; subst; auto. apply in_combine_l in H. apply in_seq in H. lia. intros E. injection E as ->. left. f_equal. lia.
  - replace (s + S i) with (S s + i) by lia. rewrite <- (IH i (S s)). split; auto. intros [E|H]; auto. injection E; intros; lia.
Qed.
Lemma combine_fst {T} (l : list T) : forall s, map fst (combine (seq s (length l)) l) = seq s (length l).
Proof. induction l as [|x l IH]; intros s; cbn [length seq combine map]; auto. now rewrite IH. Qed.
Lemma zrow_in z l : In (Z.of_nat z) (zrow l) <-> In z l.
Proof. unfold zrow. rewrite in_map_iff. split. intros (x & E & H). apply Nat2Z.inj in E as ->. auto. intros H. now exists z. Qed.
Lemma zrow_sorted l : sset l -> StronglySorted Z.lt (zrow l).
Proof. unfold zrow. induction 1 as [|x l H IH HF]; cbn [map]; constructor; auto. rewrite Forall_forall in *. intros y Hy. apply in_map_iff in Hy as (z & <- & Hz). specialize (HF z Hz). lia. Qed.
Section Row.
  Variable R : emesh.
  Variable nq : nat.
  Hypothesis HE : edges_ok nq R.
  Notation edges := (all_edges R).
  Notation ne := (length edges).
  Definition ents (x : nat) (p : nat * (nat * nat)) : list (nat * nat) := (if fst (snd p) =? x then [(snd (snd p), fst p)] else []) ++ (if snd (snd p) =? x then [(fst (snd p), fst p)] else []).
  Lemma ents_in x p y i : In (y, i) (ents x p) <-> i = fst p /\ (snd p = (x, y) \/ snd p = (y, x)).
  Proof.
    destruct p as [j [u v]]. unfold ents. cbn [fst snd]. rewrite in_app_iff. destruct (Nat.eqb_spec u x) as [->|N], (Nat.eqb_spec v x) as [->|N']; cbn [In]; split.
    - intros [[E|[]]|[E|[]]]; injection E; intros; subst; auto.
    - intros (-> & [E|E]); injection E; intros; subst; auto.
    - intros [[E|[]]|[]]; injection E; intros; subst; auto.
    - intros (-> & [E|E]); injection E; intros; subst; auto.
    - intros [[]|[E|[]]]; injection E; intros; subst; auto.
    - intros (-> & [E|E]); injection E; intros; subst; auto; congruence.
    - intros [[]|[]].
    - intros (-> & [E|E]); injection E; intros; subst; congruence.
  Qed.
  Lemma econ_in x y i : In (y, i) (econ_row edges x) <-> nth_error edges i = Some (x, y) \/ nth_error edges i = Some (y, x).
  Proof.
    unfold econ_row. fold (ents x). split.
    - intros H. apply (Permutation_in _ (sort_by_perm _ _)) in H. apply in_flat_map in H as ([j e] & H & E). change (In (y, i) (ents x (j, e))) in E. apply ents_in in E as (-> & E). cbn [fst snd] in *. apply (combine_seq_in edges j e 0) in H. destruct E as [->| ->]; auto.
    - intros H. apply (Permutation_in _ (Permutation_sym (sort_by_perm _ _))). apply in_flat_map. destruct H as [H|H]; apply (combine_seq_in edges i _ 0) in H.
      + exists (i, (x, y)). split; [exact H|]. apply (proj2 (ents_in x (i, (x, y)) y i)). auto.
      + exists (i, (y, x)). split; [exact H|]. apply (proj2 (ents_in x (i, (y, x)) y i)). auto.
  Qed.
  Lemma nodup_others x l : NoDup (map fst l) -> (forall i e i' e', In (i, e) l -> In (i', e') l -> e = e' \/ (fst e = snd e' /\ snd e = fst e') -> i = i') -> (forall i e, In (i, e) l -> fst e <> snd e) -> NoDup (map fst (flat_map (ents x) l)).
  Proof.
    induction l as [|[i [u v]] l IH]; intros ND HS HN; cbn [flat_map map]. constructor. inversion ND as [|? ? NI ND']; subst. rewrite map_app.
    specialize (HN i (u, v) (or_introl eq_refl)) as NUV. cbn [fst snd] in NUV.
    assert (OUT : forall y, In (y, i) (ents x (i, (u, v))) -> ~ In y (map fst (flat_map (ents x) l))).
    { intros y Hy X. apply in_map_iff in X as ([y' i'] & E & X). cbn in E. subst y'. apply in_flat_map in X as ([j e] & Hj & Hx). apply ents_in in Hx as (-> & Hx). apply ents_in in Hy as (_ & Hy). cbn [fst snd] in *.
      assert (i = j). { apply (HS i (u, v) j e); [now left|now right|]. destruct Hx as [->| ->], Hy as [Hy|Hy]; injection Hy; intros; subst; auto. } subst j. apply NI. change i with (fst (i, e)). now apply in_map. }
    apply nodup_app.
    - unfold ents. cbn [fst snd]. destruct (Nat.eqb_spec u x), (Nat.eqb_spec v x); cbn; repeat constructor; auto. congruence.
    - apply IH; auto. intros i1 e1 i2 e2 H1 H2. apply HS; now right. intros i1 e1 H1. apply (HN i1). now right.
    - intros y Hy. apply in_map_iff in Hy as ([y' i'] & E & Hy). cbn in E. subst y'. assert (i' = i) by (apply ents_in in Hy as (-> & _); auto). subst i'. now apply OUT.
  Qed.
  Lemma econ_sorted x : sset (map fst (econ_row edges x)).
  Proof.
    unfold econ_row. rewrite sort_fst. apply sort_nat_set. apply (nodup_others x (combine (seq 0 ne) edges)).
    - replace (map fst (combine (seq 0 ne) edges)) with (seq 0 ne). apply seq_NoDup. symmetry. apply combine_fst.
    - intros i [u v] i' [u' v'] H1 H2 E. apply (combine_seq_in edges i _ 0) in H1. apply (combine_seq_in edges i' _ 0) in H2. apply (e_simple _ _ HE i i' u v u' v'); auto. cbn [fst snd] in E. destruct E as [E|(-> & ->)]; auto. injection E; intros; subst; auto.
    - intros i [u v] H. apply (combine_seq_in edges i _ 0) in H. apply nth_error_In in H. cbn. now apply (e_in _ _ HE).
  Qed.
  Lemma c2f_in k v : In v (c2f_row (evmap R) k) <-> nth v (evmap R) None = Some k.
  Proof.
    unfold c2f_row. rewrite filter_In, in_seq. destruct (nth v (evmap R) None) as [j|] eqn:E.
    - rewrite Nat.eqb_eq. split. intros (_ & ->). auto. intros X. injection X as ->. split; auto. split; [lia|]. cbn. destruct (Nat.lt_ge_cases v (length (evmap R))); auto. rewrite nth_overflow in E by auto. discriminate.
    - split; intros X. destruct X. discriminate. discriminate.
  Qed.
  Lemma c2f_sorted k : sset (c2f_row (evmap R) k).
  Proof. unfold c2f_row. apply ss_filter_r. clear. generalize 0. induction (length (evmap R)); intros s; cbn [seq]; constructor; auto. apply Forall_forall. intros x Hx. apply in_seq in Hx. lia. Qed.
  Notation row x := (econ_row edges x).
  Definition hits (x b : nat) : list nat := map (fun p => nth (fst p) (map snd (row x)) 0) (iterate_intersection (zrow (map fst (row x))) (zrow (c2f_row (evmap R) b))).
  Lemma hits_in x b i : In i (hits x b) <-> exists y, nth y (evmap R) None = Some b /\ (nth_error edges i = Some (x, y) \/ nth_error edges i = Some (y, x)).
  Proof.
    unfold hits. rewrite in_map_iff. destruct (iterate_intersection_spec (zrow (map fst (row x))) (zrow (c2f_row (evmap R) b))) as (I1 & _). apply zrow_sorted, econ_sorted. apply zrow_sorted, c2f_sorted. split.
    - intros ([p q] & E & H). apply I1 in H as (z & H1 & H2). cbn [fst] in E. unfold zrow in H1, H2. rewrite nth_error_map in H1, H2. destruct (nth_error (map fst (row x)) p) as [y|] eqn:P1; [|discriminate]. destruct (nth_error (c2f_row (evmap R) b) q) as [y'|] eqn:P2; [|discriminate]. cbn in H1, H2. assert (y = y') by (apply Nat2Z.inj; congruence). subst y'.
      exists y. split. { apply c2f_in. now apply nth_error_In in P2. } rewrite nth_error_map in P1. destruct (nth_error (row x) p) as [[y' i']|] eqn:P3; [|discriminate]. cbn in P1. injection P1 as ->. apply econ_in. rewrite (nth_error_nth (map snd (row x)) p 0 (x := i')) in E. subst i'. now apply nth_error_In in P3. rewrite nth_error_map, P3. reflexivity.
    - intros (y & H1 & H2). apply econ_in in H2. apply In_nth_error in H2 as (p & P1). apply c2f_in in H1. apply In_nth_error in H1 as (q & P2). exists (p, q). cbn [fst]. split. apply nth_error_nth. rewrite nth_error_map, P1. reflexivity. apply I1. exists (Z.of_nat y). unfold zrow. rewrite !nth_error_map, P1, P2. auto.
  Qed.
  Definition fes (a b : nat) : list nat := flat_map (fun x => hits x b) (c2f_row (evmap R) a).
  Lemma feids_ok a b : a < sum (ecv R) -> b < sum (ecv R) -> it_feids R a b = Ret (fes a b).
  Proof.
    intros Ha Hb. unfold it_feids, c2fv. rewrite disps_last. destruct (Nat.ltb_spec a (sum (ecv R))); [|lia]. destruct (Nat.ltb_spec b (sum (ecv R))); [|lia]. cbn [bind]. unfold fes.
    assert (ONE : forall x l, foldM (fun l (p : nat * nat) => feid <- rd (map snd (row x)) (fst p) ;; Ret (l ++ [feid])) (iterate_intersection (zrow (map fst (row x))) (zrow (c2f_row (evmap R) b))) l = Ret (l ++ hits x b)).
    { intros x. unfold hits. destruct (iterate_intersection_spec (zrow (map fst (row x))) (zrow (c2f_row (evmap R) b))) as (I1 & _). apply zrow_sorted, econ_sorted. apply zrow_sorted, c2f_sorted.
      assert (G : forall ps, incl ps (iterate_intersection (zrow (map fst (row x))) (zrow (c2f_row (evmap R) b))) -> forall l, foldM (fun l (p : nat * nat) => feid <- rd (map snd (row x)) (fst p) ;; Ret (l ++ [feid])) ps l = Ret (l ++ map (fun p => nth (fst p) (map snd (row x)) 0) ps)).
      { induction ps as [|[p q] ps IH]; intros HI l; cbn [foldM map]. now rewrite app_nil_r. assert (X := HI (p, q) (or_introl eq_refl)). apply I1 in X as (z & X & _). cbn [fst]. rewrite (rd_ok _ _ 0). cbn [bind]. rewrite IH. now rewrite <- app_assoc. intros y Hy. apply HI. now right.
        assert (L : p < length (zrow (map fst (row x)))) by (apply nth_error_Some; congruence). unfold zrow in L. rewrite !map_length in *. auto. }
      intros l. apply G. apply incl_refl. }
    assert (G : forall ms l, foldM (fun l x => foldM (fun l (p : nat * nat) => feid <- rd (map snd (row x)) (fst p) ;; Ret (l ++ [feid])) (iterate_intersection (zrow (map fst (row x))) (zrow (c2f_row (evmap R) b))) l) ms l = Ret (l ++ flat_map (fun x => hits x b) ms)).
    { induction ms as [|x ms IH]; intros l; cbn [foldM flat_map]. now rewrite app_nil_r. rewrite ONE. cbn [bind]. rewrite IH. now rewrite <- app_assoc. }
    apply (G _ []).
  Qed.
  Lemma fes_in a b i : a <> b -> (In i (fes a b) <-> key_of R i = Some (Nat.min a b, Nat.max a b)).
  Proof.
    intros N. unfold fes, key_of. rewrite in_flat_map. split.
    - intros (x & Hx & Hi). apply c2f_in in Hx. apply hits_in in Hi as (y & Hy & [->| ->]); unfold okey; cbn [fst snd]; rewrite Hx, Hy. destruct (Nat.eqb_spec a b); [congruence|]. auto. destruct (Nat.eqb_spec b a); [congruence|]. now rewrite Nat.min_comm, Nat.max_comm.
    - destruct (nth_error edges i) as [[u v]|] eqn:E; [|discriminate]. unfold okey. cbn [fst snd]. destruct (nth u (evmap R) None) as [p|] eqn:EU; [|discriminate]. destruct (nth v (evmap R) None) as [q|] eqn:EV; [|discriminate]. destruct (Nat.eqb_spec p q) as [|NP]; [discriminate|]. intros X. injection X as M1 M2.
      assert (C : (p = a /\ q = b) \/ (p = b /\ q = a)) by lia. destruct C as [(-> & ->)|(-> & ->)].
      + exists u. rewrite c2f_in, hits_in. split; auto. exists v. auto.
      + exists v. rewrite c2f_in, hits_in. split; auto. exists u. auto.
  Qed.
  Lemma any_ok a b : a < sum (ecv R) -> b < sum (ecv R) -> any_edge R a b = Ret (negb (match fes a b with [] => true | _ => false end)).
  Proof.
    intros Ha Hb. unfold any_edge, c2fv. rewrite disps_last. destruct (Nat.ltb_spec a (sum (ecv R))); [|lia]. destruct (Nat.ltb_spec b (sum (ecv R))); [|lia]. cbn [bind]. f_equal. unfold fes.
    induction (c2f_row (evmap R) a) as [|x l IH]; auto. cbn [existsb flat_map]. rewrite IH. destruct (hits x b) as [|i h] eqn:E.
    - cbn [app]. replace (is_intersect_empty _ _) with true. reflexivity. symmetry. apply is_intersect_empty_spec. apply zrow_sorted, econ_sorted. apply zrow_sorted, c2f_sorted.
      intros z (H1 & H2). unfold zrow in H1. apply in_map_iff in H1 as (y & <- & H1). apply zrow_in, c2f_in in H2. apply in_map_iff in H1 as ([y' i] & <- & H1). cbn in H2. apply econ_in in H1. assert (X : In i (hits x b)) by (apply hits_in; eauto). rewrite E in X. destruct X.
    - cbn [app]. assert (X : In i (hits x b)) by (rewrite E; now left). apply hits_in in X as (y & H1 & H2). apply econ_in in H2. destruct (is_intersect_empty _ _) eqn:EI; auto. exfalso. rewrite is_intersect_empty_spec in EI by (apply zrow_sorted; first [apply econ_sorted | apply c2f_sorted]).
      apply (EI (Z.of_nat y)). rewrite !zrow_in, c2f_in. split; auto. change y with (fst (y, i)). now apply in_map.
  Qed.
  Lemma key_facts i k : key_of R i = Some k -> i < ne /\ fst k < snd k /\ snd k < sum (ecv R).
  Proof.
    unfold key_of. destruct (nth_error edges i) as [[u v]|] eqn:E; [|discriminate]. intros H. split. apply nth_error_Some. congruence. unfold okey in H. cbn [fst snd] in H. destruct (nth u (evmap R) None) as [p|] eqn:EU; [|discriminate]. destruct (nth v (evmap R) None) as [q|] eqn:EV; [|discriminate]. apply (e_map _ _ HE) in EU, EV. destruct (Nat.eqb_spec p q); [discriminate|]. injection H as <-. cbn. lia.
  Qed.
End Row.
