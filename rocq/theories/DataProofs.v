(** Sums, writes, nodes by class. *)
From Verif Require Import Base EQCModel UtilProofs EQCProofs EQCProofs2 EQCProofs3 EQCProps ReduceModel ReduceProps GCModel GCProofs GCProofs3 GCProps GEModel GESpec GECheck DataModel DataSpec.
Local Open Scope nat_scope.

Lemma sumZ_app l l' : sumZ (l ++ l') = (sumZ l + sumZ l')%Z. Proof. induction l as [|x l IH]; auto. cbn [app sumZ fold_right]. fold (sumZ (l ++ l')) (sumZ l). lia. Qed.
Lemma sumZ_perm l l' : Permutation l l' -> sumZ l = sumZ l'. Proof. induction 1; cbn [sumZ fold_right]; auto; try lia; unfold sumZ in *; lia. Qed.
Lemma sumZ_zero {A} (f : A -> Z) l : (forall x, In x l -> f x = 0%Z) -> sumZ (map f l) = 0%Z.
Proof. induction l as [|x l IH]; intros X; cbn; auto. rewrite X by now left. fold (sumZ (map f l)). rewrite IH; auto. intros; apply X; now right. Qed.
Lemma sumZ_ext {A} (f h : A -> Z) l : (forall x, In x l -> f x = h x) -> sumZ (map f l) = sumZ (map h l).
Proof. intros X. f_equal. now apply map_ext_in. Qed.
Lemma sumZ_add {A} (f h : A -> Z) l : sumZ (map (fun x => f x + h x)%Z l) = (sumZ (map f l) + sumZ (map h l))%Z.
Proof. induction l as [|x l IH]; auto. cbn [map sumZ fold_right]. fold (sumZ (map f l)) (sumZ (map h l)) (sumZ (map (fun x => f x + h x)%Z l)). lia. Qed.
Lemma sumZ_swap {A B} (f : A -> B -> Z) l l' : sumZ (map (fun a => sumZ (map (f a) l')) l) = sumZ (map (fun b => sumZ (map (fun a => f a b) l)) l').
Proof. induction l as [|x l IH]; cbn [map]. symmetry. now apply sumZ_zero. cbn [sumZ fold_right]. fold (sumZ (map (fun a => sumZ (map (f a) l')) l)). rewrite IH, <- sumZ_add. reflexivity. Qed.
Lemma sumZ_filter {A} (p : A -> bool) (f : A -> Z) l : sumZ (map (fun x => if p x then f x else 0%Z) l) = sumZ (map f (filter p l)).
Proof. induction l as [|x l IH]; auto. cbn [map filter]. cbn [sumZ fold_right]. fold (sumZ (map (fun x => if p x then f x else 0%Z) l)). rewrite IH. destruct (p x); cbn [map sumZ fold_right]; auto. Qed.
Lemma sumZ_single (f : nat -> Z) n i : i < n -> (forall k, k < n -> k <> i -> f k = 0%Z) -> sumZ (map f (seq 0 n)) = f i.
Proof.
  intros Hi X. replace n with (i + (1 + (n - i - 1))) by lia. rewrite seq_app, map_app, sumZ_app. cbn [seq map Nat.add sumZ fold_right]. rewrite (sumZ_zero f (seq 0 i)). fold (sumZ (map f (seq (S i) (n - i - 1)))). rewrite (sumZ_zero f (seq (S i) _)). lia.
  intros k Y. apply in_seq in Y. apply X; lia. intros k Y. apply in_seq in Y. apply X; lia.
Qed.
Lemma sumZ_flat {A} (f : A -> list Z) l : sumZ (flat_map f l) = sumZ (map (fun x => sumZ (f x)) l).
Proof. induction l as [|x l IH]; auto. cbn [flat_map map]. rewrite sumZ_app, IH. reflexivity. Qed.

(** *** writes *)
Definition puts (av : list Z) (l : list (nat * Z)) : list Z := fold_left (fun av p => upd av (fst p) (snd p)) l av.
Lemma puts_length l : forall av, length (puts av l) = length av. Proof. induction l as [|p l IH]; intros av; auto. unfold puts in *. cbn [fold_left]. now rewrite IH, upd_length. Qed.
Lemma puts_app av l l' : puts av (l ++ l') = puts (puts av l) l'. Proof. apply fold_left_app. Qed.
Lemma nth_upd (av : list Z) i j x : i < length av -> nth j (upd av i x) 0%Z = if j =? i then x else nth j av 0%Z.
Proof. intros Hi. destruct (Nat.eqb_spec j i) as [->|N]. now apply nth_upd_eq. apply nth_upd_neq. congruence. Qed.
Lemma puts_not l : forall av j, (forall p, In p l -> fst p < length av) -> ~ In j (map fst l) -> nth j (puts av l) 0%Z = nth j av 0%Z.
Proof.
  induction l as [|p l IH]; intros av j B N; auto. unfold puts in *. cbn [fold_left]. rewrite IH. rewrite nth_upd by (apply B; now left). destruct (Nat.eqb_spec j (fst p)) as [->|]; auto. exfalso. apply N. now left. intros q X. rewrite upd_length. apply B. now right. intros X. apply N. now right.
Qed.
Lemma puts_in l : forall av j x, (forall p, In p l -> fst p < length av) -> (forall y, In (j, y) l -> y = x) -> In j (map fst l) -> nth j (puts av l) 0%Z = x.
Proof.
  induction l as [|p l IH]; intros av j x B U X. destruct X. unfold puts in *. cbn [fold_left]. assert (B' : forall q, In q l -> fst q < length (upd av (fst p) (snd p))). { intros q Y. rewrite upd_length. apply B. now right. } destruct (in_dec Nat.eq_dec j (map fst l)) as [Y|Y].
  - apply IH; auto. intros y Z. apply U. now right.
  - fold (puts (upd av (fst p) (snd p)) l). rewrite puts_not by auto. destruct X as [X|X]; [|contradiction]. rewrite nth_upd by (apply B; now left). rewrite X, Nat.eqb_refl. apply U. left. rewrite <- X. now destruct p.
Qed.
(** additions *)
Definition adds (av : list Z) (l : list (nat * Z)) : list Z := fold_left (fun av p => upd av (fst p) (nth (fst p) av 0 + snd p)%Z) l av.
Lemma adds_length l : forall av, length (adds av l) = length av. Proof. induction l as [|p l IH]; intros av; auto. unfold adds in *. cbn [fold_left]. now rewrite IH, upd_length. Qed.
Lemma adds_app av l l' : adds av (l ++ l') = adds (adds av l) l'. Proof. apply fold_left_app. Qed.
Lemma adds_nth l : forall av j, (forall p, In p l -> fst p < length av) -> nth j (adds av l) 0%Z = (nth j av 0 + sumZ (map (fun p : nat * Z => if (fst p =? j)%nat then snd p else 0%Z) l))%Z.
Proof.
  induction l as [|p l IH]; intros av j B. cbn. lia. unfold adds in *. cbn [fold_left]. rewrite IH. 2: { intros q X. rewrite upd_length. apply B. now right. } rewrite nth_upd by (apply B; now left). cbn [map sumZ fold_right]. fold (sumZ (map (fun p : nat * Z => if (fst p =? j)%nat then snd p else 0%Z) l)). rewrite (Nat.eqb_sym (fst p) j). destruct (Nat.eqb_spec j (fst p)) as [->|]; lia.
Qed.
Lemma sum_rows (rows : list (list Z)) : forall r n, length r = n -> (forall x, In x rows -> length x = n) -> length (fold_left add_rows rows r) = n /\ forall l, l < n -> nth l (fold_left add_rows rows r) 0%Z = sumZ (map (fun x => nth l x 0%Z) (r :: rows)).
Proof.
  induction rows as [|x rows IH]; intros r n L A. split; auto. intros l Hl. cbn. lia. cbn [fold_left]. assert (LA : length (add_rows r x) = n) by (unfold add_rows; now rewrite map_length, seq_length). destruct (IH (add_rows r x) n LA) as (B & C). intros; apply A; now right. split; auto. intros l Hl. rewrite C by auto. cbn [map sumZ fold_right]. unfold add_rows at 1. rewrite (nth_map_ok _ _ _ 0) by (rewrite seq_length; lia). rewrite seq_nth by lia. cbn [Nat.add]. lia.
Qed.

(** *** nodes by class *)
Lemma concat_pos (t : list (list nat)) : NoDup (concat t) -> forall j l j' l', j < length t -> j' < length t -> l < length (nth j t []) -> l' < length (nth j' t []) -> nth l (nth j t []) 0 = nth l' (nth j' t []) 0 -> j = j' /\ l = l'.
Proof.
  induction t as [|x t IH]; intros ND j l j' l' Hj Hj' Hl Hl' E. cbn in Hj. lia. cbn [concat] in ND. assert (N1 : NoDup x) by (now apply NoDup_app_remove_r in ND || (clear - ND; induction x as [|a x IH]; [constructor|]; inversion ND; subst; constructor; [intros X; apply H1; apply in_or_app; auto|auto])).
  assert (N2 : NoDup (concat t)) by (clear - ND; induction x as [|a x IH]; auto; inversion ND; auto). assert (N3 : forall a, In a x -> ~ In a (concat t)) by (clear - ND; induction x as [|a x IH]; [intros a []|]; inversion ND; subst; intros b [<-|Hb] Y; [apply H1; apply in_or_app; auto|now apply (IH H2 b)]).
  assert (C : forall i k, i < length t -> k < length (nth i t []) -> In (nth k (nth i t []) 0) (concat t)) by (intros i k Hi Hk; apply in_concat; exists (nth i t []); split; [now apply nth_In|now apply nth_In]).
  destruct j as [|j], j' as [|j']; cbn [nth length] in *.
  - split; auto. apply (proj1 (NoDup_nth x 0) N1); auto.
  - exfalso. apply (N3 (nth l x 0)). now apply nth_In. rewrite E. apply C; auto. lia.
  - exfalso. apply (N3 (nth l' x 0)). now apply nth_In. rewrite <- E. apply C; auto. lia.
  - destruct (IH N2 j l j' l') as (A & B); auto; try lia.
Qed.
Lemma has_in q l : has q l = true <-> In q l.
Proof. unfold has. rewrite existsb_exists. split. intros (x & A & B). apply Nat.eqb_eq in B. now subst. intros X. exists q. split; auto. apply Nat.eqb_refl. Qed.

Section Nodes.
  Variables (H T : list (list (list nat))) (n : nat -> nat).
  Hypothesis HW : world H.
  Hypothesis HT : node_tables H T n.
  Notation np := (length H).
  Lemma nt_nodup r : r < np -> NoDup (concat (nth r T [])).
  Proof. intros Hr. eapply Permutation_NoDup. apply Permutation_sym, (nt_numbers H T n HT r Hr). apply seq_NoDup. Qed.
  Lemma at_uniq r v j l j' l' : r < np -> at_vertex H T r v j l -> at_vertex H T r v j' l' -> j = j' /\ l = l'.
  Proof. intros Hr (A & B & C) (A' & B' & C'). apply (concat_pos _ (nt_nodup r Hr)); auto; try (rewrite (nt_rows H T n HT); auto). congruence. Qed.
  Lemma at_ex r v : r < np -> v < n r -> exists j l, at_vertex H T r v j l.
  Proof.
    intros Hr Hv. assert (X : In v (concat (nth r T []))). { apply (Permutation_in _ (Permutation_sym (nt_numbers H T n HT r Hr))). apply in_seq. lia. } apply in_concat in X as (y & Y & X). destruct (In_nth _ _ [] Y) as (j & Hj & <-). destruct (In_nth _ _ 0 X) as (l & Hl & E). rewrite (nt_rows H T n HT) in Hj by auto. exists j, l. split; auto.
  Qed.
  Lemma at_lt r v j l : r < np -> at_vertex H T r v j l -> v < n r.
  Proof. intros Hr (A & B & C). assert (X : In v (concat (nth r T []))). { apply in_concat. exists (row T r j). split. apply nth_In. now rewrite (nt_rows H T n HT). rewrite <- C. now apply nth_In. } apply (Permutation_in _ (nt_numbers H T n HT r Hr)) in X. apply in_seq in X. lia. Qed.
  Lemma at_vertex_iff r v j l : at_vertex_b H T r v j l = true <-> at_vertex H T r v j l.
  Proof. split. apply at_vertex_ok. unfold at_vertex_b. intros (A & B & C). rewrite !andb_true_iff, !Nat.ltb_lt, Nat.eqb_eq. auto. Qed.
  Lemma same_vertex_iff r v r' v' : same_vertex_b H T r v r' v' = true <-> same_vertex H T r v r' v'.
  Proof.
    split. apply same_vertex_ok. intros (j & j' & l & A & A' & C). assert (B := A). assert (B' := A'). destruct B as (B1 & B2 & _), B' as (B1' & _). unfold same_vertex_b. apply existsb_exists. exists j. split. apply in_seq. lia. apply existsb_exists. exists j'. split. apply in_seq. lia. apply existsb_exists. exists l. split. apply in_seq. lia. rewrite !andb_true_iff. rewrite !at_vertex_iff. rewrite same_class_ok. auto.
  Qed.
  Lemma crow_inc r j : r < np -> j < length (nth r H []) -> increasing (row H r j). Proof. intros Hr Hj. apply (row_facts H HW r); auto. now apply nth_In. Qed.
  Lemma ccls r j : j < length (nth r H []) -> nth j (classes H r) [] = members r (row H r j). Proof. intros Hj. unfold classes. now rewrite (nth_map_ok _ _ _ []). Qed.
  Lemma csame r r' j j' : r < np -> r' < np -> j < length (nth r H []) -> j' < length (nth r' H []) -> (same_class r (row H r j) r' (row H r' j') <-> members r (row H r j) = members r' (row H r' j')).
  Proof. intros Hr Hr' Hj Hj'. apply same_members; now apply crow_inc. Qed.
  Lemma cinj r j j' : r < np -> j < length (nth r H []) -> j' < length (nth r H []) -> members r (row H r j) = members r (row H r j') -> j = j'.
  Proof. intros Hr Hj Hj' E. rewrite <- !ccls in E by auto. apply (proj1 (NoDup_nth (classes H r) []) (classes_nodup H HW r Hr)); auto; unfold classes; now rewrite map_length. Qed.
  (** index of class [D] on rank [q], node [l] of it *)
  Definition cidx (q : nat) (D : list nat) : nat := idx list_eqb D (classes H q).
  Definition node_at (q : nat) (D : list nat) (l : nat) : nat := nth l (row T q (cidx q D)) 0.
  Lemma cidx_ok q D : In D (classes H q) -> cidx q D < length (nth q H []) /\ members q (row H q (cidx q D)) = D.
  Proof. intros X. destruct (pos_by_idx list_eqb D (classes H q) (fun a b => list_eqb_eq a b) X 0) as (_ & A & B). fold (cidx q D) in A, B. assert (A' : cidx q D < length (nth q H [])) by (unfold classes in A; now rewrite map_length in A). split; auto. rewrite <- ccls by auto. apply B. Qed.
  Lemma cls_mem r j q : r < np -> j < length (nth r H []) -> let D := members r (row H r j) in In q D -> q < np /\ In D (classes H q).
  Proof. intros Hr Hj D X. apply (class_cons H HW r D q Hr); auto. unfold D. rewrite <- ccls by auto. apply nth_In. unfold classes. now rewrite map_length. Qed.
  Lemma node_at_ok r v j l q : r < np -> at_vertex H T r v j l -> let D := members r (row H r j) in In q D -> at_vertex H T q (node_at q D l) (cidx q D) l /\ same_vertex H T r v q (node_at q D l).
  Proof.
    intros Hr X D Y. destruct (cls_mem r j q Hr (proj1 X) Y) as (Hq & Z). destruct (cidx_ok q D Z) as (A & B). assert (SC : same_class r (row H r j) q (row H q (cidx q D))) by (apply csame; auto; apply X). assert (AT : at_vertex H T q (node_at q D l) (cidx q D) l). { split; auto. split; auto. rewrite <- (nt_same H T n HT r q j (cidx q D)); auto. apply X. apply X. } split; auto. exists j, (cidx q D), l. auto.
  Qed.
  Lemma same_in r v j l q v' : r < np -> q < np -> at_vertex H T r v j l -> same_vertex H T r v q v' -> In q (members r (row H r j)) /\ v' = node_at q (members r (row H r j)) l.
  Proof.
    intros Hr Hq X (j1 & j2 & l1 & A1 & A2 & SC). destruct (at_uniq r v j l j1 l1 Hr X A1) as (<- & <-). assert (I : In q (members r (row H r j))). { apply in_members. apply SC. now left. } split; auto. destruct (node_at_ok r v j l q Hr X I) as (B & _). apply csame in SC; auto; [|apply X|apply A2].
    destruct (cidx_ok q _ (proj2 (cls_mem r j q Hr (proj1 X) I))) as (C1 & C2). rewrite <- C2 in SC at 1. apply cinj in SC; auto; [|apply A2]. unfold node_at. rewrite SC. symmetry. apply A2.
  Qed.
  Lemma D_filter r j : r < np -> j < length (nth r H []) -> filter (fun q => has q (members r (row H r j))) (seq 0 np) = members r (row H r j).
  Proof.
    intros Hr Hj. apply sset_ext. apply ss_filter_r, seq_sset. now apply members_sset, crow_inc. intros x. rewrite filter_In, has_in, in_seq. split. tauto. intros X. split; auto. destruct (cls_mem r j x Hr Hj X). lia.
  Qed.
  Lemma total_eq data r v j l : r < np -> (forall q, q < np -> size data q = n q) -> at_vertex H T r v j l -> let D := members r (row H r j) in total H T data r v = sumZ (map (fun q => val data q (node_at q D l)) D).
  Proof.
    intros Hr HN X D. unfold total. transitivity (sumZ (map (fun q => val data q (node_at q D l)) (filter (fun q => has q D) (seq 0 np)))). 2: { f_equal. f_equal. exact (D_filter r j Hr (proj1 X)). } rewrite <- sumZ_filter. apply sumZ_ext. intros q Y. apply in_seq in Y. fold D. destruct (has q D) eqn:E.
    - apply has_in in E. destruct (node_at_ok r v j l q Hr X E) as (A & B). rewrite (sumZ_single _ _ (node_at q D l)). apply same_vertex_iff in B. fold D in B. now rewrite B. rewrite HN by lia. eapply at_lt; eauto. lia. intros k _ N. destruct (same_vertex_b H T r v q k) eqn:S; auto. exfalso. apply same_vertex_iff in S. apply N. eapply same_in; eauto. lia.
    - apply sumZ_zero. intros k _. destruct (same_vertex_b H T r v q k) eqn:S; auto. apply same_vertex_iff in S. eapply same_in in S as (S & _); eauto; [|lia]. apply has_in in S. fold D in S. congruence.
  Qed.
End Nodes.
