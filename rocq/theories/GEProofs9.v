(** Tables of edges in terms of the classes. *)
From Verif Require Import Base EQCModel UtilProofs EQCProofs EQCProofs2 EQCProofs3 EQCProps AggMapModel AggMapProofs GCModel GCProofs GCProofs2 GCProps GEModel GEProofs GEProofs2 GEProofs3 GEProofs4 GEProofs5 GEProofs6 GEProofs7 GEProofs8 GESpec.
Local Open Scope nat_scope.

Lemma f2_nth {A B} (R : A -> B -> Prop) l l' : Forall2 R l l' -> length l = length l' /\ forall i d d', i < length l -> R (nth i l d) (nth i l' d').
Proof. induction 1 as [|x y l l' H1 H2 (A1 & A2)]; split; auto; cbn [length]. intros; lia. lia. intros [|i] d d' Hi; cbn [nth]; auto. apply A2. lia. Qed.
Lemma f2_map {A B C} (R : A -> B -> Prop) (f : A -> C) (h : B -> C) l l' : Forall2 R l l' -> (forall a b, R a b -> f a = h b) -> map f l = map h l'.
Proof. induction 1; intros X; cbn; auto. f_equal; auto. Qed.
Lemma concat_rows {A} (t : list (list A)) : concat t = flat_map (fun j => nth j t []) (seq 0 (length t)).
Proof. induction t as [|x t IH]; auto. cbn [length seq flat_map concat nth]. f_equal. rewrite IH, <- seq_shift, !flat_map_concat_map, map_map. reflexivity. Qed.

Section GE9.
  Variables (H V : list (list (list nat))) (EI EC : list (list (list fedge))).
  Hypothesis HW : world H.
  Hypothesis HV : vertex_tables H V.
  Hypothesis HE : edge_tables H V EI EC.
  Notation np := (length H).
  Notation nv := (nv H V).
  Definition vtab (r : nat) : list (nat * nat) := flat_map (fun j => map (pair j) (seq 0 (length (row V r j)))) (seq 0 (length (nth r V []))).
  Definition gvr (r v : nat) : gv := let x := nth v (vtab r) (0, 0) in (nth (fst x) (classes H r) [], snd x).
  Notation gf := (gf gvr).
  Definition at_class (D : list nat) (T : list (list (list fedge))) : list ge := let r := hd 0 D in map (gf r) (row T r (idx list_eqb D (classes H r))).
  Definition ei (D : list nat) : list ge := at_class D EI.
  Definition ec (D : list nat) : list ge := at_class D EC.

  Lemma at_num r v j l : r < np -> at_vertex H V r v j l -> v = sg (fun j => length (row V r j)) j + l /\ v < length (concat (nth r V [])) /\ gvr r v = (nth j (classes H r) [], l).
  Proof.
    intros Hr (Hj & Hl & E). rewrite <- (vt_rows H V HV r Hr) in Hj. destruct (flat_seq_nth (fun j => row V r j) _ j l 0 Hj Hl) as (A & B). rewrite <- concat_rows in A, B. rewrite (vt_numbers H V HV r Hr), seq_nth in A by auto. cbn [Nat.add] in A. rewrite E in A. split; auto. rewrite <- A. split; auto.
    unfold gvr, vtab. destruct (flat_seq_nth (fun j => map (pair j) (seq 0 (length (row V r j)))) _ j l (0, 0) Hj) as (A' & _). now rewrite map_length, seq_length.
    rewrite (sg_ext _ (fun j => length (row V r j))) in A' by (intros; now rewrite map_length, seq_length). rewrite A'. rewrite (nth_map_ok _ _ _ 0) by (now rewrite seq_length). now rewrite seq_nth.
  Qed.
  Lemma row_inc r j : r < np -> j < length (nth r H []) -> increasing (row H r j).
  Proof. intros Hr Hj. apply (row_facts H HW r); auto. now apply nth_In. Qed.
  Lemma cls_nth r j : j < length (nth r H []) -> nth j (classes H r) [] = members r (row H r j).
  Proof. intros Hj. unfold classes. now rewrite (nth_map_ok _ _ _ []). Qed.
  Lemma same_cls r r' j j' : r < np -> r' < np -> j < length (nth r H []) -> j' < length (nth r' H []) -> (same_class r (row H r j) r' (row H r' j') <-> nth j (classes H r) [] = nth j' (classes H r') []).
  Proof. intros Hr Hr' Hj Hj'. rewrite !cls_nth by auto. apply same_members; now apply row_inc. Qed.
  Lemma cls_inj r j j' : r < np -> j < length (nth r H []) -> j' < length (nth r H []) -> nth j (classes H r) [] = nth j' (classes H r) [] -> j = j'.
  Proof. intros Hr Hj Hj' E. apply (proj1 (NoDup_nth (classes H r) []) (classes_nodup H HW r Hr)); auto; unfold classes; now rewrite map_length. Qed.
  Lemma gvr_inj r v v' j l j' l' : r < np -> at_vertex H V r v j l -> at_vertex H V r v' j' l' -> gvr r v = gvr r v' -> v = v'.
  Proof.
    intros Hr X X' E. destruct (at_num r v j l Hr X) as (A & _ & B). destruct (at_num r v' j' l' Hr X') as (A' & _ & B'). rewrite B, B' in E. injection E as E1 E2. apply cls_inj in E1; auto; [|apply X|apply X']. subst. auto.
  Qed.
  Lemma same_gvr r v r' v' : r < np -> r' < np -> same_vertex H V r v r' v' -> gvr r v = gvr r' v'.
  Proof. intros Hr Hr' (j & j' & l & X & X' & SC). destruct (at_num r v j l Hr X) as (_ & _ & B). destruct (at_num r' v' j' l Hr' X') as (_ & _ & B'). rewrite B, B'. f_equal. apply same_cls; auto. apply X. apply X'. Qed.
  Lemma gvr_same r v r' v' j l j' l' : r < np -> r' < np -> at_vertex H V r v j l -> at_vertex H V r' v' j' l' -> gvr r v = gvr r' v' -> same_vertex H V r v r' v'.
  Proof. intros Hr Hr' X X' E. destruct (at_num r v j l Hr X) as (_ & _ & B). destruct (at_num r' v' j' l' Hr' X') as (_ & _ & B'). rewrite B, B' in E. injection E as E1 ->. exists j, j', l'. split; auto. split; auto. apply same_cls; auto. apply X. apply X'. Qed.
  Lemma same_gf r r' e e' : r < np -> r' < np -> same_ends H V r r' e e' -> gf r e = gf r' e'.
  Proof. intros Hr Hr' (A & B). unfold GEProofs3.gf. f_equal; now apply same_gvr. Qed.
  (** the rank that stands for a class *)
  Lemma lead_rank r j : r < np -> j < length (nth r H []) -> let D := nth j (classes H r) [] in let r0 := hd 0 D in let j0 := idx list_eqb D (classes H r0) in r0 < np /\ j0 < length (nth r0 H []) /\ nth j0 (classes H r0) [] = D.
  Proof.
    intros Hr Hj D r0 j0. assert (X : In D (classes H r)) by (apply nth_In; unfold classes; now rewrite map_length). destruct (class_facts H HW r D Hr X) as (S1 & S2 & S3 & S4). assert (R0 : In r0 D) by (unfold r0; destruct D; [destruct S2|now left]). destruct (class_cons H HW r D r0 Hr X R0) as (Hr0 & X0).
    destruct (pos_by_idx list_eqb D (classes H r0) (fun a b => list_eqb_eq a b) X0 0) as (_ & A & B). split; auto. split; [|apply B]. unfold classes in A. rewrite map_length in A. exact A.
  Qed.
  Lemma E_ei r j : r < np -> j < length (nth r H []) -> map (gf r) (row EI r j) = ei (nth j (classes H r) []).
  Proof. intros Hr Hj. destruct (lead_rank r j Hr Hj) as (A & B & C). unfold ei, at_class. eapply f2_map. apply (et_same H V EI EC HE); auto. apply same_cls; auto. intros a b X. now apply same_gf. Qed.
  Lemma E_ec r j : r < np -> j < length (nth r H []) -> map (gf r) (row EC r j) = ec (nth j (classes H r) []).
  Proof. intros Hr Hj. destruct (lead_rank r j Hr Hj) as (A & B & C). unfold ec, at_class. eapply f2_map. apply (et_same H V EI EC HE); auto. apply same_cls; auto. intros a b X. now apply same_gf. Qed.
  Lemma nv_row r j : r < np -> j < length (nth r H []) -> nv (nth j (classes H r) []) = length (row V r j).
  Proof. intros Hr Hj. apply nv_ok; auto. intros r1 r2 j1 j2 H1 H2 H3 H4 E. apply (vt_same H V HV); auto. now apply same_cls. Qed.
  Lemma class_row r D : In D (classes H r) -> exists j, j < length (nth r H []) /\ D = nth j (classes H r) [].
  Proof. intros X. destruct (In_nth _ _ [] X) as (j & A & B). exists j. unfold classes in A. rewrite map_length in A. auto. Qed.
  Lemma ei_from r D e : r < np -> In D (classes H r) -> In e (ei D) -> exists j f, j < length (nth r H []) /\ D = nth j (classes H r) [] /\ In f (row EI r j) /\ e = gf r f.
  Proof. intros Hr X Y. destruct (class_row r D X) as (j & A & B). subst D. rewrite <- E_ei in Y by auto. apply in_map_iff in Y as (f & <- & F). exists j, f. auto. Qed.
  Lemma ec_from r D e : r < np -> In D (classes H r) -> In e (ec D) -> exists j f, j < length (nth r H []) /\ D = nth j (classes H r) [] /\ In f (row EC r j) /\ e = gf r f.
  Proof. intros Hr X Y. destruct (class_row r D X) as (j & A & B). subst D. rewrite <- E_ec in Y by auto. apply in_map_iff in Y as (f & <- & F). exists j, f. auto. Qed.
  Lemma in_rank_ei r j f : r < np -> j < length (nth r H []) -> In f (row EI r j) -> In f (rank_edges EI EC r).
  Proof. intros Hr Hj X. apply in_or_app. left. apply in_concat. exists (row EI r j). split; auto. apply nth_In. destruct (et_rows H V EI EC HE r Hr). lia. Qed.
  Lemma in_rank_ec r j f : r < np -> j < length (nth r H []) -> In f (row EC r j) -> In f (rank_edges EI EC r).
  Proof. intros Hr Hj X. apply in_or_app. right. apply in_concat. exists (row EC r j). split; auto. apply nth_In. destruct (et_rows H V EI EC HE r Hr). lia. Qed.
  (** a vertex of an edge *)
  Lemma ends_at r f : r < np -> In f (rank_edges EI EC r) -> (exists j l, at_vertex H V r (fst (fst f)) j l) /\ (exists j l, at_vertex H V r (snd (fst f)) j l).
  Proof.
    intros Hr X. destruct (et_rows H V EI EC HE r Hr) as (L1 & L2). apply in_app_or in X as [X|X]; apply in_concat in X as (y & Y & X); destruct (In_nth _ _ [] Y) as (j & Hj & <-).
    - destruct (et_inner H V EI EC HE r j f Hr ltac:(lia) X) as ((l & A) & (l' & B)). split; [exists j, l; exact A|exists j, l'; exact B].
    - destruct (et_cross H V EI EC HE r j f Hr ltac:(lia) X) as (j0 & l0 & j1 & l1 & A & B & _). split; [exists j0, l0; exact A|exists j1, l1; exact B].
  Qed.
  Lemma gf_inj r f f' : r < np -> In f (rank_edges EI EC r) -> In f' (rank_edges EI EC r) -> gf r f = gf r f' -> f = f'.
  Proof.
    intros Hr X X' E. destruct (ends_at r f Hr X) as ((a1 & b1 & A1) & (a2 & b2 & A2)). destruct (ends_at r f' Hr X') as ((c1 & d1 & B1) & (c2 & d2 & B2)). assert (E1 : gvr r (fst (fst f)) = gvr r (fst (fst f'))) by exact (f_equal fst E). assert (E2 : gvr r (snd (fst f)) = gvr r (snd (fst f'))) by exact (f_equal snd E). apply (gvr_inj r _ _ a1 b1 c1 d1) in E1; auto. apply (gvr_inj r _ _ a2 b2 c2 d2) in E2; auto.
    destruct (In_nth _ _ f X) as (i & Hi & Ei). destruct (In_nth _ _ f X') as (i' & Hi' & Ei'). assert (i = i'). { apply (proj1 (NoDup_nth (map fst (rank_edges EI EC r)) (fst f)) (et_once H V EI EC HE r Hr)). 1,2: now rewrite map_length. rewrite !(nth_map_ok _ _ _ f) by auto. rewrite Ei, Ei'. destruct f as ((u & v) & n), f' as ((u' & v') & n'). cbn [fst snd] in *. congruence. } subst. congruence.
  Qed.
  Lemma gf_swap r f f' : r < np -> In f (rank_edges EI EC r) -> In f' (rank_edges EI EC r) -> gf r f' <> (snd (gf r f), fst (gf r f)).
  Proof.
    intros Hr X X' E. destruct (ends_at r f Hr X) as ((a1 & b1 & A1) & (a2 & b2 & A2)). destruct (ends_at r f' Hr X') as ((c1 & d1 & B1) & (c2 & d2 & B2)). assert (E1 : gvr r (fst (fst f')) = gvr r (snd (fst f))) by exact (f_equal fst E). assert (E2 : gvr r (snd (fst f')) = gvr r (fst (fst f))) by exact (f_equal snd E). apply (gvr_inj r _ _ c1 d1 a2 b2) in E1; auto. apply (gvr_inj r _ _ c2 d2 a1 b1) in E2; auto.
    pose proof (et_order H V EI EC HE r f Hr X). pose proof (et_order H V EI EC HE r f' Hr X'). lia.
  Qed.
  Lemma ei_ok r D e : r < np -> In D (classes H r) -> In e (ei D) -> fst (fst e) = D /\ fst (snd e) = D /\ snd (fst e) < nv D /\ snd (snd e) < nv D.
  Proof.
    intros Hr X Y. destruct (ei_from r D e Hr X Y) as (j & f & Hj & -> & F & ->). destruct (et_inner H V EI EC HE r j f Hr Hj F) as ((l & A) & (l' & B)). destruct (at_num r _ j l Hr A) as (_ & _ & A'). destruct (at_num r _ j l' Hr B) as (_ & _ & B'). unfold GEProofs3.gf. cbn [fst snd]. rewrite A', B'. cbn [fst snd]. rewrite nv_row by auto. split; auto. split; auto. split. apply A. apply B.
  Qed.
  Lemma cross_facts r j f : r < np -> j < length (nth r H []) -> In f (row EC r j) -> exists j0 l0 j1 l1, j0 < length (nth r H []) /\ j1 < length (nth r H []) /\ l0 < length (row V r j0) /\ l1 < length (row V r j1) /\ gvr r (fst (fst f)) = (nth j0 (classes H r) [], l0) /\ gvr r (snd (fst f)) = (nth j1 (classes H r) [], l1) /\ j0 <> j1 /\
    forall x, In x (nth j (classes H r) []) <-> In x (nth j0 (classes H r) []) /\ In x (nth j1 (classes H r) []).
  Proof.
    intros Hr Hj F. destruct (et_cross H V EI EC HE r j f Hr Hj F) as (j0 & l0 & j1 & l1 & A & B & C & D). exists j0, l0, j1, l1. destruct (at_num r _ j0 l0 Hr A) as (_ & _ & A'). destruct (at_num r _ j1 l1 Hr B) as (_ & _ & B'). destruct A as (A1 & A2 & _), B as (B1 & B2 & _). repeat (split; auto); rewrite ?cls_nth in * by auto; rewrite ?in_members in *; apply D; auto.
  Qed.
  Lemma ec_ok r D e : r < np -> In D (classes H r) -> In e (ec D) -> In (fst (fst e)) (classes H r) /\ In (fst (snd e)) (classes H r) /\ snd (fst e) < nv (fst (fst e)) /\ snd (snd e) < nv (fst (snd e)).
  Proof.
    intros Hr X Y. destruct (ec_from r D e Hr X Y) as (j & f & Hj & -> & F & ->). destruct (cross_facts r j f Hr Hj F) as (j0 & l0 & j1 & l1 & A1 & A2 & A3 & A4 & A5 & A6 & A7 & A8). unfold GEProofs3.gf. cbn [fst snd]. rewrite A5, A6. cbn [fst snd]. rewrite !nv_row by auto. split. apply nth_In. unfold classes. now rewrite map_length. split; auto. apply nth_In. unfold classes. now rewrite map_length.
  Qed.
  Lemma ec_det r D e : r < np -> In D (classes H r) -> In e (ec D) -> (forall x, In x D <-> In x (fst (fst e)) /\ In x (fst (snd e))) /\ fst (fst e) <> fst (snd e).
  Proof.
    intros Hr X Y. destruct (ec_from r D e Hr X Y) as (j & f & Hj & -> & F & ->). destruct (cross_facts r j f Hr Hj F) as (j0 & l0 & j1 & l1 & A1 & A2 & A3 & A4 & A5 & A6 & A7 & A8). unfold GEProofs3.gf. cbn [fst snd]. rewrite A5, A6. cbn [fst snd]. split; auto. intros Q. apply A7. now apply (cls_inj r).
  Qed.
  Lemma rows_nd r j T : r < np -> (forall f, In f (row T r j) -> In f (rank_edges EI EC r)) -> NoDup (row T r j) -> NoDup (map (gf r) (row T r j)).
  Proof. intros Hr X N. apply nodup_map_in; auto. intros x y Hx Hy E. apply (gf_inj r); auto. Qed.
  Lemma rank_nd r : r < np -> NoDup (rank_edges EI EC r).
  Proof. intros Hr. apply (NoDup_map_inv snd). rewrite (et_numbers H V EI EC HE r Hr). apply seq_NoDup. Qed.
  Lemma row_nd {A} (t : list (list A)) j : NoDup (concat t) -> NoDup (nth j t []).
  Proof. revert j. induction t as [|x t IH]; intros [|j] N; cbn [nth]; try constructor; cbn [concat] in N. now apply NoDup_app_l in N. apply IH. now apply NoDup_app_r in N. Qed.
  Lemma ec_nd r D : r < np -> In D (classes H r) -> NoDup (ec D).
  Proof. intros Hr X. destruct (class_row r D X) as (j & A & ->). rewrite <- E_ec by auto. apply rows_nd; auto. intros f F. now apply (in_rank_ec r j). apply row_nd. pose proof (rank_nd r Hr) as N. now apply NoDup_app_r in N. Qed.
  Lemma ei_nd r D : r < np -> In D (classes H r) -> NoDup (ei D).
  Proof. intros Hr X. destruct (class_row r D X) as (j & A & ->). rewrite <- E_ei by auto. apply rows_nd; auto. intros f F. now apply (in_rank_ei r j). apply row_nd. pose proof (rank_nd r Hr) as N. now apply NoDup_app_l in N. Qed.
  Lemma ec_sw r D e : r < np -> In D (classes H r) -> In e (ec D) -> ~ In (snd e, fst e) (ec D).
  Proof. intros Hr X Y Z. destruct (ec_from r D e Hr X Y) as (j & f & Hj & -> & F & ->). destruct (ec_from r _ _ Hr X Z) as (j' & f' & Hj' & _ & F' & E). exact (gf_swap r f f' Hr (in_rank_ec r j f Hr Hj F) (in_rank_ec r j' f' Hr Hj' F') (eq_sym E)). Qed.
  Lemma ei_sw r D e : r < np -> In D (classes H r) -> In e (ei D) -> ~ In (snd e, fst e) (ei D).
  Proof. intros Hr X Y Z. destruct (ei_from r D e Hr X Y) as (j & f & Hj & -> & F & ->). destruct (ei_from r _ _ Hr X Z) as (j' & f' & Hj' & _ & F' & E). exact (gf_swap r f f' Hr (in_rank_ei r j f Hr Hj F) (in_rank_ei r j' f' Hr Hj' F') (eq_sym E)). Qed.
  (** numbers *)
  Lemma upE_perm r : r < np -> Permutation (upE EI EC r (length (nth r H []))) (rank_edges EI EC r).
  Proof.
    intros Hr. destruct (et_rows H V EI EC HE r Hr) as (L1 & L2). unfold upE, rank_edges. rewrite (concat_rows (nth r EI [])), (concat_rows (nth r EC [])), L1, L2. clear. induction (seq 0 (length (nth r H []))) as [|j l IH]; cbn [flat_map]; auto. rewrite <- !app_assoc. apply Permutation_app_head. rewrite IH. rewrite !app_assoc. apply Permutation_app_tail. apply Permutation_app_comm.
  Qed.
  Lemma num_lt r e : r < np -> In e (upE EI EC r (length (nth r H []))) -> snd e < nE EI EC r.
  Proof. intros Hr X. apply (Permutation_in _ (upE_perm r Hr)) in X. apply (in_map snd) in X. rewrite (et_numbers H V EI EC HE r Hr) in X. apply in_seq in X. unfold rank_edges in X. rewrite app_length in X. unfold nE. lia. Qed.
  Lemma num_nd r : r < np -> NoDup (map snd (upE EI EC r (length (nth r H [])))).
  Proof. intros Hr. eapply Permutation_NoDup. apply Permutation_map, Permutation_sym, upE_perm; auto. rewrite (et_numbers H V EI EC HE r Hr). apply seq_NoDup. Qed.
End GE9.
