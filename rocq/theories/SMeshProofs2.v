(** SetUpDOFedEdges *)
From Verif Require Import Base ArraysModel SMapModel SMapProofs SMapProofs8 SMapProofs9 SMeshModel.
Import ListNotations.

(** an edge with at most one ghost end *)
Definition solid (gv : list bool) (e : nat * nat) : bool := negb (nth (fst e) gv false && nth (snd e) gv false).
Definition dofed_nrs (gv : list bool) (edges : list (nat * nat)) : list nat := filter (fun k => solid gv (nth k edges (O, O))) (seq 0 (length edges)).
Definition ends_ok (nv : nat) (edges : list (nat * nat)) : Prop := forall e, In e edges -> (fst e < nv)%nat /\ (snd e < nv)%nat.

Lemma notgg_ok gv e : (fst e < length gv)%nat -> (snd e < length gv)%nat -> notgg gv e = Ret (solid gv e).
Proof. intros A B. unfold notgg, solid. rewrite (rd_ok gv _ false) by auto. cbn [bind]. destruct (nth (fst e) gv false); [|reflexivity]. rewrite (rd_ok gv _ false) by auto. reflexivity. Qed.
Definition rems (gv : list bool) (edges : list (nat * nat)) : list bool := map (fun e => negb (solid gv e)) edges.
Lemma dof_entries_ok gv : forall edges c des e2d, ends_ok (length gv) edges ->
  foldM (dof_entry gv) edges (c, des, e2d) = Ret ((c + length (dofed_nrs gv edges))%nat, des ++ map (solid gv) edges, e2d ++ row_map (rems gv edges) c).
Proof.
  induction edges as [|e edges IH]; intros c des e2d H; [cbn; rewrite Nat.add_0_r, !app_nil_r; reflexivity|].
  destruct (H e ltac:(cbn; auto)) as [A B]. cbn [foldM]. unfold dof_entry at 1. rewrite notgg_ok by auto. cbn [bind].
  assert (K : length (dofed_nrs gv (e :: edges)) = ((if solid gv e then 1 else 0) + length (dofed_nrs gv edges))%nat).
  { unfold dofed_nrs. cbn [length seq filter nth]. rewrite <- seq_shift. rewrite (filter_map_S (fun k => solid gv (nth k (e :: edges) (O, O)))). cbn [nth]. destruct (solid gv e); cbn [length]; rewrite map_length; reflexivity. }
  rewrite K. unfold rems. cbn [map row_map]. fold (rems gv edges). destruct (solid gv e); cbn [negb]; rewrite IH by (intros x Hx; apply H; cbn; auto); rewrite <- !app_assoc; cbn [app]; [replace (c + (1 + length (dofed_nrs gv edges)))%nat with (S c + length (dofed_nrs gv edges))%nat by lia|]; reflexivity.
Qed.
Lemma row_map_nth : forall rem k n, (k < length rem)%nat -> nth k (row_map rem n) 0%Z = if nth k rem true then (-1)%Z else Z.of_nat (n + length (filter (fun j => negb (nth j rem true)) (seq 0 k))).
Proof.
  induction rem as [|b rem IH]; intros k n H; [cbn in H; lia|]. cbn [row_map]. destruct k as [|k].
  - cbn [nth seq filter length]. rewrite Nat.add_0_r. destruct b; reflexivity.
  - cbn [length] in H. cbn [seq filter]. rewrite <- seq_shift. rewrite (filter_map_S (fun j => negb (nth j (b :: rem) true))). cbn [nth]. destruct b; cbn [nth negb length]; rewrite IH by lia; rewrite map_length; destruct (nth k rem true); auto. f_equal. lia.
Qed.
Lemma row_map_len : forall rem n, length (row_map rem n) = length rem.
Proof. induction rem as [|b rem IH]; intros n; auto. cbn [row_map]. destruct b; cbn [length]; rewrite IH; auto. Qed.

Lemma filter_seq_split {P : nat -> bool} n k : (k <= n)%nat -> filter P (seq 0 n) = filter P (seq 0 k) ++ filter P (seq k (n - k)).
Proof. intros H. rewrite <- filter_app, <- seq_app. do 2 f_equal. lia. Qed.
(** the number of an edge: how many dofed edges come before *)
Lemma e2dof_nth gv edges k : (k < length edges)%nat -> nth k (row_map (rems gv edges) 0) 0%Z = if solid gv (nth k edges (O, O)) then Z.of_nat (length (filter (fun j => solid gv (nth j edges (O, O))) (seq 0 k))) else (-1)%Z.
Proof.
  intros H. rewrite row_map_nth by (unfold rems; rewrite map_length; auto). unfold rems at 1. rewrite (nth_map_in _ _ _ _ (O, O)) by auto. destruct (solid gv (nth k edges (O, O))); cbn [negb]; auto. cbn [Nat.add]. do 2 f_equal.
  apply filter_ext_in. intros j Hj. apply in_seq in Hj. unfold rems. rewrite (nth_map_in _ _ _ _ (O, O)) by lia. apply negb_involutive.
Qed.
Lemma SetUp_ok d gv edges : ends_ok (length gv) edges ->
  SetUpDOFedEdges d (Some gv) edges = Ret (map (solid gv) edges, dofed_nrs gv edges, row_map (rems gv edges) 0).
Proof.
  intros H. unfold SetUpDOFedEdges. rewrite dof_entries_ok by auto. cbn [bind app Nat.add].
  set (P := fun k => solid gv (nth k edges (O, O))).
  assert (G : forall m, (m <= length edges)%nat -> foldM (d2e_entry (map (solid gv) edges) (row_map (rems gv edges) 0)) (seq 0 m) (repeat O (length (dofed_nrs gv edges))) =
     Ret (filter P (seq 0 m) ++ repeat O (length (filter P (seq m (length edges - m)))))).
  { induction m as [|m IH]; intros Hm.
    - rewrite Nat.sub_0_r. reflexivity.
    - rewrite seq_S, foldM_app, IH by lia. cbn [bind Nat.add foldM]. unfold d2e_entry. rewrite (rd_ok _ m true) by (rewrite map_length; lia). cbn [bind]. rewrite (nth_map_in _ _ _ _ (O, O)) by lia.
      replace (length edges - m)%nat with (S (length edges - S m)) by lia. cbn [seq filter]. rewrite filter_app. cbn [filter]. fold (P m). destruct (P m) eqn:E.
      + unfold rdz. destruct (Z.ltb_spec (Z.of_nat m) 0); [lia|]. rewrite Nat2Z.id. rewrite (rd_ok _ m 0%Z) by (rewrite row_map_len; unfold rems; rewrite map_length; lia). cbn [bind].
        rewrite e2dof_nth by lia. fold (P m). rewrite E. fold P. destruct (Z.ltb_spec (Z.of_nat (length (filter P (seq 0 m)))) 0); [lia|]. rewrite Nat2Z.id. cbn [length repeat].
        rewrite wr_ok by (rewrite app_length; cbn [length]; lia). cbn [bind]. f_equal.
        generalize (filter P (seq 0 m)). induction l as [|x l IHl]; [reflexivity|]. cbn [length app upd]. f_equal. exact IHl.
      + rewrite app_nil_r. reflexivity. }
  rewrite G by lia. cbn [bind]. rewrite Nat.sub_diag. cbn [seq filter length repeat]. rewrite app_nil_r. reflexivity.
Qed.
(** dof number and edge number *)
Lemma dof_of_edge gv edges k : (k < length edges)%nat -> solid gv (nth k edges (O, O)) = true ->
  exists d, nth k (row_map (rems gv edges) 0) 0%Z = Z.of_nat d /\ (d < length (dofed_nrs gv edges))%nat /\ nth d (dofed_nrs gv edges) O = k.
Proof.
  intros H E. rewrite e2dof_nth by auto. rewrite E. eexists. split; [reflexivity|]. unfold dofed_nrs. set (P := fun j => solid gv (nth j edges (O, O))). rewrite (filter_seq_split (P := P) (length edges) k) by lia.
  replace (length edges - k)%nat with (S (length edges - S k)) by lia. cbn [seq filter]. change (solid gv (nth k edges (O, O))) with (P k) in E. rewrite E. rewrite app_length. cbn [length]. split; [lia|]. rewrite app_nth2 by lia. rewrite Nat.sub_diag. reflexivity.
Qed.
Lemma dofed_nrs_in gv edges k : In k (dofed_nrs gv edges) <-> (k < length edges)%nat /\ solid gv (nth k edges (O, O)) = true.
Proof. unfold dofed_nrs. rewrite filter_In, in_seq. intuition lia. Qed.
