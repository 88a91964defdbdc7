(** Properties C31-C34: maps between the dofs of AMG levels. *)
From Verif Require Import Base ArraysModel AGroup LinAlg LinTools Instances SparseModel SparseSpec SparseProofs SparseProofs2 SparseProofs3 MergeModel MergeProofs SparseProps DofMapModel DofMapSpec DofMapProofs DofMapProofs2.
Open Scope nat_scope.

(** *** reachable DOFMaps and histories *)
Section Reach.
  Context {B : Blk} (mmul : M B -> M B -> M B) (tasks : nat -> list nat) (garbage : nat -> nat -> hash).
  Inductive dm_reach : @dofmap B -> Prop :=
  | re_new : dm_reach dm_new
  | re_fin d : dm_reach d -> dm_reach (dm_Finalize d)
  | re_add d s d' : dm_reach d -> dm_AddStep d s = Ret d' -> dm_reach d'
  | re_pre d s d' : dm_reach d -> dm_PrependStep d s = Ret d' -> dm_reach d'
  | re_rep d k s d' : dm_reach d -> dm_ReplaceStep d k s = Ret d' -> dm_reach d'
  | re_asm d A ms d' : dm_reach d -> dm_AssembleMatrices mmul tasks garbage d A = Ret (ms, d') -> dm_reach d'
  | re_tra d la lb x o v d' : dm_reach d -> dm_TransferAtoB mmul tasks garbage (fun _ _ => None) d la lb x o = Ret (v, d') -> dm_reach d'.
  Definition dm_inv (d : @dofmap B) : Prop :=
    dm_fin d = true -> length (dm_vecs d) = S (length (dm_steps d)) /\ forall i, i < length (dm_steps d) -> exists v, nth_error (dm_vecs d) i = Some (Some v).
  Lemma inv_fin d : dm_inv d -> dm_inv (dm_Finalize d).
  Proof.
    intros H. unfold dm_Finalize. destruct (_ || _); auto. intros _. cbn [dm_vecs dm_steps]. rewrite app_length, map_length. split; [simpl; lia|].
    intros i Hi. exists []. rewrite nth_error_app1 by now rewrite map_length. rewrite nth_error_map. destruct (nth_error (dm_steps d) i) eqn:E; auto.
    apply nth_error_None in E. lia.
  Qed.
  Lemma fin_fin (d : @dofmap B) : dm_fin (dm_Finalize d) = true \/ dm_steps d = [].
  Proof. unfold dm_Finalize. destruct (dm_steps d) as [|? ?] eqn:E; [now right|]. left. simpl. destruct (dm_fin d) eqn:F; auto. Qed.
  Lemma fin_steps (d : @dofmap B) : dm_steps (dm_Finalize d) = dm_steps d.
  Proof. unfold dm_Finalize. destruct (_ || _); auto. Qed.
  Lemma inv_steps d st : dm_inv d -> length st = length (dm_steps d) -> dm_inv (mkDM st (dm_fin d) (dm_vecs d)).
  Proof. intros H E F. cbn [dm_fin dm_vecs dm_steps] in *. rewrite E. apply H. exact F. Qed.
  Lemma asm_len l : forall A ms l', asm_chain (assemble mmul tasks garbage) l A = Ret (ms, l') -> length l' = length l.
  Proof.
    induction l as [|s t IH]; intros A ms l' E; cbn [asm_chain] in E; [now inversion E|].
    destruct (assemble _ _ _ s A) as [p|]; cbn [bind] in E; [|discriminate]. destruct (asm_chain _ t (fst p)) as [[q1 q2]|] eqn:EQ; cbn [bind] in E; [|discriminate].
    inversion E. simpl. f_equal. apply (IH _ _ _ EQ).
  Qed.
  Lemma reach_inv d : dm_reach d -> dm_inv d.
  Proof.
    induction 1.
    - intros F. discriminate.
    - now apply inv_fin.
    - unfold dm_AddStep in H0. destruct (dm_fin d) eqn:F; inversion H0. intros C. discriminate.
    - unfold dm_PrependStep in H0. destruct (dm_fin d) eqn:F; inversion H0. intros C. discriminate.
    - unfold dm_ReplaceStep, wr in H0. destruct (k <? length (dm_steps d)); cbn [bind] in H0; inversion H0. apply inv_steps; auto. apply upd_length.
    - unfold dm_AssembleMatrices in H0. destruct (asm_chain _ _ A) as [[q1 q2]|] eqn:E; cbn [bind] in H0; inversion H0. apply inv_steps; [now apply inv_fin|].
      apply asm_len in E. exact E.
    - unfold dm_TransferAtoB in H0. destruct (la =? lb); [inversion H0; subst; auto|]. destruct (_ =? _); [inversion H0; subst; auto|].
      destruct (if lb <? la then _ else _) as [l1 l2]. unfold dm_ConcStep in H0.
      destruct (if l2 <? l1 then _ else _) as [k1 k2]. destruct (k1 + 1 =? k2).
      + destruct (rd _ _); cbn [bind] in H0; [|discriminate]. cbn [fst snd] in H0. destruct (if lb <? la then _ else _); cbn [bind] in H0; inversion H0. now apply inv_fin.
      + destruct (_ <? _); [discriminate|]. destruct (get_vecs _); cbn [bind] in H0; [|discriminate]. cbn [fst snd] in H0.
        destruct (if lb <? la then _ else _); cbn [bind] in H0; inversion H0. now apply inv_fin.
  Qed.
End Reach.

Section Transfer.
  Context {B : Blk} (L : BlkLaws B) (mmul : M B -> M B -> M B) (ML : MMulLaws B mmul) (tasks : nat -> list nat) (garbage : nat -> nat -> hash) (cmode : smat (M B) -> smat (M B) -> option bool).
  Notation vec := (list (X B)).
  Notation AtoB := (dm_TransferAtoB mmul tasks garbage cmode).
  Lemma f2c_seq (d : @dofmap B) pre mid post n m x : dm_steps d = pre ++ mid ++ post -> chain_ok true n m mid ->
    foldM (fun v l => dm_F2C d l v) (seq (length pre) (length mid)) x = Ret (Rch mid x).
  Proof.
    revert n pre x. induction mid as [|s t IH]; intros n pre x E C; [reflexivity|]. inversion C as [|? k ? ? ? H1 H2]; subst. cbn [length seq foldM].
    assert (E1 : dm_F2C d (length pre) x = Ret (Rst s x)).
    { unfold dm_F2C, rd. rewrite E, nth_error_app2, Nat.sub_diag by auto. cbn [app nth_error bind]. destruct (proj1 transfer_ok _ _ _ H1) as [Q _]. apply Q. }
    rewrite E1. cbn [bind]. specialize (IH k (pre ++ [s]) (Rst s x)). rewrite app_length in IH. simpl in IH. rewrite Nat.add_1_r in IH. apply IH; auto.
    rewrite E, <- app_assoc. reflexivity.
  Qed.
  Lemma c2f_seq (d : @dofmap B) pre mid post n m x : dm_steps d = pre ++ mid ++ post -> chain_ok true n m mid ->
    foldM (fun v l => dm_C2F d l v) (rev (seq (length pre) (length mid))) x = Ret (Pch mid x).
  Proof.
    revert n pre x. induction mid as [|s t IH]; intros n pre x E C; [reflexivity|]. inversion C as [|? k ? ? ? H1 H2]; subst. cbn [length seq rev].
    rewrite foldM_app. specialize (IH k (pre ++ [s]) x). rewrite app_length in IH. simpl in IH. rewrite Nat.add_1_r in IH. rewrite IH; auto.
    2:{ rewrite E, <- app_assoc. reflexivity. }
    cbn [bind foldM].
    assert (E1 : forall y, dm_C2F d (length pre) y = Ret (Pst s y)).
    { intros y. unfold dm_C2F, rd. rewrite E, nth_error_app2, Nat.sub_diag by auto. cbn [app nth_error bind]. destruct (proj1 transfer_ok _ _ _ H1) as [_ Q]. apply Q. }
    rewrite E1. reflexivity.
  Qed.
  Lemma get_vecs_ok (l : list (option vec)) : (forall i, i < length l -> exists v, nth_error l i = Some (Some v)) -> exists vs, get_vecs l = Ret vs /\ length vs = length l.
  Proof.
    induction l as [|o t IH]; intros H; [exists []; auto|]. destruct (H 0 ltac:(simpl; lia)) as (v & E). simpl in E. inversion E; subst.
    destruct IH as (vs & E1 & E2). { intros i Hi. apply (H (S i)). simpl. lia. } cbn [get_vecs]. rewrite E1. cbn [bind]. exists (v :: vs). simpl. auto.
  Qed.
  Lemma conc_sym (d : @dofmap B) pre mid post n m : dm_inv d -> dm_steps d = pre ++ mid ++ post -> chain_ok true n m mid -> mid <> [] ->
    exists st, dm_ConcStep mmul tasks garbage cmode d (length pre) (length pre + length mid) true = Ret (Some st, dm_Finalize d) /\ step_ok true n m st /\
      (forall x, Rst st x = Rch mid x) /\ (forall x, Pst st x = Pch mid x).
  Proof.
    intros HI E C NE. unfold dm_ConcStep. destruct (Nat.ltb_spec (length pre + length mid) (length pre)); [lia|].
    destruct mid as [|s [|s2 t]]; [congruence| |].
    - simpl length. rewrite Nat.eqb_refl. unfold rd. rewrite fin_steps, E, nth_error_app2, Nat.sub_diag by auto. cbn [app nth_error bind].
      inversion C as [|? k ? ? ? H1 H2]; subst. inversion H2; subst. exists s. auto.
    - set (mid := s :: s2 :: t) in *. assert (LM : 2 <= length mid) by (simpl; lia).
      destruct (Nat.eqb_spec (length pre + 1) (length pre + length mid)); [lia|]. rewrite fin_steps.
      assert (LS : length (dm_steps d) = length pre + length mid + length post) by (rewrite E, !app_length; lia).
      destruct (Nat.ltb_spec (length (dm_steps d)) (length pre + length mid)); [lia|].
      assert (F : dm_fin (dm_Finalize d) = true). { destruct (fin_fin d) as [F|F]; auto. rewrite F in LS. simpl in LS. lia. }
      destruct (inv_fin d HI F) as [V1 V2]. rewrite fin_steps in V1, V2.
      set (l := firstn _ _).
      assert (LL : length l = length mid - 1). { unfold l. rewrite firstn_length, skipn_length. lia. }
      destruct (get_vecs_ok l) as (vs & E1 & E2).
      { intros i Hi. rewrite LL in Hi. destruct (V2 (length pre + 1 + i)) as (v & Ev); [lia|]. exists v. unfold l.
        rewrite <- Ev. rewrite <- (firstn_skipn (length pre + 1) (dm_vecs (dm_Finalize d))) at 2. rewrite nth_error_app2; rewrite firstn_length; [|lia].
        rewrite Nat.min_l by lia. replace (length pre + 1 + i - (length pre + 1)) with i by lia.
        set (q := skipn _ _). rewrite <- (firstn_skipn (length pre + length mid - (length pre + 1)) q) at 2. rewrite nth_error_app1; auto.
        rewrite firstn_length. unfold q. rewrite skipn_length. lia. }
      rewrite E1. cbn [bind]. replace (length pre + length mid - length pre) with (length mid) by lia.
      rewrite E. rewrite skipn_app, skipn_all, Nat.sub_diag. cbn [app skipn]. rewrite firstn_app, firstn_all, Nat.sub_diag, firstn_O, app_nil_r.
      destruct vs as [|v0 vs]; [simpl in E2; lia|]. eexists. split; [reflexivity|]. split; [|split; reflexivity].
      constructor; auto; try discriminate. intros b Eb. inversion Eb; subst. lia.
  Qed.
  Lemma AtoB_down (d : @dofmap B) pre mid post n m x out : dm_inv d -> dm_steps d = pre ++ mid ++ post -> chain_ok true n m mid -> mid <> [] ->
    AtoB d (length pre) (length pre + length mid) x out = Ret (Rch mid x, dm_Finalize d).
  Proof.
    intros HI E C NE. assert (LM : 0 < length mid) by (destruct mid; simpl; [congruence|lia]).
    assert (LS : length (dm_steps d) = length pre + length mid + length post) by (rewrite E, !app_length; lia).
    unfold dm_TransferAtoB. destruct (Nat.eqb_spec (length pre) (length pre + length mid)); [lia|]. rewrite !Nat.min_l by lia.
    destruct (Nat.eqb_spec (length pre) (length pre + length mid)); [lia|]. destruct (Nat.ltb_spec (length pre + length mid) (length pre)); [lia|].
    destruct (conc_sym d pre mid post n m HI E C NE) as (st & E1 & S1 & R1 & P1). rewrite E1. cbn [bind fst snd]. unfold TransferF2C.
    destruct (proj1 transfer_ok _ _ _ S1) as [Q _]. rewrite Q. cbn [bind]. now rewrite R1.
  Qed.
  Lemma AtoB_up (d : @dofmap B) pre mid post n m x out : dm_inv d -> dm_steps d = pre ++ mid ++ post -> chain_ok true n m mid -> mid <> [] ->
    AtoB d (length pre + length mid) (length pre) x out = Ret (Pch mid x, dm_Finalize d).
  Proof.
    intros HI E C NE. assert (LM : 0 < length mid) by (destruct mid; simpl; [congruence|lia]).
    assert (LS : length (dm_steps d) = length pre + length mid + length post) by (rewrite E, !app_length; lia).
    unfold dm_TransferAtoB. destruct (Nat.eqb_spec (length pre + length mid) (length pre)); [lia|]. rewrite !Nat.min_l by lia.
    destruct (Nat.eqb_spec (length pre + length mid) (length pre)); [lia|]. destruct (Nat.ltb_spec (length pre) (length pre + length mid)); [|lia].
    destruct (conc_sym d pre mid post n m HI E C NE) as (st & E1 & S1 & R1 & P1). rewrite E1. cbn [bind fst snd]. unfold TransferC2F.
    destruct (proj1 transfer_ok _ _ _ S1) as [_ Q]. rewrite Q. cbn [bind]. now rewrite P1.
  Qed.

  (** *** C31.  [pre ++ mid ++ post]: all steps; the transfer is between level |pre| and level |pre|+|mid| *)
  Theorem C31_fine_to_coarse_is_composition : forall (d : @dofmap B) pre mid post n m x out,
    dm_reach mmul tasks garbage d -> dm_steps d = pre ++ mid ++ post -> chain_ok true n m mid -> mid <> [] ->
    AtoB d (length pre) (length pre + length mid) x out =
      (v <- foldM (fun v l => dm_F2C d l v) (seq (length pre) (length mid)) x ;; Ret (v, dm_Finalize d)) /\
    exists v, foldM (fun v l => dm_F2C d l v) (seq (length pre) (length mid)) x = Ret v.
  Proof.
    intros d pre mid post n m x out R E C NE. rewrite (f2c_seq d pre mid post n m x E C). split; eauto. cbn [bind].
    apply (AtoB_down d pre mid post n m); auto. eapply reach_inv; eauto.
  Qed.
  Theorem C31_coarse_to_fine_is_composition : forall (d : @dofmap B) pre mid post n m x out,
    dm_reach mmul tasks garbage d -> dm_steps d = pre ++ mid ++ post -> chain_ok true n m mid -> mid <> [] ->
    AtoB d (length pre + length mid) (length pre) x out =
      (v <- foldM (fun v l => dm_C2F d l v) (rev (seq (length pre) (length mid))) x ;; Ret (v, dm_Finalize d)) /\
    exists v, foldM (fun v l => dm_C2F d l v) (rev (seq (length pre) (length mid))) x = Ret v.
  Proof.
    intros d pre mid post n m x out R E C NE. rewrite (c2f_seq d pre mid post n m x E C). split; eauto. cbn [bind].
    apply (AtoB_up d pre mid post n m); auto. eapply reach_inv; eauto.
  Qed.
  Theorem C31_adjoint : forall (d : @dofmap B) pre mid post n m x y out out',
    dm_reach mmul tasks garbage d -> dm_steps d = pre ++ mid ++ post -> chain_ok true n m mid -> length x = n -> length y = m ->
    exists u d1 v d2, AtoB d (length pre) (length pre + length mid) x out = Ret (u, d1) /\ AtoB d (length pre + length mid) (length pre) y out' = Ret (v, d2) /\
      length u = m /\ length v = n /\ vdot u y = vdot x v.
  Proof.
    intros d pre mid post n m x y out out' R E C Hx Hy. pose proof (reach_inv _ _ _ _ R) as HI.
    destruct (proj1 (proj2 (denot_ok L)) _ _ _ C) as (L1 & L2 & L3).
    destruct mid as [|s t].
    - inversion C; subst. simpl length. rewrite Nat.add_0_r. unfold dm_TransferAtoB. rewrite Nat.eqb_refl. exists x, d, y, d. repeat (split; auto).
    - exists (Rch (s :: t) x), (dm_Finalize d), (Pch (s :: t) y), (dm_Finalize d).
      rewrite (AtoB_down d pre (s :: t) post n m), (AtoB_up d pre (s :: t) post n m) by (auto; discriminate).
      split; auto. split; auto. split; [now apply L1|]. split; [now apply L2|]. now apply L3.
  Qed.
  Theorem C31_linear : forall (d : @dofmap B) pre mid post n m,
    dm_reach mmul tasks garbage d -> dm_steps d = pre ++ mid ++ post -> chain_ok true n m mid -> mid <> [] ->
    exists F G, lin n m F /\ lin m n G /\
      (forall x out, AtoB d (length pre) (length pre + length mid) x out = Ret (F x, dm_Finalize d)) /\
      (forall y out, AtoB d (length pre + length mid) (length pre) y out = Ret (G y, dm_Finalize d)).
  Proof.
    intros d pre mid post n m R E C NE. pose proof (reach_inv _ _ _ _ R) as HI.
    destruct (proj1 (proj2 (denot_ok L)) _ _ _ C) as (L1 & L2 & L3).
    exists (Rch mid), (Pch mid). split; auto. split; auto. split; intros. apply (AtoB_down d pre mid post n m); auto. apply (AtoB_up d pre mid post n m); auto.
  Qed.
  (** stopping at a level in between changes nothing *)
  Theorem C31_via_intermediate_level : forall (d : @dofmap B) pre mid1 mid2 post n k m x out out' out'',
    dm_reach mmul tasks garbage d -> dm_steps d = pre ++ mid1 ++ mid2 ++ post -> chain_ok true n k mid1 -> chain_ok true k m mid2 -> mid1 <> [] -> mid2 <> [] ->
    (' p <- AtoB d (length pre) (length pre + length mid1) x out ;;
     ' q <- AtoB d (length pre + length mid1) (length pre + length mid1 + length mid2) (fst p) out' ;; Ret (fst q))
    = (' p <- AtoB d (length pre) (length pre + length (mid1 ++ mid2)) x out'' ;; Ret (fst p)) /\
    (' p <- AtoB d (length pre + length mid1 + length mid2) (length pre + length mid1) x out ;;
     ' q <- AtoB d (length pre + length mid1) (length pre) (fst p) out' ;; Ret (fst q))
    = (' p <- AtoB d (length pre + length (mid1 ++ mid2)) (length pre) x out'' ;; Ret (fst p)).
  Proof.
    intros d pre mid1 mid2 post n k m x out out' out'' R E C1 C2 N1 N2. pose proof (reach_inv _ _ _ _ R) as HI.
    assert (C : chain_ok true n m (mid1 ++ mid2)) by (apply chain_app; eauto).
    assert (E' : dm_steps d = pre ++ (mid1 ++ mid2) ++ post) by (rewrite <- app_assoc; auto).
    assert (E'' : dm_steps d = (pre ++ mid1) ++ mid2 ++ post) by (rewrite <- app_assoc; auto).
    assert (N : mid1 ++ mid2 <> []) by (destruct mid1; [congruence|discriminate]).
    pose proof (fun x o => AtoB_down d (pre ++ mid1) mid2 post k m x o HI E'' C2 N2) as Q1.
    pose proof (fun x o => AtoB_up d (pre ++ mid1) mid2 post k m x o HI E'' C2 N2) as Q2. rewrite app_length in Q1, Q2.
    rewrite (AtoB_down d pre mid1 (mid2 ++ post) n k), (AtoB_down d pre (mid1 ++ mid2) post n m) by auto.
    rewrite Q2, (AtoB_up d pre (mid1 ++ mid2) post n m) by auto. cbn [bind fst snd].
    rewrite Q1, (AtoB_up d pre mid1 (mid2 ++ post) n k) by auto. cbn [bind fst snd]. split; f_equal.
    - unfold Rch. now rewrite fold_left_app. - unfold Pch. now rewrite fold_right_app.
  Qed.
  (** levels below the coarsest one this map knows are identified with it; between two of them nothing is written *)
  Theorem C31_beyond_the_last_level : forall (d : @dofmap B) la lb x out, length (dm_steps d) <= la -> length (dm_steps d) <= lb ->
    AtoB d la lb x out = Ret (if la =? lb then x else out, d).
  Proof.
    intros d la lb x out Ha Hb. unfold dm_TransferAtoB. destruct (la =? lb); auto. rewrite !Nat.min_r, Nat.eqb_refl by auto. reflexivity.
  Qed.
  Theorem C31_clamped : forall (d : @dofmap B) la lb x out, length (dm_steps d) <= lb ->
    (la < length (dm_steps d) -> AtoB d la lb x out = AtoB d la (length (dm_steps d)) x out) /\
    (la < length (dm_steps d) -> AtoB d lb la x out = AtoB d (length (dm_steps d)) la x out).
  Proof.
    intros d la lb x out Hb. split; intros Ha; unfold dm_TransferAtoB.
    - destruct (Nat.eqb_spec la lb); [lia|]. destruct (Nat.eqb_spec la (length (dm_steps d))); [lia|]. rewrite Nat.min_id, (Nat.min_r lb) by auto.
      destruct (Nat.ltb_spec lb la); [lia|]. destruct (Nat.ltb_spec (length (dm_steps d)) la); [lia|]. reflexivity.
    - destruct (Nat.eqb_spec lb la); [lia|]. destruct (Nat.eqb_spec (length (dm_steps d)) la); [lia|]. rewrite Nat.min_id, (Nat.min_r lb) by auto.
      destruct (Nat.ltb_spec la lb); [|lia]. destruct (Nat.ltb_spec la (length (dm_steps d))); [|lia]. reflexivity.
  Qed.
  (** the adding variants *)
  Theorem C31_add_variants : forall n m st, step_ok true n m st -> forall fac (xf xc : vec),
    AddF2C fac st xf xc = (v <- TransferF2C st xf ;; Ret (xc +v vsc fac v)) /\ AddC2F fac st xf xc = (v <- TransferC2F st xc ;; Ret (xf +v vsc fac v)).
  Proof.
    intros n m st H fac xf xc. destruct (proj1 transfer_ok _ _ _ H) as [Q1 Q2]. unfold AddF2C, AddC2F, TransferF2C, TransferC2F. rewrite !Q1, !Q2. auto.
  Qed.
End Transfer.
Print Assumptions C31_fine_to_coarse_is_composition.
Print Assumptions C31_coarse_to_fine_is_composition.
Print Assumptions C31_adjoint.
Print Assumptions C31_linear.
Print Assumptions C31_via_intermediate_level.
Print Assumptions C31_beyond_the_last_level.
Print Assumptions C31_clamped.
Print Assumptions C31_add_variants.

(** example: 3 -> 2 -> 1 dofs, the second step a concatenation of two *)
Definition ex_st1 : @step ZBlk := Prol (B:=ZBlk) 2 ex_P (Some ex_PT).
Definition ex_P2 : smat Z := [[(0, 1%Z)];[(0, (-3)%Z)]].
Definition ex_id1 : smat Z := [[(0, 5%Z)]].
Definition ex_st2 : @step ZBlk := Conc [Prol (B:=ZBlk) 1 ex_P2 (Some [[(0, 1%Z);(1, (-3)%Z)]]); Multi [Prol (B:=ZBlk) 1 ex_id1 (Some ex_id1)]] (Some [[]]).
Definition ex_tasks (n : nat) : list nat := [n].
Definition ex_d : @dofmap ZBlk := mkDM [ex_st1; ex_st2] false [].
Fixpoint incb (l : list nat) : bool := match l with [] => true | a :: t => match t with [] => true | b :: _ => (a <? b) && incb t end end.
Lemma incb_ok l : incb l = true -> StronglySorted lt l.
Proof.
  intros H. apply Sorted_StronglySorted; [intros a b c; lia|]. induction l as [|a t IH]; [constructor|]. cbn [incb] in H.
  destruct t as [|b t]; [repeat constructor|]. apply andb_prop in H. destruct H as [H1 H2]. apply Nat.ltb_lt in H1. constructor; auto.
Qed.
Lemma good_by (n m : nat) (A : smat Z) : length A = n -> forallb (fun r => forallb (fun p => fst p <? m) r && incb (cols r)) A = true ->
  (Z.of_nat n <= INT_MAX)%Z -> (Z.of_nat m <= INT_MAX)%Z -> @good_mat ZBlk n m A.
Proof.
  intros H1 H2 H3 H4. rewrite forallb_forall in H2. constructor; auto.
  - intros r p Hr Hp. specialize (H2 r Hr). apply andb_prop in H2. destruct H2 as [H2 _]. rewrite forallb_forall in H2. specialize (H2 p Hp). now apply Nat.ltb_lt.
  - intros r Hr. specialize (H2 r Hr). apply andb_prop in H2. destruct H2 as [_ H2]. now apply incb_ok.
Qed.
Ltac good_tac := apply good_by; [reflexivity|vm_compute; reflexivity|vm_compute; discriminate|vm_compute; discriminate].
Ltac trans_tac := let T := fresh "T" in let E := fresh "E" in intros T E; injection E as <-; split; [reflexivity|split];
  [let r := fresh in let p := fresh in let Hr := fresh in let Hp := fresh in intros r p Hr Hp; simpl in Hr; decompose [or] Hr; subst; simpl in Hp; decompose [or] Hp; subst; simpl; try lia; try tauto
  |let i := fresh in let k := fresh in intros i k ? ?; destruct i as [|[|[|i]]]; try lia; destruct k as [|[|[|k]]]; try lia; reflexivity].
Lemma ex_st1_ok : step_ok true 3 2 ex_st1.
Proof. constructor; [good_tac| |discriminate]. trans_tac. Qed.
Lemma ex_st2_ok : step_ok true 2 1 ex_st2.
Proof.
  constructor; try discriminate.
  - apply (ok_cons true 2 1 1). + constructor; [good_tac| |discriminate]. trans_tac.
    + apply (ok_cons true 1 1 1); [|constructor]. constructor; [|constructor]. constructor; [good_tac| |discriminate]. trans_tac.
  - intros b E. inversion E. reflexivity.
Qed.
Lemma ex_d_reach mmul tasks garbage : @dm_reach ZBlk mmul tasks garbage ex_d.
Proof.
  eapply (re_pre _ _ _ (mkDM [ex_st2] false [])); [|reflexivity]. eapply (re_add _ _ _ dm_new); [constructor|reflexivity].
Qed.
Example C31_ex : dm_steps ex_d = [] ++ [ex_st1; ex_st2] ++ [] /\ chain_ok true 3 1 [ex_st1; ex_st2] /\
  (exists d', dm_TransferAtoB (B:=ZBlk) Z.mul ex_tasks ex_garb (fun _ _ => None) ex_d 0 2 [1;2;3]%Z [] = Ret ([-75]%Z, d')) /\
  (exists d', dm_TransferAtoB (B:=ZBlk) Z.mul ex_tasks ex_garb (fun _ _ => None) ex_d 2 0 [2]%Z [] = Ret ([10;10;-60]%Z, d')).
Proof.
  split; [reflexivity|]. split; [|split; eexists; vm_compute; reflexivity].
  apply (ok_cons true 3 2 1); [apply ex_st1_ok|]. apply (ok_cons true 2 1 1); [apply ex_st2_ok|constructor].
Qed.

(** *** C32 *)
Section Galerkin.
  Context {B : Blk} (L : BlkLaws B) (mmul : M B -> M B -> M B) (ML : MMulLaws B mmul) (tasks : nat -> list nat) (garbage : nat -> nat -> hash) (cmode : smat (M B) -> smat (M B) -> option bool).
  Hypothesis TK : forall n, list_sum (tasks n) = n.
  Hypothesis GB : forall t n, length (garbage t n) = n.
  Notation vec := (list (X B)).
  Notation mat := (smat (M B)).
  Notation AtoB := (dm_TransferAtoB mmul tasks garbage cmode).
  Lemma asm_levels (l : list (@step B)) : forall n m A, chain_ok true n m l -> good_mat n n A ->
    exists ms, asm_chain (assemble mmul tasks garbage) l A = Ret (ms, l) /\ length ms = S (length l) /\ nth 0 ms [] = A /\
      forall pre s post, l = pre ++ s :: post -> exists k k', step_ok true k k' s /\ good_mat k k (nth (length pre) ms []) /\
        galerkin k k' (Rst s) (Pst s) (nth (length pre) ms []) (nth (S (length pre)) ms []).
  Proof.
    induction l as [|s t IH]; intros n m A C G.
    - exists [A]. cbn [asm_chain]. repeat split; auto. intros pre s post E. now destruct pre.
    - inversion C as [|? k ? ? ? H1 H2]; subst. destruct (proj1 (assemble_ok L mmul ML tasks garbage TK GB) _ _ _ H1 A G) as (A1 & E1 & G1).
      destruct (IH k m A1 H2 (proj1 G1)) as (ms & E2 & LM & N0 & Q). cbn [asm_chain]. rewrite E1. cbn [bind fst snd]. rewrite E2. cbn [bind fst snd].
      exists (A :: ms). split; auto. split; [simpl; lia|]. split; auto. intros pre s' post E. destruct pre as [|p pre].
      + inversion E; subst. simpl length. exists n, k. split; [exact H1|]. split; [exact G|]. exact G1.
      + inversion E; subst. destruct (Q pre s' post eq_refl) as (k1 & k2 & Q1). exists k1, k2. exact Q1.
  Qed.
  (** for a finalised chain: one matrix per level, the first is the given one, each next one is the Galerkin projection of the previous one *)
  Theorem C32_galerkin_steps : forall (d : @dofmap B) n m (A : mat), chain_ok true n m (dm_steps d) -> good_mat n n A ->
    exists ms d', dm_AssembleMatrices mmul tasks garbage d A = Ret (ms, d') /\ dm_steps d' = dm_steps d /\ length ms = S (length (dm_steps d)) /\ nth 0 ms [] = A /\
      forall l, l < length (dm_steps d) -> forall x : vec,
        (w <- dm_C2F d l x ;; dm_F2C d l (matvec (nth l ms []) w)) = Ret (matvec (nth (S l) ms []) x).
  Proof.
    intros d n m A C G. unfold dm_AssembleMatrices. rewrite fin_steps. destruct (asm_levels (dm_steps d) n m A C G) as (ms & E & LM & N0 & Q). rewrite E. cbn [bind fst snd].
    eexists _, _. split; [reflexivity|]. cbn [dm_steps]. split; auto. split; auto. split; auto. intros l Hl x.
    assert (SP : exists pre s post, dm_steps d = pre ++ s :: post /\ length pre = l).
    { destruct (nth_error (dm_steps d) l) as [s|] eqn:EN; [|apply nth_error_None in EN; lia]. apply nth_error_split in EN as (pre & post & E1 & E2). eauto. }
    destruct SP as (pre & s & post & ES & <-). destruct (Q pre s post ES) as (k & k' & S1 & GM & _ & GA & _).
    destruct (proj1 transfer_ok _ _ _ S1) as [T1 T2]. unfold dm_C2F, dm_F2C, rd. rewrite ES, nth_error_app2, Nat.sub_diag by auto. cbn [nth_error bind].
    unfold TransferC2F, TransferF2C. rewrite T2. cbn [bind]. rewrite T1. now rewrite GA.
  Qed.
  Lemma asm_total : forall pre post : list (@step B), forall n k m A, chain_ok true n k pre -> chain_ok true k m post -> good_mat n n A ->
    exists ms, asm_chain (assemble mmul tasks garbage) (pre ++ post) A = Ret (ms, pre ++ post) /\ galerkin n k (Rch pre) (Pch pre) A (nth (length pre) ms []).
  Proof.
    induction pre as [|s t IH]; intros post n k m A C1 C2 G.
    - inversion C1; subst. destruct (asm_levels post k m A C2 G) as (ms & E & _ & N0 & _). exists ms. split; auto. simpl length. rewrite N0. split; auto.
    - inversion C1 as [|? k1 ? ? ? H1 H2]; subst. destruct (proj1 (assemble_ok L mmul ML tasks garbage TK GB) _ _ _ H1 A G) as (A1 & E1 & G1 & G2 & G3).
      destruct (IH post k1 k m A1 H2 C2 G1) as (ms & E & Q1 & Q2 & Q3). cbn [app asm_chain]. rewrite E1. cbn [bind fst snd]. rewrite E. cbn [bind fst snd].
      exists (A :: ms). split; auto. cbn [length nth]. split; auto. split; auto. intros x. rewrite Q2, G2. reflexivity.
  Qed.
  (** ... so the matrix of level l is the fine matrix seen through the prolongations: <A_l x, y> = <A_0 P x, P y>; symmetry is inherited *)
  Theorem C32_energy : forall (d : @dofmap B) pre post n k m (A : mat),
    dm_reach mmul tasks garbage d -> dm_steps d = pre ++ post -> chain_ok true n k pre -> chain_ok true k m post -> good_mat n n A ->
    exists ms d', dm_AssembleMatrices mmul tasks garbage d A = Ret (ms, d') /\
      good_mat k k (nth (length pre) ms []) /\ (sym_mat n A -> sym_mat k (nth (length pre) ms [])) /\
      forall x y out, length x = k -> length y = k -> exists u d1 v d2, AtoB d (length pre) 0 x out = Ret (u, d1) /\ AtoB d (length pre) 0 y out = Ret (v, d2) /\
        vdot (matvec (nth (length pre) ms []) x) y = vdot (matvec A u) v.
  Proof.
    intros d pre post n k m A R E C1 C2 G. destruct (asm_total pre post n k m A C1 C2 G) as (ms & EM & Q1 & Q2 & Q3).
    unfold dm_AssembleMatrices. rewrite fin_steps, E, EM. cbn [bind fst snd]. eexists _, _. split; [reflexivity|]. split; auto. split; auto.
    intros x y out Hx Hy. pose proof (reach_inv _ _ _ _ R) as HI. destruct (proj1 (proj2 (denot_ok L)) _ _ _ C1) as (L1 & L2 & L3).
    assert (HV : vdot (matvec (nth (length pre) ms []) x) y = vdot (matvec A (Pch pre x)) (Pch pre y)).
    { rewrite Q2. apply L3; auto. destruct G as [G1 _ _ _ _]. rewrite matvec_length. exact G1. }
    destruct pre as [|s t].
    - simpl length. unfold dm_TransferAtoB. rewrite Nat.eqb_refl. repeat eexists. exact HV.
    - pose proof (fun x o => AtoB_up mmul tasks garbage cmode d [] (s :: t) post n k x o HI E C1 ltac:(discriminate)) as QU. cbn [length Nat.add] in QU.
      cbn [length] in *. rewrite !QU. repeat eexists. exact HV.
  Qed.
  (** the matrices do not depend on whether the steps have been finalised before *)
  Theorem C32_unfinalised_steps : forall (d : @dofmap B) n m (A : mat), chain_ok false n m (dm_steps d) -> good_mat n n A ->
    exists fs ms d1 d2, mapR finalize (dm_steps d) = Ret fs /\ chain_ok true n m fs /\
      dm_AssembleMatrices mmul tasks garbage (mkDM fs (dm_fin d) (dm_vecs d)) A = Ret (ms, d1) /\ dm_AssembleMatrices mmul tasks garbage d A = Ret (ms, d2).
  Proof.
    intros d n m A C G. destruct (proj1 (proj2 (finalize_ok L mmul ML)) _ _ _ C) as (fs & EF & CF & _).
    destruct (asm_levels fs n m A CF G) as (ms & E & _).
    destruct (proj1 (proj2 (assemble_finalize mmul tasks garbage)) _ _ _ C fs A ms fs EF E) as (l'' & E2).
    exists fs, ms. eexists _, _. split; [exact EF|]. split; [exact CF|]. unfold dm_AssembleMatrices. rewrite !fin_steps. cbn [dm_steps]. rewrite E, E2. split; reflexivity.
  Qed.
End Galerkin.
Print Assumptions C32_galerkin_steps.
Print Assumptions C32_energy.
Print Assumptions C32_unfinalised_steps.
Example C32_ex : chain_ok true 3 1 (dm_steps ex_d) /\ @good_mat ZBlk 3 3 ex_fA /\
  exists d', dm_AssembleMatrices (B:=ZBlk) Z.mul ex_tasks ex_garb ex_d ex_fA = Ret ([ex_fA; [[(0, 2%Z);(1, (-2)%Z)];[(0, (-2)%Z);(1, 8%Z)]]; [[(0, 2150%Z)]]], d').
Proof.
  split; [|split; [good_tac|eexists; vm_compute; reflexivity]].
  apply (ok_cons true 3 2 1); [apply ex_st1_ok|]. apply (ok_cons true 2 1 1); [apply ex_st2_ok|constructor].
Qed.

(** *** C33 *)
Section Concatenate.
  Context {B : Blk} (L : BlkLaws B) (mmul : M B -> M B -> M B) (ML : MMulLaws B mmul) (tasks : nat -> list nat) (garbage : nat -> nat -> hash) (cmode : smat (M B) -> smat (M B) -> option bool).
  Hypothesis TK : forall n, list_sum (tasks n) = n.
  Hypothesis GB : forall t n, length (garbage t n) = n.
  Notation conc := (concatenate mmul tasks garbage cmode).
  Lemma fold_f2c (l : list (@step B)) : forall n m x, chain_ok true n m l -> foldM (fun v s => TransferF2C s v) l x = Ret (Rch l x).
  Proof.
    induction l as [|s t IH]; intros n m x C; [reflexivity|]. inversion C as [|? k ? ? ? H1 H2]; subst. cbn [foldM]. unfold TransferF2C at 1.
    destruct (proj1 transfer_ok _ _ _ H1) as [Q _]. rewrite Q. cbn [bind]. rewrite (IH k m) by auto. reflexivity.
  Qed.
  Lemma fold_c2f (l : list (@step B)) : forall n m x, chain_ok true n m l -> foldM (fun v s => TransferC2F s v) (rev l) x = Ret (Pch l x).
  Proof.
    induction l as [|s t IH]; intros n m x C; [reflexivity|]. inversion C as [|? k ? ? ? H1 H2]; subst. cbn [rev]. rewrite foldM_app, (IH k m) by auto. cbn [bind foldM].
    unfold TransferC2F. destruct (proj1 transfer_ok _ _ _ H1) as [_ Q]. rewrite Q. reflexivity.
  Qed.
  (** [same_transfer steps st]: after finalising both, st transfers like all the steps one after the other *)
  Definition same_transfer (steps : list (@step B)) (st : @step B) : Prop :=
    exists fs st', mapR finalize steps = Ret fs /\ finalize st = Ret st' /\
      (forall x, TransferF2C st' x = foldM (fun v s => TransferF2C s v) fs x /\ exists v, TransferF2C st' x = Ret v) /\
      (forall y, TransferC2F st' y = foldM (fun v s => TransferC2F s v) (rev fs) y /\ exists v, TransferC2F st' y = Ret v).
  Lemma same_of n m steps subs : chain_ok false n m steps -> subs <> [] -> chain_ok false n m subs ->
    (forall x, Pch subs x = Pch steps x) -> (forall x, Rfch subs x = Rfch steps x) -> same_transfer steps (wrap subs).
  Proof.
    intros C NE CS HP HR. destruct (proj1 (proj2 (finalize_ok L mmul ML)) _ _ _ C) as (fs & EF & CF & PF).
    destruct (wrap_ok L mmul ML n m subs NE CS) as (W1 & W2 & W3). destruct (proj1 (finalize_ok L mmul ML) _ _ _ W1) as (st' & E & S1 & P1).
    exists fs, st'. split; auto. split; auto. destruct (proj1 transfer_ok _ _ _ S1) as [T1 T2]. split; intros x.
    - unfold TransferF2C at 1 3. rewrite T1. split; eauto. rewrite (fold_f2c fs n m) by auto. f_equal.
      rewrite (Rch_fin steps n m C fs EF). rewrite <- HR, <- W3. unfold Rfin. now rewrite E.
    - unfold TransferC2F at 1 3. rewrite T2. split; eauto. rewrite (fold_c2f fs n m) by auto. f_equal. rewrite P1, W2, HP, <- PF. reflexivity.
  Qed.
  (** MakeSingleStep3 (used by ConcStep(.., symbolic=false)): any list of steps that fit together *)
  Theorem C33_make_single_step : forall n m (steps : list (@step B)), chain_ok false n m steps -> steps <> [] ->
    exists st, MakeSingleStep3 mmul tasks garbage cmode steps = Ret (Some st) /\ step_ok false n m st /\ same_transfer steps st.
  Proof.
    intros n m steps C NE. destruct (proj1 (proj2 (simple_ok L mmul ML)) _ _ _ C) as (ll & E & Q1 & Q2 & Q3 & Q4 & Q5).
    destruct (ms2_total L mmul ML tasks garbage TK GB cmode n m (concat ll) (Q2 NE) Q3 Q1) as (subs & E2 & NS & G).
    destruct (grouping_ok L mmul ML tasks garbage TK GB cmode _ _ G n m Q3) as (R1 & R2 & R3).
    exists (wrap subs). unfold MakeSingleStep3. rewrite E. cbn [bind]. split; [exact E2|]. split; [now apply (wrap_ok L mmul ML)|].
    apply (same_of n m); auto; intros x. now rewrite R2. now rewrite R3.
  Qed.
  (** MakeSingleStep2: whenever it returns *)
  Theorem C33_make_single_step2 : forall n m (steps : list (@step B)) r, chain_ok false n m steps -> steps <> [] ->
    MakeSingleStep2 mmul tasks garbage cmode steps = Ret r ->
    exists st, r = Some st /\ step_ok false n m st /\ same_transfer steps st.
  Proof.
    intros n m steps r C NE E. pose proof (ms2_spec mmul tasks garbage cmode steps NE) as H. rewrite E in H. destruct H as (subs & -> & NS & G).
    destruct (grouping_ok L mmul ML tasks garbage TK GB cmode _ _ G n m C) as (R1 & R2 & R3).
    exists (wrap subs). split; auto. split; [now apply (wrap_ok L mmul ML)|]. apply (same_of n m); auto.
  Qed.
End Concatenate.
Section Greedy.
  Context {B : Blk} (mmul : M B -> M B -> M B) (tasks : nat -> list nat) (garbage : nat -> nat -> hash) (cmode : smat (M B) -> smat (M B) -> option bool).
  Notation conc := (concatenate mmul tasks garbage cmode).
  (** nothing that can be merged is left unmerged: for every list of steps whatsoever, if MakeSingleStep2 returns then it has cut
      the list into groups, each concatenated into one step, and each such step cannot be concatenated with the step after it *)
  Theorem C33_greedy_grouping : forall steps r, steps <> [] -> MakeSingleStep2 mmul tasks garbage cmode steps = Ret r ->
    exists subs, grouping conc steps subs /\ ((exists s, subs = [s] /\ r = Some s) \/ (1 < length subs /\ r = Some (Conc subs None))).
  Proof.
    intros steps r NE E. pose proof (ms2_spec mmul tasks garbage cmode steps NE) as H. rewrite E in H. destruct H as (subs & -> & NS & G).
    exists subs. split; auto. destruct subs as [|s [|s2 t]]; [congruence|left; eauto|right; simpl; split; [lia|auto]].
  Qed.
End Greedy.
Print Assumptions C33_make_single_step.
Print Assumptions C33_make_single_step2.
Print Assumptions C33_greedy_grouping.
Definition ex_cm (P Q : smat Z) : option bool := Some true.
Example C33_ex : chain_ok false 3 1 [ex_st1; ex_st2] /\
  MakeSingleStep3 (B:=ZBlk) Z.mul ex_tasks ex_garb ex_cm [ex_st1; ex_st2] = Ret (Some (Prol (B:=ZBlk) 1 [[(0, 5%Z)];[(0, 5%Z)];[(0, (-30)%Z)]] None)).
Proof.
  split; [|vm_compute; reflexivity].
  apply (step_ok_weaken true). apply (ok_cons true 3 2 1); [apply ex_st1_ok|]. apply (ok_cons true 2 1 1); [apply ex_st2_ok|constructor].
Qed.
(** the result is NOT finalised: restricting with it without calling Finalize dereferences a null pointer (python: ConcStep(.., False) followed by F2C) *)
Theorem C33_unfinalised_result_refuted : exists (steps : list (@step ZBlk)) st, chain_ok true 3 1 steps /\ steps <> [] /\
  MakeSingleStep3 (B:=ZBlk) Z.mul ex_tasks ex_garb ex_cm steps = Ret (Some st) /\ TransferF2C st [1;2;3]%Z = Err Uninit.
Proof.
  exists [ex_st1; ex_st2]. eexists. split; [|split; [discriminate|split; [vm_compute; reflexivity|reflexivity]]].
  apply (ok_cons true 3 2 1); [apply ex_st1_ok|]. apply (ok_cons true 2 1 1); [apply ex_st2_ok|constructor].
Qed.
Print Assumptions C33_unfinalised_result_refuted.
(** MakeSingleStep2 on two multi-maps with a different number of components reads past the end of the shorter one *)
Theorem C33_multi_out_of_bounds_refuted : exists (steps : list (@step ZBlk)), chain_ok true 3 1 steps /\
  MakeSingleStep2 (B:=ZBlk) Z.mul ex_tasks ex_garb ex_cm steps = Err OutOfBounds.
Proof.
  exists [Multi [ex_st1; ex_st1]; Multi [ex_st2]]. split; [|vm_compute; reflexivity].
  apply (ok_cons true 3 2 1). - constructor; [apply ex_st1_ok|]. econstructor; [apply ex_st1_ok|constructor].
  - apply (ok_cons true 2 1 1); [|constructor]. constructor; [apply ex_st2_ok|constructor].
Qed.
Print Assumptions C33_multi_out_of_bounds_refuted.

(** *** C34 *)
Section Histories.
  Context {B : Blk}.
  Inductive op := OAdd (s : @step B) | OPre (s : @step B) | OFin.
  (** run a history; an operation that throws leaves the map as it is; the second component says which operations threw *)
  Definition run1 (d : @dofmap B) (o : op) : dofmap * bool :=
    match o with
    | OAdd s => match dm_AddStep d s with Ret d' => (d', false) | Err _ => (d, true) end
    | OPre s => match dm_PrependStep d s with Ret d' => (d', false) | Err _ => (d, true) end
    | OFin => (dm_Finalize d, false)
    end.
  Fixpoint run (d : @dofmap B) (os : list op) : dofmap * list bool :=
    match os with [] => (d, []) | o :: t => let '(d1, b) := run1 d o in let '(d2, bs) := run d1 t in (d2, b :: bs) end.
  Definition modifies (o : op) : bool := match o with OFin => false | _ => true end.
  Definition added (os : list op) : list step := flat_map (fun o => match o with OAdd s => [s] | _ => [] end) os.
  Definition prepended (os : list op) : list step := flat_map (fun o => match o with OPre s => [s] | _ => [] end) os.
  (** before the first Finalize nothing throws and the steps are the prepended ones (last first) and the added ones, in order *)
  Theorem C34_before_finalize : forall (os : list op), (forall o, In o os -> modifies o = true) ->
    dm_steps (fst (run dm_new os)) = rev (prepended os) ++ added os /\ forall b, In b (snd (run dm_new os)) -> b = false.
  Proof.
    intros os H. assert (Q : forall os d, (forall o, In o os -> modifies o = true) -> dm_fin d = false ->
      dm_steps (fst (run d os)) = rev (prepended os) ++ dm_steps d ++ added os /\ forall b, In b (snd (run d os)) -> b = false).
    { clear. induction os as [|o t IH]; intros d H F; cbn [run].
      - simpl. rewrite app_nil_r. split; auto. intros b [].
      - pose proof (H o (or_introl eq_refl)) as Ho. destruct o as [s|s|]; [| |discriminate]; cbn [run1]; [unfold dm_AddStep|unfold dm_PrependStep]; rewrite F.
        + specialize (IH (mkDM (dm_steps d ++ [s]) false (dm_vecs d)) (fun o Ho => H o (or_intror Ho)) eq_refl).
          destruct (run _ t) as [d2 bs]. cbn [fst snd] in *. destruct IH as [I1 I2]. rewrite I1. cbn [dm_steps]. split.
          * cbn [prepended added flat_map app]. fold (prepended t) (added t). now rewrite <- app_assoc.
          * intros b [<-|Hb]; auto.
        + specialize (IH (mkDM (s :: dm_steps d) false (dm_vecs d)) (fun o Ho => H o (or_intror Ho)) eq_refl).
          destruct (run _ t) as [d2 bs]. cbn [fst snd] in *. destruct IH as [I1 I2]. rewrite I1. cbn [dm_steps]. split.
          * cbn [prepended added flat_map app]. fold (prepended t) (added t). cbn [rev]. now rewrite <- !app_assoc.
          * intros b [<-|Hb]; auto. }
    destruct (Q os dm_new H eq_refl) as [Q1 Q2]. split; auto.
  Qed.
  (** after Finalize of a map with at least one step, every AddStep and PrependStep throws and nothing changes any more *)
  Theorem C34_after_finalize : forall (d : @dofmap B) (os : list op), dm_steps d <> [] ->
    fst (run (dm_Finalize d) os) = dm_Finalize d /\ snd (run (dm_Finalize d) os) = map modifies os /\ dm_steps (dm_Finalize d) = dm_steps d.
  Proof.
    intros d os NE. assert (F : dm_fin (dm_Finalize d) = true) by (destruct (fin_fin d); auto; congruence).
    rewrite fin_steps. split; [|split; auto]; induction os as [|o t IH]; auto; cbn [run].
    - assert (E : run1 (dm_Finalize d) o = (dm_Finalize d, modifies o)).
      { destruct o; cbn [run1 modifies]; unfold dm_AddStep, dm_PrependStep; rewrite ?F; auto. unfold dm_Finalize at 1. rewrite F, orb_true_r. reflexivity. }
      rewrite E. destruct (run _ t). auto.
    - assert (E : run1 (dm_Finalize d) o = (dm_Finalize d, modifies o)).
      { destruct o; cbn [run1 modifies]; unfold dm_AddStep, dm_PrependStep; rewrite ?F; auto. unfold dm_Finalize at 1. rewrite F, orb_true_r. reflexivity. }
      rewrite E. destruct (run _ t). cbn [map snd] in *. now f_equal.
  Qed.
  (** transferring or assembling finalises the map as well *)
  Theorem C34_use_finalises : forall (mmul : M B -> M B -> M B) tasks garbage cmode (d : @dofmap B),
    (forall la lb x out v d', dm_TransferAtoB mmul tasks garbage cmode d la lb x out = Ret (v, d') -> d' = d \/ d' = dm_Finalize d) /\
    (forall la lb sy st d', dm_ConcStep mmul tasks garbage cmode d la lb sy = Ret (st, d') -> d' = dm_Finalize d) /\
    (forall A ms d', dm_AssembleMatrices mmul tasks garbage d A = Ret (ms, d') -> dm_fin d' = dm_fin (dm_Finalize d) /\ length (dm_steps d') = length (dm_steps d)).
  Proof.
    intros mmul tasks garbage cmode d.
    assert (QC : forall la lb sy st d', dm_ConcStep mmul tasks garbage cmode d la lb sy = Ret (st, d') -> d' = dm_Finalize d).
    { intros la lb sy st d' E. unfold dm_ConcStep in E. destruct (if lb <? la then _ else _) as [k1 k2]. destruct (k1 + 1 =? k2).
      - destruct (rd _ _); cbn [bind] in E; inversion E; auto.
      - destruct (_ <? _); [discriminate|]. destruct sy.
        + destruct (get_vecs _); cbn [bind] in E; inversion E; auto. + destruct (MakeSingleStep3 _ _ _ _ _); cbn [bind] in E; inversion E; auto. }
    split; [|split; auto].
    - intros la lb x out v d' E. unfold dm_TransferAtoB in E. destruct (la =? lb); [inversion E; auto|]. destruct (_ =? _); [inversion E; auto|].
      destruct (if lb <? la then _ else _) as [l1 l2]. destruct (dm_ConcStep _ _ _ _ d l1 l2 true) as [[st d1]|] eqn:EC; cbn [bind] in E; [|discriminate].
      apply QC in EC. cbn [fst snd] in E. destruct st; [|discriminate]. destruct (if lb <? la then _ else _); cbn [bind] in E; inversion E; subst; auto.
    - intros A ms d' E. unfold dm_AssembleMatrices in E. destruct (asm_chain _ _ A) as [[q1 q2]|] eqn:EA; cbn [bind] in E; inversion E. cbn [dm_fin dm_steps snd].
      apply asm_len in EA. rewrite fin_steps in EA. auto.
  Qed.
  (** exceptions: an empty map is not finalised, and ReplaceStep is not guarded *)
  Theorem C34_empty_not_finalised : forall s : @step B, dm_AddStep (dm_Finalize dm_new) s = Ret (mkDM [s] false []).
  Proof. reflexivity. Qed.
  Theorem C34_replace_unguarded : forall (d : @dofmap B) k s, k < length (dm_steps d) ->
    exists d', dm_ReplaceStep (dm_Finalize d) k s = Ret d' /\ nth_error (dm_steps d') k = Some s.
  Proof.
    intros d k s H. unfold dm_ReplaceStep. rewrite fin_steps, wr_ok by auto. cbn [bind]. eexists. split; [reflexivity|]. cbn [dm_steps]. now apply nth_error_upd_eq.
  Qed.
End Histories.
Print Assumptions C34_before_finalize.
Print Assumptions C34_after_finalize.
Print Assumptions C34_use_finalises.
Print Assumptions C34_empty_not_finalised.
Print Assumptions C34_replace_unguarded.
Example C34_ex : snd (run dm_new [OAdd ex_st2; OPre ex_st1; OFin; OAdd ex_st1]) = [false; false; false; true] /\
  dm_steps (fst (run dm_new [OAdd ex_st2; OPre ex_st1; OFin; OAdd ex_st1])) = [ex_st1; ex_st2].
Proof. split; reflexivity. Qed.
