From Verif Require Import Base ArraysModel AGroup LinAlg LinTools Instances SparseModel SparseSpec SparseProofs SparseProofs2 SparseProofs3 MergeModel MergeProofs SparseProps DofMapModel DofMapSpec.
Open Scope nat_scope.
Local Ltac ilia := unfold srow, smat in *; lia.

Section P.
  Context {B : Blk} (L : BlkLaws B) (mmul : M B -> M B -> M B) (ML : MMulLaws B mmul).
  Variable tasks : nat -> list nat.
  Variable garbage : nat -> nat -> hash.
  Hypothesis TK : forall n, list_sum (tasks n) = n.
  Hypothesis GB : forall t n, length (garbage t n) = n.
  Variable cmode : smat (M B) -> smat (M B) -> option bool.
  Notation vec := (list (X B)).
  Notation mat := (smat (M B)).
  Notation step := (@step B).

  (** *** denotations *)
  Fixpoint Rst (st : step) (x : vec) : vec :=
    match st with
    | Prol _ _ (Some T) => matvec T x
    | Prol _ _ None => x
    | Conc subs _ => fold_left (fun v s => Rst s v) subs x
    | Multi maps => match maps with [] => x | s :: _ => Rst s x end
    end.
  Fixpoint Pst (st : step) (x : vec) : vec :=
    match st with
    | Prol _ P _ => matvec P x
    | Conc subs _ => fold_right (fun s v => Pst s v) x subs
    | Multi maps => match maps with [] => x | s :: _ => Pst s x end
    end.
  Definition Rch (l : list step) (x : vec) : vec := fold_left (fun v s => Rst s v) l x.
  Definition Pch (l : list step) (x : vec) : vec := fold_right (fun s v => Pst s v) x l.

  Lemma transposed_wf n m P T : transposed n m P T -> @wf_mat B m n T.
  Proof. intros (H1 & H2 & H3). rewrite <- H1. now apply width_wf. Qed.
  Lemma good_wf n m P : good_mat n m P -> @wf_mat B n m P.
  Proof. intros [H1 H2 H3 H4 H5]. rewrite <- H1. now apply width_wf. Qed.

  Lemma step_ok_weaken : forall fin,
    (forall n m st, step_ok fin n m st -> @step_ok B false n m st) /\
    (forall n m l, chain_ok fin n m l -> @chain_ok B false n m l) /\ (forall l, others_ok fin l -> @others_ok B false l).
  Proof.
    intros fin. apply (step_ok_ind3 B fin (fun n m st _ => step_ok false n m st) (fun n m l _ => chain_ok false n m l) (fun l _ => others_ok false l));
      intros; try (econstructor; eauto; discriminate). 
  Qed.

  (** *** transfers compute the denotations *)
  Lemma walk_cons go fin l (s s2 : step) t bufs : walk go fin l (s :: s2 :: t) bufs =
    (v <- rd bufs (l - 1) ;; r <- go (fun v => v) s v ;; bufs <- wr bufs l r ;; walk go fin (S l) (s2 :: t) bufs).
  Proof. reflexivity. Qed.
  Lemma down_cons go x l (s s2 : step) t bufs : down go x l (s :: s2 :: t) bufs =
    (bufs <- down go x (S l) (s2 :: t) bufs ;; v <- rd bufs l ;; r <- go (fun v => v) s v ;; wr bufs (l - 1) r).
  Proof. reflexivity. Qed.
  Lemma walk_ok fin subs : subs <> [] ->
    forall l bufs, 0 < l -> length bufs = l - 1 + length subs ->
    (forall s, In s subs -> forall f x, f2c f s x = Ret (f (Rst s x))) ->
    walk (fun f s v => f2c f s v) fin l subs bufs = Ret (fin (Rch subs (nth (l - 1) bufs []))).
  Proof.
    induction subs as [|s t IH]; intros NE l bufs Hl HB HS; [congruence|].
    destruct t as [|s2 t].
    - cbn [walk]. simpl in HB. rewrite (rd_ok bufs _ []) by lia. cbn [bind]. rewrite HS by now left. unfold Rch. simpl.
      do 4 f_equal. lia.
    - rewrite walk_cons. rewrite (rd_ok bufs _ []) by (simpl in HB; lia). cbn [bind]. rewrite HS by now left. cbn [bind].
      rewrite wr_ok by (simpl in HB; lia). cbn [bind].
      rewrite IH; [|discriminate|lia|rewrite upd_length; simpl in *; lia|intros; apply HS; now right].
      do 2 f_equal. change (Rch (s :: s2 :: t)) with (fun x => Rch (s2 :: t) (Rst s x)). cbv beta. f_equal.
      replace (S l - 1) with l by lia. apply nth_upd_eq. simpl in HB. lia.
  Qed.
  Lemma down_ok x subs : subs <> [] ->
    forall l bufs, 0 < l -> length bufs = l - 1 + length subs ->
    (forall s, In s subs -> forall f x, c2f f s x = Ret (f (Pst s x))) ->
    exists bufs', down (fun f s v => c2f f s v) x l subs bufs = Ret bufs' /\ length bufs' = length bufs /\ nth (l - 1) bufs' [] = Pch subs x.
  Proof.
    induction subs as [|s t IH]; intros NE l bufs Hl HB HS; [congruence|].
    destruct t as [|s2 t].
    - cbn [down]. rewrite HS by now left. cbn [bind]. simpl in HB. rewrite wr_ok by lia. eexists. split; [reflexivity|].
      rewrite upd_length. split; auto. replace (length bufs - 1) with (l - 1) by lia. apply nth_upd_eq. lia.
    - rewrite down_cons. destruct (IH ltac:(discriminate) (S l) bufs) as (b & E1 & E2 & E3); [lia|simpl in *; lia|intros; apply HS; now right|].
      rewrite E1. cbn [bind]. rewrite (rd_ok b _ []) by (simpl in HB; lia). cbn [bind]. rewrite HS by now left. cbn [bind].
      rewrite wr_ok by (simpl in HB; lia). eexists. split; [reflexivity|]. rewrite upd_length. split; auto.
      rewrite nth_upd_eq by (simpl in HB; lia). replace (S l - 1) with l in E3 by lia. rewrite E3. reflexivity.
  Qed.
  Lemma transfer_ok :
    (forall n m st, step_ok true n m st -> (forall f x, f2c f st x = Ret (f (Rst st x))) /\ (forall f x, c2f f st x = Ret (f (Pst st x)))) /\
    (forall n m l, chain_ok true n m l -> forall s, In s l -> (forall f x, f2c f s x = Ret (f (Rst s x))) /\ (forall f x, c2f f s x = Ret (f (Pst s x)))) /\
    (forall l, @others_ok B true l -> True).
  Proof.
    apply (step_ok_ind3 B true); intros; auto.
    - destruct PT as [T|]; [|now destruct n0]. split; reflexivity.
    - destruct subs as [|s t]; [congruence|]. destruct t as [|s2 t].
      + destruct (H s ltac:(now left)) as [H1 H2]. split; intros; cbn [f2c c2f Rst Pst fold_left fold_right]; auto.
      + destruct bufs as [b|]; [|exfalso; apply n1; auto; simpl; lia]. specialize (e b eq_refl).
        assert (H1 : forall s', In s' (s2 :: t) -> forall f x, f2c f s' x = Ret (f (Rst s' x))) by (intros; apply H; now right).
        assert (H2 : forall s', In s' (s2 :: t) -> forall f x, c2f f s' x = Ret (f (Pst s' x))) by (intros; apply H; now right).
        split; intros f x.
        * change (f2c f (Conc (s :: s2 :: t) (Some b)) x) with (v <- f2c (fun v => v) s x ;; bufs <- wr b 0 v ;; walk (fun f s v => f2c f s v) f 1 (s2 :: t) bufs). destruct (H s (or_introl eq_refl)) as [E _]. rewrite E. cbn [bind]. rewrite wr_ok by (simpl in e; lia). cbn [bind].
          rewrite walk_ok; [|discriminate|lia|rewrite upd_length; simpl in *; lia|exact H1].
          do 2 f_equal. change (Rst (Conc (s :: s2 :: t) (Some b)) x) with (Rch (s2 :: t) (Rst s x)). f_equal. apply nth_upd_eq. simpl in e. lia.
        * change (c2f f (Conc (s :: s2 :: t) (Some b)) x) with (bufs <- down (fun f s v => c2f f s v) x 1 (s2 :: t) b ;; v <- rd bufs 0 ;; c2f f s v). destruct (down_ok x (s2 :: t) ltac:(discriminate) 1 b) as (b' & E1 & E2 & E3); [lia|simpl in *; lia|exact H2|].
          rewrite E1. cbn [bind]. rewrite (rd_ok b' _ []) by (simpl in *; lia). cbn [bind]. destruct (H s (or_introl eq_refl)) as [_ E]. rewrite E.
          do 2 f_equal. simpl in E3. rewrite E3. reflexivity.
    - match goal with H : In _ [] |- _ => destruct H end.
    - match goal with H : In _ (_ :: _) |- _ => destruct H as [->|Hs] end; auto.
  Qed.

  (** *** adjointness and linearity *)
  Lemma denot_ok :
    (forall n m st, step_ok true n m st -> lin n m (Rst st) /\ lin m n (Pst st) /\ adj n m (Rst st) (Pst st)) /\
    (forall n m l, chain_ok true n m l -> lin n m (Rch l) /\ lin m n (Pch l) /\ adj n m (Rch l) (Pch l)) /\
    (forall l, @others_ok B true l -> True).
  Proof.
    apply (step_ok_ind3 B true); intros; auto.
    - destruct PT as [T|]; [|now destruct n0]. pose proof (t T eq_refl) as HT.
      split; [|split].
      + apply (matvec_lin L m n). now apply transposed_wf with P.
      + apply (matvec_lin L n m). now apply good_wf.
      + apply adj_sym; auto. intros x y Hx Hy. apply (matvec_adjoint L n m); auto; try now apply good_wf.
        * now apply transposed_wf with P. * intros i j Hi Hj. apply HT; auto.
    - split; [|split]. apply (lin_id n). apply (lin_id n). intros x y _ _. reflexivity.
    - destruct H as (A1 & A2 & A3). destruct H0 as (C1 & C2 & C3).
      split; [|split].
      + apply (lin_compose n k m (Rst s) (Rch t)); auto.
      + apply (lin_compose m k n (Pch t) (Pst s)); auto.
      + apply (adj_compose n k m (Rst s) (Pst s) (Rch t) (Pch t)); auto.
  Qed.

  (** *** Finalize *)
  Lemma rent_uniq (r : srow (M B)) c v : StronglySorted lt (cols r) -> In (c, v) r -> rent m0 madd r c = v.
  Proof.
    destruct (mm_mon _ _ ML) as [Z0 ZC ZA]. induction r as [|[c' v'] r IH]; intros S HI; [destruct HI|]. destruct HI as [E|H].
    - inversion E; subst. cbn [rent fold_right fst snd]. rewrite Nat.eqb_refl.
      assert (N : ~ In c (cols r)). { intros C. inversion S as [|? ? _ F]; subst. rewrite Forall_forall in F. specialize (F _ C). simpl in F. lia. }
      fold (rent m0 madd r c). rewrite rent_none by auto. rewrite ZC. apply Z0.
    - inversion S as [|? ? S' F]; subst. rewrite Forall_forall in F.
      assert (c' < c). { apply F. apply in_map_iff. exists (c, v). auto. }
      cbn [rent fold_right fst snd]. destruct (Nat.eqb_spec c' c); [lia|]. apply IH; auto.
  Qed.
  Lemma transpose_transposed n m (P : mat) : good_mat n m P -> exists T, TransposeSPM mtr m P = Ret T /\ transposed n m P T.
  Proof.
    intros [H1 H2 H3 H4 H5]. destruct (C08_transpose_entries _ _ mtr m P H2 H3) as (T & E & LT & ST & IT).
    exists T. split; auto. split; auto. split.
    - intros r [i v] Hr Hp. apply (In_nth _ _ []) in Hr as (j & Hj & <-). apply IT in Hp as (u & Hu & _). cbn [fst].
      destruct (Nat.lt_ge_cases i (length P)); [ilia|]. rewrite nth_overflow in Hu by auto. destruct Hu.
    - intros i k Hi Hk. change (rent (@m0 B) madd (nth i T []) k = mtr (rent (@m0 B) madd (nth k P []) i)).
      destruct (in_dec Nat.eq_dec i (cols (nth k P []))) as [D|D].
      + unfold cols in D. apply in_map_iff in D as ((i', u) & <- & Hu). cbn [fst] in *.
        rewrite (rent_uniq (nth k P []) i' u); auto; [|apply H3; apply nth_In; ilia].
        apply rent_uniq; [apply ST; apply nth_In; ilia|]. apply IT. eauto.
      + rewrite (rent_none m0 madd (nth k P []) i) by auto. rewrite (mtr_m0 B L). apply rent_none. intros C. apply D. unfold cols in C.
        apply in_map_iff in C as ((k', v) & <- & Hv). apply IT in Hv as (u & Hu & _). apply in_map_iff. exists (i, u). auto.
  Qed.
  Lemma transposed_act n m (P T T' : mat) (x : vec) : transposed n m P T -> transposed n m P T' -> @matvec B T x = matvec T' x.
  Proof.
    intros H H'. apply (vec_ext m). - rewrite matvec_length. apply H. - rewrite matvec_length. apply H'.
    - intros i Hi. rewrite (matvec_entries L T m n) by now apply transposed_wf with P. rewrite (matvec_entries L T' m n) by now apply transposed_wf with P.
      apply (xsum_ext n). intros j Hj. f_equal. destruct H as (_ & _ & H). destruct H' as (_ & _ & H'). rewrite H, H'; auto.
  Qed.

  Lemma build_pt_ok n m (P : mat) (PT : option mat) : good_mat n m P -> (forall T, PT = Some T -> transposed n m P T) ->
    exists T, build_pt m P PT = Ret T /\ transposed n m P T.
  Proof.
    intros G H. destruct PT as [T|]; cbn [build_pt]; [exists T; split; auto|]. apply (transpose_transposed n m P G).
  Qed.
  Lemma mapR_length {T U} (f : T -> res U) l l' : mapR f l = Ret l' -> length l' = length l.
  Proof.
    revert l'. induction l as [|s t IH]; cbn [mapR]; intros l' E; [inversion E; auto|].
    destruct (f s); cbn [bind] in E; [|discriminate]. destruct (mapR f t); cbn [bind] in E; [|discriminate]. inversion E. simpl. now rewrite IH.
  Qed.
  Lemma removelast_length {T} (l : list T) : length (removelast l) = length l - 1.
  Proof. induction l as [|a [|b t] IH]; auto. change (removelast (a :: b :: t)) with (a :: removelast (b :: t)). simpl in *. lia. Qed.
  (** Finalize keeps the prolongation, and the restriction if there already was one *)
  Lemma finalize_ok :
    (forall n m st, step_ok false n m st -> exists st', finalize st = Ret st' /\ step_ok true n m st' /\ (forall x, Pst st' x = Pst st x)) /\
    (forall n m l, chain_ok false n m l -> exists l', mapR finalize l = Ret l' /\ chain_ok true n m l' /\ (forall x, Pch l' x = Pch l x)) /\
    (forall l, others_ok false l -> exists l', mapR finalize l = Ret l' /\ @others_ok B true l').
  Proof.
    apply (step_ok_ind3 B false); intros.
    - destruct (build_pt_ok n m P PT g t) as (T & E & HT). cbn [finalize]. rewrite E. cbn [bind]. eexists. split; [reflexivity|]. split; [|reflexivity].
      constructor; auto; [|discriminate]. intros T' HT'. inversion HT'; subst; auto.
    - destruct H as (l' & E & HC & HP). cbn [finalize]. rewrite E. cbn [bind]. eexists. split; [reflexivity|].
      pose proof (mapR_length _ _ _ E) as LE. split; [|exact HP].
      constructor; auto.
      + intros ->. destruct subs; simpl in LE; [congruence|discriminate].
      + intros b Hb. destruct bufs as [b'|]; [inversion Hb; subst; rewrite LE; auto|].
        destruct (Nat.ltb_spec 1 (length l')); [|discriminate]. inversion Hb. rewrite map_length, removelast_length. lia.
      + intros _ Hl C. destruct bufs; [discriminate|]. destruct (Nat.ltb_spec 1 (length l')); [discriminate|lia].
    - destruct H as (s' & E1 & H1 & H2). destruct H0 as (t' & E2 & H3). cbn [finalize mapR]. rewrite E1. cbn [bind]. rewrite E2. cbn [bind].
      eexists. split; [reflexivity|]. split; [constructor; auto|]. intros x. cbn [Pst]. apply H2.
    - exists []. repeat split. constructor.
    - destruct H as (s' & E1 & H1 & H2). destruct H0 as (t' & E2 & H3 & H4). cbn [mapR]. rewrite E1. cbn [bind]. rewrite E2. cbn [bind].
      eexists. split; [reflexivity|]. split; [econstructor; eauto|]. intros x. cbn [Pch fold_right]. fold (Pch t' x) (Pch t x). now rewrite H4, H2.
    - exists []. repeat split. constructor.
    - destruct H as (s' & E1 & H1 & H2). destruct H0 as (t' & E2 & H3). cbn [mapR]. rewrite E1. cbn [bind]. rewrite E2. cbn [bind].
      eexists. split; [reflexivity|]. econstructor; eauto.
  Qed.
  (** finalising twice changes nothing *)
  Lemma finalize_ready :
    (forall n m (st : step), step_ok true n m st -> finalize st = Ret st) /\
    (forall n m (l : list step), chain_ok true n m l -> mapR finalize l = Ret l) /\
    (forall l : list step, others_ok true l -> mapR finalize l = Ret l).
  Proof.
    apply (step_ok_ind3 B true); intros; cbn [finalize mapR]; auto.
    - destruct PT; [reflexivity|]. now destruct n0.
    - rewrite H. cbn [bind]. do 2 f_equal. destruct bufs; auto. destruct (Nat.ltb_spec 1 (length subs)); auto. exfalso. now apply n1.
    - rewrite H. cbn [bind]. rewrite H0. reflexivity.
    - rewrite H. cbn [bind]. rewrite H0. reflexivity.
    - rewrite H. cbn [bind]. rewrite H0. reflexivity.
  Qed.

  (** *** AssembleMatrix *)
  Notation asm := (assemble mmul tasks garbage).
  (** C is the Galerkin projection of A through the step *)
  Definition galerkin (n m : nat) (R Q : vec -> vec) (A C : mat) : Prop :=
    good_mat m m C /\ (forall x, matvec C x = R (matvec A (Q x))) /\ (@sym_mat B n A -> @sym_mat B m C).
  Lemma last_cons_ne {T} (l : list T) a b d : l <> [] -> last (a :: l) d = last l b.
  Proof. destruct l as [|t l]; [congruence|]. intros _. clear. change (last (t :: l) d = last (t :: l) b). revert t. induction l as [|u l IH]; intros; [reflexivity|]. exact (IH u). Qed.
  Lemma asm_chain_len f l A ms l' : asm_chain (B:=B) f l A = Ret (ms, l') -> length ms = S (length l).
  Proof.
    revert A ms l'. induction l as [|s t IH]; intros A ms l' E; cbn [asm_chain] in E; [now inversion E|].
    destruct (f s A) as [p|]; cbn [bind] in E; [|discriminate]. destruct (asm_chain f t (fst p)) as [[q1 q2]|] eqn:EQ; cbn [bind] in E; [|discriminate].
    inversion E. simpl. f_equal. apply (IH _ _ _ EQ).
  Qed.
  Lemma assemble_ok :
    (forall n m st, step_ok true n m st -> forall A, good_mat n n A -> exists C, asm st A = Ret (C, st) /\ galerkin n m (Rst st) (Pst st) A C) /\
    (forall n m l, chain_ok true n m l -> forall A, good_mat n n A ->
       exists ms, asm_chain asm l A = Ret (ms, l) /\ ms <> [] /\ galerkin n m (Rch l) (Pch l) A (last ms A)) /\
    (forall l, @others_ok B true l -> True).
  Proof.
    apply (step_ok_ind3 B true); intros; auto.
    - destruct PT as [T|]; [|now destruct n0]. destruct (t T eq_refl) as (T1 & T2 & T3). destruct g as [P1 P2 P3 P4 P5]. destruct H as [A1 A2 A3 A4 A5].
      cbn [assemble build_pt bind].
      destruct (C10_restrict_acts_as_PTAP B L mmul ML n m (tasks (length T)) (tasks (length T)) garbage garbage T A P) as (C & E & LC & WC & SC & AC & SY);
        auto; try (rewrite TK; auto).
      rewrite E. cbn [bind]. exists C. split; auto. split; [constructor; auto|split; auto].
    - destruct (H A H0) as (ms & E & NE & G). cbn [assemble]. rewrite E. cbn [bind fst snd]. eexists. split; [reflexivity|]. exact G.
    - destruct (H A H1) as (C & E & G). cbn [assemble]. rewrite E. cbn [bind fst snd]. exists C. split; auto.
    - exists [A]. split; [reflexivity|]. split; [discriminate|]. simpl. split; auto.
    - destruct (H A H1) as (C & E & G1 & G2 & G3). destruct (H0 C G1) as (ms & E2 & NE & G4 & G5 & G6). cbn [asm_chain]. rewrite E. cbn [bind fst snd]. rewrite E2. cbn [bind fst snd].
      exists (A :: ms). split; auto. split; [discriminate|]. rewrite (last_cons_ne ms A C A NE).
      split; auto. split; auto. intros x. rewrite G5, G2. reflexivity.
  Qed.
  (** assembling with a step that is not finalised gives the same matrices *)
  Lemma assemble_finalize :
    (forall n m st, step_ok false n m st -> forall st' A C s', finalize st = Ret st' -> asm st' A = Ret (C, s') -> exists st'', asm st A = Ret (C, st'')) /\
    (forall n m l, chain_ok false n m l -> forall l' A ms s', mapR finalize l = Ret l' -> asm_chain asm l' A = Ret (ms, s') -> exists l'', asm_chain asm l A = Ret (ms, l'')) /\
    (forall l, @others_ok B false l -> True).
  Proof.
    apply (step_ok_ind3 B false); intros; auto.
    - cbn [finalize] in H. destruct (build_pt m P PT) as [T|] eqn:ET; cbn [bind] in H; [|discriminate]. inversion H; subst.
      cbn [assemble]. rewrite ET. cbn [assemble build_pt] in H0. cbn [bind] in *. destruct (RestrictMatrix _ _ _ _ _ _ _ _ _ _ _); cbn [bind] in *; [|discriminate].
      inversion H0; subst. eauto.
    - cbn [finalize] in H0. destruct (mapR finalize subs) as [subs'|] eqn:ES; cbn [bind] in H0; [|discriminate]. inversion H0; subst. clear H0. cbn [assemble] in *.
      destruct (asm_chain asm subs' A) as [[ms l']|] eqn:EA; cbn [bind fst snd] in H1; [|discriminate]. inversion H1; subst.
      destruct (H subs' A ms l' eq_refl EA) as (l'' & E). rewrite E. cbn [bind fst snd]. eauto.
    - cbn [finalize mapR] in H1. destruct (finalize s) as [s1|] eqn:ES; cbn [bind] in H1; [|discriminate].
      destruct (mapR finalize t) as [t1|] eqn:ET; cbn [bind] in H1; [|discriminate]. inversion H1; subst. cbn [assemble] in *.
      destruct (asm s1 A) as [[C1 s2]|] eqn:EA; cbn [bind fst snd] in H2; [|discriminate]. inversion H2; subst.
      destruct (H s1 A C s2 eq_refl EA) as (l'' & E). rewrite E. cbn [bind fst snd]. eauto.
    - cbn [mapR] in H. inversion H; subst. eauto.
    - cbn [mapR] in H1. destruct (finalize s) as [s1|] eqn:ES; cbn [bind] in H1; [|discriminate].
      destruct (mapR finalize t) as [t1|] eqn:ET; cbn [bind] in H1; [|discriminate]. inversion H1; subst. cbn [asm_chain] in *.
      destruct (asm s1 A) as [[C1 s2]|] eqn:EA; cbn [bind fst snd] in H2; [|discriminate].
      destruct (asm_chain asm t1 C1) as [[ms1 t2]|] eqn:EA2; cbn [bind fst snd] in H2; [|discriminate]. inversion H2; subst.
      destruct (H s1 A C1 s2 eq_refl EA) as (q1 & E). rewrite E. cbn [bind fst snd].
      destruct (H0 t1 C1 ms1 t2 eq_refl EA2) as (q2 & E2). rewrite E2. cbn [bind fst snd]. eauto.
  Qed.
End P.
