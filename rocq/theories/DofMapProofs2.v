From Verif Require Import Base ArraysModel AGroup LinAlg LinTools Instances SparseModel SparseSpec SparseProofs SparseProofs2 SparseProofs3 MergeModel MergeProofs SparseProps DofMapModel DofMapSpec DofMapProofs.
Open Scope nat_scope.
Local Ltac ilia := unfold srow, smat in *; lia.

Section P.
  Context {B : Blk} (L : BlkLaws B) (mmul : M B -> M B -> M B) (ML : MMulLaws B mmul).
  Variable tasks : nat -> list nat.
  Variable garbage : nat -> nat -> hash.
  Hypothesis TK : forall n, list_sum (tasks n) = n.
  Hypothesis GB : forall t n, length (garbage t n) = n.
  Variable cmode : smat (M B) -> smat (M B) -> option bool.
  Notation vec := (list (X B)).
  Notation mat := (smat (M B)).
  Notation step := (@step B).
  Notation conc := (concatenate mmul tasks garbage cmode).

  (** *** the two loops of MakeSingleStep2 *)
  Lemma inner_spec steps : forall fuel cur k, k < length steps -> length steps - k <= fuel ->
    match ms2_inner mmul tasks garbage cmode fuel steps cur k (S k) with
    | Ret (r, k') => k <= k' /\ k' < length steps /\ exists g, skipn (S k) steps = g ++ skipn (S k') steps /\ merges conc cur g r /\
                     (forall t, hd_error (skipn (S k') steps) = Some t -> conc r t = Ret None)
    | Err e => exists g r t rest, skipn (S k) steps = g ++ t :: rest /\ merges conc cur g r /\ conc r t = Err e
    end.
  Proof.
    induction fuel as [|f IH]; intros cur k Hk Hf; [lia|]. cbn [ms2_inner].
    destruct (Nat.ltb_spec (S k) (length steps)) as [H|H].
    - destruct steps as [|d0 steps']; [simpl in H; lia|]. set (steps := d0 :: steps') in *.
      rewrite (rd_ok steps (S k) d0) by auto. cbn [bind].
      assert (SK : skipn (S k) steps = nth (S k) steps d0 :: skipn (S (S k)) steps).
      { clear -H. revert H. generalize (S k) as j. generalize steps as l. induction l as [|a l IH]; intros j H; simpl in *; [lia|]. destruct j; [destruct l; reflexivity|]. apply IH. lia. }
      destruct (conc cur (nth (S k) steps d0)) as [[c|]|e] eqn:EC; cbn [bind].
      + specialize (IH c (S k) H ltac:(lia)). destruct (ms2_inner _ _ _ _ _ _ _ _ _) as [[r k']|e].
        * destruct IH as (H1 & H2 & g & H3 & H4 & H5). split; [lia|]. split; auto. exists (nth (S k) steps d0 :: g). split; [rewrite SK, H3; reflexivity|].
          split; auto. econstructor; eauto.
        * destruct IH as (g & r & t & rest & H3 & H4 & H5). exists (nth (S k) steps d0 :: g), r, t, rest. split; [rewrite SK, H3; reflexivity|].
          split; auto. econstructor; eauto.
      + split; auto. split; auto. exists []. split; auto. split; [constructor|]. rewrite SK. simpl. intros t E. inversion E; subst. exact EC.
      + exists [], cur, (nth (S k) steps d0), (skipn (S (S k)) steps). split; auto. split; [constructor|]. exact EC.
    - split; auto. split; auto. exists []. split; auto. split; [constructor|]. rewrite skipn_all2 by auto. discriminate.
  Qed.
  Lemma outer_spec steps : forall fuel k acc, length steps - k < fuel ->
    match ms2_outer mmul tasks garbage cmode fuel steps k acc with
    | Ret subs' => exists subs, subs' = acc ++ subs /\ grouping conc (skipn k steps) subs
    | Err e => exists pre s g r t rest, steps = pre ++ s :: g ++ t :: rest /\ merges conc s g r /\ conc r t = Err e
    end.
  Proof.
    induction fuel as [|f IH]; intros k acc Hf; [lia|]. cbn [ms2_outer].
    destruct (Nat.ltb_spec k (length steps)) as [H|H].
    - destruct steps as [|d0 steps']; [simpl in H; lia|]. set (steps := d0 :: steps') in *.
      rewrite (rd_ok steps k d0) by auto. cbn [bind].
      assert (SK : skipn k steps = nth k steps d0 :: skipn (S k) steps).
      { clear -H. revert k H. generalize steps as l. induction l as [|a l IH]; intros j H; simpl in *; [lia|]. destruct j; [destruct l; reflexivity|]. apply IH. lia. }
      pose proof (inner_spec steps (S (length steps)) (nth k steps d0) k H ltac:(lia)) as HI.
      destruct (ms2_inner _ _ _ _ _ _ _ _ _) as [[r k']|e]; cbn [bind fst snd].
      + destruct HI as (H1 & H2 & g & H3 & H4 & H5). specialize (IH (S k') (acc ++ [r]) ltac:(lia)).
        destruct (ms2_outer _ _ _ _ _ _ _ _) as [subs'|e]; auto.
        destruct IH as (subs & -> & G). exists (r :: subs). rewrite <- app_assoc. split; auto. rewrite SK, H3. econstructor; eauto.
      + destruct HI as (g & r & t & rest & H3 & H4 & H5). exists (firstn k steps), (nth k steps d0), g, r, t, rest. split; auto.
        rewrite <- (firstn_skipn k steps) at 1. rewrite SK, H3. reflexivity.
    - exists []. rewrite app_nil_r. split; auto. rewrite skipn_all2 by auto. constructor.
  Qed.
  Definition wrap (subs : list step) : step := match subs with [s] => s | _ => Conc subs None end.
  Lemma ms2_spec steps : steps <> [] ->
    match MakeSingleStep2 mmul tasks garbage cmode steps with
    | Ret r => exists subs, r = Some (wrap subs) /\ subs <> [] /\ grouping conc steps subs
    | Err e => exists pre s g r t rest, steps = pre ++ s :: g ++ t :: rest /\ merges conc s g r /\ conc r t = Err e
    end.
  Proof.
    intros NE. unfold MakeSingleStep2. destruct (Nat.eqb_spec (length steps) 0) as [H|H]; [destruct steps; simpl in *; congruence|].
    pose proof (outer_spec steps (S (length steps)) 0 [] ltac:(lia)) as HO. destruct (ms2_outer _ _ _ _ _ _ _ _) as [s|e]; cbn [bind]; auto.
    destruct HO as (subs & -> & G). cbn [app]. exists subs. split; [destruct subs as [|? [|? ?]]; reflexivity|]. split; auto. intros ->. cbn [skipn] in G. inversion G. congruence.
  Qed.

  (** *** what concatenation does to the transfers *)
  Definition Rfin (st : step) (x : vec) : vec := match finalize st with Ret s => Rst s x | Err _ => x end.
  Definition Rfch (l : list step) (x : vec) : vec := fold_left (fun v s => Rfin s v) l x.
  Lemma can_all_false can om : forall l k c, can_all (B:=B) can om k l false = Ret c -> c = false.
  Proof.
    induction l as [|s t IH]; intros k c E; cbn [can_all] in E; [now inversion E|].
    destruct (rd om k); cbn [bind] in E; [|discriminate]. destruct (can s a); cbn [bind] in E; [|discriminate]. eauto.
  Qed.
  Lemma can_false : (forall n m (st : step), step_ok false n m st -> forall o c, can_concatenate st o = Ret c -> c = false) /\
    (forall n m l, @chain_ok B false n m l -> True) /\ (forall l, @others_ok B false l -> True).
  Proof.
    apply (step_ok_ind3 B false); auto; try (intros; cbn [can_concatenate] in *; congruence).
    intros n m s t Hs IH Ho _ o c E. destruct o as [n1 P1 PT1|su bu|om].
    - cbn [can_concatenate] in E. destruct t; [eauto|congruence].
    - cbn [can_concatenate] in E. destruct t; [eauto|congruence].
    - change (can_concatenate (Multi (s :: t)) (Multi om)) with (can_all (fun s o => can_concatenate s o) om 0 (s :: t) (length om =? length (s :: t))) in E.
      cbn [can_all] in E. destruct (rd om 0) as [o|]; cbn [bind] in E; [|discriminate].
      destruct (can_concatenate s o) as [c1|] eqn:E1; cbn [bind] in E; [|discriminate]. rewrite (IH _ _ E1), andb_false_r in E. eapply can_all_false; eauto.
  Qed.
  Lemma Rfin_prol n m (P : mat) (PT : option mat) : good_mat n m P -> (forall T, PT = Some T -> transposed n m P T) ->
    exists T, transposed n m P T /\ forall x, Rfin (Prol m P PT) x = matvec T x.
  Proof.
    intros G H. destruct (build_pt_ok L mmul ML n m P PT G H) as (T & E & HT). exists T. split; auto. intros x. unfold Rfin. cbn [finalize]. rewrite E. reflexivity.
  Qed.
  Lemma conc_ok n k m a b c : step_ok false n k a -> step_ok false k m b -> conc a b = Ret (Some c) ->
    step_ok false n m c /\ (forall x, Pst c x = Pst a (Pst b x)) /\ (forall x, Rfin c x = Rfin b (Rfin a x)).
  Proof.
    intros Ha Hb E. destruct Ha as [n k P PT GP HT _| |n k s t Hs Ho].
    - destruct Hb as [k m P2 PT2 GP2 HT2 _| |]; try (cbn [concatenate] in E; discriminate). cbn [concatenate] in E.
      destruct (cmode P P2) as [nf|]; [|discriminate].
      destruct GP as [A1 A2 A3 A4 A5] eqn:EGP. destruct GP2 as [C1 C2 C3 C4 C5] eqn:EGP2.
      destruct ML as [L1 L2 L3 L4 L5 L6].
      assert (A2' : width_ok (length P2) P) by (rewrite C1; exact A2).
      destruct (MatMultAB_act L mmul L1 L2 L3 m MergeCols (MergeCols_ok m C5) (tasks (length P)) garbage P P2) as (PP & E1 & LP & WP & SP & EP & AP); auto.
      assert (G3 : good_mat n m PP) by (constructor; auto; congruence).
      assert (RR : forall PT3, (forall T, PT3 = Some T -> transposed n m PP T) -> forall x, Rfin (Prol m PP PT3) x = Rfin (Prol m P2 PT2) (Rfin (Prol k P PT) x)).
      { intros PT3 HT3 x.
        destruct (Rfin_prol n k P PT (mkGood _ _ _ A1 A2 A3 A4 A5) HT) as (T1 & HT1 & R1). destruct (Rfin_prol k m P2 PT2 (mkGood _ _ _ C1 C2 C3 C4 C5) HT2) as (T2 & HT2' & R2).
        destruct (Rfin_prol n m PP PT3 G3 HT3) as (T3 & HT3' & R3). rewrite R1, R2, R3.
        apply (prod_matvec L mmul L3 m k n T2 T1 T3); try (eapply transposed_wf; eassumption).
        intros i j Hi. destruct (Nat.lt_ge_cases j n) as [Hj|Hj].
        - destruct HT3' as (_ & _ & Q3). destruct HT1 as (_ & _ & Q1). destruct HT2' as (_ & _ & Q2). rewrite Q3 by auto. rewrite EP by ilia.
          rewrite (sumN_hom _ _ m0 madd mtr) by (intros; first [apply (mtr_m0 B L)|apply (mtr_madd B L)]).
          rewrite C1. apply sumN_ext'. intros q Hq. rewrite L5, Q1, Q2; auto.
        - assert (Z3 : forall (T : mat) i', width_ok n T -> @entry B T i' j = m0).
          { intros T i' W. change (rent (@m0 B) madd (nth i' T []) j = m0). apply rent_none. intros C. unfold cols in C. apply in_map_iff in C as (p & Ep & Hp).
            destruct (Nat.lt_ge_cases i' (length T)); [|rewrite nth_overflow in Hp by auto; destruct Hp].
            specialize (W _ _ (nth_In T [] H) Hp). lia. }
          rewrite Z3 by apply HT3'. rewrite (sumN_ext' _ _ k _ (fun _ => m0)).
          + symmetry. apply (sumN_0 _ _ L1). + intros q Hq. rewrite (Z3 T1) by apply HT1. apply L2. }
      unfold mult in E. rewrite E1 in E. cbn [bind] in E. destruct nf.
      + inversion E; subst c. split; [|split].
        * constructor; auto; discriminate. * intros x. apply AP. * apply RR. discriminate.
      + destruct (transpose_transposed L mmul ltac:(constructor; auto) n m PP G3) as (T & ET & HTT). rewrite ET in E. cbn [bind] in E. inversion E; subst c.
        assert (Q : forall T0, Some T = Some T0 -> transposed n m PP T0) by (intros T0 Q; inversion Q; subst; auto).
        split; [|split].
        * constructor; auto; discriminate. * intros x. apply AP. * apply RR. exact Q.
    - cbn [concatenate] in E. discriminate.
    - change (conc (Multi (s :: t)) b) with (cc <- can_concatenate (Multi (s :: t)) b ;; if cc : bool then
          match b with
          | Multi omaps => c <- conc_all (fun s o => conc s o) omaps 0 (s :: t) ;; Ret (Some (Multi c))
          | _ => match t with [] => conc s b | _ => Ret None end
          end else Ret None) in E.
      destruct (can_concatenate (Multi (s :: t)) b) as [cc|] eqn:EC; cbn [bind] in E; [|discriminate].
      assert (cc = false). { eapply (proj1 can_false); [|exact EC]. econstructor; eauto. } subst cc. discriminate.
  Qed.
  Lemma merges_ok a g r : merges conc a g r -> forall n k m, step_ok false n k a -> chain_ok false k m g ->
    step_ok false n m r /\ (forall x, Pst r x = Pst a (Pch g x)) /\ (forall x, Rfin r x = Rfch g (Rfin a x)).
  Proof.
    induction 1 as [s|s t c rest r E H IH]; intros n k m Hs Hg.
    - inversion Hg; subst. auto.
    - inversion Hg as [|? k2 ? ? ? Ht Hr]; subst. destruct (conc_ok n k k2 s t c Hs Ht E) as (H1 & H2 & H3). destruct (IH n k2 m H1 Hr) as (H4 & H5 & H6).
      split; auto. split; intros x. + rewrite H5, H2. reflexivity. + rewrite H6, H3. reflexivity.
  Qed.
  Lemma chain_app fin (l1 l2 : list step) : forall n m, chain_ok fin n m (l1 ++ l2) <-> exists k, chain_ok fin n k l1 /\ chain_ok fin k m l2.
  Proof.
    induction l1 as [|s t IH]; intros n m; split.
    - intros H. exists n. split; [constructor|auto]. - intros (k & H1 & H2). inversion H1; subst; auto.
    - intros H. cbn [app] in H. inversion H as [|? k ? ? ? H1 H2]; subst. apply IH in H2 as (k2 & H3 & H4). exists k2. split; auto. econstructor; eauto.
    - intros (k & H1 & H2). inversion H1 as [|? k2 ? ? ? H3 H4]; subst. cbn [app]. econstructor; eauto. apply IH. eauto.
  Qed.
  Lemma grouping_ok steps subs : grouping conc steps subs -> forall n m, chain_ok false n m steps ->
    chain_ok false n m subs /\ (forall x, Pch subs x = Pch steps x) /\ (forall x, Rfch subs x = Rfch steps x).
  Proof.
    induction 1 as [|s g r rest subs HM HN HG IH]; intros n m HC.
    - auto.
    - change (s :: g ++ rest) with ((s :: g) ++ rest) in *. apply chain_app in HC as (k & H1 & H2). inversion H1 as [|? k2 ? ? ? H3 H4]; subst.
      destruct (merges_ok s g r HM n k2 k H3 H4) as (Q1 & Q2 & Q3). destruct (IH k m H2) as (Q4 & Q5 & Q6).
      split; [econstructor; eauto|]. split; intros x.
      + unfold Pch. rewrite fold_right_app. fold (Pch rest x) (Pch (s :: g) (Pch rest x)). cbn [fold_right]. fold (Pch subs x). rewrite Q5, Q2. reflexivity.
      + unfold Rfch. rewrite fold_left_app. cbn [fold_left]. fold (Rfch subs (Rfin r x)). rewrite Q6, Q3. reflexivity.
  Qed.
  (** finalised lists *)
  Lemma Rch_fin l : forall n m, chain_ok false n m l -> forall l', mapR finalize l = Ret l' -> forall x, Rch l' x = Rfch l x.
  Proof.
    induction l as [|s t IH]; intros n m H l' E x; cbn [mapR] in E; [inversion E; reflexivity|].
    inversion H as [|? k ? ? ? H1 H2]; subst. destruct (finalize s) as [s'|] eqn:ES; cbn [bind] in E; [|discriminate].
    destruct (mapR finalize t) as [t'|] eqn:ET; cbn [bind] in E; [|discriminate]. inversion E; subst. unfold Rch, Rfch. cbn [fold_left].
    fold (Rch t' (Rst s' x)). fold (Rfch t (Rfin s x)). rewrite (IH k m H2 t' eq_refl). f_equal. unfold Rfin. now rewrite ES.
  Qed.
  Lemma wrap_ok n m subs : subs <> [] -> chain_ok false n m subs ->
    step_ok false n m (wrap subs) /\ (forall x, Pst (wrap subs) x = Pch subs x) /\ (forall x, Rfin (wrap subs) x = Rfch subs x).
  Proof.
    intros NE HC. destruct subs as [|s [|s2 t]]; [congruence| |].
    - inversion HC as [|? k ? ? ? H1 H2]; subst. inversion H2; subst. cbn [wrap]. auto.
    - set (l := s :: s2 :: t) in *. change (wrap l) with (Conc l None). split; [|split].
      + constructor; auto; discriminate. + reflexivity.
      + intros x. unfold Rfin. cbn [finalize]. destruct (proj1 (proj2 (finalize_ok L mmul ML)) _ _ _ HC) as (l' & E & _). rewrite E. cbn [bind].
        change (Rch l' x = Rfch l x). eapply Rch_fin; eauto.
  Qed.
  (** *** simple steps *)
  Definition is_prol (st : step) : Prop := match st with Prol _ _ _ => True | _ => False end.
  Lemma Forall_concat {T} (P : T -> Prop) ll : Forall (Forall P) ll -> Forall P (concat ll).
  Proof. induction 1; simpl; auto. now apply Forall_app. Qed.
  Lemma Pch_app (l1 l2 : list step) x : Pch (l1 ++ l2) x = Pch l1 (Pch l2 x).
  Proof. unfold Pch. apply fold_right_app. Qed.
  Lemma Rfch_app (l1 l2 : list step) x : Rfch (l1 ++ l2) x = Rfch l2 (Rfch l1 x).
  Proof. unfold Rfch. apply fold_left_app. Qed.
  Lemma simple_ok :
    (forall n m (st : step), step_ok false n m st -> exists l, GetSimpleSteps st = Ret l /\ Forall is_prol l /\ l <> [] /\ chain_ok false n m l /\
       (forall x, Pch l x = Pst st x) /\ (forall x, Rfch l x = Rfin st x)) /\
    (forall n m (l : list step), chain_ok false n m l -> exists ll, mapR GetSimpleSteps l = Ret ll /\ Forall is_prol (concat ll) /\ (l <> [] -> concat ll <> []) /\ chain_ok false n m (concat ll) /\
       (forall x, Pch (concat ll) x = Pch l x) /\ (forall x, Rfch (concat ll) x = Rfch l x)) /\
    (forall l, @others_ok B false l -> True).
  Proof.
    apply (step_ok_ind3 B false); intros; auto.
    - exists [Prol m P PT]. cbn [GetSimpleSteps]. repeat split; auto.
      + repeat constructor. + discriminate. + econstructor; [|constructor]. constructor; auto.
    - destruct H as (ll & E & H1 & H2 & H3 & H4 & H5). cbn [GetSimpleSteps]. rewrite E. cbn [bind]. exists (concat ll). repeat split; auto.
      intros x. rewrite H5. unfold Rfin. cbn [finalize]. destruct (proj1 (proj2 (finalize_ok L mmul ML)) _ _ _ c) as (l' & E' & _). rewrite E'. cbn [bind].
      symmetry. change (Rch l' x = Rfch subs x). eapply Rch_fin; eauto.
    - destruct H as (l & E & H1 & H2 & H3 & H4 & H5). cbn [GetSimpleSteps]. exists l. repeat split; auto.
      intros x. rewrite H5. unfold Rfin. cbn [finalize mapR]. destruct (proj1 (finalize_ok L mmul ML) _ _ _ s0) as (s' & E' & _). rewrite E'. cbn [bind].
      destruct (proj2 (proj2 (finalize_ok L mmul ML)) _ o) as (t' & E2 & _). rewrite E2. reflexivity.
    - exists []. repeat split; auto. constructor. constructor.
    - destruct H as (l & E & H1 & H2 & H3 & H4 & H5). destruct H0 as (ll & E' & Q1 & Q2 & Q3 & Q4 & Q5). cbn [mapR]. rewrite E. cbn [bind]. rewrite E'. cbn [bind].
      exists (l :: ll). cbn [concat]. split; auto. split; [apply Forall_app; auto|]. split; [intros _ C; apply H2; now destruct l|].
      split; [apply chain_app; eauto|]. split; intros x.
      + rewrite Pch_app, Q4, H4. reflexivity. + rewrite Rfch_app, Q5, H5. reflexivity.
  Qed.
  (** on simple steps that fit together the concatenation never fails *)
  Lemma conc_prol_total n k m a b : step_ok false n k a -> step_ok false k m b -> is_prol a -> exists r, conc a b = Ret r /\ (forall c, r = Some c -> is_prol c).
  Proof.
    intros Ha Hb Pa. destruct Ha as [n k P PT GP HT _| |]; try contradiction. destruct Hb as [k m P2 PT2 GP2 HT2 _| |]; cbn [concatenate];
      try (exists None; split; [reflexivity|discriminate]).
    destruct (cmode P P2) as [nf|]; [|exists None; split; [reflexivity|discriminate]].
    destruct GP as [A1 A2 A3 A4 A5]. destruct GP2 as [C1 C2 C3 C4 C5]. destruct ML as [L1 L2 L3 L4 L5 L6].
    assert (A2' : width_ok (length P2) P) by (rewrite C1; exact A2).
    destruct (MatMultAB_act L mmul L1 L2 L3 m MergeCols (MergeCols_ok m C5) (tasks (length P)) garbage P P2) as (PP & E1 & LP & WP & SP & EP & AP); auto.
    unfold mult. rewrite E1. cbn [bind]. destruct nf; [eexists; split; [reflexivity|]; intros c E; inversion E; exact I|].
    assert (G3 : good_mat n m PP) by (constructor; auto; congruence).
    destruct (transpose_transposed L mmul ltac:(constructor; auto) n m PP G3) as (T & ET & _). rewrite ET. cbn [bind]. eexists; split; [reflexivity|]; intros c E; inversion E; exact I.
  Qed.
  Lemma merges_prol a g r : merges conc a g r -> forall n k m, step_ok false n k a -> chain_ok false k m g -> is_prol a -> is_prol r.
  Proof.
    induction 1 as [s|s t c rest r E H IH]; intros n k m Hs Hg Pa; auto.
    inversion Hg as [|? k2 ? ? ? Ht Hr]; subst. destruct (conc_ok n k k2 s t c Hs Ht E) as (H1 & _).
    destruct (conc_prol_total n k k2 s t Hs Ht Pa) as (r' & E' & HP). rewrite E in E'. inversion E'; subst. eapply IH; eauto.
  Qed.
  Lemma ms2_total n m steps : steps <> [] -> chain_ok false n m steps -> Forall is_prol steps ->
    exists subs, MakeSingleStep2 mmul tasks garbage cmode steps = Ret (Some (wrap subs)) /\ subs <> [] /\ grouping conc steps subs.
  Proof.
    intros NE HC HP. pose proof (ms2_spec steps NE) as H. destruct (MakeSingleStep2 _ _ _ _ _) as [r|e].
    - destruct H as (subs & -> & H). eauto.
    - exfalso. destruct H as (pre & s & g & r & t & rest & -> & HM & E).
      apply chain_app in HC as (k1 & _ & HC). change (s :: g ++ t :: rest) with ((s :: g) ++ t :: rest) in HC. apply chain_app in HC as (k2 & HC1 & HC2).
      inversion HC1 as [|? k3 ? ? ? Hs Hg]; subst. inversion HC2 as [|? k4 ? ? ? Ht _]; subst.
      apply Forall_app in HP as [_ HP]. inversion HP; subst.
      pose proof (merges_prol s g r HM _ _ _ Hs Hg ltac:(auto)) as Pr. destruct (merges_ok s g r HM _ _ _ Hs Hg) as (Hr & _).
      destruct (conc_prol_total _ _ _ r t Hr Ht Pr) as (q & E' & _). congruence.
  Qed.
End P.
