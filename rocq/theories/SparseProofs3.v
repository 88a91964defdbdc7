(** The merge used by the product, products as operators, Galerkin products, compression, embedding, sums. *)
From Verif Require Import Base ArraysModel ArraysProofs2 AGroup LinAlg LinTools SparseModel SparseSpec SparseProofs SparseProofs2 MergeModel MergeProofs.
Open Scope nat_scope.

Theorem MergeArrays_ok (rows : list (list Z)) : (forall r, In r rows -> StronglySorted Z.lt r) ->
  (forall r v, In r rows -> In v r -> (0 <= v < INT_MAX)%Z) ->
  exists out, MergeArrays rows = Ret out /\ StronglySorted Z.lt out /\ (forall v, In v out <-> exists r, In r rows /\ In v r).
Proof.
  intros S P. unfold MergeArrays. destruct (length rows <=? 16).
  - apply MergeArrays1_spec; auto. intros r z Hr Hz. apply (P r z Hr Hz).
  - apply MergeArraysQ_ok; auto. intros r z Hr Hz. apply (P r z Hr Hz).
Qed.
Lemma ss_map_Z (r : list nat) : StronglySorted lt r -> StronglySorted Z.lt (map Z.of_nat r).
Proof.
  induction 1; simpl; constructor; auto. apply Forall_forall. intros z Hz. apply in_map_iff in Hz as (y & <- & Hy).
  rewrite Forall_forall in H0. specialize (H0 y Hy). lia.
Qed.
Lemma ss_map_nat (l : list Z) : (forall z, In z l -> (0 <= z)%Z) -> StronglySorted Z.lt l -> StronglySorted lt (map Z.to_nat l).
Proof.
  intros P. induction 1; simpl; constructor; auto. - apply IHStronglySorted. intros; apply P; now right.
  - apply Forall_forall. intros z Hz. apply in_map_iff in Hz as (y & <- & Hy). rewrite Forall_forall in H0. specialize (H0 y Hy).
    pose proof (P a (or_introl eq_refl)). pose proof (P y (or_intror Hy)). lia.
Qed.
Theorem MergeCols_ok w : (Z.of_nat w <= INT_MAX)%Z -> merge_spec w MergeCols.
Proof.
  intros W rows S B. unfold MergeCols.
  destruct (MergeArrays_ok (map (map Z.of_nat) rows)) as (out & E & SO & IO).
  - intros r Hr. apply in_map_iff in Hr as (r' & <- & Hr'). now apply ss_map_Z, S.
  - intros r v Hr Hv. apply in_map_iff in Hr as (r' & <- & Hr'). apply in_map_iff in Hv as (c & <- & Hc). specialize (B r' c Hr' Hc). lia.
  - rewrite E. cbn [bind]. exists (map Z.to_nat out). split; auto.
    assert (P : forall z, In z out -> (0 <= z)%Z).
    { intros z Hz. apply IO in Hz as (r & Hr & Hv). apply in_map_iff in Hr as (r' & <- & Hr'). apply in_map_iff in Hv as (c & <- & Hc). lia. }
    split; [now apply ss_map_nat|]. intros c. rewrite in_map_iff. split.
    + intros (z & <- & Hz). apply IO in Hz as (r & Hr & Hv). apply in_map_iff in Hr as (r' & <- & Hr'). apply in_map_iff in Hv as (c' & <- & Hc).
      exists r'. split; auto. now rewrite Nat2Z.id.
    + intros (r & Hr & Hc). exists (Z.of_nat c). split; [apply Nat2Z.id|]. apply IO. exists (map Z.of_nat r). split; now apply in_map.
Qed.

(** *** sums *)
Section Sums.
  Context {E : Type} (e0 : E) (eadd : E -> E -> E) (CM : CMon e0 eadd).
  Notation sum := (sumN e0 eadd).
  Lemma sumN_ext' n (f g : nat -> E) : (forall k, k < n -> f k = g k) -> sum n f = sum n g.
  Proof. induction n; simpl; intros H; auto. rewrite IHn, H; auto. Qed.
  Lemma sumN_swap n m (f : nat -> nat -> E) : sum n (fun i => sum m (fun j => f i j)) = sum m (fun j => sum n (fun i => f i j)).
  Proof.
    induction n; simpl; [symmetry; apply (sumN_0 _ _ CM)|]. rewrite IHn. symmetry. apply (sumN_add _ _ CM).
  Qed.
  Lemma sumN_hom {F} (f0 : F) (fadd : F -> F -> F) (h : E -> F) n (f : nat -> E) : h e0 = f0 -> (forall a b, h (eadd a b) = fadd (h a) (h b)) ->
    h (sum n f) = sumN f0 fadd n (fun k => h (f k)).
  Proof. intros H0 H1. induction n; simpl; auto. now rewrite H1, IHn. Qed.
End Sums.

(** *** the product as an operator *)
Section Operators.
  Context {B : Blk} (L : BlkLaws B) (mmul : M B -> M B -> M B).
  Local Notation X := (X B). Local Notation M := (M B).
  Lemma CM_X : CMon (@x0 B) xadd.
  Proof. destruct (lawX B L). constructor; intros; ag (lawX B L). Qed.
  Lemma xsum_sumN n (f : nat -> X) : xsum n f = sumN x0 xadd n f.
  Proof. induction n; [reflexivity|]. rewrite (xsum_S L), IHn. reflexivity. Qed.
  Hypothesis CMM : CMon (@m0 B) madd.
  Hypothesis BLM : Bilin (@m0 B) madd m0 madd m0 madd mmul.
  Hypothesis ACT : forall a b x, act (mmul a b) x = act a (act b x).
  Lemma entry_sent (A : smat M) i j : @entry B A i j = sent m0 madd A i j.
  Proof. reflexivity. Qed.
  Lemma act_sumN n (f : nat -> M) (x : X) : act (sumN m0 madd n f) x = sumN x0 xadd n (fun k => act (f k) x).
  Proof. apply (sumN_hom _ _ x0 xadd (fun a => act a x)); [apply (act_m0 B L)|intros; apply (act_madd B L)]. Qed.
  Lemma act_sumN_r n (a : M) (f : nat -> X) : act a (sumN x0 xadd n f) = sumN x0 xadd n (fun k => act a (f k)).
  Proof. apply (sumN_hom _ _ x0 xadd (fun x => act a x)); [apply (act_x0 L)|intros; apply (act_add B L)]. Qed.
  (** if C has the entries of the product then it acts like the product *)
  Lemma prod_matvec n p m (A Bm C : @spmat B) y : wf_mat n p A -> wf_mat p m Bm -> wf_mat n m C ->
    (forall i j, i < n -> entry C i j = sumN m0 madd p (fun k => mmul (entry A i k) (entry Bm k j))) ->
    matvec C y = matvec A (matvec Bm y).
  Proof.
    intros WA WB WC HC. apply (vec_ext n).
    - rewrite matvec_length. apply WC. - rewrite matvec_length. apply WA.
    - intros i Hi. rewrite (matvec_entries L C n m), (matvec_entries L A n p) by auto. rewrite !xsum_sumN.
      rewrite (sumN_ext' _ _ m _ (fun j => sumN x0 xadd p (fun k => act (entry A i k) (act (entry Bm k j) (ent y j))))).
      2:{ intros j Hj. rewrite HC, act_sumN by auto. apply sumN_ext'. intros k Hk. apply ACT. }
      rewrite (sumN_swap _ _ CM_X). apply sumN_ext'. intros k Hk. rewrite (matvec_entries L Bm p m), xsum_sumN by auto.
      now rewrite act_sumN_r.
  Qed.
  Lemma width_wf w (A : smat M) : width_ok w A -> @wf_mat B (length A) w A.
  Proof.
    intros W. split; auto. intros i p Hp. unfold getrow in Hp. destruct (Nat.lt_ge_cases i (length A)).
    - apply (W (nth i A []) p); auto. now apply nth_In. - rewrite nth_overflow in Hp by auto. destruct Hp.
  Qed.
  Variables (w : nat) (merge : list (list nat) -> res (list nat)).
  Hypothesis MS : merge_spec w merge.
  Notation MMul := (MatMultAB mmul m0 madd merge).
  Lemma MatMultAB_act s g (A Bm : smat M) : (forall t n, length (g t n) = n) -> list_sum s = length A ->
    width_ok (length Bm) A -> (forall r, In r Bm -> ssorted r) -> width_ok w Bm ->
    exists C, MMul s g A Bm = Ret C /\ length C = length A /\ width_ok w C /\ (forall r, In r C -> ssorted r) /\
      (forall i j, i < length A -> entry C i j = sumN m0 madd (length Bm) (fun k => mmul (@entry B A i k) (entry Bm k j))) /\
      (forall y, matvec C y = matvec A (matvec Bm y)).
  Proof.
    intros G S WA SB WB.
    destruct (MatMultAB_ok mmul m0 madd CMM w merge MS m0 madd m0 madd BLM s g A Bm) as (C & E & LC & P & V & _); auto.
    exists C. split; auto. split; auto.
    assert (WC : width_ok w C).
    { intros r p Hr Hp. apply (In_nth _ _ []) in Hr as (i & Hi0 & <-). assert (Hi : i < length A) by (rewrite <- LC; exact Hi0). destruct (P i Hi) as [_ PI].
      assert (Hj : In (fst p) (cols (nth i C []))) by (now apply in_map). apply PI in Hj as (k & Hk & Hj).
      unfold cols in Hj. apply in_map_iff in Hj as (q & <- & Hq). unfold cols in Hk. apply in_map_iff in Hk as (pa & Ek & Hpa).
      assert (fst pa < length Bm) by (apply (WA (nth i A [])); auto; apply nth_In; auto).
      apply (WB (nth k Bm [])); auto. apply nth_In. lia. }
    split; auto. split. { intros r Hr. apply (In_nth _ _ []) in Hr as (i & Hi & <-). apply P. rewrite <- LC. exact Hi. }
    split; auto. intros y. apply (prod_matvec (length A) (length Bm) w); auto using width_wf.
    rewrite <- LC. now apply width_wf.
  Qed.
  (** (PT A) P *)
  Theorem Restrict_ok s1 s2 g1 g2 (PT A P : smat M) :
    (forall t n, length (g1 t n) = n) -> (forall t n, length (g2 t n) = n) -> list_sum s1 = length PT -> list_sum s2 = length PT ->
    width_ok (length A) PT -> width_ok (length P) A -> width_ok w P -> length P <= w ->
    (forall r, In r A -> ssorted r) -> (forall r, In r P -> ssorted r) ->
    exists C, RestrictMatrix mmul m0 madd merge s1 s2 g1 g2 PT A P = Ret C /\ length C = length PT /\ width_ok w C /\ (forall r, In r C -> ssorted r) /\
      (forall y, matvec C y = matvec PT (matvec A (@matvec B P y))) /\
      (forall i j, i < length PT -> entry C i j = sumN m0 madd (length P) (fun l =>
         mmul (sumN m0 madd (length A) (fun k => mmul (@entry B PT i k) (entry A k l))) (entry P l j))).
  Proof.
    intros G1 G2 S1 S2 WPT WA WP LW SA SP. unfold RestrictMatrix.
    assert (WAw : width_ok w A) by (intros r p Hr Hp; specialize (WA r p Hr Hp); lia).
    destruct (MatMultAB_ok mmul m0 madd CMM w merge MS m0 madd m0 madd BLM s1 g1 PT A) as (D & E & LD & PD & VD & _); auto.
    rewrite E. cbn [bind].
    assert (WD : width_ok (length P) D).
    { intros r p Hr Hp. apply (In_nth _ _ []) in Hr as (i & Hi0 & <-). assert (Hi : i < length PT) by (rewrite <- LD; exact Hi0). destruct (PD i Hi) as [_ PI].
      assert (Hj : In (fst p) (cols (nth i D []))) by (now apply in_map). apply PI in Hj as (k & Hk & Hj).
      unfold cols in Hj. apply in_map_iff in Hj as (q & <- & Hq). unfold cols in Hk. apply in_map_iff in Hk as (pa & Ek & Hpa).
      assert (fst pa < length A) by (apply (WPT (nth i PT [])); auto; apply nth_In; auto).
      apply (WA (nth k A [])); auto. apply nth_In. lia. }
    destruct (MatMultAB_act s2 g2 D P) as (C & EC & LC & WC & SC & VC & AC); auto; try congruence.
    exists C. split; auto. split; [congruence|]. split; auto. split; auto. split.
    - intros y. rewrite AC. apply (prod_matvec (length PT) (length A) (length P)); auto using width_wf.
      rewrite <- LD. now apply width_wf.
    - intros i j Hi. rewrite VC by lia. apply sumN_ext'. intros l Hl. f_equal. apply VD. auto.
  Qed.
  Theorem RestrictKeep_ok s1 s2 g1 g2 (PT A P : smat M) :
    (forall t n, length (g1 t n) = n) -> (forall t n, length (g2 t n) = n) -> list_sum s1 = length A -> list_sum s2 = length PT ->
    width_ok (length A) PT -> width_ok (length P) A -> width_ok w P ->
    (forall r, In r P -> ssorted r) ->
    exists AP C, RestrictMatrixKeepFactor mmul m0 madd merge s1 s2 g1 g2 A P PT = Ret (AP, C) /\ length AP = length A /\ length C = length PT /\ width_ok w C /\
      (forall y, matvec AP y = matvec A (@matvec B P y)) /\ (forall y, matvec C y = matvec PT (matvec A (@matvec B P y))).
  Proof.
    intros G1 G2 S1 S2 WPT WA WP SP. unfold RestrictMatrixKeepFactor.
    destruct (MatMultAB_act s1 g1 A P) as (D & E & LD & WD & SD & VD & AD); auto.
    rewrite E. cbn [bind].
    destruct (MatMultAB_act s2 g2 PT D) as (C & EC & LC & WC & SC & VC & AC); auto; try (rewrite LD; auto).
    rewrite EC. cbn [bind]. exists D, C. split; auto. split; auto. split; auto. split; auto. split; auto.
    intros y. now rewrite AC, AD.
  Qed.
  (** symmetry *)
  Hypothesis TRM : forall a b, mtr (mmul a b) = mmul (mtr b) (mtr a).
  Hypothesis TRTR : forall a : M, mtr (mtr a) = a.
  Hypothesis ASS : forall a b c, mmul a (mmul b c) = mmul (mmul a b) c.
  Lemma restrict_sym n m (PT A P C : @spmat B) : length PT = m -> length A = n -> length P = n ->
    (forall i j, i < m -> entry C i j = sumN m0 madd n (fun l => mmul (sumN m0 madd n (fun k => mmul (entry PT i k) (entry A k l))) (entry P l j))) ->
    sym_mat n A -> (forall i k, i < m -> k < n -> entry PT i k = mtr (entry P k i)) -> sym_mat m C.
  Proof.
    intros L1 L2 L3 V SA HT i j Hi Hj. rewrite !V by auto.
    assert (TRS : forall q (f : nat -> M), mtr (sumN m0 madd q f) = sumN m0 madd q (fun k => mtr (f k))).
    { intros q f. apply (sumN_hom _ _ m0 madd mtr); [apply (mtr_m0 B L)|intros; apply (mtr_madd B L)]. }
    assert (ML : forall a q (f : nat -> M), mmul a (sumN m0 madd q f) = sumN m0 madd q (fun k => mmul a (f k))).
    { intros a q f. apply (sumN_hom _ _ m0 madd (mmul a)); [apply BLM|intros; apply BLM]. }
    assert (MR : forall a q (f : nat -> M), mmul (sumN m0 madd q f) a = sumN m0 madd q (fun k => mmul (f k) a)).
    { intros a q f. apply (sumN_hom _ _ m0 madd (fun x => mmul x a)); [apply BLM|intros; apply BLM]. }
    rewrite TRS.
    rewrite (sumN_ext' _ _ n _ (fun l => sumN m0 madd n (fun k => mmul (mmul (entry PT j k) (entry A k l)) (entry P l i))))
      by (intros; apply MR).
    rewrite (sumN_ext' _ _ n (fun k => mtr _) (fun l => sumN m0 madd n (fun k => mmul (mmul (entry PT j l) (entry A l k)) (entry P k i)))).
    - apply (sumN_swap _ _ CMM).
    - intros l Hl. rewrite TRM, TRS, ML. apply sumN_ext'. intros k Hk. rewrite TRM.
      rewrite <- (HT j l), <- (SA k l) by auto. rewrite (HT i k), TRTR by auto. apply ASS.
  Qed.
End Operators.

(** *** embedding, sums, compression *)
Section Misc.
  Context {E : Type}.
  Lemma bucket_flat_rows (f : nat -> nat) (g : srow E -> list (nat * E)) (A : smat E) i :
    (forall a b, f a = f b -> a = b) -> i < length A ->
    bucket (flat_map (fun ir => map (fun p => (f (fst ir), p)) (g (snd ir))) (numbered A)) (f i) = g (nth i A []).
  Proof.
    intros INJ. induction A as [|r A IH] using rev_ind; intros Hi; [simpl in Hi; lia|].
    rewrite numbered_snoc, flat_map_app, bucket_app. cbn [flat_map fst snd]. rewrite app_nil_r.
    assert (B1 : forall k l, bucket (map (fun p : nat * E => (f k, p)) l) (f i) = if k =? i then l else []).
    { intros k l. unfold bucket. destruct (Nat.eqb_spec k i) as [->|Hn].
      - induction l; simpl; auto. rewrite Nat.eqb_refl. simpl. now f_equal.
      - induction l; simpl; auto. destruct (Nat.eqb_spec (f k) (f i)) as [C|]; auto. apply INJ in C. congruence. }
    rewrite B1. rewrite app_length in Hi. simpl in Hi. destruct (Nat.eqb_spec (length A) i) as [<-|Hn].
    - rewrite app_nth2, Nat.sub_diag by lia. simpl.
      replace (bucket _ _) with (@nil (nat * E)); auto. symmetry.
      destruct (bucket (flat_map (fun ir => map (fun p => (f (fst ir), p)) (g (snd ir))) (numbered A)) (f (length A))) as [|v t] eqn:Eb; auto.
      exfalso. assert (H : In v (v :: t)) by now left. rewrite <- Eb in H. apply in_bucket in H. apply in_flat_map in H as ((k, r') & H1 & H2).
      apply (in_numbered A k r' []) in H1 as [H1 _]. apply in_map_iff in H2 as (p & Ep & _). inversion Ep as [[E1 E2]]. apply INJ in E1. simpl in E1. lia.
    - rewrite app_nil_r, app_nth1 by lia. apply IH. lia.
  Qed.
  Lemma bucket_none (f : nat -> nat) (g : srow E -> list (nat * E)) (A : smat E) c :
    (forall i, i < length A -> f i <> c) -> bucket (flat_map (fun ir => map (fun p => (f (fst ir), p)) (g (snd ir))) (numbered A)) c = [].
  Proof.
    intros H. destruct (bucket _ c) as [|v t] eqn:Eb; auto.
    exfalso. assert (Hv : In v (v :: t)) by now left. rewrite <- Eb in Hv. apply in_bucket in Hv. apply in_flat_map in Hv as ((k, r') & H1 & H2).
    apply (in_numbered A k r' []) in H1 as [H1 _]. apply in_map_iff in H2 as (p & Ep & _). inversion Ep. apply (H k); auto.
  Qed.
  Theorem Embed_ok off bigH (A : smat E) : off + length A <= bigH ->
    exists C, EmbedSparseMatrix off bigH A = Ret C /\ length C = bigH /\
      (forall i, i < length A -> nth (off + i) C [] = nth i A []) /\
      (forall k, k < off \/ off + length A <= k -> nth k C [] = []).
  Proof.
    intros H. unfold EmbedSparseMatrix.
    assert (G : forall l : list (nat * srow E), (forall ir, In ir l -> off + fst ir < bigH) ->
      foldM (fun (u : unit) ir => _ <- rd (repeat 0 bigH) (off + fst ir) ;; Ret u) l tt = Ret tt).
    { induction l as [|ir l IH]; intros HI; [reflexivity|]. cbn [foldM]. rewrite (rd_ok _ _ 0) by (rewrite repeat_length; apply HI; now left).
      cbn [bind]. apply IH. intros; apply HI; now right. }
    rewrite G. 2:{ intros [i r] Hi. apply (in_numbered A i r []) in Hi as [Hi _]. simpl. lia. }
    cbn [bind]. rewrite count_fill_ok.
    2:{ intros p Hp. unfold embed_items in Hp. apply in_flat_map in Hp as ((k, r') & H1 & H2). apply (in_numbered A k r' []) in H1 as [H1 _].
        apply in_map_iff in H2 as (q & <- & _). simpl. lia. }
    eexists. split; [reflexivity|]. split; [now rewrite map_length, seq_length|]. split.
    - intros i Hi. rewrite nth_map_seq by lia. apply (bucket_flat_rows (fun i => off + i) (fun r => r)); auto. intros; lia.
    - intros k Hk. destruct (Nat.lt_ge_cases k bigH) as [C|C].
      + rewrite nth_map_seq by lia. apply (bucket_none (fun i => off + i) (fun r => r)). intros; lia.
      + apply nth_overflow. now rewrite map_length, seq_length.
  Qed.
  Theorem Embed_oob off bigH (A : smat E) : A <> [] -> bigH < off + length A -> EmbedSparseMatrix off bigH A = Err OutOfBounds.
  Proof.
    intros NE H. unfold EmbedSparseMatrix.
    assert (G : forall l : list (nat * srow E), (exists ir, In ir l /\ bigH <= off + fst ir) ->
      foldM (fun (u : unit) ir => _ <- rd (repeat 0 bigH) (off + fst ir) ;; Ret u) l tt = Err OutOfBounds).
    { induction l as [|ir l IH]; intros (q & Hq & Hb); [destruct Hq|]. cbn [foldM].
      destruct (Nat.lt_ge_cases (off + fst ir) bigH) as [C|C].
      - rewrite (rd_ok _ _ 0) by (rewrite repeat_length; auto). cbn [bind]. apply IH. destruct Hq as [<-|Hq]; [lia|eauto].
      - unfold rd. replace (nth_error (repeat 0 bigH) (off + fst ir)) with (@None nat); [reflexivity|]. symmetry. apply nth_error_None. now rewrite repeat_length. }
    rewrite G; auto. exists (length A - 1, nth (length A - 1) A []). split.
    - apply (in_numbered A _ _ []). destruct A; [congruence|simpl; split; auto; lia].
    - simpl. lia.
  Qed.
  Theorem Compress_ok keep (A : smat E) : CompressA keep A = Ret (map (filter (fun p => keep (snd p))) A).
  Proof.
    unfold CompressA. rewrite count_fill_ok.
    - f_equal. symmetry. apply list_ext_seq with (d := []). + apply map_length.
      + intros i Hi. unfold compress_items. rewrite (bucket_flat_rows (fun i => i) (fun r => filter (fun p => keep (snd p)) r)); auto.
        change (@nil (nat * E)) with (filter (fun p : nat * E => keep (snd p)) []) at 1. apply map_nth.
    - intros p Hp. unfold compress_items in Hp. apply in_flat_map in Hp as ((k, r') & H1 & H2). apply (in_numbered A k r' []) in H1 as [H1 _].
      apply in_map_iff in H2 as (q & <- & _). auto.
  Qed.
  Context (e0 : E) (eadd : E -> E -> E) (CM : CMon e0 eadd).
  Lemma rent_filter keep (r : srow E) j : (forall p, In p r -> keep (snd p) = false -> snd p = e0) ->
    rent e0 eadd (filter (fun p => keep (snd p)) r) j = rent e0 eadd r j.
  Proof.
    destruct CM. induction r as [|p r IH]; intros H; simpl; auto. specialize (IH (fun q Hq => H q (or_intror Hq))).
    destruct (keep (snd p)) eqn:K; simpl; rewrite IH; auto. destruct (fst p =? j); auto. rewrite (H p (or_introl eq_refl) K). now rewrite cm_0.
  Qed.
  Theorem Compress_entries keep (A : smat E) : (forall r p, In r A -> In p r -> keep (snd p) = false -> snd p = e0) ->
    exists C, CompressA keep A = Ret C /\ length C = length A /\ forall i j, sent e0 eadd C i j = sent e0 eadd A i j.
  Proof.
    intros H. exists (map (filter (fun p => keep (snd p))) A). rewrite Compress_ok. split; auto. split; [apply map_length|].
    intros i j. unfold sent. change (@nil (nat * E)) with (filter (fun p : nat * E => keep (snd p)) []) at 1.
    rewrite map_nth. destruct (Nat.lt_ge_cases i (length A)) as [C|C].
    - apply rent_filter. intros p. apply H. now apply nth_In.
    - apply rent_filter. intros p Hp. rewrite nth_overflow in Hp by auto. destruct Hp.
  Qed.
  Context {S : Type} (esc : S -> E -> E).
  Hypothesis SC0 : forall c, esc c e0 = e0.
  Hypothesis SCA : forall c a b, esc c (eadd a b) = eadd (esc c a) (esc c b).
  Lemma add_row_ok alpha beta (ra rb : srow E) : cols ra = cols rb -> exists rc, add_row eadd esc alpha beta ra rb = Ret rc /\ cols rc = cols ra /\
    forall j, rent e0 eadd rc j = eadd (esc alpha (rent e0 eadd ra j)) (esc beta (rent e0 eadd rb j)).
  Proof.
    pose proof CM as CM'. destruct CM'. revert rb. induction ra as [|[c a] ra IH]; intros [|[c' b] rb] H; try discriminate.
    - exists []. simpl. split; auto. split; auto. intros. now rewrite !SC0, cm_0.
    - simpl in H. inversion H; subst c'. destruct (IH rb) as (rc & E1 & E2 & E3); auto. simpl. rewrite E1. cbn [bind]. eexists. split; [reflexivity|].
      simpl. split; [now f_equal|]. intros j. rewrite E3. destruct (c =? j); auto. rewrite !SCA.
      rewrite <- !cm_assoc. f_equal. rewrite !cm_assoc. f_equal. apply cm_comm.
  Qed.
  Theorem AddSPM_ok alpha beta (A Bm : smat E) : map cols A = map cols Bm ->
    exists C, AddSPM eadd esc alpha beta A Bm = Ret C /\ map cols C = map cols A /\
      forall i j, sent e0 eadd C i j = eadd (esc alpha (sent e0 eadd A i j)) (esc beta (sent e0 eadd Bm i j)).
  Proof.
    revert Bm. induction A as [|ra A IH]; intros [|rb Bm] H; try discriminate.
    - exists []. split; auto. split; auto. intros [|i] j; unfold sent; simpl; rewrite !SC0; symmetry; apply CM.
    - simpl in H. inversion H as [[H1 H2]]. destruct (add_row_ok alpha beta ra rb H1) as (rc & E1 & E2 & E3).
      destruct (IH Bm H2) as (C & E4 & E5 & E6). cbn [AddSPM]. rewrite E1. cbn [bind]. rewrite E4. cbn [bind]. exists (rc :: C). split; auto.
      split; [simpl; congruence|]. intros [|i] j; unfold sent; simpl; auto. apply E6.
  Qed.
End Misc.
