(** Lemmas about the sparse matrix product. *)
From Verif Require Import Base SparseModel SparseSpec SparseProofs.

Lemma nhash_pow m : exists k, nhash_of m = 2 ^ k.
Proof.
  unfold nhash_of. generalize m at 1. intros fuel. generalize 11. revert m. induction fuel; intros m k; cbn [nhash_loop]; [eauto|].
  destruct (2 ^ k <? 2 * m); [|eauto]. change (2 * 2 ^ k) with (2 ^ S k). apply IHfuel.
Qed.
Lemma slot_lt m c : slot (nhash_of m) c < nhash_of m.
Proof.
  destruct (nhash_pow m) as (k & ->). unfold slot. rewrite Nat.sub_1_r, <- Nat.ones_equiv, Nat.land_ones.
  apply Nat.mod_upper_bound. apply Nat.pow_nonzero. lia.
Qed.

Section ProductP.
  Context {EA EB EC : Type} (mul : EA -> EB -> EC) (c0 : EC) (cadd : EC -> EC -> EC).
  Hypothesis CM : CMon c0 cadd.
  Notation isum := (rent c0 cadd).
  Variable nh : nat.
  Hypothesis Hslot : forall c, slot nh c < nh.

  Definition hash_ok (ci : list nat) (h : hash) : Prop :=
    length h = nh /\ forall c, In c ci -> exists c' k, nth_error h (slot nh c) = Some (Z.of_nat c', k) /\ nth_error ci k = Some c'.
  Lemma hash_fill_ok ci h : length h = nh -> exists h', hash_fill nh ci h = Ret h' /\ hash_ok ci h'.
  Proof.
    intros Lh. induction ci as [|x ci IH] using rev_ind.
    - exists h. split; [reflexivity|]. split; auto. intros c [].
    - destruct IH as (h1 & E & L1 & H1). unfold hash_fill in *. rewrite numbered_snoc, foldM_app, E. cbn [bind foldM fst snd].
      rewrite wr_ok by (rewrite L1; apply Hslot). cbn [bind]. eexists. split; [reflexivity|]. split; [now rewrite upd_length|].
      intros c Hc. destruct (Nat.eq_dec (slot nh x) (slot nh c)) as [Es|Es].
      + exists x, (length ci). rewrite Es, nth_error_upd_eq by (rewrite L1; apply Hslot). split; auto.
        rewrite nth_error_app2 by lia. now rewrite Nat.sub_diag.
      + rewrite nth_error_upd_neq by auto. apply in_app_or in Hc as [Hc|[->|[]]]; [|congruence].
        destruct (H1 c Hc) as (c' & k & E1 & E2). exists c', k. split; auto. rewrite nth_error_app1; auto.
        apply nth_error_Some. congruence.
  Qed.
  Lemma position_ok ci c : In c ci -> exists p, position ci c = Ret p /\ nth_error ci p = Some c.
  Proof.
    induction ci as [|x ci IH]; [intros []|]. intros H. simpl. destruct (Nat.eqb_spec x c) as [->|Hn].
    - exists 0. auto. - destruct H as [->|H]; [congruence|]. destruct (IH H) as (p & -> & E). exists (S p). auto.
  Qed.
  Lemma acc_one_ok ci h vals p : hash_ok ci h -> NoDup ci -> length vals = length ci -> In (fst p) ci ->
    exists vals', acc_one cadd nh ci h vals p = Ret vals' /\ length vals' = length ci /\
      forall k, k < length ci -> nth k vals' c0 = if nth k ci 0 =? fst p then cadd (nth k vals c0) (snd p) else nth k vals c0.
  Proof.
    intros [Lh HO] ND Lv Hc. destruct (HO _ Hc) as (c' & k & E1 & E2). unfold acc_one.
    unfold rd at 1. rewrite E1. cbn [bind fst snd].
    assert (P : exists pos, (if (Z.of_nat c' =? Z.of_nat (fst p))%Z then Ret k else position ci (fst p)) = Ret pos /\ nth_error ci pos = Some (fst p)).
    { destruct (Z.eqb_spec (Z.of_nat c') (Z.of_nat (fst p))) as [Ez|Ez].
      - apply Nat2Z.inj in Ez. subst. eauto. - now apply position_ok. }
    destruct P as (pos & -> & Hp). cbn [bind].
    assert (pos < length ci) by (apply nth_error_Some; congruence).
    rewrite (rd_ok vals pos c0) by lia. cbn [bind]. rewrite wr_ok by lia. eexists. split; [reflexivity|].
    split; [now rewrite upd_length|]. intros j Hj.
    pose proof (nth_error_nth _ _ 0 Hp) as Hp'.
    destruct (Nat.eq_dec pos j) as [<-|Hn].
    - rewrite nth_upd_eq by lia. rewrite Hp', Nat.eqb_refl. reflexivity.
    - rewrite nth_upd_neq by auto. destruct (Nat.eqb_spec (nth j ci 0) (fst p)) as [Ej|]; auto.
      exfalso. apply Hn. apply (NoDup_nth ci 0); auto. congruence.
  Qed.
  Lemma rent_app r1 r2 j : isum (r1 ++ r2) j = cadd (isum r1 j) (isum r2 j).
  Proof.
    destruct CM. induction r1 as [|p r IH]; simpl; [now rewrite cm_0|]. destruct (fst p =? j); auto. now rewrite IH, cm_assoc.
  Qed.
  Lemma acc_list ci h items : hash_ok ci h -> NoDup ci -> forall vals, length vals = length ci -> (forall p, In p items -> In (fst p) ci) ->
    exists vals', foldM (acc_one cadd nh ci h) items vals = Ret vals' /\ length vals' = length ci /\
      forall k, k < length ci -> nth k vals' c0 = cadd (nth k vals c0) (isum items (nth k ci 0)).
  Proof.
    intros HO ND. pose proof CM as CM'. destruct CM'. induction items as [|p l IH]; intros vals Lv HI.
    - exists vals. split; [reflexivity|]. split; auto. intros. simpl. now rewrite cm_comm, cm_0.
    - destruct (acc_one_ok ci h vals p HO ND Lv (HI _ (or_introl eq_refl))) as (v1 & E1 & L1 & N1).
      cbn [foldM]. rewrite E1. cbn [bind]. destruct (IH v1 L1) as (v2 & E2 & L2 & N2). { intros; apply HI; now right. }
      exists v2. split; auto. split; auto. intros k Hk. rewrite N2, N1 by auto. simpl. rewrite (Nat.eqb_sym (fst p)).
      destruct (nth k ci 0 =? fst p); [now rewrite cm_assoc|reflexivity].
  Qed.
  (** all products of row ra with B, in the order of the code *)
  Definition row_items (ra : srow EA) (Bm : smat EB) : srow EC :=
    flat_map (fun pa => map (fun pb => (fst pb, mul (snd pa) (snd pb))) (nth (fst pa) Bm [])) ra.
  Lemma acc_row_ok ra Bm ci h vals : (forall p, In p ra -> fst p < length Bm) ->
    acc_row mul cadd nh ra Bm ci h vals = foldM (acc_one cadd nh ci h) (row_items ra Bm) vals.
  Proof.
    intros H. unfold acc_row, row_items. revert vals. induction ra as [|pa l IH]; intros vals; [reflexivity|].
    cbn [foldM flat_map]. rewrite foldM_app. rewrite (rd_ok Bm _ []) by (apply H; now left). cbn [bind].
    assert (G : forall (rb : srow EB) v, foldM (fun vals pb => acc_one cadd nh ci h vals (fst pb, mul (snd pa) (snd pb))) rb v =
        foldM (acc_one cadd nh ci h) (map (fun pb => (fst pb, mul (snd pa) (snd pb))) rb) v).
    { induction rb; intros v; simpl; auto. destruct (acc_one _ _ _ _ _ _); simpl; auto. }
    rewrite G. destruct (foldM _ _ vals); simpl; auto. apply IH. intros; apply H; now right.
  Qed.
  Definition row_vals (Bm : smat EB) (job : srow EA * list nat) : list EC := map (isum (row_items (fst job) Bm)) (snd job).
  Definition job_ok (Bm : smat EB) (job : srow EA * list nat) : Prop :=
    (forall p, In p (fst job) -> fst p < length Bm) /\ NoDup (snd job) /\
    (forall p, In p (row_items (fst job) Bm) -> In (fst p) (snd job)).
  Lemma mult_range_ok jobs Bm : (forall j, In j jobs -> job_ok Bm j) -> forall h, length h = nh ->
    mult_range mul c0 cadd nh jobs Bm h = Ret (map (row_vals Bm) jobs).
  Proof.
    induction jobs as [|[ra ci] t IH]; intros H h Lh; [reflexivity|]. simpl mult_range.
    destruct (hash_fill_ok ci h Lh) as (h1 & -> & HO). cbn [bind].
    destruct (H _ (or_introl eq_refl)) as (J1 & J2 & J3). simpl in J1, J2, J3.
    rewrite acc_row_ok by auto.
    destruct (acc_list ci h1 (row_items ra Bm) HO J2 (repeat c0 (length ci)) (repeat_length _ _) J3) as (v & -> & Lv & Nv).
    cbn [bind]. rewrite IH; [|intros; apply H; now right|apply HO]. cbn [bind map]. f_equal. f_equal.
    unfold row_vals. simpl. apply nth_ext with (d:=c0) (d':=isum (row_items ra Bm) 0).
    - now rewrite map_length. - intros k Hk. rewrite Lv in Hk. rewrite map_nth, Nv by auto. rewrite nth_repeat_d. apply CM.
  Qed.
End ProductP.

Section ProductQ.
  Context {EA EB EC : Type} (mul : EA -> EB -> EC) (c0 : EC) (cadd : EC -> EC -> EC).
  Hypothesis CM : CMon c0 cadd.
  Notation row_items := (row_items mul). Notation row_vals := (row_vals mul c0 cadd).
  Lemma mult_tasks_ok garbage Bm : (forall t n, length (garbage t n) = n) -> forall sizes jobs, list_sum sizes = length jobs ->
    (forall j, In j jobs -> job_ok mul Bm j) ->
    mult_tasks mul c0 cadd sizes garbage jobs Bm = Ret (map (row_vals Bm) jobs).
  Proof.
    intros G. induction sizes as [|s ss IH]; intros jobs HS HJ.
    - destruct jobs; [reflexivity|discriminate].
    - simpl mult_tasks. rewrite (mult_range_ok mul c0 cadd CM); auto using slot_lt.
      + cbn [bind]. rewrite IH.
        * cbn [bind]. f_equal. rewrite <- map_app, firstn_skipn. reflexivity.
        * simpl in HS. rewrite skipn_length. lia.
        * intros j Hj. apply HJ. rewrite <- (firstn_skipn s jobs). apply in_or_app. auto.
      + intros j Hj. apply HJ. rewrite <- (firstn_skipn s jobs). apply in_or_app. auto.
  Qed.

  Variables (w : nat) (merge : list (list nat) -> res (list nat)).
  Hypothesis MS : merge_spec w merge.
  Lemma get_rows_ok (Bm : smat EB) ks : (forall k, In k ks -> k < length Bm) -> get_rows Bm ks = Ret (map (fun k => nth k Bm []) ks).
  Proof.
    induction ks as [|k t IH]; intros H; simpl; auto. rewrite (rd_ok Bm k []) by (apply H; now left). cbn [bind].
    rewrite IH by (intros; apply H; now right). reflexivity.
  Qed.
  Lemma prod_cols_ok ra (Bm : smat EB) : (forall p, In p ra -> fst p < length Bm) -> (forall r, In r Bm -> ssorted r) -> width_ok w Bm ->
    exists ci, prod_cols merge ra Bm = Ret ci /\ StronglySorted lt ci /\
      (forall c, In c ci <-> exists k, In k (cols (E:=EA) ra) /\ In c (cols (nth k Bm []))) /\ job_ok mul Bm (ra, ci).
  Proof.
    intros H SB WB. unfold prod_cols. rewrite get_rows_ok.
    2:{ intros k Hk. unfold cols in Hk. apply in_map_iff in Hk as (p & <- & Hp). auto. }
    cbn [bind]. destruct (MS (map cols (map (fun k => nth k Bm []) (cols ra)))) as (ci & E & S & I).
    { intros r Hr. rewrite map_map in Hr. apply in_map_iff in Hr as (k & <- & Hk). apply SB. apply nth_In.
      unfold cols in Hk. apply in_map_iff in Hk as (p & <- & Hp). auto. }
    { intros r c Hr Hc. rewrite map_map in Hr. apply in_map_iff in Hr as (k & <- & Hk). unfold cols in Hc. apply in_map_iff in Hc as (q & <- & Hq).
      apply (WB (nth k Bm [])); auto. apply nth_In. unfold cols in Hk. apply in_map_iff in Hk as (p & <- & Hp). auto. }
    exists ci. split; auto. split; auto.
    assert (IC : forall c, In c ci <-> exists k, In k (cols ra) /\ In c (cols (nth k Bm []))).
    { intros c. rewrite I. rewrite map_map. split.
      - intros (r & Hr & Hc). apply in_map_iff in Hr as (k & <- & Hk). eauto.
      - intros (k & Hk & Hc). eexists. split; [apply in_map_iff; eauto|exact Hc]. }
    split; auto. split; [exact H|]. split.
    - simpl. clear -S. induction S; constructor; auto. intros C. rewrite Forall_forall in H. specialize (H _ C). lia.
    - simpl. intros p Hp. unfold SparseProofs2.row_items in Hp. apply in_flat_map in Hp as (pa & Ha & Hb).
      apply in_map_iff in Hb as (pb & <- & Hb). simpl. apply IC. exists (fst pa). split; unfold cols; now apply in_map.
  Qed.
  Lemma prod_pattern_ok (A : smat EA) (Bm : smat EB) : width_ok (length Bm) A -> (forall r, In r Bm -> ssorted r) -> width_ok w Bm ->
    exists pat, prod_pattern merge A Bm = Ret pat /\ length pat = length A /\
      (forall i, i < length A -> StronglySorted lt (nth i pat []) /\
         forall c, In c (nth i pat []) <-> exists k, In k (cols (nth i A [])) /\ In c (cols (nth k Bm []))) /\
      (forall j, In j (combine A pat) -> job_ok mul Bm j).
  Proof.
    induction A as [|ra t IH]; intros W SB WB.
    - exists []. simpl. repeat split; auto; try lia; intros; tauto.
    - destruct (prod_cols_ok ra Bm) as (ci & E & S & I & J); auto. { intros p Hp. apply (W ra p); simpl; auto. }
      destruct IH as (pat & E2 & L2 & I2 & J2); auto. { intros r p Hr Hp. apply (W r p); simpl; auto. }
      exists (ci :: pat). simpl. rewrite E. cbn [bind]. rewrite E2. cbn [bind]. split; auto. split; [lia|]. split.
      + intros [|i] Hi; auto. apply I2. lia.
      + intros j [<-|Hj]; auto.
  Qed.
  Definition prod_rows (A : smat EA) (pat : list (list nat)) (Bm : smat EB) : smat EC :=
    map (fun job => combine (snd job) (row_vals Bm job)) (combine A pat).
  Lemma combine_map_r {X Y Z} (f : X -> Y) (g : X -> Z) (l : list X) : combine (map f l) (map g l) = map (fun x => (f x, g x)) l.
  Proof. induction l; simpl; auto. now f_equal. Qed.
  Lemma map_snd_combine {X Y} (a : list X) (b : list Y) : length a = length b -> map snd (combine a b) = b.
  Proof. revert b. induction a; intros [|? b] H; simpl in *; try discriminate; auto. f_equal. auto. Qed.
  Lemma assemble (A : smat EA) pat (Bm : smat EB) : length pat = length A ->
    map (fun cv => combine (fst cv) (snd cv)) (combine pat (map (row_vals Bm) (combine A pat))) = prod_rows A pat Bm.
  Proof.
    intros H. unfold prod_rows. rewrite <- (map_snd_combine A pat) at 1 by auto. rewrite combine_map_r, map_map. reflexivity.
  Qed.
  Lemma cols_combine (ci : list nat) (v : list EC) : length v = length ci -> cols (combine ci v) = ci.
  Proof. revert v. induction ci; intros [|? v] H; simpl in *; try discriminate; auto. f_equal. auto. Qed.
  Lemma pat_of_prod_rows A pat Bm : length pat = length A -> map cols (prod_rows A pat Bm) = pat.
  Proof.
    intros H. unfold prod_rows. rewrite map_map. rewrite <- (map_snd_combine A pat) at 2 by auto. apply map_ext. intros [ra ci].
    apply cols_combine. unfold SparseProofs2.row_vals. now rewrite map_length.
  Qed.
  Lemma nth_prod_rows A pat Bm i : length pat = length A -> i < length A ->
    nth i (prod_rows A pat Bm) [] = combine (nth i pat []) (row_vals Bm (nth i A [], nth i pat [])).
  Proof.
    intros H Hi. unfold prod_rows.
    rewrite (nth_indep _ [] ((fun job => combine (snd job) (row_vals Bm job)) ([], []))) by (rewrite map_length, combine_length; lia).
    rewrite (map_nth (fun job => combine (snd job) (row_vals Bm job))). rewrite combine_nth by auto. reflexivity.
  Qed.
  (** entries *)
  Lemma rent_combine (ci : list nat) (f : nat -> EC) j : NoDup ci -> rent c0 cadd (combine ci (map f ci)) j = if in_dec Nat.eq_dec j ci then f j else c0.
  Proof.
    intros ND. destruct CM. induction ci as [|c t IH]; [reflexivity|]. inversion ND; subst. simpl combine. simpl rent. rewrite IH by auto.
    destruct (Nat.eqb_spec c j) as [->|Hn].
    - destruct (in_dec Nat.eq_dec j t); [tauto|]. destruct (in_dec Nat.eq_dec j (j :: t)) as [_|C]; [|exfalso; apply C; now left].
      now rewrite cm_comm, cm_0.
    - destruct (in_dec Nat.eq_dec j t); destruct (in_dec Nat.eq_dec j (c :: t)) as [C|C]; auto.
      + exfalso; apply C; now right. + destruct C; [congruence|tauto].
  Qed.
  Lemma rent_none (r : srow EC) j : ~ In j (cols r) -> rent c0 cadd r j = c0.
  Proof.
    induction r as [|p r IH]; simpl; auto. intros H. destruct (Nat.eqb_spec (fst p) j); [exfalso; auto|]. apply IH. auto.
  Qed.
  Context (a0 : EA) (aadd : EA -> EA -> EA) (b0 : EB) (badd : EB -> EB -> EB).
  Hypothesis BL : Bilin a0 aadd b0 badd c0 cadd mul.
  Lemma rent_scaled a (rb : srow EB) j : rent c0 cadd (map (fun pb => (fst pb, mul a (snd pb))) rb) j = mul a (rent b0 badd rb j).
  Proof.
    destruct BL. induction rb as [|p rb IH]; simpl; auto. destruct (fst p =? j); auto. now rewrite IH, bl_r.
  Qed.
  Lemma sumN_ext n (f g : nat -> EC) : (forall k, k < n -> f k = g k) -> sumN c0 cadd n f = sumN c0 cadd n g.
  Proof. induction n; simpl; intros H; auto. rewrite IHn, H; auto. Qed.
  Lemma sumN_add n (f g : nat -> EC) : sumN c0 cadd n (fun k => cadd (f k) (g k)) = cadd (sumN c0 cadd n f) (sumN c0 cadd n g).
  Proof.
    destruct CM. induction n; simpl; [now rewrite cm_0|]. rewrite IHn, !cm_assoc. f_equal. rewrite <- !cm_assoc. f_equal. apply cm_comm.
  Qed.
  Lemma sumN_0 n : sumN c0 cadd n (fun _ => c0) = c0.
  Proof. destruct CM. induction n; simpl; auto. now rewrite IHn, cm_0. Qed.
  Lemma sumN_single n k0 x : k0 < n -> sumN c0 cadd n (fun k => if k0 =? k then x k else c0) = x k0.
  Proof.
    destruct CM. induction n; intros H; [lia|]. simpl. destruct (Nat.eqb_spec k0 n) as [->|Hn].
    - rewrite (sumN_ext _ _ (fun _ => c0)). + now rewrite sumN_0, cm_0. + intros k Hk. destruct (Nat.eqb_spec n k); auto; lia.
    - rewrite cm_comm, cm_0. apply IHn. lia.
  Qed.
  Lemma row_items_sum ra (Bm : smat EB) j : (forall p, In p ra -> fst p < length Bm) ->
    rent c0 cadd (row_items ra Bm) j = sumN c0 cadd (length Bm) (fun k => mul (rent a0 aadd ra k) (sent b0 badd Bm k j)).
  Proof.
    intros H. pose proof BL as BL'. destruct BL'. induction ra as [|p ra IH].
    - simpl. symmetry. rewrite (sumN_ext _ _ (fun _ => c0)). apply sumN_0. intros. apply bl_0l.
    - simpl SparseProofs2.row_items. rewrite (rent_app c0 cadd CM), rent_scaled, IH by (intros; apply H; now right).
      rewrite (sumN_ext _ (fun k => mul (rent a0 aadd (p :: ra) k) (sent b0 badd Bm k j))
        (fun k => cadd (if fst p =? k then mul (snd p) (sent b0 badd Bm k j) else c0) (mul (rent a0 aadd ra k) (sent b0 badd Bm k j)))).
      + rewrite sumN_add. f_equal. symmetry. apply (sumN_single _ (fst p) (fun k => mul (snd p) (sent b0 badd Bm k j))). apply H. now left.
      + intros k _. simpl. destruct (fst p =? k). * apply bl_l. * symmetry. apply CM.
  Qed.

  Theorem MatMultAB_ok sizes garbage A Bm : (forall t n, length (garbage t n) = n) -> list_sum sizes = length A ->
    width_ok (length Bm) A -> (forall r, In r Bm -> ssorted r) -> width_ok w Bm ->
    exists C, MatMultAB mul c0 cadd merge sizes garbage A Bm = Ret C /\ length C = length A /\
      (forall i, i < length A -> ssorted (nth i C []) /\
         forall j, In j (cols (nth i C [])) <-> exists k, In k (cols (nth i A [])) /\ In j (cols (nth k Bm []))) /\
      (forall i j, i < length A -> sent c0 cadd C i j = sumN c0 cadd (length Bm) (fun k => mul (sent a0 aadd A i k) (sent b0 badd Bm k j))) /\
      (forall sizes' garbage' old, (forall t n, length (garbage' t n) = n) -> list_sum sizes' = length A -> map cols old = map cols C ->
         MatMultABUpdateVals mul c0 cadd sizes' garbage' A Bm old = Ret C).
  Proof.
    intros G HS W SB WB. destruct (prod_pattern_ok A Bm W SB WB) as (pat & E & Lp & I & J).
    exists (prod_rows A pat Bm). unfold MatMultAB. rewrite E. cbn [bind].
    assert (Lc : length (combine A pat) = length A) by (rewrite combine_length; lia).
    rewrite mult_tasks_ok by (auto; lia). cbn [bind]. rewrite assemble by auto.
    split; [reflexivity|]. split; [unfold prod_rows; now rewrite map_length|].
    assert (NC : forall i, i < length A -> cols (nth i (prod_rows A pat Bm) []) = nth i pat []).
    { intros i Hi. rewrite nth_prod_rows by auto. apply cols_combine. unfold SparseProofs2.row_vals. now rewrite map_length. }
    split; [|split].
    - intros i Hi. unfold ssorted. rewrite NC by auto. apply I. auto.
    - intros i j Hi. unfold sent at 1. rewrite nth_prod_rows by auto. unfold SparseProofs2.row_vals. simpl fst. simpl snd.
      destruct (I i Hi) as [S IC]. assert (ND : NoDup (nth i pat [])).
      { clear -S. induction S; constructor; auto. intros C. rewrite Forall_forall in H. specialize (H _ C). lia. }
      rewrite rent_combine by auto.
      assert (WA : forall p, In p (nth i A []) -> fst p < length Bm) by (intros p Hp; apply (W (nth i A [])); auto; now apply nth_In).
      unfold sent at 1. rewrite <- row_items_sum by auto.
      destruct (in_dec Nat.eq_dec j (nth i pat [])) as [|Hn]; auto. symmetry. apply rent_none.
      intros C. apply Hn. unfold cols in C. apply in_map_iff in C as (p & <- & Hp).
      apply (J (nth i A [], nth i pat [])); auto. rewrite <- combine_nth by auto. apply nth_In. lia.
    - intros sizes' g' old G' HS' Ho. unfold MatMultABUpdateVals. rewrite Ho, pat_of_prod_rows by auto.
      rewrite mult_tasks_ok by (auto; lia). cbn [bind]. rewrite assemble by auto. reflexivity.
  Qed.
End ProductQ.
