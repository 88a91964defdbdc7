(** The imperative cycles of AMGModel compute the textbook cycles of AMGSpec. *)
From Verif Require Import Base AGroup LinAlg LinTools GSSpec GSModel AMGSpec AMGModel AMGInput.

Lemma foldM_ext_in {A C} (f g : A -> C -> res A) l s : (forall s x, In x l -> f s x = g s x) -> foldM f l s = foldM g l s.
Proof.
  revert s; induction l as [|x l IH]; intros s H; simpl; auto.
  rewrite (H s x) by (left; auto). destruct (g s x); simpl; auto. apply IH. intros; apply H; right; auto.
Qed.

Section Run.
  Context {B : Blk} (L : BlkLaws B).
  Local Notation vec := (list (X B)).
  Variables (a : AMGMatrix B) (nc : nat) (sls : list (slevel B)).
  Local Notation crs := (coarse_solve a nc).
  Hypothesis Hreal : Forall2 realizes (am_levels a) sls.
  Hypothesis Hlin : linear_levels nc crs sls.
  Let N := length sls.
  Local Notation sz := (sz nc sls). Local Notation ws_ok := (ws_ok nc sls).
  Local Notation ok_x := (ok_x nc sls). Local Notation ok_rhs := (ok_rhs nc sls). Local Notation ok_res := (ok_res nc sls).
  Local Notation okl_x := (okl_x nc sls). Local Notation okl_rhs := (okl_rhs nc sls). Local Notation okl_res := (okl_res nc sls).
  Local Notation okl_ux := (okl_ux nc sls). Local Notation okl_ub := (okl_ub nc sls).
  Local Notation vcyc := (vcycle nc crs).

  Variables (ax ab : bool).
  Definition slx (w : wspace B) (l : nat) : vec := if (l =? 0) && negb ax then w_ux w else nth l (w_x w) [].
  Definition slb (w : wspace B) (l : nat) : vec := if (l =? 0) && negb ab then w_ub w else nth l (w_rhs w) [].
  (** w' agrees with w on everything a run on levels >= k must not touch *)
  Record fr (kx kr : nat) (w w' : wspace B) : Prop := mkFr {
    fr_x : forall l, l < kx -> slx w' l = slx w l;
    fr_b : forall l, l < kr -> slb w' l = slb w l;
    fr_r : forall l, l < kx -> nth l (w_res w') [] = nth l (w_res w) [];
    fr_ux : ax = true -> w_ux w' = w_ux w;
    fr_ub : w_ub w' = w_ub w }.
  Lemma fr_refl kx kr w : fr kx kr w w. Proof. split; auto. Qed.
  Lemma fr_trans kx kr w1 w2 w3 : fr kx kr w1 w2 -> fr kx kr w2 w3 -> fr kx kr w1 w3.
  Proof.
    intros [a1 a2 a3 a4 a5] [b1 b2 b3 b4 b5]. split; intros; try congruence;
    try (rewrite b1 by auto; auto; fail); try (rewrite b2 by auto; auto; fail); try (rewrite b3 by auto; auto; fail).
    rewrite b4; auto.
  Qed.
  Lemma fr_le kx kr kx' kr' w w' : kx' <= kx -> kr' <= kr -> fr kx kr w w' -> fr kx' kr' w w'.
  Proof. intros H1 H2 [a1 a2 a3 a4 a5]. split; intros; auto; [apply a1|apply a2|apply a3]; lia. Qed.

  Lemma len_levels : length (am_levels a) = N.
  Proof. unfold N. clear Hlin. induction Hreal; simpl; auto. Qed.
  Lemma nlev : n_levels a = S N. Proof. unfold n_levels. now rewrite len_levels. Qed.
  Lemma lv_rd p l t : sls = p ++ l :: t -> exists lv, rd (am_levels a) (length p) = Ret lv /\ realizes lv l.
  Proof.
    intros E. unfold rd. destruct (nth_error (am_levels a) (length p)) as [lv|] eqn:El.
    - exists lv. split; auto.
      assert (G : forall (xs : list (level B)) ys i u v, Forall2 realizes xs ys -> nth_error xs i = Some u -> nth_error ys i = Some v -> realizes u v).
      { intros xs ys i; revert xs ys; induction i as [|i IH]; intros xs ys u v F H1 H2; inversion F; subst; simpl in *; try discriminate.
        - congruence. - eapply IH; eauto. }
      apply (G _ _ _ _ _ Hreal El). rewrite E, nth_error_app2, Nat.sub_diag by lia. reflexivity.
    - apply nth_error_None in El. rewrite len_levels in El. unfold N in El. rewrite E, app_length in El. simpl in El. lia.
  Qed.
  Lemma lin_suffix p t : sls = p ++ t -> linear_levels nc crs t.
  Proof.
    intros E. revert Hlin. rewrite E. clear E. induction p as [|q p IH]; simpl; auto. intros H. apply IH. tauto.
  Qed.
  Lemma sz_suffix p t : sls = p ++ t -> sz (length p) = topsize nc t.
  Proof. intros E. unfold AMGInput.sz. rewrite E, skipn_app, skipn_all, Nat.sub_diag. reflexivity. Qed.
  Lemma sz_next p l t : sls = p ++ l :: t -> sz (S (length p)) = topsize nc t.
  Proof.
    intros E. replace (S (length p)) with (length (p ++ [l])) by (rewrite app_length; simpl; lia).
    apply sz_suffix. now rewrite <- app_assoc.
  Qed.
  Lemma N_gt p l t : sls = p ++ l :: t -> length p < N.
  Proof. intros E. unfold N. rewrite E, app_length. simpl. lia. Qed.

  Lemma get_x_ok w l : ws_ok w -> l <= N -> get_x ax w l = Ret (slx w l).
  Proof.
    intros O H. unfold get_x, slx. destruct ((l =? 0) && negb ax); auto. apply rd_ok. rewrite (ok_x _ O). lia.
  Qed.
  Lemma get_b_ok w l : ws_ok w -> l <= N -> get_b ab w l = Ret (slb w l).
  Proof.
    intros O H. unfold get_b, slb. destruct ((l =? 0) && negb ab); auto. apply rd_ok. rewrite (ok_rhs _ O). lia.
  Qed.
  Lemma slx_len w l : ws_ok w -> l <= N -> length (slx w l) = sz l.
  Proof.
    intros O H. unfold slx. destruct (l =? 0) eqn:E; simpl.
    - apply Nat.eqb_eq in E. subst. destruct ax; simpl; [apply (okl_x _ O); lia|apply (okl_ux _ O)].
    - apply (okl_x _ O); auto.
  Qed.
  Lemma slb_len w l : ws_ok w -> l <= N -> length (slb w l) = sz l.
  Proof.
    intros O H. unfold slb. destruct (l =? 0) eqn:E; simpl.
    - apply Nat.eqb_eq in E. subst. destruct ab; simpl; [apply (okl_rhs _ O); lia|apply (okl_ub _ O)].
    - apply (okl_rhs _ O); auto.
  Qed.
  Lemma slx_S w l : slx w (S l) = nth (S l) (w_x w) []. Proof. reflexivity. Qed.
  Lemma slb_S w l : slb w (S l) = nth (S l) (w_rhs w) []. Proof. reflexivity. Qed.

  Lemma nth_upd_dec {A} (xs : list A) i j v d : i < length xs -> nth j (upd xs i v) d = if j =? i then v else nth j xs d.
  Proof.
    intros H. destruct (Nat.eqb_spec j i) as [->|Hn]; [apply nth_upd_eq; auto|apply nth_upd_neq; auto].
  Qed.
  Lemma set_x_ok w l v : ws_ok w -> l <= N -> length v = sz l ->
    exists w', set_x ax w l v = Ret w' /\ ws_ok w' /\ slx w' l = v /\ (forall j, j <> l -> slx w' j = slx w j) /\
      (forall j, slb w' j = slb w j) /\ w_res w' = w_res w /\ (ax = true -> w_ux w' = w_ux w) /\ w_ub w' = w_ub w.
  Proof.
    intros O H Hv. unfold set_x, slx, slb. destruct (Nat.eqb_spec l 0) as [->|Hl]; simpl.
    - destruct ax eqn:Eax; simpl.
      + rewrite wr_ok by (rewrite (ok_x _ O); lia). simpl. eexists. split; [reflexivity|]. simpl.
        repeat split; simpl; auto; try (apply O); try (rewrite upd_length; apply O).
        * intros j Hj. rewrite nth_upd_dec by (rewrite (ok_x _ O); lia). destruct (Nat.eqb_spec j 0); subst; auto. apply O; auto.
        * rewrite nth_upd_eq; auto. rewrite (ok_x _ O). lia.
        * intros j Hj. rewrite Bool.andb_false_r. rewrite nth_upd_neq; auto.
      + eexists. split; [reflexivity|]. simpl. repeat split; simpl; auto; try (apply O).
        * intros j Hj. destruct (Nat.eqb_spec j 0); simpl; auto. lia.
        * discriminate.
    - rewrite wr_ok by (rewrite (ok_x _ O); lia). simpl. eexists. split; [reflexivity|]. simpl.
      repeat split; simpl; auto; try (apply O); try (rewrite upd_length; apply O).
      + intros j Hj. rewrite nth_upd_dec by (rewrite (ok_x _ O); lia). destruct (Nat.eqb_spec j l); subst; auto. apply O; auto.
      + rewrite nth_upd_eq; auto. rewrite (ok_x _ O). lia.
      + intros j Hj. destruct ((j =? 0) && negb ax); auto. rewrite nth_upd_neq; auto.
  Qed.
  Lemma set_res_ok w l v : ws_ok w -> l <= N -> length v = sz l ->
    exists w', set_res w l v = Ret w' /\ ws_ok w' /\ nth l (w_res w') [] = v /\
      (forall j, j <> l -> nth j (w_res w') [] = nth j (w_res w) []) /\
      (forall j, slb w' j = slb w j) /\ (forall j, slx w' j = slx w j) /\ w_ux w' = w_ux w /\ w_ub w' = w_ub w.
  Proof.
    intros O H Hv. unfold set_res, slx, slb. rewrite wr_ok by (rewrite (ok_res _ O); lia). simpl.
    eexists. split; [reflexivity|]. simpl. repeat split; simpl; auto; try (apply O); try (rewrite upd_length; apply O).
    + intros j Hj. rewrite nth_upd_dec by (rewrite (ok_res _ O); lia). destruct (Nat.eqb_spec j l); subst; auto. apply O; auto.
    + rewrite nth_upd_eq; auto. rewrite (ok_res _ O). lia.
    + intros j Hj. rewrite nth_upd_neq; auto.
  Qed.
  Lemma set_rhs_ok w l v : ws_ok w -> S l <= N -> length v = sz (S l) ->
    exists w', set_rhs w (S l) v = Ret w' /\ ws_ok w' /\ slb w' (S l) = v /\
      (forall j, j <> S l -> slb w' j = slb w j) /\
      w_res w' = w_res w /\ (forall j, slx w' j = slx w j) /\ w_ux w' = w_ux w /\ w_ub w' = w_ub w.
  Proof.
    intros O H Hv. unfold set_rhs, slx, slb. rewrite wr_ok by (rewrite (ok_rhs _ O); lia). simpl.
    eexists. split; [reflexivity|]. simpl. repeat split; simpl; auto; try (apply O); try (rewrite upd_length; apply O).
    + intros j Hj. rewrite nth_upd_dec by (rewrite (ok_rhs _ O); lia). destruct (Nat.eqb_spec j (S l)); subst; auto. apply O; auto.
    + rewrite nth_upd_eq; auto. rewrite (ok_rhs _ O). lia.
    + intros j Hj. destruct ((j =? 0) && negb ab); auto. rewrite nth_upd_neq; auto.
  Qed.

  Ltac lenlev H := destruct H as (LA & LC & LC' & LR & LP & LT).

  Lemma pre_level_ok p l t w : sls = p ++ l :: t -> ws_ok w ->
    exists w', pre_level a ax ab w (length p) = Ret w' /\ ws_ok w' /\
      slx w' (length p) = step (sl_A l) (sl_C l) (vzero (sl_n l)) (slb w (length p)) /\
      slb w' (S (length p)) = sl_R l (slb w (length p) -v sl_A l (slx w' (length p))) /\
      fr (length p) (S (length p)) w w'.
  Proof.
    intros E O. pose proof (N_gt _ _ _ E) as HN.
    destruct (lv_rd _ _ _ E) as (lv & Elv & RA & RR & RP & RC & RC').
    pose proof (lin_suffix _ _ E) as HL. simpl in HL. lenlev HL.
    pose proof (sz_suffix _ _ E) as Hs. simpl in Hs. pose proof (sz_next _ _ _ E) as Hs'.
    unfold pre_level. rewrite Elv. simpl. rewrite get_x_ok, get_b_ok by (auto; lia). simpl.
    rewrite (rd_ok _ _ []) by (rewrite (ok_res _ O); lia). simpl.
    pose proof (slx_len w (length p) O ltac:(lia)) as Hx. pose proof (slb_len w (length p) O ltac:(lia)) as Hb.
    unfold set_zero. rewrite Hx, Hs.
    set (b := slb w (length p)) in *. rewrite Hs in Hb.
    specialize (RC (vzero (sl_n l)) b b true true true).
    destruct (lv_fw lv (vzero (sl_n l)) b b true true true) as [x' r'].
    destruct RC as (Ex & Lr & Er).
    { repeat split; auto with len. intros _. unfold residual. rewrite (lin_zero L _ _ _ LA). symmetry. apply (vsub_zero L); auto. }
    specialize (Er eq_refl). unfold residual in Ex, Er.
    assert (Lx : length x' = sl_n l) by (rewrite Ex; auto 6 with len).
    destruct (set_x_ok w (length p) x' O ltac:(lia) ltac:(congruence)) as (w1 & S1 & O1 & V1 & F1 & G1 & R1 & U1 & B1).
    rewrite S1. simpl.
    destruct (set_res_ok w1 (length p) r' O1 ltac:(lia) ltac:(congruence)) as (w2 & S2 & O2 & V2 & F2 & G2 & R2 & U2 & B2).
    rewrite S2. simpl. rewrite RR.
    destruct (set_rhs_ok w2 (length p) (sl_R l r') O2 ltac:(lia)) as (w3 & S3 & O3 & V3 & F3 & G3 & R3 & U3 & B3).
    { rewrite Hs'. auto with len. }
    exists w3. split; [exact S3|]. split; [exact O3|].
    assert (X3 : slx w3 (length p) = x') by (rewrite R3, R2; auto).
    rewrite X3, V3. split; [exact Ex|]. split; [rewrite Er; reflexivity|].
    split; intros.
    - rewrite R3, R2. apply F1. lia.
    - rewrite F3 by lia. rewrite G2. apply G1.
    - rewrite G3, F2 by lia. now rewrite R1.
    - rewrite U3, U2. auto.
    - congruence.
  Qed.

  Lemma coarse_level_ok w : ws_ok w -> (1 <= N \/ (ax = true /\ ab = true)) ->
    exists w', coarse_level a w = Ret w' /\ ws_ok w' /\ slx w' N = crs (slb w N) /\ fr N (S N) w w'.
  Proof.
    intros O H. unfold coarse_level. rewrite nlev. replace (S N - 1) with N by lia.
    rewrite (rd_ok _ _ []) by (rewrite (ok_x _ O); lia). simpl.
    rewrite (rd_ok _ _ []) by (rewrite (ok_rhs _ O); lia). simpl.
    rewrite wr_ok by (rewrite (ok_x _ O); lia). simpl.
    assert (HsN : sz N = nc). { unfold AMGInput.sz, N. rewrite skipn_all. reflexivity. }
    assert (Hlc : lin nc nc crs). { apply (lin_suffix sls []). now rewrite app_nil_r. }
    set (v := match am_crs a with Some (Some inv) => _ | _ => _ end).
    assert (Ev : v = crs (nth N (w_rhs w) [])).
    { unfold v, coarse_solve. pose proof (okl_x _ O N ltac:(lia)) as Hl. destruct (am_crs a) as [[inv|]|]; auto;
      unfold set_zero; rewrite Hl, HsN; reflexivity. }
    assert (Lv : length v = nc).
    { rewrite Ev. pose proof (okl_rhs _ O N ltac:(lia)). auto with len. apply (lin_len _ _ _ Hlc). congruence. }
    assert (Ex : forall w0 : wspace B, slx w0 N = nth N (w_x w0) []).
    { intros w0. unfold slx. destruct (Nat.eqb_spec N 0); simpl; auto. destruct H as [H|[-> _]]; [lia|auto]. }
    assert (Eb : forall w0 : wspace B, slb w0 N = nth N (w_rhs w0) []).
    { intros w0. unfold slb. destruct (Nat.eqb_spec N 0); simpl; auto. destruct H as [H|[_ ->]]; [lia|auto]. }
    eexists. split; [reflexivity|]. split; [|split].
    - split; simpl; try (apply O); try (rewrite upd_length; apply O).
      intros j Hj. rewrite nth_upd_dec by (rewrite (ok_x _ O); lia). destruct (Nat.eqb_spec j N); subst; [congruence|apply O; auto].
    - rewrite Ex, Eb. simpl. rewrite nth_upd_eq; [auto|]. rewrite (ok_x _ O); lia.
    - split; simpl; intros; auto. unfold slx. simpl. destruct ((l =? 0) && negb ax); auto. apply nth_upd_neq. lia.
  Qed.

  Lemma post_level_ok p l t w : sls = p ++ l :: t -> ws_ok w ->
    exists w', post_level a ax ab w (length p) = Ret w' /\ ws_ok w' /\
      slx w' (length p) = step (sl_A l) (sl_C' l) (slx w (length p) +v sl_P l (slx w (S (length p)))) (slb w (length p)) /\
      fr (length p) (S N) w w'.
  Proof.
    intros E O. pose proof (N_gt _ _ _ E) as HN.
    destruct (lv_rd _ _ _ E) as (lv & Elv & RA & RR & RP & RC & RC').
    pose proof (lin_suffix _ _ E) as HL. simpl in HL. lenlev HL.
    pose proof (sz_suffix _ _ E) as Hs. simpl in Hs. pose proof (sz_next _ _ _ E) as Hs'.
    unfold post_level. rewrite Elv. simpl. rewrite get_x_ok, get_b_ok by (auto; lia). simpl.
    rewrite (rd_ok _ _ []) by (rewrite (ok_res _ O); lia). simpl.
    rewrite (rd_ok (w_x w) _ []) by (rewrite (ok_x _ O); lia). simpl.
    pose proof (slx_len w (length p) O ltac:(lia)) as Hx. pose proof (slb_len w (length p) O ltac:(lia)) as Hb.
    rewrite slx_S. pose proof (okl_x _ O (S (length p)) ltac:(lia)) as Hx'. pose proof (okl_res _ O (length p) ltac:(lia)) as Hr.
    set (b := slb w (length p)) in *. set (x := slx w (length p)) in *. set (xc := nth (S (length p)) (w_x w) []) in *.
    set (r := nth (length p) (w_res w) []) in *. rewrite RP.
    assert (Lxx : length (x +v sl_P l xc) = sl_n l).
    { apply len_add; [congruence|]. apply (lin_len _ _ _ LP). congruence. }
    specialize (RC' (x +v sl_P l xc) b r false false false).
    destruct (lv_bw lv (x +v sl_P l xc) b r false false false) as [x' r'].
    destruct RC' as (Ex & Lr & _).
    { repeat split; auto; try congruence. }
    assert (Lx : length x' = sl_n l) by (rewrite Ex; unfold residual; auto 8 with len;
       apply len_add; auto; apply (lin_len _ _ _ LC'); apply len_sub; [congruence|apply (lin_len _ _ _ LA); auto]).
    destruct (set_x_ok w (length p) x' O ltac:(lia) ltac:(congruence)) as (w1 & S1 & O1 & V1 & F1 & G1 & R1 & U1 & B1).
    rewrite S1. simpl.
    destruct (set_res_ok w1 (length p) r' O1 ltac:(lia) ltac:(congruence)) as (w2 & S2 & O2 & V2 & F2 & G2 & R2 & U2 & B2).
    exists w2. split; [exact S2|]. split; [exact O2|]. split; [rewrite R2, V1, Ex; reflexivity|].
    split; intros.
    - rewrite R2. apply F1. lia.
    - rewrite G2. apply G1.
    - rewrite F2 by lia. now rewrite R1.
    - rewrite U2. auto.
    - congruence.
  Qed.

  Lemma mid_level_ok p l t w : sls = p ++ l :: t -> ws_ok w ->
    exists w', mid_level a ax ab w (length p) = Ret w' /\ ws_ok w' /\
      slx w' (length p) = step (sl_A l) (sl_C l) (step (sl_A l) (sl_C' l) (slx w (length p) +v sl_P l (slx w (S (length p)))) (slb w (length p))) (slb w (length p)) /\
      slb w' (S (length p)) = sl_R l (slb w (length p) -v sl_A l (slx w' (length p))) /\
      fr (length p) (S (length p)) w w'.
  Proof.
    intros E O. pose proof (N_gt _ _ _ E) as HN.
    destruct (lv_rd _ _ _ E) as (lv & Elv & RA & RR & RP & RC & RC').
    pose proof (lin_suffix _ _ E) as HL. simpl in HL. lenlev HL.
    pose proof (sz_suffix _ _ E) as Hs. simpl in Hs. pose proof (sz_next _ _ _ E) as Hs'.
    unfold mid_level. rewrite Elv. simpl. rewrite get_x_ok, get_b_ok by (auto; lia). simpl.
    rewrite (rd_ok _ _ []) by (rewrite (ok_res _ O); lia). simpl.
    rewrite (rd_ok (w_x w) _ []) by (rewrite (ok_x _ O); lia). simpl.
    pose proof (slx_len w (length p) O ltac:(lia)) as Hx. pose proof (slb_len w (length p) O ltac:(lia)) as Hb.
    rewrite slx_S. pose proof (okl_x _ O (S (length p)) ltac:(lia)) as Hx'. pose proof (okl_res _ O (length p) ltac:(lia)) as Hr.
    set (b := slb w (length p)) in *. set (x := slx w (length p)) in *. set (xc := nth (S (length p)) (w_x w) []) in *.
    set (r := nth (length p) (w_res w) []) in *. rewrite RP.
    assert (Lb : length b = sl_n l) by congruence.
    assert (Lxx : length (x +v sl_P l xc) = sl_n l).
    { apply len_add; [congruence|]. apply (lin_len _ _ _ LP). congruence. }
    specialize (RC' (x +v sl_P l xc) b r false true false).
    destruct (lv_bw lv (x +v sl_P l xc) b r false true false) as [x1 r1].
    destruct RC' as (Ex1 & Lr1 & Er1).
    { repeat split; auto; try congruence. }
    specialize (Er1 eq_refl).
    assert (Lx1 : length x1 = sl_n l) by (rewrite Ex1; unfold residual; auto 8 with len).
    specialize (RC x1 b r1 true true false).
    destruct (lv_fw lv x1 b r1 true true false) as [x' r'].
    destruct RC as (Ex & Lr & Er).
    { repeat split; auto; try congruence. }
    specialize (Er eq_refl). unfold residual in Ex, Er, Ex1.
    assert (Lx : length x' = sl_n l) by (rewrite Ex; auto 8 with len).
    destruct (set_x_ok w (length p) x' O ltac:(lia) ltac:(congruence)) as (w1 & S1 & O1 & V1 & F1 & G1 & R1 & U1 & B1).
    rewrite S1. simpl.
    destruct (set_res_ok w1 (length p) r' O1 ltac:(lia) ltac:(congruence)) as (w2 & S2 & O2 & V2 & F2 & G2 & R2 & U2 & B2).
    rewrite S2. simpl. rewrite RR.
    destruct (set_rhs_ok w2 (length p) (sl_R l r') O2 ltac:(lia)) as (w3 & S3 & O3 & V3 & F3 & G3 & R3 & U3 & B3).
    { rewrite Hs'. auto with len. }
    exists w3. split; [exact S3|]. split; [exact O3|].
    assert (X3 : slx w3 (length p) = x') by (rewrite R3, R2; auto).
    rewrite X3, V3. split; [unfold step; rewrite <- Ex1; exact Ex|]. split; [rewrite Er; reflexivity|].
    split; intros.
    - rewrite R3, R2. apply F1. lia.
    - rewrite F3 by lia. rewrite G2. apply G1.
    - rewrite G3, F2 by lia. now rewrite R1.
    - rewrite U3, U2. auto.
    - congruence.
  Qed.

  (** *** the V-cycle loops on the levels >= k *)
  Definition vrun (k m : nat) (w : wspace B) : res (wspace B) :=
    w <- foldM (pre_level a ax ab) (seq k m) w ;;
    w <- coarse_level a w ;;
    foldM (post_level a ax ab) (rev (seq k m)) w.
  Lemma vrun_S k m w : vrun k (S m) w = (w <- pre_level a ax ab w k ;; w <- vrun (S k) m w ;; post_level a ax ab w k).
  Proof.
    unfold vrun. simpl. destruct (pre_level a ax ab w k) as [w1|]; simpl; auto.
    destruct (foldM (pre_level a ax ab) (seq (S k) m) w1) as [w2|]; simpl; auto.
    destruct (coarse_level a w2) as [w3|]; simpl; auto.
    rewrite foldM_app. destruct (foldM _ (rev _) w3); simpl; auto.
    destruct (post_level a ax ab a0 k); auto.
  Qed.
  Lemma vrun_ok t : forall p w, sls = p ++ t -> ws_ok w -> (1 <= N \/ (ax = true /\ ab = true)) ->
    exists w', vrun (length p) (length t) w = Ret w' /\ ws_ok w' /\
      slx w' (length p) = vcyc t (vzero (topsize nc t)) (slb w (length p)) /\ fr (length p) (S (length p)) w w'.
  Proof.
    induction t as [|l t IH]; intros p w E O H.
    - unfold vrun. simpl. destruct (coarse_level_ok w O H) as (w' & E1 & O1 & V1 & F1).
      rewrite E1. simpl. assert (EN : N = length p) by (unfold N; rewrite E, app_nil_r; auto). rewrite EN in *.
      exists w'. auto.
    - change (length (l :: t)) with (S (length t)). rewrite vrun_S.
      destruct (pre_level_ok p l t w E O) as (w1 & S1 & O1 & X1 & B1 & F1). rewrite S1. cbn [bind].
      assert (E' : sls = (p ++ [l]) ++ t) by (rewrite <- app_assoc; exact E).
      destruct (IH (p ++ [l]) w1 E' O1 H) as (w2 & S2 & O2 & X2 & F2).
      rewrite app_length in S2, X2, F2. simpl in S2, X2, F2. rewrite Nat.add_1_r in S2, X2, F2. rewrite S2. cbn [bind].
      destruct (post_level_ok p l t w2 E O2) as (w3 & S3 & O3 & X3 & F3). rewrite S3.
      exists w3. split; [reflexivity|]. split; [exact O3|]. pose proof (N_gt _ _ _ E) as HN. split.
      + rewrite X3, X2, (fr_x _ _ _ _ F2) by lia. rewrite (fr_b _ _ _ _ F2 (length p)) by lia.
        rewrite (fr_b _ _ _ _ F1 (length p)) by lia. rewrite B1, X1. simpl. reflexivity.
      + eapply fr_trans; [exact F1|]. eapply fr_trans; [eapply fr_le; [| |exact F2]; lia|].
        eapply fr_le; [| |exact F3]; lia.
  Qed.
  Theorem SmoothV_ok w : ws_ok w -> (1 <= N \/ (ax = true /\ ab = true)) ->
    exists w', SmoothV a ax ab w = Ret w' /\ ws_ok w' /\ slx w' 0 = vcyc sls (vzero (topsize nc sls)) (slb w 0) /\ fr 0 1 w w'.
  Proof.
    intros O H. destruct (vrun_ok sls [] w eq_refl O H) as (w' & E & O' & V & F). simpl in *.
    exists w'. split; auto. unfold SmoothV. rewrite nlev. replace (S N - 1) with N by lia. exact E.
  Qed.

  (** *** W-cycle *)
  Lemma smit_ok t : forall p w, sls = p ++ t -> ws_ok w -> (1 <= N \/ (ax = true /\ ab = true)) ->
    exists w', smit a ax ab (length t) (length p) w = Ret w' /\ ws_ok w' /\
      slx w' (length p) = wcycle nc crs t (vzero (topsize nc t)) (slb w (length p)) /\ fr (length p) (S (length p)) w w'.
  Proof.
    induction t as [|l t IH]; intros p w E O H.
    - simpl. destruct (coarse_level_ok w O H) as (w' & E1 & O1 & V1 & F1).
      assert (EN : N = length p) by (unfold N; rewrite E, app_nil_r; auto). rewrite EN in *. exists w'. auto.
    - simpl. pose proof (N_gt _ _ _ E) as HN.
      assert (E' : sls = (p ++ [l]) ++ t) by (rewrite <- app_assoc; exact E).
      assert (IH' : forall w, ws_ok w -> exists w', smit a ax ab (length t) (S (length p)) w = Ret w' /\ ws_ok w' /\
         slx w' (S (length p)) = wcycle nc crs t (vzero (topsize nc t)) (slb w (S (length p))) /\ fr (S (length p)) (S (S (length p))) w w').
      { intros w0 O0. destruct (IH (p ++ [l]) w0 E' O0 H) as (w2 & S2 & O2 & X2 & F2).
        rewrite app_length in S2, X2, F2. simpl in S2, X2, F2. rewrite Nat.add_1_r in S2, X2, F2. eauto. }
      destruct (pre_level_ok p l t w E O) as (w1 & S1 & O1 & X1 & B1 & F1). rewrite S1. cbn [bind].
      destruct (IH' w1 O1) as (w2 & S2 & O2 & X2 & F2). rewrite S2. cbn [bind].
      destruct (mid_level_ok p l t w2 E O2) as (w3 & S3 & O3 & X3 & B3 & F3). rewrite S3. cbn [bind].
      destruct (IH' w3 O3) as (w4 & S4 & O4 & X4 & F4). rewrite S4. cbn [bind].
      destruct (post_level_ok p l t w4 E O4) as (w5 & S5 & O5 & X5 & F5). rewrite S5.
      exists w5. split; [reflexivity|]. split; [exact O5|]. split.
      + rewrite X5, X4, (fr_x _ _ _ _ F4) by lia. rewrite (fr_b _ _ _ _ F4 (length p)) by lia.
        rewrite B3, (fr_b _ _ _ _ F3 (length p)) by lia. rewrite X3, X2, (fr_x _ _ _ _ F2) by lia.
        rewrite (fr_b _ _ _ _ F2 (length p)) by lia.
        rewrite (fr_b _ _ _ _ F1 (length p)) by lia. rewrite B1, X1. reflexivity.
      + eapply fr_trans; [exact F1|]. eapply fr_trans; [eapply fr_le; [| |exact F2]; lia|].
        eapply fr_trans; [exact F3|]. eapply fr_trans; [eapply fr_le; [| |exact F4]; lia|].
        eapply fr_le; [| |exact F5]; lia.
  Qed.
  Theorem SmoothW_ok w : ws_ok w -> 1 <= N ->
    exists w', SmoothW a ax ab w = Ret w' /\ ws_ok w' /\ slx w' 0 = wcycle nc crs sls (vzero (topsize nc sls)) (slb w 0) /\ fr 0 1 w w'.
  Proof.
    intros O H. unfold SmoothW. rewrite nlev. replace (S N - 1) with N by lia.
    assert (E : exists l t, sls = l :: t).
    { unfold N in H. revert H. clear. destruct sls; simpl; [lia|eauto]. }
    destruct E as (l & t & E).
    assert (E0 : sls = [] ++ l :: t) by exact E.
    assert (E1 : sls = [l] ++ t) by exact E.
    assert (EN : N = S (length t)) by (unfold N; rewrite E; reflexivity).
    destruct (pre_level_ok [] l t w E0 O) as (w1 & S1 & O1 & X1 & B1 & F1). simpl in S1. rewrite S1. cbn [bind].
    replace (N - 1) with (length t) by lia.
    destruct (smit_ok t [l] w1 E1 O1 (or_introl H)) as (w2 & S2 & O2 & X2 & F2). simpl in S2. rewrite S2. cbn [bind].
    destruct (post_level_ok [] l t w2 E0 O2) as (w3 & S3 & O3 & X3 & F3). simpl in S3. rewrite S3. cbn [bind].
    destruct (smit_ok sls [] w3 eq_refl O3 (or_introl H)) as (w4 & S4 & O4 & X4 & F4).
    simpl in S4. fold N in S4. rewrite S4. exists w4. split; [reflexivity|]. split; [exact O4|].
    simpl in *. assert (F : fr 0 1 w w3).
    { eapply fr_trans; [exact F1|]. eapply fr_trans; [eapply fr_le; [| |exact F2]; lia|]. eapply fr_le; [| |exact F3]; lia. }
    split.
    - rewrite X4. rewrite (fr_b _ _ _ _ F) by lia. rewrite E. reflexivity.
    - eapply fr_trans; eauto.
  Qed.


  Lemma step_len n (A C : vec -> vec) x b : lin n n A -> lin n n C -> length x = n -> length b = n -> length (step A C x b) = n.
  Proof. intros. unfold step. auto 8 with len. Qed.
  Lemma vcyc_len t : linear_levels nc crs t -> forall x b, length x = topsize nc t -> length b = topsize nc t ->
    length (vcyc t x b) = topsize nc t.
  Proof.
    induction t as [|u t IH]; intros HL x b Hx Hb; simpl in *.
    - auto with len.
    - lenlev HL. assert (H1 : length (step (sl_A u) (sl_C u) x b) = sl_n u) by (apply step_len; auto).
      apply step_len; auto. apply len_add; auto. apply (lin_len _ _ _ LP). apply IH; auto with len.
  Qed.

  (** *** SmoothVFromLevel *)
  Lemma pre_alias w l : l <> 0 -> pre_level a true true w l = pre_level a ax ab w l.
  Proof. destruct l; [congruence|reflexivity]. Qed.
  Lemma post_alias w l : l <> 0 -> post_level a true true w l = post_level a ax ab w l.
  Proof. destruct l; [congruence|reflexivity]. Qed.
  Lemma SmoothVFromLevel_ok p l t w x b r ru ur xz : sls = p ++ l :: t -> ws_ok w ->
    flags_ok (sl_n l) (sl_A l) x b r ru xz ->
    exists x' r' w', SmoothVFromLevel a (length p) x b r ru ur xz w = Ret (x', r', w') /\ ws_ok w' /\
      x' = vcyc (l :: t) x b /\ length r' = sl_n l /\ (ur = true -> r' = residual (sl_A l) b x') /\
      fr (S (length p)) (S (length p)) w w'.
  Proof.
    intros E O FO. pose proof (N_gt _ _ _ E) as HN.
    destruct (lv_rd _ _ _ E) as (lv & Elv & RA & RR & RP & RC & RC').
    pose proof (lin_suffix _ _ E) as HL. simpl in HL. lenlev HL.
    pose proof (sz_suffix _ _ E) as Hs. simpl in Hs. pose proof (sz_next _ _ _ E) as Hs'.
    unfold SmoothVFromLevel. rewrite Elv. cbn [bind].
    pose proof FO as (Lx & Lb & Lr & _).
    specialize (RC x b r ru true xz FO). destruct (lv_fw lv x b r ru true xz) as [x1 r1].
    destruct RC as (Ex1 & Lr1 & Er1). specialize (Er1 eq_refl).
    assert (Lx1 : length x1 = sl_n l) by (rewrite Ex1; unfold residual; auto 8 with len).
    rewrite RR.
    destruct (set_rhs_ok w (length p) (sl_R l r1) O ltac:(lia)) as (w1 & S1 & O1 & V1 & F1 & G1 & R1 & U1 & B1).
    { rewrite Hs'. auto with len. }
    rewrite S1. cbn [bind].
    assert (ET : length t = N - S (length p)) by (unfold N; rewrite E, app_length; simpl; lia).
    set (ft := (if length p + 2 <? n_levels a then foldM (pre_level a true true) _ w1 else Ret w1)).
    assert (Eft : ft = foldM (pre_level a ax ab) (seq (S (length p)) (length t)) w1).
    { unfold ft. rewrite nlev. destruct (Nat.ltb_spec (length p + 2) (S N)).
      - replace (S N - 1 - (length p + 1)) with (length t) by lia. replace (length p + 1) with (S (length p)) by lia.
        apply foldM_ext_in. intros s y Hy. apply in_seq in Hy. apply pre_alias. lia.
      - replace (length t) with 0 by lia. reflexivity. }
    rewrite Eft.
    assert (E' : sls = (p ++ [l]) ++ t) by (rewrite <- app_assoc; exact E).
    destruct (vrun_ok t (p ++ [l]) w1 E' O1 ltac:(left; lia)) as (w2 & S2 & O2 & X2 & F2).
    rewrite app_length in S2, X2, F2. simpl in S2, X2, F2. rewrite Nat.add_1_r in S2, X2, F2.
    unfold vrun in S2. destruct (foldM (pre_level a ax ab) (seq (S (length p)) (length t)) w1) as [w3|]; [|discriminate]. cbn [bind] in *.
    destruct (coarse_level a w3) as [w4|]; [|discriminate]. cbn [bind] in *.
    set (ft' := (if length p + 2 <? n_levels a then foldM (post_level a true true) _ w4 else Ret w4)).
    assert (Eft' : ft' = foldM (post_level a ax ab) (rev (seq (S (length p)) (length t))) w4).
    { unfold ft'. rewrite nlev. destruct (Nat.ltb_spec (length p + 2) (S N)).
      - replace (S N - 1 - (length p + 1)) with (length t) by lia. replace (length p + 1) with (S (length p)) by lia.
        apply foldM_ext_in. intros s y Hy. apply in_rev, in_seq in Hy. apply post_alias. lia.
      - replace (length t) with 0 by lia. reflexivity. }
    rewrite Eft', S2. cbn [bind].
    rewrite (rd_ok (w_x w2) _ []) by (rewrite (ok_x _ O2); lia). cbn [bind].
    rewrite <- (slx_S w2). rewrite X2, V1, RP.
    set (xc := vcyc t (vzero (topsize nc t)) (sl_R l r1)).
    assert (Lxc : length xc = topsize nc t).
    { unfold xc. rewrite <- V1, <- X2, <- Hs'. apply slx_len; auto; lia. }
    assert (Lx2 : length (x1 +v sl_P l xc) = sl_n l) by auto with len.
    specialize (RC' (x1 +v sl_P l xc) b r1 false ur false).
    destruct (lv_bw lv (x1 +v sl_P l xc) b r1 false ur false) as [x' r'].
    destruct RC' as (Ex & Lr' & Er).
    { repeat split; auto; congruence. }
    exists x', r', w2. split; [reflexivity|]. split; [exact O2|]. split; [|split; [auto|split; [exact Er|]]].
    - rewrite Ex. simpl. unfold step at 1. unfold residual in *. unfold xc. rewrite Er1, Ex1. unfold step. reflexivity.
    - eapply fr_trans; [|eapply fr_le; [| |exact F2]; lia].
      split; intros; auto; try (rewrite U1; auto); try (rewrite G1; auto); try (apply F1; lia); auto.
  Qed.

  (** *** SmoothBS *)
  Lemma bs_pre_ok p l t w : sls = p ++ l :: t -> ws_ok w ->
    exists w', bs_pre a ax ab w (length p) = Ret w' /\ ws_ok w' /\
      slx w' (length p) = vcyc (l :: t) (vzero (sl_n l)) (slb w (length p)) /\
      slb w' (S (length p)) = sl_R l (slb w (length p) -v sl_A l (slx w' (length p))) /\
      fr (length p) (S (length p)) w w'.
  Proof.
    intros E O. pose proof (N_gt _ _ _ E) as HN.
    destruct (lv_rd _ _ _ E) as (lv & Elv & RA & RR & RP & RC & RC').
    pose proof (lin_suffix _ _ E) as HL. simpl in HL. lenlev HL.
    pose proof (sz_suffix _ _ E) as Hs. simpl in Hs. pose proof (sz_next _ _ _ E) as Hs'.
    unfold bs_pre. rewrite get_x_ok, get_b_ok by (auto; lia). cbn [bind].
    rewrite (rd_ok _ _ []) by (rewrite (ok_res _ O); lia). cbn [bind].
    pose proof (slx_len w (length p) O ltac:(lia)) as Hx. pose proof (slb_len w (length p) O ltac:(lia)) as Hb.
    unfold set_zero. rewrite Hx, Hs.
    set (b := slb w (length p)) in *. rewrite Hs in Hb.
    destruct (SmoothVFromLevel_ok p l t w (vzero (sl_n l)) b b true true true E O) as (x' & r' & w0 & S0 & O0 & X0 & L0 & R0 & F0).
    { repeat split; auto with len. intros _. unfold residual. rewrite (lin_zero L _ _ _ LA). symmetry. apply (vsub_zero L); auto. }
    rewrite S0. cbn [bind]. specialize (R0 eq_refl). unfold residual in R0.
    assert (Lx' : length x' = sl_n l).
    { rewrite X0. apply (vcyc_len (l :: t)); auto with len. simpl; tauto. }
    destruct (set_x_ok w0 (length p) x' O0 ltac:(lia) ltac:(congruence)) as (w1 & S1 & O1 & V1 & F1 & G1 & R1 & U1 & B1).
    rewrite S1. cbn [bind].
    destruct (set_res_ok w1 (length p) r' O1 ltac:(lia) ltac:(congruence)) as (w2 & S2 & O2 & V2 & F2 & G2 & R2 & U2 & B2).
    rewrite S2. cbn [bind]. rewrite Elv. cbn [bind]. rewrite RR.
    destruct (set_rhs_ok w2 (length p) (sl_R l r') O2 ltac:(lia)) as (w3 & S3 & O3 & V3 & F3 & G3 & R3 & U3 & B3).
    { rewrite Hs'. auto with len. }
    exists w3. split; [exact S3|]. split; [exact O3|].
    assert (X3 : slx w3 (length p) = x') by (rewrite R3, R2; auto).
    rewrite X3, V3. split; [exact X0|]. split; [rewrite R0; reflexivity|].
    split; intros.
    - rewrite R3, R2, F1 by lia. apply F0. lia.
    - rewrite F3 by lia. rewrite G2, G1. apply F0. lia.
    - rewrite G3, F2 by lia. rewrite R1. apply F0. lia.
    - rewrite U3, U2, U1 by auto. apply F0; auto.
    - rewrite B3, B2, B1. apply F0.
  Qed.

  Lemma bs_post_ok p l t w : sls = p ++ l :: t -> ws_ok w ->
    exists w', bs_post a ax ab w (length p) = Ret w' /\ ws_ok w' /\
      slx w' (length p) = vcyc (l :: t) (slx w (length p) +v sl_P l (slx w (S (length p)))) (slb w (length p)) /\
      fr (length p) (S (length p)) w w'.
  Proof.
    intros E O. pose proof (N_gt _ _ _ E) as HN.
    destruct (lv_rd _ _ _ E) as (lv & Elv & RA & RR & RP & RC & RC').
    pose proof (lin_suffix _ _ E) as HL0. pose proof HL0 as HL. simpl in HL. lenlev HL.
    pose proof (sz_suffix _ _ E) as Hs. simpl in Hs. pose proof (sz_next _ _ _ E) as Hs'.
    unfold bs_post. rewrite Elv. cbn [bind]. rewrite get_x_ok, get_b_ok by (auto; lia). cbn [bind].
    rewrite (rd_ok _ _ []) by (rewrite (ok_res _ O); lia). cbn [bind].
    rewrite (rd_ok (w_x w) _ []) by (rewrite (ok_x _ O); lia). cbn [bind].
    pose proof (slx_len w (length p) O ltac:(lia)) as Hx. pose proof (slb_len w (length p) O ltac:(lia)) as Hb.
    rewrite slx_S. pose proof (okl_x _ O (S (length p)) ltac:(lia)) as Hx'. pose proof (okl_res _ O (length p) ltac:(lia)) as Hr.
    set (b := slb w (length p)) in *. set (x := slx w (length p)) in *. set (xc := nth (S (length p)) (w_x w) []) in *.
    set (r := nth (length p) (w_res w) []) in *. rewrite RP.
    assert (Lxx : length (x +v sl_P l xc) = sl_n l).
    { apply len_add; [congruence|]. apply (lin_len _ _ _ LP). congruence. }
    destruct (SmoothVFromLevel_ok p l t w (x +v sl_P l xc) b r false false false E O) as (x' & r' & w0 & S0 & O0 & X0 & L0 & R0 & F0).
    { repeat split; auto; congruence. }
    rewrite S0. cbn [bind].
    assert (Lx' : length x' = sl_n l).
    { rewrite X0. apply (vcyc_len (l :: t)); auto with len. simpl; congruence. }
    destruct (set_x_ok w0 (length p) x' O0 ltac:(lia) ltac:(congruence)) as (w1 & S1 & O1 & V1 & F1 & G1 & R1 & U1 & B1).
    rewrite S1. cbn [bind].
    destruct (set_res_ok w1 (length p) r' O1 ltac:(lia) ltac:(congruence)) as (w2 & S2 & O2 & V2 & F2 & G2 & R2 & U2 & B2).
    exists w2. split; [exact S2|]. split; [exact O2|]. split; [rewrite R2, V1, X0; reflexivity|].
    split; intros.
    - rewrite R2, F1 by lia. apply F0; lia.
    - rewrite G2, G1. apply F0; lia.
    - rewrite F2 by lia. rewrite R1. apply F0; lia.
    - rewrite U2, U1 by auto. apply F0; auto.
    - rewrite B2, B1. apply F0.
  Qed.
  Definition bsrun (k m : nat) (w : wspace B) : res (wspace B) :=
    w <- foldM (bs_pre a ax ab) (seq k m) w ;;
    w <- coarse_level a w ;;
    foldM (bs_post a ax ab) (rev (seq k m)) w.
  Lemma bsrun_S k m w : bsrun k (S m) w = (w <- bs_pre a ax ab w k ;; w <- bsrun (S k) m w ;; bs_post a ax ab w k).
  Proof.
    unfold bsrun. simpl. destruct (bs_pre a ax ab w k) as [w1|]; simpl; auto.
    destruct (foldM (bs_pre a ax ab) (seq (S k) m) w1) as [w2|]; simpl; auto.
    destruct (coarse_level a w2) as [w3|]; simpl; auto.
    rewrite foldM_app. destruct (foldM _ (rev _) w3); simpl; auto.
    destruct (bs_post a ax ab a0 k); auto.
  Qed.
  Lemma bsrun_ok t : forall p w, sls = p ++ t -> ws_ok w -> (1 <= N \/ (ax = true /\ ab = true)) ->
    exists w', bsrun (length p) (length t) w = Ret w' /\ ws_ok w' /\
      slx w' (length p) = bscycle nc crs t (vzero (topsize nc t)) (slb w (length p)) /\ fr (length p) (S (length p)) w w'.
  Proof.
    induction t as [|l t IH]; intros p w E O H.
    - unfold bsrun. simpl. destruct (coarse_level_ok w O H) as (w' & E1 & O1 & V1 & F1).
      rewrite E1. simpl. assert (EN : N = length p) by (unfold N; rewrite E, app_nil_r; auto). rewrite EN in *.
      exists w'. auto.
    - change (length (l :: t)) with (S (length t)). rewrite bsrun_S.
      destruct (bs_pre_ok p l t w E O) as (w1 & S1 & O1 & X1 & B1 & F1). rewrite S1. cbn [bind].
      assert (E' : sls = (p ++ [l]) ++ t) by (rewrite <- app_assoc; exact E).
      destruct (IH (p ++ [l]) w1 E' O1 H) as (w2 & S2 & O2 & X2 & F2).
      rewrite app_length in S2, X2, F2. simpl in S2, X2, F2. rewrite Nat.add_1_r in S2, X2, F2. rewrite S2. cbn [bind].
      destruct (bs_post_ok p l t w2 E O2) as (w3 & S3 & O3 & X3 & F3). rewrite S3.
      exists w3. split; [reflexivity|]. split; [exact O3|]. pose proof (N_gt _ _ _ E) as HN. split.
      + rewrite X3, X2, (fr_x _ _ _ _ F2) by lia. rewrite (fr_b _ _ _ _ F2 (length p)) by lia.
        rewrite (fr_b _ _ _ _ F1 (length p)) by lia. rewrite B1, X1. reflexivity.
      + eapply fr_trans; [exact F1|]. eapply fr_trans; [eapply fr_le; [| |exact F2]; lia|].
        eapply fr_le; [| |exact F3]; lia.
  Qed.
  Theorem SmoothBS_ok w : ws_ok w -> (1 <= N \/ (ax = true /\ ab = true)) ->
    exists w', SmoothBS a ax ab w = Ret w' /\ ws_ok w' /\ slx w' 0 = bscycle nc crs sls (vzero (topsize nc sls)) (slb w 0) /\ fr 0 1 w w'.
  Proof.
    intros O H. destruct (bsrun_ok sls [] w eq_refl O H) as (w' & E & O' & V & F). simpl in *.
    exists w'. split; auto. unfold SmoothBS. rewrite nlev. replace (S N - 1) with N by lia. exact E.
  Qed.

  Lemma wr_x_S w l v : ws_ok w -> S l <= N -> length v = sz (S l) -> exists w', set_x true w (S l) v = Ret w' /\ ws_ok w'.
  Proof.
    intros O H Hv. destruct (set_x_ok w (S l) v O H Hv) as (w' & E & O' & _). exists w'. split; auto.
  Qed.
  Lemma wr_rhs_S w l v : ws_ok w -> S l <= N -> length v = sz (S l) -> exists w', set_rhs w (S l) v = Ret w' /\ ws_ok w'.
  Proof.
    intros O H Hv. destruct (set_rhs_ok w l v O H Hv) as (w' & E & O' & _). exists w'. split; auto.
  Qed.
  (** *** AMGSmoother with singleFLS *)
  Lemma as_smooth_ok p l u t w x b r ru ur xz : sls = p ++ l :: u :: t -> ws_ok w ->
    flags_ok (sl_n l) (sl_A l) x b r ru xz ->
    exists x' r' w', as_smooth (mkAS a (length p) true) x b r ru ur xz w = Ret (x', r', w') /\ ws_ok w' /\
      x' = step (sl_A l) (sl_C l) (x +v sl_P l (vcyc (u :: t) (vzero (sl_n u)) (sl_R l (b -v sl_A l x)))) b /\
      length r' = sl_n l /\ (ur = true -> r' = residual (sl_A l) b x').
  Proof.
    intros E O FO. pose proof (N_gt _ _ _ E) as HN.
    assert (E2 : sls = (p ++ [l]) ++ u :: t) by (rewrite <- app_assoc; exact E).
    pose proof (N_gt _ _ _ E2) as HN2. rewrite app_length in HN2. simpl in HN2.
    destruct (lv_rd _ _ _ E) as (lv & Elv & RA & RR & RP & RC & RC').
    pose proof (lin_suffix _ _ E) as HL0. pose proof HL0 as HL. simpl in HL. destruct HL as (LA & LC & LC' & LR & LP & LAu & LT). 
    pose proof (sz_suffix _ _ E) as Hs. simpl in Hs. pose proof (sz_next _ _ _ E) as Hs'. simpl in Hs'.
    unfold as_smooth. cbn [as_amg as_start as_single]. rewrite Elv. cbn [bind].
    destruct FO as (Lx & Lb & Lr & Hru & Hxz).
    set (r0 := if ru then r else calc_residuum (lv_A lv) x b xz).
    assert (Er0 : r0 = residual (sl_A l) b x).
    { unfold r0. destruct ru; [auto|]. unfold calc_residuum. rewrite RA. destruct xz; auto. rewrite Hxz by auto. unfold residual.
      rewrite (lin_zero L _ _ _ LA). symmetry. apply (vsub_zero L); auto. }
    rewrite nlev. destruct (Nat.ltb_spec (length p) (S N)); [|lia].
    assert (Lr0 : length r0 = sl_n l) by (rewrite Er0; unfold residual; auto with len).
    destruct (set_rhs_ok w (length p) (lv_R lv r0) O ltac:(lia)) as (w1 & S1 & O1 & V1 & F1 & G1 & R1 & U1 & B1).
    { rewrite Hs', RR. auto with len. }
    rewrite S1. cbn [bind].
    rewrite (rd_ok (w_x w1) _ []) by (rewrite (ok_x _ O1); lia). cbn [bind].
    rewrite (rd_ok (w_rhs w1) _ []) by (rewrite (ok_rhs _ O1); lia). cbn [bind].
    rewrite (rd_ok (w_res w1) _ []) by (rewrite (ok_res _ O1); lia). cbn [bind].
    rewrite <- slb_S, V1. unfold set_zero. rewrite (okl_x _ O1) by lia. rewrite Hs'.
    destruct (SmoothVFromLevel_ok (p ++ [l]) u t w1 (vzero (sl_n u)) (lv_R lv r0) (nth (S (length p)) (w_res w1) []) false false true E2 O1)
      as (xc & rc & w2 & S2 & O2 & X2 & L2 & _ & F2).
    { repeat split; auto with len; try congruence. rewrite RR; auto with len. rewrite (okl_res _ O1) by lia. congruence. }
    rewrite app_length in S2. simpl in S2. rewrite Nat.add_1_r in S2. rewrite S2. cbn [bind].
    assert (Lxc : length xc = sl_n u).
    { rewrite X2. apply (vcyc_len (u :: t)); simpl; try tauto; auto with len. rewrite RR; auto with len. }
    destruct (wr_x_S w2 (length p) xc O2 ltac:(lia) ltac:(congruence)) as (w3 & S3 & O3). rewrite S3. cbn [bind].
    destruct (set_res_ok w3 (S (length p)) rc O3 ltac:(lia) ltac:(congruence)) as (w4 & S4 & O4 & _). rewrite S4. cbn [bind].
    rewrite RP. assert (Lxx : length (x +v sl_P l xc) = sl_n l) by auto with len.
    specialize (RC (x +v sl_P l xc) b r0 false ur false).
    destruct (lv_fw lv (x +v sl_P l xc) b r0 false ur false) as [x' r'].
    destruct RC as (Ex & Lr' & Er). { repeat split; auto; congruence. }
    exists x', r', w4. split; [reflexivity|]. split; [exact O4|]. split; [|auto].
    rewrite Ex, X2. unfold step, residual in *. rewrite Er0, RR. reflexivity.
  Qed.

  Lemma as_smooth_back_ok p l u t w x b r ru ur xz : sls = p ++ l :: u :: t -> ws_ok w ->
    flags_ok (sl_n l) (sl_A l) x b r ru xz ->
    exists x' r' w', as_smooth_back (mkAS a (length p) true) x b r ru ur xz w = Ret (x', r', w') /\ ws_ok w' /\
      x' = (let x1 := step (sl_A l) (sl_C' l) x b in
            x1 +v sl_P l (vcyc (u :: t) (vzero (sl_n u)) (sl_R l (b -v sl_A l x1)))) /\
      length r' = sl_n l /\ (ur = true -> r' = residual (sl_A l) b x').
  Proof.
    intros E O FO. pose proof (N_gt _ _ _ E) as HN.
    assert (E2 : sls = (p ++ [l]) ++ u :: t) by (rewrite <- app_assoc; exact E).
    pose proof (N_gt _ _ _ E2) as HN2. rewrite app_length in HN2. simpl in HN2.
    destruct (lv_rd _ _ _ E) as (lv & Elv & RA & RR & RP & RC & RC').
    pose proof (lin_suffix _ _ E) as HL0. pose proof HL0 as HL. simpl in HL. destruct HL as (LA & LC & LC' & LR & LP & LAu & LT). 
    pose proof (sz_suffix _ _ E) as Hs. simpl in Hs. pose proof (sz_next _ _ _ E) as Hs'. simpl in Hs'.
    unfold as_smooth_back. cbn [as_amg as_start as_single]. rewrite Elv. cbn [bind].
    pose proof FO as (Lx & Lb & Lr & Hru & Hxz).
    specialize (RC' x b r ru true xz FO). destruct (lv_bw lv x b r ru true xz) as [x1 r1].
    destruct RC' as (Ex1 & Lr1 & Er1). specialize (Er1 eq_refl).
    assert (Lx1 : length x1 = sl_n l) by (rewrite Ex1; unfold residual; auto 8 with len).
    rewrite nlev. destruct (Nat.ltb_spec (length p) (S N)); [|lia].
    destruct (set_res_ok w (S (length p)) (lv_R lv r1) O ltac:(lia)) as (w1 & S1 & O1 & V1 & F1 & G1 & R1 & U1 & B1).
    { rewrite Hs', RR. auto with len. }
    rewrite S1. cbn [bind].
    rewrite (rd_ok (w_x w1) _ []) by (rewrite (ok_x _ O1); lia). cbn [bind].
    rewrite (rd_ok (w_res w1) _ []) by (rewrite (ok_res _ O1); lia). cbn [bind].
    rewrite (rd_ok (w_rhs w1) _ []) by (rewrite (ok_rhs _ O1); lia). cbn [bind].
    rewrite V1. unfold set_zero. rewrite (okl_x _ O1) by lia. rewrite Hs'.
    destruct (SmoothVFromLevel_ok (p ++ [l]) u t w1 (vzero (sl_n u)) (lv_R lv r1) (nth (S (length p)) (w_rhs w1) []) false false true E2 O1)
      as (xc & rc & w2 & S2 & O2 & X2 & L2 & _ & F2).
    { repeat split; auto with len; try congruence. rewrite RR; auto with len. rewrite (okl_rhs _ O1) by lia. congruence. }
    rewrite app_length in S2. simpl in S2. rewrite Nat.add_1_r in S2. rewrite S2. cbn [bind].
    assert (Lxc : length xc = sl_n u).
    { rewrite X2. apply (vcyc_len (u :: t)); simpl; try tauto; auto with len. rewrite RR; auto with len. }
    destruct (wr_x_S w2 (length p) xc O2 ltac:(lia) ltac:(congruence)) as (w3 & S3 & O3). rewrite S3. cbn [bind].
    destruct (wr_rhs_S w3 (length p) rc O3 ltac:(lia) ltac:(congruence)) as (w4 & S4 & O4). rewrite S4. cbn [bind].
    rewrite RP. assert (Lxx : length (x1 +v sl_P l xc) = sl_n l) by auto with len.
    do 3 eexists. split; [reflexivity|]. split; [exact O4|]. split; [|split].
    - rewrite X2, RR. unfold residual in *. rewrite Er1, Ex1. reflexivity.
    - unfold calc_residuum. rewrite RA. destruct ur; auto. auto with len.
    - intros ->. unfold calc_residuum, residual. now rewrite RA.
  Qed.
End Run.
