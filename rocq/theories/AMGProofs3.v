(** Mult, MultAdd, CINV, EmbeddedAMGMatrix on top of AMGProofs. *)
From Verif Require Import Base AGroup LinAlg LinTools GSSpec GSModel GSProofs GSProofs2 AMGSpec AMGModel AMGInput AMGProofs AMGProofs2.

Section Top.
  Context {B : Blk} (L : BlkLaws B).
  Local Notation vec := (list (X B)). Local Notation K := (K B).
  Variables (a : AMGMatrix B) (nc : nat) (sls : list (slevel B)).
  Hypothesis AO : amg_ok a nc sls.
  Local Notation crs := (coarse_solve a nc).
  Local Notation ok := (ws_ok nc sls).
  Local Notation n0 := (topsize nc sls).

  (** the cycle selected by vwb *)
  Definition cycle_of (v : nat) : list (slevel B) -> vec -> vec -> vec :=
    match v with 0 => vcycle nc crs | 1 => wcycle nc crs | _ => bscycle nc crs end.
  Definition op_of (v : nat) : vec -> vec :=
    match v with 0 => vop crs sls | 1 => wop crs sls | _ => bop crs sls end.
  Lemma cycle_op v b : length b = n0 -> cycle_of v sls (vzero n0) b = op_of v b.
  Proof.
    intros H. pose proof (ao_lin _ _ _ AO). destruct v as [|[|v]]; simpl.
    - apply (vcycle_op0 L); auto. - apply (wcycle_op0 L); auto. - apply (bscycle_op0 L); auto.
  Qed.
  Lemma op_lin v : lin n0 n0 (op_of v).
  Proof.
    pose proof (ao_lin _ _ _ AO). destruct v as [|[|v]]; simpl.
    - apply (vop_lin L); auto. - apply (wop_lin L); auto. - apply (bop_lin L); auto.
  Qed.

  Lemma Smooth_ok ax ab w : ok w -> am_vwb a <= 2 ->
    (1 <= length sls \/ (ax = true /\ ab = true /\ am_vwb a <> 1)) ->
    exists w', Smooth a ax ab w = Ret w' /\ ok w' /\ slx ax w' 0 = op_of (am_vwb a) (slb ab w 0) /\ fr ax ab 0 1 w w'.
  Proof.
    intros O V H. destruct AO as [HR HL].
    assert (Lb : length (slb ab w 0) = n0). { rewrite (slb_len nc sls ab w 0 O) by lia. reflexivity. }
    rewrite <- cycle_op by auto. unfold Smooth.
    destruct (am_vwb a) as [|[|[|v]]]; try lia; simpl cycle_of.
    - apply (SmoothV_ok L a nc sls HR HL ax ab w O). tauto.
    - apply (SmoothW_ok L a nc sls HR HL ax ab w O). destruct H as [?|(_&_&?)]; [auto|lia].
    - apply (SmoothBS_ok L a nc sls HR HL ax ab w O). tauto.
  Qed.
  Lemma ok_args w x b : ok w -> length x = n0 -> length b = n0 -> ok (mkWS (w_x w) (w_rhs w) (w_res w) x b).
  Proof. intros O Hx Hb. destruct O. split; simpl; auto. Qed.
  Lemma Mult_ok b x w : ok w -> am_vwb a <= 2 -> 1 <= length sls -> length b = n0 -> length x = n0 ->
    exists w', Mult a b x w = Ret (op_of (am_vwb a) b, w') /\ ok w'.
  Proof.
    intros O V H Hb Hx. unfold Mult.
    destruct (Smooth_ok false false _ (ok_args w x b O Hx Hb) V (or_introl H)) as (w' & E & O' & X & F).
    rewrite E. cbn [bind]. exists w'. split; auto. unfold slx, slb in X. simpl in X. now rewrite X.
  Qed.
  Lemma MultAdd_ok s b x w : ok w -> am_vwb a <= 2 -> 1 <= length sls -> length b = n0 -> length x = n0 ->
    exists w', MultAdd a s b x w = Ret (x +v vsc s (op_of (am_vwb a) b), w') /\ ok w'.
  Proof.
    intros O V H Hb Hx. unfold MultAdd.
    destruct (Smooth_ok true false _ (ok_args w x b O Hx Hb) V (or_introl H)) as (w' & E & O' & X & F).
    rewrite E. cbn [bind]. rewrite (rd_ok _ 0 []) by (rewrite (ok_x _ _ _ O'); lia). cbn [bind].
    exists w'. split; auto. unfold slx, slb in X. simpl in X. rewrite X. rewrite (fr_ux _ _ _ _ _ _ F eq_refl). reflexivity.
  Qed.

  (** *** CINV *)
  Lemma set_rhs0_ok w v : ok w -> length v = n0 -> exists w', set_rhs w 0 v = Ret w' /\ ok w' /\ slb true w' 0 = v /\
    (forall l, slx true w' l = slx true w l) /\ (forall l, l <> 0 -> slb true w' l = slb true w l).
  Proof.
    intros O Hv. unfold set_rhs. rewrite wr_ok by (rewrite (ok_rhs _ _ _ O); lia). cbn [bind].
    eexists. split; [reflexivity|]. split; [|split; [|split]].
    - destruct O. split; simpl; auto; try (rewrite upd_length; auto).
      intros j Hj. rewrite nth_upd_dec by (rewrite ok_rhs; lia). destruct (Nat.eqb_spec j 0); subst; auto.
    - unfold slb. simpl. rewrite nth_upd_eq; auto. rewrite (ok_rhs _ _ _ O). lia.
    - auto.
    - intros l Hl. unfold slb. rewrite Bool.andb_false_r. simpl. apply nth_upd_neq. auto.
  Qed.
  Definition crun (inv : vec -> vec) (k m : nat) (w : wspace B) : res (wspace B) :=
    w <- foldM (cinv_down a) (seq k m) w ;;
    bc <- rd (w_rhs w) (length sls) ;;
    w <- set_x true w (length sls) (inv bc) ;;
    foldM (cinv_up a) (rev (seq k m)) w.
  Lemma crun_S inv k m w : crun inv k (S m) w = (w <- cinv_down a w k ;; w <- crun inv (S k) m w ;; cinv_up a w k).
  Proof.
    unfold crun. simpl. destruct (cinv_down a w k) as [w1|]; simpl; auto.
    destruct (foldM (cinv_down a) (seq (S k) m) w1) as [w2|]; simpl; auto.
    destruct (rd (w_rhs w2) (length sls)); simpl; auto.
    destruct (set_x true w2 (length sls) (inv a0)) as [w3|]; simpl; auto.
    rewrite foldM_app. destruct (foldM _ (rev _) w3); simpl; auto.
    destruct (cinv_up a a1 k); auto.
  Qed.
  Lemma coarse_only_len t : linear_levels nc crs t -> forall b, length b = topsize nc t -> length (coarse_only crs t b) = topsize nc t.
  Proof.
    induction t as [|l t IH]; intros H b Hb; simpl in *; [auto with len|]. destruct H as (LA & LC & LC' & LR & LP & LT).
    apply (lin_len _ _ _ LP). apply IH; auto with len.
  Qed.
  Lemma crun_ok t : forall p w, sls = p ++ t -> ok w ->
    exists w', crun crs (length p) (length t) w = Ret w' /\ ok w' /\
      slx true w' (length p) = coarse_only crs t (slb true w (length p)) /\
      (forall l, l < length p -> slx true w' l = slx true w l) /\ (forall l, l <= length p -> slb true w' l = slb true w l).
  Proof.
    destruct AO as [HR HL].
    induction t as [|l t IH]; intros p w E O.
    - unfold crun. simpl.
      assert (EN : length p = length sls) by (rewrite E, app_nil_r; auto). rewrite <- EN.
      rewrite (rd_ok _ _ []) by (rewrite (ok_rhs _ _ _ O); lia). cbn [bind].
      assert (LC : lin nc nc crs) by (apply (lin_suffix a nc sls HL sls []); now rewrite app_nil_r).
      destruct (set_x_ok nc sls true true w (length p) (crs (nth (length p) (w_rhs w) [])) O ltac:(lia)) as (w1 & S1 & O1 & V1 & F1 & G1 & _).
      { rewrite (sz_suffix nc sls p [] E). simpl. apply (lin_len _ _ _ LC). rewrite (okl_rhs _ _ _ O) by lia. apply (sz_suffix nc sls p [] E). }
      rewrite S1. cbn [bind]. exists w1. split; [reflexivity|]. split; auto. split; [|split].
      + rewrite V1. unfold slb. rewrite Bool.andb_false_r. reflexivity.
      + intros j Hj. apply F1. lia.
      + auto.
    - change (length (l :: t)) with (S (length t)). rewrite crun_S.
      destruct (lv_rd a nc sls HR HL _ _ _ E) as (lv & Elv & RA & RR & RP & _).
      pose proof (N_gt sls _ _ _ E) as HN.
      pose proof (lin_suffix a nc sls HL _ _ E) as HL'. simpl in HL'. destruct HL' as (LA & LC & LC' & LR & LP & LT).
      unfold cinv_down at 1. rewrite Elv. cbn [bind]. rewrite (rd_ok _ _ []) by (rewrite (ok_rhs _ _ _ O); lia). cbn [bind].
      pose proof (okl_rhs _ _ _ O (length p) ltac:(lia)) as Lb. rewrite (sz_suffix nc sls p _ E) in Lb. simpl in Lb.
      destruct (set_rhs_ok nc sls true true w (length p) (lv_R lv (nth (length p) (w_rhs w) [])) O ltac:(lia)) as (w1 & S1 & O1 & V1 & F1 & _ & G1 & _).
      { rewrite (sz_next nc sls p l t E), RR. auto with len. }
      rewrite S1. cbn [bind].
      assert (E' : sls = (p ++ [l]) ++ t) by (rewrite <- app_assoc; exact E).
      destruct (IH (p ++ [l]) w1 E' O1) as (w2 & S2 & O2 & X2 & F2 & H2).
      rewrite app_length in S2, X2, F2, H2. simpl in S2, X2, F2, H2. rewrite Nat.add_1_r in S2, X2, F2, H2. rewrite S2. cbn [bind].
      unfold cinv_up. rewrite Elv. cbn [bind]. rewrite (rd_ok _ _ []) by (rewrite (ok_x _ _ _ O2); lia). cbn [bind].
      change (nth (S (length p)) (w_x w2) []) with (slx true w2 (S (length p))). rewrite X2, V1.
      destruct (set_x_ok nc sls true true w2 (length p) (lv_P lv (coarse_only crs t (lv_R lv (nth (length p) (w_rhs w) [])))) O2 ltac:(lia)) as (w3 & S3 & O3 & V3 & F3 & G3 & _).
      { rewrite (sz_suffix nc sls p _ E), RP, RR. simpl. apply (lin_len _ _ _ LP). apply coarse_only_len; auto with len. }
      rewrite S3. exists w3. split; [reflexivity|]. split; auto. split; [|split].
      + rewrite V3, RP, RR. simpl. unfold slb. rewrite Bool.andb_false_r. reflexivity.
      + intros j Hj. rewrite F3 by lia. rewrite F2 by lia. apply G1.
      + intros j Hj. rewrite G3, H2 by lia. apply F1. lia.
  Qed.
  Lemma CINV_ok inv x b w : ok w -> am_crs a = Some (Some inv) -> length x = n0 -> length b = n0 ->
    exists w', CINV a x b w = Ret (coarse_only inv sls b, w') /\ ok w' /\
      nth 0 (w_x w') [] = nth 0 (w_x w) [] /\ nth 0 (w_rhs w') [] = nth 0 (w_rhs w) [].
  Proof.
    intros O I Hx Hb. destruct AO as [HR HL]. assert (Ec : crs = inv) by (unfold coarse_solve; rewrite I; auto).
    unfold CINV. rewrite (rd_ok _ _ []) by (rewrite (ok_x _ _ _ O); lia). cbn [bind].
    rewrite (rd_ok _ _ []) by (rewrite (ok_rhs _ _ _ O); lia). cbn [bind].
    destruct (set_x_ok nc sls true true w 0 x O ltac:(lia) Hx) as (w1 & S1 & O1 & V1 & F1 & G1 & _). rewrite S1. cbn [bind].
    destruct (set_rhs0_ok w1 b O1 Hb) as (w2 & S2 & O2 & V2 & F2 & G2). rewrite S2. cbn [bind].
    rewrite (nlev a sls HR). replace (S (length sls) - 1) with (length sls) by lia.
    destruct (crun_ok sls [] w2 eq_refl O2) as (w3 & S3 & O3 & X3 & _ & _).
    rewrite Ec in S3. unfold crun in S3. simpl length in S3.
    destruct (foldM (cinv_down a) (seq 0 (length sls)) w2) as [w4|]; [|discriminate]. cbn [bind] in *.
    destruct (rd (w_rhs w4) (length sls)) as [bc|]; [|discriminate]. cbn [bind] in *. rewrite I.
    destruct (set_x true w4 (length sls) (inv bc)) as [w5|]; [|discriminate]. cbn [bind] in *.
    rewrite S3. cbn [bind]. rewrite (rd_ok _ _ []) by (rewrite (ok_x _ _ _ O3); lia). cbn [bind].
    change (nth 0 (w_x w3) []) with (slx true w3 0).
    destruct (set_x_ok nc sls true true w3 0 (nth 0 (w_x w) []) O3 ltac:(lia)) as (w6 & S6 & O6 & V6 & F6 & G6 & _).
    { apply O. lia. }
    rewrite S6. cbn [bind].
    destruct (set_rhs0_ok w6 (nth 0 (w_rhs w) []) O6) as (w7 & S7 & O7 & V7 & F7 & G7).
    { apply O. lia. }
    rewrite S7. cbn [bind]. exists w7. split.
    - simpl in X3. rewrite X3, V2, Ec. reflexivity.
    - split; auto. split.
      + change (slx true w7 0 = nth 0 (w_x w) []). rewrite F7. exact V6.
      + exact V7.
  Qed.

  (** *** histories of calls on one AMGMatrix *)
  Inductive call := CMult (b x : vec) | CMultAdd (s : K) (b x : vec) | CCinv (x b : vec).
  Definition call_ok (c : call) : Prop :=
    match c with
    | CMult b x => length b = n0 /\ length x = n0
    | CMultAdd _ b x => length b = n0 /\ length x = n0
    | CCinv x b => length x = n0 /\ length b = n0 /\ exists inv, am_crs a = Some (Some inv)
    end.
  Definition do_call (w : wspace B) (c : call) : res (wspace B) :=
    match c with
    | CMult b x => ' p <- Mult a b x w ;; Ret (snd p)
    | CMultAdd s b x => ' p <- MultAdd a s b x w ;; Ret (snd p)
    | CCinv x b => ' p <- CINV a x b w ;; Ret (snd p)
    end.
  Lemma calls_ok cs : Forall call_ok cs -> am_vwb a <= 2 -> 1 <= length sls -> forall w, ok w ->
    exists w', foldM do_call cs w = Ret w' /\ ok w'.
  Proof.
    intros H V N. induction H as [|c cs Hc _ IH]; intros w O; simpl; [eauto|].
    destruct c as [b x|s b x|x b]; simpl in *.
    - destruct (Mult_ok b x w O V N) as (w' & E & O'); try tauto. rewrite E. simpl. auto.
    - destruct (MultAdd_ok s b x w O V N) as (w' & E & O'); try tauto. rewrite E. simpl. auto.
    - destruct Hc as (? & ? & inv & I). destruct (CINV_ok inv x b w O I) as (w' & E & O' & _); try tauto. rewrite E. simpl. auto.
  Qed.

  (** *** EmbeddedAMGMatrix *)
  Lemma EmbMult_ok nf Af Cf Cf' e b x er w : em_clm e = a -> ok w -> am_vwb a <= 2 ->
    (1 <= length sls \/ am_vwb a <> 1) ->
    lin nf nf Af -> lin nf nf Cf -> lin nf nf Cf' -> lin nf n0 (em_R e) -> lin n0 nf (em_P e) ->
    match em_fls e with
    | Some (fw, bw) => smoother_contract nf Af Cf fw /\ smoother_contract nf Af Cf' bw
    | None => True end ->
    length b = nf -> length x = nf -> length er = nf ->
    exists er' w', EmbMult e b x er w = Ret (
       match em_fls e with
       | Some _ => let x1 := step Af Cf (vzero nf) b in
                   let x2 := x1 +v em_P e (op_of (am_vwb a) (em_R e (b -v Af x1))) in
                   step Af Cf' x2 b
       | None => em_P e (op_of 0 (em_R e b))
       end, er', w') /\ length er' = nf /\ ok w'.
  Proof.
    intros Ee O V H LA LC LC' LR LP FL Hb Hx He. unfold EmbMult. rewrite Ee.
    destruct (em_fls e) as [[fw bw]|].
    - destruct FL as [F1 F2]. unfold set_zero. rewrite Hx.
      specialize (F1 (vzero nf) b b true true true).
      destruct (fw (vzero nf) b b true true true) as [x1 r1].
      destruct F1 as (Ex1 & Lr1 & Er1).
      { repeat split; auto with len. intros _. unfold residual. rewrite (lin_zero L _ _ _ LA). symmetry. apply (vsub_zero L); auto. }
      specialize (Er1 eq_refl).
      destruct (set_rhs0_ok w (em_R e r1) O) as (w1 & S1 & O1 & V1 & _). { auto with len. }
      rewrite S1. cbn [bind].
      destruct (Smooth_ok true true w1 O1 V) as (w2 & S2 & O2 & X2 & _). { destruct H; auto. }
      rewrite S2. cbn [bind]. rewrite (rd_ok _ _ []) by (rewrite (ok_x _ _ _ O2); lia). cbn [bind].
      change (nth 0 (w_x w2) []) with (slx true w2 0). rewrite X2, V1.
      assert (Lx1 : length x1 = nf) by (rewrite Ex1; unfold residual; auto 8 with len).
      assert (Lc : length (op_of (am_vwb a) (em_R e r1)) = n0).
      { pose proof (op_lin (am_vwb a)) as LO. apply (lin_len _ _ _ LO). auto with len. }
      specialize (F2 (x1 +v em_P e (op_of (am_vwb a) (em_R e r1))) b r1 false false false).
      destruct (bw _ b r1 false false false) as [x2 r2].
      destruct F2 as (Ex2 & Lr2 & _). { repeat split; auto with len; congruence. }
      exists r2, w2. split; [|split; auto]. f_equal. f_equal. f_equal. rewrite Ex2. unfold step, residual in *. rewrite Er1, Ex1. reflexivity.
    - destruct (set_rhs0_ok w (em_R e b) O) as (w1 & S1 & O1 & V1 & _). { auto with len. }
      rewrite S1. cbn [bind]. destruct AO as [HR HL].
      destruct (SmoothV_ok L a nc sls HR HL true true w1 O1) as (w2 & S2 & O2 & X2 & _). { auto. }
      rewrite S2. cbn [bind]. rewrite (rd_ok _ _ []) by (rewrite (ok_x _ _ _ O2); lia). cbn [bind].
      change (nth 0 (w_x w2) []) with (slx true w2 0). rewrite X2, V1.
      exists er, w2. split; [|split; auto]. simpl op_of. rewrite (vcycle_op0 L) by auto with len. reflexivity.
  Qed.
End Top.
