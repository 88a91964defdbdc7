(** Properties C25-C29, C57-C59: the multigrid cycles of AMGMatrix, EmbeddedAMGMatrix and AMGSmoother. *)
From Verif Require Import Base AGroup LinAlg LinTools GSSpec GSModel GSProofs GSProofs2 Instances GSProps.
From Verif Require Import AMGSpec AMGModel AMGInput AMGProofs AMGProofs2 AMGProofs3.
From Coq Require Import QArith Qcanon.
Open Scope nat_scope.

(** The textbook cycle selected by AMGMatrix::SetVWB *)
Definition textbook {B : Blk} (vwb nc : nat) (c : list (X B) -> list (X B)) (ls : list (slevel B)) (x b : list (X B)) : list (X B) :=
  match vwb with 0 => vcycle nc c ls x b | 1 => wcycle nc c ls x b | _ => bscycle nc c ls x b end.
Lemma textbook_op {B : Blk} (L : BlkLaws B) (a : AMGMatrix B) nc (sls : list (slevel B)) v (b : list (X B)) : amg_ok a nc sls -> length b = topsize nc sls ->
  textbook v nc (coarse_solve a nc) sls (vzero (topsize nc sls)) b = op_of a nc sls v b.
Proof. intros AO H. rewrite <- (cycle_op L a nc sls AO v b H). destruct v as [|[|v]]; reflexivity. Qed.

(** C28: whatever is in the work vectors, Mult returns the textbook V-, W- or BS-cycle from x = 0, for every hierarchy
    with at least two levels and every kind of smoother that honours the contract. *)
Theorem C28_mult_is_textbook_cycle :
  forall (B : Blk) (L : BlkLaws B) (a : AMGMatrix B) nc (ls : list (slevel B)) b x w,
  amg_ok a nc ls -> ws_ok nc ls w -> 1 <= length ls -> am_vwb a <= 2 ->
  length b = topsize nc ls -> length x = topsize nc ls ->
  exists w', Mult a b x w = Ret (textbook (am_vwb a) nc (coarse_solve a nc) ls (vzero (topsize nc ls)) b, w') /\ ws_ok nc ls w'.
Proof.
  intros B L a nc ls b x w AO O N V Hb Hx. rewrite (textbook_op L) by auto. apply (Mult_ok L a nc ls AO b x w); auto.
Qed.
Print Assumptions C28_mult_is_textbook_cycle.

(** C28 for SmoothVFromLevel: it is the textbook V-cycle of the levels from [start] on, with the caller's start value,
    for all flag combinations, and it hands back the true residual when asked to. *)
Theorem C28_v_cycle_from_level :
  forall (B : Blk) (L : BlkLaws B) (a : AMGMatrix B) nc (fine : list (slevel B)) l (coarse : list (slevel B)) x b res res_updated update_res x_zero w,
  amg_ok a nc (fine ++ l :: coarse) -> ws_ok nc (fine ++ l :: coarse) w ->
  flags_ok (sl_n l) (sl_A l) x b res res_updated x_zero ->
  exists x' res' w', SmoothVFromLevel a (length fine) x b res res_updated update_res x_zero w = Ret (x', res', w') /\
    x' = vcycle nc (coarse_solve a nc) (l :: coarse) x b /\
    (update_res = true -> res' = b -v sl_A l x') /\ ws_ok nc (fine ++ l :: coarse) w'.
Proof.
  intros B L a nc p l t x b r ru ur xz w [HR HL] O F.
  destruct (SmoothVFromLevel_ok L a nc (p ++ l :: t) HR HL true true p l t w x b r ru ur xz eq_refl O F)
    as (x' & r' & w' & E & O' & X & Lr & R & _).
  exists x', r', w'. auto.
Qed.
Print Assumptions C28_v_cycle_from_level.

(** C25: the map b -> x of one Mult is linear *)
Theorem C25_cycle_is_linear :
  forall (B : Blk) (L : BlkLaws B) (a : AMGMatrix B) nc (ls : list (slevel B)),
  amg_ok a nc ls -> 1 <= length ls -> am_vwb a <= 2 ->
  exists f, lin (topsize nc ls) (topsize nc ls) f /\
    forall b x w, ws_ok nc ls w -> length b = topsize nc ls -> length x = topsize nc ls ->
      exists w', Mult a b x w = Ret (f b, w') /\ ws_ok nc ls w'.
Proof.
  intros B L a nc ls AO N V. exists (op_of a nc ls (am_vwb a)). split; [apply (op_lin L); auto|].
  intros b x w O Hb Hx. apply (Mult_ok L); auto.
Qed.
Print Assumptions C25_cycle_is_linear.

(** C26: <Mult b1, b2> = <b1, Mult b2> -- for the V-cycle and also for the W- and BS-cycle *)
Theorem C26_cycle_is_symmetric :
  forall (B : Blk) (L : BlkLaws B) (a : AMGMatrix B) nc (ls : list (slevel B)) b1 b2 x1 x2 w1 w2,
  amg_ok a nc ls -> symmetric_levels nc (coarse_solve a nc) ls -> 1 <= length ls -> am_vwb a <= 2 ->
  ws_ok nc ls w1 -> ws_ok nc ls w2 ->
  length b1 = topsize nc ls -> length x1 = topsize nc ls -> length b2 = topsize nc ls -> length x2 = topsize nc ls ->
  exists y1 y2 w1' w2', Mult a b1 x1 w1 = Ret (y1, w1') /\ Mult a b2 x2 w2 = Ret (y2, w2') /\ vdot y1 b2 = vdot b1 y2.
Proof.
  intros B L a nc ls b1 b2 x1 x2 w1 w2 AO S N V O1 O2 Hb1 Hx1 Hb2 Hx2.
  destruct (Mult_ok L a nc ls AO b1 x1 w1) as (w1' & E1 & _); auto.
  destruct (Mult_ok L a nc ls AO b2 x2 w2) as (w2' & E2 & _); auto.
  exists (op_of a nc ls (am_vwb a) b1), (op_of a nc ls (am_vwb a) b2), w1', w2'. split; auto. split; auto.
  pose proof (ao_lin _ _ _ AO) as HL.
  destruct (am_vwb a) as [|[|v]]; simpl; [apply (vop_adj L nc)|apply (wop_adj L nc)|apply (bop_adj L nc)]; auto.
Qed.
Print Assumptions C26_cycle_is_symmetric.

(** The coarse solve is exact for a symmetric positive semidefinite coarse matrix, or there is none (zero). *)
Definition coarse_exact {B : Blk} (le : K B -> K B -> Prop) (nc : nat) (Ac c : list (X B) -> list (X B)) : Prop :=
  (adj nc nc Ac Ac /\ (forall r, length r = nc -> Ac (c r) = r) /\ (forall x, length x = nc -> le k0 (vdot (Ac x) x)))
  \/ (forall r, length r = nc -> c r = vzero nc).

(** C27: a stationary iteration x <- x + Mult(b - A x) never increases the energy, for the V-, W- and BS-cycle *)
Theorem C27_energy_never_increases :
  forall (B : Blk) (L : BlkLaws B) (le : K B -> K B -> Prop) (KO : KOrder le) (a : AMGMatrix B) nc l (ls : list (slevel B)) Ac x b y w,
  amg_ok a nc (l :: ls) -> symmetric_levels nc (coarse_solve a nc) (l :: ls) -> am_vwb a <= 2 ->
  lin nc nc Ac -> galerkin_levels nc Ac (l :: ls) -> smoothers_no_increase le (l :: ls) -> coarse_exact le nc Ac (coarse_solve a nc) ->
  ws_ok nc (l :: ls) w -> length x = sl_n l -> length b = sl_n l -> length y = sl_n l ->
  exists z w', Mult a (b -v sl_A l x) y w = Ret (z, w') /\
    le (energy (sl_A l) b (x +v z)) (energy (sl_A l) b x).
Proof.
  intros B L le KO a nc l ls Ac x b y w AO S V LAc G SM CE O Hx Hb Hy.
  pose proof (ao_lin _ _ _ AO) as HL.
  assert (LA : lin (sl_n l) (sl_n l) (sl_A l)) by (simpl in HL; tauto).
  destruct (Mult_ok L a nc (l :: ls) AO (b -v sl_A l x) y w) as (w' & E & _); auto. { simpl; lia. } { simpl; auto with len. }
  eexists; eexists; split; [exact E|].
  assert (NC : no_increase le nc Ac (coarse_solve a nc)).
  { assert (LC : lin nc nc (coarse_solve a nc)). { clear - HL. revert HL. generalize (l :: ls). induction l0; simpl; tauto. }
    destruct CE as [(A1 & A2 & A3)|Z]; [apply (exact_no_increase L nc _ le KO); auto|apply (zero_no_increase L nc _ le KO); auto]. }
  destruct (am_vwb a) as [|[|v]]; simpl op_of.
  - apply (vop_energy L nc _ le KO Ac (l :: ls)); auto.
  - apply (wop_energy L nc _ le KO Ac (l :: ls)); auto.
  - apply (bop_energy L nc _ le KO Ac (l :: ls)); auto.
Qed.
Print Assumptions C27_energy_never_increases.

(** C27, consequence used by CG: the preconditioner is positive semidefinite, 0 <= 2 <b, Mult b> *)
Theorem C27_preconditioner_positive :
  forall (B : Blk) (L : BlkLaws B) (le : K B -> K B -> Prop) (KO : KOrder le) (a : AMGMatrix B) nc l (ls : list (slevel B)) Ac b y w,
  amg_ok a nc (l :: ls) -> symmetric_levels nc (coarse_solve a nc) (l :: ls) -> am_vwb a <= 2 ->
  lin nc nc Ac -> galerkin_levels nc Ac (l :: ls) -> smoothers_no_increase le (l :: ls) -> coarse_exact le nc Ac (coarse_solve a nc) ->
  (forall x, length x = sl_n l -> le k0 (vdot (sl_A l x) x)) ->
  ws_ok nc (l :: ls) w -> length b = sl_n l -> length y = sl_n l ->
  exists z w', Mult a b y w = Ret (z, w') /\ le k0 (kadd (vdot b z) (vdot b z)).
Proof.
  intros B L le KO a nc l ls Ac b y w AO S V LAc G SM CE PS O Hb Hy.
  pose proof (ao_lin _ _ _ AO) as HL.
  assert (LA : lin (sl_n l) (sl_n l) (sl_A l)) by (simpl in HL; tauto).
  destruct (C27_energy_never_increases B L le KO a nc l ls Ac (vzero (sl_n l)) b y w) as (z & w' & E & H); auto with len.
  rewrite (lin_zero L _ _ _ LA), (vsub_zero L) in E by auto. exists z, w'. split; auto.
  destruct (Mult_ok L a nc (l :: ls) AO b y w) as (w'' & E' & _); auto. { simpl; lia. }
  assert (Lz : length z = sl_n l).
  { rewrite E in E'. inversion E'. apply (lin_len _ _ _ (op_lin L a nc (l :: ls) AO (am_vwb a))). auto. }
  rewrite (vzero_add L) in H by auto. rewrite (energy_0 L (sl_n l)) in H by auto.
  pose proof (ko_add _ KO _ _ (kadd (vdot b z) (vdot b z)) H) as H'. unfold energy in H'.
  destruct (lawK B L). unfold ksub in H'.
  rewrite <- Radd_assoc, (Radd_comm (kopp _)), Ropp_def, (Radd_comm (vdot (sl_A l z) z)), !Radd_0_l in H'.
  eapply (ko_trans _ KO); [apply PS; exact Lz|exact H'].
Qed.
Print Assumptions C27_preconditioner_positive.

(** C29: after any history of calls on the same AMGMatrix, MultAdd(s,b,x) gives x + s * (the textbook cycle of b) and
    Mult gives the textbook cycle: no call sees anything an earlier call left in the work vectors. *)
Theorem C29_history_independent :
  forall (B : Blk) (L : BlkLaws B) (a : AMGMatrix B) nc (ls : list (slevel B)) w0 calls s b x,
  amg_ok a nc ls -> ws_ok nc ls w0 -> 1 <= length ls -> am_vwb a <= 2 ->
  Forall (call_ok a nc ls) calls -> length b = topsize nc ls -> length x = topsize nc ls ->
  exists w w1 w2, foldM (do_call a) calls w0 = Ret w /\
    Mult a b x w = Ret (textbook (am_vwb a) nc (coarse_solve a nc) ls (vzero (topsize nc ls)) b, w1) /\
    MultAdd a s b x w = Ret (x +v vsc s (textbook (am_vwb a) nc (coarse_solve a nc) ls (vzero (topsize nc ls)) b), w2).
Proof.
  intros B L a nc ls w0 cs s b x AO O N V C Hb Hx. rewrite (textbook_op L) by auto.
  destruct (calls_ok L a nc ls AO cs C V N w0 O) as (w & E & O').
  destruct (Mult_ok L a nc ls AO b x w) as (w1 & E1 & _); auto.
  destruct (MultAdd_ok L a nc ls AO s b x w) as (w2 & E2 & _); auto.
  exists w, w1, w2. auto.
Qed.
Print Assumptions C29_history_independent.

(** C29 does not hold for a hierarchy with a single level: Mult leaves x as it is (the coarse solution ends up in the
    internal x_level[0], computed from the internal rhs_level[0]), and MultAdd adds the coarse solve of stale data. *)
Definition one_level : AMGMatrix QcBlk := mkAMG (B:=QcBlk) [] (Some (Some (fun r => r))) 0.
Definition one_ws : wspace QcBlk := mkWS (B:=QcBlk) [[qc 0]] [[qc 5]] [[qc 0]] [qc 0] [qc 0].
Theorem C29_single_level_refuted :
  amg_ok one_level 1 [] /\ ws_ok 1 [] one_ws /\
  (exists w', Mult one_level [qc 1] [qc 0] one_ws = Ret ([qc 0], w')) /\
  (exists w', MultAdd one_level (qc 1) [qc 1] [qc 0] one_ws = Ret ([qc 5], w')) /\
  textbook 0 1 (coarse_solve one_level 1) [] (vzero 1) [qc 1] = [qc 1].
Proof.
  split; [|split; [|split; [|split]]].
  - split; [constructor|]. simpl. apply (lin_id 1).
  - split; simpl; auto; intros [|l] Hl; simpl; auto; lia.
  - eexists. reflexivity.
  - eexists. unfold MultAdd. simpl. repeat f_equal.
  - reflexivity.
Qed.
Print Assumptions C29_single_level_refuted.
(** ... and for such a hierarchy the W-cycle accesses level arrays out of bounds *)
Theorem C29_single_level_w_refuted :
  SmoothW (mkAMG (B:=QcBlk) [] (Some (Some (fun r => r))) 1) false false one_ws = Err OutOfBounds.
Proof. reflexivity. Qed.
Print Assumptions C29_single_level_w_refuted.

(** C57: CINV(x, b) restricts b to the coarsest level, applies the coarse inverse and prolongates back (any number of
    levels), and leaves the level-0 work vectors as they were. *)
Theorem C57_cinv :
  forall (B : Blk) (a : AMGMatrix B) nc (ls : list (slevel B)) inv x b w,
  amg_ok a nc ls -> ws_ok nc ls w -> am_crs a = Some (Some inv) -> length x = topsize nc ls -> length b = topsize nc ls ->
  exists w', CINV a x b w = Ret (coarse_only inv ls b, w') /\ ws_ok nc ls w' /\
    nth 0 (w_x w') [] = nth 0 (w_x w) [] /\ nth 0 (w_rhs w') [] = nth 0 (w_rhs w) [].
Proof. intros B a nc ls inv x b w AO O I Hx Hb. apply (CINV_ok a nc ls AO inv x b w); auto. Qed.
Print Assumptions C57_cinv.

(** C58: the AMG matrix used as a smoother.  singleFLS = false: one V-cycle from the start level in both directions;
    singleFLS = true: coarse correction then pre-smoothing, resp. post-smoothing then coarse correction, and SmoothBack
    is the adjoint of Smooth. *)
Definition as_contract {B : Blk} (n : nat) (A : list (X B) -> list (X B)) nc ls (C : list (X B) -> list (X B))
  (f : list (X B) -> list (X B) -> list (X B) -> bool -> bool -> bool -> wspace B -> res (list (X B) * list (X B) * wspace B)) : Prop :=
  forall x b r ru ur xz w, flags_ok n A x b r ru xz -> ws_ok nc ls w ->
    exists x' r' w', f x b r ru ur xz w = Ret (x', r', w') /\ ws_ok nc ls w' /\
      x' = x +v C (b -v A x) /\ (ur = true -> r' = b -v A x').
Theorem C58_amg_smoother :
  forall (B : Blk) (L : BlkLaws B) (a : AMGMatrix B) nc (fine : list (slevel B)) l (coarse : list (slevel B)),
  let ls := fine ++ l :: coarse in
  amg_ok a nc ls -> symmetric_levels nc (coarse_solve a nc) ls -> 
  forall single, (single = true -> coarse <> []) ->
  exists C C', lin (sl_n l) (sl_n l) C /\ lin (sl_n l) (sl_n l) C' /\ adj (sl_n l) (sl_n l) C C' /\
    as_contract (sl_n l) (sl_A l) nc ls C (as_smooth (mkAS a (length fine) single)) /\
    as_contract (sl_n l) (sl_A l) nc ls C' (as_smooth_back (mkAS a (length fine) single)).
Proof.
  intros B L a nc fine l coarse ls AO S single Hs. destruct AO as [HR HL].
  assert (HL1 : linear_levels nc (coarse_solve a nc) (l :: coarse)) by (apply (lin_suffix a nc ls HL fine (l :: coarse)); auto).
  assert (HS1 : symmetric_levels nc (coarse_solve a nc) (l :: coarse)).
  { clear - S. unfold ls in S. induction fine; simpl in *; [exact S|]. apply IHfine. tauto. }
  destruct single.
  - specialize (Hs eq_refl). destruct coarse as [|u t]; [congruence|].
    pose proof HL1 as (LA & LC & LC' & LR & LP & LT). pose proof HS1 as (SA & SC & SR & ST).
    assert (LT' : linear_levels nc (coarse_solve a nc) (u :: t)) by exact LT.
    pose proof (vop_lin L nc _ _ LT') as HV. pose proof (vop_adj L nc _ _ LT' ST) as HVA.
    simpl topsize in *.
    pose proof (cgc_lin l _ _ LR LP HV) as LG.
    pose proof (cgc_adj L l _ _ LR LP HV SR HVA) as SG.
    exists (then_op (sl_A l) (cgc l (vop (coarse_solve a nc) (u :: t))) (sl_C l)), (then_op (sl_A l) (sl_C' l) (cgc l (vop (coarse_solve a nc) (u :: t)))).
    split; [apply (lin_then L); auto|]. split; [apply (lin_then L); auto|]. split; [apply (adj_then L); auto|].
    assert (EV : forall b0, length b0 = sl_n u -> vcycle nc (coarse_solve a nc) (u :: t) (vzero (sl_n u)) b0 = vop (coarse_solve a nc) (u :: t) b0).
    { intros b0 Hb0. apply (vcycle_op0 L nc _ (u :: t)); auto. }
    split; intros x b r ru ur xz w F O; pose proof F as (Hx & Hb & Hr & _).
    + destruct (as_smooth_ok L a nc ls HR HL true true fine l u t w x b r ru ur xz eq_refl O F) as (x' & r' & w' & E & O' & X & _ & R).
      exists x', r', w'. split; auto. split; auto. split; auto.
      rewrite X. rewrite EV by (apply (lin_len _ _ _ LR); auto with len).
      change (x +v sl_P l (vop (coarse_solve a nc) (u :: t) (sl_R l (b -v sl_A l x)))) with (step (sl_A l) (cgc l (vop (coarse_solve a nc) (u :: t))) x b).
      rewrite (step_then L (sl_n l)) by auto. reflexivity.
    + destruct (as_smooth_back_ok L a nc ls HR HL true true fine l u t w x b r ru ur xz eq_refl O F) as (x' & r' & w' & E & O' & X & _ & R).
      exists x', r', w'. split; auto. split; auto. split; auto.
      rewrite X. cbv zeta. rewrite EV. 2:{ apply (lin_len _ _ _ LR). apply len_sub; auto. apply (lin_len _ _ _ LA). apply step_len; auto. }
      change (step (sl_A l) (cgc l (vop (coarse_solve a nc) (u :: t))) (step (sl_A l) (sl_C' l) x b) b = x +v then_op (sl_A l) (sl_C' l) (cgc l (vop (coarse_solve a nc) (u :: t))) (b -v sl_A l x)).
      rewrite (step_then L (sl_n l)) by auto. reflexivity.
  - exists (vop (coarse_solve a nc) (l :: coarse)), (vop (coarse_solve a nc) (l :: coarse)).
    pose proof (vop_lin L nc _ _ HL1) as HV. split; [exact HV|]. split; [exact HV|]. split; [apply (vop_adj L nc _ (l :: coarse)); auto|].
    split; intros x b r ru ur xz w F O; pose proof F as (Hx & Hb & Hr & _);
      destruct (SmoothVFromLevel_ok L a nc ls HR HL true true fine l coarse w x b r ru ur xz eq_refl O F) as (x' & r' & w' & E & O' & X & _ & R & _);
      exists x', r', w'; (split; [exact E|split; [auto|split; [|auto]]]); rewrite X, (vcycle_op L nc) by auto; reflexivity.
Qed.
Print Assumptions C58_amg_smoother.

(** With singleFLS and the second coarsest level as start level the code runs past the end of the smoother array. *)
Theorem C58_single_on_last_level_refuted :
  forall (B : Blk) (a : AMGMatrix B) nc (fine : list (slevel B)) l x b res ru ur xz w,
  amg_ok a nc (fine ++ [l]) -> ws_ok nc (fine ++ [l]) w -> length res = sl_n l -> (ru = true) ->
  as_smooth (mkAS a (length fine) true) x b res ru ur xz w = Err OutOfBounds.
Proof.
  intros B a nc fine l x b res ru ur xz w [HR HL] O Hr ->.
  destruct (lv_rd a nc _ HR HL fine l [] eq_refl) as (lv & Elv & RA & RR & RP & _).
  unfold as_smooth. cbn [as_amg as_start as_single]. rewrite Elv. cbn [bind].
  rewrite (nlev a _ HR). rewrite app_length. simpl length.
  destruct (Nat.ltb_spec (length fine) (S (length fine + 1))); [|lia].
  pose proof (lin_suffix a nc _ HL fine [l] eq_refl) as (LA & LC & LC' & LR & LP & LT).
  destruct (set_rhs_ok nc (fine ++ [l]) true true w (length fine) (lv_R lv res) O) as (w1 & S1 & O1 & _).
  { rewrite app_length; simpl; lia. }
  { rewrite (sz_next nc _ fine l [] eq_refl), RR. apply (lin_len _ _ _ LR). auto. }
  rewrite S1. cbn [bind].
  rewrite (rd_ok (w_x w1) _ []) by (rewrite (ok_x _ _ _ O1), app_length; simpl; lia). cbn [bind].
  rewrite (rd_ok (w_rhs w1) _ []) by (rewrite (ok_rhs _ _ _ O1), app_length; simpl; lia). cbn [bind].
  rewrite (rd_ok (w_res w1) _ []) by (rewrite (ok_res _ _ _ O1), app_length; simpl; lia). cbn [bind].
  unfold SmoothVFromLevel, rd. destruct (nth_error (am_levels a) (S (length fine))) eqn:E; [|reflexivity].
  assert (H1 : S (length fine) < length (am_levels a)) by (apply nth_error_Some; congruence).
  rewrite (len_levels a _ HR), app_length in H1. simpl in H1. lia.
Qed.
Print Assumptions C58_single_on_last_level_refuted.

(** C59: the embedded AMG matrix (finest-level smoother + embedding).  With a finest-level smoother Mult is
    pre-smoothing, coarse correction with the cycle of the inner AMG matrix, post-smoothing; without one it is
    E . V-cycle . E^T -- ALWAYS the V-cycle, whatever cycle was selected.  This also holds for an
    inner hierarchy with a single level. *)
Theorem C59_embedded_mult :
  forall (B : Blk) (L : BlkLaws B) (e : EmbeddedAMGMatrix B) nc (ls : list (slevel B)) nf Af Cf Cf' b x er w,
  let a := em_clm e in
  amg_ok a nc ls -> ws_ok nc ls w -> am_vwb a <= 2 -> (1 <= length ls \/ am_vwb a <> 1) ->
  lin nf nf Af -> lin nf nf Cf -> lin nf nf Cf' -> lin nf (topsize nc ls) (em_R e) -> lin (topsize nc ls) nf (em_P e) ->
  match em_fls e with Some (fw, bw) => smoother_contract nf Af Cf fw /\ smoother_contract nf Af Cf' bw | None => True end ->
  length b = nf -> length x = nf -> length er = nf ->
  exists er' w', EmbMult e b x er w = Ret (
       match em_fls e with
       | Some _ => let x1 := Cf b in
                   let x2 := x1 +v em_P e (textbook (am_vwb a) nc (coarse_solve a nc) ls (vzero (topsize nc ls)) (em_R e (b -v Af x1))) in
                   x2 +v Cf' (b -v Af x2)
       | None => em_P e (vcycle nc (coarse_solve a nc) ls (vzero (topsize nc ls)) (em_R e b))
       end, er', w') /\ length er' = nf /\ ws_ok nc ls w'.
Proof.
  intros B L e nc ls nf Af Cf Cf' b x er w a AO O V N LA LC LC' LR LP F Hb Hx He.
  destruct (EmbMult_ok L a nc ls AO nf Af Cf Cf' e b x er w eq_refl O V N LA LC LC' LR LP F Hb Hx He) as (er' & w' & E & R).
  exists er', w'. split; auto. rewrite E. f_equal. f_equal. f_equal.
  destruct (em_fls e) as [p|].
  - cbv zeta. rewrite (step_0 L nf) by auto. unfold step. rewrite (textbook_op L) by (auto; apply (lin_len _ _ _ LR); auto with len). reflexivity.
  - rewrite (vcycle_op0 L) by (try apply AO; apply (lin_len _ _ _ LR); auto). reflexivity.
Qed.
Print Assumptions C59_embedded_mult.
(** ... and this result is a symmetric linear operator of b if A_f is symmetric, the two finest-level smoothers are adjoint,
    the restriction is the transposed embedding and the inner hierarchy is symmetric *)
Theorem C59_embedded_symmetric :
  forall (B : Blk) (L : BlkLaws B) (e : EmbeddedAMGMatrix B) nc (ls : list (slevel B)) nf Af Cf Cf',
  let a := em_clm e in
  amg_ok a nc ls -> symmetric_levels nc (coarse_solve a nc) ls -> am_vwb a <= 2 -> (1 <= length ls \/ am_vwb a <> 1) ->
  lin nf nf Af -> lin nf nf Cf -> lin nf nf Cf' -> lin nf (topsize nc ls) (em_R e) -> lin (topsize nc ls) nf (em_P e) ->
  adj nf nf Af Af -> adj nf nf Cf Cf' -> adj nf (topsize nc ls) (em_R e) (em_P e) ->
  match em_fls e with Some (fw, bw) => smoother_contract nf Af Cf fw /\ smoother_contract nf Af Cf' bw | None => True end ->
  exists f, lin nf nf f /\ adj nf nf f f /\
    forall b x er w, ws_ok nc ls w -> length b = nf -> length x = nf -> length er = nf ->
      exists er' w', EmbMult e b x er w = Ret (f b, er', w') /\ ws_ok nc ls w'.
Proof.
  intros B L e nc ls nf Af Cf Cf' a AO SL V N LA LC LC' LR LP SA SC SR F.
  pose proof (C59_embedded_mult B L e nc ls nf Af Cf Cf') as EM. cbv zeta in EM. fold a in EM.
  pose proof (ao_lin _ _ _ AO) as HL.
  set (lf := mkSL (B:=B) nf Af Cf Cf' (em_R e) (em_P e)).
  assert (OL := op_lin L a nc ls AO). 
  assert (OA : forall v, adj (topsize nc ls) (topsize nc ls) (op_of a nc ls v) (op_of a nc ls v)).
  { intros v. destruct v as [|[|v]]; cbn [op_of]; [apply (vop_adj L nc _ ls)|apply (wop_adj L nc _ ls)|apply (bop_adj L nc _ ls)]; auto. }
  destruct (em_fls e) as [[fw bw]|].
  - pose proof (cgc_lin lf _ (op_of a nc ls (am_vwb a)) LR LP (OL _)) as LG.
    pose proof (cgc_adj L lf _ (op_of a nc ls (am_vwb a)) LR LP (OL _) SR (OA _)) as SG.
    simpl sl_n in LG, SG.
    exists (then_op Af (then_op Af Cf (cgc lf (op_of a nc ls (am_vwb a)))) Cf').
    split; [apply (lin_then L); auto; apply (lin_then L); auto|]. split; [apply (sandwich_adj L nf Af Cf _ Cf'); auto|].
    intros b x er w O Hb Hx He. destruct (EM b x er w AO O V N LA LC LC' LR LP F Hb Hx He) as (er' & w' & E & _ & O').
    exists er', w'. split; auto. rewrite E. repeat f_equal.
    rewrite (textbook_op L) by (auto; apply (lin_len _ _ _ LR); auto with len).
    set (G := cgc lf (op_of a nc ls (am_vwb a))).
    change (step Af Cf' (step Af G (Cf b) b) b = then_op Af (then_op Af Cf G) Cf' b).
    rewrite <- (step_0 L nf Af Cf b) by auto.
    rewrite (step_then L nf Af Cf G) by (auto with len).
    rewrite (step_then L nf Af (then_op Af Cf G) Cf') by (auto with len; apply (lin_then L); auto).
    rewrite (step_0 L nf) by (auto; repeat apply (lin_then L); auto). reflexivity.
  - exists (cgc lf (op_of a nc ls 0)). split; [apply (cgc_lin lf (topsize nc ls)); auto; apply OL|].
    split; [apply (cgc_adj L lf (topsize nc ls)); auto; apply OL|].
    intros b x er w O Hb Hx He. destruct (EM b x er w AO O V N LA LC LC' LR LP F Hb Hx He) as (er' & w' & E & _ & O').
    exists er', w'. split; auto. rewrite E. repeat f_equal. unfold cgc. simpl.
    rewrite (vcycle_op0 L) by (auto; apply (lin_len _ _ _ LR); auto). reflexivity.
Qed.
Print Assumptions C59_embedded_symmetric.
(** EmbeddedAMGMatrix::MultAdd adds s times the same vector, with any content of its buffer *)
Theorem C59_embedded_multadd :
  forall (B : Blk) (L : BlkLaws B) (e : EmbeddedAMGMatrix B) nc (ls : list (slevel B)) nf Af Cf Cf' s b x xbuf er w,
  let a := em_clm e in
  amg_ok a nc ls -> ws_ok nc ls w -> am_vwb a <= 2 -> (1 <= length ls \/ am_vwb a <> 1) ->
  lin nf nf Af -> lin nf nf Cf -> lin nf nf Cf' -> lin nf (topsize nc ls) (em_R e) -> lin (topsize nc ls) nf (em_P e) ->
  match em_fls e with Some (fw, bw) => smoother_contract nf Af Cf fw /\ smoother_contract nf Af Cf' bw | None => True end ->
  length b = nf -> length x = nf -> length xbuf = nf -> length er = nf ->
  exists xbuf' er' w', EmbMultAdd e s b x xbuf er w = Ret (x +v vsc s (
       match em_fls e with
       | Some _ => let x1 := Cf b in
                   let x2 := x1 +v em_P e (textbook (am_vwb a) nc (coarse_solve a nc) ls (vzero (topsize nc ls)) (em_R e (b -v Af x1))) in
                   x2 +v Cf' (b -v Af x2)
       | None => em_P e (vcycle nc (coarse_solve a nc) ls (vzero (topsize nc ls)) (em_R e b))
       end), xbuf', er', w') /\ ws_ok nc ls w'.
Proof.
  intros B L e nc ls nf Af Cf Cf' s b x xbuf er w a AO O V N LA LC LC' LR LP F Hb Hx Hxb He.
  destruct (C59_embedded_mult B L e nc ls nf Af Cf Cf' b xbuf er w AO O V N LA LC LC' LR LP F Hb Hxb He) as (er' & w' & E & _ & O').
  eexists; exists er', w'. split; [|exact O']. unfold EmbMultAdd. rewrite E. cbn [bind]. reflexivity.
Qed.
Print Assumptions C59_embedded_multadd.

(** *** End to end: AMG with Gauss-Seidel smoothers on every level.
    A level: sparse matrix A, free dofs, prolongation P and its transpose PT. *)
Record gs_level (B : Blk) := mkGL { q_A : @spmat B; q_free : option (list bool); q_P : @spmat B; q_PT : @spmat B }.
Arguments q_A {B}. Arguments q_free {B}. Arguments q_P {B}. Arguments q_PT {B}. Arguments mkGL {B}.
Definition gs_amg {B : Blk} (minv : M B -> M B) (qs : list (gs_level B)) (inv : list (X B) -> list (X B)) (vwb : nat) : AMGMatrix B :=
  mkAMG (map (fun q => let G := gss3_make minv (q_A q) [] (q_free q) in
                       mkLevel (matvec (q_A q)) (gss3_smooth G false) (gss3_smooth G true) (matvec (q_PT q)) (matvec (q_P q))) qs)
        (Some (Some inv)) vwb.
Definition gs_size {B : Blk} (nc : nat) (qs : list (gs_level B)) : nat := match qs with [] => nc | q :: _ => length (q_A q) end.
Definition gs_top {B : Blk} (Ac : @spmat B) (qs : list (gs_level B)) : @spmat B := match qs with [] => Ac | q :: _ => q_A q end.
(** all level matrices symmetric, PT = P^T, Galerkin coarse matrices PT A P, diagonal blocks inverted by minv *)
Fixpoint gs_hierarchy {B : Blk} (le : K B -> K B -> Prop) (minv : M B -> M B) (nc : nat) (Ac : @spmat B) (qs : list (gs_level B)) : Prop :=
  match qs with
  | [] => wf_mat nc nc Ac /\ sym_mat nc Ac
  | q :: t =>
      let n := length (q_A q) in
      gs_input n (q_A q) (q_free q) /\
      wf_mat n (gs_size nc t) (q_P q) /\ wf_mat (gs_size nc t) n (q_PT q) /\
      (forall i j, i < gs_size nc t -> j < n -> entry (q_P q) j i = mtr (entry (q_PT q) i j)) /\
      (forall y, length y = gs_size nc t -> matvec (q_PT q) (matvec (q_A q) (matvec (q_P q) y)) = matvec (gs_top Ac t) y) /\
      (forall k v, k < n -> is_free (q_free q) k = true ->
         act (entry (q_A q) k k) (act (minv (entry (q_A q) k k)) v) = v /\
         le (dot (act (entry (q_A q) k k) v) v) (kadd (dot (act (entry (q_A q) k k) v) v) (dot (act (entry (q_A q) k k) v) v))) /\
      gs_hierarchy le minv nc Ac t
  end.
Definition gs_spec {B : Blk} (minv : M B -> M B) (q : gs_level B) : slevel B :=
  mkSL (length (q_A q)) (matvec (q_A q)) (gss3_C minv (q_A q) (length (q_A q)) [] (q_free q) false)
       (gss3_C minv (q_A q) (length (q_A q)) [] (q_free q) true) (matvec (q_PT q)) (matvec (q_P q)).
Lemma gs_topsize {B : Blk} (minv : M B -> M B) nc (qs : list (gs_level B)) : topsize nc (map (gs_spec minv) qs) = gs_size nc qs.
Proof. destruct qs; reflexivity. Qed.
Lemma gs_topmat {B : Blk} (minv : M B -> M B) (Ac : @spmat B) (qs : list (gs_level B)) : topmat (matvec Ac) (map (gs_spec minv) qs) = matvec (gs_top Ac qs).
Proof. destruct qs; reflexivity. Qed.
Lemma gs_hier_ok {B : Blk} (L : BlkLaws B) (le : K B -> K B -> Prop) (KO : KOrder le) (minv : M B -> M B) nc (Ac : @spmat B) (qs : list (gs_level B)) inv vwb :
  gs_hierarchy le minv nc Ac qs -> lin nc nc inv -> adj nc nc inv inv -> (forall m, mtr m = m -> mtr (minv m) = minv m) ->
  let a := gs_amg minv qs inv vwb in let ls := map (gs_spec minv) qs in
  amg_ok a nc ls /\ symmetric_levels nc inv ls /\ galerkin_levels nc (matvec Ac) ls /\ smoothers_no_increase le ls.
Proof.
  intros H LI SI HM a ls.
  assert (G : Forall2 realizes (am_levels a) ls /\ linear_levels nc inv ls /\ symmetric_levels nc inv ls /\ galerkin_levels nc (matvec Ac) ls /\ smoothers_no_increase le ls).
  { unfold a, ls, gs_amg. clear a ls. simpl am_levels. induction qs as [|q t IH]; [simpl; auto|].
    destruct H as (I & WP & WPT & TP & GA & D & HT). specialize (IH HT). destruct IH as (I1 & I2 & I3 & I4 & I5).
    set (n := length (q_A q)) in *. pose proof I as (W & S & HF).
    pose proof (gss3_contract L minv (q_A q) n [] (q_free q) false W S HF) as CF.
    pose proof (gss3_contract L minv (q_A q) n [] (q_free q) true W S HF) as CB.
    assert (NI : forall bk, no_increase le n (matvec (q_A q)) (gss3_C minv (q_A q) n [] (q_free q) bk)).
    { intros bk x b Hx Hb.
      pose proof (C20_energy_never_increases B L le KO n minv (q_A q) [] (q_free q) bk x b (b -v matvec (q_A q) x) false false false I) as E.
      cbv zeta in E. simpl length in E. rewrite Nat.eqb_refl in E.
      pose proof (gss3_contract L minv (q_A q) n [] (q_free q) bk W S HF x b (b -v matvec (q_A q) x) false false false) as CC.
      assert (F : flags_ok n (matvec (q_A q)) x b (b -v matvec (q_A q) x) false false) by (repeat split; auto with len; congruence).
      specialize (CC F). specialize (E F).
      destruct (gss3_smooth _ bk x b _ false false false) as [x' r']. destruct CC as (-> & _). simpl fst in E. unfold step. apply E.
      - intros k v Hk Hf. apply D; auto. - intros k v Hk Hf. apply D; auto. }
    split; [|split; [|split; [|split]]].
    - simpl map. constructor; [|exact I1]. unfold realizes. simpl. fold n. auto.
    - simpl. rewrite gs_topsize. fold n. split; [apply (matvec_lin L); auto|]. split; [apply (gs_op_lin L); auto|]. split; [apply (gs_op_lin L); auto|].
      split; [apply (matvec_lin L); auto|]. split; [apply (matvec_lin L); auto|exact I2].
    - simpl. rewrite gs_topsize. fold n. split; [|split; [|split]]; auto.
      + intros u v Hu Hv. apply (matvec_self_adjoint L n); auto.
      + assert (E : sweep (q_free q) n 0 n true = rev (sweep (q_free q) n 0 n false)) by reflexivity.
        unfold gss3_C. rewrite E. apply (gs_op_adj L (q_A q) n); auto. intros k Hk. apply in_sweep in Hk as [Hk Hf]. split; [lia|].
        unfold g_d. rewrite (gss3_d_free minv (q_A q) n) by (try apply W; auto; lia). apply HM. simpl. symmetry. apply S; lia.
      + intros u v Hu Hv. apply (matvec_adjoint L (gs_size nc t) n); auto.
    - simpl. rewrite gs_topsize, gs_topmat. split; auto.
    - simpl. fold n. repeat split; auto. }
  destruct G as (G1 & G2 & G3 & G4 & G5). split; [|auto]. split; [exact G1|exact G2].
Qed.
Lemma op_adj {B : Blk} (L : BlkLaws B) (a : AMGMatrix B) nc (ls : list (slevel B)) v : amg_ok a nc ls -> symmetric_levels nc (coarse_solve a nc) ls ->
  adj (topsize nc ls) (topsize nc ls) (op_of a nc ls v) (op_of a nc ls v).
Proof.
  intros AO SL. pose proof (ao_lin _ _ _ AO) as HL.
  destruct v as [|[|v]]; cbn [op_of]; [apply (vop_adj L nc _ ls)|apply (wop_adj L nc _ ls)|apply (bop_adj L nc _ ls)]; auto.
Qed.
Lemma op_energy {B : Blk} (L : BlkLaws B) (le : K B -> K B -> Prop) (KO : KOrder le) (a : AMGMatrix B) nc (ls : list (slevel B)) Ac v :
  amg_ok a nc ls -> symmetric_levels nc (coarse_solve a nc) ls -> lin nc nc Ac -> galerkin_levels nc Ac ls -> smoothers_no_increase le ls ->
  no_increase le nc Ac (coarse_solve a nc) -> no_increase le (topsize nc ls) (topmat Ac ls) (op_of a nc ls v).
Proof.
  intros AO SL LA GL NL NC. pose proof (ao_lin _ _ _ AO) as HL.
  destruct v as [|[|v]]; cbn [op_of]; [apply (vop_energy L nc _ le KO Ac ls)|apply (wop_energy L nc _ le KO Ac ls)|apply (bop_energy L nc _ le KO Ac ls)]; auto.
Qed.
(** C26/C27 for a Gauss-Seidel AMG hierarchy of any depth: every cycle type is symmetric and never increases the energy *)
Theorem C26_gauss_seidel_amg :
  forall (B : Blk) (L : BlkLaws B) (le : K B -> K B -> Prop) (KO : KOrder le) (minv : M B -> M B) nc (Ac : @spmat B) q (qs : list (gs_level B)) inv vwb,
  gs_hierarchy le minv nc Ac (q :: qs) -> (forall m, mtr m = m -> mtr (minv m) = minv m) ->
  lin nc nc inv -> adj nc nc inv inv -> (forall r, length r = nc -> matvec Ac (inv r) = r) ->
  (forall x, length x = nc -> le k0 (vdot (matvec Ac x) x)) -> vwb <= 2 ->
  let n := length (q_A q) in let A := matvec (q_A q) in let a := gs_amg minv (q :: qs) inv vwb in
  exists f, lin n n f /\ adj n n f f /\
    (forall x b, length x = n -> length b = n -> le (energy A b (x +v f (b -v A x))) (energy A b x)) /\
    forall b y w, ws_ok nc (map (gs_spec minv) (q :: qs)) w -> length b = n -> length y = n ->
      exists w', Mult a b y w = Ret (f b, w') /\ ws_ok nc (map (gs_spec minv) (q :: qs)) w'.
Proof.
  intros B L le KO minv nc Ac q qs inv vwb H HM LI SI EX PS V n A a.
  destruct (gs_hier_ok L le KO minv nc Ac (q :: qs) inv vwb H LI SI HM) as (AO & SL & GL & NL). fold a in AO.
  set (ls := map (gs_spec minv) (q :: qs)) in *.
  assert (HA : wf_mat nc nc Ac /\ sym_mat nc Ac).
  { clear - H. revert H. generalize (q :: qs). induction l; simpl; tauto. }
  assert (NC : no_increase le nc (matvec Ac) inv).
  { apply (exact_no_increase L nc inv le KO); auto. apply (matvec_lin L); tauto.
    intros u v Hu Hv. apply (matvec_self_adjoint L nc); tauto. }
  assert (LAc : lin nc nc (matvec Ac)) by (apply (matvec_lin L); tauto).
  pose proof (op_adj L a nc ls vwb AO SL) as OA.
  pose proof (op_energy L le KO a nc ls (matvec Ac) vwb AO SL LAc GL NL NC) as OE.
  pose proof (op_lin L a nc ls AO vwb) as OL.
  assert (MO := fun b y w => Mult_ok L a nc ls AO b y w).
  change (am_vwb a) with vwb in MO. change (topsize nc ls) with n in *. change (topmat (matvec Ac) ls) with A in OE.
  generalize dependent (op_of a nc ls vwb). intros f OA OE OL MO.
  exists f. split; [exact OL|]. split; [exact OA|]. split; [exact OE|].
  intros b y w O Hb Hy. apply (MO b y w); auto. unfold ls. simpl; lia.
Qed.
Print Assumptions C26_gauss_seidel_amg.

(** *** concrete case: 1d Laplacian on 4 points, aggregates of two, three levels *)
Definition h_A4 : @spmat QcBlk := [[(0, qc 2); (1, qc (-1))]; [(0, qc (-1)); (1, qc 2); (2, qc (-1))]; [(1, qc (-1)); (2, qc 2); (3, qc (-1))]; [(2, qc (-1)); (3, qc 2)]].
Definition h_P4 : @spmat QcBlk := [[(0, qc 1)]; [(0, qc 1)]; [(1, qc 1)]; [(1, qc 1)]].
Definition h_PT4 : @spmat QcBlk := [[(0, qc 1); (1, qc 1)]; [(2, qc 1); (3, qc 1)]].
Definition h_A2 : @spmat QcBlk := [[(0, qc 2); (1, qc (-1))]; [(0, qc (-1)); (1, qc 2)]].
Definition h_P2 : @spmat QcBlk := [[(0, qc 1)]; [(0, qc 1)]].
Definition h_PT2 : @spmat QcBlk := [[(0, qc 1); (1, qc 1)]].
Definition h_A1 : @spmat QcBlk := [[(0, qc 2)]].
Definition h_qs : list (gs_level QcBlk) := [mkGL h_A4 None h_P4 h_PT4; mkGL h_A2 None h_P2 h_PT2].
Definition h_inv (r : list (X QcBlk)) : list (X QcBlk) := vsc (B:=QcBlk) (Qcinv (qc 2)) r.
Ltac qsym := apply symmetric_ok; repeat (constructor; [repeat (constructor; [apply Qc_is_canon; reflexivity|]); constructor|]); constructor.
Lemma h_sq (v : Qc) : (0 <= v * v)%Qc.
Proof.
  destruct (Qclt_le_dec v 0) as [H|H].
  - apply Qclt_le_weak in H. replace (v * v)%Qc with ((Qcopp v) * (Qcopp v))%Qc by ring.
    assert (0 <= Qcopp v)%Qc. { apply Qcopp_le_compat in H. exact H. }
    rewrite <- (Qcmult_0_l (Qcopp v)). apply Qcmult_le_compat_r; auto.
  - rewrite <- (Qcmult_0_l v) at 1. apply Qcmult_le_compat_r; auto.
Qed.
Lemma h_diag (A : @spmat QcBlk) n : (forall k, k < n -> entry A k k = qc 2) ->
  forall k (v : Qc), k < n -> is_free None k = true ->
   act (b:=QcBlk) (entry A k k) (act (b:=QcBlk) (Qcinv (entry A k k)) v) = v /\
   Qcle (dot (b:=QcBlk) (act (b:=QcBlk) (entry A k k) v) v) (kadd (b:=QcBlk) (dot (b:=QcBlk) (act (b:=QcBlk) (entry A k k) v) v) (dot (b:=QcBlk) (act (b:=QcBlk) (entry A k k) v) v)).
Proof.
  intros E k v Hk _. rewrite !E by auto. simpl. split.
  - rewrite Qcmult_assoc, Qcmult_inv_r. apply Qcmult_1_l. intros C. discriminate C.
  - assert (H : (0 <= qc 2 * v * v)%Qc). { replace (qc 2 * v * v)%Qc with (v*v + v*v)%Qc by (replace (qc 2) with (1+1)%Qc by (apply Qc_is_canon; reflexivity); ring).
      pose proof (h_sq v). replace 0%Qc with (0+0)%Qc by reflexivity. apply Qcplus_le_compat; auto. }
    rewrite <- (Qcplus_0_l (qc 2 * v * v)) at 1. apply Qcplus_le_compat; auto. apply Qcle_refl.
Qed.
Example C26_ex_hierarchy : gs_hierarchy (B:=QcBlk) Qcle Qcinv 1 h_A1 h_qs.
Proof.
  assert (two : qc 2 = (1 + 1)%Qc) by (apply Qc_is_canon; reflexivity).
  assert (one : qc 1 = 1%Qc) by (apply Qc_is_canon; reflexivity).
  assert (mone : qc (-1) = (-(1))%Qc) by (apply Qc_is_canon; reflexivity).
  unfold h_qs. cbn [gs_hierarchy]. cbn [q_A q_free q_P q_PT length gs_size gs_top h_A4 h_A2].
  split. { split; [apply wf_matb_ok; reflexivity|]. split; [qsym|discriminate]. }
  split; [apply wf_matb_ok; reflexivity|]. split; [apply wf_matb_ok; reflexivity|]. split.
  { intros i j Hi Hj. do 2 (destruct i as [|i]; [do 4 (destruct j as [|j]; [apply Qc_is_canon; reflexivity|]); lia|]). lia. }
  split. { intros y Hy. destruct y as [|y0 [|y1 [|? ?]]]; try discriminate. cbn -[Qcplus Qcmult Qcopp Q2Qc qc]. fold h_A4. rewrite one, two, mone.
           f_equal; [|f_equal]; ring. }
  split. { apply h_diag. intros k Hk. do 4 (destruct k as [|k]; [apply Qc_is_canon; reflexivity|]). lia. }
  split. { split; [apply wf_matb_ok; reflexivity|]. split; [qsym|discriminate]. }
  split; [apply wf_matb_ok; reflexivity|]. split; [apply wf_matb_ok; reflexivity|]. split.
  { intros i j Hi Hj. destruct i as [|i]; [do 2 (destruct j as [|j]; [apply Qc_is_canon; reflexivity|]); lia|]. lia. }
  split. { intros y Hy. destruct y as [|y0 [|? ?]]; try discriminate. cbn -[Qcplus Qcmult Qcopp Q2Qc qc]. rewrite one, two, mone.
           f_equal; ring. }
  split. { apply h_diag. intros k Hk. do 2 (destruct k as [|k]; [apply Qc_is_canon; reflexivity|]). lia. }
  split; [apply wf_matb_ok; reflexivity|qsym].
Qed.
Definition h_ws : wspace QcBlk :=
  let l := [[qc 9; qc 9; qc 9; qc 9]; [qc 8; qc 8]; [qc 7]] in mkWS (B:=QcBlk) l l l (vzero 4) (vzero 4).
Example C28_ex_ws : ws_ok 1 (map (gs_spec (B:=QcBlk) Qcinv) h_qs) h_ws.
Proof. split; simpl; auto; intros [|[|[|l]]] Hl; simpl; auto; lia. Qed.
(** running the modelled V-cycle on it (b = (1,0,0,0)) *)
Definition ok_map {A C} (f : A -> C) (r : res A) : res C := match r with Ret a => Ret (f a) | Err e => Err e end.
Example C28_ex_run : ok_map (fun p => map this (fst p)) (Mult (gs_amg (B:=QcBlk) Qcinv h_qs h_inv 0) [qc 1; qc 0; qc 0; qc 0] (vzero (B:=QcBlk) 4) h_ws)
  = Ret [99 # 128; 35 # 64; 21 # 64; 9 # 64]%Q.
Proof. vm_compute. reflexivity. Qed.
(** the 4-2-1 hierarchy satisfies every hypothesis of the cycle theorems *)
Example C26_ex_all : forall vwb, let a := gs_amg (B:=QcBlk) Qcinv h_qs h_inv vwb in let ls := map (gs_spec (B:=QcBlk) Qcinv) h_qs in
  amg_ok a 1 ls /\ symmetric_levels 1 h_inv ls /\ galerkin_levels 1 (matvec h_A1) ls /\ smoothers_no_increase (B:=QcBlk) Qcle ls.
Proof.
  intros vwb. apply (gs_hier_ok (B:=QcBlk) QcLaws Qcle QcOrder).
  - apply C26_ex_hierarchy.
  - apply (lin_scale (B:=QcBlk) QcLaws 1 1 _ (fun x => x)). apply lin_id.
  - intros u v Hu Hv. destruct u as [|u [|? ?]]; try discriminate. destruct v as [|v [|? ?]]; try discriminate. cbn -[Qcplus Qcmult Qcinv]. ring.
  - reflexivity.
Qed.
