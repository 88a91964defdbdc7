(** Algebra of the textbook cycles: linearity, symmetry, energy; CINV, Mult, MultAdd, EmbeddedAMGMatrix. *)
From Verif Require Import Base AGroup LinAlg LinTools GSSpec GSModel GSProofs GSProofs2 AMGSpec AMGModel AMGInput AMGProofs.

Section Ops.
  Context {B : Blk} (L : BlkLaws B).
  Local Notation vec := (list (X B)). Local Notation K := (K B).
  Local Notation lin := (@lin B). Local Notation adj := (@adj B).
  Add Ring Kring3 : (lawK B L).

  Lemma step_then n A C1 C2 (x b : vec) : lin n n A -> lin n n C1 -> lin n n C2 -> length b = n -> length x = n ->
    step A C2 (step A C1 x b) b = step A (then_op A C1 C2) x b.
  Proof. intros. unfold step. apply (then_step L n A C1 C2 b x); auto. Qed.
  Lemma step_0 n A C (b : vec) : lin n n A -> lin n n C -> length b = n -> step A C (vzero n) b = C b.
  Proof.
    intros HA HC Hb. unfold step. rewrite (lin_zero L _ _ _ HA), (vsub_zero L n) by auto. apply (vzero_add L n). auto with len.
  Qed.

  Variables (nc : nat) (c : vec -> vec).
  Local Notation topsize := (topsize nc).
  (** coarse grid correction with a given coarse operator *)
  Definition cgc (l : slevel B) (f : vec -> vec) (r : vec) : vec := sl_P l (f (sl_R l r)).
  Fixpoint vop (ls : list (slevel B)) : vec -> vec :=
    match ls with
    | [] => c
    | l :: t => then_op (sl_A l) (then_op (sl_A l) (sl_C l) (cgc l (vop t))) (sl_C' l)
    end.
  Fixpoint wop (ls : list (slevel B)) : vec -> vec :=
    match ls with
    | [] => c
    | l :: t => let S := then_op (sl_A l) (then_op (sl_A l) (sl_C l) (cgc l (wop t))) (sl_C' l) in then_op (sl_A l) S S
    end.
  Fixpoint bop (ls : list (slevel B)) : vec -> vec :=
    match ls with
    | [] => c
    | l :: t => then_op (sl_A l) (then_op (sl_A l) (vop ls) (cgc l (bop t))) (vop ls)
    end.
  Ltac lenlev H := destruct H as (LA & LC & LC' & LR & LP & LT).

  Lemma cgc_lin (l : slevel B) m f : lin (sl_n l) m (sl_R l) -> lin m (sl_n l) (sl_P l) -> lin m m f -> lin (sl_n l) (sl_n l) (cgc l f).
  Proof. intros. unfold cgc. apply (lin_compose (sl_n l) m (sl_n l) (fun r => f (sl_R l r))); auto. apply (lin_compose (sl_n l) m m (sl_R l) f); auto. Qed.
  Lemma vop_lin ls : linear_levels nc c ls -> lin (topsize ls) (topsize ls) (vop ls).
  Proof.
    induction ls as [|l t IH]; intros H; simpl in *; auto. lenlev H. specialize (IH LT).
    pose proof (cgc_lin l _ _ LR LP IH). repeat apply (lin_then L); auto.
  Qed.
  Lemma wop_lin ls : linear_levels nc c ls -> lin (topsize ls) (topsize ls) (wop ls).
  Proof.
    induction ls as [|l t IH]; intros H; simpl in *; auto. lenlev H. specialize (IH LT).
    pose proof (cgc_lin l _ _ LR LP IH). repeat apply (lin_then L); auto.
  Qed.
  Lemma bop_lin ls : linear_levels nc c ls -> lin (topsize ls) (topsize ls) (bop ls).
  Proof.
    induction ls as [|l t IH]; intros H; [simpl in *; auto|]. pose proof (vop_lin _ H) as HV.
    simpl in H. lenlev H. specialize (IH LT). pose proof (cgc_lin l _ _ LR LP IH).
    change (bop (l :: t)) with (then_op (sl_A l) (then_op (sl_A l) (vop (l :: t)) (cgc l (bop t))) (vop (l :: t))).
    simpl AMGSpec.topsize in *. apply (lin_then L); auto. apply (lin_then L); auto.
  Qed.

  Lemma vcycle_op l t x b : linear_levels nc c (l :: t) -> length x = sl_n l -> length b = sl_n l ->
    vcycle nc c (l :: t) x b = step (sl_A l) (vop (l :: t)) x b.
  Proof.
    revert l x b. induction t as [|u t IH]; intros l x b H Hx Hb; pose proof H as H'; simpl in H'; lenlev H'.
    - cbn [vcycle vop]. pose proof (cgc_lin l _ _ LR LP LT) as HG.
      rewrite <- (step_then (sl_n l)) by (auto; apply (lin_then L); auto). f_equal.
      rewrite <- (step_then (sl_n l)) by auto. reflexivity.
    - assert (LT' : linear_levels nc c (u :: t)) by exact LT.
      pose proof (vop_lin _ LT') as HV. pose proof (cgc_lin l _ _ LR LP HV) as HG.
      assert (HX : length (step (sl_A l) (sl_C l) x b) = sl_n l) by (apply step_len; auto).
      assert (HR : length (sl_R l (b -v sl_A l (step (sl_A l) (sl_C l) x b))) = sl_n u).
      { apply (lin_len _ _ _ LR). auto with len. }
      change (vcycle nc c (l :: u :: t) x b) with
       (let x1 := step (sl_A l) (sl_C l) x b in
        let x2 := x1 +v sl_P l (vcycle nc c (u :: t) (vzero (sl_n u)) (sl_R l (b -v sl_A l x1))) in
        step (sl_A l) (sl_C' l) x2 b).
      cbv zeta. rewrite IH by (auto with len).
      assert (LAu : lin (sl_n u) (sl_n u) (sl_A u)) by (simpl in LT'; tauto).
      rewrite (step_0 (sl_n u)) by auto.
      change (vop (l :: u :: t)) with (then_op (sl_A l) (then_op (sl_A l) (sl_C l) (cgc l (vop (u :: t)))) (sl_C' l)).
      rewrite <- (step_then (sl_n l)) by (auto; apply (lin_then L); auto). f_equal.
      rewrite <- (step_then (sl_n l)) by auto. reflexivity.
  Qed.
  Lemma vcycle_op0 ls b : linear_levels nc c ls -> length b = topsize ls -> vcycle nc c ls (vzero (topsize ls)) b = vop ls b.
  Proof.
    intros H Hb. destruct ls as [|l t]; [reflexivity|]. simpl AMGSpec.topsize in *.
    rewrite vcycle_op by auto with len. pose proof (vop_lin _ H) as HV. simpl in H. lenlev H. apply step_0 with (n := sl_n l); auto.
  Qed.
  Lemma wcycle_op l t x b : linear_levels nc c (l :: t) -> length x = sl_n l -> length b = sl_n l ->
    wcycle nc c (l :: t) x b = step (sl_A l) (wop (l :: t)) x b.
  Proof.
    revert l x b. induction t as [|u t IH]; intros l x b H Hx Hb; pose proof H as H'; simpl in H'; lenlev H'.
    - cbn [wcycle wop]. pose proof (cgc_lin l _ _ LR LP LT) as HG. cbv zeta.
      assert (HS : lin (sl_n l) (sl_n l) (then_op (sl_A l) (then_op (sl_A l) (sl_C l) (cgc l c)) (sl_C' l))).
      { repeat apply (lin_then L); auto. }
      assert (E1 : forall x, length x = sl_n l -> step (sl_A l) (then_op (sl_A l) (then_op (sl_A l) (sl_C l) (cgc l c)) (sl_C' l)) x b
         = step (sl_A l) (sl_C' l) (step (sl_A l) (sl_C l) x b +v sl_P l (c (sl_R l (b -v sl_A l (step (sl_A l) (sl_C l) x b))))) b).
      { intros x0 Hx0. rewrite <- (step_then (sl_n l)) by (auto; apply (lin_then L); auto). f_equal.
        rewrite <- (step_then (sl_n l)) by auto. reflexivity. }
      rewrite <- (step_then (sl_n l)) by auto. rewrite E1. 2:{ apply step_len; auto. }
      rewrite E1 by auto. reflexivity.
    - assert (LT' : linear_levels nc c (u :: t)) by exact LT.
      pose proof (wop_lin _ LT') as HV. pose proof (cgc_lin l _ _ LR LP HV) as HG.
      assert (LAu : lin (sl_n u) (sl_n u) (sl_A u)) by (simpl in LT'; tauto).
      assert (HS : lin (sl_n l) (sl_n l) (then_op (sl_A l) (then_op (sl_A l) (sl_C l) (cgc l (wop (u :: t)))) (sl_C' l))).
      { repeat apply (lin_then L); auto. }
      assert (E1 : forall x, length x = sl_n l -> step (sl_A l) (then_op (sl_A l) (then_op (sl_A l) (sl_C l) (cgc l (wop (u :: t)))) (sl_C' l)) x b
         = step (sl_A l) (sl_C' l) (step (sl_A l) (sl_C l) x b +v sl_P l (wcycle nc c (u :: t) (vzero (sl_n u)) (sl_R l (b -v sl_A l (step (sl_A l) (sl_C l) x b))))) b).
      { intros x0 Hx0. rewrite <- (step_then (sl_n l)) by (auto; apply (lin_then L); auto). f_equal.
        rewrite <- (step_then (sl_n l)) by auto. unfold step at 1, cgc. f_equal. f_equal.
        assert (HR : length (sl_R l (b -v sl_A l (step (sl_A l) (sl_C l) x0 b))) = sl_n u).
        { apply (lin_len _ _ _ LR). apply len_sub; auto. apply (lin_len _ _ _ LA). apply step_len; auto. }
        rewrite IH by auto with len. symmetry. apply step_0 with (n := sl_n u); auto. }
      change (wop (l :: u :: t)) with (let S := then_op (sl_A l) (then_op (sl_A l) (sl_C l) (cgc l (wop (u :: t)))) (sl_C' l) in then_op (sl_A l) S S).
      cbv zeta. rewrite <- (step_then (sl_n l)) by auto. rewrite E1. 2:{ apply step_len; auto. }
      rewrite E1 by auto. reflexivity.
  Qed.
  Lemma wcycle_op0 ls b : linear_levels nc c ls -> length b = topsize ls -> wcycle nc c ls (vzero (topsize ls)) b = wop ls b.
  Proof.
    intros H Hb. destruct ls as [|l t]; [reflexivity|]. simpl AMGSpec.topsize in *.
    rewrite wcycle_op by auto with len. pose proof (wop_lin _ H) as HV. simpl in H. lenlev H. apply step_0 with (n := sl_n l); auto.
  Qed.
  Lemma bscycle_op l t x b : linear_levels nc c (l :: t) -> length x = sl_n l -> length b = sl_n l ->
    bscycle nc c (l :: t) x b = step (sl_A l) (bop (l :: t)) x b.
  Proof.
    revert l x b. induction t as [|u t IH]; intros l x b H Hx Hb; pose proof H as H'; simpl in H'; lenlev H';
      pose proof (vop_lin _ H) as HVl; simpl AMGSpec.topsize in HVl.
    - change (bscycle nc c [l] x b) with
       (let x1 := vcycle nc c [l] x b in
        let x2 := x1 +v sl_P l (c (sl_R l (b -v sl_A l x1))) in vcycle nc c [l] x2 b).
      change (bop [l]) with (then_op (sl_A l) (then_op (sl_A l) (vop [l]) (cgc l c)) (vop [l])).
      pose proof (cgc_lin l _ _ LR LP LT) as HG. cbv zeta.
      rewrite <- (step_then (sl_n l)) by (auto; apply (lin_then L); auto).
      rewrite <- (step_then (sl_n l)) by auto.
      assert (H1 : length (step (sl_A l) (vop [l]) x b) = sl_n l) by (apply step_len; auto).
      rewrite (vcycle_op l [] x b) by auto. rewrite vcycle_op; auto.
      apply len_add; auto. apply (lin_len _ _ _ LP). apply (lin_len _ _ _ LT). apply (lin_len _ _ _ LR).
      auto with len.
    - assert (LT' : linear_levels nc c (u :: t)) by exact LT.
      pose proof (bop_lin _ LT') as HV. pose proof (cgc_lin l _ _ LR LP HV) as HG.
      assert (LAu : lin (sl_n u) (sl_n u) (sl_A u)) by (simpl in LT'; tauto).
      change (bscycle nc c (l :: u :: t) x b) with
       (let x1 := vcycle nc c (l :: u :: t) x b in
        let x2 := x1 +v sl_P l (bscycle nc c (u :: t) (vzero (sl_n u)) (sl_R l (b -v sl_A l x1))) in vcycle nc c (l :: u :: t) x2 b).
      change (bop (l :: u :: t)) with (then_op (sl_A l) (then_op (sl_A l) (vop (l :: u :: t)) (cgc l (bop (u :: t)))) (vop (l :: u :: t))).
      cbv zeta.
      rewrite <- (step_then (sl_n l)) by (auto; apply (lin_then L); auto).
      rewrite <- (step_then (sl_n l)) by auto.
      assert (H1 : length (step (sl_A l) (vop (l :: u :: t)) x b) = sl_n l) by (apply step_len; auto).
      rewrite (vcycle_op l (u :: t) x b) by auto.
      assert (HR : length (sl_R l (b -v sl_A l (step (sl_A l) (vop (l :: u :: t)) x b))) = sl_n u).
      { apply (lin_len _ _ _ LR). auto with len. }
      rewrite IH by auto with len. rewrite (step_0 (sl_n u)) by auto.
      rewrite vcycle_op; auto. apply len_add; auto. apply (lin_len _ _ _ LP). apply (lin_len _ _ _ HV). auto.
  Qed.
  Lemma bscycle_op0 ls b : linear_levels nc c ls -> length b = topsize ls -> bscycle nc c ls (vzero (topsize ls)) b = bop ls b.
  Proof.
    intros H Hb. destruct ls as [|l t]; [reflexivity|]. simpl AMGSpec.topsize in *.
    rewrite bscycle_op by auto with len. pose proof (bop_lin _ H) as HV. simpl in H. lenlev H. apply step_0 with (n := sl_n l); auto.
  Qed.

  (** *** symmetry *)
  Lemma cgc_adj (l : slevel B) m f : lin (sl_n l) m (sl_R l) -> lin m (sl_n l) (sl_P l) -> lin m m f ->
    adj (sl_n l) m (sl_R l) (sl_P l) -> adj m m f f -> adj (sl_n l) (sl_n l) (cgc l f) (cgc l f).
  Proof.
    intros LR LP LF HR HF x y Hx Hy. unfold cgc.
    rewrite (vdot_comm L), <- HR by auto with len. rewrite (vdot_comm L), HF by auto with len. apply HR; auto with len.
  Qed.
  Lemma adj_ext n m f g g' : (forall y, length y = m -> g y = g' y) -> adj n m f g -> adj n m f g'.
  Proof. intros E H x y Hx Hy. rewrite <- E by auto. auto. Qed.
  Lemma sandwich_adj n A C G D : lin n n A -> lin n n C -> lin n n G -> lin n n D ->
    adj n n A A -> adj n n C D -> adj n n G G ->
    adj n n (then_op A (then_op A C G) D) (then_op A (then_op A C G) D).
  Proof.
    intros LA LC LG LD HA HC HG.
    assert (LCG : lin n n (then_op A C G)) by (apply (lin_then L); auto).
    assert (LGD : lin n n (then_op A G D)) by (apply (lin_then L); auto).
    apply adj_ext with (then_op A C (then_op A G D)).
    - intros y Hy. symmetry. apply (then_op_assoc L n); auto.
    - apply (adj_then L); auto.
      + apply (adj_then L); auto.
      + apply (adj_sym L); auto.
  Qed.
  Lemma vop_adj ls : linear_levels nc c ls -> symmetric_levels nc c ls -> adj (topsize ls) (topsize ls) (vop ls) (vop ls).
  Proof.
    induction ls as [|l t IH]; intros H S; simpl in *; auto. lenlev H. destruct S as (SA & SC & SR & ST).
    specialize (IH LT ST). pose proof (vop_lin _ LT) as HV. pose proof (cgc_lin l _ _ LR LP HV).
    apply sandwich_adj; auto. apply (cgc_adj l (topsize t)); auto.
  Qed.
  Lemma wop_adj ls : linear_levels nc c ls -> symmetric_levels nc c ls -> adj (topsize ls) (topsize ls) (wop ls) (wop ls).
  Proof.
    induction ls as [|l t IH]; intros H S; simpl in *; auto. lenlev H. destruct S as (SA & SC & SR & ST).
    specialize (IH LT ST). pose proof (wop_lin _ LT) as HV. pose proof (cgc_lin l _ _ LR LP HV).
    assert (adj (sl_n l) (sl_n l) (then_op (sl_A l) (then_op (sl_A l) (sl_C l) (cgc l (wop t))) (sl_C' l)) (then_op (sl_A l) (then_op (sl_A l) (sl_C l) (cgc l (wop t))) (sl_C' l))).
    { apply sandwich_adj; auto. apply (cgc_adj l (topsize t)); auto. }
    apply (adj_then L); auto; repeat apply (lin_then L); auto.
  Qed.
  Lemma bop_adj ls : linear_levels nc c ls -> symmetric_levels nc c ls -> adj (topsize ls) (topsize ls) (bop ls) (bop ls).
  Proof.
    induction ls as [|l t IH]; intros H S; [simpl in *; auto|].
    pose proof (vop_lin _ H) as HV. pose proof (vop_adj _ H S) as SV.
    simpl in H. lenlev H. destruct S as (SA & SC & SR & ST). specialize (IH LT ST). pose proof (bop_lin _ LT) as HB.
    pose proof (cgc_lin l _ _ LR LP HB).
    change (bop (l :: t)) with (then_op (sl_A l) (then_op (sl_A l) (vop (l :: t)) (cgc l (bop t))) (vop (l :: t))).
    simpl AMGSpec.topsize in *. apply sandwich_adj; auto. apply (cgc_adj l (topsize t)); auto.
  Qed.

  (** *** energy *)
  Variable le : K -> K -> Prop.
  Hypothesis KO : KOrder le.
  Lemma no_increase_then n A C1 C2 : lin n n A -> lin n n C1 -> lin n n C2 ->
    no_increase le n A C1 -> no_increase le n A C2 -> no_increase le n A (then_op A C1 C2).
  Proof.
    intros LA L1 L2 H1 H2 x b Hx Hb. rewrite <- (step_then n) by auto.
    eapply (ko_trans _ KO); [apply H2; auto; apply step_len; auto|apply H1; auto].
  Qed.
  Lemma energy_0 n A b : lin n n A -> length b = n -> energy A b (vzero n) = k0.
  Proof.
    intros LA Hb. unfold energy. rewrite (lin_zero L _ _ _ LA). rewrite (vdot_comm L b), !(vdot_zero L).
    unfold ksub. ring.
  Qed.
  Lemma no_increase_cgc (l : slevel B) m Ac f :
    lin (sl_n l) (sl_n l) (sl_A l) -> lin m m Ac -> lin (sl_n l) m (sl_R l) -> lin m (sl_n l) (sl_P l) -> lin m m f ->
    adj (sl_n l) (sl_n l) (sl_A l) (sl_A l) -> adj (sl_n l) m (sl_R l) (sl_P l) ->
    (forall y, length y = m -> sl_R l (sl_A l (sl_P l y)) = Ac y) ->
    no_increase le m Ac f -> no_increase le (sl_n l) (sl_A l) (cgc l f).
  Proof.
    intros LA LAc LR LP LF SA SR G H x b Hx Hb. unfold step, cgc.
    set (r := b -v sl_A l x). assert (Hr : length r = sl_n l) by (unfold r; auto with len).
    set (y := f (sl_R l r)). assert (Hy : length y = m) by (unfold y; auto with len).
    rewrite (energy_add L (sl_n l)) by (auto with len).
    assert (E1 : vdot (sl_A l (sl_P l y)) (sl_P l y) = vdot (Ac y) y).
    { rewrite <- SR by auto with len. now rewrite G. }
    assert (E2 : vdot (residual (sl_A l) b x) (sl_P l y) = vdot (sl_R l r) y).
    { unfold residual. fold r. rewrite <- SR by auto with len. reflexivity. }
    rewrite E1, E2.
    specialize (H (vzero m) (sl_R l r) ltac:(auto with len) ltac:(auto with len)).
    rewrite (step_0 m) in H by auto with len. rewrite (energy_0 m) in H by auto with len.
    fold y in H. unfold energy in H.
    pose proof (ko_add _ KO _ _ (energy (sl_A l) b x) H) as H'. 
    match goal with |- le ?u _ => match type of H' with le ?v ?w => replace u with v by ring; replace w with (energy (sl_A l) b x) in H' by ring end end.
    exact H'.
  Qed.
  Lemma topmat_lin Ac ls : linear_levels nc c ls -> lin nc nc Ac -> lin (topsize ls) (topsize ls) (topmat Ac ls).
  Proof. destruct ls; simpl; tauto. Qed.
  Lemma vop_energy Ac ls : linear_levels nc c ls -> lin nc nc Ac -> symmetric_levels nc c ls -> galerkin_levels nc Ac ls ->
    smoothers_no_increase le ls -> no_increase le nc Ac c -> no_increase le (topsize ls) (topmat Ac ls) (vop ls).
  Proof.
    intros H HA S G SM HC. induction ls as [|l t IH]; [exact HC|].
    pose proof (topmat_lin Ac t) as TL. simpl in H, S, G, SM. lenlev H. destruct S as (SA & SC & SR & ST). destruct G as (GA & GT).
    destruct SM as (N1 & N2 & NT). specialize (IH LT ST GT NT). specialize (TL LT HA).
    pose proof (vop_lin _ LT) as HV. pose proof (cgc_lin l _ _ LR LP HV) as HG.
    simpl. apply no_increase_then; auto. apply (lin_then L); auto.
    apply no_increase_then; auto. apply (no_increase_cgc l (topsize t) (topmat Ac t)); auto.
  Qed.
  Lemma wop_energy Ac ls : linear_levels nc c ls -> lin nc nc Ac -> symmetric_levels nc c ls -> galerkin_levels nc Ac ls ->
    smoothers_no_increase le ls -> no_increase le nc Ac c -> no_increase le (topsize ls) (topmat Ac ls) (wop ls).
  Proof.
    intros H HA S G SM HC. induction ls as [|l t IH]; [exact HC|].
    pose proof (topmat_lin Ac t) as TL. simpl in H, S, G, SM. lenlev H. destruct S as (SA & SC & SR & ST). destruct G as (GA & GT).
    destruct SM as (N1 & N2 & NT). specialize (IH LT ST GT NT). specialize (TL LT HA).
    pose proof (wop_lin _ LT) as HV. pose proof (cgc_lin l _ _ LR LP HV) as HG.
    simpl. assert (LS : lin (sl_n l) (sl_n l) (then_op (sl_A l) (then_op (sl_A l) (sl_C l) (cgc l (wop t))) (sl_C' l))) by (repeat apply (lin_then L); auto).
    assert (no_increase le (sl_n l) (sl_A l) (then_op (sl_A l) (then_op (sl_A l) (sl_C l) (cgc l (wop t))) (sl_C' l))).
    { apply no_increase_then; auto. apply (lin_then L); auto.
      apply no_increase_then; auto. apply (no_increase_cgc l (topsize t) (topmat Ac t)); auto. }
    apply no_increase_then; auto.
  Qed.
  Lemma bop_energy Ac ls : linear_levels nc c ls -> lin nc nc Ac -> symmetric_levels nc c ls -> galerkin_levels nc Ac ls ->
    smoothers_no_increase le ls -> no_increase le nc Ac c -> no_increase le (topsize ls) (topmat Ac ls) (bop ls).
  Proof.
    intros H HA S G SM HC. induction ls as [|l t IH]; [exact HC|].
    pose proof (vop_energy Ac _ H HA S G SM HC) as VE. pose proof (vop_lin _ H) as VL.
    pose proof (topmat_lin Ac t) as TL. simpl in H, S, G, SM. lenlev H. destruct S as (SA & SC & SR & ST). destruct G as (GA & GT).
    destruct SM as (N1 & N2 & NT). specialize (IH LT ST GT NT). specialize (TL LT HA).
    pose proof (bop_lin _ LT) as HV. pose proof (cgc_lin l _ _ LR LP HV) as HG.
    change (bop (l :: t)) with (then_op (sl_A l) (then_op (sl_A l) (vop (l :: t)) (cgc l (bop t))) (vop (l :: t))).
    simpl AMGSpec.topsize in *. simpl topmat in *. apply no_increase_then; auto. apply (lin_then L); auto.
    apply no_increase_then; auto. apply (no_increase_cgc l (topsize t) (topmat Ac t)); auto.
  Qed.
  Lemma exact_no_increase Ac : lin nc nc Ac -> lin nc nc c -> adj nc nc Ac Ac ->
    (forall r, length r = nc -> Ac (c r) = r) -> (forall x, length x = nc -> le k0 (vdot (Ac x) x)) -> no_increase le nc Ac c.
  Proof.
    intros HA HC SA EX PS x b Hx Hb. unfold step. set (r := b -v Ac x). assert (Hr : length r = nc) by (unfold r; auto with len).
    rewrite (energy_add L nc) by (auto with len). unfold residual. fold r. rewrite (EX r) by auto.
    pose proof (PS (c r) ltac:(auto with len)) as P. rewrite (EX r) in P by auto.
    pose proof (ko_add _ KO _ _ (ksub (energy Ac b x) (vdot r (c r))) P) as H'.
    match goal with |- le ?u ?z => match type of H' with le ?v ?w => replace u with v by (unfold ksub; ring); replace w with z in H' by (unfold ksub; ring) end end.
    exact H'.
  Qed.
  Lemma zero_no_increase Ac : lin nc nc Ac -> (forall r, length r = nc -> c r = vzero nc) -> no_increase le nc Ac c.
  Proof.
    intros HA H x b Hx Hb. unfold step. rewrite H by auto with len. rewrite (vadd_zero L nc) by auto. apply (ko_refl _ KO).
  Qed.
End Ops.
