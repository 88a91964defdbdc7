(** C72: the transformation between the degrees of freedom of two vertices, the products with it, edge contributions. *)
From Coq Require Import List Arith Lia Bool Ring Field QArith Qcanon.
From Verif Require Import EnergyModel EnergySpec EnergyProofs.
Local Open Scope nat_scope.

Section P.
  Context {F : Fld} (L : FldLaws F).
  Local Notation K := (FK F).
  Local Open Scope fld_scope.
  Lemma fth : field_theory (@f0 F) f1 fadd fmul fsub fopp fdiv finv eq. Proof. exact (law_field _ L). Qed.
  Add Field KF2 : fth.
  Ltac cn := cbv -[f0 f1 fadd fmul fsub fopp fdiv finv fsqrt feqb rs tang pos wt rsc FK]; cbn [rs tang pos wt rsc]; cbv -[f0 f1 fadd fmul fsub fopp fdiv finv fsqrt feqb rs tang pos wt rsc FK].

  Ltac sq vi vj H3 H4 :=
    match goal with S : scalings_ok _ _ |- _ => clear S end;
    generalize dependent (fsqrt (rsc vi)); intros x X1 X5; generalize dependent (fsqrt (rsc vj)); intros y Y1 Y5;
    rewrite <- X1, <- Y1; rewrite <- X1 in H3; rewrite <- Y1 in H4;
    assert (x <> f0) by (intros ->; apply H3; ring); assert (y <> f0) by (intros ->; apply H4; ring);
    field; repeat split; auto.

  Ltac sq1 va vb Heq H1 H3 H5 :=
    rewrite Heq in *; rewrite ?Heq; generalize dependent (fsqrt (rsc vb)); intros x; intros;
    match goal with X : x * x = _ |- _ => rewrite <- X end;
    field; repeat split; auto.

  Lemma mulnz (a b : K) : a <> f0 -> b <> f0 -> a * b <> f0.
  Proof. intros Ha Hb H. apply Hb. transitivity (finv a * (a * b)); [field; auto|rewrite H; ring]. Qed.
  Lemma sqnz (s : K) : fsqrt s * fsqrt s = s -> s <> f0 -> fsqrt s <> f0.
  Proof. intros H Hs H0. apply Hs. rewrite <- H, H0. ring. Qed.

  Section Pair.
  Variables vi vj : @vdata F.
  Hypothesis S : scalings_ok (rsc vi) (rsc vj).

  Lemma mid_nz : rsc (CalcMPData vi vj) <> f0.
  Proof. destruct S as (H1 & H2 & H3 & H4 & H5). cbn. apply mulnz; apply sqnz; auto. Qed.
  Lemma Qij_mid d3 : meq (DPV d3) (Qmat d3 (fst (GetQijQji vi vj))) (Qmat d3 (GetQiToj vi (CalcMPData vi vj))).
  Proof. apply Qof_ext; [reflexivity|]. intros i. cn. ring. Qed.
  Lemma Qji_mid d3 : meq (DPV d3) (Qmat d3 (snd (GetQijQji vi vj))) (Qmat d3 (GetQiToj vj (CalcMPData vi vj))).
  Proof. apply Qof_ext; [reflexivity|]. intros i. cn. ring. Qed.
  End Pair.

  Lemma QiToj_rigid d3 (vi vj : @vdata F) a w : rsc vi <> f0 -> rsc vj <> f0 ->
    veq (DPV d3) (mv (DPV d3) (Qmat d3 (GetQiToj vi vj)) (rigid_at d3 a w vi)) (rigid_at d3 a w vj).
  Proof.
    intros H1 H2. eapply veq_trans. { apply (rigid_step L d3 a w (pos vi) (rsc vi) (rsc vj)); auto. }
    apply rigid_ext. intros i. cn. field. auto.
  Qed.

  (** === C72, transformation: the matrices the code builds are [Qmat]; Q_{i->j} carries the values of every rigid body mode
      at vertex i to its values at vertex j; Q_ij and Q_ji carry the values at both ends of an edge to the values at the
      midpoint vertex; transformations compose; Q_ji is the inverse of Q_ij. *)
  Theorem C72_transformation : forall d3 (vi vj vk : @vdata F) (a w : fvec) (G G' : mat),
    scalings_ok (rsc vi) (rsc vj) -> rsc vk <> f0 ->
    let n := DPV d3 in
    let Q v v' := Qmat d3 (GetQiToj v v') in
    let Qij := Qmat d3 (fst (GetQijQji vi vj)) in
    let Qji := Qmat d3 (snd (GetQijQji vi vj)) in
    let mid := CalcMPData vi vj in
    (* matrices filled in by the code *)
    meq n (CalcQHh d3 vi vj G) (Q vi vj)
    /\ meq n (CalcQij d3 vi vj G) Qij
    /\ meq n (fst (CalcQs d3 vi vj G G')) Qij /\ meq n (snd (CalcQs d3 vi vj G G')) Qji
    /\ meq n (CalcQ d3 (vminus (pos vj) (pos vi)) (rsc vi) (rsc vj)) (Q vi vj)
    (* rigid body modes *)
    /\ veq n (mv n (Q vi vj) (rigid_at d3 a w vi)) (rigid_at d3 a w vj)
    /\ veq n (mv n Qij (rigid_at d3 a w vi)) (rigid_at d3 a w mid)
    /\ veq n (mv n Qji (rigid_at d3 a w vj)) (rigid_at d3 a w mid)
    (* composition, inverse *)
    /\ meq n (mmul n (Q vj vk) (Q vi vj)) (Q vi vk)
    /\ meq n (Q vi vi) ident
    /\ meq n (mmul n Qij Qji) ident /\ meq n (mmul n Qji Qij) ident
    /\ meq n (mmul n (fst (CalcInvQs d3 vi vj G G')) Qij) ident
    /\ meq n (mmul n (snd (CalcInvQs d3 vi vj G G')) Qji) ident.
  Proof.
    intros d3 vi vj vk a w G G' S Hk n Q Qij Qji mid.
    pose proof S as (H1 & H2 & H3 & H4 & H5).
    assert (HQ : forall q M, meq n (SetQ d3 q M) (Qmat d3 q)) by (intros; apply (SetQ_ok L)).
    assert (I1 : meq n (mmul n Qij Qji) ident).
    { eapply meq_trans; [apply (Q_mul L)|]. apply (Q_ident L).
      - intros i. cn. sq vi vj H3 H4.
      - cn. sq vi vj H3 H4. }
    assert (I2 : meq n (mmul n Qji Qij) ident).
    { eapply meq_trans; [apply (Q_mul L)|]. apply (Q_ident L).
      - intros i. cn. sq vi vj H3 H4.
      - cn. sq vi vj H3 H4. }
    assert (N : rsc mid <> f0) by (apply mid_nz; auto).
    do 4 (split; [apply HQ|]).
    split; [apply (CalcQ_ok L)|].
    split; [apply QiToj_rigid; auto|].
    split.
    { eapply veq_trans; [apply mv_ext; [apply Qij_mid|apply veq_refl]|]. now apply QiToj_rigid. }
    split.
    { eapply veq_trans; [apply mv_ext; [apply Qji_mid|apply veq_refl]|]. now apply QiToj_rigid. }
    split.
    { eapply meq_trans; [apply (Q_mul L)|]. apply Qof_ext; [|intros i]; cn; field; auto. }
    split.
    { apply (Q_ident L); [intros i|]; cn; field; auto. }
    split; [exact I1|]. split; [exact I2|].
    split.
    { eapply meq_trans; [apply mmul_ext; [apply HQ|apply meq_refl]|exact I2]. }
    { eapply meq_trans; [apply mmul_ext; [apply HQ|apply meq_refl]|exact I1]. }
  Qed.

  (** === C72, products: the specialised routines compute the matrix products they stand for: E*Q, Q^T*E, Q^T*E*Q (for
      symmetric E), and Q*E*Q^T in two dimensions; with the leading factor where there is one. *)
  Theorem C72_products : forall d3 (q : @TQ F) (c : K) (E : mat),
    let n := DPV d3 in
    let Q := Qmat d3 q in
    meq n (MQ d3 q E) (mmul n E Q)
    /\ meq n (QTM d3 q E) (mmul n (mtr Q) E)
    /\ meq n (GetMQ d3 q c E) (msc c (mmul n E Q))
    /\ meq n (GetQTM d3 q c E) (msc c (mmul n (mtr Q) E))
    /\ (symm n E ->
        meq n (QTMQ d3 q E) (mmul n (mtr Q) (mmul n E Q))
        /\ meq n (GetQTMQ d3 q c E) (msc c (mmul n (mtr Q) (mmul n E Q)))
        /\ (d3 = false -> forall G, meq n (QMQT d3 q G E) (mmul n Q (mmul n E (mtr Q))))).
  Proof.
    intros d3 q c E n Q.
    split; [apply (MQ_ok L)|]. split; [apply (QTM_ok L)|].
    split. { eapply meq_trans; [apply (MQ_ok L)|]. apply (mmul_msc_l L). }
    split. { eapply meq_trans; [apply (QTM_ok L)|]. apply (mmul_msc_r L). }
    intros S. split; [now apply (QTMQ_ok L)|]. split.
    - eapply meq_trans; [apply (QTMQ_ok L)|].
      + intros i j Hi Hj. unfold msc, mtr. f_equal. now apply S.
      + eapply meq_trans; [apply (mmul_ext); [apply meq_refl|apply (mmul_msc_l L)]|]. apply (mmul_msc_r L).
    - intros -> G. now apply (QMQT_ok L).
  Qed.

  (** === C72, products with a stored matrix of the form Q = (I T; 0 s I) *)
  Theorem C72_stored_products : forall d3 (s : K) (t : fvec) (c : K) (Q M A : mat),
    let n := DPV d3 in
    meq n Q (Qof d3 s t) ->
    meq n (CalcMQ d3 c M Q A) (msc c (mmul n M Q))
    /\ meq n (AddMQ d3 c M Q A) (madd A (msc c (mmul n M Q)))
    /\ (symm n M ->
        meq n (QtMQ d3 Q M) (mmul n (mtr Q) (mmul n M Q))
        /\ meq n (AddQtMQ d3 c A Q M) (madd A (msc c (mmul n (mtr Q) (mmul n M Q))))
        /\ (s = f1 -> meq n (SetQtMQ d3 c A Q M) (msc c (mmul n (mtr Q) (mmul n M Q)))))
    /\ (d3 = true -> meq n (CalcQTM d3 c Q M A) (msc c (mmul n (mtr Q) M))
                     /\ meq n (AddQTM d3 c Q M A) (madd A (msc c (mmul n (mtr Q) M)))).
  Proof.
    intros d3 s t c Q M A n HQ.
    assert (X1 : meq n (mmul n M (Qof d3 s t)) (mmul n M Q)) by (apply mmul_ext; [apply meq_refl|now apply meq_sym]).
    assert (X2 : meq n (mmul n (mtr (Qof d3 s t)) (mmul n M (Qof d3 s t))) (mmul n (mtr Q) (mmul n M Q)))
      by (apply mmul_ext; [apply mtr_ext; now apply meq_sym|auto]).
    assert (X3 : meq n (mmul n (mtr (Qof d3 s t)) M) (mmul n (mtr Q) M))
      by (apply mmul_ext; [apply mtr_ext; now apply meq_sym|apply meq_refl]).
    assert (AD : forall B C D : mat, meq n C D -> meq n (madd B (msc c C)) (madd B (msc c D)))
      by (intros B C D H i j Hi Hj; unfold madd, msc; now rewrite H).
    split; [eapply meq_trans; [now apply (CalcMQ_ok L d3 c s t)|now apply msc_ext]|].
    split; [eapply meq_trans; [now apply (AddMQ_ok L d3 c s t)|now apply AD]|].
    split.
    - intros S. split; [eapply meq_trans; [now apply (QtMQ_ok L d3 s t)|auto]|].
      split; [eapply meq_trans; [now apply (AddQtMQ_ok L d3 c s t)|now apply AD]|].
      intros Hs. eapply meq_trans; [now apply (SetQtMQ_ok L d3 c s t)|now apply msc_ext].
    - intros ->. split; [eapply meq_trans; [now apply (CalcQTM_ok L c s t)|now apply msc_ext]|].
      eapply meq_trans; [now apply (AddQTM_ok L c s t)|now apply AD].
  Qed.

  (** rows of a 2 x 2 block matrix applied to a pair of block vectors; energy of the pair *)
  Definition row2 (n : nat) (R : @mat F * mat) (ui uj : fvec) : fvec := vplus (mv n (fst R) ui) (mv n (snd R) uj).
  Definition energy2 (n : nat) (B : (@mat F * mat) * (mat * mat)) (ui uj : fvec) : K :=
    ip n (row2 n (fst B) ui uj) ui + ip n (row2 n (snd B) ui uj) uj.

  (** === C72, edge contribution: the 2 x 2 block matrix of an edge with a symmetric matrix E is symmetric, its energy is
      the E-energy of the jump Q_ij u_i - Q_ji u_j, its rows are +-Q^T E (jump), and it vanishes on every rigid body mode. *)
  Theorem C72_edge_contribution : forall d3 (E : mat) (vi vj : @vdata F) (ui uj a w : fvec),
    let n := DPV d3 in
    scalings_ok (rsc vi) (rsc vj) -> symm n E ->
    let B := CalcRMBlock d3 E vi vj in
    let Qij := Qmat d3 (fst (GetQijQji vi vj)) in
    let Qji := Qmat d3 (snd (GetQijQji vi vj)) in
    let jump := vminus (mv n Qij ui) (mv n Qji uj) in
    symm n (fst (fst B)) /\ symm n (snd (snd B)) /\ meq n (fst (snd B)) (mtr (snd (fst B)))
    /\ energy2 n B ui uj = ip n (mv n E jump) jump
    /\ veq n (row2 n (fst B) ui uj) (mv n (mtr Qij) (mv n E jump))
    /\ veq n (row2 n (snd B) ui uj) (vscal (- f1) (mv n (mtr Qji) (mv n E jump)))
    /\ (forall i, i < n -> row2 n (fst B) (rigid_at d3 a w vi) (rigid_at d3 a w vj) i = f0
                           /\ row2 n (snd B) (rigid_at d3 a w vi) (rigid_at d3 a w vj) i = f0).
  Proof.
    intros d3 E vi vj ui uj a w n S SE B Qij Qji jump.
    assert (B00 : meq n (fst (fst B)) (mmul n (mtr Qij) (mmul n E Qij))).
    { eapply meq_trans; [apply (C72_products d3 _ f1)|].
      eapply meq_trans. { apply msc_ext, mmul_ext; [apply (C72_products d3 _ f1)|apply meq_refl]. }
      eapply meq_trans. { apply msc_ext. apply (mmul_msc_l L). }
      eapply meq_trans. { apply msc_ext, msc_ext. apply (mmul_assoc L). }
      intros i j Hi Hj. transitivity (f1 * (f1 * mmul n (mtr Qij) (mmul n E Qij) i j)); [reflexivity|ring]. }
    assert (B01 : meq n (snd (fst B)) (msc (- f1) (mmul n (mtr Qij) (mmul n E Qji)))).
    { eapply meq_trans; [apply (C72_products d3 _ (- f1))|].
      eapply meq_trans. { apply msc_ext, mmul_ext; [apply (C72_products d3 _ f1)|apply meq_refl]. }
      eapply meq_trans. { apply msc_ext. apply (mmul_msc_l L). }
      eapply meq_trans. { apply msc_ext, msc_ext. apply (mmul_assoc L). }
      intros i j Hi Hj. unfold msc at 3. transitivity (- f1 * (f1 * mmul n (mtr Qij) (mmul n E Qji) i j)); [reflexivity|ring]. }
    assert (B11 : meq n (snd (snd B)) (mmul n (mtr Qji) (mmul n E Qji))).
    { eapply meq_trans; [apply (C72_products d3 _ f1); exact SE|]. intros i j Hi Hj. transitivity (f1 * mmul n (mtr Qji) (mmul n E Qji) i j); [reflexivity|ring]. }
    assert (TT : forall P R : @mat F, meq n (mtr (mmul n (mtr P) (mmul n E R))) (mmul n (mtr R) (mmul n E P))).
    { intros P R. eapply meq_trans; [apply (mtr_mmul L)|].
      eapply meq_trans. { apply mmul_ext; [apply (mtr_mmul L)|apply meq_refl]. }
      eapply meq_trans; [apply (mmul_assoc L)|]. apply mmul_ext; [apply meq_refl|].
      apply mmul_ext; [apply meq_sym; exact SE|apply meq_refl]. }
    assert (B10 : meq n (fst (snd B)) (msc (- f1) (mmul n (mtr Qji) (mmul n E Qij)))).
    { eapply meq_trans; [apply (mtr_ext _ _ _ B01)|].
      intros i j Hi Hj. unfold msc. pose proof (TT Qij Qji i j Hi Hj) as X. unfold mtr in X at 1. unfold mtr at 1. now rewrite X. }
    assert (MV : forall P R (x : @fvec F), veq n (mv n (mmul n (mtr P) (mmul n E R)) x) (mv n (mtr P) (mv n E (mv n R x)))).
    { intros P R x. eapply veq_trans; [apply (mv_mmul L)|]. apply mv_ext; [apply meq_refl|apply (mv_mmul L)]. }
    assert (R0 : forall ui uj : @fvec F, veq n (row2 n (fst B) ui uj) (mv n (mtr Qij) (mv n E (vminus (mv n Qij ui) (mv n Qji uj))))).
    { clear ui uj jump. intros ui uj i Hi. unfold row2, vplus.
      rewrite (mv_ext n _ _ ui ui B00 (veq_refl _ _) i Hi), (MV Qij Qij ui i Hi).
      rewrite (mv_ext n _ _ uj uj B01 (veq_refl _ _) i Hi), (mv_msc L n _ _ uj i Hi). unfold vscal. rewrite (MV Qij Qji uj i Hi).
      rewrite (mv_ext n _ _ _ _ (meq_refl n (mtr Qij)) (mv_minus L n E _ _) i Hi), (mv_minus L n (mtr Qij) _ _ i Hi).
      unfold vminus. ring. }
    assert (R1 : forall ui uj : @fvec F, veq n (row2 n (snd B) ui uj) (vscal (- f1) (mv n (mtr Qji) (mv n E (vminus (mv n Qij ui) (mv n Qji uj)))))).
    { clear ui uj jump. intros ui uj i Hi. unfold row2, vplus.
      rewrite (mv_ext n _ _ ui ui B10 (veq_refl _ _) i Hi), (mv_msc L n _ _ ui i Hi). unfold vscal. rewrite (MV Qji Qij ui i Hi).
      rewrite (mv_ext n _ _ uj uj B11 (veq_refl _ _) i Hi), (MV Qji Qji uj i Hi).
      rewrite (mv_ext n _ _ _ _ (meq_refl n (mtr Qji)) (mv_minus L n E _ _) i Hi), (mv_minus L n (mtr Qji) _ _ i Hi).
      unfold vminus. ring. }
    split.
    { eapply meq_trans; [exact B00|]. apply meq_sym. eapply meq_trans; [apply (mtr_ext _ _ _ B00)|]. apply TT. }
    split.
    { eapply meq_trans; [exact B11|]. apply meq_sym. eapply meq_trans; [apply (mtr_ext _ _ _ B11)|]. apply TT. }
    split; [apply meq_refl|].
    split.
    { unfold energy2. rewrite (ip_ext n _ _ _ _ (R0 ui uj) (veq_refl _ ui)), (ip_ext n _ _ _ _ (R1 ui uj) (veq_refl _ uj)).
      fold jump. rewrite (ip_vscal_l L), !(ip_mtr L). unfold jump at 4. rewrite (ip_minus_r L). ring. }
    split; [apply R0|]. split; [apply R1|].
    assert (J0 : veq n (vminus (mv n Qij (rigid_at d3 a w vi)) (mv n Qji (rigid_at d3 a w vj))) (fun _ => f0)).
    { intros i Hi. unfold vminus. destruct (C72_transformation d3 vi vj vi a w mzero mzero S) as (_ & _ & _ & _ & _ & _ & X1 & X2 & _).
      { apply S. } unfold Qij, Qji, n. rewrite (X1 i Hi), (X2 i Hi). ring. }
    assert (Z : forall A : @mat F, veq n (mv n A (fun _ => f0)) (fun _ => f0)).
    { intros A i Hi. unfold mv. transitivity (fsum n (fun _ => @f0 F)); [apply fsum_ext; intros; ring|apply (fsum_zero L)]. }
    assert (Z2 : forall P : @mat F, veq n (mv n (mtr P) (mv n E (vminus (mv n Qij (rigid_at d3 a w vi)) (mv n Qji (rigid_at d3 a w vj))))) (fun _ => f0)).
    { intros P. eapply veq_trans; [apply mv_ext; [apply meq_refl|apply mv_ext; [apply meq_refl|exact J0]]|].
      eapply veq_trans; [apply mv_ext; [apply meq_refl|apply Z]|]. apply Z. }
    intros i Hi. split.
    - rewrite (R0 _ _ i Hi). apply (Z2 Qij i Hi).
    - rewrite (R1 _ _ i Hi). unfold vscal. rewrite (Z2 Qji i Hi). ring.
  Qed.

  (** === C72, midpoint weights: for equal rotation scalings the weight of the midpoint vertex has the energy of both end
      weights, taken at the transformed argument. *)
  Theorem C72_midpoint_weight : forall d3 (va vb : @vdata F) (G1 G2 : mat) (u : fvec),
    let n := DPV d3 in
    scalings_ok (rsc va) (rsc vb) -> rsc va = rsc vb -> symm n (wt va) -> symm n (wt vb) ->
    let o := CalcMPDataWW d3 va vb G1 G2 in
    let ua := mv n (Qmat d3 (GetQiToj (CalcMPData va vb) va)) u in
    let ub := mv n (Qmat d3 (GetQiToj (CalcMPData va vb) vb)) u in
    ip n (mv n (wt o) u) u = ip n (mv n (wt va) ua) ua + ip n (mv n (wt vb) ub) ub.
  Proof.
    intros d3 va vb G1 G2 u n S Heq Sa Sb o ua ub. pose proof S as (H1 & H2 & H3 & H4 & H5).
    pose proof (sqnz _ H1 H3) as N1. pose proof (sqnz _ H2 H4) as N2.
    pose (Qij := Qmat d3 (fst (GetQijQji va vb))). pose (Qji := Qmat d3 (snd (GetQijQji va vb))).
    assert (E1 : rs (snd (GetQijQji va vb)) = f1).
    { cbn. rewrite Heq, H2. field. auto. }
    assert (W : meq n (wt o) (madd (mmul n (mtr Qji) (mmul n (wt va) Qji)) (mmul n (mtr Qij) (mmul n (wt vb) Qij)))).
    { unfold o, CalcMPDataWW, CalcQs. destruct (GetQijQji va vb) as [qij qji] eqn:EQ. cbn [fst snd] in *.
      eapply meq_trans; [cbn [wt]; apply (AddQtMQ_ok L d3 f1 (rs qij) (tang qij)); [apply (SetQ_ok L)|exact Sb]|].
      intros i j Hi Hj. unfold madd, msc.
      rewrite (SetQtMQ_ok L d3 f1 (rs qji) (tang qji) _ _ _ (SetQ_ok L d3 qji G2) Sa E1 i j Hi Hj).
      unfold Qij, Qji, Qmat, msc. fold n. ring. }
    assert (MA : forall A C : @mat F, veq n (mv n (madd A C) u) (vplus (mv n A u) (mv n C u))).
    { intros A C i Hi. unfold mv, madd, vplus. rewrite <- (fsum_add L). apply fsum_ext. intros; ring. }
    assert (EN : forall P (M : @mat F), ip n (mv n (mmul n (mtr P) (mmul n M P)) u) u = ip n (mv n M (mv n P u)) (mv n P u)).
    { intros P M. rewrite <- (ip_mtr L). apply ip_ext; [|apply veq_refl].
      eapply veq_trans; [apply (mv_mmul L)|]. apply mv_ext; [apply meq_refl|apply (mv_mmul L)]. }
    assert (IN : forall v v' : @vdata F, rsc v <> f0 -> rsc v' <> f0 -> meq n (mmul n (Qmat d3 (GetQiToj v' v)) (Qmat d3 (GetQiToj v v'))) ident).
    { intros v v' X1 X2. eapply meq_trans; [apply (Q_mul L)|]. apply (Q_ident L); [intros i|]; cn; field; auto. }
    assert (Ta : veq n (mv n Qji u) ua).
    { assert (IL : meq n (mmul n Qij Qji) ident).
      { apply (C72_transformation d3 va vb va u u G1 G2 S H3). }
      assert (MI : meq n (Qmat d3 (GetQiToj (CalcMPData va vb) va)) Qji).
      { apply Qof_ext; [|intros i]; cn; sq1 va vb Heq H1 H3 H5. }
      apply mv_ext; [now apply meq_sym|apply veq_refl]. }
    assert (Tb : veq n (mv n Qij u) ub).
    { apply mv_ext; [|apply veq_refl]. apply meq_sym. apply Qof_ext; [|intros i]; cn; sq1 va vb Heq H1 H3 H5. }
    rewrite (ip_ext n _ (vplus (mv n (mmul n (mtr Qji) (mmul n (wt va) Qji)) u) (mv n (mmul n (mtr Qij) (mmul n (wt vb) Qij)) u)) u u); [| |apply veq_refl].
    2:{ eapply veq_trans; [apply mv_ext; [exact W|apply veq_refl]|apply MA]. }
    transitivity (ip n (mv n (mmul n (mtr Qji) (mmul n (wt va) Qji)) u) u + ip n (mv n (mmul n (mtr Qij) (mmul n (wt vb) Qij)) u) u).
    { unfold ip, vplus. rewrite <- (fsum_add L). apply fsum_ext. intros; ring. }
    rewrite !EN. f_equal.
    - apply ip_ext; auto. apply mv_ext; [apply meq_refl|auto].
    - apply ip_ext; auto. apply mv_ext; [apply meq_refl|auto].
  Qed.
End P.

(** SetQ(alpha, E) does not scale the coupling block: it is alpha * Q only if alpha = 1 or the tangent vanishes.  (It is called
    with alpha = -1 in vertex_factory_impl.hpp:949, 1070.) *)
Theorem C72_scaled_transformation_refuted : forall (F : Fld) (L : FldLaws F) d3 (q : @TQ F) (alpha : FK F) (G : mat),
  meq (DPV d3) (SetQa d3 q alpha G) (msc alpha (Qmat d3 q)) -> forall i, i < DISP d3 -> tang q i = fmul alpha (tang q i).
Proof.
  intros F L d3 q alpha G H i Hi. pose proof (law_field _ L) as fth. 
  assert (R : ring_theory (@f0 F) f1 fadd fmul fsub fopp eq) by apply fth.
  destruct d3.
  - assert (E : forall a b, a < 6 -> b < 6 -> SetQa true q alpha G a b = msc alpha (Qmat true q) a b) by exact H. clear H.
    assert (X : forall x y : FK F, fsub (fmul f1 x) (fmul f0 y) = x).
    { intros x y. rewrite (Rsub_def R), (Rmul_1_l R). rewrite <- (Radd_0_l R x) at 2. rewrite (Radd_comm R). f_equal.
      assert (Z : fmul f0 y = @f0 F).
      { assert (ZZ : fadd (fmul f0 y) (fmul f0 y) = fadd f0 (fmul f0 y)).
        { rewrite <- (Rdistr_l R), (Radd_0_l R), (Radd_0_l R). reflexivity. }
        apply (f_equal (fun t => fadd t (fopp (fmul f0 y)))) in ZZ. rewrite <- !(Radd_assoc R), (Ropp_def R) in ZZ.
        now rewrite (Radd_comm R), !(Radd_0_l R) in ZZ. }
      rewrite Z. rewrite <- (Radd_0_l R (fopp f0)). apply (Ropp_def R). }
    destruct i as [|[|[|i]]]; [| | |exfalso; cbv in Hi; lia].
    + specialize (E 1 5 ltac:(lia) ltac:(lia)). revert E. cbv -[f0 f1 fadd fmul fsub fopp tang rs FK]. rewrite X. auto.
    + specialize (E 2 3 ltac:(lia) ltac:(lia)). revert E. cbv -[f0 f1 fadd fmul fsub fopp tang rs FK]. rewrite X. auto.
    + specialize (E 0 4 ltac:(lia) ltac:(lia)). revert E. cbv -[f0 f1 fadd fmul fsub fopp tang rs FK]. rewrite X. auto.
  - assert (E : forall a b, a < 3 -> b < 3 -> SetQa false q alpha G a b = msc alpha (Qmat false q) a b) by exact H. clear H.
    assert (OO : forall x : FK F, fopp (fopp x) = x).
    { intros x. rewrite <- (Radd_0_l R (fopp (fopp x))), <- (Ropp_def R x), <- (Radd_assoc R), (Ropp_def R), (Radd_comm R).
      apply (Radd_0_l R). }
    destruct i as [|[|i]]; [| |exfalso; cbv in Hi; lia].
    + specialize (E 1 2 ltac:(lia) ltac:(lia)). revert E. cbv -[f0 f1 fadd fmul fsub fopp tang rs FK]. rewrite (Rmul_1_l R). auto.
    + specialize (E 0 2 ltac:(lia) ltac:(lia)). revert E. cbv -[f0 f1 fadd fmul fsub fopp tang rs FK]. rewrite (Rmul_1_l R). intros E.
      assert (NM : forall x y : FK F, fmul x (fopp y) = fopp (fmul x y)).
      { intros x y. assert (Z : fadd (fmul x y) (fmul x (fopp y)) = f0).
        { rewrite (Rmul_comm R x y), (Rmul_comm R x (fopp y)), <- (Rdistr_l R), (Ropp_def R).
          assert (ZZ : fadd (fmul f0 x) (fmul f0 x) = fadd f0 (fmul f0 x)).
          { rewrite <- (Rdistr_l R), (Radd_0_l R), (Radd_0_l R). reflexivity. }
          apply (f_equal (fun t => fadd t (fopp (fmul f0 x)))) in ZZ. rewrite <- !(Radd_assoc R), (Ropp_def R) in ZZ.
          now rewrite (Radd_comm R), !(Radd_0_l R) in ZZ. }
        apply (f_equal (fun t => fadd (fopp (fmul x y)) t)) in Z.
        rewrite (Radd_assoc R), (Radd_comm R (fopp (fmul x y)) (fmul x y)), (Ropp_def R), (Radd_0_l R) in Z. rewrite Z.
        rewrite (Radd_comm R). apply (Radd_0_l R). }
      rewrite NM in E. apply (f_equal fopp) in E. now rewrite !OO in E.
Qed.

(** concrete arithmetic for the witnesses: rationals; sqrt is only used at 0, 1 and 4 *)
Definition QcFld : Fld :=
  mkFld Qc (Q2Qc 0) (Q2Qc 1) Qcplus Qcmult Qcminus Qcopp Qcdiv Qcinv
        (fun x => if Qc_eq_bool x (Q2Qc 4) then Q2Qc 2 else x) Qc_eq_bool.
Lemma QcFldLaws : FldLaws QcFld.
Proof.
  split.
  - exact Qcft.
  - intros x y. split; [apply Qc_eq_bool_correct|]. intros ->. cbn. unfold Qc_eq_bool. now destruct (Qc_eq_dec y y).
Qed.
Definition qz (z : Z) : FK QcFld := Q2Qc (inject_Z z).
Definition qv (l : list Z) : @fvec QcFld := fun i => qz (nth i l 0%Z).
Definition ex_vi : @vdata QcFld := mkVD (qv (1 :: 0 :: 2 :: nil)%Z) ident (qz 1).
Definition ex_vj : @vdata QcFld := mkVD (qv (4 :: -1 :: 3 :: nil)%Z) ident (qz 4).
Definition ex_vk : @vdata QcFld := mkVD (qv (5 :: 7 :: -3 :: nil)%Z) ident (qz 1).
Lemma qneq (x y : Qc) : this x <> this y -> x <> y. Proof. intros H ->. auto. Qed.
Lemma ex_scalings : scalings_ok (rsc ex_vi) (rsc ex_vj).
Proof.
  unfold scalings_ok. split; [|split; [|split; [|split]]]; cbn.
  - apply Qc_is_canon; vm_compute; reflexivity.
  - apply Qc_is_canon; vm_compute; reflexivity.
  - apply qneq. vm_compute. discriminate.
  - apply qneq. vm_compute. discriminate.
  - apply qneq. vm_compute. discriminate.
Qed.
(** a symmetric matrix without special structure *)
Definition ex_E : @mat QcFld := fun i j => if i =? j then qz 7 else qz (Z.of_nat (i * j + i + j)).
Lemma ex_E_sym n : symm n ex_E.
Proof.
  intros i j _ _. unfold mtr, ex_E. rewrite (Nat.eqb_sym j i). destruct (i =? j); auto.
  replace (j * i + j + i) with (i * j + i + j) by lia. reflexivity.
Qed.

Example C72_ex_transformation : scalings_ok (rsc ex_vi) (rsc ex_vj) /\ rsc ex_vk <> f0
  /\ tang (GetQiToj ex_vi ex_vj) 0 <> f0 /\ rs (fst (GetQijQji ex_vi ex_vj)) <> f1.
Proof.
  split; [exact ex_scalings|]. split; [|split]; apply qneq; vm_compute; discriminate.
Qed.
Example C72_ex_edge : scalings_ok (rsc ex_vi) (rsc ex_vj) /\ symm (DPV true) ex_E
  /\ energy2 6 (CalcRMBlock true ex_E ex_vi ex_vj) (qv (1 :: 2 :: nil)%Z) (qv (0 :: 1 :: 3 :: nil)%Z) <> f0.
Proof.
  split; [exact ex_scalings|]. split; [apply ex_E_sym|]. apply qneq. vm_compute. discriminate.
Qed.
Example C72_ex_stored : meq (DPV true) (CalcQHh true ex_vi ex_vj mzero) (Qof true (rs (GetQiToj ex_vi ex_vj)) (tang (GetQiToj ex_vi ex_vj)))
  /\ symm (DPV true) ex_E.
Proof. split; [apply (SetQ_ok QcFldLaws)|apply ex_E_sym]. Qed.
Example C72_ex_midpoint : scalings_ok (rsc ex_vi) (rsc ex_vk) /\ rsc ex_vi = rsc ex_vk
  /\ symm (DPV true) (wt ex_vi) /\ symm (DPV true) (wt ex_vk).
Proof.
  assert (SI : forall n, symm n (@ident QcFld)) by (intros n i j _ _; unfold mtr, ident; now rewrite Nat.eqb_sym).
  split; [|split; [reflexivity|split; apply SI]].
  unfold scalings_ok. split; [|split; [|split; [|split]]]; cbn.
  - apply Qc_is_canon; vm_compute; reflexivity.
  - apply Qc_is_canon; vm_compute; reflexivity.
  - apply qneq. vm_compute. discriminate.
  - apply qneq. vm_compute. discriminate.
  - apply qneq. vm_compute. discriminate.
Qed.

(** Q*E*Q^T is computed wrongly in three dimensions, whatever the uninitialised local contains. *)
Theorem C72_qmqt_3d_refuted : exists (q : @TQ QcFld) (E : mat), symm 6 E /\
  forall G, ~ meq 6 (QMQT true q G E) (mmul 6 (Qmat true q) (mmul 6 E (mtr (Qmat true q)))).
Proof.
  exists (mkTQ (qz 1) (qv (0 :: 0 :: 1 :: nil)%Z)), ident. split.
  - intros i j _ _. unfold mtr, ident. now rewrite Nat.eqb_sym.
  - intros G H. specialize (H 0 4 ltac:(lia) ltac:(lia)). apply (f_equal this) in H. vm_compute in H. discriminate.
Qed.

(** SetQtMQ leaves out the factor s in one term, so that it is not Q^T M Q for a relative rotation scaling s <> 1;
    the weight of a midpoint vertex (CalcMPDataWW) inherits this. *)
Theorem C72_setqtmq_refuted : exists (q : @TQ QcFld) (M : mat), symm 6 M /\
  forall A, ~ meq 6 (SetQtMQ true f1 A (Qmat true q) M) (mmul 6 (mtr (Qmat true q)) (mmul 6 M (Qmat true q))).
Proof.
  exists (mkTQ (qz 2) (qv (0 :: 0 :: 1 :: nil)%Z)), ex_E. split; [apply ex_E_sym|].
  intros A H. specialize (H 3 3 ltac:(lia) ltac:(lia)). apply (f_equal this) in H. vm_compute in H. discriminate.
Qed.

Print Assumptions C72_transformation.
Print Assumptions C72_products.
Print Assumptions C72_stored_products.
Print Assumptions C72_edge_contribution.
Print Assumptions C72_midpoint_weight.
Print Assumptions C72_scaled_transformation_refuted.
Print Assumptions C72_qmqt_3d_refuted.
Print Assumptions C72_setqtmq_refuted.
