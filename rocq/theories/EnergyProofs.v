From Coq Require Import List Arith Lia Bool Ring Field.
From Verif Require Import EnergyModel EnergySpec.

Section P.
  Context {F : Fld} (L : FldLaws F).
  Local Notation K := (FK F).
  Local Open Scope fld_scope.
  Lemma fth : field_theory (@f0 F) f1 fadd fmul fsub fopp fdiv finv eq. Proof. exact (law_field _ L). Qed.
  Add Field KF : fth.

  Ltac cn := cbv -[f0 f1 fadd fmul fsub fopp fdiv finv fsqrt feqb rs tang pos wt rsc FK].
  Ltac idx i H := destruct i as [|[|[|[|[|[|i]]]]]]; try (exfalso; cbv in H; lia).
  Ltac entries := let i := fresh "i" in let j := fresh "j" in let Hi := fresh in let Hj := fresh in
    intros i j Hi Hj; idx i Hi; idx j Hj; clear Hi Hj.

  Lemma rs_one (q : @TQ F) : feqb (rs q) f1 = true -> rs q = f1.
  Proof. apply (law_eqb _ L). Qed.

  Lemma SetQ_ok d3 (q : @TQ F) G : meq (DPV d3) (SetQ d3 q G) (Qmat d3 q).
  Proof. destruct d3; entries; cn; ring. Qed.

  Lemma MQ_ok d3 (q : @TQ F) E : meq (DPV d3) (MQ d3 q E) (mmul (DPV d3) E (Qmat d3 q)).
  Proof.
    unfold MQ. destruct (feqb (rs q) f1) eqn:R.
    - apply rs_one in R. destruct d3; entries; cn; rewrite ?R; ring.
    - destruct d3; entries; cn; ring.
  Qed.
  Lemma QTM_ok d3 (q : @TQ F) E : meq (DPV d3) (QTM d3 q E) (mmul (DPV d3) (mtr (Qmat d3 q)) E).
  Proof.
    unfold QTM. destruct (feqb (rs q) f1) eqn:R.
    - apply rs_one in R. destruct d3; entries; cn; rewrite ?R; ring.
    - destruct d3; entries; cn; ring.
  Qed.

  (** sums *)
  Lemma fsum_ext n (f g : nat -> K) : (forall i, i < n -> f i = g i) -> fsum n f = fsum n g.
  Proof. induction n as [|n IH]; intros H; cbn; auto. rewrite IH, H by auto. auto. Qed.
  Lemma fsum_add n (f g : nat -> K) : fsum n (fun i => f i + g i) = fsum n f + fsum n g.
  Proof. induction n as [|n IH]; cbn; [ring|]. rewrite IH. ring. Qed.
  Lemma fsum_scal n c (f : nat -> K) : fsum n (fun i => c * f i) = c * fsum n f.
  Proof. induction n as [|n IH]; cbn; [ring|]. rewrite IH. ring. Qed.
  Lemma fsum_zero n : fsum n (fun _ => @f0 F) = f0.
  Proof. induction n as [|n IH]; cbn; [auto|]. rewrite IH. ring. Qed.
  Lemma fsum_swap n m (f : nat -> nat -> K) :
    fsum n (fun i => fsum m (fun j => f i j)) = fsum m (fun j => fsum n (fun i => f i j)).
  Proof.
    induction n as [|n IH]; cbn; [now rewrite fsum_zero|]. rewrite IH, <- fsum_add. now apply fsum_ext.
  Qed.

  Lemma meq_refl n (A : @mat F) : meq n A A. Proof. easy. Qed.
  Lemma meq_sym n (A B : @mat F) : meq n A B -> meq n B A. Proof. intros H i j Hi Hj. symmetry. now apply H. Qed.
  Lemma meq_trans n (A B C : @mat F) : meq n A B -> meq n B C -> meq n A C.
  Proof. intros H1 H2 i j Hi Hj. now rewrite H1, H2. Qed.
  Lemma mmul_ext n (A A' B B' : @mat F) : meq n A A' -> meq n B B' -> meq n (mmul n A B) (mmul n A' B').
  Proof. intros H1 H2 i j Hi Hj. apply fsum_ext. intros k Hk. now rewrite H1, H2. Qed.
  Lemma mtr_ext n (A A' : @mat F) : meq n A A' -> meq n (mtr A) (mtr A').
  Proof. intros H i j Hi Hj. now apply H. Qed.
  Lemma msc_ext n c (A A' : @mat F) : meq n A A' -> meq n (msc c A) (msc c A').
  Proof. intros H i j Hi Hj. unfold msc. now rewrite H. Qed.
  Lemma mmul_assoc n (A B C : @mat F) : meq n (mmul n (mmul n A B) C) (mmul n A (mmul n B C)).
  Proof.
    intros i j Hi Hj. unfold mmul.
    transitivity (fsum n (fun k => fsum n (fun l => A i l * B l k * C k j))).
    { apply fsum_ext. intros k Hk. transitivity (C k j * fsum n (fun l => A i l * B l k)); [ring|]. rewrite <- fsum_scal. apply fsum_ext. intros; ring. }
    rewrite fsum_swap. apply fsum_ext. intros k Hk. rewrite <- fsum_scal. apply fsum_ext. intros; ring.
  Qed.
  Lemma mmul_msc_r n c (A B : @mat F) : meq n (mmul n A (msc c B)) (msc c (mmul n A B)).
  Proof. intros i j Hi Hj. unfold mmul, msc. rewrite <- fsum_scal. apply fsum_ext. intros; ring. Qed.
  Lemma mmul_msc_l n c (A B : @mat F) : meq n (mmul n (msc c A) B) (msc c (mmul n A B)).
  Proof. intros i j Hi Hj. unfold mmul, msc. rewrite <- fsum_scal. apply fsum_ext. intros; ring. Qed.
  Lemma mtr_mmul n (A B : @mat F) : meq n (mtr (mmul n A B)) (mmul n (mtr B) (mtr A)).
  Proof. intros i j Hi Hj. unfold mmul, mtr. apply fsum_ext. intros; ring. Qed.

  Lemma mv_ext n (A A' : @mat F) x x' : meq n A A' -> veq n x x' -> veq n (mv n A x) (mv n A' x').
  Proof. intros H1 H2 i Hi. apply fsum_ext. intros k Hk. now rewrite H1, H2. Qed.
  Lemma mv_mmul n (A B : @mat F) x : veq n (mv n (mmul n A B) x) (mv n A (mv n B x)).
  Proof.
    intros i Hi. unfold mv, mmul.
    transitivity (fsum n (fun k => fsum n (fun l => A i l * B l k * x k))).
    { apply fsum_ext. intros k Hk. transitivity (x k * fsum n (fun l => A i l * B l k)); [ring|]. rewrite <- fsum_scal. apply fsum_ext. intros; ring. }
    rewrite fsum_swap. apply fsum_ext. intros k Hk. rewrite <- fsum_scal. apply fsum_ext. intros; ring.
  Qed.
  Lemma mv_msc n c (A : @mat F) x : veq n (mv n (msc c A) x) (vscal c (mv n A x)).
  Proof. intros i Hi. unfold mv, msc, vscal. rewrite <- fsum_scal. apply fsum_ext. intros; ring. Qed.
  Lemma mv_minus n (A : @mat F) x y : veq n (mv n A (vminus x y)) (vminus (mv n A x) (mv n A y)).
  Proof.
    intros i Hi. unfold mv, vminus.
    transitivity (fsum n (fun j => A i j * x j + (- f1) * (A i j * y j))).
    { apply fsum_ext. intros; ring. } rewrite fsum_add, fsum_scal. ring.
  Qed.
  Lemma ip_ext n (x x' y y' : @fvec F) : veq n x x' -> veq n y y' -> ip n x y = ip n x' y'.
  Proof. intros H1 H2. apply fsum_ext. intros i Hi. now rewrite H1, H2. Qed.
  Lemma ip_minus_l n (x y z : @fvec F) : ip n (vminus x y) z = ip n x z - ip n y z.
  Proof.
    unfold ip, vminus. transitivity (fsum n (fun j => x j * z j + (- f1) * (y j * z j))).
    { apply fsum_ext. intros; ring. } rewrite fsum_add, fsum_scal. ring.
  Qed.
  Lemma ip_minus_r n (x y z : @fvec F) : ip n z (vminus x y) = ip n z x - ip n z y.
  Proof.
    unfold ip, vminus. transitivity (fsum n (fun j => z j * x j + (- f1) * (z j * y j))).
    { apply fsum_ext. intros; ring. } rewrite fsum_add, fsum_scal. ring.
  Qed.
  Lemma ip_vscal_l n c (x y : @fvec F) : ip n (vscal c x) y = c * ip n x y.
  Proof. unfold ip, vscal. rewrite <- fsum_scal. apply fsum_ext. intros; ring. Qed.
  Lemma ip_mtr n (A : @mat F) x y : ip n (mv n (mtr A) x) y = ip n x (mv n A y).
  Proof.
    unfold ip, mv, mtr.
    transitivity (fsum n (fun i => fsum n (fun j => A j i * x j * y i))).
    { apply fsum_ext. intros i Hi. transitivity (y i * fsum n (fun j => A j i * x j)); [ring|]. rewrite <- fsum_scal. apply fsum_ext. intros; ring. }
    rewrite fsum_swap. apply fsum_ext. intros j Hj. rewrite <- fsum_scal. apply fsum_ext. intros; ring.
  Qed.
  Lemma ip_comm n (x y : @fvec F) : ip n x y = ip n y x.
  Proof. apply fsum_ext. intros; ring. Qed.
  Lemma veq_trans n (x y z : @fvec F) : veq n x y -> veq n y z -> veq n x z.
  Proof. intros H1 H2 i Hi. now rewrite H1, H2. Qed.
  Lemma veq_sym n (x y : @fvec F) : veq n x y -> veq n y x. Proof. intros H i Hi. symmetry. now apply H. Qed.
  Lemma veq_refl n (x : @fvec F) : veq n x x. Proof. easy. Qed.
  Lemma vminus_ext n (x x' y y' : @fvec F) : veq n x x' -> veq n y y' -> veq n (vminus x y) (vminus x' y').
  Proof. intros H1 H2 i Hi. unfold vminus. now rewrite H1, H2. Qed.

  (** products that need a symmetric argument *)
  Ltac symrw H := 
    rewrite ?(H 1%nat 0%nat), ?(H 2%nat 0%nat), ?(H 2%nat 1%nat) by (cbv; lia);
    try rewrite ?(H 3%nat 0%nat), ?(H 4%nat 0%nat), ?(H 5%nat 0%nat), ?(H 3%nat 1%nat), ?(H 4%nat 1%nat), ?(H 5%nat 1%nat),
      ?(H 3%nat 2%nat), ?(H 4%nat 2%nat), ?(H 5%nat 2%nat), ?(H 4%nat 3%nat), ?(H 5%nat 3%nat), ?(H 5%nat 4%nat) by (cbv; lia).
  Lemma sym_eq n (E : @mat F) : symm n E -> forall i j, i < n -> j < n -> E i j = E j i.
  Proof. intros H i j Hi Hj. now apply H. Qed.

  Lemma QTMQ_ok d3 (q : @TQ F) E : symm (DPV d3) E ->
    meq (DPV d3) (QTMQ d3 q E) (mmul (DPV d3) (mtr (Qmat d3 q)) (mmul (DPV d3) E (Qmat d3 q))).
  Proof.
    intros H. pose proof (sym_eq _ _ H) as S. clear H. unfold QTMQ. destruct (feqb (rs q) f1) eqn:R.
    - apply rs_one in R. destruct d3; entries; cn; symrw S; rewrite ?R; ring.
    - destruct d3; entries; cn; symrw S; ring.
  Qed.

  (** matrices of the form of Q *)
  Lemma QtMQ_ok d3 s t (Q M : @mat F) : meq (DPV d3) Q (Qof d3 s t) -> symm (DPV d3) M ->
    meq (DPV d3) (QtMQ d3 Q M) (mmul (DPV d3) (mtr (Qof d3 s t)) (mmul (DPV d3) M (Qof d3 s t))).
  Proof.
    intros HQ H. pose proof (sym_eq _ _ H) as S. clear H.
    destruct d3; entries; cn; rewrite ?HQ by (cbv; lia); symrw S; cn; ring.
  Qed.
  Lemma AddQtMQ_ok d3 val s t (A Q M : @mat F) : meq (DPV d3) Q (Qof d3 s t) -> symm (DPV d3) M ->
    meq (DPV d3) (AddQtMQ d3 val A Q M)
      (madd A (msc val (mmul (DPV d3) (mtr (Qof d3 s t)) (mmul (DPV d3) M (Qof d3 s t))))).
  Proof.
    intros HQ H. pose proof (sym_eq _ _ H) as S. clear H.
    destruct d3; entries; cn; rewrite ?HQ by (cbv; lia); symrw S; cn; ring.
  Qed.
  Lemma SetQtMQ_ok d3 val s t (A Q M : @mat F) : meq (DPV d3) Q (Qof d3 s t) -> symm (DPV d3) M -> s = f1 ->
    meq (DPV d3) (SetQtMQ d3 val A Q M) (msc val (mmul (DPV d3) (mtr (Qof d3 s t)) (mmul (DPV d3) M (Qof d3 s t)))).
  Proof.
    intros HQ H Hs. pose proof (sym_eq _ _ H) as S. clear H. subst s.
    destruct d3; entries; cn; rewrite ?HQ by (cbv; lia); symrw S; cn; ring.
  Qed.
  Lemma CalcMQ_ok d3 c s t (Q M out : @mat F) : meq (DPV d3) Q (Qof d3 s t) ->
    meq (DPV d3) (CalcMQ d3 c M Q out) (msc c (mmul (DPV d3) M (Qof d3 s t))).
  Proof. intros HQ. destruct d3; entries; cn; rewrite ?HQ by (cbv; lia); cn; ring. Qed.
  Lemma AddMQ_ok d3 c s t (Q M out : @mat F) : meq (DPV d3) Q (Qof d3 s t) ->
    meq (DPV d3) (AddMQ d3 c M Q out) (madd out (msc c (mmul (DPV d3) M (Qof d3 s t)))).
  Proof. intros HQ. destruct d3; entries; cn; rewrite ?HQ by (cbv; lia); cn; ring. Qed.
  Lemma CalcQTM_ok c s t (Q M out : @mat F) : meq (DPV true) Q (Qof true s t) ->
    meq (DPV true) (CalcQTM true c Q M out) (msc c (mmul (DPV true) (mtr (Qof true s t)) M)).
  Proof. intros HQ. entries; cn; rewrite ?HQ by (cbv; lia); cn; ring. Qed.
  Lemma AddQTM_ok c s t (Q M out : @mat F) : meq (DPV true) Q (Qof true s t) ->
    meq (DPV true) (AddQTM true c Q M out) (madd out (msc c (mmul (DPV true) (mtr (Qof true s t)) M))).
  Proof. intros HQ. entries; cn; rewrite ?HQ by (cbv; lia); cn; ring. Qed.
  Lemma CalcQ_ok d3 (t : @fvec F) si sj : meq (DPV d3) (CalcQ d3 t si sj) (Qof d3 (si / sj) (vscal si t)).
  Proof. destruct d3; entries; cn; ring. Qed.

  (** QMQT is right in two dimensions *)
  Lemma QMQT_ok (q : @TQ F) G E : symm 3 E ->
    meq 3 (QMQT false q G E) (mmul 3 (Qmat false q) (mmul 3 E (mtr (Qmat false q)))).
  Proof.
    intros H. pose proof (sym_eq _ _ H) as S. clear H. unfold QMQT. destruct (feqb (rs q) f1) eqn:R.
    - apply rs_one in R. change 3 with (DPV false). entries; cn; symrw S; rewrite ?R; ring.
    - change 3 with (DPV false). entries; cn; symrw S; ring.
  Qed.

  Lemma Q_ident d3 (t : @fvec F) s : (forall i, t i = f0) -> s = f1 -> meq (DPV d3) (Qof d3 s t) ident.
  Proof. intros Ht ->. destruct d3; entries; cn; rewrite ?Ht; ring. Qed.

  (** two transformations one after the other *)
  Lemma Q_mul d3 s1 t1 s2 t2 :
    meq (DPV d3) (mmul (DPV d3) (Qof d3 s2 t2) (Qof d3 s1 t1)) (Qof (F:=F) d3 (s2 * s1) (fun i => t1 i + s1 * t2 i)).
  Proof. destruct d3; entries; cn; ring. Qed.

  Lemma Qof_ext d3 s1 t1 s2 t2 : s1 = s2 -> (forall i, t1 i = t2 i) -> meq (DPV d3) (Qof (F:=F) d3 s1 t1) (Qof d3 s2 t2).
  Proof. intros -> H. destruct d3; entries; cn; rewrite ?H; auto. Qed.

  Lemma rigid_step d3 a w p (s s' : K) r t :
    s <> f0 -> s' <> f0 -> r = s / s' ->
    veq (DPV d3) (mv (DPV d3) (Qof d3 r t) (rigid d3 a w p s)) (rigid d3 a w (fun i => p i + t i / s) s').
  Proof.
    intros H1 H2 ->. intros i Hi. destruct d3; idx i Hi; cn; field; auto.
  Qed.
  Lemma rigid_ext d3 a w p p' s : (forall i, p i = p' i) -> veq (DPV d3) (rigid (F:=F) d3 a w p s) (rigid d3 a w p' s).
  Proof. intros H i Hi. destruct d3; idx i Hi; cn; rewrite ?H; auto. Qed.
End P.
