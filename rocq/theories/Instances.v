(** Concrete block algebras (non-vacuity witnesses for [BlkLaws]): scalar entries over Z and Qc, 2x2 blocks over Z. *)
From Verif Require Import Base AGroup LinAlg LinTools GSSpec.
From Coq Require Import QArith Qcanon.
Open Scope Z_scope.

Definition ZBlk : Blk := mkBlk Z 0 1 Z.add Z.mul Z.opp Z 0 Z.add Z.opp Z.mul Z 0 Z.add (fun a => a) Z.mul Z.mul.
Lemma ZLaws : BlkLaws ZBlk.
Proof.
  split; simpl; intros; try ring; try (now destruct x).
  - split; simpl; intros; unfold ksub; simpl; try ring; now destruct x.
  - split; intros; ring.
Qed.
Lemma ZOrder : KOrder (B:=ZBlk) Z.le.
Proof. split; simpl; intros; lia. Qed.

(** 2x2 blocks *)
Definition Z2 := (Z * Z)%type.
Definition z2add (a b : Z2) : Z2 := (fst a + fst b, snd a + snd b).
Definition z2opp (a : Z2) : Z2 := (- fst a, - snd a).
Definition z2sc (c : Z) (a : Z2) : Z2 := (c * fst a, c * snd a).
Definition z2dot (a b : Z2) : Z := fst a * fst b + snd a * snd b.
Definition ZM := (Z2 * Z2)%type. (* rows *)
Definition zmadd (a b : ZM) : ZM := (z2add (fst a) (fst b), z2add (snd a) (snd b)).
Definition zmtr (a : ZM) : ZM := ((fst (fst a), fst (snd a)), (snd (fst a), snd (snd a))).
Definition zmact (a : ZM) (x : Z2) : Z2 := (z2dot (fst a) x, z2dot (snd a) x).
Definition Z2Blk : Blk :=
  mkBlk Z 0 1 Z.add Z.mul Z.opp Z2 (0,0) z2add z2opp z2sc ZM ((0,0),(0,0)) zmadd zmtr zmact z2dot.
Lemma Z2Laws : BlkLaws Z2Blk.
Proof.
  Ltac z2 := repeat match goal with a : (_ * _)%type |- _ => destruct a end;
    cbn [fst snd z2add z2opp z2sc zmadd zmtr zmact z2dot Z2Blk xadd xopp xsc madd mtr act dot x0 m0 k0 k1 kadd kmul kopp];
    unfold z2add, z2opp, z2sc, zmadd, zmtr, zmact, z2dot; cbn [fst snd]; unfold z2add, z2dot; cbn [fst snd];
    repeat apply (f_equal2 pair); try ring.
  split; cbn [X M K Z2Blk]; unfold Z2, ZM in *; intros; try (z2; fail).
  - split; simpl; intros; unfold ksub; simpl; try ring; now destruct x.
  - split; intros; z2.
Qed.

(** rationals (Leibniz equality) *)
Definition QcBlk : Blk :=
  mkBlk Qc (Q2Qc 0) (Q2Qc 1) Qcplus Qcmult Qcopp Qc (Q2Qc 0) Qcplus Qcopp Qcmult Qc (Q2Qc 0) Qcplus (fun a => a) Qcmult Qcmult.
Lemma QcLaws : BlkLaws QcBlk.
Proof.
  split; simpl; intros; try ring.
  - split; simpl; intros; unfold ksub; simpl; ring.
  - split; intros; ring.
Qed.
Lemma QcOrder : KOrder (B:=QcBlk) Qcle.
Proof.
  split; simpl; intros. apply Qcle_refl. eapply Qcle_trans; eauto. apply Qcplus_le_compat; auto. apply Qcle_refl.
Qed.

(** boolean checks of the matrix hypotheses for literal matrices *)
Open Scope nat_scope.
Definition wf_matb {B : Blk} (n m : nat) (A : @spmat B) : bool :=
  (length A =? n) && forallb (fun r => forallb (fun p => fst p <? m) r) A.
Lemma wf_matb_ok {B : Blk} n m (A : @spmat B) : wf_matb n m A = true -> wf_mat n m A.
Proof.
  intros H. apply andb_true_iff in H as [H1 H2]. apply Nat.eqb_eq in H1. split; auto.
  intros i p Hp. unfold getrow in Hp. destruct (Nat.lt_ge_cases i (length A)).
  - rewrite forallb_forall in H2. specialize (H2 _ (nth_In A [] H)). rewrite forallb_forall in H2.
    apply Nat.ltb_lt. now apply H2.
  - rewrite nth_overflow in Hp by auto. easy.
Qed.
Lemma symmetric_ok {B : Blk} n (A : @spmat B) :
  Forall (fun i => Forall (fun j => entry A j i = mtr (entry A i j)) (seq 0 n)) (seq 0 n) -> sym_mat n A.
Proof.
  intros H i j Hi Hj. rewrite Forall_forall in H. specialize (H i ltac:(apply in_seq; lia)).
  rewrite Forall_forall in H. apply H. apply in_seq; lia.
Qed.
Ltac sym_tac := apply symmetric_ok; repeat (constructor; [repeat (constructor; [reflexivity|]); constructor|]); constructor.
