(** A reflexive decision procedure for equations in abelian groups (proof tool only; models nothing). *)
From Verif Require Import Base.

Section AG.
  Context {X : Type} (x0 : X) (xadd : X -> X -> X) (xopp : X -> X).
  Record AGLaws : Prop := mkAG {
    ag_assoc : forall a b c, xadd a (xadd b c) = xadd (xadd a b) c;
    ag_comm : forall a b, xadd a b = xadd b a;
    ag_0 : forall a, xadd a x0 = a;
    ag_opp : forall a, xadd a (xopp a) = x0 }.
  Hypothesis L : AGLaws.

  Inductive agexp := AV (n : nat) | A0 | AAdd (a b : agexp) | AOpp (a : agexp).

  Fixpoint ageval (env : list X) (e : agexp) : X :=
    match e with
    | AV n => nth n env x0
    | A0 => x0
    | AAdd a b => xadd (ageval env a) (ageval env b)
    | AOpp a => xopp (ageval env a)
    end.

  (* coefficients of the atoms *)
  Fixpoint cadd (a b : list Z) : list Z :=
    match a, b with
    | [], _ => b
    | _, [] => a
    | x :: a', y :: b' => (x + y)%Z :: cadd a' b'
    end.
  Fixpoint cvar (n : nat) : list Z := match n with O => [1%Z] | S n' => 0%Z :: cvar n' end.
  Fixpoint agnf (e : agexp) : list Z :=
    match e with
    | AV n => cvar n
    | A0 => []
    | AAdd a b => cadd (agnf a) (agnf b)
    | AOpp a => map Z.opp (agnf a)
    end.
  Definition iszero (l : list Z) : bool := forallb (Z.eqb 0) l.

  Fixpoint nmul (n : nat) (x : X) : X := match n with O => x0 | S n' => xadd x (nmul n' x) end.
  Definition zmul (z : Z) (x : X) : X :=
    match z with Z0 => x0 | Zpos p => nmul (Pos.to_nat p) x | Zneg p => xopp (nmul (Pos.to_nat p) x) end.
  Fixpoint ceval (env : list X) (c : list Z) : X :=
    match c, env with
    | z :: c', x :: env' => xadd (zmul z x) (ceval env' c')
    | _, _ => x0
    end.

  Lemma ag_0l a : xadd x0 a = a. Proof. rewrite (ag_comm L); apply (ag_0 L). Qed.
  Lemma ag_cancel a b c : xadd a b = xadd a c -> b = c.
  Proof.
    intros H. rewrite <- (ag_0l b), <- (ag_0l c), <- (ag_opp L a).
    rewrite (ag_comm L a (xopp a)), <- !(ag_assoc L), H. reflexivity.
  Qed.
  Lemma ag_opp0 : xopp x0 = x0.
  Proof. rewrite <- (ag_0l (xopp x0)). apply (ag_opp L). Qed.
  Lemma ag_swap a b c d : xadd (xadd a b) (xadd c d) = xadd (xadd a c) (xadd b d).
  Proof. rewrite <- !(ag_assoc L). f_equal. rewrite !(ag_assoc L). rewrite (ag_comm L b c). reflexivity. Qed.
  Lemma ag_opp_add a b : xopp (xadd a b) = xadd (xopp a) (xopp b).
  Proof. apply (ag_cancel (xadd a b)). rewrite (ag_opp L), ag_swap, !(ag_opp L), (ag_0 L). reflexivity. Qed.
  Lemma ag_oppopp a : xopp (xopp a) = a.
  Proof. apply (ag_cancel (xopp a)). rewrite (ag_opp L), (ag_comm L), (ag_opp L). reflexivity. Qed.

  Lemma nmul_add n m x : nmul (n + m) x = xadd (nmul n x) (nmul m x).
  Proof. induction n; simpl. now rewrite ag_0l. now rewrite IHn, (ag_assoc L). Qed.
  Lemma nmul_sub n m x : m <= n -> nmul (n - m) x = xadd (nmul n x) (xopp (nmul m x)).
  Proof.
    intros H. replace n with ((n - m) + m) at 2 by lia. rewrite nmul_add, <- (ag_assoc L), (ag_opp L), (ag_0 L). reflexivity.
  Qed.
  Lemma zmul_add a b x : zmul (a + b) x = xadd (zmul a x) (zmul b x).
  Proof.
    destruct a as [|p|p], b as [|q|q]; simpl; try rewrite ag_0l; try rewrite (ag_0 L); auto.
    - rewrite Pos2Nat.inj_add. apply nmul_add.
    - rewrite Z.pos_sub_spec. destruct (Pos.compare_spec p q) as [E|E|E]; simpl.
      + subst. now rewrite (ag_opp L).
      + rewrite Pos2Nat.inj_sub by auto. rewrite nmul_sub by lia.
        rewrite ag_opp_add, ag_oppopp, (ag_comm L). reflexivity.
      + rewrite Pos2Nat.inj_sub by auto. rewrite nmul_sub by lia. reflexivity.
    - rewrite Z.pos_sub_spec. destruct (Pos.compare_spec q p) as [E|E|E]; simpl.
      + subst. rewrite (ag_comm L), (ag_opp L). reflexivity.
      + rewrite Pos2Nat.inj_sub by auto. rewrite nmul_sub by lia.
        rewrite ag_opp_add, ag_oppopp. reflexivity.
      + rewrite Pos2Nat.inj_sub by auto. rewrite nmul_sub by lia. apply (ag_comm L).
    - rewrite Pos2Nat.inj_add, nmul_add. apply ag_opp_add.
  Qed.
  Lemma zmul_opp a x : zmul (- a) x = xopp (zmul a x).
  Proof. destruct a; simpl; auto. now rewrite ag_opp0. now rewrite ag_oppopp. Qed.

  Lemma ceval_nil env : ceval env [] = x0. Proof. destruct env; reflexivity. Qed.
  Lemma ceval_add env a b : ceval env (cadd a b) = xadd (ceval env a) (ceval env b).
  Proof.
    revert a b. induction env as [|x env IH]; intros a b.
    - destruct a, b; simpl; now rewrite (ag_0 L).
    - destruct a as [|p a]; [simpl; now rewrite ag_0l|].
      destruct b as [|q b]; [simpl; now rewrite (ag_0 L)|]. simpl.
      rewrite zmul_add, IH. apply ag_swap.
  Qed.
  Lemma ceval_opp env a : ceval env (map Z.opp a) = xopp (ceval env a).
  Proof.
    revert a. induction env as [|x env IH]; intros [|p a]; simpl; try now rewrite ag_opp0.
    rewrite IH, ag_opp_add. f_equal. apply zmul_opp.
  Qed.
  Lemma ceval_var env n : ceval env (cvar n) = nth n env x0.
  Proof.
    revert n. induction env as [|x env IH]; intros [|n]; simpl; auto.
    - rewrite ceval_nil, (ag_0 L). apply (ag_0 L).
    - now rewrite IH, ag_0l.
  Qed.
  Lemma ceval_zero env c : iszero c = true -> ceval env c = x0.
  Proof.
    revert env. induction c as [|z c IH]; intros [|x env] H; simpl in *; auto.
    apply andb_true_iff in H as [H1 H2]. destruct z; try discriminate. simpl. now rewrite IH, ag_0l.
  Qed.
  Lemma agnf_ok env e : ageval env e = ceval env (agnf e).
  Proof.
    induction e; simpl.
    - now rewrite ceval_var. - now rewrite ceval_nil. - now rewrite ceval_add, IHe1, IHe2.
    - now rewrite ceval_opp, IHe.
  Qed.
  Theorem ag_sound env a b : iszero (agnf (AAdd a (AOpp b))) = true -> ageval env a = ageval env b.
  Proof.
    intros H. apply (ceval_zero env) in H. rewrite <- agnf_ok in H. simpl in H.
    apply (ag_cancel (xopp (ageval env b))). rewrite (ag_comm L _ (ageval env a)), H.
    rewrite (ag_comm L), (ag_opp L). reflexivity.
  Qed.
End AG.

Ltac ag_mem a l := match l with nil => constr:(false) | cons a _ => constr:(true) | cons _ ?t => ag_mem a t end.
Ltac ag_atoms z add opp l t :=
  lazymatch t with
  | z => l
  | add ?a ?b => let l1 := ag_atoms z add opp l a in ag_atoms z add opp l1 b
  | opp ?a => ag_atoms z add opp l a
  | _ => match ag_mem t l with true => l | false => constr:(cons t l) end
  end.
Ltac ag_idx a l :=
  match l with cons a _ => constr:(O) | cons _ ?t => let n := ag_idx a t in constr:(S n) end.
Ltac ag_reify z add opp l t :=
  lazymatch t with
  | z => constr:(A0)
  | add ?a ?b => let a' := ag_reify z add opp l a in let b' := ag_reify z add opp l b in constr:(AAdd a' b')
  | opp ?a => let a' := ag_reify z add opp l a in constr:(AOpp a')
  | _ => let n := ag_idx t l in constr:(AV n)
  end.
(** [ag L]: solve an equation in the abelian group described by the law record [L]. *)
Ltac ag L :=
  lazymatch type of L with
  | AGLaws ?z ?add ?opp =>
    lazymatch goal with
    | |- @eq ?X ?a ?b =>
      let l := ag_atoms z add opp (@nil X) a in
      let l := ag_atoms z add opp l b in
      let ra := ag_reify z add opp l a in
      let rb := ag_reify z add opp l b in
      change (ageval z add opp l ra = ageval z add opp l rb);
      apply (ag_sound z add opp L); vm_compute; reflexivity
    end
  end.
