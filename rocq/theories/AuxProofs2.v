(** Energy of the auxiliary matrix, and the boost of the edges inside aggregates. *)
From Verif Require Import Base AGroup LinAlg ArraysModel SparseModel AuxModel AuxSpec AuxProofs.
From Coq Require Import Ring.
Local Open Scope nat_scope.

Section Energy.
  Context {B : Blk} (L : BlkLaws B).
  Local Notation M := (M B). Local Notation X := (X B). Local Notation K := (K B).
  Add Ring Kr : (lawK B L).
  Let LX := lawX B L.
  Ltac agx := ag LX.
  Variables (NV : nat) (edges : list (nat * nat)) (rmb : nat -> nat -> nat -> M) (u : list X).
  Hypothesis HE : forall a b, In (a, b) edges -> a < NV /\ b < NV /\ a <> b.

  Lemma dot_xsumf {A} (f : A -> X) l y : dot (xsumf f l) y = ksumf (fun a => dot (f a) y) l.
  Proof using L. clear HE. induction l as [|a l IH]; cbn [xsumf ksumf fold_right]. { apply (dot_0l L). } rewrite (dot_add B L). unfold xsumf, ksumf in IH. now rewrite IH. Qed.
  Lemma ksum_ksumf {A} (f : nat -> A -> K) n l : ksum n (fun i => ksumf (f i) l) = ksumf (fun a => ksum n (fun i => f i a)) l.
  Proof using L.
    clear HE. induction l as [|a l IH]; cbn [ksumf fold_right]. { apply (ksum_zero L). } unfold ksumf in IH. now rewrite (ksum_add L), IH.
  Qed.
  Lemma edge_energy_sum e : ksum NV (fun i => dot (edge_action rmb edges u i e) (ent u i)) = edge_energy rmb edges u e.
  Proof using L HE.
    unfold edge_energy. destruct (nth_error edges e) as [[a b]|] eqn:E.
    2:{ rewrite (ksum_ext _ _ (fun _ => k0)); [apply (ksum_zero L)|]. intros j _. unfold edge_action. rewrite E. apply (dot_0l L). }
    assert (Hin := nth_error_In _ _ E). apply HE in Hin as (Ha & Hb & Hab).
    rewrite (ksum_ext _ _ (fun i => kadd (if a =? i then dot (edge_action rmb edges u a e) (ent u a) else k0)
                                         (if b =? i then dot (edge_action rmb edges u b e) (ent u b) else k0))).
    - rewrite (ksum_add L), !(ksum_delta L) by auto. reflexivity.
    - intros i _. destruct (Nat.eqb_spec a i) as [Ea|Ea]; [|destruct (Nat.eqb_spec b i) as [Eb|Eb]].
      + subst i. destruct (Nat.eqb_spec b a); [congruence|]. ring.
      + subst i. ring.
      + unfold edge_action. rewrite E. destruct (Nat.eqb_spec i a); [congruence|]. destruct (Nat.eqb_spec i b); [congruence|]. rewrite (dot_0l L). ring.
  Qed.
End Energy.

Section Boost.
  Context {B : Blk} (L : BlkLaws B).
  Local Notation M := (M B). Local Notation X := (X B). Local Notation K := (K B).
  Add Ring Kr2 : (lawK B L).
  Let LX := lawX B L.
  Ltac agx := ag LX.
  Variable msc : K -> M -> M.
  Variable kdiv : K -> K -> K.
  Variable keqb : K -> K -> bool.
  Variable trace : M -> K.
  Variable QMQ : nat -> nat -> K -> M -> M.
  Variable vmap : nat -> Z.
  Variable Q : nat -> nat -> M.
  Hypothesis H_msc : forall c a x, act (msc c a) x = xsc c (act a x).
  Hypothesis H_div : exists inv : K -> K, (forall a b, kdiv a b = kmul a (inv b)) /\ (forall b, b <> k0 -> kmul b (inv b) = k1).
  Hypothesis H_eqb : forall a b, keqb a b = true <-> a = b.
  Hypothesis H_QMQ : forall j k c a x, act (QMQ j k c a) x = xsc c (act a (act (Q j k) x)).
  Local Notation boost_row := (boost_row msc kdiv keqb trace QMQ vmap).

  Definition inagg (k : nat) (p : nat * M) := negb (fst p =? k) && (vmap (fst p) =? vmap k)%Z.
  Definition lsum k row := fold_left (fun s p => if inagg k p then kadd s (trace (snd p)) else s) row k0.
  Definition coef (theta : K) k l (p : nat * M) : K :=
    if fst p =? k then theta else if inagg k p then kmul (kmul (kopp k1) (kdiv (trace (snd p)) l)) theta else k0.

  Lemma lsum_r k row : lsum k row = ksumf (fun p => if inagg k p then trace (snd p) else k0) row.
  Proof using L.
    unfold lsum. enough (G : forall s, fold_left (fun s p => if inagg k p then kadd s (trace (snd p)) else s) row s
      = kadd s (ksumf (fun p => if inagg k p then trace (snd p) else k0) row)) by (rewrite G; ring).
    induction row as [|p row IH]; intros s; cbn [fold_left ksumf fold_right]; [ring|]. unfold ksumf in IH. rewrite IH. destruct (inagg k p); ring.
  Qed.

  Definition aligned (k : nat) (row : list (nat * M)) (u : list X) : Prop :=
    forall p, In p row -> fst p <> k -> vmap (fst p) = vmap k -> act (Q (fst p) k) (ent u (fst p)) = ent u k.

  Lemma boost_gen theta diag k l (row : list (nat * M)) u : aligned k row u ->
    row_times (map (fun p : nat * M =>
               if fst p =? k then (fst p, madd (snd p) (msc theta diag))
               else if inagg k p then
                 (fst p, madd (snd p) (QMQ (fst p) k (kmul (kmul (kopp k1) (kdiv (trace (snd p)) l)) theta) diag))
               else p) row) u
    = xadd (row_times row u) (xsc (ksumf (coef theta k l) row) (act diag (ent u k))).
  Proof using L H_msc H_QMQ.
    clear H_eqb H_div. induction row as [|p row IH]; intros HA; cbn [map].
    - rewrite (row_times_nil u). cbn [ksumf fold_right]. rewrite (xsc_k0 L). agx.
    - rewrite !(row_times_cons L). rewrite IH by (intros q Hq; apply HA; now right).
      change (ksumf (coef theta k l) (p :: row)) with (kadd (coef theta k l p) (ksumf (coef theta k l) row)). rewrite (sc_kadd B L).
      assert (HP := HA p (or_introl eq_refl)). unfold coef at 2. unfold inagg in *.
      destruct (Nat.eqb_spec (fst p) k) as [E|E]; cbn [negb andb fst snd].
      + rewrite E, (act_madd B L), H_msc. agx.
      + destruct (Z.eqb_spec (vmap (fst p)) (vmap k)) as [Ev|Ev]; cbn [fst snd].
        * rewrite (act_madd B L), H_QMQ, HP by auto. agx.
        * rewrite (xsc_k0 L). agx.
  Qed.

  Lemma coef_sum theta k (row : list (nat * M)) : NoDup (map fst row) -> In k (map fst row) -> lsum k row <> k0 ->
    ksumf (coef theta k (lsum k row)) row = k0.
  Proof using L H_div.
    intros ND Hk HL. destruct H_div as (inv & D1 & D2).
    assert (G : forall l r, NoDup (map fst r) -> ksumf (coef theta k l) r
      = kadd (if existsb (Nat.eqb k) (map fst r) then theta else k0) (kmul (kopp (kmul theta (inv l))) (ksumf (fun p => if inagg k p then trace (snd p) else k0) r))).
    { clear - L D1. intros l. induction r as [|p r IH]; intros ND; cbn [map existsb ksumf fold_right]; [ring|].
      inversion ND as [|? ? N1 N2]; subst. unfold ksumf in IH. rewrite IH by auto. unfold coef, inagg. rewrite (Nat.eqb_sym k (fst p)).
      destruct (Nat.eqb_spec (fst p) k) as [E|E]; cbn [negb andb orb].
      - assert (EX : existsb (Nat.eqb k) (map fst r) = false).
        { destruct (existsb (Nat.eqb k) (map fst r)) eqn:EX; auto. apply existsb_exists in EX as (x & Hx & Ex). apply Nat.eqb_eq in Ex. subst. contradiction. }
        rewrite EX. ring.
      - destruct (vmap (fst p) =? vmap k)%Z; [rewrite D1|]; ring. }
    rewrite G by auto. rewrite <- lsum_r.
    assert (EX : existsb (Nat.eqb k) (map fst row) = true) by (apply existsb_exists; exists k; now rewrite Nat.eqb_refl).
    rewrite EX. replace (kmul (kopp (kmul theta (inv (lsum k row)))) (lsum k row)) with (kopp (kmul theta (kmul (lsum k row) (inv (lsum k row))))) by ring.
    rewrite D2 by auto. ring.
  Qed.

  Lemma boost_row_eq theta diag k row : boost_row theta diag k row =
    if (vmap k =? -1)%Z then row else if keqb (lsum k row) k0 then row else map (fun p : nat * M =>
               if fst p =? k then (fst p, madd (snd p) (msc theta diag))
               else if inagg k p then
                 (fst p, madd (snd p) (QMQ (fst p) k (kmul (kmul (kopp k1) (kdiv (trace (snd p)) (lsum k row))) theta) diag))
               else p) row.
  Proof. reflexivity. Qed.

  Lemma boost_row_cols theta diag k row : map fst (boost_row theta diag k row) = map fst row.
  Proof using .
    clear. rewrite boost_row_eq. destruct (vmap k =? -1)%Z; auto. destruct (keqb _ _); auto. rewrite map_map. apply map_ext. intros p.
    destruct (fst p =? k); auto. destruct (inagg k p); auto.
  Qed.
  Lemma boost_row_action theta diag k row u : NoDup (map fst row) -> In k (map fst row) -> aligned k row u ->
    row_times (boost_row theta diag k row) u = row_times row u.
  Proof using L H_msc H_div H_eqb H_QMQ.
    intros ND Hk HA. rewrite boost_row_eq. destruct (vmap k =? -1)%Z; auto. destruct (keqb (lsum k row) k0) eqn:E; auto.
    rewrite boost_gen by auto. rewrite coef_sum; auto. { rewrite (xsc_k0 L). agx. }
    intros HL. apply H_eqb in HL. congruence.
  Qed.
  Lemma boost_row_alone theta diag k row : (forall p, In p row -> fst p <> k -> vmap (fst p) <> vmap k) -> boost_row theta diag k row = row.
  Proof using L H_eqb.
    intros H. rewrite boost_row_eq. destruct (vmap k =? -1)%Z; auto.
    assert (E : lsum k row = k0).
    { rewrite lsum_r. clear - H L. induction row as [|p row IH]; cbn [ksumf fold_right]; auto. unfold ksumf in IH. rewrite IH by (intros; apply H; auto; now right).
      unfold inagg. destruct (Nat.eqb_spec (fst p) k); cbn [negb andb]; [ring|]. destruct (Z.eqb_spec (vmap (fst p)) (vmap k)) as [Ev|]; [|ring].
      exfalso. eapply H; eauto. now left. }
    rewrite E. rewrite (proj2 (H_eqb k0 k0) eq_refl). reflexivity.
  Qed.

  Lemma find_boost theta diag k row : vmap k <> (-1)%Z -> lsum k row <> k0 ->
    find (fun p : nat * M => fst p =? k) (boost_row theta diag k row)
    = option_map (fun p => (fst p, madd (snd p) (msc theta diag))) (find (fun p : nat * M => fst p =? k) row).
  Proof using H_eqb.
    intros H1 H2. rewrite boost_row_eq. destruct (Z.eqb_spec (vmap k) (-1)%Z); [congruence|].
    destruct (keqb (lsum k row) k0) eqn:E. { apply H_eqb in E. congruence. }
    clear. generalize (lsum k row) as l. intros l. induction row as [|p row IH]; cbn [map find]; auto.
    destruct (Nat.eqb_spec (fst p) k) as [E|E]; cbn [fst].
    - rewrite E, Nat.eqb_refl. cbn [option_map]. now rewrite E.
    - unfold inagg. destruct (Nat.eqb_spec (fst p) k); [congruence|]. cbn [negb andb].
      destruct (vmap (fst p) =? vmap k)%Z; cbn [fst]; (destruct (Nat.eqb_spec (fst p) k); [congruence|apply IH]).
  Qed.
End Boost.
