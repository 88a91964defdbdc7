(** Tools on top of LinAlg: length bookkeeping, linear maps, composition of iterations (proof tools and the
    small specification vocabulary used by the smoother / cycle properties; models no particular function). *)
From Verif Require Import Base AGroup LinAlg.
From Coq Require Import Ring Ring_theory.

Section Len.
  Context {B : Blk}.
  Lemma len_add n (x y : list (X B)) : length x = n -> length y = n -> length (x +v y) = n.
  Proof. intros; subst. now apply vadd_length. Qed.
  Lemma len_sub n (x y : list (X B)) : length x = n -> length y = n -> length (x -v y) = n.
  Proof. intros; subst. now apply vsub_length. Qed.
  Lemma len_sc n c (x : list (X B)) : length x = n -> length (vsc c x) = n.
  Proof. intros; subst. apply vsc_length. Qed.
  Lemma len_zero n : length (@vzero B n) = n. Proof. apply vzero_length. Qed.
  Lemma len_unit n i u : length (@vunit B n i u) = n. Proof. apply vunit_length. Qed.
  Lemma len_inc n i u (x : list (X B)) : length x = n -> length (vinc x i u) = n.
  Proof. intros; subst. apply vinc_length. Qed.
  Lemma len_upd n i (u : X B) (x : list (X B)) : length x = n -> length (upd x i u) = n.
  Proof. intros; subst. apply upd_length. Qed.
  Lemma len_matvec n (A : @spmat B) (x : list (X B)) : length A = n -> length (matvec A x) = n.
  Proof. intros; subst. apply matvec_length. Qed.
  Lemma len_art n r w (y : list (X B)) : length y = n -> length (add_row_trans r w y) = n.
  Proof. intros; subst. apply add_row_trans_length. Qed.
End Len.
#[global] Hint Resolve len_add len_sub len_sc len_zero len_unit len_inc len_upd len_matvec len_art : len.

(** [vx L n]: prove an equality of vectors of length n entry by entry (abelian group arithmetic). *)
Ltac side_len n := first [ assumption | solve [auto with len] | transitivity n; [ solve [auto with len] | symmetry; solve [auto with len] ] ].
Ltac ent_rw L n :=
  repeat first
   [ rewrite (ent_vadd L) by side_len n | rewrite (ent_vsub L) by side_len n
   | rewrite (ent_vsc L) | rewrite (@ent_vzero _) ].
Ltac vx L n :=
  apply (vec_ext n);
  [ solve [auto with len] | solve [auto with len]
  | let i := fresh "i" in let Hi := fresh "Hi" in intros i Hi; ent_rw L n; try (ag (lawX _ L)) ].

(** *** Specification vocabulary *)
Section Lin.
  Context {B : Blk}.
  Local Notation X := (X B). Local Notation K := (K B).
  Local Notation vec := (list X).

  (** linear map from vectors of length n to vectors of length m *)
  Record lin (n m : nat) (f : vec -> vec) : Prop := mkLin {
    lin_len : forall x, length x = n -> length (f x) = m;
    lin_add : forall x y, length x = n -> length y = n -> f (x +v y) = f x +v f y;
    lin_sc : forall c x, length x = n -> f (vsc c x) = vsc c (f x) }.
  (** g is the adjoint (transpose) of f *)
  Definition adj (n m : nat) (f g : vec -> vec) : Prop :=
    forall x y, length x = n -> length y = m -> vdot (f x) y = vdot x (g y).
  (** the residual b - A x *)
  Definition residual (A : vec -> vec) (b x : vec) : vec := b -v A x.
  (** correction operator of "first C1, then C2": r |-> C1 r + C2 (r - A C1 r) *)
  Definition then_op (A C1 C2 : vec -> vec) (r : vec) : vec := C1 r +v C2 (r -v A (C1 r)).
  (** the functional J(x) = <Ax,x> - 2<b,x>; for symmetric A and A x* = b this is |x - x*|_A^2 - |x*|_A^2 *)
  Definition energy (A : vec -> vec) (b x : vec) : K := ksub (vdot (A x) x) (kadd (vdot b x) (vdot b x)).
End Lin.
#[global] Hint Extern 2 (length _ = _) => (match goal with H : lin ?n ?m ?f |- length (?f _) = _ => apply (lin_len n m f H) end) : len.

Section LinLaws.
  Context {B : Blk} (L : BlkLaws B).
  Local Notation X := (X B). Local Notation K := (K B).
  Local Notation vec := (list X).
  Local Notation lin := (@lin B). Local Notation adj := (@adj B).
  Add Ring Kring2 : (lawK B L).

  Lemma vsub_sc n (x y : vec) : length x = n -> length y = n -> x -v y = x +v vsc (kopp k1) y.
  Proof. intros. vx L n. rewrite (xsc_m1 L). ag (lawX _ L). Qed.
  Lemma lin_sub n m f (x y : vec) : lin n m f -> length x = n -> length y = n -> f (x -v y) = f x -v f y.
  Proof.
    intros H Hx Hy. rewrite (vsub_sc n), (vsub_sc m); auto with len.
    rewrite (lin_add _ _ _ H), (lin_sc _ _ _ H); auto with len.
  Qed.
  Lemma vsc_k0 n (x : vec) : length x = n -> vsc k0 x = vzero n.
  Proof. intros. vx L n. apply (xsc_k0 L). Qed.
  Lemma lin_zero n m f : lin n m f -> f (vzero n) = vzero m.
  Proof.
    intros H. rewrite <- (vsc_k0 n (vzero n)) by auto with len.
    rewrite (lin_sc _ _ _ H) by auto with len. apply vsc_k0. auto with len.
  Qed.
  Lemma matvec_lin n m A : wf_mat n m A -> lin m n (@matvec B A).
  Proof.
    intros [H _]. split; intros.
    - auto with len. - apply (matvec_add L). congruence. - apply (matvec_sc L).
  Qed.
  Lemma vsub_zero n (x : vec) : length x = n -> x -v vzero n = x.
  Proof. intros. vx L n. Qed.
  Lemma vadd_zero n (x : vec) : length x = n -> x +v vzero n = x.
  Proof. intros. vx L n. Qed.
  Lemma vzero_add n (x : vec) : length x = n -> vzero n +v x = x.
  Proof. intros. vx L n. Qed.
  Lemma vsub_add n (x y : vec) : length x = n -> length y = n -> (x -v y) +v y = x.
  Proof. intros. vx L n. Qed.
  Lemma vadd_assoc n (x y z : vec) : length x = n -> length y = n -> length z = n -> x +v (y +v z) = (x +v y) +v z.
  Proof. intros. vx L n. Qed.
  Lemma vsub_vadd n (x y z : vec) : length x = n -> length y = n -> length z = n -> x -v (y +v z) = (x -v y) -v z.
  Proof. intros. vx L n. Qed.
  Lemma vsc_add n c (x y : vec) : length x = n -> length y = n -> vsc c (x +v y) = vsc c x +v vsc c y.
  Proof. intros. vx L n. apply (sc_add B L). Qed.
  Lemma vsc_vsc c d (x : vec) : vsc c (vsc d x) = vsc (kmul c d) x.
  Proof. unfold vsc. rewrite map_map. apply map_ext. intros. symmetry. apply (sc_mul B L). Qed.
  Lemma vsc_1 (x : vec) : vsc k1 x = x.
  Proof. unfold vsc. rewrite <- (map_id x) at 2. apply map_ext. apply (sc_1 B L). Qed.

  Lemma lin_ext n m f g : (forall x, length x = n -> f x = g x) -> lin n m f -> lin n m g.
  Proof.
    intros E H. split; intros; rewrite <- !E; auto with len.
    - apply (lin_add _ _ _ H); auto. - apply (lin_sc _ _ _ H); auto.
  Qed.
  Lemma lin_id n : lin n n (fun x => x). Proof. split; auto. Qed.
  Lemma lin_0 n m : lin n m (fun _ => @vzero B m).
  Proof. split; intros; auto with len. vx L m. vx L m. now rewrite (xsc_0 L). Qed.
  Lemma lin_compose n m p f g : lin n m f -> lin m p g -> lin n p (fun x => g (f x)).
  Proof.
    intros Hf Hg. split; intros; auto with len.
    - rewrite (lin_add _ _ _ Hf), (lin_add _ _ _ Hg); auto with len.
    - rewrite (lin_sc _ _ _ Hf), (lin_sc _ _ _ Hg); auto with len.
  Qed.
  Lemma lin_plus n m f g : lin n m f -> lin n m g -> lin n m (fun x => f x +v g x).
  Proof.
    intros Hf Hg. split; intros; auto with len.
    - rewrite (lin_add _ _ _ Hf), (lin_add _ _ _ Hg); auto with len. vx L m.
    - rewrite (lin_sc _ _ _ Hf), (lin_sc _ _ _ Hg); auto with len. vx L m. now rewrite (sc_add B L).
  Qed.
  Lemma lin_minus n m f g : lin n m f -> lin n m g -> lin n m (fun x => f x -v g x).
  Proof.
    intros Hf Hg. split; intros; auto with len.
    - rewrite (lin_add _ _ _ Hf), (lin_add _ _ _ Hg); auto with len. vx L m.
    - rewrite (lin_sc _ _ _ Hf), (lin_sc _ _ _ Hg); auto with len. vx L m. now rewrite (sc_add B L), (xsc_opp L).
  Qed.
  Lemma lin_scale n m c f : lin n m f -> lin n m (fun x => vsc c (f x)).
  Proof.
    intros Hf. split; intros; auto with len.
    - rewrite (lin_add _ _ _ Hf); auto with len. apply vsc_add with m; auto with len.
    - rewrite (lin_sc _ _ _ Hf); auto with len. rewrite !vsc_vsc. f_equal. ring.
  Qed.
  Lemma lin_then n A C1 C2 : lin n n A -> lin n n C1 -> lin n n C2 -> lin n n (then_op A C1 C2).
  Proof.
    intros HA H1 H2. unfold then_op. apply lin_plus; auto.
    apply (lin_compose n n n (fun r => r -v A (C1 r)) C2); auto.
    apply lin_minus. apply lin_id. apply (lin_compose n n n C1 A); auto.
  Qed.

  (** doing the iteration with C1 and then the one with C2 *)
  Lemma residual_step n A C (b x : vec) : lin n n A -> lin n n C -> length b = n -> length x = n ->
    residual A b (x +v C (residual A b x)) = residual A b x -v A (C (residual A b x)).
  Proof.
    intros HA HC Hb Hx. unfold residual.
    rewrite (lin_add _ _ _ HA) by auto 6 with len. apply vsub_vadd with n; auto 6 with len.
  Qed.
  Lemma then_step n A C1 C2 (b x : vec) : lin n n A -> lin n n C1 -> lin n n C2 -> length b = n -> length x = n ->
    (x +v C1 (residual A b x)) +v C2 (residual A b (x +v C1 (residual A b x)))
    = x +v then_op A C1 C2 (residual A b x).
  Proof.
    intros HA H1 H2 Hb Hx. rewrite (residual_step n) by auto. unfold then_op, residual.
    symmetry. apply vadd_assoc with n; auto 8 with len.
  Qed.

  Lemma adj_sym n m f g : adj n m f g -> adj m n g f.
  Proof. intros H x y Hx Hy. rewrite (vdot_comm L). rewrite <- H by auto. apply (vdot_comm L). Qed.
  (** the adjoint of "C1 then C2" is "C2' then C1'" *)
  Lemma adj_then n A C1 C2 D1 D2 :
    lin n n A -> lin n n C1 -> lin n n C2 -> lin n n D1 -> lin n n D2 ->
    adj n n A A -> adj n n C1 D1 -> adj n n C2 D2 ->
    adj n n (then_op A C1 C2) (then_op A D2 D1).
  Proof.
    intros LA L1 L2 M1 M2 HA H1 H2 x y Hx Hy. unfold then_op.
    rewrite (vdot_add L), (vdot_add_r L) by (side_len n).
    rewrite H1, H2 by auto with len.
    rewrite (vdot_sub L) by (side_len n).
    rewrite (HA (C1 x) (D2 y)) by auto with len.
    rewrite (H1 x (A (D2 y))) by auto with len.
    rewrite (lin_sub _ _ _ y (A (D2 y)) M1) by auto with len.
    rewrite (vdot_sub_r L) by (side_len n). ring.
  Qed.
  Lemma adj_compose n m p f f' g g' : lin n m f -> lin p m g' -> 
    adj n m f f' -> adj m p g g' -> adj n p (fun x => g (f x)) (fun y => f' (g' y)).
  Proof. intros Lf Lg Hf Hg x y Hx Hy. rewrite Hg by auto with len. apply Hf; auto with len. Qed.

  (** energy of an additive update *)
  Lemma energy_add n A (b x c : vec) : lin n n A -> adj n n A A -> length b = n -> length x = n -> length c = n ->
    energy A b (x +v c) = kadd (energy A b x) (ksub (vdot (A c) c) (kadd (vdot (residual A b x) c) (vdot (residual A b x) c))).
  Proof.
    intros LA HA Hb Hx Hc. unfold energy, residual.
    rewrite (lin_add _ _ _ LA) by auto.
    rewrite !(vdot_add L), !(vdot_add_r L), !(vdot_sub L) by (side_len n).
    rewrite (HA c x) by auto. rewrite (vdot_comm L c (A x)). ring.
  Qed.
End LinLaws.
