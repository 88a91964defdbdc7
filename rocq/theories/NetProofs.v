(** Proofs about NetModel: every schedule gives the result of the lockstep execution. *)
From Verif Require Import Base NetModel.
Local Open Scope nat_scope.

Lemma keqb_eq a b : keqb a b = true <-> a = b. Proof. destruct a, b; cbn; split; congruence. Qed.
Lemma upd_comm {T} (l : list T) i j a b : i <> j -> upd (upd l i a) j b = upd (upd l j b) i a.
Proof. revert i j. induction l as [|x l IH]; intros [|i] [|j] H; cbn; auto; try congruence. f_equal. apply IH. lia. Qed.

Lemma kind_eq_dec_nat (k : kind) (x y : nat) (k' : kind) (x' y' : nat) : (k, x, y) = (k', x', y') \/ (k, x, y) <> (k', x', y').
Proof. destruct k, k', (Nat.eq_dec x x'), (Nat.eq_dec y y'); subst; auto; right; congruence. Qed.
Section NetProofs.
  Context {V A : Type} (np : nat) (sends recvs : kind -> nat -> nat -> bool).
  Local Notation net := (@net V A). Local Notation exec1 := (@exec1 V A np sends recvs).
  Local Notation step := (@step V A np sends recvs). Local Notation steps := (@steps V A np sends recvs).

  Lemma seq_refl (s : net) : seq_net s s. Proof. unfold seq_net. intuition. Qed.
  Lemma seq_sym (s t : net) : seq_net s t -> seq_net t s. Proof. unfold seq_net. intuition. Qed.
  Lemma seq_trans (s t u : net) : seq_net s t -> seq_net t u -> seq_net s u. Proof. unfold seq_net. intuition; etransitivity; eauto. Qed.
  Lemma any_ext (f g : nat -> bool) : (forall q, q < np -> f q = g q) -> any np f = any np g.
  Proof. intros H. unfold any. assert (X : forall l, (forall q, In q l -> q < np) -> existsb f l = existsb g l). { induction l as [|x l IH]; cbn; auto. intros Hl. rewrite H, IH; auto. } apply X. intros q Hq. apply in_seq in Hq. lia. Qed.
  Lemma any_false f : any np f = false <-> forall q, q < np -> f q = false.
  Proof. unfold any. rewrite <- not_true_iff_false, existsb_exists. split.
    - intros H q Hq. apply not_true_iff_false. intros E. apply H. exists q. split; auto. apply in_seq. lia.
    - intros H (q & H1 & H2). apply in_seq in H1. rewrite H in H2 by lia. discriminate. Qed.

  Lemma exec_cong l (s t u : net) : seq_net s t -> exec1 l s = Go u -> exists u', exec1 l t = Go u' /\ seq_net u u'.
  Proof.
    intros (E1 & E2 & E3 & E4 & E5 & E6 & E7). destruct l as [r|k r q|k r q]; cbn [NetModel.exec1].
    - destruct (np <=? r); [discriminate|]. rewrite <- E1. destruct (pc s r) as [|i P]; [discriminate|].
      assert (UG : used_g np t r = used_g np s r) by (unfold used_g; f_equal; apply any_ext; intros; symmetry; auto).
      assert (UM : used_m np t r = used_m np s r) by (unfold used_m; f_equal; apply any_ext; intros; symmetry; auto).
      destruct i as [f|f|f|k|k|k].
      + injection 1 as <-. eexists. split; [reflexivity|]. unfold seq_net; cbn. unfold set1. rewrite E2. intuition; destruct (_ =? _); auto.
      + rewrite UG. destruct (used_g np s r); [discriminate|]. rewrite E2, E3. destruct (f r (vec t r) (gb t r)) as [v b]. injection 1 as <-. eexists. split; [reflexivity|]. unfold seq_net; cbn. unfold set1. intuition; destruct (_ =? _); auto.
      + rewrite UM. destruct (used_m np s r); [discriminate|]. rewrite E2, E4. destruct (f r (vec t r) (mb t r)) as [v b]. injection 1 as <-. eexists. split; [reflexivity|]. unfold seq_net; cbn. unfold set1. intuition; destruct (_ =? _); auto.
      + rewrite UG, UM. destruct (used_g np s r || used_m np s r); [discriminate|]. injection 1 as <-. eexists. split; [reflexivity|]. unfold seq_net; cbn. unfold set1, setrow. intuition; try (destruct (_ =? _); auto; fail); destruct (_ && _); auto.
      + rewrite (any_ext (sact t k r) (sact s k r)) by (intros; symmetry; auto). destruct (any _ _); [discriminate|]. injection 1 as <-. eexists. split; [reflexivity|]. unfold seq_net; cbn. unfold set1. intuition; destruct (_ =? _); auto.
      + rewrite (any_ext (ract t k r) (ract s k r)) by (intros; symmetry; auto). destruct (any _ _); [discriminate|]. injection 1 as <-. eexists. split; [reflexivity|]. unfold seq_net; cbn. unfold set1. intuition; destruct (_ =? _); auto.
    - rewrite <- E5. destruct (_ && _); [|discriminate]. injection 1 as <-. eexists. split; [reflexivity|]. unfold seq_net; cbn. unfold set3. rewrite E7, E3, E4. intuition; destruct (_ && _); auto.
    - rewrite <- E6, <- E7. destruct (_ && _); [|discriminate]. destruct (chan s k r q) as [|m c]; [discriminate|]. injection 1 as <-. eexists. split; [reflexivity|]. unfold seq_net; cbn. unfold set3, set1. intuition; try (destruct (_ && _); auto; fail); destruct k; auto; rewrite ?E3, ?E4; destruct (_ =? _); auto.
  Qed.

  (** *** invariant *)
  Definition flags_of (s : net) (r : nat) (a : flags) : Prop :=
    (fgs a = false -> forall q, q < np -> sact s D2C r q = false) /\ (fmr a = false -> forall q, q < np -> ract s D2C r q = false) /\
    (fms a = false -> forall q, q < np -> sact s C2C r q = false) /\ (fgr a = false -> forall q, q < np -> ract s C2C r q = false) /\
    ((fgs a || fmr a) && (fms a || fgr a) = false).
  Definition inv (s : net) : Prop := forall r, r < np -> exists a, check (pc s r) a = true /\ flags_of s r a.

  Lemma inv_cong s t : seq_net s t -> inv s -> inv t.
  Proof. intros (E1 & E2 & E3 & E4 & E5 & E6 & E7) I r Hr. destruct (I r Hr) as (a & H1 & H2 & H3 & H4 & H5 & H6). exists a. rewrite <- E1. split; auto. unfold flags_of. intuition; rewrite <- ?E5, <- ?E6; auto. Qed.
  Lemma inv_no_ub s l : inv s -> exec1 l s <> UB.
  Proof.
    intros I. destruct l as [r|k r q|k r q]; cbn [NetModel.exec1].
    - destruct (Nat.leb_spec np r); [discriminate|]. destruct (I r ltac:(lia)) as (a & H1 & H2 & H3 & H4 & H5 & H6). destruct (pc s r) as [|i P]; [discriminate|]. cbn [check] in H1.
      destruct i as [f|f|f|k|k|k]; try discriminate.
      + apply andb_true_iff in H1 as [H1 _]. apply andb_true_iff in H1 as [X Y]. apply negb_true_iff in X, Y. unfold used_g. rewrite (proj2 (any_false (sact s D2C r)) (H2 X)), (proj2 (any_false (ract s C2C r)) (H5 Y)). cbn. now destruct (f r _ _).
      + apply andb_true_iff in H1 as [H1 _]. apply andb_true_iff in H1 as [X Y]. apply negb_true_iff in X, Y. unfold used_m. rewrite (proj2 (any_false (ract s D2C r)) (H3 X)), (proj2 (any_false (sact s C2C r)) (H4 Y)). cbn. now destruct (f r _ _).
      + assert (X : fgs a || fmr a || fms a || fgr a = false) by (destruct k; apply andb_true_iff in H1 as [H1 _]; now apply negb_true_iff in H1).
        repeat (apply orb_false_iff in X as [X ?]). unfold used_g, used_m. rewrite (proj2 (any_false (sact s D2C r))), (proj2 (any_false (ract s C2C r))), (proj2 (any_false (ract s D2C r))), (proj2 (any_false (sact s C2C r))) by auto. discriminate.
      + destruct (any _ _); discriminate. 
      + destruct (any _ _); discriminate.
    - destruct (_ && _); discriminate.
    - destruct (_ && _); [|discriminate]. destruct (chan s k r q); discriminate.
  Qed.
  Lemma inv_exec s l t : inv s -> exec1 l s = Go t -> inv t.
  Proof.
    intros I E x Hx. destruct (I x Hx) as (a & C & H2 & H3 & H4 & H5 & H6). destruct l as [r|k r q|k r q]; cbn [NetModel.exec1] in E.
    - destruct (Nat.leb_spec np r); [discriminate|]. destruct (pc s r) as [|i P] eqn:EP; [discriminate|].
      destruct (Nat.eq_dec x r) as [->|NE].
      + rewrite EP in C. cbn [check] in C. destruct i as [f|f|f|k|k|k].
        * injection E as <-. exists a. cbn. unfold set1. rewrite Nat.eqb_refl. split; auto. unfold flags_of; cbn; intuition.
        * destruct (used_g np s r); [discriminate|]. destruct (f r _ _). injection E as <-. exists a. cbn. unfold set1. rewrite Nat.eqb_refl. apply andb_true_iff in C as [_ C]. split; auto. unfold flags_of; cbn; intuition.
        * destruct (used_m np s r); [discriminate|]. destruct (f r _ _). injection E as <-. exists a. cbn. unfold set1. rewrite Nat.eqb_refl. apply andb_true_iff in C as [_ C]. split; auto. unfold flags_of; cbn; intuition.
        * destruct (_ || _); [discriminate|]. injection E as <-. cbn. unfold set1. rewrite Nat.eqb_refl.
          assert (X : fgs a || fmr a || fms a || fgr a = false) by (destruct k; apply andb_true_iff in C as [C _]; now apply negb_true_iff in C).
          repeat (apply orb_false_iff in X as [X ?]).
          destruct k; apply andb_true_iff in C as [_ C]; eexists; (split; [exact C|]); unfold flags_of, setrow; cbn; intuition (auto; discriminate).
        * destruct (any np (sact s k r)) eqn:EA; [discriminate|]. injection E as <-. cbn. unfold set1. rewrite Nat.eqb_refl. rewrite any_false in EA. destruct k; (eexists; split; [exact C|]); unfold flags_of; cbn; intuition; destruct (fgs a), (fmr a), (fms a), (fgr a); auto.
        * destruct (any np (ract s k r)) eqn:EA; [discriminate|]. injection E as <-. cbn. unfold set1. rewrite Nat.eqb_refl. rewrite any_false in EA. destruct k; (eexists; split; [exact C|]); unfold flags_of; cbn; intuition; destruct (fgs a), (fmr a), (fms a), (fgr a); auto.
      + assert (PX : pc t x = pc s x /\ forall k q, sact t k x q = sact s k x q /\ ract t k x q = ract s k x q).
        { destruct i as [f|f|f|k|k|k]; [| destruct (used_g np s r); [discriminate|]; destruct (f r _ _) | destruct (used_m np s r); [discriminate|]; destruct (f r _ _) | destruct (_ || _); [discriminate|] | destruct (any _ _); [discriminate|] | destruct (any _ _); [discriminate|]];
          injection E as <-; cbn; unfold set1, setrow; destruct (Nat.eqb_spec x r); try congruence; split; auto; intros; rewrite ?andb_false_r; cbn; auto. }
        destruct PX as (P1 & P2). exists a. rewrite P1. split; auto. unfold flags_of. intuition; first [rewrite (proj1 (P2 _ _)) | rewrite (proj2 (P2 _ _))]; auto.
    - destruct (_ && _); [|discriminate]. injection E as <-. exists a. cbn. split; auto. unfold flags_of, set3; cbn. intuition; match goal with |- (if ?c then _ else _) = _ => destruct c end; auto.
    - destruct (_ && _); [|discriminate]. destruct (chan s k r q); [discriminate|]. injection E as <-. exists a. cbn. split; auto. unfold flags_of, set3; cbn. intuition; match goal with |- (if ?c then _ else _) = _ => destruct c end; auto.
  Qed.

  (** *** commutation *)
  Definition same_at (s t : net) (r : nat) : Prop :=
    pc s r = pc t r /\ vec s r = vec t r /\ gb s r = gb t r /\ mb s r = mb t r /\ (forall k q, sact s k r q = sact t k r q) /\ (forall k q, ract s k r q = ract t k r q).
  Lemma same_seq s t : (forall r, same_at s t r) -> (forall k r q, chan s k r q = chan t k r q) -> seq_net s t.
  Proof. intros H C. unfold seq_net. intuition; apply H. Qed.
  Lemma same_sym s t r : same_at s t r -> same_at t s r. Proof. unfold same_at. intuition. Qed.
  Lemma same_trans s t u r : same_at s t r -> same_at t u r -> same_at s u r. Proof. unfold same_at. intuition; etransitivity; eauto. Qed.
  Lemma same_refl s r : same_at s s r. Proof. unfold same_at. intuition. Qed.

  Lemma LE_frame r s t : exec1 (LE r) s = Go t -> (forall x, x <> r -> same_at t s x) /\ (forall k x y, chan t k x y = chan s k x y).
  Proof.
    cbn [NetModel.exec1]. destruct (np <=? r); [discriminate|]. destruct (pc s r) as [|i P]; [discriminate|].
    destruct i as [f|f|f|k|k|k]; [| destruct (used_g np s r); [discriminate|]; destruct (f r _ _) | destruct (used_m np s r); [discriminate|]; destruct (f r _ _) | destruct (_ || _); [discriminate|] | destruct (any _ _); [discriminate|] | destruct (any _ _); [discriminate|]];
      injection 1 as <-; (split; [intros x NE|reflexivity]); unfold same_at; cbn; unfold set1, setrow; destruct (Nat.eqb_spec x r); try congruence; intuition; rewrite andb_false_r; cbn; auto.
  Qed.
  Lemma LE_local r s t s' : exec1 (LE r) s = Go t -> same_at s s' r -> exists t', exec1 (LE r) s' = Go t' /\ same_at t t' r.
  Proof.
    cbn [NetModel.exec1]. destruct (np <=? r); [discriminate|]. intros E (E1 & E2 & E3 & E4 & E5 & E6). rewrite <- E1. destruct (pc s r) as [|i P]; [discriminate|].
    assert (UG : used_g np s' r = used_g np s r) by (unfold used_g; f_equal; apply any_ext; intros; symmetry; auto).
    assert (UM : used_m np s' r = used_m np s r) by (unfold used_m; f_equal; apply any_ext; intros; symmetry; auto).
    destruct i as [f|f|f|k|k|k].
    - injection E as <-. eexists. split; [reflexivity|]. unfold same_at; cbn. unfold set1. rewrite Nat.eqb_refl, E2. intuition.
    - rewrite UG. destruct (used_g np s r); [discriminate|]. rewrite <- E2, <- E3. destruct (f r (vec s r) (gb s r)). injection E as <-. eexists. split; [reflexivity|]. unfold same_at; cbn. unfold set1. rewrite Nat.eqb_refl. intuition.
    - rewrite UM. destruct (used_m np s r); [discriminate|]. rewrite <- E2, <- E4. destruct (f r (vec s r) (mb s r)). injection E as <-. eexists. split; [reflexivity|]. unfold same_at; cbn. unfold set1. rewrite Nat.eqb_refl. intuition.
    - rewrite UG, UM. destruct (_ || _); [discriminate|]. injection E as <-. eexists. split; [reflexivity|]. unfold same_at; cbn. unfold set1, setrow. rewrite !Nat.eqb_refl. intuition; match goal with |- (if ?c then _ else _) = _ => destruct c end; auto.
    - rewrite (any_ext (sact s' k r) (sact s k r)) by (intros; symmetry; auto). destruct (any _ _); [discriminate|]. injection E as <-. eexists. split; [reflexivity|]. unfold same_at; cbn. unfold set1. rewrite Nat.eqb_refl. intuition.
    - rewrite (any_ext (ract s' k r) (ract s k r)) by (intros; symmetry; auto). destruct (any _ _); [discriminate|]. injection E as <-. eexists. split; [reflexivity|]. unfold same_at; cbn. unfold set1. rewrite Nat.eqb_refl. intuition.
  Qed.
  (** the two message steps, as seen from the receiving/sending rank *)
  Lemma LI_inv k r q s t : exec1 (LI k r q) s = Go t -> r < np /\ q < np /\ sact s k r q = true /\
    t = mkNet (pc s) (vec s) (gb s) (mb s) (set3 (sact s) k r q false) (ract s) (set3 (chan s) k r q (chan s k r q ++ [nth q (match k with D2C => gb s r | C2C => mb s r end) []])).
  Proof. cbn [NetModel.exec1]. destruct (_ && _) eqn:E; [|discriminate]. apply andb_true_iff in E as [E H]. apply andb_true_iff in E as [H1 H2]. apply Nat.ltb_lt in H1, H2. injection 1 as <-. auto. Qed.
  Lemma LI_go k r q s : r < np -> q < np -> sact s k r q = true ->
    exec1 (LI k r q) s = Go (mkNet (pc s) (vec s) (gb s) (mb s) (set3 (sact s) k r q false) (ract s) (set3 (chan s) k r q (chan s k r q ++ [nth q (match k with D2C => gb s r | C2C => mb s r end) []]))).
  Proof. intros H1 H2 H3. cbn [NetModel.exec1]. apply Nat.ltb_lt in H1, H2. now rewrite H1, H2, H3. Qed.
  Lemma LD_inv k r q s t : exec1 (LD k r q) s = Go t -> exists m c, r < np /\ q < np /\ ract s k q r = true /\ chan s k r q = m :: c /\
    t = mkNet (pc s) (vec s) (match k with D2C => gb s | C2C => set1 (gb s) q (upd (gb s q) r m) end) (match k with D2C => set1 (mb s) q (upd (mb s q) r m) | C2C => mb s end) (sact s) (set3 (ract s) k q r false) (set3 (chan s) k r q c).
  Proof. cbn [NetModel.exec1]. destruct (_ && _) eqn:E; [|discriminate]. apply andb_true_iff in E as [E H]. apply andb_true_iff in E as [H1 H2]. apply Nat.ltb_lt in H1, H2. destruct (chan s k r q) as [|m c] eqn:EC; [discriminate|]. injection 1 as <-. exists m, c. auto. Qed.
  Lemma LD_go k r q s m c : r < np -> q < np -> ract s k q r = true -> chan s k r q = m :: c ->
    exec1 (LD k r q) s = Go (mkNet (pc s) (vec s) (match k with D2C => gb s | C2C => set1 (gb s) q (upd (gb s q) r m) end) (match k with D2C => set1 (mb s) q (upd (mb s q) r m) | C2C => mb s end) (sact s) (set3 (ract s) k q r false) (set3 (chan s) k r q c)).
  Proof. intros H1 H2 H3 H4. cbn [NetModel.exec1]. apply Nat.ltb_lt in H1, H2. now rewrite H1, H2, H3, H4. Qed.
  Lemma set3_same {T} (f : kind -> nat -> nat -> T) k i j v : set3 f k i j v k i j = v.
  Proof. unfold set3. rewrite (proj2 (keqb_eq k k) eq_refl), !Nat.eqb_refl. reflexivity. Qed.
  Lemma set3_other {T} (f : kind -> nat -> nat -> T) k i j v k' i' j' : (k', i', j') <> (k, i, j) -> set3 f k i j v k' i' j' = f k' i' j'.
  Proof. intros H. unfold set3. destruct (keqb k' k) eqn:E1; auto. destruct (Nat.eqb_spec i' i); auto. destruct (Nat.eqb_spec j' j); auto. apply keqb_eq in E1. subst. congruence. Qed.

  (* a rank's own instruction against the injection of one of its messages *)
  Lemma LE_LI r k x y s s1 s2 : inv s -> exec1 (LE r) s = Go s1 -> exec1 (LI k x y) s = Go s2 ->
    exists t1 t2, exec1 (LI k x y) s1 = Go t1 /\ exec1 (LE r) s2 = Go t2 /\ seq_net t1 t2.
  Proof.
    intros I E1 E2. pose proof E1 as E1'. apply LI_inv in E2 as (Hx & Hy & HA & ->). destruct (LE_frame _ _ _ E1) as (F1 & F2).
    destruct (Nat.eq_dec r x) as [->|NE].
    - (* same rank *)
      destruct (I x Hx) as (a & C & H2 & H3 & H4 & H5 & H6). cbn [NetModel.exec1] in E1 |- *. destruct (Nat.leb_spec np x); [lia|]. cbn [pc]. destruct (pc s x) as [|i P] eqn:EP; [discriminate|].
      assert (AK : match k with D2C => fgs a | C2C => fms a end = true). { apply not_false_iff_true. intros X. destruct k; [rewrite H2 in HA|rewrite H4 in HA]; auto; discriminate. }
      apply Nat.ltb_lt in Hx, Hy. rewrite Hx, Hy. apply Nat.ltb_lt in Hx, Hy. cbn [check] in C.
      assert (LE0 : forall f : nat -> bool, any np f = false -> forall g, (forall q, q < np -> g q = true -> f q = true) -> any np g = false).
      { intros f Hf g Hg. apply any_false. intros q Hq. rewrite any_false in Hf. apply not_true_iff_false. intros X. apply Hg in X; auto. rewrite Hf in X; auto. discriminate. }
      assert (SUB : forall k' q, q < np -> set3 (sact s) k x y false k' x q = true -> sact s k' x q = true). { intros k' q Hq. unfold set3. match goal with |- (if ?c then _ else _) = _ -> _ => destruct c end; auto; discriminate. }
      destruct i as [f|f|f|k'|k'|k'].
      + injection E1 as <-. cbn. rewrite HA. eexists _, _. split; [reflexivity|]. split; [reflexivity|]. unfold seq_net; cbn. intuition.
      + destruct (used_g np s x) eqn:U; [discriminate|]. destruct (f x (vec s x) (gb s x)) as [v b] eqn:EF. cbv beta zeta iota in E1. injection E1 as <-. cbn. rewrite HA, EF.
        apply andb_true_iff in C as [C _]. apply andb_true_iff in C as [C1 C2]. apply negb_true_iff in C1, C2. destruct k; [congruence|].
        unfold used_g in *. cbn [sact ract] in *. apply orb_false_iff in U as [U1 U2]. rewrite (LE0 _ U1 (set3 (sact s) C2C x y false D2C x)) by apply SUB. rewrite U2. cbn. eexists _, _. split; [reflexivity|]. split; [reflexivity|]. unfold seq_net; cbn. intuition.
      + destruct (used_m np s x) eqn:U; [discriminate|]. destruct (f x (vec s x) (mb s x)) as [v b] eqn:EF. cbv beta zeta iota in E1. injection E1 as <-. cbn. rewrite HA, EF.
        apply andb_true_iff in C as [C _]. apply andb_true_iff in C as [C1 C2]. apply negb_true_iff in C1, C2. destruct k; [|congruence].
        unfold used_m in *. cbn [sact ract] in *. apply orb_false_iff in U as [U1 U2]. rewrite (LE0 _ U2 (set3 (sact s) D2C x y false C2C x)) by apply SUB. rewrite U1. cbn. eexists _, _. split; [reflexivity|]. split; [reflexivity|]. unfold seq_net; cbn. intuition.
      + exfalso. assert (X : fgs a || fmr a || fms a || fgr a = false) by (destruct k'; apply andb_true_iff in C as [C _]; now apply negb_true_iff in C). repeat (apply orb_false_iff in X as [X ?]). destruct k; congruence.
      + destruct (any np (sact s k' x)) eqn:U; [discriminate|]. injection E1 as <-. cbn. rewrite HA. rewrite (LE0 _ U (set3 (sact s) k x y false k' x)) by apply SUB. eexists _, _. split; [reflexivity|]. split; [reflexivity|]. unfold seq_net; cbn. intuition.
      + destruct (any np (ract s k' x)) eqn:U; [discriminate|]. injection E1 as <-. cbn. rewrite HA, U. eexists _, _. split; [reflexivity|]. split; [reflexivity|]. unfold seq_net; cbn. intuition.
    - (* different ranks *)
      destruct (F1 x (not_eq_sym NE)) as (P1 & P2 & P3 & P4 & P5 & P6).
      match goal with |- exists t1 t2, _ /\ exec1 _ ?u = _ /\ _ => destruct (LE_local r s s1 u E1') as (t2 & T1 & T2) end.
      { unfold same_at; cbn. intuition. now rewrite set3_other by congruence. }
      eexists _, t2. split; [apply LI_go; auto; now rewrite P5|]. split; [exact T1|]. destruct (LE_frame _ _ _ T1) as (G1 & G2). apply same_seq.
      + intros z. destruct (Nat.eq_dec z r) as [->|NZ].
        * eapply same_trans; [|exact T2]. unfold same_at; cbn. intuition. now rewrite set3_other by congruence.
        * eapply same_trans; [|apply same_sym, G1, NZ]. destruct (F1 z NZ) as (Q1 & Q2 & Q3 & Q4 & Q5 & Q6). unfold same_at; cbn. intuition. unfold set3. rewrite Q5. reflexivity.
      + intros k' z w. rewrite G2. cbn. unfold set3. rewrite !F2, P3, P4. reflexivity.
  Qed.

  Lemma LE_LD r k x y s s1 s2 : inv s -> exec1 (LE r) s = Go s1 -> exec1 (LD k x y) s = Go s2 ->
    exists t1 t2, exec1 (LD k x y) s1 = Go t1 /\ exec1 (LE r) s2 = Go t2 /\ seq_net t1 t2.
  Proof.
    intros I E1 E2. pose proof E1 as E1'. apply LD_inv in E2 as (m & c & Hx & Hy & HA & HC & ->). destruct (LE_frame _ _ _ E1) as (F1 & F2).
    destruct (Nat.eq_dec r y) as [->|NE].
    - destruct (I y Hy) as (a & C & H2 & H3 & H4 & H5 & H6). cbn [NetModel.exec1] in E1 |- *. destruct (Nat.leb_spec np y); [lia|]. cbn [pc]. destruct (pc s y) as [|i P] eqn:EP; [discriminate|].
      assert (AK : match k with D2C => fmr a | C2C => fgr a end = true). { apply not_false_iff_true. intros X. destruct k; [rewrite H3 in HA|rewrite H5 in HA]; auto; discriminate. }
      rewrite F2, HC. apply Nat.ltb_lt in Hx, Hy. rewrite Hx, Hy. apply Nat.ltb_lt in Hx, Hy. cbn [check] in C.
      assert (LE0 : forall f : nat -> bool, any np f = false -> forall g, (forall q, q < np -> g q = true -> f q = true) -> any np g = false).
      { intros f Hf g Hg. apply any_false. intros q Hq. rewrite any_false in Hf. apply not_true_iff_false. intros X. apply Hg in X; auto. rewrite Hf in X; auto. discriminate. }
      assert (SUB : forall k' q, q < np -> set3 (ract s) k y x false k' y q = true -> ract s k' y q = true). { intros k' q Hq. unfold set3. match goal with |- (if ?c then _ else _) = _ -> _ => destruct c end; auto; discriminate. }
      destruct i as [f|f|f|k'|k'|k'].
      + injection E1 as <-. cbn. rewrite HA. eexists _, _. split; [reflexivity|]. split; [reflexivity|]. unfold seq_net; cbn. intuition.
      + destruct (used_g np s y) eqn:U; [discriminate|]. destruct (f y (vec s y) (gb s y)) as [v b] eqn:EF. cbv beta zeta iota in E1. injection E1 as <-. cbn. rewrite HA.
        apply andb_true_iff in C as [C _]. apply andb_true_iff in C as [C1 C2]. apply negb_true_iff in C1, C2. destruct k; [|congruence].
        unfold used_g in *. cbn [sact ract] in *. apply orb_false_iff in U as [U1 U2]. rewrite (LE0 _ U2 (set3 (ract s) D2C y x false C2C y)) by apply SUB. rewrite U1, EF. cbn. eexists _, _. split; [reflexivity|]. split; [reflexivity|]. unfold seq_net; cbn. intuition.
      + destruct (used_m np s y) eqn:U; [discriminate|]. destruct (f y (vec s y) (mb s y)) as [v b] eqn:EF. cbv beta zeta iota in E1. injection E1 as <-. cbn. rewrite HA.
        apply andb_true_iff in C as [C _]. apply andb_true_iff in C as [C1 C2]. apply negb_true_iff in C1, C2. destruct k; [congruence|].
        unfold used_m in *. cbn [sact ract] in *. apply orb_false_iff in U as [U1 U2]. rewrite (LE0 _ U1 (set3 (ract s) C2C y x false D2C y)) by apply SUB. rewrite U2, EF. cbn. eexists _, _. split; [reflexivity|]. split; [reflexivity|]. unfold seq_net; cbn. intuition.
      + exfalso. assert (X : fgs a || fmr a || fms a || fgr a = false) by (destruct k'; apply andb_true_iff in C as [C _]; now apply negb_true_iff in C). repeat (apply orb_false_iff in X as [X ?]). destruct k; congruence.
      + destruct (any np (sact s k' y)) eqn:U; [discriminate|]. injection E1 as <-. cbn. rewrite HA, U. eexists _, _. split; [reflexivity|]. split; [reflexivity|]. unfold seq_net; cbn. intuition.
      + destruct (any np (ract s k' y)) eqn:U; [discriminate|]. injection E1 as <-. cbn. rewrite HA. rewrite (LE0 _ U (set3 (ract s) k y x false k' y)) by apply SUB. eexists _, _. split; [reflexivity|]. split; [reflexivity|]. unfold seq_net; cbn. intuition.
    - destruct (F1 y (not_eq_sym NE)) as (P1 & P2 & P3 & P4 & P5 & P6).
      match goal with |- exists t1 t2, _ /\ exec1 _ ?u = _ /\ _ => destruct (LE_local r s s1 u E1') as (t2 & T1 & T2) end.
      { unfold same_at; cbn. unfold set1. destruct k; destruct (Nat.eqb_spec r y); try congruence; intuition; now rewrite set3_other by congruence. }
      eexists _, t2. split; [apply (LD_go _ _ _ _ m c); auto; [now rewrite P6|now rewrite F2]|]. split; [exact T1|]. destruct (LE_frame _ _ _ T1) as (G1 & G2). apply same_seq.
      + intros z. destruct (Nat.eq_dec z r) as [->|NZ].
        * eapply same_trans; [|exact T2]. unfold same_at; cbn. unfold set1. destruct k; destruct (Nat.eqb_spec r y); try congruence; intuition; now rewrite set3_other by congruence.
        * eapply same_trans; [|apply same_sym, G1, NZ]. destruct (F1 z NZ) as (Q1 & Q2 & Q3 & Q4 & Q5 & Q6). unfold same_at; cbn. unfold set1, set3. destruct k; intuition; rewrite ?Q6, ?P3, ?P4, ?Q3, ?Q4; auto.
      + intros k' z w. rewrite G2. cbn. unfold set3. rewrite !F2. reflexivity.
  Qed.
  Lemma LE_LE r x s s1 s2 : r <> x -> exec1 (LE r) s = Go s1 -> exec1 (LE x) s = Go s2 ->
    exists t1 t2, exec1 (LE x) s1 = Go t1 /\ exec1 (LE r) s2 = Go t2 /\ seq_net t1 t2.
  Proof.
    intros NE E1 E2. destruct (LE_frame _ _ _ E1) as (F1 & F2). destruct (LE_frame _ _ _ E2) as (G1 & G2).
    destruct (LE_local x s s2 s1 E2) as (t1 & T1 & T2). { apply same_sym, F1. congruence. }
    destruct (LE_local r s s1 s2 E1) as (t2 & U1 & U2). { apply same_sym, G1. congruence. }
    exists t1, t2. split; auto. split; auto. destruct (LE_frame _ _ _ T1) as (H1 & H2). destruct (LE_frame _ _ _ U1) as (K1 & K2). apply same_seq.
    - intros z. destruct (Nat.eq_dec z r) as [->|N1]; [|destruct (Nat.eq_dec z x) as [->|N2]].
      + eapply same_trans; [apply H1; auto|exact U2].
      + eapply same_trans; [apply same_sym; exact T2|]. apply same_sym, K1. congruence.
      + eapply same_trans; [apply H1; auto|]. eapply same_trans; [apply F1; auto|]. eapply same_trans; [apply same_sym, G1; auto|]. apply same_sym, K1; auto.
    - intros. rewrite H2, K2, F2, G2. reflexivity.
  Qed.
  Lemma set3_comm {T} (f : kind -> nat -> nat -> T) k i j v k' i' j' v' a b c : (k, i, j) <> (k', i', j') ->
    set3 (set3 f k i j v) k' i' j' v' a b c = set3 (set3 f k' i' j' v') k i j v a b c.
  Proof. intros H. unfold set3. destruct (keqb a k') eqn:E1, (keqb a k) eqn:E2, (Nat.eqb_spec b i'), (Nat.eqb_spec b i), (Nat.eqb_spec c j'), (Nat.eqb_spec c j); cbn; auto. apply keqb_eq in E1, E2. subst. congruence. Qed.
  Lemma LI_LI k x y k' x' y' s s1 s2 : (k, x, y) <> (k', x', y') -> exec1 (LI k x y) s = Go s1 -> exec1 (LI k' x' y') s = Go s2 ->
    exists t1 t2, exec1 (LI k' x' y') s1 = Go t1 /\ exec1 (LI k x y) s2 = Go t2 /\ seq_net t1 t2.
  Proof.
    intros NE E1 E2. apply LI_inv in E1 as (Hx & Hy & HA & ->). apply LI_inv in E2 as (Hx' & Hy' & HA' & ->).
    eexists _, _. split; [apply LI_go; auto; cbn; rewrite set3_other; congruence|]. split; [apply LI_go; auto; cbn; rewrite set3_other; congruence|].
    unfold seq_net; cbn. intuition; rewrite set3_comm by congruence; auto. rewrite !(set3_other (chan s)) by congruence. reflexivity.
  Qed.
  Lemma LI_LD k x y k' x' y' s s1 s2 : inv s -> exec1 (LI k x y) s = Go s1 -> exec1 (LD k' x' y') s = Go s2 ->
    exists t1 t2, exec1 (LD k' x' y') s1 = Go t1 /\ exec1 (LI k x y) s2 = Go t2 /\ seq_net t1 t2.
  Proof.
    intros I E1 E2. apply LI_inv in E1 as (Hx & Hy & HA & ->). apply LD_inv in E2 as (m & c & Hx' & Hy' & HA' & HC & ->).
    (* the sent buffer is not the one written *)
    assert (PAY : match k with D2C => match k' with D2C => gb s | C2C => set1 (gb s) y' (upd (gb s y') x' m) end x | C2C => match k' with D2C => set1 (mb s) y' (upd (mb s y') x' m) | C2C => mb s end x end = match k with D2C => gb s x | C2C => mb s x end).
    { destruct k, k'; auto; unfold set1; destruct (Nat.eqb_spec x y'); auto; subst; exfalso; destruct (I y' Hy') as (a & C & H2 & H3 & H4 & H5 & H6).
      - assert (fgs a = true) by (apply not_false_iff_true; intros X; rewrite H2 in HA; auto; discriminate). assert (fgr a = true) by (apply not_false_iff_true; intros X; rewrite H5 in HA'; auto; discriminate). rewrite H, H0 in H6. destruct (fms a); discriminate.
      - assert (fms a = true) by (apply not_false_iff_true; intros X; rewrite H4 in HA; auto; discriminate). assert (fmr a = true) by (apply not_false_iff_true; intros X; rewrite H3 in HA'; auto; discriminate). rewrite H, H0 in H6. destruct (fgs a); discriminate. }
    destruct (kind_eq_dec_nat k x y k' x' y') as [EQ|NE].
    - injection EQ as <- <- <-. eexists _, _. split; [apply (LD_go _ _ _ _ m (c ++ [nth y (match k with D2C => gb s x | C2C => mb s x end) []])); auto; cbn; rewrite set3_same, HC; reflexivity|]. split; [apply LI_go; auto|].
      unfold seq_net; cbn. intuition. rewrite set3_same. unfold set3. destruct (_ && _); auto. do 3 f_equal. symmetry. exact PAY.
    - eexists _, _. split; [apply (LD_go _ _ _ _ m c); auto; cbn; rewrite set3_other; congruence|]. split; [apply LI_go; auto|].
      unfold seq_net; cbn. intuition. rewrite set3_comm by congruence. rewrite (set3_other (chan s) k' x' y' c k x y) by congruence. unfold set3 at 1 3. destruct (_ && _); auto. do 2 f_equal. f_equal. symmetry. exact PAY.
  Qed.
  Lemma LD_LD k x y k' x' y' s s1 s2 : (k, x, y) <> (k', x', y') -> exec1 (LD k x y) s = Go s1 -> exec1 (LD k' x' y') s = Go s2 ->
    exists t1 t2, exec1 (LD k' x' y') s1 = Go t1 /\ exec1 (LD k x y) s2 = Go t2 /\ seq_net t1 t2.
  Proof.
    intros NE E1 E2. apply LD_inv in E1 as (m & c & Hx & Hy & HA & HC & ->). apply LD_inv in E2 as (m' & c' & Hx' & Hy' & HA' & HC' & ->).
    eexists _, _. split; [apply (LD_go _ _ _ _ m' c'); auto; cbn; rewrite set3_other; congruence|]. split; [apply (LD_go _ _ _ _ m c); auto; cbn; rewrite set3_other; congruence|].
    unfold seq_net; cbn. intuition; try (rewrite set3_comm by congruence; auto; fail).
    - destruct k, k'; auto. unfold set1. destruct (Nat.eqb_spec r y'), (Nat.eqb_spec r y), (Nat.eqb_spec y' y), (Nat.eqb_spec y y'); subst; try congruence. apply upd_comm. congruence.
    - destruct k, k'; auto. unfold set1. destruct (Nat.eqb_spec r y'), (Nat.eqb_spec r y), (Nat.eqb_spec y' y), (Nat.eqb_spec y y'); subst; try congruence. apply upd_comm. congruence.
  Qed.
  Lemma diamond l1 l2 s s1 s2 : inv s -> exec1 l1 s = Go s1 -> exec1 l2 s = Go s2 ->
    l1 = l2 \/ exists t1 t2, exec1 l2 s1 = Go t1 /\ exec1 l1 s2 = Go t2 /\ seq_net t1 t2.
  Proof.
    intros I E1 E2. destruct l1 as [r|k x y|k x y], l2 as [r'|k' x' y'|k' x' y'].
    - destruct (Nat.eq_dec r r') as [->|NE]; auto. right. eapply LE_LE; eauto.
    - right. eapply LE_LI; eauto.
    - right. eapply LE_LD; eauto.
    - right. destruct (LE_LI r' k x y s s2 s1 I E2 E1) as (t1 & t2 & A1 & A2 & A3). exists t2, t1. auto using seq_sym.
    - destruct (kind_eq_dec_nat k x y k' x' y') as [EQ|NE]. { left. congruence. } right. eapply LI_LI; eauto.
    - right. eapply LI_LD; eauto.
    - right. destruct (LE_LD r' k x y s s2 s1 I E2 E1) as (t1 & t2 & A1 & A2 & A3). exists t2, t1. auto using seq_sym.
    - right. destruct (LI_LD k' x' y' k x y s s2 s1 I E2 E1) as (t1 & t2 & A1 & A2 & A3). exists t2, t1. auto using seq_sym.
    - destruct (kind_eq_dec_nat k x y k' x' y') as [EQ|NE]. { left. congruence. } right. eapply LD_LD; eauto.
  Qed.

  (** *** all runs have the same length and end in the same state *)
  Definition terminal (s : net) : Prop := forall l t, exec1 l s <> Go t.
  Lemma terminal_cong s t : seq_net s t -> terminal s -> terminal t.
  Proof. intros E T l u X. destruct (exec_cong l t s u (seq_sym _ _ E) X) as (u' & Y & _). exact (T _ _ Y). Qed.
  Lemma steps_cong n s t s' t' : steps n s t -> seq_net s s' -> seq_net t t' -> steps n s' t'.
  Proof.
    intros H. revert s'. induction H as [s t E0|n s t u (l & w & E1 & E2) H IH]; intros s' E E'.
    - constructor. eapply seq_trans; [apply seq_sym; exact E|]. eapply seq_trans; [exact E0|exact E'].
    - destruct (exec_cong l s s' w E E1) as (w' & F1 & F2). econstructor; [|apply (IH t); [apply seq_refl|exact E']]. exists l, w'. split; auto. eapply seq_trans; [apply seq_sym; exact F2|exact E2].
  Qed.
  Lemma inv_step s t : inv s -> step s t -> inv t.
  Proof. intros I (l & u & E1 & E2). eapply inv_cong; eauto. eapply inv_exec; eauto. Qed.
  Lemma one_step n s t s1 : inv s -> steps n s t -> terminal t -> step s s1 -> exists n', n = S n' /\ steps n' s1 t.
  Proof.
    revert s s1. induction n as [|n IH]; intros s s1 I H T (l & u & E1 & E2).
    - inversion H; subst. exfalso. destruct (exec_cong l s t u H0 E1) as (u' & X & _). exact (T _ _ X).
    - inversion H as [|? ? t0 ? (l0 & u0 & F1 & F2) H']; subst. exists n. split; auto.
      destruct (diamond l l0 s u u0 I E1 F1) as [->|(t1 & t2 & D1 & D2 & D3)].
      + rewrite E1 in F1. injection F1 as <-. eapply steps_cong; [exact H'| |apply seq_refl]. eapply seq_trans; [apply seq_sym; exact F2|exact E2].
      + destruct (exec_cong l u0 t0 t2 F2 D2) as (t2' & D2' & X2). assert (I0 : inv t0) by (eapply inv_cong; eauto; eapply inv_exec; eauto).
        destruct (IH t0 t2') as (n' & -> & H2); auto. { exists l, t2'. split; auto. apply seq_refl. }
        destruct (exec_cong l0 u s1 t1 E2 D1) as (t1' & D1' & X1). econstructor.
        * exists l0, t1'. split; [exact D1'|apply seq_refl].
        * eapply steps_cong; [exact H2| |apply seq_refl]. eapply seq_trans; [apply seq_sym; exact X2|]. eapply seq_trans; [apply seq_sym; exact D3|exact X1].
  Qed.
  Lemma all_runs n m s t u : inv s -> steps n s t -> terminal t -> steps m s u -> m <= n /\ steps (n - m) u t /\ inv u.
  Proof.
    intros I H T H2. revert n I H T. induction H2 as [s u E|m s s1 u S1 H2 IH]; intros n I H T.
    - split; [lia|]. rewrite Nat.sub_0_r. split; [|eapply inv_cong; eauto]. eapply steps_cong; eauto. apply seq_refl.
    - destruct (one_step n s t s1 I H T S1) as (n' & -> & H'). destruct (IH n') as (A1 & A2 & A3); auto. { eapply inv_step; eauto. } split; [lia|]. split; auto.
  Qed.
  Lemma steps_app n m s t u : steps n s t -> steps m t u -> steps (n + m) s u.
  Proof. induction 1 as [s t E|n s t w S1 H IH]; intros H2; cbn. { eapply steps_cong; [exact H2|apply seq_sym; exact E|apply seq_refl]. } econstructor; eauto. Qed.

  Lemma steps_snoc n s t u : steps n s t -> step t u -> steps (S n) s u.
  Proof. intros H1 H2. replace (S n) with (n + 1) by lia. eapply steps_app; eauto. econstructor; eauto. constructor. apply seq_refl. Qed.
  (** *** the lockstep run *)
  Hypothesis Hmatch : forall k r q, r < np -> q < np -> sends k r q = recvs k q r.
  Definition none3 {T} (d : T) : kind -> nat -> nat -> T := fun _ _ _ => d.
  Definition quiet (P : list (instr V A)) (s : @lst V A) : net :=
    mkNet (fun r => if r <? np then P else []) (lv s) (lg s) (lm s) (none3 false) (none3 false) (none3 []).
  Definition part (i : instr V A) (P : list (instr V A)) (j : nat) (s s' : @lst V A) (sa ra : kind -> nat -> nat -> bool) : net :=
    mkNet (fun r => if r <? np then if r <? j then P else i :: P else []) (fun r => if r <? j then lv s' r else lv s r) (fun r => if r <? j then lg s' r else lg s r) (fun r => if r <? j then lm s' r else lm s r) sa ra (none3 []).
  Lemma any_none : any np (fun _ => false) = false. Proof. apply any_false. auto. Qed.
  Local Ltac nb := cbn [pc vec gb mb sact ract chan part quiet lv lg lm fst snd].
  Lemma lock_local i P s : (forall k, i <> IStart k) -> steps np (quiet (i :: P) s) (quiet P (lock1 np recvs i s)).
  Proof.
    intros NS. set (s' := lock1 np recvs i s).
    assert (H : forall j, j <= np -> steps j (quiet (i :: P) s) (part i P j s s' (none3 false) (none3 false))).
    { induction j as [|j IH]; intros Hj. { constructor. unfold seq_net, quiet, part; cbn. intuition. }
      eapply steps_snoc; [apply IH; lia|].
      assert (X : exists u, exec1 (LE j) (part i P j s s' (none3 false) (none3 false)) = Go u /\ seq_net u (part i P (S j) s s' (none3 false) (none3 false))).
      { cbn [NetModel.exec1]. destruct (Nat.leb_spec np j); [lia|]. cbn [pc part]. destruct (Nat.ltb_spec j np); [|lia]. rewrite Nat.ltb_irrefl.
        assert (LT : forall r, (r <? S j) = (r =? j) || (r <? j)). { intros r. destruct (Nat.ltb_spec r (S j)), (Nat.eqb_spec r j), (Nat.ltb_spec r j); cbn; auto; lia. }
        assert (JJ : (j <? np) = true) by (apply Nat.ltb_lt; lia).
        destruct i as [f|f|f|k|k|k].
        - eexists. split; [reflexivity|]. unfold seq_net, part; nb. unfold set1, s', lock1, onr; nb. intuition; rewrite LT; destruct (Nat.eqb_spec r j) as [->|]; rewrite ?JJ, ?Nat.ltb_irrefl; cbn [orb]; auto; destruct (r <? j); auto; now rewrite JJ.
        - unfold used_g, none3; nb. rewrite !any_none. cbn [orb]. rewrite Nat.ltb_irrefl. destruct (f j (lv s j) (lg s j)) as [v b] eqn:EF. eexists. split; [reflexivity|]. unfold seq_net, part; nb. unfold set1, s', lock1, onr; nb. intuition; rewrite LT; destruct (Nat.eqb_spec r j) as [->|]; rewrite ?JJ, ?Nat.ltb_irrefl, ?EF; cbn [orb]; auto; destruct (r <? j); auto.
        - unfold used_m, none3; nb. rewrite !any_none. cbn [orb]. rewrite Nat.ltb_irrefl. destruct (f j (lv s j) (lm s j)) as [v b] eqn:EF. eexists. split; [reflexivity|]. unfold seq_net, part; nb. unfold set1, s', lock1, onr; nb. intuition; rewrite LT; destruct (Nat.eqb_spec r j) as [->|]; rewrite ?JJ, ?Nat.ltb_irrefl, ?EF; cbn [orb]; auto; destruct (r <? j); auto.
        - destruct (NS k eq_refl).
        - unfold none3; nb. rewrite any_none. eexists. split; [reflexivity|]. unfold seq_net, part; nb. unfold set1, s', lock1; nb. intuition; rewrite ?LT; try (destruct (r <? j), (r =? j); reflexivity). destruct (Nat.eqb_spec r j) as [->|]; rewrite ?JJ; cbn [orb]; auto. 
        - unfold none3; nb. rewrite any_none. eexists. split; [reflexivity|]. unfold seq_net, part; nb. unfold set1, s', lock1; nb. intuition; rewrite ?LT; try (destruct (r <? j), (r =? j); reflexivity). destruct (Nat.eqb_spec r j) as [->|]; rewrite ?JJ; cbn [orb]; auto. }
      destruct X as (u & X1 & X2). exists (LE j), u. split; [exact X1|exact X2]. }
    eapply steps_cong; [apply (H np); lia|apply seq_refl|]. unfold seq_net, quiet, part; nb. intuition; try (destruct (r <? np); auto; fail).
    - destruct (Nat.ltb_spec r np); auto. unfold s'. destruct i as [f|f|f|k|k|k]; try destruct (NS k eq_refl); cbn [lock1 lv lg lm]; auto; unfold onr; destruct (Nat.ltb_spec r np); auto; lia.
    - destruct (Nat.ltb_spec r np); auto. unfold s'. destruct i as [f|f|f|k|k|k]; try destruct (NS k eq_refl); cbn [lock1 lv lg lm]; auto; unfold onr; destruct (Nat.ltb_spec r np); auto; lia.
    - destruct (Nat.ltb_spec r np); auto. unfold s'. destruct i as [f|f|f|k|k|k]; try destruct (NS k eq_refl); cbn [lock1 lv lg lm]; auto; unfold onr; destruct (Nat.ltb_spec r np); auto; lia.
  Qed.

  (** starting the requests: everybody starts, then message by message *)
  Definition payl (k : kind) (s : @lst V A) (r q : nat) : list A := nth q (match k with D2C => lg s r | C2C => lm s r end) [].
  Definition put (k : kind) (s : @lst V A) (b : nat -> list (list A)) (p : nat * nat) : nat -> list (list A) :=
    if sends k (fst p) (snd p) then set1 b (snd p) (upd (b (snd p)) (fst p) (payl k s (fst p) (snd p))) else b.
  Definition todo (ps : list (nat * nat)) (x y : nat) : bool := existsb (fun p => (fst p =? x) && (snd p =? y)) ps.
  Definition mid (k : kind) (P : list (instr V A)) (s : @lst V A) (b : nat -> list (list A)) (ps : list (nat * nat)) : net :=
    mkNet (fun r => if r <? np then P else []) (lv s) (match k with D2C => lg s | C2C => b end) (match k with D2C => b | C2C => lm s end)
      (fun k' r q => keqb k' k && todo ps r q && sends k r q) (fun k' q r => keqb k' k && todo ps r q && sends k r q) (none3 []).
  Lemma todo_in ps x y : todo ps x y = true <-> In (x, y) ps.
  Proof. unfold todo. rewrite existsb_exists. split. { intros ((a & b) & H1 & H2). cbn in H2. apply andb_true_iff in H2 as [H2 H3]. apply Nat.eqb_eq in H2, H3. now subst. } intros H. exists (x, y). cbn. rewrite !Nat.eqb_refl. auto. Qed.
  Lemma set3_keq {T} (f : kind -> nat -> nat -> T) k i j v a b c : set3 f k i j v a b c = if keqb a k && (b =? i) && (c =? j) then v else f a b c. Proof. reflexivity. Qed.
  Lemma deliver_all k P s ps b : NoDup ps -> (forall p, In p ps -> fst p < np /\ snd p < np) ->
    exists n, steps n (mid k P s b ps) (mid k P s (fold_left (put k s) ps b) []).
  Proof.
    revert b. induction ps as [|[x y] ps IH]; intros b ND HB. { exists 0. constructor. apply seq_refl. }
    inversion ND as [|? ? NI ND']; subst. destruct (IH (put k s b (x, y)) ND') as (n & Hn). { intros p Hp. apply HB. now right. } cbn [fold_left].
    destruct (HB (x, y) (or_introl eq_refl)) as (Hx & Hy). cbn [fst snd] in *.
    assert (TD : todo ps x y = false). { apply not_true_iff_false. rewrite todo_in. exact NI. }
    assert (TS : forall a c, todo ((x, y) :: ps) a c = (x =? a) && (y =? c) || todo ps a c) by reflexivity.
    destruct (sends k x y) eqn:ES.
    - exists (2 + n). cbn [Nat.add].
      assert (A1 : sact (mid k P s b ((x, y) :: ps)) k x y = true). { unfold mid; cbn [sact]. rewrite TS, !Nat.eqb_refl, (proj2 (keqb_eq k k) eq_refl), ES. reflexivity. }
      pose proof (LI_go k x y _ Hx Hy A1) as E1. econstructor. { eexists _, _. split; [exact E1|apply seq_refl]. }
      match type of E1 with _ = Go ?u => set (s1 := u) in * end.
      assert (A2 : ract s1 k y x = true). { unfold s1, mid; cbn [ract]. rewrite TS, !Nat.eqb_refl, (proj2 (keqb_eq k k) eq_refl), ES. reflexivity. }
      assert (A3 : chan s1 k x y = payl k s x y :: []). { unfold s1; cbn [chan]. rewrite set3_same. unfold mid, none3, payl; cbn [chan gb mb]. destruct k; reflexivity. }
      pose proof (LD_go k x y s1 _ _ Hx Hy A2 A3) as E2. econstructor. { eexists _, _. split; [exact E2|apply seq_refl]. }
      eapply steps_cong; [exact Hn| |apply seq_refl]. apply seq_sym. unfold s1, mid, put; cbn [fst snd]. rewrite ES. unfold seq_net. cbn [pc vec gb mb sact ract chan].
      split; auto. split; auto. split; [destruct k; auto|]. split; [destruct k; auto|].
      assert (XX : forall k' r q, (if keqb k' k && (r =? x) && (q =? y) then false else keqb k' k && todo ((x, y) :: ps) r q && sends k r q) = keqb k' k && todo ps r q && sends k r q).
      { intros k' r q. rewrite TS, (Nat.eqb_sym x r), (Nat.eqb_sym y q). destruct (keqb k' k); cbn; auto. destruct (Nat.eqb_spec r x), (Nat.eqb_spec q y); cbn; auto. subst. now rewrite TD. }
      split; [|split].
      + intros k' r q. rewrite set3_keq. apply XX.
      + intros k' r q. rewrite set3_keq. rewrite <- andb_assoc, (andb_comm (r =? y)), andb_assoc. apply XX.
      + intros k' r q. rewrite !set3_keq. destruct (_ && _); reflexivity.
    - exists n. eapply steps_cong; [exact Hn| |apply seq_refl]. unfold mid, put; cbn [fst snd]. rewrite ES. unfold seq_net. cbn [pc vec gb mb sact ract chan]. intuition.
      + rewrite TS. destruct (Nat.eqb_spec x r), (Nat.eqb_spec y q); cbn; auto. subst. now rewrite ES, !andb_false_r.
      + rewrite TS. destruct (Nat.eqb_spec x q), (Nat.eqb_spec y r); cbn; auto. subst. now rewrite ES, !andb_false_r.
  Qed.
  Definition all_pairs : list (nat * nat) := list_prod (seq 0 np) (seq 0 np).
  Lemma in_all x y : In (x, y) all_pairs <-> x < np /\ y < np.
  Proof. unfold all_pairs. rewrite in_prod_iff, !in_seq. lia. Qed.
  Lemma nodup_prod {X Y} (a : list X) (b : list Y) : NoDup a -> NoDup b -> NoDup (list_prod a b).
  Proof.
    intros Ha Hb. induction Ha as [|x a NI Ha IH]; cbn. { constructor. }
    assert (N1 : NoDup (map (fun y => (x, y)) b)). { clear - Hb. induction Hb as [|y b NI Hb IH]; cbn; constructor; auto. rewrite in_map_iff. intros (z & E & Hz). injection E as ->. contradiction. }
    assert (DJ : forall p, In p (map (fun y => (x, y)) b) -> ~ In p (list_prod a b)). { intros p Hp H2. apply in_map_iff in Hp as (y & <- & _). apply in_prod_iff in H2 as [H2 _]. contradiction. }
    revert N1 DJ. generalize (map (fun y => (x, y)) b). intros l N1. induction N1 as [|p l NI' N1 IH1]; intros DJ; cbn; auto. constructor. { rewrite in_app_iff. intros [H|H]; [contradiction|]. apply (DJ p); cbn; auto. } apply IH1. intros p' Hp'. apply DJ. now right.
  Qed.
  Lemma start_phase k P s : steps np (quiet (IStart k :: P) s) (mid k P s (match k with D2C => lm s | C2C => lg s end) all_pairs).
  Proof.
    set (sa := fun j => fun k' r q => keqb k' k && ((r <? j) && (q <? np)) && sends k r q). set (ra := fun j => fun k' q r => keqb k' k && ((q <? j) && (r <? np)) && recvs k q r).
    assert (H : forall j, j <= np -> steps j (quiet (IStart k :: P) s) (part (IStart k) P j s s (sa j) (ra j))).
    { induction j as [|j IH]; intros Hj. { constructor. unfold seq_net, quiet, part, sa, ra, none3; nb. intuition; try (rewrite andb_false_r; reflexivity). }
      eapply steps_snoc; [apply IH; lia|].
      assert (LT : forall r, (r <? S j) = (r =? j) || (r <? j)). { intros r. destruct (Nat.ltb_spec r (S j)), (Nat.eqb_spec r j), (Nat.ltb_spec r j); cbn; auto; lia. }
      assert (JJ : (j <? np) = true) by (apply Nat.ltb_lt; lia).
      assert (X : exists u, exec1 (LE j) (part (IStart k) P j s s (sa j) (ra j)) = Go u /\ seq_net u (part (IStart k) P (S j) s s (sa (S j)) (ra (S j)))).
      { cbn [NetModel.exec1]. destruct (Nat.leb_spec np j); [lia|]. cbn [pc part]. rewrite JJ, Nat.ltb_irrefl.
        assert (U : forall k', any np (sa j k' j) = false /\ any np (ra j k' j) = false). { intros k'. split; apply any_false; intros q Hq; unfold sa, ra; rewrite Nat.ltb_irrefl; cbn; now rewrite andb_false_r. }
        unfold used_g, used_m; nb. rewrite !(proj1 (U _)), !(proj2 (U _)). cbn [orb]. eexists. split; [reflexivity|]. unfold seq_net, part; nb. unfold set1, setrow, sa, ra.
        split; [|split; [|split; [|split; [|split; [|split]]]]]; auto.
        - intros r. rewrite LT. destruct (Nat.eqb_spec r j) as [->|]; rewrite ?JJ; cbn [orb]; auto.
        - intros r. now destruct (r <? j), (r <? S j).
        - intros r. now destruct (r <? j), (r <? S j).
        - intros r. now destruct (r <? j), (r <? S j).
        - intros k' r q. rewrite LT. destruct (keqb k' k); cbn [andb orb]; auto. destruct (Nat.eqb_spec r j) as [->|]; cbn [andb orb]; auto. destruct (q <? np); cbn [andb orb]; rewrite ?Nat.ltb_irrefl; auto.
        - intros k' r q. rewrite LT. destruct (keqb k' k); cbn [andb orb]; auto. destruct (Nat.eqb_spec r j) as [->|]; cbn [andb orb]; auto. destruct (q <? np); cbn [andb orb]; rewrite ?Nat.ltb_irrefl; auto. }
      destruct X as (u & X1 & X2). exists (LE j), u. split; [exact X1|exact X2]. }
    eapply steps_cong; [apply (H np); lia|apply seq_refl|]. unfold seq_net, mid, part, sa, ra; nb.
    assert (TA : forall x y, todo all_pairs x y = (x <? np) && (y <? np)). { intros x y. apply eq_true_iff_eq. rewrite todo_in, in_all, andb_true_iff, !Nat.ltb_lt. reflexivity. }
    split; [|split; [|split; [|split; [|split; [|split]]]]]; auto.
    - intros r. now destruct (r <? np).
    - intros r. now destruct (r <? np).
    - intros r. destruct k; now destruct (r <? np).
    - intros r. destruct k; now destruct (r <? np).
    - intros k' r q. now rewrite TA.
    - intros k' r q. rewrite TA. destruct (Nat.ltb_spec r np), (Nat.ltb_spec q np); cbn; rewrite ?andb_false_r; cbn; auto. rewrite andb_true_r, Hmatch; auto.
  Qed.
  Lemma put_row k s b x ys y : NoDup ys -> fold_left (put k s) (map (fun z => (x, z)) ys) b y = if existsb (Nat.eqb y) ys && sends k x y then upd (b y) x (payl k s x y) else b y.
  Proof.
    revert b. induction ys as [|z ys IH]; intros b ND; cbn [map fold_left existsb]; auto. inversion ND as [|? ? NI ND']; subst. rewrite IH by auto. unfold put; cbn [fst snd]. destruct (Nat.eqb_spec y z) as [->|NE]; cbn [orb andb].
    - replace (existsb (Nat.eqb z) ys) with false. 2:{ symmetry. apply not_true_iff_false. rewrite existsb_exists. intros (w & H1 & H2). apply Nat.eqb_eq in H2. now subst. } cbn. destruct (sends k x z); auto. unfold set1. now rewrite Nat.eqb_refl.
    - assert (E : (if sends k x z then set1 b z (upd (b z) x (payl k s x z)) else b) y = b y). { destruct (sends k x z); auto. unfold set1. destruct (Nat.eqb_spec y z); congruence. } now rewrite E.
  Qed.
  Lemma put_all k s b y : y < np -> fold_left (put k s) all_pairs b y = fold_left (fun c r => if recvs k y r then upd c r (payl k s r y) else c) (seq 0 np) (b y).
  Proof.
    intros Hy. unfold all_pairs. assert (X : forall xs c, (forall x, In x xs -> x < np) -> fold_left (put k s) (list_prod xs (seq 0 np)) c y = fold_left (fun c r => if recvs k y r then upd c r (payl k s r y) else c) xs (c y)).
    { induction xs as [|x xs IH]; intros c Hx; cbn [list_prod fold_left]; auto. rewrite fold_left_app, IH by (intros; apply Hx; now right). rewrite put_row by apply seq_NoDup. rewrite <- Hmatch by (auto; apply Hx; now left).
      replace (existsb (Nat.eqb y) (seq 0 np)) with true; auto. symmetry. apply existsb_exists. exists y. split; [apply in_seq; lia|apply Nat.eqb_refl]. }
    apply X. intros x Hx. apply in_seq in Hx. lia.
  Qed.
  Lemma put_out k s ps b y : (forall p, In p ps -> snd p < np) -> np <= y -> fold_left (put k s) ps b y = b y.
  Proof. revert b. induction ps as [|[x z] ps IH]; intros b H Hy; cbn [fold_left]; auto. rewrite IH by (auto; intros; apply H; now right). unfold put; cbn [fst snd]. specialize (H _ (or_introl eq_refl)). cbn in H. destruct (sends k x z); auto. unfold set1. destruct (Nat.eqb_spec y z); auto; lia. Qed.
  Lemma lock_step i P s : exists n, steps n (quiet (i :: P) s) (quiet P (lock1 np recvs i s)).
  Proof.
    destruct i as [f|f|f|k|k|k]; try (exists np; apply lock_local; congruence).
    assert (PB : forall p, In p all_pairs -> fst p < np /\ snd p < np) by (intros [x y] H; now apply in_all in H).
    destruct (deliver_all k P s all_pairs (match k with D2C => lm s | C2C => lg s end)) as (n & Hn); auto. { apply nodup_prod; apply seq_NoDup. }
    exists (np + n). eapply steps_app; [apply start_phase|]. eapply steps_cong; [exact Hn|apply seq_refl|].
    unfold mid, quiet, seq_net, none3; nb. destruct k; cbn [lock1 lv lg lm]; split; auto; split; auto; split; auto; try (split; auto); try (split; [|split]; auto; intros; now rewrite andb_false_r).
    - intros r. unfold onr. destruct (Nat.ltb_spec r np). { rewrite put_all by auto. reflexivity. } apply put_out; auto. intros p Hp. now apply PB.
    - intros r. unfold onr. destruct (Nat.ltb_spec r np). { rewrite put_all by auto. reflexivity. } apply put_out; auto. intros p Hp. now apply PB.
  Qed.
  Lemma lock_run P s : exists n, steps n (quiet P s) (quiet [] (lockstep np recvs P s)).
  Proof.
    revert s. induction P as [|i P IH]; intros s. { exists 0. constructor. apply seq_refl. }
    destruct (lock_step i P s) as (n & Hn). destruct (IH (lock1 np recvs i s)) as (m & Hm). exists (n + m). eapply steps_app; eauto.
  Qed.
  Lemma quiet_terminal s : terminal (quiet [] s).
  Proof.
    intros l t. destruct l as [r|k r q|k r q]; cbn [NetModel.exec1].
    - destruct (np <=? r); [discriminate|]. cbn [quiet pc]. destruct (r <? np); discriminate.
    - cbn. unfold none3. rewrite !andb_false_r. discriminate.
    - cbn. unfold none3. rewrite !andb_false_r. discriminate.
  Qed.
  Theorem every_schedule P v g m : safe P = true ->
    exists n, forall m' u, steps m' (start np P v g m) u ->
      (forall l, exec1 l u <> UB) /\ m' <= n /\ (m' < n -> exists u', step u u') /\
      (m' = n -> finished np u /\ (forall r, vec u r = lv (lockstep np recvs P (mkLst v g m)) r) /\ (forall r, gb u r = lg (lockstep np recvs P (mkLst v g m)) r) /\ (forall r, mb u r = lm (lockstep np recvs P (mkLst v g m)) r)).
  Proof.
    intros HS. destruct (lock_run P (mkLst v g m)) as (n & Hn). exists n. intros m' u Hu.
    assert (I : inv (start np P v g m)). { intros r Hr. exists (mkFl false false false false). cbn [start pc]. destruct (Nat.ltb_spec r np); [|lia]. split; [exact HS|]. unfold flags_of, start; cbn. intuition. }
    destruct (all_runs n m' (start np P v g m) _ u I Hn (quiet_terminal _) Hu) as (A1 & A2 & A3). split; [intros l; now apply inv_no_ub|]. split; auto. split.
    - intros LT. inversion A2 as [? ? E0 E1 | ? ? t ? S1 S2]; subst; [lia|]. eauto.
    - intros ->. rewrite Nat.sub_diag in A2. inversion A2 as [? ? (B1 & B2 & B3 & B4 & _) | ]; subst. split; [|auto]. intros r Hr. rewrite B1. cbn [quiet pc]. now destruct (r <? np).
  Qed.
End NetProofs.
