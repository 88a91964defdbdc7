(** Duplicates, signed coarse edges *)
From Verif Require Import Base ArraysModel LoopModel LoopSpec LoopProofs LoopProofs2 LoopProofs3 LoopProofs4 LoopProofs5 LoopProps SMapModel SMapProofs SMapProofs4 SMapSpec SMapProofs5.
Import ListNotations.

(** positions without an earlier equal member *)
Definition firsts (cl : list (list pt)) : list nat := filter (fun k => negb (existsb (fun l => loopeqb (nth k cl []) (nth l cl [])) (seq 0 k))) (seq 0 (length cl)).
Lemma firsts_in cl k : In k (firsts cl) <-> (k < length cl)%nat /\ forall l, (l < k)%nat -> nth l cl [] <> nth k cl [].
Proof.
  unfold firsts. rewrite filter_In, in_seq. split.
  - intros [A B]. split; [lia|]. intros l Hl E. apply negb_true_iff in B. assert (X : existsb (fun l => loopeqb (nth k cl []) (nth l cl [])) (seq 0 k) = true); [|congruence].
    apply existsb_exists. exists l. split; [apply in_seq; lia|]. apply loopeqb_ok. auto.
  - intros [A B]. split; [lia|]. apply negb_true_iff. destruct (existsb _ _) eqn:X; auto. apply existsb_exists in X. destruct X as (l & Hl & E). apply in_seq in Hl. apply loopeqb_ok in E. exfalso. apply (B l); auto; lia.
Qed.

Section Conv.
  Variable R : rankd.
  (** the loop as signed coarse edges: steps with a known edge *)
  Definition known (e : edge4) : bool := match r_vert R (fst e), r_vert R (snd e) with Some a, Some b => negb (r_econ R a b =? -1)%Z | _, _ => false end.
  Definition step_code (e : edge4) : Z := match r_vert R (fst e), r_vert R (snd e) with Some a, Some b => loopEncode (Z.of_nat a) (Z.of_nat b) (r_econ R a b) | _, _ => 0%Z end.
  Lemma convert_from_ok : forall l v, convert_from R v l = map step_code (filter known (steps (v :: l))).
  Proof.
    induction l as [|w l IH]; intros v; [reflexivity|]. change (steps (v :: w :: l)) with ((v, w) :: steps (w :: l)). cbn [convert_from filter]. unfold known at 1. cbn [fst snd].
    destruct (r_vert R v) as [a|] eqn:Ea; [|apply IH]. destruct (r_vert R w) as [b|] eqn:Eb; [|apply IH]. cbv zeta. destruct (r_econ R a b =? -1)%Z; cbn [negb]; [apply IH|]. cbn [map]. unfold step_code at 1. cbn [fst snd]. rewrite Ea, Eb, IH. reflexivity.
  Qed.
  (** the connectivity of the coarse mesh with the edges [E] *)
  Definition econ_ok (E : list (nat * nat)) : Prop := forall a b, r_econ R a b = (-1)%Z \/
    (0 <= r_econ R a b < Z.of_nat (length E))%Z /\ (nth (Z.to_nat (r_econ R a b)) E (O, O) = (a, b) /\ (a < b)%nat \/ nth (Z.to_nat (r_econ R a b)) E (O, O) = (b, a) /\ (b < a)%nat).
  Lemma step_code_ok E e : econ_ok E -> known e = true -> r_vert R (fst e) = Some (code_from E (step_code e)) /\ r_vert R (snd e) = Some (code_to E (step_code e)).
  Proof.
    intros HE K. unfold known, step_code in *. destruct (r_vert R (fst e)) as [a|]; [|discriminate]. destruct (r_vert R (snd e)) as [b|]; [|discriminate]. destruct (Z.eqb_spec (r_econ R a b) (-1)) as [|N]; [discriminate|].
    destruct (HE a b) as [X|[X Y]]; [contradiction|]. unfold loopEncode, code_from, code_to. destruct (Z.ltb_spec (Z.of_nat a) (Z.of_nat b)).
    - replace (Z.abs (r_econ R a b + 1) - 1)%Z with (r_econ R a b) by lia. destruct (Z.ltb_spec 0 (r_econ R a b + 1)); [|lia]. destruct Y as [[-> _]|[_ Y]]; [auto|lia].
    - replace (Z.abs (- r_econ R a b - 1) - 1)%Z with (r_econ R a b) by lia. destruct (Z.ltb_spec 0 (- r_econ R a b - 1)); [lia|]. destruct Y as [[_ Y]|[-> _]]; [lia|auto].
  Qed.
  Lemma convert_ok l : l <> [] -> convert_loop R l = Ret (map step_code (filter known (steps l))).
  Proof. destruct l; [congruence|]. intros _. cbn [convert_loop]. rewrite convert_from_ok. reflexivity. Qed.

  Definition kept (x : list pt * list Z) : list Z * list Z := (map step_code (filter known (steps (fst x))), snd x).
  Lemma keep_undup_ok : forall cl dups, length dups = length cl -> Forall (fun x => fst x <> []) cl ->
    keep_undup R cl dups = Ret (map (fun k => kept (nth k cl ([], []))) (filter (fun k => (nth k dups 0 =? -1)%Z) (seq 0 (length cl)))).
  Proof.
    induction cl as [|[l ps] cl IH]; intros dups L F; [reflexivity|]. destruct dups as [|d dups]; [discriminate|]. cbn [keep_undup length seq filter nth]. inversion F as [|? ? F1 F2]; subst. cbn [fst] in F1.
    rewrite <- seq_shift. rewrite (filter_map_S (fun k => (nth k (d :: dups) 0 =? -1)%Z)). cbn [nth].
    assert (X : map (fun k => kept (nth k ((l, ps) :: cl) ([], []))) (map S (filter (fun k => (nth k dups 0 =? -1)%Z) (seq 0 (length cl)))) = map (fun k => kept (nth k cl ([], []))) (filter (fun k => (nth k dups 0 =? -1)%Z) (seq 0 (length cl)))) by (rewrite map_map; reflexivity).
    destruct (Z.eqb_spec d (-1)) as [D|D].
    - rewrite convert_ok by auto. cbn [bind]. rewrite IH by (auto; cbn in L; lia). cbn [bind]. f_equal. cbn [map]. f_equal. symmetry. exact X.
    - rewrite IH by (auto; cbn in L; lia). f_equal. symmetry. exact X.
  Qed.
  Theorem phase3_ok cl : Forall (fun x => fst x <> []) cl -> phase3 R cl = Ret (map (fun k => kept (nth k cl ([], []))) (firsts (map fst cl))).
  Proof.
    intros F. unfold phase3. destruct (ce_dups_ok (map fst cl)) as (dups & E & L & H). { apply Forall_forall. intros l Hl. apply in_map_iff in Hl. destruct Hl as (x & <- & Hx). rewrite Forall_forall in F. apply F; auto. }
    rewrite E. cbn [bind]. rewrite map_length in *. rewrite keep_undup_ok by auto. f_equal. f_equal. unfold firsts. rewrite map_length. apply filter_ext_in. intros k Hk. apply in_seq in Hk.
    rewrite (nth_indep dups 0%Z (-2)%Z) by lia. specialize (H k ltac:(lia)).
    assert (Q : (nth k dups (-2) = -1)%Z <-> forall l, (l < k)%nat -> nth l (map fst cl) [] <> nth k (map fst cl) []).
    { split; intros A.
      - destruct H as [[_ H]|(l & El & _)]; [auto|]. lia.
      - destruct H as [[H _]|(l & El & Hl & Hq)]; [auto|]. exfalso. apply (A l); auto. }
    destruct (Z.eqb_spec (nth k dups (-2)%Z) (-1)) as [D|D].
    - symmetry. apply negb_true_iff. destruct (existsb _ _) eqn:X; auto. apply existsb_exists in X. destruct X as (l & Hl & Y). apply in_seq in Hl. apply loopeqb_ok in Y. exfalso. apply ((proj1 Q D) l); auto; lia.
    - symmetry. apply negb_false_iff. destruct H as [[H _]|(l & El & Hl & Hq)]; [contradiction|]. apply existsb_exists. exists l. split; [apply in_seq; lia|]. apply loopeqb_ok. auto.
  Qed.
End Conv.
