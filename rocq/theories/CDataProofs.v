(** Proofs about the coarse mesh data. *)
From Verif Require Import Base LinAlg LinTools SparseModel AuxModel AuxSpec AuxProofs CDataModel CDataSpec.
Local Open Scope nat_scope.

Section Sums.
  Context {G : Type} (zero : G) (add : G -> G -> G).
  Hypothesis ac : forall a b, add a b = add b a.
  Hypothesis aa : forall a b c, add a (add b c) = add (add a b) c.
  Hypothesis az : forall a, add zero a = a.
  Definition gsum {A} (f : A -> G) (l : list A) : G := fold_right (fun a s => add (f a) s) zero l.

  Lemma gsum_cons {A} (f : A -> G) a l : gsum f (a :: l) = add (f a) (gsum f l). Proof. reflexivity. Qed.
  Lemma gsum_nil {A} (f : A -> G) : gsum f [] = zero. Proof. reflexivity. Qed.
  Arguments gsum : simpl never.

  Lemma gsum_ext {A} (f g : A -> G) l : (forall a, In a l -> f a = g a) -> gsum f l = gsum g l.
  Proof using. clear. induction l as [|a l IH]; intros H; [reflexivity|]. rewrite !gsum_cons, (H a), IH; auto using in_eq, in_cons. Qed.
  Lemma gsum_app {A} (f : A -> G) l l' : gsum f (l ++ l') = add (gsum f l) (gsum f l').
  Proof using aa az. clear - aa az. induction l as [|a l IH]; [symmetry; apply az|]. cbn [app]. rewrite !gsum_cons. now rewrite IH, aa. Qed.
  Lemma gsum_zero {A} (f : A -> G) l : (forall a, In a l -> f a = zero) -> gsum f l = zero.
  Proof using az. clear - az. induction l as [|a l IH]; intros H; [reflexivity|]. rewrite !gsum_cons, (H a), az, IH; auto using in_eq, in_cons. Qed.
  Lemma gsum_add {A} (f g : A -> G) l : gsum (fun a => add (f a) (g a)) l = add (gsum f l) (gsum g l).
  Proof using ac aa az. clear - ac aa az. induction l as [|a l IH]; [symmetry; apply az|]. rewrite !gsum_cons, IH.
    rewrite <- !aa. f_equal. rewrite !aa. f_equal. apply ac. Qed.
  Lemma gsum_perm {A} (f : A -> G) l l' : Permutation l l' -> gsum f l = gsum f l'.
  Proof using ac aa. clear - ac aa. induction 1; rewrite ?gsum_cons; [reflexivity|congruence| |congruence]. rewrite !aa. f_equal. apply ac. Qed.
  Lemma gsum_swap {A C} (f : A -> C -> G) l l' :
    gsum (fun a => gsum (fun c => f a c) l') l = gsum (fun c => gsum (fun a => f a c) l) l'.
  Proof using ac aa az.
    induction l as [|a l IH]. { symmetry. now apply gsum_zero. }
    rewrite gsum_cons, IH. symmetry. apply (gsum_add (f a) (fun c => gsum (fun a0 => f a0 c) l)).
  Qed.
  Lemma gsum_map {A C} (h : A -> C) (f : C -> G) l : gsum f (map h l) = gsum (fun a => f (h a)) l.
  Proof using. clear. induction l as [|a l IH]; [reflexivity|]. cbn [map]. rewrite !gsum_cons. congruence. Qed.
  Lemma gsum_concat {A} (f : A -> G) ll : gsum f (concat ll) = gsum (fun l => gsum f l) ll.
  Proof using aa az. clear - aa az. induction ll as [|l ll IH]; [reflexivity|]. cbn [concat]. now rewrite gsum_app, gsum_cons, IH. Qed.
  Lemma gsum_delta (f : nat -> G) j n s : s <= j < s + n -> gsum (fun k => if k =? j then f k else zero) (seq s n) = f j.
  Proof using ac az.
    clear - ac az. revert s; induction n as [|n IH]; intros s H; [lia|]. cbn [seq]. rewrite gsum_cons. destruct (Nat.eqb_spec s j) as [->|D].
    - rewrite gsum_zero; [rewrite ac; apply az|]. intros k Hk. apply in_seq in Hk. destruct (Nat.eqb_spec k j); [lia|reflexivity].
    - rewrite az. apply IH. lia.
  Qed.
  (** one entry changed by d *)
  Lemma gsum_upd {W} (phi : nat -> W -> G) (d : W) (A : list W) k x dl : k < length A ->
    phi k x = add (phi k (nth k A d)) dl ->
    gsum (fun i => phi i (nth i (upd A k x) d)) (seq 0 (length A)) = add (gsum (fun i => phi i (nth i A d)) (seq 0 (length A))) dl.
  Proof using ac aa az.
    intros Hk H. assert (E : seq 0 (length A) = seq 0 k ++ k :: seq (S k) (length A - S k)).
    { replace (length A) with (k + S (length A - S k)) at 1 by lia. rewrite seq_app. reflexivity. }
    rewrite E, !gsum_app, !gsum_cons.
    rewrite nth_upd_eq by auto. rewrite H.
    rewrite (gsum_ext _ (fun i => phi i (nth i A d)) (seq 0 k)).
    2:{ intros i Hi. apply in_seq in Hi. rewrite nth_upd_neq by lia. reflexivity. }
    rewrite (gsum_ext _ (fun i => phi i (nth i A d)) (seq (S k) _)).
    2:{ intros i Hi. apply in_seq in Hi. rewrite nth_upd_neq by lia. reflexivity. }
    rewrite <- !aa. do 2 f_equal. apply ac.
  Qed.
  Lemma accum {S I} (Inv : S -> Prop) (Phi : S -> G) (step : S -> I -> res S) (dl : I -> G) items :
    (forall i s, In i items -> Inv s -> exists s', step s i = Ret s' /\ Inv s' /\ Phi s' = add (Phi s) (dl i)) ->
    forall s, Inv s -> exists s', foldM step items s = Ret s' /\ Inv s' /\ Phi s' = add (Phi s) (gsum dl items).
  Proof using ac aa az.
    intros H. induction items as [|i items IH]; intros s Hs.
    - exists s. split; [reflexivity|]. split; [auto|]. rewrite gsum_nil. now rewrite ac, az.
    - destruct (H i s (in_eq _ _) Hs) as (s1 & E1 & I1 & P1).
      destruct (IH (fun j t Hj => H j t (in_cons _ _ _ Hj)) s1 I1) as (s2 & E2 & I2 & P2).
      exists s2. cbn [foldM]. rewrite E1. cbn [bind]. split; [exact E2|]. split; [exact I2|]. rewrite P2, P1, gsum_cons. now rewrite <- aa.
  Qed.
End Sums.

Lemma target_some map v A : target map v = Some A -> nth_error map v = Some (Z.of_nat A).
Proof.
  unfold target. destruct (nth_error map v) as [c|]; [|discriminate]. destruct (Z.ltb_spec c 0); [discriminate|].
  intros E; injection E as <-. f_equal. rewrite Z2Nat.id by lia. reflexivity.
Qed.
Lemma target_nth NC map v : map_into NC map -> v < length map ->
  (nth_error map v = Some (-1)%Z /\ target map v = None) \/
  (exists A, nth_error map v = Some (Z.of_nat A) /\ target map v = Some A /\ A < NC).
Proof.
  intros H Hv. destruct (nth_error map v) as [c|] eqn:E; [|apply nth_error_None in E; lia].
  destruct (H c (nth_error_In _ _ E)) as [->|R].
  - left. split; [reflexivity|]. unfold target. now rewrite E.
  - right. exists (Z.to_nat c). rewrite Z2Nat.id by lia. split; [reflexivity|]. split; [|lia].
    unfold target. rewrite E. destruct (Z.ltb_spec c 0); [lia|reflexivity].
Qed.
Lemma rd_nth_error {A} (l : list A) i x : nth_error l i = Some x -> rd l i = Ret x.
Proof. intros H. unfold rd. now rewrite H. Qed.
Lemma modify_ok {W} (f : W -> W) (A : list W) k d : k < length A -> modify f A (Z.of_nat k) = Ret (upd A k (f (nth k A d))).
Proof.
  intros H. unfold modify. destruct (Z.ltb_spec (Z.of_nat k) 0); [lia|]. rewrite Nat2Z.id.
  rewrite (rd_nth_error _ _ _ (nth_error_nth' A d H)). cbn [bind]. rewrite wr_ok by auto. reflexivity.
Qed.
Lemma master_mastered' eqcs : master_nodes eqcs = mastered eqcs.
Proof. unfold master_nodes, mastered. induction eqcs as [|[[|] l] q IH]; cbn; [reflexivity| |]; congruence. Qed.
Lemma mastered_cls n eqcs v : classes_in n eqcs -> In v (mastered eqcs) -> v < n.
Proof.
  intros H Hv. unfold mastered in Hv. apply in_concat in Hv. destruct Hv as (l & Hl & Hv). apply in_map_iff in Hl.
  destruct Hl as (q & <- & Hq). apply filter_In in Hq. eapply H; [apply Hq|exact Hv].
Qed.

Section H1.
  Context {B : Blk} (L : BlkLaws B).
  Local Notation K := (K B). Local Notation X := (X B).
  Add Ring Kr : (lawK B L).
  Lemma kc (a b : K) : kadd a b = kadd b a. Proof using L. clear - L. ring. Qed.
  Lemma ka (a b c : K) : kadd a (kadd b c) = kadd (kadd a b) c. Proof using L. clear - L. ring. Qed.
  Lemma kz (a : K) : kadd k0 a = a. Proof using L. clear - L. ring. Qed.

  Variables (vmap emap : list Z) (edges : list (nat * nat)) (NCV NCE : nat).
  Variables (vd : list (K * K)) (ed : list K).
  Hypothesis Hvi : map_into NCV vmap. Hypothesis Hei : map_into NCE emap.
  Hypothesis Hvd : length vd = length vmap. Hypothesis Hem : length emap = length edges. Hypothesis Hed : length ed = length edges.
  Hypothesis Hends : forall a b, In (a, b) edges -> a < length vmap /\ b < length vmap.

  Definition vterm (q1 q2 : nat -> K) (v : nat) : K :=
    match target vmap v with
    | Some A => kadd (kmul (fst (nth v vd (k0, k0))) (q1 A)) (kmul (snd (nth v vd (k0, k0))) (q2 A)) | None => k0 end.
  Definition gterm (q : nat -> K) (e : nat) : K :=
    match ground_of edges vmap emap e with Some A => kmul (nth e ed k0) (q A) | None => k0 end.
  (** no edge without coarse edge joins two different coarse vertices *)
  Definition no_cross (e : nat) : Prop := forall a b, target emap e = None -> nth_error edges e = Some (a, b) ->
    target vmap a = target vmap b \/ target vmap a = None \/ target vmap b = None.

  Definition Phi2 (q1 q2 : nat -> K) (c : list (K * K)) : K :=
    gsum k0 kadd (fun k => kadd (kmul (fst (nth k c (k0, k0))) (q1 k)) (kmul (snd (nth k c (k0, k0))) (q2 k))) (seq 0 NCV).

  Lemma add_vertex_step q1 q2 v c : v < length vmap -> length c = NCV ->
    exists c', h1_add_vertex vmap vd c v = Ret c' /\ length c' = NCV /\ Phi2 q1 q2 c' = kadd (Phi2 q1 q2 c) (vterm q1 q2 v).
  Proof using L Hvi Hvd.
    clear - L Hvi Hvd.
    intros Hv Hc. unfold h1_add_vertex, vterm. destruct (target_nth NCV vmap v Hvi Hv) as [[E T]|(A & E & T & HA)];
      rewrite (rd_nth_error _ _ _ E), T; cbn [bind].
    - rewrite Z.eqb_refl. exists c. split; [reflexivity|]. split; [auto|]. ring.
    - destruct (Z.eqb_spec (Z.of_nat A) (-1)); [lia|].
      rewrite (rd_nth_error _ _ (nth v vd (k0, k0))) by (apply nth_error_nth'; lia). cbn [bind].
      rewrite (modify_ok _ _ _ (k0, k0)) by lia. eexists. split; [reflexivity|]. split; [now rewrite upd_length|].
      unfold Phi2. rewrite <- Hc. apply (gsum_upd _ _ kc ka kz (fun k (x : K * K) => kadd (kmul (fst x) (q1 k)) (kmul (snd x) (q2 k)))); [lia|].
      cbn [fst snd]. ring.
  Qed.
  Lemma add_ground_step q1 q2 e c : e < length edges -> no_cross e -> length c = NCV ->
    exists c', h1_add_ground vmap emap edges ed c e = Ret c' /\ length c' = NCV /\ Phi2 q1 q2 c' = kadd (Phi2 q1 q2 c) (gterm q1 e).
  Proof using L Hvi Hei Hem Hed Hends.
    clear - L Hvi Hei Hem Hed Hends.
    intros He Hn Hc. unfold h1_add_ground, gterm, ground_of.
    destruct (target_nth NCE emap e Hei ltac:(lia)) as [[E T]|(A & E & T & HA)]; rewrite (rd_nth_error _ _ _ E), T; cbn [bind].
    2:{ destruct (Z.eqb_spec (Z.of_nat A) (-1)); [lia|]. exists c. split; [reflexivity|]. split; [auto|]. ring. }
    rewrite Z.eqb_refl. destruct (nth_error edges e) as [[a b]|] eqn:Ee; [|apply nth_error_None in Ee; lia].
    rewrite (rd_nth_error _ _ _ Ee). cbn [bind fst snd]. destruct (Hends a b (nth_error_In _ _ Ee)) as [Ha Hb].
    pose proof (Hn a b T Ee) as NC.
    assert (U : forall A, A < NCV -> exists c', (w <- rd ed e ;; modify (fun x : K * K => (kadd (fst x) w, snd x)) c (Z.of_nat A)) = Ret c' /\
       length c' = NCV /\ Phi2 q1 q2 c' = kadd (Phi2 q1 q2 c) (kmul (nth e ed k0) (q1 A))).
    { intros A HA. rewrite (rd_nth_error _ _ (nth e ed k0)) by (apply nth_error_nth'; lia). cbn [bind].
      rewrite (modify_ok _ _ _ (k0, k0)) by lia. eexists. split; [reflexivity|]. split; [now rewrite upd_length|].
      unfold Phi2. rewrite <- Hc. apply (gsum_upd _ _ kc ka kz (fun k (x : K * K) => kadd (kmul (fst x) (q1 k)) (kmul (snd x) (q2 k)))); [lia|].
      cbn [fst snd]. ring. }
    destruct (target_nth NCV vmap a Hvi Ha) as [[Ea Ta]|(A & Ea & Ta & HA)];
    destruct (target_nth NCV vmap b Hvi Hb) as [[Eb Tb]|(A' & Eb & Tb & HA')];
      rewrite (rd_nth_error _ _ _ Ea), (rd_nth_error _ _ _ Eb), Ta, Tb; cbn [bind].
    - rewrite Z.eqb_refl. exists c. split; [reflexivity|]. split; [auto|]. ring.
    - destruct (Z.eqb_spec (-1) (Z.of_nat A')); [lia|]. rewrite Z.eqb_refl. rewrite (rd_nth_error _ _ _ Eb). cbn [bind].
      apply U; auto.
    - destruct (Z.eqb_spec (Z.of_nat A) (-1)); [lia|]. rewrite (rd_nth_error _ _ _ Ea). cbn [bind]. apply U; auto.
    - rewrite Ta, Tb in NC. destruct NC as [E'|[E'|E']]; try discriminate. injection E' as ->. rewrite Z.eqb_refl.
      exists c. split; [reflexivity|]. split; [auto|]. ring.
  Qed.

  Lemma H1V_weak eqv eqe : classes_in (length vmap) eqv -> classes_in (length edges) eqe ->
    (forall e, In e (mastered eqe) -> no_cross e) ->
    exists c, H1V_map_data vmap emap edges NCV eqv eqe vd ed = Ret c /\ length c = NCV /\
      forall q1 q2, Phi2 q1 q2 c = kadd (ksumf (vterm q1 q2) (mastered eqv)) (ksumf (gterm q1) (mastered eqe)).
  Proof using L Hvi Hei Hvd Hem Hed Hends.
    intros Cv Ce Hn. unfold H1V_map_data. rewrite !master_mastered'.
    assert (Z0 : forall q1 q2, Phi2 q1 q2 (repeat (k0, k0) NCV) = k0).
    { intros q1 q2. apply (gsum_zero _ _ kz). intros k _. rewrite nth_repeat. cbn [fst snd]. ring. }
    assert (St : forall q1 q2, exists c, (c <- foldM (h1_add_vertex vmap vd) (mastered eqv) (repeat (k0, k0) NCV) ;;
                       foldM (h1_add_ground vmap emap edges ed) (mastered eqe) c) = Ret c /\ length c = NCV /\
                       Phi2 q1 q2 c = kadd (ksumf (vterm q1 q2) (mastered eqv)) (ksumf (gterm q1) (mastered eqe))).
    { intros q1 q2.
      destruct (accum _ _ kc ka kz (fun c => length c = NCV) (Phi2 q1 q2) (h1_add_vertex vmap vd) (vterm q1 q2) (mastered eqv)) with (s := repeat (@k0 B, @k0 B) NCV)
        as (c1 & E1 & L1 & P1).
      { intros v s Hv Hs. apply add_vertex_step; auto. eapply mastered_cls; eauto. }
      { apply repeat_length. }
      rewrite E1. cbn [bind].
      destruct (accum _ _ kc ka kz (fun c => length c = NCV) (Phi2 q1 q2) (h1_add_ground vmap emap edges ed) (gterm q1) (mastered eqe)) with (s := c1)
        as (c2 & E2 & L2 & P2); auto.
      { intros e s He Hs. apply add_ground_step; auto. eapply mastered_cls; eauto. }
      exists c2. split; [exact E2|]. split; [exact L2|]. rewrite P2, P1, Z0. rewrite kz. reflexivity. }
    destruct (St (fun _ => k0) (fun _ => k0)) as (c & E & Lc & _). exists c. split; [exact E|]. split; [exact Lc|].
    intros q1 q2. destruct (St q1 q2) as (c' & E' & _ & P). rewrite E in E'. injection E' as <-. exact P.
  Qed.

  Definition eterm (q : nat -> K) (e : nat) : K := match target emap e with Some ce => kmul (nth e ed k0) (q ce) | None => k0 end.
  Definition Phi1 (q : nat -> K) (c : list K) : K := gsum k0 kadd (fun k => kmul (nth k c k0) (q k)) (seq 0 NCE).
  Lemma add_edge_step q e c : e < length edges -> length c = NCE ->
    exists c', h1_add_edge emap ed c e = Ret c' /\ length c' = NCE /\ Phi1 q c' = kadd (Phi1 q c) (eterm q e).
  Proof using L Hei Hem Hed.
    clear - L Hei Hem Hed.
    intros He Hc. unfold h1_add_edge, eterm.
    destruct (target_nth NCE emap e Hei ltac:(lia)) as [[E T]|(A & E & T & HA)]; rewrite (rd_nth_error _ _ _ E), T; cbn [bind].
    - rewrite Z.eqb_refl. exists c. split; [reflexivity|]. split; [auto|]. ring.
    - destruct (Z.eqb_spec (Z.of_nat A) (-1)); [lia|].
      rewrite (rd_nth_error _ _ (nth e ed k0)) by (apply nth_error_nth'; lia). cbn [bind].
      rewrite (modify_ok _ _ _ k0) by lia. eexists. split; [reflexivity|]. split; [now rewrite upd_length|].
      unfold Phi1. rewrite <- Hc. apply (gsum_upd _ _ kc ka kz (fun k (x : K) => kmul x (q k))); [lia|]. ring.
  Qed.
  Lemma H1E_weak nodes : (forall e, In e nodes -> e < length edges) ->
    exists c, foldM (h1_add_edge emap ed) nodes (repeat k0 NCE) = Ret c /\ length c = NCE /\
      forall q, Phi1 q c = ksumf (eterm q) nodes.
  Proof using L Hei Hem Hed.
    clear - L Hei Hem Hed.
    intros Hn.
    assert (Z0 : forall q, Phi1 q (repeat k0 NCE) = k0).
    { intros q. apply (gsum_zero _ _ kz). intros k _. rewrite nth_repeat. ring. }
    assert (St : forall q, exists c, foldM (h1_add_edge emap ed) nodes (repeat k0 NCE) = Ret c /\ length c = NCE /\ Phi1 q c = ksumf (eterm q) nodes).
    { intros q.
      destruct (accum _ _ kc ka kz (fun c => length c = NCE) (Phi1 q) (h1_add_edge emap ed) (eterm q) nodes) with (s := repeat (@k0 B) NCE)
        as (c1 & E1 & L1 & P1).
      { intros e s He Hs. apply add_edge_step; auto. }
      { apply repeat_length. }
      exists c1. split; [exact E1|]. split; [exact L1|]. rewrite P1, Z0. now rewrite kz. }
    destruct (St (fun _ => k0)) as (c & E & Lc & _). exists c. split; [exact E|]. split; [exact Lc|].
    intros q. destruct (St q) as (c' & E' & _ & P). rewrite E in E'. injection E' as <-. exact P.
  Qed.
End H1.
