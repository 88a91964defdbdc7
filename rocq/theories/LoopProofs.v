(** Sorting and orienting a loop *)
From Verif Require Import Base ArraysModel ArraysProofs ArraysProps LoopModel LoopSpec.
Import ListNotations.

Definition zeros (used : list Z) : list nat := filter (fun k => (nth k used 0 =? 0)%Z) (seq 0 (length used)).

Lemma filter_upd_aux (p q : nat -> bool) (k : nat) : forall l, NoDup l -> In k l -> p k = true -> q k = false -> (forall j, j <> k -> p j = q j) ->
  Permutation (filter p l) (k :: filter q l).
Proof.
  induction l as [|a l IH]; intros N I Pk Qk E; [destruct I|]. inversion N as [|? ? N1 N2]; subst. cbn.
  destruct (Nat.eq_dec a k) as [E1|E1].
  - subst a. rewrite Pk, Qk. constructor. rewrite (filter_ext_in p q); [reflexivity|]. intros j Ij. apply E. intros E2; subst; auto.
  - destruct I as [I|I]; [congruence|]. rewrite (E a E1). specialize (IH N2 I Pk Qk E). destruct (q a); [|exact IH].
    rewrite IH. apply perm_swap.
Qed.
Lemma zeros_upd used k m : (k < length used)%nat -> nth k used 0%Z = 0%Z -> m <> 0%Z -> Permutation (zeros used) (k :: zeros (upd used k m)).
Proof.
  intros Hk E Hm. unfold zeros. rewrite upd_length. apply filter_upd_aux.
  - apply seq_NoDup.
  - apply in_seq; lia.
  - rewrite E; reflexivity.
  - rewrite nth_upd_eq by auto. now apply Z.eqb_neq.
  - intros j Hj. rewrite nth_upd_neq; auto.
Qed.
Lemma in_zeros used k : In k (zeros used) <-> (k < length used)%nat /\ nth k used 0%Z = 0%Z.
Proof. unfold zeros. rewrite filter_In, in_seq, Z.eqb_eq. split; intros [A B]; split; auto; lia. Qed.
Lemma zeros_repeat n : zeros (repeat 0%Z n) = seq 0 n.
Proof.
  unfold zeros. rewrite repeat_length.
  assert (H : forall l, filter (fun k => (nth k (repeat 0%Z n) 0 =? 0)%Z) l = l).
  { induction l as [|a l IH]; cbn; auto. rewrite IH. assert (E : nth a (repeat 0%Z n) 0%Z = 0%Z) by (clear; revert a; induction n; intros [|a]; cbn; auto). rewrite E. reflexivity. }
  apply H.
Qed.

Section S.
  Context {T P : Type} (flip : T -> T) (orient : T -> bool -> T -> Z) (src dst : T -> P) (eqb : P -> P -> bool) (dT : T).
  Hypothesis eqb_ok : forall a b, eqb a b = true <-> a = b.
  Variable loop : list T.
  Hypothesis Hflip : forall x, In x loop -> src (flip x) = dst x /\ dst (flip x) = src x.
  Hypothesis Hor : forall a f b, In a loop -> In b loop ->
    orient a f b = (let p := if f then src a else dst a in if eqb p (src b) then 1 else if eqb p (dst b) then -1 else 0)%Z.
  Let n := length loop.
  Definition elem (used : list Z) (k : nat) : T := if (nth k used 0 =? -1)%Z then flip (nth k loop dT) else nth k loop dT.
  Definition endpt (so : Z) (l : list T) (s e : P) : Prop := if (so =? 1)%Z then trail src dst s l e else trail dst src s l e.
  Definition vals (used : list Z) := forall k, nth k used 0%Z = 0%Z \/ nth k used 0%Z = 1%Z \/ nth k used 0%Z = (-1)%Z.
  Definition inv (used : list Z) (inds : list nat) : Prop := length used = n /\ Permutation (inds ++ zeros used) (seq 0 n).
  Definition keeps (u u' : list Z) := forall k, nth k u 0%Z <> 0%Z -> nth k u' 0%Z = nth k u 0%Z.

  Lemma find_fit_spec (curr : T) (f : bool) : forall l used k0, length l = length used ->
    match find_fit orient l used k0 curr f with
    | Some (k, o, x) => exists i, k = (k0 + i)%nat /\ (i < length l)%nat /\ nth i used 0%Z = 0%Z /\ nth i l dT = x /\ o = orient curr f x /\ o <> 0%Z
    | None => forall i, (i < length l)%nat -> nth i used 0%Z = 0%Z -> orient curr f (nth i l dT) = 0%Z
    end.
  Proof.
    induction l as [|x l IH]; intros used k0 HL; destruct used as [|u used]; try discriminate.
    - cbn. intros i Hi. lia.
    - cbn [find_fit]. destruct (Z.eqb_spec u 0) as [E|E].
      + destruct (Z.eqb_spec (orient curr f x) 0) as [E1|E1]; cbn [andb negb].
        * specialize (IH used (S k0) ltac:(cbn in HL; lia)). destruct (find_fit orient l used (S k0) curr f) as [[[k o] y]|].
          -- destruct IH as (i & A & B & C & D & F & G). exists (S i). cbn. repeat split; auto; lia.
          -- intros [|i] Hi Hu; cbn in *; auto. apply IH; auto; lia.
        * exists O. cbn. repeat split; auto; lia.
      + cbn [andb]. specialize (IH used (S k0) ltac:(cbn in HL; lia)). destruct (find_fit orient l used (S k0) curr f) as [[[k o] y]|].
        * destruct IH as (i & A & B & C & D & F & G). exists (S i). cbn. repeat split; auto; lia.
        * intros [|i] Hi Hu; cbn in *; try congruence. apply IH; auto; lia.
  Qed.

  Lemma elem_keeps u u' k : keeps u u' -> nth k u 0%Z <> 0%Z -> elem u' k = elem u k.
  Proof. intros K H. unfold elem. rewrite (K k H). reflexivity. Qed.

  Lemma extend_ok (so : Z) : (so = 1 \/ so = -1)%Z -> forall fuel used inds (curr : T) (f : bool) (p : P),
    inv used inds -> In curr loop -> p = (if f then src curr else dst curr) -> (length (zeros used) < fuel)%nat ->
    exists used' ks p', extend_chunk orient fuel loop used inds curr f so = Ret (used', inds ++ ks) /\ inv used' (inds ++ ks) /\ keeps used used' /\
      endpt so (map (elem used') ks) p p' /\ (vals used -> vals used') /\ Permutation (zeros used) (ks ++ zeros used') /\
      (forall k, In k ks -> nth k used' 0%Z <> 0%Z) /\
      (forall k, In k (zeros used') -> src (nth k loop dT) <> p' /\ dst (nth k loop dT) <> p').
  Proof.
    intros Hso. induction fuel as [|fuel IH]; intros used inds curr f p HI Hc Hp Hf; [lia|].
    cbn [extend_chunk]. destruct HI as [L HP].
    pose proof (find_fit_spec curr f loop used O (eq_sym L)) as FF.
    destruct (find_fit orient loop used 0 curr f) as [[[k o] x]|].
    - destruct FF as (i & Ek & Hi & Hu & Hx & Ho & Hn). cbn in Ek. subst k.
      assert (Hin : In x loop) by (subst x; apply nth_In; auto).
      rewrite wr_ok by (fold n in Hi; lia). cbn [bind].
      assert (O : (o = 1 \/ o = -1)%Z).
      { rewrite Ho in Hn |- *. rewrite (Hor curr f x Hc Hin) in Hn |- *. cbv zeta in Hn |- *. destruct (eqb _ (src x)); auto. destruct (eqb _ (dst x)); auto. exfalso. apply Hn; reflexivity. }
      assert (OS : (o * so = 1 \/ o * so = -1)%Z) by lia.
      assert (Hi' : (i < length used)%nat) by (fold n in Hi; lia).
      pose proof (zeros_upd used i (o * so)%Z Hi' Hu ltac:(lia)) as ZU.
      destruct (IH (upd used i (o * so)%Z) (inds ++ [i]) x (o <? 0)%Z (if (o <? 0)%Z then src x else dst x)) as (u' & ks & p' & E & I' & K & PA & V & PZ & NZ & NF).
      + split; [rewrite upd_length; auto|]. rewrite <- app_assoc. cbn [app]. rewrite <- ZU. exact HP.
      + exact Hin.
      + reflexivity.
      + apply Permutation_length in ZU. cbn in ZU. lia.
      + assert (Ui : nth i u' 0%Z = (o * so)%Z).
        { rewrite K by (rewrite nth_upd_eq by lia; lia). apply nth_upd_eq; lia. }
        exists u', (i :: ks), p'. rewrite E, <- app_assoc. cbn [app]. split; [reflexivity|]. split; [rewrite <- app_assoc in I'; exact I'|].
        split; [|split; [|split; [|split; [|split]]]].
        * intros k Hk. rewrite K; [apply nth_upd_neq|rewrite nth_upd_neq; auto]; intros E1; subst; auto.
        * cbn [map]. assert (EL : elem u' i = if (o * so =? -1)%Z then flip x else x) by (unfold elem; rewrite Ui, Hx; reflexivity).
          rewrite (Hor curr f x Hc Hin) in Ho. cbn in Ho. rewrite <- Hp in Ho. destruct (Hflip x Hin) as [F1 F2].
          destruct (eqb p (src x)) eqn:E1; [|destruct (eqb p (dst x)) eqn:E2; [|lia]].
          -- apply eqb_ok in E1. subst o. unfold endpt in *. cbn in PA. rewrite EL. destruct Hso as [->| ->]; cbn in *.
             ++ split; auto.
             ++ rewrite F1, F2. split; auto.
          -- apply eqb_ok in E2. subst o. unfold endpt in *. cbn in PA. rewrite EL. destruct Hso as [->| ->]; cbn in *.
             ++ rewrite F1, F2. split; auto.
             ++ split; auto.
        * intros Vu. apply V. intros j. destruct (Nat.eq_dec j i) as [->|Ne]; [rewrite nth_upd_eq by lia; lia|rewrite nth_upd_neq; auto].
        * rewrite ZU, PZ. reflexivity.
        * intros k [<-|Hk]; [rewrite Ui; lia|apply NZ; auto].
        * exact NF.
    - exists used, [], p. rewrite app_nil_r. split; [reflexivity|]. split; [split; auto|]. split; [intros k _; reflexivity|].
      split; [unfold endpt; destruct (so =? 1)%Z; reflexivity|]. split; [auto|]. split; [reflexivity|]. split; [intros k []|].
      intros k Hk. apply in_zeros in Hk. destruct Hk as [Hk Hz]. fold n in FF. specialize (FF k ltac:(lia) Hz).
      assert (Hin : In (nth k loop dT) loop) by (apply nth_In; fold n; lia).
      rewrite (Hor curr f _ Hc Hin) in FF. cbn in FF. rewrite <- Hp in FF.
      destruct (eqb p (src (nth k loop dT))) eqn:E1; [lia|]. destruct (eqb p (dst (nth k loop dT))) eqn:E2; [lia|].
      split; intros E3; [apply (f_equal (eqb p)) in E3|apply (f_equal (eqb p)) in E3]; rewrite ?E1, ?E2 in E3; symmetry in E3;
        assert (eqb p p = true) by (apply eqb_ok; auto); congruence.
  Qed.

  Lemma find_unused_spec : forall l used k0, length l = length used ->
    match find_unused l used k0 with
    | Some (k, x) => exists i, k = (k0 + i)%nat /\ (i < length l)%nat /\ nth i used 0%Z = 0%Z /\ nth i l dT = x
    | None => forall i, (i < length l)%nat -> nth i used 0%Z <> 0%Z
    end.
  Proof.
    induction l as [|x l IH]; intros used k0 HL; destruct used as [|u used]; try discriminate.
    - cbn. intros; lia.
    - cbn [find_unused]. destruct (Z.eqb_spec u 0) as [E|E].
      + exists O. cbn. repeat split; auto; lia.
      + specialize (IH used (S k0) ltac:(cbn in HL; lia)). destruct (find_unused l used (S k0)) as [[k y]|].
        * destruct IH as (i & A & B & C & D). exists (S i). cbn. repeat split; auto; lia.
        * intros [|i] Hi; cbn; auto. apply IH; cbn in Hi; lia.
  Qed.

  (** degrees *)
  Definition deg (l : list T) (v : P) : nat := touches eqb src dst l v.
  Lemma deg_cons x l v : deg (x :: l) v = ((if eqb (src x) v then 1 else 0) + (if eqb (dst x) v then 1 else 0) + deg l v)%nat.
  Proof. unfold deg, touches. cbn. destruct (eqb (src x) v), (eqb (dst x) v); cbn; lia. Qed.
  Lemma deg_app l l' v : deg (l ++ l') v = (deg l v + deg l' v)%nat.
  Proof. unfold deg, touches. rewrite !filter_app, !app_length. lia. Qed.
  Lemma deg_perm l l' v : Permutation l l' -> deg l v = deg l' v.
  Proof. intros H. induction H; rewrite ?deg_cons; try lia. Qed.
  Lemma deg_elem u ks v : (forall k, In k ks -> (k < n)%nat) -> deg (map (elem u) ks) v = deg (map (fun k => nth k loop dT) ks) v.
  Proof.
    induction ks as [|k ks IH]; intros H; cbn [map]; auto. rewrite !deg_cons, IH by (intros; apply H; cbn; auto).
    unfold elem. destruct (nth k u 0 =? -1)%Z; auto. destruct (Hflip (nth k loop dT)) as [E1 E2].
    - apply nth_In. apply H; cbn; auto.
    - rewrite E1, E2. lia.
  Qed.
  Lemma deg_trail l : forall s e v, trail src dst s l e -> Nat.even (deg l v + (if eqb s v then 1 else 0) + (if eqb e v then 1 else 0)) = true.
  Proof.
    induction l as [|x l IH]; intros s e v H.
    - cbn in H. subst e. unfold deg, touches. cbn. destruct (eqb s v); reflexivity.
    - destruct H as [H1 H2]. subst s. specialize (IH _ _ v H2). rewrite deg_cons.
      destruct (eqb (src x) v), (eqb (dst x) v), (eqb e v); cbn in IH |- *; rewrite ?Nat.add_0_r in *;
        repeat rewrite Nat.add_1_r in *; cbn in *; auto.
  Qed.
  Lemma deg_zero ks v : (forall k, In k ks -> src (nth k loop dT) <> v /\ dst (nth k loop dT) <> v) -> deg (map (fun k => nth k loop dT) ks) v = 0%nat.
  Proof.
    induction ks as [|k ks IH]; intros H; cbn [map]; auto. rewrite deg_cons, IH by (intros; apply H; cbn; auto).
    destruct (H k (or_introl eq_refl)) as [A B].
    destruct (eqb (src _) v) eqn:E1; [apply eqb_ok in E1; congruence|]. destruct (eqb (dst _) v) eqn:E2; [apply eqb_ok in E2; congruence|]. reflexivity.
  Qed.

  Definition chunk_ok (u : list Z) (bf : list nat * list nat) : Prop :=
    exists s e s', fst bf <> [] /\ trail src dst s (map (elem u) (fst bf)) e /\ trail dst src s (map (elem u) (snd bf)) s'.
  Definition chunk_closed (u : list Z) (bf : list nat * list nat) : Prop :=
    exists s, fst bf <> [] /\ trail src dst s (map (elem u) (fst bf)) s /\ snd bf = [].

  Lemma inv_range u inds k : inv u inds -> In k inds \/ In k (zeros u) -> (k < n)%nat.
  Proof. intros [_ H] I. assert (J : In k (seq 0 n)) by (rewrite <- H; apply in_or_app; tauto). apply in_seq in J. lia. Qed.

  Lemma chunk_loop_ok : forall fuel used inds nc, inv used inds -> vals used -> (length (zeros used) < fuel)%nat ->
    exists used' cs, chunk_loop orient fuel loop used inds nc = Ret (used', inds ++ concat (map (fun bf => fst bf ++ snd bf) cs), (nc + length cs)%nat) /\
      inv used' (inds ++ concat (map (fun bf => fst bf ++ snd bf) cs)) /\ zeros used' = [] /\ keeps used used' /\ vals used' /\ Forall (chunk_ok used') cs /\
      ((forall v, Nat.even (deg (map (fun k => nth k loop dT) (zeros used)) v) = true) -> Forall (chunk_closed used') cs).
  Proof.
    induction fuel as [|fuel IH]; intros used inds nc HI HV Hf; [lia|]. cbn [chunk_loop]. fold n.
    destruct HI as [L HP]. pose proof (Permutation_length HP) as PL. rewrite app_length, seq_length in PL.
    destruct (Nat.ltb_spec (length inds) n) as [Hlt|Hge].
    2:{ assert (Z0 : zeros used = []) by (destruct (zeros used); cbn in PL; auto; lia).
        exists used, []. cbn. rewrite app_nil_r, Nat.add_0_r. split; [reflexivity|]. split; [split; auto|]. split; [auto|]. split; [intros k _; reflexivity|]. split; [auto|]. split; [constructor|intros; constructor]. }
    pose proof (find_unused_spec loop used O ltac:(auto)) as FU. destruct (find_unused loop used 0) as [[k x]|].
    2:{ exfalso. destruct (zeros used) as [|z zs] eqn:Ez; [cbn in PL; lia|]. assert (Iz : In z (zeros used)) by (rewrite Ez; cbn; auto).
        apply in_zeros in Iz. destruct Iz as [A B]. apply (FU z); auto. fold n; lia. }
    destruct FU as (i & Ek & Hi & Hu & Hx). cbn in Ek. subst k. fold n in Hi.
    assert (Hin : In x loop) by (subst x; apply nth_In; auto).
    rewrite wr_ok by lia. cbn [bind].
    pose proof (zeros_upd used i 1%Z ltac:(lia) Hu ltac:(lia)) as ZU.
    assert (I1 : inv (upd used i 1%Z) (inds ++ [i])) by (split; [rewrite upd_length; auto|rewrite <- app_assoc; cbn [app]; rewrite <- ZU; exact HP]).
    assert (LZ : (length (zeros (upd used i 1%Z)) < S n)%nat) by (apply Permutation_length in ZU; cbn in ZU; lia).
    destruct (extend_ok 1%Z (or_introl eq_refl) (S n) _ _ x false (dst x) I1 Hin eq_refl LZ) as (u2 & ks & e & E2 & I2 & K2 & T2 & V2 & Z2 & N2 & F2).
    rewrite E2. cbn [bind].
    assert (LZ2 : (length (zeros u2) < S n)%nat) by (apply Permutation_length in Z2; rewrite app_length in Z2; lia).
    destruct (extend_ok (-1)%Z (or_intror eq_refl) (S n) _ _ x true (src x) I2 Hin eq_refl LZ2) as (u3 & js & s' & E3 & I3 & K3 & T3 & V3 & Z3 & N3 & F3).
    rewrite E3. cbn [bind].
    destruct (IH u3 ((inds ++ [i]) ++ ks ++ js) (S nc)) as (u' & cs & E' & I' & Z' & K' & V' & C' & CC').
    { rewrite app_assoc. exact I3. }
    { apply V3, V2. intros j. destruct (Nat.eq_dec j i) as [Ej|Ne]; [subst j; rewrite nth_upd_eq by lia; right; left; reflexivity|rewrite nth_upd_neq by auto; apply HV]. }
    { apply Permutation_length in ZU, Z2, Z3. rewrite app_length in Z2, Z3. cbn in ZU. lia. }
    replace (((inds ++ [i]) ++ ks) ++ js) with ((inds ++ [i]) ++ ks ++ js) by (rewrite app_assoc; reflexivity).
    assert (Kall : keeps used u').
    { intros j Hj. assert (J1 : nth j (upd used i 1%Z) 0%Z = nth j used 0%Z) by (apply nth_upd_neq; intros ->; auto).
      assert (J2 : nth j u2 0%Z = nth j used 0%Z) by (rewrite K2; auto; rewrite J1; auto).
      assert (J3 : nth j u3 0%Z = nth j used 0%Z) by (rewrite K3; auto; rewrite J2; auto).
      rewrite K'; auto. rewrite J3; auto. }
    assert (Ui : nth i u' 0%Z = 1%Z).
    { assert (J1 : nth i (upd used i 1%Z) 0%Z = 1%Z) by (apply nth_upd_eq; lia).
      assert (J2 : nth i u2 0%Z = 1%Z) by (rewrite K2, J1; auto; rewrite J1; lia).
      assert (J3 : nth i u3 0%Z = 1%Z) by (rewrite K3, J2; auto; rewrite J2; lia).
      rewrite K', J3; auto. rewrite J3; lia. }
    assert (M2 : map (elem u') ks = map (elem u2) ks).
    { apply map_ext_in. intros k Hk. unfold elem. rewrite K'; [rewrite K3; auto|]; rewrite ?K3; auto. }
    assert (M3 : map (elem u') js = map (elem u3) js).
    { apply map_ext_in. intros k Hk. unfold elem. rewrite K'; auto. }
    exists u', ((i :: ks, js) :: cs).
    assert (EI : inds ++ concat (map (fun bf => fst bf ++ snd bf) ((i :: ks, js) :: cs)) = ((inds ++ [i]) ++ ks ++ js) ++ concat (map (fun bf => fst bf ++ snd bf) cs)).
    { cbn [map concat fst snd]. rewrite !app_assoc. rewrite <- (app_assoc inds [i] ks). cbn [app]. rewrite <- !app_assoc. reflexivity. }
    split; [|split; [|split; [exact Z'|split; [exact Kall|split; [exact V'|split]]]]].
    - rewrite EI. cbn [length]. rewrite Nat.add_succ_r. exact E'.
    - rewrite EI. exact I'.
    - constructor; auto. exists (src x), e, s'. cbn [fst snd map]. split; [discriminate|]. split.
      + assert (Ex : elem u' i = x) by (unfold elem; rewrite Ui; cbn; exact Hx). rewrite Ex. split; auto. rewrite M2. exact T2.
      + rewrite M3. exact T3.
    - intros EV.
      assert (Tr : trail src dst (src x) (map (elem u') (i :: ks)) e).
      { cbn [map]. assert (Ex : elem u' i = x) by (unfold elem; rewrite Ui; cbn; exact Hx). rewrite Ex. split; auto. rewrite M2. exact T2. }
      assert (PZ : Permutation (zeros used) ((i :: ks) ++ zeros u2)) by (rewrite ZU; cbn; constructor; exact Z2).
      assert (Rg : forall k, In k (zeros used) -> (k < n)%nat) by (intros k Hk; apply in_zeros in Hk; lia).
      assert (Rk : forall k, In k (i :: ks) -> (k < n)%nat) by (intros k Hk; apply Rg; rewrite PZ; apply in_or_app; auto).
      assert (Dsum : forall v, deg (map (fun k => nth k loop dT) (zeros used)) v = (deg (map (elem u') (i :: ks)) v + deg (map (fun k => nth k loop dT) (zeros u2)) v)%nat).
      { intros v. rewrite (deg_perm _ _ v (Permutation_map _ PZ)), map_app, deg_app. f_equal. symmetry. apply deg_elem. exact Rk. }
      assert (Ee : src x = e).
      { pose proof (deg_trail _ _ _ e Tr) as DT. pose proof (EV e) as EVe. rewrite Dsum, (deg_zero (zeros u2) e F2), Nat.add_0_r in EVe.
        assert (Ee : eqb e e = true) by (apply eqb_ok; auto). rewrite Ee in DT. destruct (eqb (src x) e) eqn:Es; [now apply eqb_ok|].
        exfalso. rewrite Nat.add_0_r, Nat.add_1_r, Nat.even_succ, <- Nat.negb_even, EVe in DT. discriminate. }
      assert (J0 : js = []).
      { destruct js as [|j js']; auto. exfalso. cbn in T3. unfold endpt in T3. cbn in T3. destruct T3 as [T3 _].
        assert (Ij : In j (zeros u2)) by (rewrite Z3; cbn; auto). destruct (F2 j Ij) as [A B].
        assert (Hj : (j < n)%nat) by (apply Rg; rewrite PZ; apply in_or_app; auto).
        unfold elem in T3. destruct (nth j u3 0 =? -1)%Z.
        - destruct (Hflip (nth j loop dT)) as [G1 G2]; [apply nth_In; auto|]. rewrite G2 in T3. congruence.
        - congruence. }
      constructor.
      + exists (src x). cbn [fst snd]. split; [discriminate|]. split; [rewrite Ee at 2; exact Tr|exact J0].
      + apply CC'. intros v. subst js. cbn [app] in Z3. rewrite <- (deg_perm _ _ v (Permutation_map _ Z3)).
        pose proof (EV v) as EVv. rewrite Dsum in EVv. pose proof (deg_trail _ _ _ v Tr) as DT. rewrite <- Ee in DT.
        rewrite <- Nat.add_assoc, Nat.even_add in DT. assert (X : Nat.even ((if eqb (src x) v then 1 else 0) + (if eqb (src x) v then 1 else 0)) = true) by (destruct (eqb (src x) v); reflexivity).
        rewrite X in DT. rewrite Nat.even_add in EVv. destruct (Nat.even (deg (map (elem u') (i :: ks)) v)); [|discriminate].
        destruct (Nat.even (deg (map (fun k => nth k loop dT) (zeros u2)) v)); auto; discriminate.
  Qed.

  Lemma flip_marked_nth : forall l used k, length l = length used -> (k < length l)%nat ->
    nth k (flip_marked flip l used) dT = if (nth k used 0 =? -1)%Z then flip (nth k l dT) else nth k l dT.
  Proof. induction l as [|x l IH]; intros [|u used] k HL Hk; cbn in *; try lia. destruct k; auto. apply IH; lia. Qed.
  Lemma flip_marked_length : forall l used, length (flip_marked flip l used) = length l.
  Proof. induction l as [|x l IH]; intros [|u used]; cbn; auto. Qed.

  Lemma sort_ok : exists u cs,
    SortAndOrientLoop flip orient loop = Ret (length cs, map (elem u) (concat (map (fun bf => fst bf ++ snd bf) cs))) /\
    Permutation (concat (map (fun bf => fst bf ++ snd bf) cs)) (seq 0 n) /\ Forall (chunk_ok u) cs /\
    ((forall v, Nat.even (deg loop v) = true) -> Forall (chunk_closed u) cs).
  Proof.
    assert (I0 : inv (repeat 0%Z n) []) by (split; [apply repeat_length|cbn; rewrite zeros_repeat; reflexivity]).
    assert (V0 : vals (repeat 0%Z n)) by (intros k; left; clear; revert k; induction n; intros [|k]; cbn; auto).
    destruct (chunk_loop_ok (S n) _ _ O I0 V0) as (u & cs & E & I & Z & _ & _ & C & CC).
    { rewrite zeros_repeat, seq_length. lia. }
    cbn [app Nat.add] in E, I. exists u, cs. unfold SortAndOrientLoop. fold n. rewrite E. cbn [bind]. destruct I as [Lu Pm]. rewrite Z, app_nil_r in Pm.
    set (inds := concat _) in *.
    assert (Pz : Permutation (map Z.of_nat inds) (map Z.of_nat (seq 0 (length (flip_marked flip loop u))))) by (rewrite flip_marked_length; apply Permutation_map; exact Pm).
    rewrite (ApplyPermutation_spec dT (flip_marked flip loop u) (map Z.of_nat inds) Pz). cbn [bind].
    split; [|split; [exact Pm|split; [exact C|]]].
    - f_equal. f_equal. rewrite map_map. apply map_ext_in. intros k Hk. rewrite Nat2Z.id.
      assert (Hk' : (k < n)%nat) by (rewrite Pm in Hk; apply in_seq in Hk; lia).
      rewrite flip_marked_nth; auto.
    - intros EV. apply CC. rewrite zeros_repeat. intros v. rewrite <- EV at 1. f_equal. f_equal.
      clear. unfold n. generalize loop. intros l. apply (nth_ext_len _ _ dT); [rewrite map_length, seq_length; auto|].
      intros k Hk. rewrite map_length, seq_length in Hk. rewrite (nth_indep _ dT (nth 0 l dT)) by (rewrite map_length, seq_length; auto).
      rewrite (map_nth (fun k => nth k l dT)), seq_nth; auto.
  Qed.
End S.
