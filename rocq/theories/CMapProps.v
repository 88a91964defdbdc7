(** C76: the reverse node maps of a coarsening step, concatenation of coarsening steps, and the data mapped along them. *)
From Verif Require Import Base AGroup LinAlg LinTools Instances SparseModel SparseProofs AuxModel AuxSpec AuxProofs CDataModel CDataSpec CDataProofs CDataProps.
Local Open Scope nat_scope.

Lemma c2f_bucket map NC k : map_into NC map ->
  bucket (c2f_items map) k = filter (fun v => hits (target map v) k) (seq 0 (length map)).
Proof.
  intros H. unfold c2f_items, numbered.
  assert (G : forall l s, (forall i, i < length l -> nth_error map (s + i) = nth_error l i) -> map_into NC l ->
    bucket (flat_map (fun kc : nat * Z => if (snd kc =? -1)%Z then [] else [(Z.to_nat (snd kc), fst kc)]) (combine (seq s (length l)) l)) k =
    filter (fun v => hits (target map v) k) (seq s (length l))).
  { induction l as [|c l IH]; intros s Hn Hl; [reflexivity|]. cbn [length seq combine flat_map filter]. rewrite bucket_app, IH.
    - pose proof (Hn 0 ltac:(cbn; lia)) as N0. rewrite Nat.add_0_r in N0. cbn [nth_error] in N0. unfold target at 2. rewrite N0. cbn [fst snd].
      destruct (Hl c (in_eq _ _)) as [->|R]; [reflexivity|]. destruct (Z.eqb_spec c (-1)); [lia|]. destruct (Z.ltb_spec c 0); [lia|].
      rewrite bucket_cons. cbn [fst snd hits]. destruct (Z.to_nat c =? k); reflexivity.
    - intros i Hi. pose proof (Hn (S i) ltac:(cbn; lia)) as N1. cbn [nth_error] in N1. rewrite <- N1. f_equal. lia.
    - intros x Hx. apply Hl. now right. }
  apply G; auto.
Qed.

(** === C76, reverse map: row k of the reverse map holds exactly the nodes mapped to k, in ascending order. *)
Theorem C76_reverse_map : forall (NC : nat) (map : list Z), map_into NC map ->
  exists t, GetMapC2F NC map = Ret t /\ length t = NC /\
    forall k, k < NC -> nth k t [] = filter (fun v => hits (target map v) k) (seq 0 (length map)).
Proof.
  intros NC map H. unfold GetMapC2F.
  assert (E : existsb (fun c => (c <? -1)%Z) map = false).
  { apply Bool.not_true_is_false. intros E. apply existsb_exists in E. destruct E as (c & Hc & E). apply Z.ltb_lt in E.
    destruct (H c Hc); lia. }
  rewrite E. rewrite count_fill_ok.
  - eexists. split; [reflexivity|]. split; [now rewrite map_length, seq_length|]. intros k Hk. rewrite nth_map_seq by auto. now apply (c2f_bucket map NC).
  - intros p Hp. unfold c2f_items in Hp. apply in_flat_map in Hp. destruct Hp as ([i c] & Hi & Hp). cbn [fst snd] in Hp.
    destruct (Z.eqb_spec c (-1)); [destruct Hp|]. destruct Hp as [<-|[]]. cbn [fst].
    apply in_combine_r in Hi. destruct (H c Hi); lia.
Qed.

(** === C76, concatenation: the concatenated map sends a node where the second map sends its image; nodes dropped by one of the two
    maps are dropped.  Maps of vertices and edges that belong together stay so. *)
Lemma conc_ok NM lmap rmap : map_into NM lmap -> length rmap = NM ->
  exists c, SetConcedMap lmap rmap = Ret c /\ length c = length lmap /\
    (forall v, target c v = match target lmap v with Some m => target rmap m | None => None end) /\
    (forall x, In x c -> x = (-1)%Z \/ In x rmap).
Proof.
  intros H HR. unfold SetConcedMap.
  set (g := fun z : Z => if (z <? 0)%Z then (-1)%Z else nth (Z.to_nat z) rmap 0%Z).
  match goal with |- context [foldM ?F0 _ _] => set (F := F0) end.
  assert (G : forall n s acc, s + n <= length lmap -> foldM F (seq s n) acc = Ret (acc ++ map g (firstn n (skipn s lmap)))).
  { induction n as [|n IH]; intros s acc Hs; [cbn; now rewrite app_nil_r|]. cbn [seq foldM]. unfold F at 1.
    destruct (nth_error lmap s) as [z|] eqn:Ez; [|apply nth_error_None in Ez; lia].
    rewrite (rd_nth_error _ _ _ Ez). cbn [bind].
    assert (Sk : skipn s lmap = z :: skipn (S s) lmap).
    { clear - Ez. revert s Ez; induction lmap as [|y l IHl]; intros [|s] Ez; try discriminate; cbn in *; [now injection Ez as ->|now apply IHl]. }
    rewrite Sk. cbn [firstn map]. destruct (H z (nth_error_In _ _ Ez)) as [->|R].
    - rewrite Z.eqb_refl. cbn [bind]. rewrite IH by lia. f_equal. now rewrite <- app_assoc.
    - destruct (Z.eqb_spec z (-1)); [lia|]. destruct (Z.ltb_spec z 0) as [|Hz]; [lia|].
      rewrite (rd_nth_error _ _ (nth (Z.to_nat z) rmap 0%Z)) by (apply nth_error_nth'; lia). cbn [bind]. rewrite IH by lia. f_equal. rewrite <- app_assoc. cbn [app].
      f_equal. f_equal. unfold g. destruct (Z.ltb_spec z 0); [lia|reflexivity]. }
  rewrite G by lia. cbn [app skipn]. rewrite firstn_all. eexists. split; [reflexivity|]. split; [now rewrite map_length|]. split.
  - intros v. unfold target at 1 2. rewrite nth_error_map. destruct (nth_error lmap v) as [z|] eqn:Ez; [|reflexivity]. cbn [option_map].
    unfold g at 1. destruct (H z (nth_error_In _ _ Ez)) as [->|R]; [reflexivity|]. destruct (Z.ltb_spec z 0); [lia|].
    unfold target, g. destruct (Z.ltb_spec z 0); [lia|]. rewrite (nth_error_nth' rmap 0%Z) by lia. reflexivity.
  - intros x Hx. apply in_map_iff in Hx. destruct Hx as (z & <- & Hz). unfold g. destruct (H z Hz) as [->|R]; [now left|].
    destruct (Z.ltb_spec z 0); [lia|]. right. apply nth_In. lia.
Qed.

Theorem C76_concatenation : forall (NV NMV NME NCV NCE : nat) (edges medges cedges : list (nat * nat)) (vmap1 emap1 vmap2 emap2 : list Z),
  maps_fit NV NMV NME edges medges vmap1 emap1 -> maps_fit NMV NCV NCE medges cedges vmap2 emap2 ->
  exists vmap emap, SetConcedMap vmap1 vmap2 = Ret vmap /\ SetConcedMap emap1 emap2 = Ret emap /\
    maps_fit NV NCV NCE edges cedges vmap emap /\
    (forall v, target vmap v = match target vmap1 v with Some m => target vmap2 m | None => None end) /\
    (forall e, target emap e = match target emap1 e with Some m => target emap2 m | None => None end).
Proof.
  intros NV NMV NME NCV NCE edges medges cedges vmap1 emap1 vmap2 emap2 (A1 & A2 & A3 & A4 & A5 & A6) (B1 & B2 & B3 & B4 & B5 & B6).
  destruct (conc_ok NMV vmap1 vmap2 A4 B1) as (vmap & E1 & L1 & T1 & I1).
  destruct (conc_ok NME emap1 emap2 A5 ltac:(lia)) as (emap & E2 & L2 & T2 & I2).
  exists vmap, emap. split; [exact E1|]. split; [exact E2|]. split; [|split; assumption].
  split; [lia|]. split; [lia|]. split; [auto|].
  split. { intros x Hx. destruct (I1 x Hx) as [|Hx']; [now left|auto]. }
  split. { intros x Hx. destruct (I2 x Hx) as [|Hx']; [now left|auto]. }
  intros e a b Ee. destruct (A6 e a b Ee) as (Ha & Hb & F). split; [auto|]. split; [auto|]. rewrite T2, !T1.
  destruct (target emap1 e) as [me|].
  - destruct F as (A & C & Ta & Tb & J). rewrite Ta, Tb.
    assert (J' : exists A' C', nth_error medges me = Some (A', C') /\ ((A' = A /\ C' = C) \/ (A' = C /\ C' = A))) by (destruct J; eauto 7).
    destruct J' as (A' & C' & Em & Q). destruct (B6 me A' C' Em) as (_ & _ & F2). destruct (target emap2 me) as [ce|].
    + destruct F2 as (D & D' & S1 & S2 & J2). destruct Q as [[-> ->]|[-> ->]].
      * exists D, D'. auto.
      * exists D', D. split; [auto|]. split; [auto|]. destruct J2; [right|left]; auto.
    + destruct Q as [[-> ->]|[-> ->]]; intuition.
  - destruct (target vmap1 a), (target vmap1 b); intuition; try discriminate. left. congruence.
Qed.

Section P.
  Context {B : Blk} (L : BlkLaws B).
  Local Notation K := (K B).
  Add Ring Kr : (lawK B L).
  Local Notation kc := (kc L). Local Notation ka := (ka L). Local Notation kz := (kz L).

  (** === C76, data along concatenated maps: mapping the weights in two steps gives the weights obtained along the concatenated map
      (the process owns the whole intermediate mesh). *)
  Theorem C76_data_in_two_steps : forall (NV NMV NME NCV NCE : nat) (edges medges cedges : list (nat * nat)) (vmap1 emap1 vmap2 emap2 : list Z)
      (eqv eqe eqv2 eqe2 : list (bool * list nat)) (vd : list (K * K)) (ed : list K) (vmap emap : list Z) mv me cv ce cv' ce',
    maps_fit NV NMV NME edges medges vmap1 emap1 -> maps_fit NMV NCV NCE medges cedges vmap2 emap2 ->
    length vd = NV -> length ed = length edges -> classes_in NV eqv -> classes_in (length edges) eqe ->
    Permutation (mastered eqv2) (seq 0 NMV) -> Permutation (mastered eqe2) (seq 0 NME) ->
    classes_in NMV eqv2 -> classes_in NME eqe2 ->
    SetConcedMap vmap1 vmap2 = Ret vmap -> SetConcedMap emap1 emap2 = Ret emap ->
    (* first step, second step *)
    H1V_map_data vmap1 emap1 edges NMV eqv eqe vd ed = Ret mv -> H1E_map_data emap1 NME true eqe ed = Ret me ->
    H1V_map_data vmap2 emap2 medges NCV eqv2 eqe2 mv me = Ret cv -> H1E_map_data emap2 NCE true eqe2 me = Ret ce ->
    (* at once *)
    H1V_map_data vmap emap edges NCV eqv eqe vd ed = Ret cv' -> H1E_map_data emap NCE true eqe ed = Ret ce' ->
    cv = cv' /\ ce = ce'.
  Proof.
    intros NV NMV NME NCV NCE edges medges cedges vmap1 emap1 vmap2 emap2 eqv eqe eqv2 eqe2 vd ed vmap emap mv me cv ce cv' ce'
      F1 F2 Lvd Led C1 C2 P1 P2 C3 C4 S1 S2 E1 E2 E3 E4 E5 E6.
    destruct (C76_concatenation _ _ _ _ _ _ _ _ _ _ _ _ F1 F2) as (vmap' & emap' & S1' & S2' & F & T1 & T2).
    rewrite S1 in S1'. injection S1' as <-. rewrite S2 in S2'. injection S2' as <-.
    assert (Weak : forall NV' NC' NCE' edg cedg vm em q w (vd' : list (K * K)) (ed' : list K) c, maps_fit NV' NC' NCE' edg cedg vm em -> length vd' = NV' -> length ed' = length edg ->
      classes_in NV' q -> classes_in (length edg) w -> H1V_map_data vm em edg NC' q w vd' ed' = Ret c ->
      length c = NC' /\ forall q1 q2, Phi2 NC' q1 q2 c = kadd (ksumf (vterm vm vd' q1 q2) (mastered q)) (ksumf (gterm vm em edg ed' q1) (mastered w))).
    { intros NV' NC' NCE' edg cedg vm em q w vd' ed' c (Hlv & Hle & Hlc & Hv & He & Hf) D1 D2 D3 D4 E. subst NV'.
      destruct (H1V_weak L vm em edg NC' NCE' vd' ed' Hv He D1 Hle D2) with (eqv := q) (eqe := w) as (c' & Ec & Lc & Pc); auto.
      - intros a b Hi. apply In_nth_error in Hi. destruct Hi as (e & Hi). destruct (Hf e a b Hi) as (? & ? & _). auto.
      - intros e _ a b T Ee. destruct (Hf e a b Ee) as (_ & _ & H). now rewrite T in H.
      - rewrite E in Ec. injection Ec as <-. split; assumption. }
    assert (WeakE : forall NC' em q (ed' : list K) c, map_into NC' em -> length ed' = length em -> classes_in (length em) q -> H1E_map_data em NC' true q ed' = Ret c ->
      length c = NC' /\ forall r, Phi1 NC' r c = ksumf (eterm em ed' r) (mastered q)).
    { intros NC' em q ed' c Hm Hl Hq E. unfold H1E_map_data in E. rewrite master_mastered' in E.
      destruct (H1E_weak L em (repeat (0, 0) (length em)) NC' ed' Hm ltac:(now rewrite repeat_length) ltac:(rewrite repeat_length; lia) (mastered q)) as (c' & Ec & Lc & Pc).
      - intros e He. rewrite repeat_length. eapply mastered_cls; eauto.
      - rewrite E in Ec. injection Ec as <-. split; assumption. }
    pose proof F1 as (A1 & A2 & A3 & A4 & A5 & A6). pose proof F2 as (B1 & B2 & B3 & B4 & B5 & B6). pose proof F as (D1 & D2 & D3 & D4 & D5 & D6).
    destruct (WeakE NME emap1 eqe ed me) as [Lme Pme]; auto; try lia. { now rewrite A2. }
    destruct (Weak _ _ _ _ _ _ _ eqv eqe vd ed mv F1) as [Lmv Pmv]; auto.
    destruct (Weak _ _ _ _ _ _ _ eqv2 eqe2 mv me cv F2) as [Lcv Pcv]; auto; try lia. { now rewrite A3. }
    destruct (WeakE NCE emap2 eqe2 me ce) as [Lce Pce]; auto; try lia. { now rewrite B2, A3. }
    destruct (Weak _ _ _ _ _ _ _ eqv eqe vd ed cv' F) as [Lcv' Pcv']; auto.
    destruct (WeakE NCE emap eqe ed ce') as [Lce' Pce']; auto; try lia. { now rewrite D2. }
    assert (Hed : forall r, Phi1 NCE r ce = Phi1 NCE r ce').
    { intros r. rewrite Pce, Pce'.
      transitivity (Phi1 NME (fun m => match target emap2 m with Some c => r c | None => k0 end) me).
      - etransitivity; [apply (gsum_perm _ _ kc ka _ _ _ P2)|]. apply gsum_ext. intros m _. unfold eterm. destruct (target emap2 m); ring.
      - rewrite Pme. apply gsum_ext. intros e _. unfold eterm. rewrite T2. destruct (target emap1 e) as [m|]; [|reflexivity]. destruct (target emap2 m); ring. }
    assert (Hvx : forall q1 q2, Phi2 NCV q1 q2 cv = Phi2 NCV q1 q2 cv').
    { intros q1 q2. rewrite Pcv, Pcv'.
      set (h := fun (q : nat -> K) m => match target vmap2 m with Some c => q c | None => k0 end).
      set (g := fun m => match ground_of medges vmap2 emap2 m with Some A => q1 A | None => k0 end).
      transitivity (kadd (Phi2 NMV (h q1) (h q2) mv) (Phi1 NME g me)).
      - f_equal.
        + etransitivity; [apply (gsum_perm _ _ kc ka _ _ _ P1)|]. apply gsum_ext. intros m _. unfold vterm, h. destruct (target vmap2 m); [reflexivity|ring].
        + etransitivity; [apply (gsum_perm _ _ kc ka _ _ _ P2)|]. apply gsum_ext. intros m _. unfold gterm, g. destruct (ground_of medges vmap2 emap2 m); ring.
      - rewrite Pmv, Pme. rewrite <- ka. f_equal.
        + apply gsum_ext. intros v _. unfold vterm, h. rewrite T1. destruct (target vmap1 v) as [m|]; [|reflexivity]. destruct (target vmap2 m); ring.
        + etransitivity; [symmetry; apply (gsum_add _ _ kc ka kz)|]. apply gsum_ext. intros e He. assert (Hel : e < length edges) by (eapply mastered_cls; eauto).
          unfold gterm, eterm, ground_of, g, h. destruct (nth_error edges e) as [[a b]|] eqn:Ee; [|apply nth_error_None in Ee; lia].
          destruct (A6 e a b Ee) as (_ & _ & Q). rewrite T2, !T1. destruct (target emap1 e) as [m|].
          * destruct Q as (A & C & Ta & Tb & J). rewrite Ta, Tb, kz. unfold ground_of.
            destruct J as [J|J]; rewrite J; destruct (target emap2 m), (target vmap2 A), (target vmap2 C); ring.
          * destruct (target vmap1 a) as [A|], (target vmap1 b) as [C|]; try (cbn; ring).
            -- destruct Q as [Q|[Q|Q]]; try discriminate. injection Q as ->. destruct (target vmap2 C); ring.
            -- destruct (target vmap2 A); ring.
            -- destruct (target vmap2 C); ring. }
    split.
    - apply (nth_ext_len _ _ (k0, k0)); [lia|]. intros i Hi.
      assert (R1 : forall c : list (K * K), Phi2 NCV (fun j => if j =? i then k1 else k0) (fun _ => k0) c = fst (nth i c (k0, k0))).
      { intros c. unfold Phi2. rewrite (gsum_ext _ _ _ (fun j => if j =? i then fst (nth j c (k0, k0)) else k0)).
        - apply (gsum_delta _ _ kc kz (fun j => fst (nth j c (k0, k0)))). lia.
        - intros j _. destruct (j =? i); ring. }
      assert (R2 : forall c : list (K * K), Phi2 NCV (fun _ => k0) (fun j => if j =? i then k1 else k0) c = snd (nth i c (k0, k0))).
      { intros c. unfold Phi2. rewrite (gsum_ext _ _ _ (fun j => if j =? i then snd (nth j c (k0, k0)) else k0)).
        - apply (gsum_delta _ _ kc kz (fun j => snd (nth j c (k0, k0)))). lia.
        - intros j _. destruct (j =? i); ring. }
      rewrite (surjective_pairing (nth i cv (k0, k0))), (surjective_pairing (nth i cv' (k0, k0))). rewrite <- !R1, <- !R2. now rewrite !Hvx.
    - apply (nth_ext_len _ _ k0); [lia|]. intros i Hi.
      assert (R1 : forall c : list K, Phi1 NCE (fun j => if j =? i then k1 else k0) c = nth i c k0).
      { intros c. unfold Phi1. rewrite (gsum_ext _ _ _ (fun j => if j =? i then nth j c k0 else k0)).
        - apply (gsum_delta _ _ kc kz (fun j => nth j c k0)). lia.
        - intros j _. destruct (j =? i); ring. }
      now rewrite <- (R1 ce), <- (R1 ce').
  Qed.
End P.

(** Example: the map of the previous example followed by a map that drops coarse vertex 1. *)
Example cy_c2f : GetMapC2F 2 cx_vmap = Ret [[0; 1]; [2]]. Proof. reflexivity. Qed.
Example cy_maps : maps_fit 2 1 0 [(0, 1)] [] [0; -1]%Z [-1]%Z.
Proof.
  split; [reflexivity|]. split; [reflexivity|]. split; [reflexivity|].
  split. { intros c H. cbn in H |- *. lia. }
  split. { intros c H. cbn in H |- *. lia. }
  intros e a b H. destruct e as [|[|e]]; cbn in H; try discriminate. injection H as <- <-. split; [lia|]. split; [lia|]. cbn. auto.
Qed.
Example cy_conc : SetConcedMap cx_vmap [0; -1]%Z = Ret [0; 0; -1; -1]%Z /\ SetConcedMap cx_emap [-1]%Z = Ret [-1; -1; -1]%Z.
Proof. split; reflexivity. Qed.
Example cy_data :
  H1V_map_data (B:=ZBlk) cx_vmap cx_emap cx_edges 2 [(true, [0; 1; 2; 3])] [(true, [0; 1; 2])] [(1, 1); (2, 1); (3, 1); (4, 1)]%Z [10; 20; 30]%Z = Ret [(3, 2); (33, 1)]%Z /\
  H1V_map_data (B:=ZBlk) [0; -1]%Z [-1]%Z [(0, 1)] 1 [(true, [0; 1])] [(true, [0])] [(3, 2); (33, 1)]%Z [20]%Z = Ret [(23, 2)]%Z /\
  H1V_map_data (B:=ZBlk) [0; 0; -1; -1]%Z [-1; -1; -1]%Z cx_edges 1 [(true, [0; 1; 2; 3])] [(true, [0; 1; 2])] [(1, 1); (2, 1); (3, 1); (4, 1)]%Z [10; 20; 30]%Z = Ret [(23, 2)]%Z.
Proof. vm_compute. auto. Qed.

Print Assumptions C76_reverse_map.
Print Assumptions C76_concatenation.
Print Assumptions C76_data_in_two_steps.
