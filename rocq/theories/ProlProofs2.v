(** Proofs about the vertex prolongations: values of the rows (C73). *)
From Verif Require Import Base ArraysModel ArraysProofs AGroup LinAlg SparseModel SparseProofs ProlModel ProlSpec ProlProofs.
From Coq Require Import QArith.
Local Open Scope nat_scope.

Lemma ss_lt_le_Z l : StronglySorted Z.lt l -> StronglySorted Z.le l.
Proof. induction 1; constructor; auto. eapply Forall_impl; [|eauto]. intros; simpl in *; lia. Qed.
Lemma existsb_Z c l : existsb (Z.eqb c) l = true <-> In c l.
Proof. rewrite existsb_exists. split; [intros (x & H & E); apply Z.eqb_eq in E; subst; auto|intros H; exists c; rewrite Z.eqb_refl; auto]. Qed.

Section V.
  Context {B : Blk} (L : BlkLaws B).
  Local Notation M := (M B). Local Notation K := (K B). Local Notation X := (X B).
  Let LX := lawX B L.
  Ltac agx := ag LX.
  Variable mmul : M -> M -> M.
  Variable msc : K -> M -> M.
  Hypothesis Hmm : forall a b x, act (mmul a b) x = act a (act b x).
  Hypothesis Hsc : forall c a x, act (msc c a) x = xsc c (act a x).

  Variable VD : Type.
  Variable CalcQs : VD -> VD -> M * M.
  Variable CalcQHh : VD -> VD -> M.
  Variable vmap : nat -> Z.
  Variable fecon : nat -> list (nat * nat).
  Variable fedge : nat -> nat * nat.
  Variable fvd : nat -> VD.
  Variable cvd : Z -> VD.
  Variable emat : nat -> M.

  Lemma act_neg a x : act (mneg msc a) x = xopp (act a x).
  Proof. unfold mneg. rewrite Hsc. apply (xsc_m1 L). Qed.
  Lemma act_sub a b x : act (msub msc a b) x = xadd (act a x) (xopp (act b x)).
  Proof. unfold msub. rewrite (act_madd B L). f_equal. apply act_neg. Qed.

  (** a list of blocks, applied to a list of vectors *)
  Fixpoint lap (ms : list M) (xs : list X) : X :=
    match ms, xs with m :: ms', x :: xs' => xadd (act m x) (lap ms' xs') | _, _ => x0 end.
  Lemma lap_zero n xs : lap (repeat m0 n) xs = x0.
  Proof. revert xs. induction n as [|n IH]; intros [|x xs]; simpl; auto. rewrite IH, (act_m0 B L). agx. Qed.
  Lemma lap_upd ms xs k m d dx : length ms = length xs -> k < length ms ->
    lap (upd ms k m) xs = xadd (lap ms xs) (xadd (act m (nth k xs dx)) (xopp (act (nth k ms d) (nth k xs dx)))).
  Proof.
    revert xs k. induction ms as [|a ms IH]; intros [|x xs] [|k] HL Hk; simpl in *; try lia.
    - agx.
    - rewrite (IH xs k) by lia. agx.
  Qed.
  Lemma lap_sc s ms xs : lap (map (msc s) ms) xs = xsc s (lap ms xs).
  Proof. revert xs. induction ms as [|m ms IH]; intros [|x xs]; simpl; try (symmetry; apply (xsc_0 L)). rewrite IH, Hsc, (sc_add B L). auto. Qed.
  Lemma row_apply_lap ris rvs uc : row_apply (combine ris rvs) uc = lap rvs (map uc ris).
  Proof. revert rvs. induction ris as [|c ris IH]; intros [|m rvs]; simpl; auto. unfold row_apply in *. rewrite IH. auto. Qed.

  Lemma add_to_ok rvs k x : k < length rvs -> exists rvs', add_to rvs (Some k) x = Ret rvs' /\ length rvs' = length rvs /\
    forall xs dx, length rvs = length xs -> lap rvs' xs = xadd (lap rvs xs) (act x (nth k xs dx)).
  Proof.
    intros Hk. exists (upd rvs k (madd (nth k rvs m0) x)). unfold add_to. rewrite (rd_ok rvs k m0) by auto. cbn [bind].
    rewrite wr_ok by auto. rewrite upd_length. repeat split. intros xs dx HL.
    rewrite (lap_upd rvs xs k _ m0 dx) by auto. rewrite (act_madd B L). agx.
  Qed.

  (** *** piecewise prolongation *)
  Lemma pwprol_ok NV v : v < NV -> vmap v <> (-1)%Z -> (0 <= vmap v)%Z ->
    pwprol (PWProlMap VD CalcQHh vmap fvd cvd NV) v (vmap v) = CalcQHh (cvd (vmap v)) (fvd v).
  Proof.
    intros Hv Hm Hp. unfold pwprol, PWProlMap.
    rewrite nth_map_seq by auto.
    destruct (Z.eqb_spec (vmap v) (-1)); [contradiction|]. cbn [find fst]. rewrite Z2Nat.id by auto. rewrite Z.eqb_refl. reflexivity.
  Qed.

  (** *** the used neighbours *)
  Local Notation used_edges := (used_edges vmap fecon).
  Lemma used_neibs_ok V ris : StronglySorted Z.lt ris ->
    exists l1 l2, used_neibs vmap fecon V ris = Ret (l1 ++ (V, None) :: l2, length l1) /\
      l1 ++ l2 = map (fun p => (fst p, Some (snd p))) (used_edges V ris) /\
      (forall p, In p l1 -> fst p <= V) /\ (forall p, In p l2 -> StronglySorted lt (map fst (fecon V)) -> V < fst p).
  Proof.
    intros SS. apply ss_lt_le_Z in SS. unfold used_neibs, ProlSpec.used_edges.
    set (f := fun p : nat * nat => negb (vmap (fst p) =? -1)%Z && existsb (Z.eqb (vmap (fst p))) ris).
    set (g := fun p : nat * nat => (fst p, Some (snd p))).
    match goal with |- context [foldM ?F0 _ _] => set (F := F0) end.
    enough (G : forall done todo l d, fecon V = done ++ todo ->
       ((d = None /\ l = map g (filter f done) /\ forall p, In p l -> fst p <= V) \/
        (exists l1 l2, d = Some (length l1) /\ l = l1 ++ (V, None) :: l2 /\ l1 ++ l2 = map g (filter f done) /\
           (forall p, In p l1 -> fst p <= V) /\ exists x, In x done /\ V < fst x /\ (forall p, In p l2 -> StronglySorted lt (map fst (fecon V)) -> fst x <= fst p))) ->
       exists l' d', foldM F todo (l, d) = Ret (l', d') /\
       ((d' = None /\ l' = map g (filter f (done ++ todo)) /\ forall p, In p l' -> fst p <= V) \/
        (exists l1 l2, d' = Some (length l1) /\ l' = l1 ++ (V, None) :: l2 /\ l1 ++ l2 = map g (filter f (done ++ todo)) /\
           (forall p, In p l1 -> fst p <= V) /\ exists x, In x (done ++ todo) /\ V < fst x /\ (forall p, In p l2 -> StronglySorted lt (map fst (fecon V)) -> fst x <= fst p)))).
    { destruct (G [] (fecon V) [] None eq_refl) as (l' & d' & E & H).
      { left. repeat split; auto. intros p []. }
      rewrite E. cbn [bind]. cbn [app] in H. destruct H as [(-> & -> & H)|(l1 & l2 & -> & -> & H1 & H2 & x & _ & Hx & H3)].
      - exists (map g (filter f (fecon V))), []. rewrite app_nil_r. repeat split; auto. intros p [].
      - exists l1, l2. repeat split; auto. intros p Hp HS. specialize (H3 p Hp HS). lia. }
    intros done todo. revert done. induction todo as [|p todo IH]; intros done l d HE HI.
    { exists l, d. rewrite app_nil_r. split; auto. }
    cbn [foldM]. unfold F at 1.
    assert (HE' : fecon V = (done ++ [p]) ++ todo) by (rewrite <- app_assoc; auto).
    replace (done ++ p :: todo) with ((done ++ [p]) ++ todo) by (rewrite <- app_assoc; auto).
    assert (SKIP : f p = false -> ((d = None /\ l = map g (filter f (done ++ [p])) /\ forall p, In p l -> fst p <= V) \/
        (exists l1 l2, d = Some (length l1) /\ l = l1 ++ (V, None) :: l2 /\ l1 ++ l2 = map g (filter f (done ++ [p])) /\
           (forall p, In p l1 -> fst p <= V) /\ exists x, In x (done ++ [p]) /\ V < fst x /\ (forall p, In p l2 -> StronglySorted lt (map fst (fecon V)) -> fst x <= fst p)))).
    { intros Ef. rewrite filter_app. cbn [filter]. rewrite Ef, app_nil_r. destruct HI as [HI|(l1 & l2 & H1 & H2 & H3 & H4 & x & H5 & H6)]; [left; auto|right].
      exists l1, l2. repeat split; auto. exists x. rewrite in_app_iff. auto. }
    cbv zeta. destruct (Z.eqb_spec (vmap (fst p)) (-1)) as [E1|E1].
    { cbn [bind]. apply IH; auto. apply SKIP. unfold f. rewrite E1. reflexivity. }
    destruct (find_in_sorted_array_spec (vmap (fst p)) ris SS) as [F1 F2].
    destruct (in_dec Z.eq_dec (vmap (fst p)) ris) as [Hi|Hi].
    2:{ rewrite (F2 Hi). cbn [bind]. apply IH; auto. apply SKIP. unfold f. apply Bool.andb_false_iff. right.
        apply Bool.not_true_is_false. rewrite existsb_Z. auto. }
    destruct (F1 Hi) as (k & Ek & _). rewrite Ek. cbn [bind]. clear F1 F2.
    assert (Ef : f p = true).
    { unfold f. apply andb_true_intro. split; [apply negb_true_iff, Z.eqb_neq; auto|apply existsb_Z; auto]. }
    assert (FA : map g (filter f (done ++ [p])) = map g (filter f done) ++ [g p]).
    { rewrite filter_app, map_app. cbn [filter]. rewrite Ef. reflexivity. }
    destruct HI as [(-> & -> & HI)|(l1 & l2 & -> & -> & H3 & H4 & x & H5 & H6 & H7)].
    - destruct (Nat.ltb_spec V (fst p)) as [HV|HV]; cbn [andb bind].
      + apply IH; auto. right. exists (map g (filter f done)), [g p]. rewrite FA, <- app_assoc. repeat split; auto.
        exists p. rewrite in_app_iff. simpl. repeat split; auto. intros p0 [<-|[]] _. auto.
      + apply IH; auto. left. rewrite FA. repeat split; auto. intros p0 Hp0. apply in_app_iff in Hp0. destruct Hp0 as [Hp0|[<-|[]]]; auto.
    - cbn [andb bind]. apply IH; auto. right. exists l1, (l2 ++ [g p]). rewrite FA. repeat split; auto.
      + rewrite <- app_assoc. reflexivity.
      + rewrite app_assoc, H3. auto.
      + exists x. rewrite in_app_iff. repeat split; auto. intros p0 Hp0 HS. apply in_app_iff in Hp0. destruct Hp0 as [Hp0|[<-|[]]]; [auto|].
        cbn [g fst]. rewrite HE, map_app in HS. cbn [map] in HS. apply Nat.lt_le_incl.
        clear - HS H5. induction done as [|y done IH]; [destruct H5|]. cbn [map app] in HS. inversion HS; subst. destruct H5 as [->|H5]; auto.
        rewrite Forall_forall in H2. apply H2, in_app_iff. simpl. auto.
  Qed.

  Local Notation Qs := (ProlSpec.Qs VD CalcQs fvd).
  Local Notation edge_term := (ProlSpec.edge_term VD CalcQs fvd).
  Local Notation diag_term := (ProlSpec.diag_term mmul VD CalcQs fvd).
  Local Notation pwvec := (ProlSpec.pwvec VD CalcQHh vmap fvd cvd).
  Local Notation aux_diag := (ProlSpec.aux_diag vmap fecon mmul VD CalcQs fvd emat).

  Lemma xtotal_app {A} (f : A -> X) l1 l2 : xtotal f (l1 ++ l2) = xadd (xtotal f l1) (xtotal f l2).
  Proof. induction l1 as [|a l1 IH]; simpl; [agx|]. rewrite IH. agx. Qed.

  Lemma fedge_sel NV V w e : edges_ok fecon fedge NV V -> In (w, e) (fecon V) ->
    (let '(v0, v1) := fedge e in if V =? v0 then (v0, v1) else (v1, v0)) = (V, w).
  Proof.
    intros [H _] Hi. destruct (H w e Hi) as (Hn & _ & [->| ->]); [rewrite Nat.eqb_refl; auto|].
    destruct (Nat.eqb_spec V w); [subst; contradiction|auto].
  Qed.
  Lemma nth_mid {A} (l1 : list A) a l2 d j : j <> length l1 -> j < length (l1 ++ a :: l2) ->
    In (nth j (l1 ++ a :: l2) d) (l1 ++ l2).
  Proof.
    intros Hn Hj. rewrite app_length in Hj. cbn [length] in Hj. apply in_app_iff. destruct (Nat.lt_ge_cases j (length l1)).
    - rewrite app_nth1 by auto. left. apply nth_In. auto.
    - rewrite app_nth2 by auto. replace (j - length l1) with (S (j - length l1 - 1)) by lia. cbn [nth]. right. apply nth_In. lia.
  Qed.
  (** the entries of l1 ++ a :: l2 but the one in the middle, in order *)
  Lemma seq_without_mid {A} (l1 : list A) a l2 d :
    map (fun j => nth j (l1 ++ a :: l2) d) (filter (fun j => negb (j =? length l1)) (seq 0 (length (l1 ++ a :: l2)))) = l1 ++ l2.
  Proof.
    rewrite app_length. cbn [length]. rewrite seq_app, filter_app, map_app. cbn [Nat.add seq filter]. rewrite Nat.eqb_refl. cbn [negb].
    rewrite !filter_all'.
    - f_equal.
      + rewrite (map_ext_in _ (fun j => nth j l1 d)).
        * clear. induction l1 as [|x l1 IH]; [reflexivity|]. cbn [length seq map nth]. rewrite <- seq_shift, map_map. f_equal. apply IH.
        * intros j Hj. apply in_seq in Hj. apply app_nth1. lia.
      + rewrite <- (Nat.add_0_r (S (length l1))).
        assert (G : forall n0 m, map (fun j => nth j (l1 ++ a :: l2) d) (seq (S (length l1) + m) n0) = map (fun j => nth j l2 d) (seq m n0)).
        { induction n0 as [|n0 IH]; intros m; [reflexivity|]. cbn [seq map]. f_equal.
          - rewrite app_nth2 by lia. replace (S (length l1) + m - length l1) with (S m) by lia. reflexivity.
          - rewrite <- Nat.add_succ_r. apply IH. }
        rewrite G. clear. induction l2 as [|x l1 IH]; [reflexivity|]. cbn [length seq map nth]. rewrite <- seq_shift, map_map. f_equal. apply IH.
    - intros j Hj. apply in_seq in Hj. apply negb_true_iff, Nat.eqb_neq. lia.
    - intros j Hj. apply in_seq in Hj. apply negb_true_iff, Nat.eqb_neq. lia.
  Qed.

  Lemma edge_term_eq em u V p : edge_term em u V p =
    xadd (act (diag_term em V p) (u V)) (xopp (act (mmul (mmul (mtr (fst (Qs V (fst p)))) (em (snd p))) (snd (Qs V (fst p)))) (u (fst p)))).
  Proof.
    unfold ProlSpec.edge_term, ProlSpec.diag_term. rewrite !Hmm, (act_add B L), (act_opp L), (act_add B L), (act_opp L). reflexivity.
  Qed.
  Lemma nth_error_nth_in {A} (l : list A) k d a : nth k l d = a -> k < length l -> rd l k = Ret a.
  Proof. intros H Hk. rewrite (rd_ok l k d) by auto. congruence. Qed.

  Lemma aux_row_ok NV V U l1 l2 : edges_ok fecon fedge NV V -> (forall p, In p U -> In p (fecon V)) ->
    l1 ++ l2 = map (fun p => (fst p, Some (snd p))) U ->
    exists rm, aux_row mmul msc VD CalcQs fedge fvd emat V (l1 ++ (V, None) :: l2) (length l1) = Ret rm /\
      length rm = length (l1 ++ (V, None) :: l2) /\
      nth (length l1) rm m0 = fold_left (fun s p => madd s (diag_term emat V p)) U m0 /\
      (forall u, lap rm (map (fun p => u (fst p)) (l1 ++ (V, None) :: l2)) = xtotal (edge_term emat u V) U).
  Proof using L LX Hmm Hsc.
    intros HE HU HL. set (uf := l1 ++ (V, None) :: l2). unfold aux_row.
    match goal with |- context [foldM ?F0 _ _] => set (F := F0) end.
    set (tk := fun js => map (fun j => nth j uf (V, None)) (filter (fun j => negb (j =? length l1)) js)).
    set (DT := fun q : nat * option nat => match snd q with Some e => diag_term emat V (fst q, e) | None => m0 end).
    set (ET := fun u (q : nat * option nat) => match snd q with Some e => edge_term emat u V (fst q, e) | None => x0 end).
    assert (DL : length l1 < length uf) by (unfold uf; rewrite app_length; simpl; lia).
    assert (ND : nth (length l1) uf (V, None) = (V, None)) by (unfold uf; rewrite app_nth2, Nat.sub_diag by lia; auto).
    enough (G : forall js rm, (forall j, In j js -> j < length uf) -> length rm = length uf ->
       exists rm', foldM F js rm = Ret rm' /\ length rm' = length uf /\
         nth (length l1) rm' m0 = fold_left (fun s q => madd s (DT q)) (tk js) (nth (length l1) rm m0) /\
         forall u, lap rm' (map (fun p => u (fst p)) uf) = xadd (lap rm (map (fun p => u (fst p)) uf)) (xtotal (ET u) (tk js))).
    { destruct (G (seq 0 (length uf)) (repeat m0 (length uf))) as (rm & E & HLm & HD & HT).
      { intros j Hj. apply in_seq in Hj. lia. } { apply repeat_length. }
      exists rm. split; [auto|]. split; [auto|].
      assert (TK : tk (seq 0 (length uf)) = map (fun p => (fst p, Some (snd p))) U).
      { unfold tk, uf. rewrite seq_without_mid. auto. }
      rewrite TK in HD, HT. split.
      - rewrite HD, nth_repeat. clear. generalize (@m0 B). induction U as [|p U IH]; intros s; [reflexivity|].
        cbn [map fold_left]. rewrite IH. first [reflexivity|unfold DT; cbn [snd fst]; destruct p; reflexivity].
      - intros u. rewrite HT, lap_zero. transitivity (xtotal (edge_term emat u V) U); [|reflexivity].
        assert (XT : xtotal (ET u) (map (fun p => (fst p, Some (snd p))) U) = xtotal (edge_term emat u V) U).
        { clear. induction U as [|p U IH]; [reflexivity|]. cbn [map xtotal fold_right]. unfold xtotal in IH. rewrite IH. unfold ET. destruct p; reflexivity. }
        rewrite XT. agx. }
    induction js as [|j js IH]; intros rm Hjs HLm.
    { exists rm. repeat split; auto. intros u. simpl. agx. }
    cbn [foldM]. unfold F at 1. destruct (Nat.eqb_spec j (length l1)) as [Ej|Ej].
    { cbn [bind]. destruct (IH rm) as (rm' & E & H1 & H2 & H3); auto; [intros; apply Hjs; simpl; auto|].
      exists rm'. unfold tk in *. cbn [filter]. rewrite Ej, Nat.eqb_refl. cbn [negb]. auto. }
    assert (Hj : j < length uf) by (apply Hjs; simpl; auto).
    pose proof (nth_mid l1 (V, None) l2 (V, None) j Ej Hj) as Hin. fold uf in Hin. rewrite HL in Hin.
    apply in_map_iff in Hin. destruct Hin as ([w e] & En & HiU). cbn [fst snd] in En.
    rewrite (rd_ok uf j (V, None)) by auto. cbn [bind]. rewrite <- En. cbn [snd].
    pose proof (fedge_sel NV V w e HE (HU _ HiU)) as FS. destruct (fedge e) as [v0 v1].
    destruct (if V =? v0 then (v0, v1) else (v1, v0)) as [vl vo] eqn:EV. inversion FS; subst vl vo. clear FS EV.
    destruct (CalcQs (fvd V) (fvd w)) as [Qij Qji] eqn:EQ.
    rewrite (rd_ok rm j m0) by lia. cbn [bind]. rewrite wr_ok by lia. cbn [bind].
    rewrite (rd_ok _ (length l1) m0) by (rewrite upd_length; lia). cbn [bind]. rewrite wr_ok by (rewrite upd_length; lia). cbn [bind].
    rewrite nth_upd_neq by auto.
    set (QM := mmul (mtr Qij) (emat e)).
    match goal with |- context [foldM F js ?r] => set (rm1 := r) end.
    assert (L1 : length rm1 = length uf) by (unfold rm1; rewrite !upd_length; auto).
    destruct (IH rm1) as (rm' & E & H1 & H2 & H3); auto; [intros; apply Hjs; simpl; auto|].
    exists rm'. split; [auto|]. split; [auto|].
    assert (TKJ : tk (j :: js) = (w, Some e) :: tk js).
    { unfold tk. cbn [filter]. destruct (Nat.eqb_spec j (length l1)); [contradiction|]. cbn [negb map]. rewrite <- En. reflexivity. }
    rewrite TKJ. cbn [fold_left xtotal fold_right]. split.
    - rewrite H2. f_equal. unfold rm1. rewrite nth_upd_eq by (rewrite upd_length; lia). f_equal.
      unfold DT, ProlSpec.diag_term, ProlSpec.Qs. cbn [fst snd]. rewrite EQ. reflexivity.
    - intros u. rewrite H3. unfold rm1.
      rewrite (lap_upd _ _ (length l1) _ m0 (u V)) by (rewrite ?upd_length, ?map_length; lia).
      rewrite nth_upd_neq by auto.
      rewrite (lap_upd rm _ j _ m0 (u V)) by (rewrite ?map_length; lia).
      assert (N1 : nth (length l1) (map (fun p : nat * option nat => u (fst p)) uf) (u V) = u V).
      { transitivity (u (fst (nth (length l1) uf (V, None)))); [apply (map_nth (fun p : nat * option nat => u (fst p)) uf (V, None))|rewrite ND; auto]. }
      assert (N2 : nth j (map (fun p : nat * option nat => u (fst p)) uf) (u V) = u w).
      { transitivity (u (fst (nth j uf (V, None)))); [apply (map_nth (fun p : nat * option nat => u (fst p)) uf (V, None))|rewrite <- En; auto]. }
      rewrite N1, N2, act_sub, (act_madd B L).
      assert (ETE : ET u (w, Some e) = xadd (act (mmul QM Qij) (u V)) (xopp (act (mmul QM Qji) (u w)))).
      { unfold ET. cbn [snd fst]. rewrite edge_term_eq. unfold ProlSpec.diag_term, ProlSpec.Qs. cbn [fst snd]. rewrite EQ. reflexivity. }
      fold (xtotal (ET u) (tk js)). rewrite ETE. unfold QM. agx.
  Qed.

  (** *** rows smoothed with the auxiliary matrix *)
  Variable NV : nat.
  Variable omega : K.
  Hypothesis VOK : vmap_ok vmap.
  Local Notation pw := (PWProlMap VD CalcQHh vmap fvd cvd NV).
  Lemma pw_act uc v : v < NV -> mapped vmap v -> act (pwprol pw v (vmap v)) (uc (vmap v)) = pwvec uc v.
  Proof. intros Hv Hm. unfold mapped in Hm. rewrite pwprol_ok by (auto; lia). reflexivity. Qed.

  Lemma used_in V ris p : In p (used_edges V ris) -> In p (fecon V) /\ mapped vmap (fst p) /\ In (vmap (fst p)) ris.
  Proof.
    unfold ProlSpec.used_edges. rewrite filter_In, Bool.andb_true_iff, negb_true_iff, Z.eqb_neq, existsb_Z. intros (H1 & H2 & H3).
    repeat split; auto. unfold mapped. specialize (VOK (fst p)). lia.
  Qed.

  Lemma nth_error_map_uc (ris : list Z) k c (uc : Z -> X) : nth_error ris k = Some c -> nth k (map uc ris) x0 = uc c.
  Proof. intros H. apply nth_error_nth. rewrite nth_error_map, H. reflexivity. Qed.

  Lemma fill_aux_ok trinv pinv V ris : V < NV -> mapped vmap V -> edges_ok fecon fedge NV V ->
    StronglySorted Z.lt ris -> In (vmap V) ris ->
    exists rvs, fill_aux mmul msc VD CalcQs vmap fecon fedge fvd emat trinv pinv omega pw V ris = Ret rvs /\ length rvs = length ris /\
      forall uc, row_apply (combine ris rvs) uc =
        if length ris =? 1 then pwvec uc V
        else let s := trinv (aux_diag V ris) in
          xadd (pwvec uc V) (xopp (xsc omega (act (pinv (msc s (aux_diag V ris))) (xsc s (xtotal (edge_term emat (pwvec uc) V) (used_edges V ris)))))).
  Proof using L LX Hmm Hsc VOK.
    intros HV HM HE HS HI. unfold fill_aux. destruct ris as [|c [|c2 ris']].
    - destruct HI.
    - destruct HI as [->|[]]. exists [pwprol pw V (vmap V)]. repeat split. intros uc. cbn [length Nat.eqb combine row_apply fold_right fst snd].
      rewrite pw_act by auto. agx.
    - set (ris := c :: c2 :: ris') in *.
      destruct (used_neibs_ok V ris HS) as (l1 & l2 & E & HL & _ & _). rewrite E. cbn [bind].
      destruct (aux_row_ok NV V (used_edges V ris) l1 l2 HE) as (rm & E2 & HLm & HD & HT); auto.
      { intros p Hp. apply used_in in Hp. tauto. }
      rewrite E2. cbn [bind]. rewrite (rd_ok rm (length l1) m0) by (rewrite HLm, app_length; simpl; lia). cbn [bind].
      change (fold_left _ _ _) with (aux_diag V ris) in HD. rewrite HD. cbv zeta.
      set (s := trinv (aux_diag V ris)). set (d := pinv (msc s (aux_diag V ris))).
      set (uf := l1 ++ (V, None) :: l2) in *.
      match goal with |- context [foldM ?F0 _ _] => set (F := F0) end.
      assert (UF : forall j, j < length uf -> let p := nth j uf (V, None) in fst p < NV /\ mapped vmap (fst p) /\ In (vmap (fst p)) ris).
      { intros j Hj. destruct (Nat.eq_dec j (length l1)) as [->|Hn].
        - cbv zeta. unfold uf. rewrite app_nth2, Nat.sub_diag by lia. auto.
        - pose proof (nth_mid l1 (V, None) l2 (V, None) j Hn Hj) as Hin. rewrite HL in Hin. fold uf in Hin.
          apply in_map_iff in Hin. destruct Hin as (p & <- & Hp). apply used_in in Hp. destruct Hp as (Hp1 & Hp2 & Hp3). cbn [fst]. repeat split; auto.
          destruct HE as [HE _]. destruct p as [w e]. apply (HE w e); auto. }
      assert (DIA : forall j, j < length uf -> (fst (nth j uf (V, None)) =? V) = (j =? length l1)).
      { intros j Hj. destruct (Nat.eqb_spec j (length l1)) as [->|Hn].
        - unfold uf. rewrite app_nth2, Nat.sub_diag by lia. apply Nat.eqb_refl.
        - pose proof (nth_mid l1 (V, None) l2 (V, None) j Hn Hj) as Hin. rewrite HL in Hin. fold uf in Hin.
          apply in_map_iff in Hin. destruct Hin as ([w e] & <- & Hp). apply used_in in Hp. cbn [fst]. apply Nat.eqb_neq.
          destruct HE as [HE _]. apply (HE w e). tauto. }
      pose (dsum := fun uc js => xtotal (fun j => if j =? length l1 then pwvec uc V else x0) js).
      pose (rsum := fun uc js => xtotal (fun j => act (nth j (map (msc s) rm) m0) (pwvec uc (fst (nth j uf (V, None))))) js).
      assert (G : forall js rvs, (forall j, In j js -> j < length uf) -> length rvs = length ris ->
        exists rvs', foldM F js rvs = Ret rvs' /\ length rvs' = length ris /\ forall uc,
          lap rvs' (map uc ris) = xadd (lap rvs (map uc ris)) (xadd (dsum uc js) (xopp (xsc omega (act d (rsum uc js)))))).
      { induction js as [|j js IH]; intros rvs Hjs HLr.
        { exists rvs. repeat split; auto. intros uc. cbn. rewrite (act_x0 L), (xsc_0 L). agx. }
        assert (Hj : j < length uf) by (apply Hjs; simpl; auto).
        cbn [foldM]. unfold F at 1. rewrite (rd_ok uf j (V, None)) by auto. cbn [bind].
        pose proof (DIA j Hj) as DJ. pose proof (UF j Hj) as UJ. cbv zeta in UJ. remember (fst (nth j uf (V, None))) as w eqn:Ew.
        destruct UJ as (U1 & U2 & U3). destruct (find_in_sorted_array_spec (vmap w) ris (ss_lt_le_Z _ HS)) as [F1 _].
        destruct (F1 U3) as (k & Ek & Nk). rewrite Ek. cbn [bind].
        assert (Hk : k < length ris) by (apply nth_error_Some; congruence).
        assert (STEP1 : exists r1, (if w =? V then add_to rvs (Some k) (pwprol pw w (vmap w)) else Ret rvs) = Ret r1 /\ length r1 = length ris /\
          forall uc, lap r1 (map uc ris) = xadd (lap rvs (map uc ris)) (if j =? length l1 then pwvec uc V else x0)).
        { rewrite <- DJ. destruct (Nat.eqb_spec w V) as [EwV|].
          - rewrite EwV in Nk. rewrite EwV. destruct (add_to_ok rvs k (pwprol pw V (vmap V))) as (r1 & E1 & L1 & T1); [lia|]. exists r1. rewrite E1. repeat split; [congruence|].
            intros uc. rewrite (T1 _ x0) by (rewrite map_length; lia). rewrite (nth_error_map_uc ris k _ uc Nk), pw_act by auto. reflexivity.
          - exists rvs. repeat split; auto. intros uc. agx. }
        destruct STEP1 as (r1 & -> & L1 & T1). cbn [bind]. rewrite (rd_ok _ j m0) by (rewrite map_length; lia). cbn [bind].
        destruct (add_to_ok r1 k (mneg msc (mmul (msc omega d) (mmul (nth j (map (msc s) rm) m0) (pwprol pw w (vmap w)))))) as (r2 & E3 & L2 & T2); [lia|].
        rewrite E3. cbn [bind]. destruct (IH r2) as (r3 & E4 & L3 & T3); [intros; apply Hjs; simpl; auto|congruence|].
        exists r3. split; [auto|]. split; [auto|]. intros uc. rewrite T3, (T2 _ x0) by (rewrite map_length; lia). rewrite T1.
        rewrite (nth_error_map_uc ris k _ uc Nk), act_neg, Hmm, Hsc, Hmm, pw_act by auto.
        unfold dsum, rsum. cbn [xtotal fold_right]. rewrite <- Ew.
        fold (xtotal (fun j => if j =? length l1 then pwvec uc V else x0) js).
        rewrite (act_add B L), (sc_add B L). unfold rsum, dsum, xtotal. agx. }
      destruct (G (seq 0 (length uf)) (repeat m0 (length ris))) as (rvs & E5 & L5 & T5).
      { intros j Hj. apply in_seq in Hj. lia. } { apply repeat_length. }
      exists rvs. split; [auto|]. split; [auto|]. intros uc. rewrite row_apply_lap, T5, lap_zero.
      replace (length ris =? 1) with false by reflexivity.
      assert (DS : dsum uc (seq 0 (length uf)) = pwvec uc V).
      { unfold dsum, uf. rewrite app_length. cbn [length]. rewrite seq_app, xtotal_app. cbn [seq Nat.add].
        assert (Z1 : forall (f : nat -> X) js, (forall j, In j js -> f j = x0) -> xtotal f js = @x0 B).
        { clear - L LX. intros f. induction js as [|j js IH]; intros H; [reflexivity|]. cbn [xtotal fold_right]. fold (xtotal f js).
          rewrite IH by (intros; apply H; simpl; auto). rewrite (H j) by (simpl; auto). agx. }
        cbn [xtotal fold_right]. rewrite Nat.eqb_refl. fold (xtotal (fun j => if j =? length l1 then pwvec uc V else x0) (seq (S (length l1)) (length l2))).
        rewrite !Z1; [agx| |].
        - intros j Hj. apply in_seq in Hj. destruct (Nat.eqb_spec j (length l1)); auto; lia.
        - intros j Hj. apply in_seq in Hj. destruct (Nat.eqb_spec j (length l1)); auto; lia. }
      assert (RS : rsum uc (seq 0 (length uf)) = xsc s (xtotal (edge_term emat (pwvec uc) V) (used_edges V ris))).
      { rewrite <- HT, <- lap_sc. unfold rsum.
        assert (LL : forall (ms : list M) (xs : list X), length ms = length xs -> lap ms xs = xtotal (fun j => act (nth j ms m0) (nth j xs x0)) (seq 0 (length ms))).
        { clear. induction ms as [|m ms IH]; intros [|x xs] H; simpl in *; try lia; auto. rewrite IH by lia. f_equal. rewrite <- seq_shift.
          generalize (seq 0 (length ms)). induction l as [|j l IHl]; simpl; auto. f_equal. auto. }
        rewrite LL by (rewrite !map_length; auto). rewrite map_length, HLm.
        assert (XE : forall (f g : nat -> X) js, (forall j, In j js -> f j = g j) -> xtotal f js = xtotal g js).
        { clear. intros f g. induction js as [|j js IH]; intros H; simpl; auto. rewrite (H j) by (simpl; auto). f_equal. apply IH. intros; apply H; simpl; auto. }
        apply XE. intros j Hj. apply in_seq in Hj. f_equal. symmetry.
        rewrite (nth_indep _ x0 (pwvec uc V)) by (rewrite map_length; lia). apply (map_nth (fun p : nat * option nat => pwvec uc (fst p)) uf (V, None)). }
      rewrite DS, RS. agx.
  Qed.
End V.
