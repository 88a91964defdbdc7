(** Proofs about the vertex prolongations: rows of the smoothing matrix of AuxSProlMap (C73). *)
From Verif Require Import Base ArraysModel ArraysProofs AGroup LinAlg SparseModel SparseProofs ProlModel ProlSpec ProlProofs ProlProofs2 ProlProofs3.
From Coq Require Import QArith.
Local Open Scope nat_scope.

Section V.
  Context {B : Blk} (L : BlkLaws B).
  Local Notation M := (M B). Local Notation K := (K B). Local Notation X := (X B).
  Let LX := lawX B L.
  Ltac agx := ag LX.
  Variable mmul : M -> M -> M.
  Variable msc : K -> M -> M.
  Variable mid : M.
  Hypothesis Hmm : forall a b x, act (mmul a b) x = act a (act b x).
  Hypothesis Hsc : forall c a x, act (msc c a) x = xsc c (act a x).
  Hypothesis Hid : forall x, act mid x = x.
  Variable VD : Type.
  Variable CalcQs : VD -> VD -> M * M.
  Variable vmap : nat -> Z.
  Variable fecon : nat -> list (nat * nat).
  Variable fedge : nat -> nat * nat.
  Variable fvd : nat -> VD.
  Variable NV : nat.
  Variable omega : K.
  Hypothesis VOK : vmap_ok vmap.
  Local Notation used_edges := (used_edges vmap fecon).
  Local Notation Qs := (Qs VD CalcQs fvd).

  Local Notation rm_diag := (ProlSpec.aux_diag vmap fecon mmul VD CalcQs fvd).

  Lemma rm_row_ok (emod : nat -> nat -> M) cinv V grow : edges_ok fecon fedge NV V -> StronglySorted Z.lt grow ->
    exists row, rm_row mmul msc mid VD CalcQs vmap fecon fedge fvd emod cinv omega V grow = Ret row /\
      (length grow = 1 -> cols row = [V]) /\
      (length grow <> 1 -> forall v, In v (cols row) <-> v = V \/ exists e, In (v, e) (used_edges V grow)) /\
      StronglySorted lt (cols row) /\
      forall u, xtotal (fun p => act (snd p) (u (fst p))) row =
        if length grow =? 1 then u V
        else xadd (u V) (xopp (xsc omega (act (cinv (rm_diag (emod V) V grow)) (xtotal (edge_term VD CalcQs fvd (emod V) u V) (used_edges V grow))))).
  Proof.
    intros HE HS. unfold rm_row. destruct (Nat.eqb_spec (length grow) 1) as [E1|E1].
    { exists [(V, mid)]. split; [auto|]. split; [auto|]. split; [congruence|]. split; [repeat constructor|]. intros u. simpl. rewrite Hid. agx. }
    destruct (used_neibs_ok vmap fecon V grow HS) as (l1 & l2 & E & HL & HO1 & HO2). rewrite E. cbn [bind].
    set (U := used_edges V grow) in *. set (uf := l1 ++ (V, None) :: l2).
    assert (HU : forall p, In p U -> In p (fecon V)) by (intros p Hp; unfold U, ProlSpec.used_edges in Hp; apply filter_In in Hp; tauto).
    assert (LU : length uf = S (length U)).
    { unfold uf. rewrite app_length. cbn [length]. rewrite <- (map_length (fun p : nat * nat => (fst p, Some (snd p))) U), <- HL, app_length. lia. }
    assert (CU : cols (map (fun p : nat * option nat => (fst p, tt)) uf) = map fst uf) by (unfold cols; rewrite map_map; reflexivity).
    assert (SUF : StronglySorted lt (map fst uf)).
    { unfold uf. rewrite map_app. cbn [map]. destruct HE as [HE SF].
      assert (SU : StronglySorted lt (map fst (l1 ++ l2))).
      { rewrite HL, map_map. cbn [fst]. unfold U, ProlSpec.used_edges. generalize (fun p : nat * nat => negb (vmap (fst p) =? -1)%Z && existsb (Z.eqb (vmap (fst p))) grow). intros f.
        clear - SF. induction (fecon V) as [|p l IH]; cbn [filter map] in *; [constructor|]. inversion SF; subst. destruct (f p); auto.
        cbn [map]. constructor; auto. rewrite Forall_forall in *. intros x Hx. apply H2. apply in_map_iff in Hx. destruct Hx as (q & <- & Hq). apply in_map. apply filter_In in Hq. tauto. }
      assert (NE : forall p, In p (l1 ++ l2) -> fst p <> V).
      { intros p Hp. rewrite HL in Hp. apply in_map_iff in Hp. destruct Hp as ([w e] & <- & Hp). cbn [fst]. apply (HE w e); auto. }
      assert (O1 : forall p, In p l1 -> fst p < V) by (intros p Hp; specialize (HO1 p Hp); specialize (NE p (proj2 (in_app_iff _ _ _) (or_introl Hp))); lia).
      assert (O2 : forall p, In p l2 -> V < fst p) by (intros p Hp; apply (HO2 p Hp); auto).
      rewrite map_app in SU. clear - SU O1 O2. induction l1 as [|p l1 IH]; cbn [map app] in *.
      - constructor; auto. apply Forall_forall. intros x Hx. apply in_map_iff in Hx. destruct Hx as (q & <- & Hq). auto.
      - inversion SU; subst. constructor; [apply IH; auto; intros; apply O1; simpl; auto|]. apply Forall_forall. intros x Hx. rewrite Forall_forall in H2.
        apply in_app_iff in Hx. destruct Hx as [Hx|[<-|Hx]]; [apply H2, in_app_iff; auto|apply O1; simpl; auto|apply H2, in_app_iff; auto]. }
    assert (CUF : forall v, In v (map fst uf) <-> v = V \/ exists e, In (v, e) U).
    { intros v. unfold uf. rewrite map_app, in_app_iff. cbn [map In fst]. transitivity (V = v \/ In v (map fst (l1 ++ l2))); [rewrite map_app, in_app_iff; tauto|].
      rewrite HL, map_map. cbn [fst]. rewrite in_map_iff. split.
      - intros [->|([w e] & <- & H)]; eauto.
      - intros [->|(e & H)]; auto. right. exists (v, e). auto. }
    destruct (Nat.eqb_spec (length uf) 1) as [E2|E2].
    { assert (UN : U = []) by (destruct U; [auto|simpl in LU; lia]). rewrite UN in *.
      exists [(V, mid)]. split; [auto|]. split; [intros; contradiction|]. split.
      - intros _ v. simpl. split; [intros [->|[]]; auto|intros [->|(e & [])]; auto].
      - split; [repeat constructor|]. intros u. simpl. rewrite Hid, (act_x0 L), (xsc_0 L). agx. }
    match goal with |- context [foldM ?F0 _ _] => set (F := F0) end.
    set (DT := fun q : nat * option nat => match snd q with Some e => diag_term mmul VD CalcQs fvd (emod V) V (fst q, e) | None => m0 end).
    set (OT := fun q : nat * option nat => match snd q with Some e => mmul (mmul (mtr (fst (Qs V (fst q)))) (emod V e)) (snd (Qs V (fst q))) | None => m0 end).
    set (tk := fun js => map (fun j => nth j uf (V, None)) (filter (fun j => negb (j =? length l1)) js)).
    assert (DL : length l1 < length uf) by (unfold uf; rewrite app_length; simpl; lia).
    assert (G : forall js rm, (forall j, In j js -> j < length uf) -> length rm = length uf ->
       exists rm', foldM F js rm = Ret rm' /\ length rm' = length uf /\
         nth (length l1) rm' m0 = fold_left (fun s q => madd s (DT q)) (tk js) (nth (length l1) rm m0) /\
         (forall j, j <> length l1 -> nth j rm' m0 = if existsb (Nat.eqb j) js then OT (nth j uf (V, None)) else nth j rm m0)).
    { induction js as [|j js IH]; intros rm Hjs HLm.
      { exists rm. repeat split; auto. }
      cbn [foldM]. unfold F at 1. destruct (Nat.eqb_spec j (length l1)) as [Ej|Ej].
      { cbn [bind]. destruct (IH rm) as (rm' & E0 & H1 & H2 & H3); auto; [intros; apply Hjs; simpl; auto|].
        exists rm'. unfold tk in *. cbn [filter]. rewrite Ej, Nat.eqb_refl. cbn [negb]. repeat split; auto. intros i Hi. cbn [existsb].
        destruct (Nat.eqb_spec i (length l1)); [contradiction|]. apply H3. auto. }
      assert (Hj : j < length uf) by (apply Hjs; simpl; auto).
      pose proof (nth_mid l1 (V, None) l2 (V, None) j Ej Hj) as Hin. fold uf in Hin. rewrite HL in Hin.
      apply in_map_iff in Hin. destruct Hin as ([w e] & En & HiU). cbn [fst snd] in En.
      fold uf. rewrite (rd_ok uf j (V, None)) by auto. cbn [bind]. rewrite <- En. cbn [snd].
      pose proof (fedge_sel fecon fedge NV V w e HE (HU _ HiU)) as FS. destruct (fedge e) as [v0 v1].
      destruct (if V =? v0 then (v0, v1) else (v1, v0)) as [vl vo] eqn:EV. inversion FS; subst vl vo. clear FS EV.
      destruct (CalcQs (fvd V) (fvd w)) as [Qij Qji] eqn:EQ.
      rewrite wr_ok by lia. cbn [bind].
      rewrite (rd_ok _ (length l1) m0) by (rewrite upd_length; lia). cbn [bind]. rewrite wr_ok by (rewrite upd_length; lia). cbn [bind].
      rewrite nth_upd_neq by auto.
      match goal with |- context [foldM F js ?r] => set (rm1 := r) end.
      assert (L1 : length rm1 = length uf) by (unfold rm1; rewrite !upd_length; auto).
      destruct (IH rm1) as (rm' & E0 & H1 & H2 & H3); auto; [intros; apply Hjs; simpl; auto|].
      exists rm'. split; [auto|]. split; [auto|].
      assert (TKJ : tk (j :: js) = (w, Some e) :: tk js).
      { unfold tk. cbn [filter]. destruct (Nat.eqb_spec j (length l1)); [contradiction|]. cbn [negb map]. rewrite <- En. reflexivity. }
      rewrite TKJ. cbn [fold_left]. split.
      - rewrite H2. f_equal. unfold rm1. rewrite nth_upd_eq by (rewrite upd_length; lia). f_equal.
        unfold DT, diag_term, ProlSpec.Qs. cbn [fst snd]. rewrite EQ. reflexivity.
      - intros i Hi. rewrite H3 by auto. cbn [existsb]. unfold rm1. rewrite nth_upd_neq by auto.
        destruct (Nat.eqb_spec i j) as [->|Hij]; cbn [orb].
        + destruct (existsb (Nat.eqb j) js); [reflexivity|]. rewrite nth_upd_eq by lia. rewrite <- En. unfold OT, ProlSpec.Qs. cbn [fst snd]. rewrite EQ. reflexivity.
        + destruct (existsb (Nat.eqb i) js); [reflexivity|]. rewrite nth_upd_neq by auto. reflexivity. }
    destruct (G (seq 0 (length uf)) (repeat m0 (length uf))) as (rm & E3 & HLm & HD & HO).
    { intros j Hj. apply in_seq in Hj. lia. } { apply repeat_length. }
    fold uf. fold uf in E3. rewrite E3. cbn [bind]. rewrite (rd_ok rm (length l1) m0) by lia. cbn [bind].
    assert (TK : tk (seq 0 (length uf)) = map (fun p => (fst p, Some (snd p))) U).
    { unfold tk, uf. rewrite seq_without_mid. auto. }
    assert (DD : nth (length l1) rm m0 = rm_diag (emod V) V grow).
    { rewrite HD, TK, nth_repeat. unfold ProlSpec.aux_diag. fold U. clear. generalize (@m0 B). induction U as [|p U IH]; intros s; [reflexivity|].
      cbn [map fold_left]. rewrite IH. unfold DT. destruct p; reflexivity. }
    rewrite DD. set (dg := rm_diag (emod V) V grow) in *. set (d := cinv dg).
    assert (ROW : forall (l : list (nat * option nat)) (r : list M) i, length l = length r ->
      cols (map (fun q => let '(j, (v, r)) := (q : nat * ((nat * option nat) * M)) in
                   (fst v, if j =? length l1 then msub msc mid (mmul (msc omega d) r) else mmul (msc omega d) r))
                 (combine (seq i (length l)) (combine l r))) = map fst l).
    { induction l as [|v l IH]; intros [|a r] i H; try discriminate; [reflexivity|]. cbn [length seq combine map cols fst]. unfold cols in IH. rewrite IH by (simpl in H; lia). reflexivity. }
    eexists. split; [reflexivity|]. split; [intros; contradiction|].
    rewrite ROW by lia. split; [intros _; exact CUF|]. split; [exact SUF|].
    intros u.
    (* value of the row *)
    pose (term := fun j => act (if j =? length l1 then msub msc mid (mmul (msc omega d) (nth j rm m0)) else mmul (msc omega d) (nth j rm m0)) (u (fst (nth j uf (V, None))))).
    assert (VAL : xtotal (fun p : nat * M => act (snd p) (u (fst p))) (map (fun q => let '(j, (v, r)) := (q : nat * ((nat * option nat) * M)) in
                   (fst v, if j =? length l1 then msub msc mid (mmul (msc omega d) r) else mmul (msc omega d) r))
                 (combine (seq 0 (length uf)) (combine uf rm))) = xtotal term (seq 0 (length uf))).
    { assert (GV : forall (l : list (nat * option nat)) (r : list M) i, length l = length r ->
        (forall j, j < length l -> nth j l (V, None) = nth (i + j) uf (V, None) /\ nth j r m0 = nth (i + j) rm m0) ->
        xtotal (fun p : nat * M => act (snd p) (u (fst p))) (map (fun q => let '(j, (v, r)) := (q : nat * ((nat * option nat) * M)) in
                   (fst v, if j =? length l1 then msub msc mid (mmul (msc omega d) r) else mmul (msc omega d) r))
                 (combine (seq i (length l)) (combine l r))) = xtotal term (seq i (length l))).
      { induction l as [|v l IH]; intros [|a r] i H HN; try discriminate; [reflexivity|]. cbn [length seq combine map xtotal fold_right].
        unfold xtotal in IH. rewrite IH; [|simpl in H; lia|].
        - f_equal. destruct (HN 0) as [N1 N2]; [simpl; lia|]. rewrite Nat.add_0_r in N1, N2. cbn [nth] in N1, N2. unfold term. cbn [fst snd]. rewrite <- N1, <- N2. reflexivity.
        - intros j Hj. destruct (HN (S j)) as [N1 N2]; [simpl; lia|]. rewrite Nat.add_succ_r in N1, N2. cbn [nth] in N1, N2. split; auto. }
      apply (GV uf rm 0); [lia|]. intros; split; reflexivity. }
    rewrite VAL. clear VAL ROW.
    assert (NDm : nth (length l1) uf (V, None) = (V, None)) by (unfold uf; rewrite app_nth2, Nat.sub_diag by lia; reflexivity).
    (* split off the diagonal *)
    assert (SPL : xtotal term (seq 0 (length uf)) = xadd (term (length l1)) (xtotal term (filter (fun j => negb (j =? length l1)) (seq 0 (length uf))))).
    { assert (GS : forall js, NoDup js -> In (length l1) js -> xtotal term js = xadd (term (length l1)) (xtotal term (filter (fun j => negb (j =? length l1)) js))).
      { induction js as [|j js IH]; intros ND HI; [destruct HI|]. inversion ND; subst. cbn [xtotal fold_right filter]. fold (xtotal term js).
        destruct (Nat.eqb_spec j (length l1)) as [->|Hn]; cbn [negb].
        - f_equal. rewrite filter_all'; [reflexivity|]. intros a Ha. apply negb_true_iff, Nat.eqb_neq. intros ->. contradiction.
        - cbn [xtotal fold_right]. fold (xtotal term (filter (fun j => negb (j =? length l1)) js)). destruct HI as [HI|HI]; [congruence|]. rewrite IH by auto. agx. }
      apply GS; [apply seq_NoDup|apply in_seq; lia]. }
    rewrite SPL.
    assert (T0 : term (length l1) = xadd (u V) (xopp (xsc omega (act d (act dg (u V)))))).
    { unfold term. rewrite Nat.eqb_refl, NDm, DD. cbn [fst]. rewrite (act_sub L msc Hsc), Hid, Hmm, Hsc. reflexivity. }
    rewrite T0.
    assert (TO : xtotal term (filter (fun j => negb (j =? length l1)) (seq 0 (length uf))) =
      xsc omega (act d (xtotal (fun q => act (OT q) (u (fst q))) (tk (seq 0 (length uf)))))).
    { unfold tk. assert (GT : forall js, (forall j, In j js -> j < length uf /\ j <> length l1) ->
        xtotal term js = xsc omega (act d (xtotal (fun q => act (OT q) (u (fst q))) (map (fun j => nth j uf (V, None)) js)))).
      { induction js as [|j js IH]; intros Hj; [simpl; rewrite (act_x0 L), (xsc_0 L); auto|]. cbn [map xtotal fold_right]. fold (xtotal term js).
        rewrite IH by (intros; apply Hj; simpl; auto). destruct (Hj j (or_introl eq_refl)) as [H1 H2]. unfold term at 1.
        destruct (Nat.eqb_spec j (length l1)); [contradiction|]. rewrite HO by auto.
        assert (EX : existsb (Nat.eqb j) (seq 0 (length uf)) = true) by (apply existsb_exists; exists j; rewrite Nat.eqb_refl, in_seq; split; auto; lia).
        rewrite EX, Hmm, Hsc, (act_add B L), (sc_add B L). reflexivity. }
      apply GT. intros j Hj. apply filter_In in Hj. destruct Hj as [Hj Hn]. apply in_seq in Hj. apply negb_true_iff, Nat.eqb_neq in Hn. split; [lia|auto]. }
    rewrite TO, TK.
    assert (FIN : xadd (act dg (u V)) (xopp (xtotal (fun q => act (OT q) (u (fst q))) (map (fun p : nat * nat => (fst p, Some (snd p))) U))) =
                  xtotal (edge_term VD CalcQs fvd (emod V) u V) U).
    { unfold dg, ProlSpec.aux_diag. fold U.
      assert (GF : forall U s, xadd (act (fold_left (fun s p => madd s (diag_term mmul VD CalcQs fvd (emod V) V p)) U s) (u V))
          (xopp (xtotal (fun q => act (OT q) (u (fst q))) (map (fun p : nat * nat => (fst p, Some (snd p))) U))) = xadd (act s (u V)) (xtotal (edge_term VD CalcQs fvd (emod V) u V) U)).
      { clear - L LX Hmm. induction U as [|p U IH]; intros s; [simpl; agx|]. cbn [fold_left map xtotal fold_right].
        set (A := xtotal (fun q => act (OT q) (u (fst q))) (map (fun p : nat * nat => (fst p, Some (snd p))) U)) in *.
        change (fold_right (fun (a : nat * option nat) (s0 : X) => xadd (act (OT a) (u (fst a))) s0) x0 (map (fun p0 : nat * nat => (fst p0, Some (snd p0))) U)) with A.
        set (C := xtotal (edge_term VD CalcQs fvd (emod V) u V) U) in *.
        change (fold_right (fun (a : nat * nat) (s0 : X) => xadd (edge_term VD CalcQs fvd (emod V) u V a) s0) x0 U) with C.
        specialize (IH (madd s (diag_term mmul VD CalcQs fvd (emod V) V p))). rewrite (act_madd B L) in IH.
        rewrite (edge_term_eq L mmul Hmm VD CalcQs fvd (emod V) u V p).
        assert (OTE : act (OT (fst p, Some (snd p))) (u (fst p)) = act (mmul (mmul (mtr (fst (Qs V (fst p)))) (emod V (snd p))) (snd (Qs V (fst p)))) (u (fst p))) by reflexivity.
        cbn [fst] in *. rewrite OTE. set (D := act _ (u V)) in IH at 1.
        match goal with |- xadd ?D0 _ = _ => change D0 with D end.
        assert (IH' : D = xadd (xadd (xadd (act s (u V)) (act (diag_term mmul VD CalcQs fvd (emod V) V p) (u V))) C) A).
        { rewrite <- IH. agx. }
        rewrite IH'. agx. }
      rewrite GF, (act_m0 B L). agx. }
    rewrite <- FIN. rewrite (act_add B L), (act_opp L), (sc_add B L), (xsc_opp L). agx.
  Qed.
End V.
