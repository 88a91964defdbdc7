(** C73: the vertex prolongations. *)
From Verif Require Import Base ArraysModel ArraysProofs AGroup LinAlg Instances SparseModel SparseProofs ProlModel ProlSpec ProlProofs ProlProofs2 ProlProofs3 ProlProofs4.
From Coq Require Import QArith Qminmax Qcanon Lqa.
Local Open Scope nat_scope.

Section C73.
  Context {B : Blk} (L : BlkLaws B).
  Variable mmul : M B -> M B -> M B.
  Variable msc : K B -> M B -> M B.
  Variable mid : M B.
  Add Ring Kring73 : (lawK B L).
  Hypothesis BO : block_ops mmul msc mid.
  Variable VD : Type.
  Variable CalcQs : VD -> VD -> M B * M B.
  Variable CalcQHh : VD -> VD -> M B.
  Variable QiToj_MQ : VD -> VD -> K B -> M B -> M B.
  Variable vmap : nat -> Z.
  Variable fecon : nat -> list (nat * nat).
  Variable fedge : nat -> nat * nat.
  Variable fvd : nat -> VD.
  Variable cvd : Z -> VD.
  Variable emat : nat -> M B.
  Variable awt : nat -> Q.
  Variable ceqc : Z -> nat.
  Variable leq : nat -> nat -> bool.
  Variable sortw : list (Z * Q) -> list (Z * Q).
  Variable sortz : list Z -> list Z.
  Hypothesis SW : sortw_ok sortw.
  Hypothesis SZ : sortz_ok sortz.

  Local Notation pwvec := (ProlSpec.pwvec VD CalcQHh vmap fvd cvd).
  Local Notation aux_diag := (ProlSpec.aux_diag vmap fecon mmul VD CalcQs fvd).
  Local Notation edge_term := (ProlSpec.edge_term VD CalcQs fvd).
  Local Notation used_edges := (ProlSpec.used_edges vmap fecon).
  Local Notation columns_ok := (ProlSpec.columns_ok vmap fecon awt ceqc leq).

  Lemma xtotal_zero {A} (f : A -> X B) l : (forall p, In p l -> f p = x0) -> xtotal f l = x0.
  Proof.
    induction l as [|p l IH]; intros H; [reflexivity|]. cbn [xtotal fold_right]. unfold xtotal in IH. rewrite IH by (intros; apply H; simpl; auto).
    rewrite H by (simpl; auto). ag (lawX B L).
  Qed.

  (** the columns chosen for a row of the auxiliary prolongation *)
  Lemma get_cols_aux_ok maxr mpf dg EQ V : (1 <= maxr)%Z -> vmap V <> (-1)%Z ->
    exists cls, get_cols_aux vmap fecon awt ceqc leq sortw maxr mpf dg EQ V = Ret cls /\ columns_ok maxr mpf (nth V dg 0%Q) EQ V (sortz cls).
  Proof.
    intros Hm HV. unfold get_cols_aux. destruct (Z.eqb_spec (vmap V) (-1)); [contradiction|].
    destruct (nniscv vmap fecon V =? 0) eqn:E.
    - apply Nat.eqb_eq, nniscv_iff in E. exists [vmap V]. split; auto.
      assert (S1 : sortz [vmap V] = [vmap V]) by (destruct (SZ [vmap V]) as [P _]; apply Permutation_length_1_inv in P; auto).
      rewrite S1. constructor.
      + repeat constructor.
      + simpl; auto.
      + simpl. lia.
      + intros c [<-|[]]; auto.
      + auto.
      + intros c [<-|[]] H; congruence.
      + contradiction.
    - assert (HP : has_partner vmap fecon V).
      { apply Nat.eqb_neq in E. unfold nniscv in E. destruct (filter (fun p => (vmap (fst p) =? vmap V)%Z) (fecon V)) as [|[w e] l] eqn:F; [simpl in E; lia|].
        assert (Hi : In (w, e) (filter (fun p => (vmap (fst p) =? vmap V)%Z) (fecon V))) by (rewrite F; simpl; auto).
        apply filter_In in Hi. destruct Hi as [Hi H]. apply Z.eqb_eq in H. exists w, e. auto. }
      destruct (aux_columns vmap fecon awt ceqc leq sortw sortz SW SZ maxr mpf (nth V dg 0%Q) EQ V Hm HV HP) as (trow & tcv & iw & cls & -> & E2 & C).
      cbn [bind]. exists cls. auto.
  Qed.
  Lemma nniscv_dec V : nniscv vmap fecon V = 0 \/ has_partner vmap fecon V.
  Proof.
    destruct (Nat.eq_dec (nniscv vmap fecon V) 0) as [E|E]; auto. right. unfold nniscv in E.
    destruct (filter (fun p => (vmap (fst p) =? vmap V)%Z) (fecon V)) as [|[w e] l] eqn:F; [simpl in E; lia|].
    assert (Hi : In (w, e) (filter (fun p => (vmap (fst p) =? vmap V)%Z) (fecon V))) by (rewrite F; simpl; auto).
    apply filter_In in Hi. destruct Hi as [Hi H]. apply Z.eqb_eq in H. exists w, e. auto.
  Qed.

  (** what a row of the smoothed prolongation is *)
  Definition row_spec (O : opts) (cinv : M B -> M B) (trinv : M B -> K B) (pinv : M B -> M B) (fmat : option (smat (M B))) (dgV : Q)
      (eqc V : nat) (row : list (Z * M B)) : Prop :=
    exists classic : bool,
      (classic = true <-> o_aux_only O = false /\ exists A, fmat = Some A /\ classic_ok vmap fecon ceqc leq (nth V A []) (o_maxc O) eqc V) /\
      (classic = false -> columns_ok (o_maxr O) (o_mpf O) dgV eqc V (map fst row)) /\
      (forall A, classic = true -> fmat = Some A -> classic_columns_ok vmap fecon (nth V A []) V (map fst row)) /\
      forall uc : Z -> X B,
        (length row = 1 -> row_apply row uc = pwvec uc V) /\
        (length row <> 1 -> classic = false ->
           let D := aux_diag emat V (map fst row) in let s := trinv D in
           row_apply row uc = xadd (pwvec uc V) (xopp (xsc (o_omega O) (act (pinv (msc s D)) (xsc s
             (xtotal (edge_term emat (pwvec uc) V) (used_edges V (map fst row)))))))) /\
        (length row <> 1 -> classic = true -> forall A a, fmat = Some A -> In (V, a) (nth V A []) ->
           row_apply row uc = xadd (pwvec uc V) (xopp (xsc (o_omega O) (act (cinv a)
             (xtotal (fun p => act (snd p) (pwvec uc (fst p))) (nth V A [])))))).

  Lemma map_fst_combine {C D} (l : list C) (r : list D) : length l = length r -> map fst (combine l r) = l.
  Proof. revert r. induction l as [|a l IH]; intros [|b r] H; simpl in *; try lia; auto. f_equal. auto. Qed.

  Lemma sprol_row_ok O cinv trinv pinv fmat dg NV eqc V : mesh_ok vmap fecon fedge NV -> (1 <= o_maxr O)%Z ->
    (forall A, fmat = Some A -> fmat_ok NV A) -> V < NV -> mapped vmap V ->
    exists row, sprol_row mmul msc VD CalcQs vmap fecon fedge fvd emat awt ceqc leq sortw sortz O cinv trinv pinv fmat dg
        (PWProlMap VD CalcQHh vmap fvd cvd NV) eqc V = Ret row /\
      row_spec O cinv trinv pinv fmat (nth V dg 0%Q) eqc V row.
  Proof.
    intros [VOK HE] Hm HF HV HM. specialize (HE V HV). destruct BO as [Hmm Hsc Hid].
    assert (HV1 : vmap V <> (-1)%Z) by (unfold mapped in HM; lia).
    unfold sprol_row, graph_row. destruct (Z.eqb_spec (vmap V) (-1)); [contradiction|].
    (* the auxiliary case *)
    assert (AUX : (~ (o_aux_only O = false /\ exists A, fmat = Some A /\ classic_ok vmap fecon ceqc leq (nth V A []) (o_maxc O) eqc V)) ->
      exists row, (g <- (c <- get_cols_aux vmap fecon awt ceqc leq sortw (o_maxr O) (o_mpf O) dg eqc V ;; Ret (Some (false, sortz c))) ;;
        match g with
        | None => Ret []
        | Some (classic, ris) =>
            rvs <- (if (classic : bool) then fill_classic mmul msc vmap cinv (o_omega O) (match fmat with Some A => A | None => [] end) (PWProlMap VD CalcQHh vmap fvd cvd NV) V ris
                    else fill_aux mmul msc VD CalcQs vmap fecon fedge fvd emat trinv pinv (o_omega O) (PWProlMap VD CalcQHh vmap fvd cvd NV) V ris) ;;
            Ret (combine ris rvs)
        end) = Ret row /\ row_spec O cinv trinv pinv fmat (nth V dg 0%Q) eqc V row).
    { intros HN. destruct (get_cols_aux_ok (o_maxr O) (o_mpf O) dg eqc V Hm HV1) as (cls & -> & C). cbn [bind].
      destruct (fill_aux_ok L mmul msc Hmm Hsc VD CalcQs CalcQHh vmap fecon fedge fvd cvd emat NV (o_omega O) VOK trinv pinv V (sortz cls) HV HM HE (co_asc _ _ _ _ _ _ _ _ _ _ _ C) (co_own _ _ _ _ _ _ _ _ _ _ _ C)) as (rvs & -> & HL & HV2).
      cbn [bind]. exists (combine (sortz cls) rvs). split; auto. exists false. rewrite map_fst_combine by lia. split; [|split; [|split]].
      - split; [discriminate|]. intros H. contradiction.
      - auto.
      - intros; discriminate.
      - assert (LC : length (combine (sortz cls) rvs) = length (sortz cls)) by (rewrite combine_length; lia). rewrite LC.
        intros uc. specialize (HV2 uc). split; [|split].
        + intros H1. rewrite HV2, H1. reflexivity.
        + intros H1 _. rewrite HV2. destruct (Nat.eqb_spec (length (sortz cls)) 1); [contradiction|]. reflexivity.
        + intros; discriminate. }
    destruct fmat as [A|]; [|apply AUX; intros (_ & A & H & _); discriminate].
    destruct (o_aux_only O) eqn:EO; [apply AUX; intros (H & _); discriminate|].
    destruct (HF A eq_refl V HV) as (F1 & (a & F2) & F3).
    assert (FIN : forall cls, classic_ok vmap fecon ceqc leq (nth V A []) (o_maxc O) eqc V -> classic_columns_ok vmap fecon (nth V A []) V cls ->
      exists row, (rvs <- fill_classic mmul msc vmap cinv (o_omega O) A (PWProlMap VD CalcQHh vmap fvd cvd NV) V cls ;; Ret (combine cls rvs)) = Ret row /\
        row_spec O cinv trinv pinv (Some A) (nth V dg 0%Q) eqc V row).
    { intros cls CO CC.
      assert (HC : length cls <> 1 -> StronglySorted lt (cols (nth V A [])) /\ In (V, a) (nth V A []) /\
         (forall p, In p (nth V A []) -> fst p < NV /\ mapped vmap (fst p) /\ In (vmap (fst p)) cls)).
      { intros H1. split; [exact F1|]. split; [exact F2|]. intros p Hp.
        assert (HP : has_partner vmap fecon V).
        { destruct (nniscv_dec V) as [H|H]; auto. apply nniscv_iff in H. apply (cc_alone _ _ _ _ _ CC) in H. rewrite H in H1. simpl in H1. lia. }
        destruct CO as [_ [CO|[CO _]]]; [contradiction|]. split; [auto|]. split; [apply CO; auto|]. apply (cc_cols _ _ _ _ _ CC HP). eauto. }
      destruct (fill_classic_ok L mmul msc Hmm Hsc VD CalcQHh vmap fvd cvd NV (o_omega O) cinv A V cls a HV HM (cc_asc _ _ _ _ _ CC) (cc_own _ _ _ _ _ CC) HC) as (rvs & -> & HL & HV2).
      cbn [bind]. exists (combine cls rvs). split; auto. exists true. rewrite map_fst_combine by lia. split; [|split; [|split]].
      - split; [|auto]. intros _. split; auto. exists A. auto.
      - intros; discriminate.
      - intros A0 _ H. inversion H; subst. auto.
      - assert (LC : length (combine cls rvs) = length cls) by (rewrite combine_length; lia). rewrite LC.
        intros uc. specialize (HV2 uc). split; [|split].
        + intros H1. rewrite HV2, H1. reflexivity.
        + intros; discriminate.
        + intros H1 _ A0 a0 HA Ha. inversion HA; subst A0. rewrite HV2. destruct (Nat.eqb_spec (length cls) 1); [contradiction|].
          assert (a0 = a); [|subst; auto].
          destruct (diag_found (nth V A []) V a F1 F2) as (k1 & D1 & R1). destruct (diag_found (nth V A []) V a0 F1 Ha) as (k2 & D2 & R2). congruence. }
    destruct (Nat.eq_dec eqc 0) as [E0|E0].
    2:{ unfold get_cols_classic at 1. destruct (Nat.eqb_spec eqc 0); [contradiction|]. cbn [negb bind].
        apply AUX. intros (_ & A0 & _ & H & _). auto. }
    rewrite E0 in *. destruct (nniscv_dec V) as [N0|HP].
    - unfold get_cols_classic at 1. cbn [Nat.eqb negb]. rewrite N0. cbn [Nat.eqb bind]. apply FIN.
      + split; auto. left. apply nniscv_iff. auto.
      + apply nniscv_iff in N0. constructor; auto; try contradiction; [repeat constructor|simpl; auto].
    - destruct (classic_columns vmap fecon ceqc leq VOK A (o_maxc O) V HP) as (ok & cls & -> & OK & CL). cbn [bind]. destruct ok.
      + cbn [bind]. destruct (CL eq_refl) as [SC IC]. destruct (proj1 OK eq_refl) as [O1 O2]. apply FIN.
        * split; auto.
        * assert (IM : forall c, In c cls <-> exists p, In p (nth V A []) /\ vmap (fst p) = c).
          { intros c. rewrite IC. unfold images. rewrite in_map_iff. split; intros (p & H1 & H2); eauto. }
          constructor; auto; try contradiction. apply IM. exists (V, a). auto.
      + apply AUX. intros (_ & A0 & HA & _ & HC). inversion HA; subst A0. destruct HC as [HC|HC]; [contradiction|].
        assert (false = true) by (apply OK; exact HC). discriminate.
  Qed.

  Theorem C73_smoothed_rows : forall (O : opts) (cinv : M B -> M B) (trinv : M B -> K B) (pinv : M B -> M B) (allred : list Q -> list Q)
      (master : nat -> bool) (eqc_of : nat -> nat) (fmat : option (smat (M B))) (NV NE : nat),
    mesh_ok vmap fecon fedge NV -> (1 <= o_maxr O)%Z -> (forall A, fmat = Some A -> fmat_ok NV A) ->
    exists rows, SemiAuxSProlMap mmul msc VD CalcQs CalcQHh vmap fecon fedge fvd cvd emat awt ceqc leq sortw sortz O cinv trinv pinv allred
        master eqc_of fmat NV NE = Ret rows /\ length rows = NV /\
      forall V, V < NV ->
        (master V = false \/ vmap V = (-1)%Z -> nth V rows [] = []) /\
        (master V = true -> mapped vmap V ->
           row_spec O cinv trinv pinv fmat (nth V (diag_weights fedge awt allred NV NE) 0%Q) (eqc_of V) V (nth V rows [])).
  Proof.
    intros O cinv trinv pinv allred master eqc_of fmat NV NE HMe Hm HF. unfold SemiAuxSProlMap. cbv zeta.
    set (dg := diag_weights fedge awt allred NV NE). match goal with |- context [foldM ?F0 _ _] => set (F := F0) end.
    assert (G : forall n, n <= NV -> exists rows, foldM F (seq 0 n) [] = Ret rows /\ length rows = n /\
      forall V, V < n -> (master V = false \/ vmap V = (-1)%Z -> nth V rows [] = []) /\
        (master V = true -> mapped vmap V -> row_spec O cinv trinv pinv fmat (nth V dg 0%Q) (eqc_of V) V (nth V rows []))).
    { induction n as [|n IH]; intros Hn.
      { exists []. repeat split; auto; intros; lia. }
      destruct IH as (rows & E & HL & HR); [lia|]. rewrite seq_S, foldM_app, E. cbn [bind foldM Nat.add]. unfold F at 1.
      assert (NX : exists r, (if master n then sprol_row mmul msc VD CalcQs vmap fecon fedge fvd emat awt ceqc leq sortw sortz O cinv trinv pinv fmat dg
          (PWProlMap VD CalcQHh vmap fvd cvd NV) (eqc_of n) n else Ret []) = Ret r /\
        (master n = false \/ vmap n = (-1)%Z -> r = []) /\ (master n = true -> mapped vmap n -> row_spec O cinv trinv pinv fmat (nth n dg 0%Q) (eqc_of n) n r)).
      { destruct (master n).
        - destruct (Z.eq_dec (vmap n) (-1)) as [E1|E1].
          + exists []. unfold sprol_row, graph_row. rewrite E1. cbn [Z.eqb Pos.eqb bind]. repeat split; auto. intros _ H. unfold mapped in H. lia.
          + assert (HMp : mapped vmap n) by (unfold mapped; destruct HMe as [V1 _]; specialize (V1 n); lia).
            destruct (sprol_row_ok O cinv trinv pinv fmat dg NV (eqc_of n) n HMe Hm HF ltac:(lia) HMp) as (row & -> & RS).
            exists row. repeat split; auto. intros [H|H]; congruence.
        - exists []. repeat split; auto. intros; discriminate. }
      destruct NX as (r & -> & R1 & R2). cbn [bind]. exists (rows ++ [r]). split; [auto|]. split; [rewrite app_length; simpl; lia|].
      intros V HV. destruct (Nat.eq_dec V n) as [->|].
      - rewrite app_nth2, HL, Nat.sub_diag by lia. cbn [nth]. auto.
      - rewrite app_nth1 by lia. apply HR. lia. }
    apply G. lia.
  Qed.

  (** A coarse vector whose piecewise prolongation has no jump over the edges of V is reproduced by row V, unless the row is
      smoothed with the system matrix; there it is reproduced if the system matrix annihilates the piecewise prolongation in V. *)
  Theorem C73_kernel_preserved : forall (O : opts) cinv trinv pinv (fmat : option (smat (M B))) dgV eqc V row (uc : Z -> X B),
    vmap_ok vmap -> row_spec O cinv trinv pinv fmat dgV eqc V row -> row <> [] -> (forall A, fmat = Some A -> exists a, In (V, a) (nth V A [])) ->
    (forall w e, In (w, e) (fecon V) -> mapped vmap w ->
       act (fst (ProlSpec.Qs VD CalcQs fvd V w)) (pwvec uc V) = act (snd (ProlSpec.Qs VD CalcQs fvd V w)) (pwvec uc w)) ->
    (forall A, fmat = Some A -> o_aux_only O = false -> xtotal (fun p => act (snd p) (pwvec uc (fst p))) (nth V A []) = x0) ->
    row_apply row uc = pwvec uc V.
  Proof.
    intros O cinv trinv pinv fmat dgV eqc V row uc VOK (classic & C1 & C2 & C3 & C4) HN HA HK HS.
    destruct (C4 uc) as (V1 & V2 & V3). destruct (Nat.eq_dec (length row) 1) as [E1|E1]; [auto|].
    destruct classic.
    - destruct (proj1 C1 eq_refl) as (EO & A & EA & _). destruct (HA A EA) as (a & Ha). rewrite (V3 E1 eq_refl A a EA Ha), (HS A EA EO).
      rewrite (act_x0 L), (xsc_0 L). ag (lawX B L).
    - specialize (V2 E1 eq_refl). cbv zeta in V2. rewrite V2.
      assert (T0 : xtotal (edge_term emat (pwvec uc) V) (used_edges V (map fst row)) = x0).
      { assert (HU : forall p, In p (used_edges V (map fst row)) -> edge_term emat (pwvec uc) V p = x0).
        { intros [w e] Hp. unfold ProlSpec.used_edges in Hp. apply filter_In in Hp. destruct Hp as [Hp Hm]. apply Bool.andb_true_iff in Hm. destruct Hm as [Hm _].
          apply negb_true_iff, Z.eqb_neq in Hm. cbn [fst] in Hm. unfold ProlSpec.edge_term. cbn [fst snd].
          rewrite (HK w e Hp) by (unfold mapped; specialize (VOK w); lia).
          rewrite (ag_opp _ _ _ (lawX B L)), !(act_x0 L). reflexivity. }
        apply xtotal_zero. exact HU. }
      rewrite T0, (xsc_0 L), (act_x0 L), (xsc_0 L). ag (lawX B L).
  Qed.

  (** One improvement iteration: columns unchanged; the update is the damped Jacobi step with A*P, where the parts of A*P outside
      the columns of the row are carried over to the own coarse vertex. *)
  Theorem C73_improvement : forall (omega : K B) (cinv : M B -> M B) (A : smat (M B)) (AP : list (list (Z * M B))) V row,
    StronglySorted lt (cols (nth V A [])) -> StronglySorted Z.lt (map fst row) -> In (vmap V) (map fst row) ->
    StronglySorted Z.lt (map fst (nth V AP [])) ->
    (length row <= 1 -> improve_row mmul msc VD QiToj_MQ vmap cvd omega cinv A AP V row = Ret row) /\
    (1 < length row -> forall a, In (V, a) (nth V A []) ->
      exists row', improve_row mmul msc VD QiToj_MQ vmap cvd omega cinv A AP V row = Ret row' /\ map fst row' = map fst row /\
        forall uc : Z -> X B,
          (forall p k m, In p (nth V AP []) -> ~ In (fst p) (map fst row) ->
             act (QiToj_MQ (cvd (vmap V)) (cvd (fst p)) k m) (uc (vmap V)) = xsc k (act m (uc (fst p)))) ->
          row_apply row' uc = xadd (row_apply row uc) (xopp (xsc omega (act (cinv a) (row_apply (nth V AP []) uc))))).
  Proof.
    intros omega cinv A AP V row SA SR HI SAP. destruct BO as [Hmm Hsc Hid]. unfold improve_row. split.
    - intros H. destruct (Nat.ltb_spec 1 (length row)); [lia|auto].
    - intros H a Ha. destruct (Nat.ltb_spec 1 (length row)); [|lia].
      destruct (diag_found (nth V A []) V a SA Ha) as (k & -> & R). cbn [bind]. rewrite R. cbn [bind snd].
      destruct (ImproveSProlRow_ok L mmul msc Hmm Hsc VD QiToj_MQ cvd omega (cinv a) (vmap V) (map fst row) (nth V AP []) SR SAP HI) as (up & -> & HL & HU).
      cbn [bind]. rewrite map_length in HL.
      exists (combine (map fst row) (map (fun q => madd (fst q) (snd q)) (combine (map snd row) up))). split; [auto|]. split.
      { apply map_fst_combine. rewrite !map_length, combine_length, map_length. lia. }
      intros uc HK.
      assert (ADD : row_apply (combine (map fst row) (map (fun q => madd (fst q) (snd q)) (combine (map snd row) up))) uc =
                    xadd (row_apply row uc) (lap up (map uc (map fst row)))).
      { clear - L HL. revert up HL. induction row as [|p row IH]; intros [|u up] HL; cbn [length] in HL; try lia; [simpl; ag (lawX B L)|].
        cbn [map combine row_apply fold_right lap fst snd]. unfold row_apply in IH. rewrite IH by lia. rewrite (act_madd B L). unfold row_apply. ag (lawX B L). }
      rewrite ADD, HU. f_equal.
      assert (TT : forall l, (forall p, In p l -> In p (nth V AP [])) ->
        xtotal (improve_term mmul VD QiToj_MQ cvd omega (cinv a) (vmap V) (map fst row) uc) l = xopp (xsc omega (act (cinv a) (row_apply l uc)))).
      { induction l as [|p l IH]; intros Hl.
        - simpl. rewrite (act_x0 L), (xsc_0 L). ag (lawX B L).
        - cbn [xtotal row_apply fold_right]. unfold xtotal in IH. rewrite IH by (intros; apply Hl; simpl; auto).
          rewrite (act_add B L), (sc_add B L). fold (row_apply l uc).
          assert (TP : improve_term mmul VD QiToj_MQ cvd omega (cinv a) (vmap V) (map fst row) uc p = xopp (xsc omega (act (cinv a) (act (snd p) (uc (fst p)))))).
          { unfold improve_term. destruct (existsb (Z.eqb (fst p)) (map fst row)) eqn:EX; [reflexivity|].
            rewrite HK; [|apply Hl; simpl; auto|intros Hi; apply existsb_Z in Hi; congruence].
            rewrite Hmm. rewrite <- (xsc_m1 L), <- (sc_mul B L). f_equal.
            ring. }
          rewrite TP. ag (lawX B L). }
      apply TT. auto.
  Qed.

  (** Purely auxiliary prolongation: the row of the smoothing matrix that is multiplied with the piecewise prolongation. *)
  Theorem C73_auxiliary_rows : forall (omega : K B) (emod : nat -> nat -> M B) (cinv : M B -> M B) (maxr : Z) (mpf : Q) (dg : list Q) (NV eqc V : nat),
    mesh_ok vmap fecon fedge NV -> (1 <= maxr)%Z -> V < NV ->
    (vmap V = (-1)%Z -> aux_graph_row vmap fecon awt ceqc leq sortw sortz maxr mpf dg eqc V = Ret []) /\
    (mapped vmap V -> exists grow row,
       aux_graph_row vmap fecon awt ceqc leq sortw sortz maxr mpf dg eqc V = Ret grow /\
       columns_ok maxr mpf (nth V dg 0%Q) eqc V grow /\
       rm_row mmul msc mid VD CalcQs vmap fecon fedge fvd emod cinv omega V grow = Ret row /\
       StronglySorted lt (map fst row) /\
       (forall v, In v (map fst row) <-> v = V \/ length grow <> 1 /\ exists e, In (v, e) (used_edges V grow)) /\
       (forall u : nat -> X B, xtotal (fun p => act (snd p) (u (fst p))) row =
         if length grow =? 1 then u V
         else xadd (u V) (xopp (xsc omega (act (cinv (aux_diag (emod V) V grow)) (xtotal (edge_term (emod V) u V) (used_edges V grow)))))) /\
       (forall u : nat -> X B, (forall w e, In (w, e) (fecon V) -> mapped vmap w ->
           act (fst (ProlSpec.Qs VD CalcQs fvd V w)) (u V) = act (snd (ProlSpec.Qs VD CalcQs fvd V w)) (u w)) ->
         xtotal (fun p => act (snd p) (u (fst p))) row = u V)).
  Proof.
    intros omega emod cinv maxr mpf dg NV eqc V [VOK HE] Hm HV. specialize (HE V HV). destruct BO as [Hmm Hsc Hid]. split.
    { intros E. unfold aux_graph_row. rewrite E. reflexivity. }
    intros HM. assert (HV1 : vmap V <> (-1)%Z) by (unfold mapped in HM; lia).
    assert (G : exists grow, aux_graph_row vmap fecon awt ceqc leq sortw sortz maxr mpf dg eqc V = Ret grow /\ columns_ok maxr mpf (nth V dg 0%Q) eqc V grow).
    { unfold aux_graph_row. destruct (Z.eqb_spec (vmap V) (-1)); [contradiction|]. destruct (nniscv_dec V) as [N0|HP].
      - assert (C1 : columns_ok maxr mpf (nth V dg 0%Q) eqc V [vmap V]).
        { apply nniscv_iff in N0. constructor.
          + repeat constructor.
          + simpl; auto.
          + simpl; lia.
          + intros c [<-|[]]; auto.
          + auto.
          + intros c [<-|[]] H; congruence.
          + contradiction. }
        destruct (coarse_weights_ok vmap fecon awt ceqc leq eqc V HV1) as (trow & tcv & iw & -> & _). cbn [bind].
        destruct (add_cols_ok mpf (nth V dg 0%Q) ((1 # 5) * iw)%Q (sortw trow) (max_adds maxr (sortw trow)) 0 ((1 # 5) * iw)%Q [vmap V]) as (k & Hk & -> & _).
        { rewrite max_adds_ok by auto. lia. } { simpl. unfold qsum. simpl. lra. }
        cbn [bind]. cbv zeta.
        set (fin := [vmap V] ++ map fst (firstn k (skipn 0 (sortw trow)))).
        destruct (length (sortz fin) =? 1) eqn:EL.
        + exists (sortz fin). split; auto. apply Nat.eqb_eq in EL. destruct (SZ fin) as [PP _].
          assert (HI : In (vmap V) (sortz fin)) by (apply (Permutation_in _ PP); unfold fin; simpl; auto).
          destruct (sortz fin) as [|c [|c2 l]]; simpl in EL; try lia. destruct HI as [->|[]]. auto.
        + exists [vmap V]. rewrite N0. auto.
      - destruct (aux_columns vmap fecon awt ceqc leq sortw sortz SW SZ maxr mpf (nth V dg 0%Q) eqc V Hm HV1 HP) as (trow & tcv & iw & cls & -> & E2 & C).
        cbn [bind]. rewrite E2. cbn [bind]. cbv zeta. exists (sortz cls). split; auto.
        destruct (length (sortz cls) =? 1); auto. destruct (Nat.eqb_spec (nniscv vmap fecon V) 0) as [E|E]; auto. apply nniscv_iff in E. contradiction. }
    destruct G as (grow & EG & C).
    destruct (rm_row_ok L mmul msc mid Hmm Hsc Hid VD CalcQs vmap fecon fedge fvd NV omega emod cinv V grow HE (co_asc _ _ _ _ _ _ _ _ _ _ _ C)) as (row & ER & R1 & R2 & R3 & R4).
    exists grow, row. split; [auto|]. split; [auto|]. split; [auto|]. split; [auto|]. split; [|split; [auto|]].
    - intros v. destruct (Nat.eq_dec (length grow) 1) as [E1|E1].
      + change (map fst row) with (cols row). rewrite (R1 E1). simpl. split; [intros [->|[]]; auto|]. intros [->|[H _]]; [auto|contradiction].
      + change (map fst row) with (cols row). rewrite (R2 E1). tauto.
    - intros u HK. rewrite R4. destruct (Nat.eqb_spec (length grow) 1); [auto|].
      rewrite xtotal_zero; [rewrite (act_x0 L), (xsc_0 L); ag (lawX B L)|].
      intros [w e] Hp. unfold ProlSpec.used_edges in Hp. apply filter_In in Hp. destruct Hp as [Hp Hm2]. apply Bool.andb_true_iff in Hm2. destruct Hm2 as [Hm2 _].
      apply negb_true_iff, Z.eqb_neq in Hm2. cbn [fst] in Hm2. unfold ProlSpec.edge_term. cbn [fst snd].
      rewrite (HK w e Hp) by (unfold mapped; specialize (VOK w); lia).
      rewrite (ag_opp _ _ _ (lawX B L)), !(act_x0 L). reflexivity.
  Qed.

  (** Piecewise prolongation: transformed value of the coarse vertex, zero for vertices without one. *)
  Theorem C73_piecewise : forall (NV : nat) (uc : list (X B)), vmap_ok vmap ->
    matvec (PWProlMap VD CalcQHh vmap fvd cvd NV) uc =
      map (fun v => if (vmap v =? -1)%Z then x0 else act (CalcQHh (cvd (vmap v)) (fvd v)) (ent uc (Z.to_nat (vmap v)))) (seq 0 NV) /\
    (forall v, v < NV -> map (fun p => Z.of_nat (fst p)) (nth v (PWProlMap VD CalcQHh vmap fvd cvd NV) []) = if (vmap v =? -1)%Z then [] else [vmap v]).
  Proof.
    intros NV uc VOK. unfold matvec, PWProlMap. rewrite map_map. split.
    - apply map_ext. intros v. destruct (vmap v =? -1)%Z; [reflexivity|]. unfold row_times. cbn [fold_left fst snd]. ag (lawX B L).
    - intros v Hv. rewrite nth_map_seq by auto. destruct (Z.eqb_spec (vmap v) (-1)); [reflexivity|]. cbn [map fst]. rewrite Z2Nat.id by (specialize (VOK v); lia). reflexivity.
  Qed.
End C73.
Print Assumptions C73_smoothed_rows.
Print Assumptions C73_kernel_preserved.
Print Assumptions C73_improvement.
Print Assumptions C73_auxiliary_rows.
Print Assumptions C73_piecewise.

(** The weight a row is compared with: the largest weight of an edge at the vertex. *)
Theorem C73_diagonal_weight : forall (fedge : nat -> nat * nat) (awt : nat -> Q) (NV NE V : nat), V < NV ->
  (forall e, e < NE -> fst (fedge e) < NV /\ snd (fedge e) < NV) ->
  let d := nth V (diag_weights fedge awt (fun l => l) NV NE) 0%Q in
  (0 <= d)%Q /\ (forall e, e < NE -> fst (fedge e) = V \/ snd (fedge e) = V -> (awt e <= d)%Q) /\
  ((d == 0)%Q \/ exists e, e < NE /\ (fst (fedge e) = V \/ snd (fedge e) = V) /\ (d == awt e)%Q).
Proof.
  intros fedge awt NV NE V HV HE. cbv zeta. unfold diag_weights.
  match goal with |- context [fold_left ?F0 _ _] => set (F := F0) end.
  enough (G : forall n, n <= NE -> let w := fold_left F (seq 0 n) (repeat 0%Q NV) in length w = NV /\
    forall v, v < NV -> (0 <= nth v w 0)%Q /\ (forall e, e < n -> fst (fedge e) = v \/ snd (fedge e) = v -> (awt e <= nth v w 0)%Q) /\
      ((nth v w 0 == 0)%Q \/ exists e, e < n /\ (fst (fedge e) = v \/ snd (fedge e) = v) /\ (nth v w 0 == awt e)%Q)).
  { destruct (G NE (le_n _)) as [_ H]. apply H. auto. }
  induction n as [|n IH]; intros Hn.
  { cbn. split; [apply repeat_length|]. intros v Hv. rewrite nth_repeat. split; [lra|]. split; [intros; lia|]. left. reflexivity. }
  cbv zeta in *. rewrite seq_S, fold_left_app. cbn [fold_left Nat.add]. destruct IH as [HL IH]; [lia|].
  set (w := fold_left F (seq 0 n) (repeat 0%Q NV)) in *. destruct (HE n) as [E1 E2]; [lia|].
  assert (STEP : forall (w : list Q) i, length w = NV -> i < NV -> forall v,
     nth v (upd w i (Qmax (nth i w 0%Q) (awt n))) 0%Q = if v =? i then Qmax (nth v w 0%Q) (awt n) else nth v w 0%Q).
  { intros w0 i L0 Hi v. destruct (Nat.eqb_spec v i) as [->|]; [rewrite nth_upd_eq by lia; auto|rewrite nth_upd_neq by auto; auto]. }
  unfold F. split; [rewrite !upd_length; auto|]. intros v Hv. rewrite STEP by (rewrite ?upd_length; auto). rewrite STEP by auto.
  destruct (IH v Hv) as (I1 & I2 & I3). set (q := nth v w 0%Q) in *.
  assert (QM : forall q : Q, (0 <= q)%Q -> (0 <= Qmax q (awt n))%Q /\ (q <= Qmax q (awt n))%Q /\ (awt n <= Qmax q (awt n))%Q /\ ((Qmax q (awt n) == q)%Q \/ (Qmax q (awt n) == awt n)%Q)).
  { intros q0 H0. pose proof (Q.le_max_l q0 (awt n)). pose proof (Q.le_max_r q0 (awt n)). repeat split; auto; [lra|].
    destruct (Qlt_le_dec q0 (awt n)); [right; apply Q.max_r; lra|left; apply Q.max_l; auto]. }
  assert (CH : forall r, (0 <= r)%Q /\ (q <= r)%Q /\ ((r == q)%Q \/ (r == awt n)%Q) -> (fst (fedge n) = v \/ snd (fedge n) = v -> (awt n <= r)%Q) ->
     ((r == q)%Q \/ (fst (fedge n) = v \/ snd (fedge n) = v)) ->
     (0 <= r)%Q /\ (forall e, e < S n -> fst (fedge e) = v \/ snd (fedge e) = v -> (awt e <= r)%Q) /\
      ((r == 0)%Q \/ exists e, e < S n /\ (fst (fedge e) = v \/ snd (fedge e) = v) /\ (r == awt e)%Q)).
  { intros r (H1 & H2 & H3) H4 H5. split; [auto|]. split.
    - intros e He Hv2. destruct (Nat.eq_dec e n) as [->|]; [auto|]. eapply Qle_trans; [apply I2; auto; lia|auto].
    - assert (OLD : (r == q)%Q -> (r == 0)%Q \/ exists e, e < S n /\ (fst (fedge e) = v \/ snd (fedge e) = v) /\ (r == awt e)%Q).
      { intros Hr. destruct I3 as [I3|(e & He & Hv2 & Hq)]; [left; rewrite Hr; auto|right]. exists e. repeat split; [lia|auto|rewrite Hr; auto]. }
      destruct H3 as [H3|H3]; [auto|]. destruct H5 as [H5|H5]; [auto|]. right. exists n. repeat split; auto. }
  destruct (Nat.eqb_spec v (snd (fedge n))) as [Es|Es]; destruct (Nat.eqb_spec v (fst (fedge n))) as [Ef|Ef].
  - destruct (QM q I1) as (A1 & A2 & A3 & A4). destruct (QM (Qmax q (awt n)) A1) as (B1 & B2 & B3 & B4). apply CH; auto. repeat split; auto; [lra|].
    destruct B4 as [B4|B4]; auto. destruct A4 as [A4|A4]; [left|right]; rewrite B4; auto.
  - destruct (QM q I1) as (A1 & A2 & A3 & A4). apply CH; auto.
  - destruct (QM q I1) as (A1 & A2 & A3 & A4). apply CH; auto.
  - apply CH; [repeat split; auto; [lra|left; reflexivity]|intros [H|H]; congruence|left; reflexivity].
Qed.
Print Assumptions C73_diagonal_weight.

(** Scalar energies with non-negative weights: the number that is inverted for a smoothed row is positive. *)
Theorem C73_scalar_diagonal_positive : forall (vmap : nat -> Z) (fecon : nat -> list (nat * nat)) (awt : nat -> Q) (ceqc : Z -> nat) (leq : nat -> nat -> bool)
    (maxr : Z) (mpf dg : Q) (eqc V : nat) (ris : list Z),
  (forall e, 0 <= awt e)%Q -> (0 <= mpf)%Q ->
  ProlSpec.columns_ok vmap fecon awt ceqc leq maxr mpf dg eqc V ris -> length ris <> 1 ->
  (0 < @ProlSpec.aux_diag QcBlk vmap fecon Qcmult unit (fun _ _ => (Q2Qc 1, Q2Qc 1)) (fun _ => tt) (fun e => Q2Qc (awt e)) V ris)%Qc.
Proof.
  intros vmap fecon awt ceqc leq maxr mpf dg eqc V ris HA Hm C HL.
  assert (EX : exists c, In c ris /\ c <> vmap V).
  { destruct C as [C1 C2 _ _ _ _ _]. destruct ris as [|a [|b l]]; [destruct C2|simpl in HL; lia|].
    inversion C1; subst. rewrite Forall_forall in H2. assert (a < b)%Z by (apply H2; simpl; auto).
    destruct (Z.eq_dec a (vmap V)); [exists b|exists a]; simpl; split; auto; lia. }
  destruct EX as (c & Hc & Hn). destruct (co_strong _ _ _ _ _ _ _ _ _ _ _ C c Hc Hn) as (_ & S2 & _).
  assert (NW : forall c, (0 <= weight_to vmap fecon awt V c)%Q).
  { intros c0. apply qsum_nonneg. intros q Hq. apply in_map_iff in Hq. destruct Hq as (p & <- & _). auto. }
  assert (WP : (0 < weight_to vmap fecon awt V c)%Q).
  { destruct S2 as [S2|[S2|(e & S2)]]; [|exfalso; lra|specialize (HA e); exfalso; lra].
    eapply Qle_lt_trans; [|exact S2]. pose proof (NW c). pose proof (NW (vmap V)).
    assert (0 <= (1 # 5) * weight_to vmap fecon awt V (vmap V) + weight_to vmap fecon awt V c)%Q by lra.
    rewrite <- (Qmult_0_l 0). apply Qmult_le_compat_nonneg; split; auto; lra. }
  assert (PE : exists p, In p (fecon V) /\ vmap (fst p) = c /\ (0 < awt (snd p))%Q).
  { unfold weight_to in WP. clear - WP HA. induction (fecon V) as [|p l IH]; [unfold qsum in WP; simpl in WP; lra|]. cbn [filter] in WP.
    destruct (Z.eqb_spec (vmap (fst p)) c) as [E|E].
    - destruct (Qlt_le_dec 0 (awt (snd p))) as [H|H]; [exists p; simpl; auto|]. cbn [map] in WP. unfold qsum in WP. cbn [fold_right] in WP.
      destruct IH as (p0 & H1 & H2); [unfold qsum; lra|]. exists p0. simpl; auto.
    - destruct (IH WP) as (p0 & H1 & H2). exists p0. simpl; auto. }
  destruct PE as (p & Hp & Ep & Wp).
  assert (HU : In p (ProlSpec.used_edges vmap fecon V ris)).
  { unfold ProlSpec.used_edges. apply filter_In. split; auto. rewrite Ep. apply andb_true_intro. split; [|apply existsb_Z; auto].
    apply negb_true_iff, Z.eqb_neq. destruct (co_cand _ _ _ _ _ _ _ _ _ _ _ C c Hc) as [H|(w & e & _ & _ & H & _)]; [contradiction|auto]. }
  unfold ProlSpec.aux_diag.
  assert (EQ : forall (l : list (nat * nat)) (s : Qc), (fold_left (fun s p => Qcplus s (@diag_term QcBlk Qcmult unit (fun _ _ => (Q2Qc 1, Q2Qc 1)) (fun _ => tt) (fun e => Q2Qc (awt e)) V p)) l s == s + qsum (map (fun p => awt (snd p)) l))%Q).
  { induction l as [|q l IH]; intros s; cbn [fold_left map]; [unfold qsum; simpl; lra|].
    etransitivity; [apply IH|]. unfold diag_term, Qs. cbn [QcBlk mtr fst snd qsum fold_right].
    transitivity ((s + awt (snd q)) + qsum (map (fun p0 : nat * nat => awt (snd p0)) l))%Q; [|unfold qsum; simpl; lra].
    apply Qplus_comp; [|reflexivity]. cbn [this Qcplus Q2Qc Qcmult]. rewrite !Qred_correct. rewrite ?Qmult_1_l, ?Qmult_1_r, ?Qred_correct. lra. }
  unfold Qclt. change (this (0 : Qc)) with (0%Q).
  change (@madd QcBlk) with Qcplus. change (@m0 QcBlk) with (Q2Qc 0).
  eapply Qlt_le_trans; [|apply Qle_lteq; right; symmetry; apply EQ]. change (this (Q2Qc 0)) with 0%Q.
  assert (PS : (0 < qsum (map (fun p => awt (snd p)) (ProlSpec.used_edges vmap fecon V ris)))%Q).
  { clear - HU Wp HA. induction (ProlSpec.used_edges vmap fecon V ris) as [|q l IH]; [destruct HU|]. cbn [map]. unfold qsum in *. cbn [fold_right].
    assert (0 <= qsum (map (fun p => awt (snd p)) l))%Q by (apply qsum_nonneg; intros x Hx; apply in_map_iff in Hx; destruct Hx as (y & <- & _); auto). unfold qsum in *.
    destruct HU as [->|HU]; [lra|]. specialize (IH HU). specialize (HA (snd q)). lra. }
  lra.
Qed.
Print Assumptions C73_scalar_diagonal_positive.

(** *** examples: path of six vertices, aggregates {0,1}, {2,3}, {4}, vertex 5 on the Dirichlet boundary *)
Fixpoint insw (a : Z * Q) (l : list (Z * Q)) : list (Z * Q) :=
  match l with [] => [a] | b :: l' => if Qle_bool (snd b) (snd a) then a :: l else b :: insw a l' end.
Definition ex_sortw (l : list (Z * Q)) : list (Z * Q) := fold_right insw [] l.
Fixpoint insz (a : Z) (l : list Z) : list Z :=
  match l with [] => [a] | b :: l' => if (a <=? b)%Z then a :: l else b :: insz a l' end.
Definition ex_sortz (l : list Z) : list Z := fold_right insz [] l.
Lemma ex_sortw_ok : sortw_ok ex_sortw.
Proof.
  assert (P : forall a l, Permutation (a :: l) (insw a l)).
  { intros a. induction l as [|b l IH]; cbn [insw]; auto. destruct (Qle_bool (snd b) (snd a)); auto. eapply perm_trans; [apply perm_swap|]. auto. }
  assert (S : forall a l, StronglySorted heavier l -> StronglySorted heavier (insw a l)).
  { intros a. induction 1 as [|b l H IH F]; cbn [insw]; [repeat constructor|]. destruct (Qle_bool (snd b) (snd a)) eqn:E.
    - apply Qle_bool_iff in E. constructor; [constructor; auto|]. constructor; [exact E|]. rewrite Forall_forall in *. intros x Hx. specialize (F x Hx). unfold heavier in *. lra.
    - constructor; auto. rewrite Forall_forall in *. intros x Hx. apply (Permutation_in _ (Permutation_sym (P a l))) in Hx. destruct Hx as [<-|Hx]; auto.
      unfold heavier. destruct (Qlt_le_dec (snd a) (snd b)) as [H1|H1]; [lra|]. apply Qle_bool_iff in H1. congruence. }
  intros l. induction l as [|a l [IP IS]]; cbn [ex_sortw fold_right]; [repeat constructor|]. split; [|apply S; auto].
  eapply perm_trans; [apply perm_skip, IP|]. apply P.
Qed.
Lemma ex_sortz_ok : sortz_ok ex_sortz.
Proof.
  assert (P : forall a l, Permutation (a :: l) (insz a l)).
  { intros a. induction l as [|b l IH]; cbn [insz]; auto. destruct (a <=? b)%Z; auto. eapply perm_trans; [apply perm_swap|]. auto. }
  assert (S : forall a l, StronglySorted Z.le l -> StronglySorted Z.le (insz a l)).
  { intros a. induction 1 as [|b l H IH F]; cbn [insz]; [repeat constructor|]. destruct (Z.leb_spec a b).
    - constructor; [constructor; auto|]. constructor; [auto|]. rewrite Forall_forall in *. intros x Hx. specialize (F x Hx). lia.
    - constructor; auto. rewrite Forall_forall in *. intros x Hx. apply (Permutation_in _ (Permutation_sym (P a l))) in Hx. destruct Hx as [<-|Hx]; [lia|auto]. }
  intros l. induction l as [|a l [IP IS]]; cbn [ex_sortz fold_right]; [repeat constructor|]. split; [|apply S; auto].
  eapply perm_trans; [apply perm_skip, IP|]. apply P.
Qed.

Definition px_vmap (v : nat) : Z := nth v [0; 0; 1; 1; 2; (-1)]%Z (-1)%Z.
Definition px_fecon (v : nat) : list (nat * nat) := nth v [[(1, 0)]; [(0, 0); (2, 1)]; [(1, 1); (3, 2)]; [(2, 2); (4, 3)]; [(3, 3); (5, 4)]; [(4, 4)]] [].
Definition px_fedge (e : nat) : nat * nat := nth e [(0, 1); (1, 2); (2, 3); (3, 4); (4, 5)] (0, 0).
Definition px_awt (e : nat) : Q := nth e [2; 1; 3; 1; 1]%Q 1%Q.
Lemma px_mesh : mesh_ok px_vmap px_fecon px_fedge 6.
Proof.
  split.
  - intros v. unfold px_vmap. do 6 (destruct v as [|v]; [simpl; lia|]). simpl. destruct v; simpl; lia.
  - intros V HV. split.
    + intros w e Hi. do 6 (destruct V as [|V]; [simpl in Hi; repeat (destruct Hi as [Hi|Hi]; [inversion Hi; subst; cbn; repeat split; auto; lia|]); destruct Hi|]). lia.
    + do 6 (destruct V as [|V]; [cbn; repeat constructor|]). lia.
Qed.
Definition px_em (e : nat) : Qc := Q2Qc (px_awt e).
Definition px_A : smat (M QcBlk) :=
  map (map (fun p : nat * Z => (fst p, Q2Qc (inject_Z (snd p)))))
  [[(0, 2%Z); (1, (-2)%Z)]; [(0, (-2)%Z); (1, 3%Z); (2, (-1)%Z)]; [(1, (-1)%Z); (2, 4%Z); (3, (-3)%Z)]; [(2, (-3)%Z); (3, 4%Z); (4, (-1)%Z)]; [(3, (-1)%Z); (4, 2%Z); (5, (-1)%Z)]; [(4, (-1)%Z); (5, 1%Z)]].
Lemma px_fmat : @fmat_ok QcBlk 6 px_A.
Proof.
  intros V HV. do 6 (destruct V as [|V]; [split; [cbn; repeat constructor|split; [eexists; cbn; auto; fail|intros p Hp; cbn in Hp; repeat (destruct Hp as [<-|Hp]; [cbn; lia|]); destruct Hp]]|]). lia.
Qed.
Definition px_opts (maxr : Z) (aux : bool) : opts (B := QcBlk) := @mkOpts QcBlk maxr 3 (1 # 10) (Q2Qc (1 # 2)) aux 0.
Definition px_run (maxr : Z) (aux : bool) :=
  SemiAuxSProlMap (B := QcBlk) Qcmult Qcmult unit (fun _ _ => (Q2Qc 1, Q2Qc 1)) (fun _ _ => Q2Qc 1) px_vmap px_fecon px_fedge (fun _ => tt) (fun _ => tt) px_em px_awt
    (fun _ => 0) (fun _ _ => true) ex_sortw ex_sortz (px_opts maxr aux) Qcinv (fun _ => Q2Qc 1) Qcinv (fun l => l) (fun _ => true) (fun _ => 0) (Some px_A) 6 5.
Definition px_show (r : res (list (list (Z * Qc)))) : res (list (list (Z * Q))) :=
  match r with Ret l => Ret (map (map (fun p => (fst p, this (snd p)))) l) | Err e => Err e end.
(** rows next to the boundary use the auxiliary matrix, vertex 4 has no partner, vertex 5 no row; every row sums to one *)
Example C73_ex_rows :
  px_show (px_run 3 false) = Ret [[(0%Z, 1%Q)]; [(0%Z, (5 # 6)%Q); (1%Z, (1 # 6)%Q)]; [(0%Z, (1 # 8)%Q); (1%Z, (7 # 8)%Q)]; [(1%Z, (7 # 8)%Q); (2%Z, (1 # 8)%Q)]; [(2%Z, 1%Q)]; []] /\
  px_show (px_run 3 true) = px_show (px_run 3 false).
Proof. split; vm_compute; reflexivity. Qed.
Example C73_ex_hyps : block_ops (B := QcBlk) Qcmult Qcmult (Q2Qc 1) /\ sortw_ok ex_sortw /\ sortz_ok ex_sortz /\ mesh_ok px_vmap px_fecon px_fedge 6 /\
  @fmat_ok QcBlk 6 px_A /\ (1 <= o_maxr (px_opts 3 false))%Z /\ mapped px_vmap 2 /\ has_partner px_vmap px_fecon 2.
Proof.
  split; [constructor; cbn; intros; ring|]. split; [apply ex_sortw_ok|]. split; [apply ex_sortz_ok|]. split; [apply px_mesh|]. split; [apply px_fmat|].
  split; [cbn; lia|]. split; [unfold mapped; cbn; lia|]. exists 3, 2. cbn. auto.
Qed.
(** the row limit has to be positive: with sp_max_per_row = 0 the loop over the candidates runs off the end of the row *)
Theorem C73_row_limit_refuted : exists maxr : Z, (maxr <= 0)%Z /\ px_run maxr true = Err OutOfBounds.
Proof. exists 0%Z. split; [lia|]. vm_compute. reflexivity. Qed.
Print Assumptions C73_row_limit_refuted.
(** improvement with a column of A*P outside of the row: the constant vector stays reproduced *)
Example C73_ex_improve :
  let one := fun _ : Z => Q2Qc 1 in
  exists row', improve_row (B := QcBlk) Qcmult Qcmult unit (fun _ _ k m => Qcmult k m) px_vmap (fun _ => tt) (Q2Qc (1 # 2)) Qcinv px_A
    [[]; [(0%Z, Q2Qc 1); (1%Z, Q2Qc (-2)); (2%Z, Q2Qc 1)]] 1 [(0%Z, Q2Qc (5 # 6)); (1%Z, Q2Qc (1 # 6))] = Ret row' /\ map fst row' = [0; 1]%Z /\ this (row_apply (B := QcBlk) row' one) = 1%Q.
Proof. eexists. split; [reflexivity|]. split; [reflexivity|]. vm_compute. reflexivity. Qed.
