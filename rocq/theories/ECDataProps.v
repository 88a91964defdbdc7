(** C77: vertex and edge data of the coarse mesh, elasticity energy. *)
From Coq Require Import Ring Field QArith Qcanon.
From Verif Require Import Base SparseModel AuxSpec CDataModel CDataSpec CDataProofs CMapProps EnergyModel EnergySpec EnergyProofs EnergyProps
  ECDataModel ECDataSpec ECDataProofs.
Local Open Scope nat_scope.

Section P.
  Context {F : Fld} (L : FldLaws F).
  Local Notation K := (FK F).
  Local Open Scope fld_scope.
  Lemma fth'' : field_theory (@f0 F) f1 fadd fmul fsub fopp fdiv finv eq. Proof. exact (law_field _ L). Qed.
  Add Field KF4 : fth''.
  Local Notation mat := (@mat F). Local Notation vdata := (@vdata F). Local Notation fvec := (@fvec F).
  Variable d3 : bool.
  Local Notation n := (DPV d3).

  Lemma combine_nth' {A C} (l : list A) (l' : list C) k x y : length l = length l' -> k < length l -> nth k (combine l l') (x, y) = (nth k l x, nth k l' y).
  Proof. intros. now apply combine_nth. Qed.
  Lemma fsumf_ext {A} (f g : A -> K) l : (forall a, In a l -> f a = g a) -> fsumf f l = fsumf g l.
  Proof. apply gsum_ext. Qed.
  Lemma Qto_place (v v' w : vdata) : pos v = pos v' -> rsc v = rsc v' -> Qto d3 v w = Qto d3 v' w.
  Proof. intros H1 H2. unfold Qto, GetQiToj. now rewrite H1, H2. Qed.
  Lemma mid_place (v v' w w' : vdata) : pos v = pos v' -> rsc v = rsc v' -> pos w = pos w' -> rsc w = rsc w' -> CalcMPData v w = CalcMPData v' w'.
  Proof. intros H1 H2 H3 H4. unfold CalcMPData. now rewrite H1, H2, H3, H4. Qed.

  (** === C77, edges: for any coarse vertex data whose positions and scalings are cd, the coarse edge matrices together with the
      additions to the coarse vertex weights give a coarse vector the energy its rigid body extension has on the fine edges the process
      is master of; for edges with one unmapped end, the other end must sit at its coarse vertex.  Positions and scalings of the coarse vertices
      do not change. *)
  Theorem C77_edges_partial : forall (G : mat) (NV NCV NCE : nat) (edges cedges : list (nat * nat)) (vmap emap : list Z)
      (eqe : list (bool * list nat)) (fvd cvd : list vdata) (fed : list mat),
    let fd v := nth v fvd zero_vd in let cd A := nth A cvd zero_vd in
    maps_fit NV NCV NCE edges cedges vmap emap ->
    length fvd = NV -> length cvd = NCV -> length fed = length edges -> classes_in (length edges) eqe ->
    (forall e, e < length edges -> symm n (nth e fed mzero)) ->
    (forall e a b, nth_error edges e = Some (a, b) -> scalings_ok (rsc (fd a)) (rsc (fd b))) ->
    (forall ce A C, nth_error cedges ce = Some (A, C) -> A < NCV /\ C < NCV /\ scalings_ok (rsc (cd A)) (rsc (cd C))) ->
    (forall e a b A, nth_error edges e = Some (a, b) ->
      (target vmap a = Some A /\ target vmap b = None -> same_place (cd A) (fd a)) /\
      (target vmap b = Some A /\ target vmap a = None -> same_place (cd A) (fd b))) ->
    exists ced cvd', EED_map_data d3 G vmap emap (fun x => x) NCV NCE eqe edges cedges fvd cvd fed = Ret (ced, cvd') /\
      length ced = NCE /\ length cvd' = NCV /\
      (forall A, A < NCV -> pos (nth A cvd' zero_vd) = pos (cd A) /\ rsc (nth A cvd' zero_vd) = rsc (cd A)) /\
      forall U : nat -> fvec,
        fsumf (fun ce => match nth_error cedges ce with
                         | Some (A, C) => edge_quad d3 (nth ce ced mzero) (cd A) (cd C) (U A) (U C) | None => f0 end) (seq 0 NCE)
        + fsumf (fun A => quad d3 (wt (nth A cvd' zero_vd)) (U A)) (seq 0 NCV)
        = fsumf (fun A => quad d3 (wt (cd A)) (U A)) (seq 0 NCV)
        + fsumf (fun e => match nth_error edges e with
                          | Some (a, b) => edge_quad d3 (nth e fed mzero) (fd a) (fd b) (extend d3 vmap cd fd U a) (extend d3 vmap cd fd U b)
                          | None => f0 end) (mastered eqe).
  Proof.
    intros G NV NCV NCE edges cedges vmap emap eqe fvd cvd fed fd cd MF Hfl Hcl Hel Ce HE Hsf Hsc Hgr.
    destruct (eed_ok L d3 G vmap emap NV NCV NCE edges cedges fd cd fvd cvd (fun e => nth e fed mzero) fed MF) with (eqe := eqe) as (st & E & [L1 L2] & P); auto.
    unfold EED_map_data. rewrite E. cbn [bind]. rewrite (add_all_ok NCV) by auto. cbn [bind].
    assert (N : forall A, A < NCV -> nth A (map (fun xa : vdata * mat => mkVD (pos (fst xa)) (madd (wt (fst xa)) (snd xa)) (rsc (fst xa))) (combine cvd (snd st))) zero_vd
                                   = mkVD (pos (cd A)) (madd (wt (cd A)) (nth A (snd st) mzero)) (rsc (cd A))).
    { intros A HA. set (f := fun xa : vdata * mat => _). rewrite (nth_indep _ zero_vd (f (zero_vd, mzero))).
      - etransitivity; [apply (map_nth f)|]. rewrite combine_nth' by lia. reflexivity.
      - rewrite map_length, combine_length. lia. }
    eexists _, _. split; [reflexivity|]. split; [auto|]. split; [rewrite map_length, combine_length; lia|].
    split. { intros A HA. rewrite (N A HA). auto. }
    intros U. specialize (P U). unfold ePhi in P.
    transitivity (fsumf (fun A => quad d3 (wt (cd A)) (U A)) (seq 0 NCV) +
       (gsum f0 fadd (fun ce => quad d3 (nth ce (fst st) mzero) (cjump d3 cedges cd U ce)) (seq 0 NCE)
        + gsum f0 fadd (fun A => quad d3 (nth A (snd st) mzero) (U A)) (seq 0 NCV))); [|rewrite P; reflexivity].
    rewrite fa by auto. rewrite (fc L (fsumf _ _) (gsum _ _ _ _)). rewrite <- fa by auto. f_equal.
    - apply gsum_ext. intros ce _. unfold cjump, edge_quad. destruct (nth_error cedges ce) as [[A C]|]; [reflexivity|]. symmetry. apply (quad_vzero L).
    - etransitivity; [|apply (gsum_add _ _ (fc L) (fa L) (fz L))]. apply gsum_ext. intros A HA. apply in_seq in HA. rewrite N by lia. cbn [wt]. apply (quad_madd L).
  Qed.

  (** === C77: on one process, with the lowest numbered vertex of every agglomerate as its centre and unmapped vertices connected only to
      vertices at the place of the centre: the coarse mesh gives every coarse vector the energy that its rigid body extension has on the fine
      mesh. *)
  Theorem C77_energy_partial : forall (G : mat) (NV NCV NCE : nat) (edges cedges : list (nat * nat)) (vmap emap : list Z)
      (eqv eqe eqcv : list (bool * list nat)) (ctr : nat -> bool) (fvd : list vdata) (fed : list mat),
    let fd v := nth v fvd zero_vd in
    maps_fit NV NCV NCE edges cedges vmap emap ->
    length fvd = NV -> length fed = length edges ->
    (* one process *)
    Permutation (mastered eqv) (seq 0 NV) -> Permutation (mastered eqe) (seq 0 (length edges)) ->
    Permutation (concat (map snd eqcv)) (seq 0 NCV) -> (forall q, In q eqcv -> fst q = true) ->
    classes_in (length edges) eqe ->
    (* data *)
    (forall e, e < length edges -> symm n (nth e fed mzero)) -> (forall v, v < NV -> symm n (wt (fd v))) ->
    (forall v w, v < NV -> w < NV -> scalings_ok (rsc (fd v)) (rsc (fd w))) ->
    (forall ce A C, nth_error cedges ce = Some (A, C) -> A < NCV /\ C < NCV) ->
    (* agglomerates *)
    (forall A, A < NCV -> exists v, target vmap v = Some A) ->
    (forall v A, target vmap v = Some A -> (ctr v = true <-> forall w, w < v -> target vmap w <> Some A)) ->
    (forall e a b A c, nth_error edges e = Some (a, b) -> target vmap c = Some A -> ctr c = true ->
      (target vmap a = Some A /\ target vmap b = None -> same_place (fd c) (fd a)) /\
      (target vmap b = Some A /\ target vmap a = None -> same_place (fd c) (fd b))) ->
    exists cvd ced cvd', EVD_map_data d3 G vmap NCV eqcv eqv ctr fvd = Ret cvd /\
      EED_map_data d3 G vmap emap (fun x => x) NCV NCE eqe edges cedges fvd cvd fed = Ret (ced, cvd') /\
      length ced = NCE /\ length cvd' = NCV /\
      let cd A := nth A cvd' zero_vd in
      (forall c A, target vmap c = Some A -> ctr c = true -> pos (cd A) = pos (fd c) /\ rsc (cd A) = rsc (fd c)) /\
      forall U : nat -> fvec,
        fsumf (fun ce => match nth_error cedges ce with
                         | Some (A, C) => edge_quad d3 (nth ce ced mzero) (cd A) (cd C) (U A) (U C) | None => f0 end) (seq 0 NCE)
        + fsumf (fun A => quad d3 (wt (cd A)) (U A)) (seq 0 NCV)
        = fsumf (fun e => match nth_error edges e with
                          | Some (a, b) => edge_quad d3 (nth e fed mzero) (fd a) (fd b) (extend d3 vmap cd fd U a) (extend d3 vmap cd fd U b)
                          | None => f0 end) (seq 0 (length edges))
        + fsumf (fun v => quad d3 (wt (fd v)) (extend d3 vmap cd fd U v)) (seq 0 NV).
  Proof.
    intros G NV NCV NCE edges cedges vmap emap eqv eqe eqcv ctr fvd fed fd MF Hfl Hel PV PE PC MC Ce HE HW Hs Hce Hne Hctr Hgr.
    pose proof MF as (Hlv & Hle & Hlc & Hv & He & Hf).
    destruct (C76_reverse_map NCV vmap Hv) as (aggs & Eg & Lg & Ng).
    set (first := fun A => hd 0 (filter (fun v => hits (target vmap v) A) (seq 0 (length vmap)))).
    assert (Hfirst : forall A, A < NCV -> nth_error (filter (fun v => hits (target vmap v) A) (seq 0 (length vmap))) 0 = Some (first A) /\
       target vmap (first A) = Some A /\ first A < NV /\ forall w, w < first A -> target vmap w <> Some A).
    { intros A HA. destruct (Hne A HA) as (v & Tv).
      assert (Iv : In v (filter (fun v => hits (target vmap v) A) (seq 0 (length vmap)))).
      { apply filter_In. split; [|unfold hits; rewrite Tv; apply Nat.eqb_refl]. apply in_seq. apply target_some in Tv. assert (v < length vmap) by (apply nth_error_Some; congruence). lia. }
      assert (HT : forall w, hits (target vmap w) A = true <-> target vmap w = Some A).
      { intros w. unfold hits. destruct (target vmap w) as [j|]; [|split; discriminate]. rewrite Nat.eqb_eq. split; congruence. }
      unfold first. remember (filter (fun v => hits (target vmap v) A) (seq 0 (length vmap))) as l eqn:El. destruct l as [|x l]; [destruct Iv|].
      split; [reflexivity|]. cbn [hd].
      assert (Ix : In x (filter (fun v => hits (target vmap v) A) (seq 0 (length vmap)))) by (rewrite <- El; now left).
      apply filter_In in Ix. destruct Ix as [I1 I2]. apply in_seq in I1. split; [now apply HT|]. split; [lia|].
      intros w Hw T. assert (SS : StronglySorted lt (x :: l)).
      { rewrite El. assert (Sq : forall m s, StronglySorted lt (seq s m)).
        { induction m as [|m IH]; intros s; cbn; constructor; auto. apply Forall_forall. intros y Hy. apply in_seq in Hy. lia. }
        assert (Sf : forall (p : nat -> bool) l, StronglySorted lt l -> StronglySorted lt (filter p l)).
        { intros p l0 H. induction H as [|y l0 H IH Fa]; [constructor|]. cbn. destruct (p y); [|auto]. constructor; auto.
          apply Forall_forall. intros z Hz. apply filter_In in Hz. rewrite Forall_forall in Fa. now apply Fa. }
        auto. }
      assert (Iw : In w (x :: l)). { rewrite El. apply filter_In. split; [apply in_seq; lia|now apply HT]. }
      inversion SS as [|? ? _ Fa]; subst. destruct Iw as [->|Iw]; [lia|]. rewrite Forall_forall in Fa. specialize (Fa w Iw). lia. }
    set (D := fun A => fd (first A)).
    destruct (evd_init_ok vmap NV NCV fd fvd Hfl (fun v _ => eq_refl) first) with (aggs := aggs) (mast := fun _ : nat => true) (eqcv := eqcv) as (c0 & E0 & L0 & N0).
    { intros A HA. split; apply (Hfirst A HA). }
    { intros A HA. rewrite (Ng A HA). split; [apply nth_error_Some; lia|apply (Hfirst A HA)]. }
    { intros q A Hq HA. split; [|symmetry; now apply MC].
      assert (I : In A (seq 0 NCV)). { apply (Permutation_in _ PC). apply in_concat. exists (snd q). split; [now apply in_map|auto]. } apply in_seq in I. lia. }
    { intros A HA. assert (I : In A (concat (map snd eqcv))). { apply (Permutation_in _ (Permutation_sym PC)). apply in_seq. lia. }
      apply in_concat in I. destruct I as (l & Hl & HA'). apply in_map_iff in Hl. destruct Hl as (q & <- & Hq). eauto. }
    assert (Nz : forall v, v < NV -> rsc (fd v) <> f0). { intros v H. destruct (Hs v v H H) as (_ & _ & Q & _). exact Q. }
    assert (St : forall U, exists c, foldM (evd_add d3 G vmap fvd ctr) (mastered eqv) c0 = Ret c /\ vinv NCV D c /\
      vPhi d3 NCV U c = vPhi d3 NCV U c0 + fsumf (vdl d3 vmap fd ctr D U) (mastered eqv)).
    { intros U. apply (accum _ _ (fc L) (fa L) (fz L) (vinv NCV D)).
      - intros v c Hin Hc. apply (evd_add_step L d3 G vmap NV NCV fd fvd); auto.
        assert (I : In v (seq 0 NV)) by (apply (Permutation_in _ PV); auto). apply in_seq in I. lia.
      - split; [auto|]. intros A HA. rewrite (N0 A HA). auto. }
    destruct (St (fun _ _ => f0)) as (cvd & Ev & [Lcv Icv] & _).
    assert (PVV : forall U, vPhi d3 NCV U cvd = vPhi d3 NCV U c0 + fsumf (vdl d3 vmap fd ctr D U) (mastered eqv)).
    { intros U. destruct (St U) as (c' & E' & _ & P). rewrite Ev in E'. injection E' as <-. exact P. }
    destruct (C77_edges_partial G NV NCV NCE edges cedges vmap emap eqe fvd cvd fed MF Hfl Lcv Hel Ce HE) as (ced & cvd' & Ee & Lce & Lcv' & Icv' & P).
    { intros e a b H. destruct (Hf e a b H) as (? & ? & _). now apply Hs. }
    { intros ce A C H. destruct (Hce ce A C H) as [H1 H2]. split; [auto|]. split; [auto|]. destruct (Icv A H1) as [_ ->]. destruct (Icv C H2) as [_ ->].
      apply Hs; apply (Hfirst _); auto. }
    { intros e a b A H.
      assert (Hsp : forall x, target vmap x = Some A -> A < NCV /\ ctr (first A) = true /\ target vmap (first A) = Some A).
      { intros x T. assert (HA : A < NCV). { apply target_some in T. apply nth_error_In in T. destruct (Hv _ T); lia. }
        destruct (Hfirst A HA) as (_ & F1 & F2 & F3). split; [auto|]. split; [|auto]. apply (Hctr _ A); auto. }
      split; intros [Ta Tb].
      - destruct (Hsp a Ta) as (HA & C1 & C2). destruct (Icv A HA) as [Ip Ir]. destruct (Hgr e a b A (first A) H C2 C1) as [[G1 G2] _]; auto.
        split; [intros i; rewrite Ip; apply G1|rewrite Ir; apply G2].
      - destruct (Hsp b Ta) as (HA & C1 & C2). destruct (Icv A HA) as [Ip Ir]. destruct (Hgr e a b A (first A) H C2 C1) as [_ [G1 G2]]; auto.
        split; [intros i; rewrite Ip; apply G1|rewrite Ir; apply G2]. }
    exists cvd, ced, cvd'. split.
    { unfold EVD_map_data. rewrite Eg. cbn [bind]. rewrite E0. cbn [bind]. rewrite master_mastered'. exact Ev. }
    split; [exact Ee|]. split; [exact Lce|]. split; [exact Lcv'|]. cbv zeta.
    assert (PL : forall A, A < NCV -> pos (nth A cvd' zero_vd) = pos (D A) /\ rsc (nth A cvd' zero_vd) = rsc (D A)).
    { intros A HA. destruct (Icv' A HA) as [-> ->]. now apply Icv. }
    assert (TA : forall v A, target vmap v = Some A -> A < NCV). { intros v A T. apply target_some in T. apply nth_error_In in T. destruct (Hv _ T); lia. }
    assert (CF : forall c A, target vmap c = Some A -> (ctr c = true <-> c = first A)).
    { intros c A T. pose proof (TA c A T) as HA. destruct (Hfirst A HA) as (_ & F1 & F2 & F3). rewrite (Hctr c A T). split.
      - intros H. destruct (lt_eq_lt_dec c (first A)) as [[H'|H']|H']; [exfalso; now apply (F3 c H')|auto|exfalso; now apply (H (first A) H')].
      - intros ->. auto. }
    split. { intros c A T Hc. pose proof (TA c A T) as HA. apply (CF c A T) in Hc. subst c. apply PL; auto. }
    intros U. specialize (P U).
    assert (XE : forall v, extend d3 vmap (fun A => nth A cvd' zero_vd) fd U v = extend d3 vmap (fun A => nth A cvd zero_vd) fd U v).
    { intros v. unfold extend. destruct (target vmap v) as [A|] eqn:T; [|reflexivity]. destruct (Icv' A (TA v A T)) as [H1 H2]. now rewrite (Qto_place _ _ _ H1 H2). }
    transitivity (fsumf (fun e => match nth_error edges e with
                          | Some (a, b) => edge_quad d3 (nth e fed mzero) (fd a) (fd b) (extend d3 vmap (fun A => nth A cvd zero_vd) fd U a) (extend d3 vmap (fun A => nth A cvd zero_vd) fd U b)
                          | None => f0 end) (mastered eqe) + vPhi d3 NCV U cvd).
    { etransitivity; [|etransitivity; [apply P|apply (fc L)]]. f_equal. apply fsumf_ext. intros ce Hce'. destruct (nth_error cedges ce) as [[A C]|] eqn:Ec; [|reflexivity].
      destruct (Hce ce A C Ec) as [HA HC]. destruct (Icv' A HA) as [I1 I2]. destruct (Icv' C HC) as [I3 I4]. unfold edge_quad, jump.
      rewrite (mid_place _ _ _ _ I1 I2 I3 I4). rewrite (Qto_place _ _ _ I1 I2), (Qto_place _ _ _ I3 I4). reflexivity. }
    f_equal.
    - etransitivity; [apply (gsum_perm _ _ (fc L) (fa L) _ _ _ PE)|]. apply gsum_ext. intros e _. destruct (nth_error edges e) as [[a b]|]; [|reflexivity]. now rewrite !XE.
    - rewrite PVV. rewrite (gsum_perm _ _ (fc L) (fa L) _ _ _ PV : fsumf _ (mastered eqv) = _).
      assert (XV : forall v, extend d3 vmap (fun A => nth A cvd' zero_vd) fd U v = extend d3 vmap D fd U v).
      { intros v. unfold extend. destruct (target vmap v) as [A|] eqn:T; [|reflexivity]. destruct (PL A (TA v A T)) as [H1 H2]. now rewrite (Qto_place _ _ _ H1 H2). }
      assert (V0 : vPhi d3 NCV U c0 = fsumf (fun v => match target vmap v with Some A => if ctr v then quad d3 (wt (fd v)) (U A) else f0 | None => f0 end) (seq 0 NV)).
      { transitivity (gsum f0 fadd (fun A => gsum f0 fadd (fun v => if v =? first A then quad d3 (wt (fd v)) (U A) else f0) (seq 0 NV)) (seq 0 NCV)).
        - apply gsum_ext. intros A HA. apply in_seq in HA. rewrite N0 by lia. cbn [wt].
          rewrite (gsum_delta _ _ (fc L) (fz L) (fun v => quad d3 (wt (fd v)) (U A))); [reflexivity|]. destruct (Hfirst A ltac:(lia)) as (_ & _ & F2 & _). lia.
        - etransitivity; [apply (gsum_swap _ _ (fc L) (fa L) (fz L))|]. apply gsum_ext. intros v Hin.
          destruct (target vmap v) as [A|] eqn:T.
          + pose proof (TA v A T) as HA. etransitivity; [apply (gsum_ext _ _ _ (fun A' => if A' =? A then (if ctr v then quad d3 (wt (fd v)) (U A') else f0) else f0))|].
            { intros A' HA'. apply in_seq in HA'. destruct (Hfirst A' ltac:(lia)) as (_ & F1 & _). destruct (Nat.eqb_spec v (first A')) as [Ev'|Ev'].
              - rewrite <- Ev', T in F1. injection F1 as <-. rewrite Nat.eqb_refl. assert (Hc : ctr v = true) by (now apply (CF v A T)). now rewrite Hc.
              - destruct (Nat.eqb_spec A' A) as [->|]; [|reflexivity]. destruct (ctr v) eqn:Hc; [|reflexivity]. exfalso. apply Ev'. now apply (CF v A T). }
            rewrite (gsum_delta _ _ (fc L) (fz L) (fun A' => if ctr v then quad d3 (wt (fd v)) (U A') else f0)); [reflexivity|lia].
          + apply (gsum_zero _ _ (fz L)). intros A HA. apply in_seq in HA. destruct (Nat.eqb_spec v (first A)) as [->|]; [|reflexivity].
            destruct (Hfirst A ltac:(lia)) as (_ & F1 & _). congruence. }
      rewrite V0. etransitivity; [symmetry; apply (gsum_add _ _ (fc L) (fa L) (fz L))|]. apply gsum_ext. intros v Hin. apply in_seq in Hin. rewrite XV.
      unfold vdl, extend. destruct (target vmap v) as [A|] eqn:T.
      + destruct (ctr v) eqn:Hc; [|ring]. apply (CF v A T) in Hc.
        transitivity (quad d3 (wt (fd v)) (U A)); [ring|]. apply quad_ext; [apply meq_refl|]. apply veq_sym.
        eapply veq_trans; [apply mv_ext; [apply (Qself L)|apply veq_refl]|apply (mv_ident L)].
        * apply Nz. lia.
        * unfold D. rewrite <- Hc. split; auto.
      + rewrite (quad_vzero L). ring.
  Qed.
End P.

(** Example: path of four vertices; 0, 1 form an agglomerate with centre 0, 2 is alone, 3 is not mapped. *)
Definition ec_vd (p : list Z) (s : Z) : @vdata QcFld := mkVD (qv p) ident (qz s).
Definition ec_fvd : list (@vdata QcFld) := [ec_vd [1; 0]%Z 1; ec_vd [4; -1]%Z 4; ec_vd [2; 3]%Z 1; ec_vd [0; 7]%Z 4].
Definition ec_edges := [(0, 1); (1, 2); (2, 3)].
Definition ec_vmap : list Z := [0; 0; 1; -1]%Z.
Definition ec_emap : list Z := [-1; 0; -1]%Z.
Definition ec_fed : list (@mat QcFld) := [ex_E; ex_E; ex_E].
Definition ec_ctr (v : nat) : bool := (v =? 0) || (v =? 2).
Lemma ident_sym m : symm m (@ident QcFld). Proof. intros i j _ _. unfold mtr, ident. now rewrite Nat.eqb_sym. Qed.
Ltac cases4 v := destruct v as [|[|[|[|v]]]].
Lemma ec_scal v w : v < 4 -> w < 4 -> scalings_ok (rsc (nth v ec_fvd zero_vd)) (rsc (nth w ec_fvd zero_vd)).
Proof.
  intros Hv Hw. unfold scalings_ok. cases4 v; try lia; cases4 w; try lia; cbn;
    (split; [apply Qc_is_canon; vm_compute; reflexivity|]; split; [apply Qc_is_canon; vm_compute; reflexivity|];
     split; [apply qneq; vm_compute; discriminate|]; split; apply qneq; vm_compute; discriminate).
Qed.
Example C77_ex_energy : forall G, exists cvd ced cvd',
  EVD_map_data false G ec_vmap 2 [(true, [0; 1])] [(true, [0; 1; 2; 3])] ec_ctr ec_fvd = Ret cvd /\
  EED_map_data false G ec_vmap ec_emap (fun x => x) 2 1 [(true, [0; 1; 2])] ec_edges [(0, 1)] ec_fvd cvd ec_fed = Ret (ced, cvd').
Proof.
  intros G.
  destruct (C77_energy_partial QcFldLaws false G 4 2 1 ec_edges [(0, 1)] ec_vmap ec_emap [(true, [0; 1; 2; 3])] [(true, [0; 1; 2])] [(true, [0; 1])] ec_ctr ec_fvd ec_fed)
    as (cvd & ced & cvd' & H1 & H2 & _); try reflexivity.
  - split; [reflexivity|]. split; [reflexivity|]. split; [reflexivity|].
    split. { intros c H. cbn in H. lia. }
    split. { intros c H. cbn in H. lia. }
    intros e a b H. cases4 e; cbn in H; try discriminate; try (destruct e; discriminate); injection H as <- <-; (split; [lia|]; split; [lia|]); cbn; auto.
    exists 0, 1. split; [reflexivity|]. split; [reflexivity|]. left. reflexivity.
  - intros q [<-|[]]. reflexivity.
  - intros q v [<-|[]] Hv. cbn in Hv |- *. lia.
  - intros e H. cases4 e; cbn in H; try lia; apply ex_E_sym.
  - intros v H. cases4 v; try lia; apply ident_sym.
  - apply ec_scal.
  - intros [|[|ce]] A C H; cbn in H; try discriminate. injection H as <- <-. lia.
  - intros [|[|A]] HA; [now exists 0|now exists 2|lia].
  - intros v A T. cases4 v; cbn in T; try discriminate; try (destruct v; discriminate); injection T as <-; cbn.
    + split; [intros _ w; lia|reflexivity].
    + split; [discriminate|]. intros H. exfalso. apply (H 0); [lia|reflexivity].
    + split; [|reflexivity]. intros _ w Hw. cases4 w; try lia; discriminate.
  - intros e a b A c He T Hc.
    assert (X : (e = 0 /\ a = 0 /\ b = 1) \/ (e = 1 /\ a = 1 /\ b = 2) \/ (e = 2 /\ a = 2 /\ b = 3)).
    { cases4 e; cbn in He; try discriminate; try (destruct e; discriminate); injection He as <- <-; auto. }
    assert (Y : (c = 0 /\ A = 0) \/ (c = 2 /\ A = 1)).
    { cases4 c; cbn in T, Hc; try discriminate; try (destruct c; discriminate); injection T as <-; auto. }
    destruct X as [(-> & -> & ->)|[(-> & -> & ->)|(-> & -> & ->)]], Y as [(-> & ->)|(-> & ->)]; split; intros [T1 T2]; cbn in T1, T2; try discriminate; split; auto.
  - exists cvd, ced, cvd'. auto.
Qed.

(** The centre must be the lowest numbered vertex: otherwise the weight of that vertex is counted twice and the weight of the
    centre is lost. *)
Theorem C77_centre_refuted : exists (vmap : list Z) (ctr : nat -> bool) (fvd : list (@vdata QcFld)) (c : list (@vdata QcFld)) (U : nat -> fvec),
  (forall v, ctr v = true <-> v = 1) /\ vmap = [0; 0]%Z /\ length fvd = 2 /\
  EVD_map_data false mzero vmap 1 [(true, [0])] [(true, [0; 1])] ctr fvd = Ret c /\
  fsumf (fun A => quad false (wt (nth A c zero_vd)) (U A)) (seq 0 1) <>
  fsumf (fun v => quad false (wt (nth v fvd zero_vd)) (extend false vmap (fun A => nth A c zero_vd) (fun v => nth v fvd zero_vd) U v)) (seq 0 2).
Proof.
  exists [0; 0]%Z, (fun v => v =? 1), [ec_vd [0; 0]%Z 1; mkVD (qv [1; 0]%Z) mzero (qz 1)].
  eexists. exists (fun _ => qv [1]%Z). split; [intros v; apply Nat.eqb_eq|]. split; [reflexivity|]. split; [reflexivity|].
  split; [reflexivity|]. apply qneq. vm_compute. discriminate.
Qed.

(** An edge to an unmapped vertex is added without moving it from the fine to the coarse vertex. *)
Theorem C77_ground_refuted : exists (fvd : list (@vdata QcFld)) (cvd cvd' : list (@vdata QcFld)) (ced fed : list mat) (U : nat -> fvec),
  EVD_map_data false mzero [0; 0; -1]%Z 1 [(true, [0])] [(true, [0; 1; 2])] (fun v => v =? 0) fvd = Ret cvd /\
  EED_map_data false mzero [0; 0; -1]%Z [-1; -1]%Z (fun x => x) 1 0 [(true, [0; 1])] [(0, 1); (1, 2)] [] fvd cvd fed = Ret (ced, cvd') /\
  let cd A := nth A cvd' zero_vd in let fd v := nth v fvd zero_vd in
  fsumf (fun A => quad false (wt (cd A)) (U A)) (seq 0 1) <>
  fsumf (fun e => match nth_error [(0, 1); (1, 2)] e with
                  | Some (a, b) => edge_quad false (nth e fed mzero) (fd a) (fd b) (extend false [0; 0; -1]%Z cd fd U a) (extend false [0; 0; -1]%Z cd fd U b)
                  | None => f0 end) (seq 0 2).
Proof.
  exists [mkVD (qv [0; 0]%Z) mzero (qz 1); mkVD (qv [1; 0]%Z) mzero (qz 1); mkVD (qv [1; 0]%Z) mzero (qz 1)].
  eexists _, _, _. exists [ident; ident], (fun _ => qv [0; 0; 1]%Z). split; [reflexivity|]. split; [reflexivity|].
  apply qneq. vm_compute. discriminate.
Qed.

(** A member of an agglomerate whose master is not the master of the coarse vertex: position and scaling of the coarse vertex are zero
    there when its weight is transformed, the rotational part of the weight is lost.  Two processes, vertex 0 is shared (master: the first one),
    vertex 1 belongs to the second one. *)
Theorem C77_shared_refuted : exists (v0 v1 : @vdata QcFld) (c0 c1 : list (@vdata QcFld)) (U : fvec),
  EVD_map_data false mzero [0]%Z 1 [(true, [0])] [(true, [0])] (fun v => v =? 0) [v0] = Ret c0 /\
  EVD_map_data false mzero [0; 0]%Z 1 [(false, [0])] [(false, [0]); (true, [1])] (fun v => v =? 0) [v0; v1] = Ret c1 /\
  quad false (madd (wt (nth 0 c0 zero_vd)) (wt (nth 0 c1 zero_vd))) U <>
  fadd (quad false (wt v0) U) (quad false (wt v1) (mv (DPV false) (Qto false v0 v1) U)).
Proof.
  exists (ec_vd [0; 0]%Z 1), (ec_vd [0; 0]%Z 1). eexists _, _. exists (qv [0; 0; 1]%Z). split; [reflexivity|]. split; [reflexivity|].
  apply qneq. vm_compute. discriminate.
Qed.

Print Assumptions C77_edges_partial.
Print Assumptions C77_energy_partial.
Print Assumptions C77_centre_refuted.
Print Assumptions C77_ground_refuted.
Print Assumptions C77_shared_refuted.
