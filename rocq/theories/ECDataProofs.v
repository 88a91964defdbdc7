(** Proofs about the coarse data of the elasticity energy. *)
From Coq Require Import Ring Field.
From Verif Require Import Base SparseModel AuxSpec CDataModel CDataSpec CDataProofs CMapProps EnergyModel EnergySpec EnergyProofs EnergyProps ECDataModel ECDataSpec.
Local Open Scope nat_scope.

Section P.
  Context {F : Fld} (L : FldLaws F).
  Local Notation K := (FK F).
  Local Open Scope fld_scope.
  Lemma fth' : field_theory (@f0 F) f1 fadd fmul fsub fopp fdiv finv eq. Proof. exact (law_field _ L). Qed.
  Add Field KF3 : fth'.
  Local Notation mat := (@mat F). Local Notation vdata := (@vdata F). Local Notation fvec := (@fvec F).
  Variable d3 : bool.
  Local Notation n := (DPV d3).
  Ltac cn := cbv -[f0 f1 fadd fmul fsub fopp fdiv finv fsqrt feqb rs tang pos wt rsc FK]; cbn [rs tang pos wt rsc]; cbv -[f0 f1 fadd fmul fsub fopp fdiv finv fsqrt feqb rs tang pos wt rsc FK].

  Lemma fc (a b : K) : a + b = b + a. Proof. ring. Qed.
  Lemma fa (a b c : K) : a + (b + c) = (a + b) + c. Proof. ring. Qed.
  Lemma fz (a : K) : f0 + a = a. Proof. ring. Qed.

  Lemma Qlaw (v1 v2 v3 : vdata) : rsc v2 <> f0 -> rsc v3 <> f0 -> meq n (mmul n (Qto d3 v2 v3) (Qto d3 v1 v2)) (Qto d3 v1 v3).
  Proof. intros H2 H3. eapply meq_trans; [apply (Q_mul L)|]. apply Qof_ext; [|intros i]; cn; field; auto. Qed.
  Lemma Qself (v w : vdata) : rsc w <> f0 -> same_place v w -> meq n (Qto d3 v w) ident.
  Proof. intros H [P R]. apply (Q_ident L); [intros i|]; cn; rewrite ?P, ?R; field; auto. Qed.

  Lemma mv_ident (x : fvec) : veq n (mv n ident x) x.
  Proof.
    intros i Hi. unfold mv, ident.
    assert (G : forall m, fsum m (fun j => (if i =? j then f1 else f0) * x j) = if i <? m then x i else f0).
    { induction m as [|m IH]; [reflexivity|]. cbn [fsum]. rewrite IH. destruct (Nat.eqb_spec i m) as [->|D].
      - destruct (Nat.ltb_spec m m); [lia|]. destruct (Nat.ltb_spec m (S m)); [|lia]. ring.
      - destruct (Nat.ltb_spec i m), (Nat.ltb_spec i (S m)); try lia; ring. }
    rewrite G. destruct (Nat.ltb_spec i n); [reflexivity|lia].
  Qed.

  Lemma quad_ext (W W' : mat) x x' : meq n W W' -> veq n x x' -> quad d3 W x = quad d3 W' x'.
  Proof. intros H1 H2. unfold quad. apply ip_ext; [apply mv_ext|]; auto. Qed.
  Lemma quad_madd (W W' : mat) x : quad d3 (madd W W') x = quad d3 W x + quad d3 W' x.
  Proof.
    unfold quad, ip. rewrite <- (fsum_add L). apply fsum_ext. intros i _. unfold mv, madd.
    assert (E : fsum n (fun j => (W i j + W' i j) * x j) = fsum n (fun j => W i j * x j) + fsum n (fun j => W' i j * x j)).
    { rewrite <- (fsum_add L). apply fsum_ext. intros j _. ring. }
    rewrite E. ring.
  Qed.
  Lemma quad_zero (x : fvec) : quad d3 mzero x = f0.
  Proof.
    unfold quad, ip. transitivity (fsum n (fun _ => @f0 F)); [|apply (fsum_zero L)]. apply fsum_ext. intros i _. unfold mv, mzero.
    assert (E : fsum n (fun j => f0 * x j) = f0). { transitivity (fsum n (fun _ => @f0 F)); [|apply (fsum_zero L)]. apply fsum_ext. intros j _. ring. }
    rewrite E. ring.
  Qed.
  Lemma quad_vzero (W : mat) : quad d3 W (fun _ => f0) = f0.
  Proof. unfold quad, ip. transitivity (fsum n (fun _ => @f0 F)); [|apply (fsum_zero L)]. apply fsum_ext. intros i _. ring. Qed.
  Lemma quad_msc1 (W : mat) x : quad d3 (msc f1 W) x = quad d3 W x.
  Proof. apply quad_ext; [|apply veq_refl]. intros i j _ _. unfold msc. ring. Qed.
  Lemma quad_QtEQ (Q E : mat) x : quad d3 (mmul n (mtr Q) (mmul n E Q)) x = quad d3 E (mv n Q x).
  Proof.
    unfold quad. rewrite (ip_ext n _ (mv n (mtr Q) (mv n E (mv n Q x))) x x); [|eapply veq_trans; [apply (mv_mmul L)|]; apply mv_ext; [apply meq_refl|apply (mv_mmul L)]|apply veq_refl].
    apply (ip_mtr L).
  Qed.
  Lemma quad_swap (W : mat) x y : quad d3 W (vminus x y) = quad d3 W (vminus y x).
  Proof.
    assert (E : veq n (vminus x y) (vscal (- f1) (vminus y x))). { intros i _. unfold vminus, vscal. ring. }
    rewrite (quad_ext W W _ _ (meq_refl _ _) E). unfold quad.
    assert (E2 : veq n (mv n W (vscal (- f1) (vminus y x))) (vscal (- f1) (mv n W (vminus y x)))).
    { intros i _. unfold mv, vscal. rewrite <- (fsum_scal L). apply fsum_ext. intros j _. ring. }
    rewrite (ip_ext n _ _ _ _ E2 (veq_refl _ _)). rewrite (ip_vscal_l L), (ip_comm L), (ip_vscal_l L), (ip_comm L). ring.
  Qed.
  Lemma quad_add_QtMQ (A E Q : mat) s t x : meq n Q (Qof d3 s t) -> symm n E ->
    quad d3 (AddQtMQ d3 f1 A Q E) x = quad d3 A x + quad d3 E (mv n (Qof d3 s t) x).
  Proof.
    intros HQ HE. rewrite (quad_ext _ _ x x (AddQtMQ_ok L d3 f1 s t A Q E HQ HE) (veq_refl _ _)).
    rewrite quad_madd, quad_msc1, quad_QtEQ. reflexivity.
  Qed.

  (** values at two fine vertices that are rigid body extensions of coarse values: the jump at the fine midpoint is the coarse jump *)
  Lemma jump_transfer (va vb vA vB m M : vdata) (UA UB : fvec) :
    rsc va <> f0 -> rsc vb <> f0 -> rsc m <> f0 -> rsc M <> f0 ->
    veq n (vminus (mv n (Qto d3 va m) (mv n (Qto d3 vA va) UA)) (mv n (Qto d3 vb m) (mv n (Qto d3 vB vb) UB)))
          (mv n (Qto d3 M m) (vminus (mv n (Qto d3 vA M) UA) (mv n (Qto d3 vB M) UB))).
  Proof.
    intros Ha Hb Hm HM. eapply veq_trans; [|apply veq_sym, (mv_minus L)].
    assert (G : forall v V (U : fvec), rsc v <> f0 -> veq n (mv n (Qto d3 v m) (mv n (Qto d3 V v) U)) (mv n (Qto d3 M m) (mv n (Qto d3 V M) U))).
    { intros v V U Hv. eapply veq_trans; [apply veq_sym, (mv_mmul L)|]. eapply veq_trans; [|apply (mv_mmul L)].
      apply mv_ext; [|apply veq_refl]. eapply meq_trans; [now apply Qlaw|]. apply meq_sym. now apply Qlaw. }
    apply vminus_ext; now apply G.
  Qed.

  Section Vert.
  Variables (G : mat) (vmap : list Z) (NV NCV : nat) (fd : nat -> vdata) (data : list vdata).
  Hypothesis Hlv : length vmap = NV.
  Hypothesis Hvi : map_into NCV vmap.
  Hypothesis Hdl : length data = NV.
  Hypothesis Hd : forall v, v < NV -> nth v data zero_vd = fd v.
  Hypothesis Hrs : forall v, v < NV -> rsc (fd v) <> f0.
  Hypothesis Hsym : forall v, v < NV -> symm n (wt (fd v)).

  Lemma rd_data v : v < NV -> rd data v = Ret (fd v).
  Proof using Hdl Hd. clear - Hdl Hd. intros H. rewrite <- (Hd v H). apply rd_nth_error. apply nth_error_nth'. lia. Qed.

  Variable first : nat -> nat.
  Hypothesis Hfirst : forall A, A < NCV -> first A < NV /\ target vmap (first A) = Some A.

  Lemma evd_class_ok aggs (mast : nat -> bool) (q : bool * list nat) (c : list vdata) : length c = NCV ->
    (forall A, A < NCV -> nth_error aggs A <> None /\ nth_error (nth A aggs []) 0 = Some (first A)) ->
    (forall A, In A (snd q) -> A < NCV /\ mast A = fst q) ->
    exists c', evd_class aggs data c q = Ret c' /\ length c' = NCV /\
      forall A, nth A c' zero_vd = if existsb (Nat.eqb A) (snd q) then (if mast A then fd (first A) else zero_vd) else nth A c zero_vd.
  Proof using Hdl Hd Hfirst.
    clear - Hdl Hd Hfirst. intros Hc Ha Hq. unfold evd_class. revert c Hc. induction (snd q) as [|A l IH]; intros c Hc.
    - exists c. split; [reflexivity|]. split; [auto|]. reflexivity.
    - destruct (Hq A (in_eq _ _)) as [HA Hm]. cbn [foldM].
      assert (St : (if fst q then agg <- rd aggs A ;; fV <- rd agg 0 ;; d <- rd data fV ;; wr c A (mkVD (pos d) (wt d) (rsc d)) else wr c A zero_vd)
                 = Ret (upd c A (if mast A then fd (first A) else zero_vd))).
      { rewrite Hm. destruct (fst q); [|rewrite wr_ok by lia; reflexivity].
        destruct (Ha A HA) as [Hn Hh]. destruct (nth_error aggs A) as [agg|] eqn:Eagg; [|congruence].
        rewrite (rd_nth_error _ _ _ Eagg). cbn [bind]. rewrite (nth_error_nth aggs A [] Eagg) in Hh. rewrite (rd_nth_error _ _ _ Hh). cbn [bind].
        destruct (Hfirst A HA) as [Hf _]. rewrite (rd_data _ Hf). cbn [bind]. rewrite wr_ok by lia. destruct (fd (first A)); reflexivity. }
      rewrite St. cbn [bind]. destruct (IH (fun A' H' => Hq A' (in_cons _ _ _ H')) (upd c A (if mast A then fd (first A) else zero_vd))) as (c' & E & Lc & N).
      { now rewrite upd_length. }
      exists c'. split; [exact E|]. split; [exact Lc|]. intros A'. rewrite N. cbn [existsb].
      destruct (existsb (Nat.eqb A') l); [now rewrite orb_true_r|]. rewrite orb_false_r. destruct (Nat.eqb_spec A' A) as [->|D].
      + now rewrite nth_upd_eq by lia.
      + now rewrite nth_upd_neq by auto.
  Qed.
  Lemma evd_init_ok aggs (mast : nat -> bool) eqcv :
    (forall A, A < NCV -> nth_error aggs A <> None /\ nth_error (nth A aggs []) 0 = Some (first A)) ->
    (forall q A, In q eqcv -> In A (snd q) -> A < NCV /\ mast A = fst q) ->
    (forall A, A < NCV -> exists q, In q eqcv /\ In A (snd q)) ->
    exists c', foldM (evd_class aggs data) eqcv (repeat zero_vd NCV) = Ret c' /\ length c' = NCV /\
      forall A, A < NCV -> nth A c' zero_vd = if mast A then fd (first A) else zero_vd.
  Proof using Hdl Hd Hfirst.
    intros Ha Hq Hcov.
    assert (Gn : forall l (c : list vdata), (forall q, In q l -> In q eqcv) -> length c = NCV ->
      exists c', foldM (evd_class aggs data) l c = Ret c' /\ length c' = NCV /\
       forall A, (In A (concat (map snd l)) -> nth A c' zero_vd = if mast A then fd (first A) else zero_vd) /\
                 (~ In A (concat (map snd l)) -> nth A c' zero_vd = nth A c zero_vd)).
    { induction l as [|q l IH]; intros c Hl Hc.
      - exists c. split; [reflexivity|]. split; [auto|]. intros A. split; [intros []|auto].
      - destruct (evd_class_ok aggs mast q c Hc Ha) as (c1 & E1 & L1 & N1). { intros A. apply Hq. apply Hl. now left. }
        cbn [foldM]. rewrite E1. cbn [bind]. destruct (IH c1 (fun q' H' => Hl q' (in_cons _ _ _ H')) L1) as (c2 & E2 & L2 & N2).
        exists c2. split; [exact E2|]. split; [exact L2|]. intros A. cbn [map concat]. rewrite in_app_iff.
        destruct (N2 A) as [Y X]. split.
        + intros H. destruct (in_dec Nat.eq_dec A (concat (map snd l))) as [I|I]; [now apply Y|]. destruct H as [H|H]; [|now apply Y].
          rewrite (X I), N1. destruct (existsb (Nat.eqb A) (snd q)) eqn:Ex; [reflexivity|]. exfalso. apply Bool.not_true_iff_false in Ex. apply Ex.
          apply existsb_exists. exists A. split; [auto|apply Nat.eqb_refl].
        + intros H. rewrite X by tauto. rewrite N1. destruct (existsb (Nat.eqb A) (snd q)) eqn:Ex; [|reflexivity]. exfalso. apply existsb_exists in Ex.
          destruct Ex as (A' & HA' & Ex). apply Nat.eqb_eq in Ex. subst A'. apply H. now left. }
    destruct (Gn eqcv (repeat zero_vd NCV)) as (c' & E & Lc & N); auto using repeat_length.
    exists c'. split; [exact E|]. split; [exact Lc|]. intros A HA. apply N. destruct (Hcov A HA) as (q & Hq1 & Hq2). apply in_concat.
    exists (snd q). split; [now apply in_map|auto].
  Qed.

  Variable ctr : nat -> bool.
  Variable D : nat -> vdata.
  Definition vinv (c : list vdata) : Prop := length c = NCV /\ forall A, A < NCV -> pos (nth A c zero_vd) = pos (D A) /\ rsc (nth A c zero_vd) = rsc (D A).
  Definition vPhi (U : nat -> fvec) (c : list vdata) : K := gsum f0 fadd (fun A => quad d3 (wt (nth A c zero_vd)) (U A)) (seq 0 NCV).
  Definition vdl (U : nat -> fvec) (v : nat) : K :=
    match target vmap v with Some A => if ctr v then f0 else quad d3 (wt (fd v)) (mv n (Qto d3 (D A) (fd v)) (U A)) | None => f0 end.
  Lemma evd_add_step U v c : v < NV -> vinv c ->
    exists c', evd_add d3 G vmap data ctr c v = Ret c' /\ vinv c' /\ vPhi U c' = vPhi U c + vdl U v.
  Proof using L Hlv Hvi Hdl Hd Hsym.
    clear - L Hlv Hvi Hdl Hd Hsym. intros Hv [Lc I]. unfold evd_add, vdl.
    destruct (target_nth NCV vmap v Hvi ltac:(lia)) as [[E T]|(A & E & T & HA)]; rewrite (rd_nth_error _ _ _ E), T; cbn [bind].
    - cbn [Z.eqb Pos.eqb negb andb]. exists c. split; [reflexivity|]. split; [split; auto|]. ring.
    - destruct (Z.eqb_spec (Z.of_nat A) (-1)) as [|nz]; [lia|]. cbn [negb andb]. destruct (ctr v); cbn [negb].
      + exists c. split; [reflexivity|]. split; [split; auto|]. ring.
      + rewrite (rd_data v Hv). cbn [bind]. rewrite (modify_ok _ _ _ zero_vd) by lia. eexists. split; [reflexivity|].
        destruct (I A HA) as [Ip Ir]. split.
        * split; [now rewrite upd_length|]. intros A' HA'. destruct (Nat.eq_dec A' A) as [->|Dn].
          -- rewrite nth_upd_eq by lia. auto.
          -- rewrite nth_upd_neq by auto. auto.
        * unfold vPhi. rewrite <- Lc.
          apply (gsum_upd _ _ fc fa fz (fun A (x : vdata) => quad d3 (wt x) (U A))); [lia|]. cbn [wt].
          rewrite (quad_add_QtMQ _ _ _ (rs (GetQiToj (nth A c zero_vd) (fd v))) (tang (GetQiToj (nth A c zero_vd) (fd v)))).
          -- f_equal. unfold Qto, Qmat, GetQiToj. rewrite Ip, Ir. reflexivity.
          -- apply (SetQ_ok L).
          -- now apply Hsym.
  Qed.
  End Vert.

  Section Edges.
  Variables (G : mat) (vmap emap : list Z) (NV NCV NCE : nat) (edges cedges : list (nat * nat)).
  Variables (fd cd : nat -> vdata) (fvd cvd : list vdata) (fE : nat -> mat) (fed : list mat).
  Hypothesis MF : maps_fit NV NCV NCE edges cedges vmap emap.
  Hypothesis Hfl : length fvd = NV. Hypothesis Hcl : length cvd = NCV. Hypothesis Hel : length fed = length edges.
  Hypothesis Hfd : forall v, v < NV -> nth v fvd zero_vd = fd v.
  Hypothesis Hcd : forall A, A < NCV -> nth A cvd zero_vd = cd A.
  Hypothesis Hfe : forall e, e < length edges -> nth e fed mzero = fE e.
  Hypothesis HEs : forall e, e < length edges -> symm n (fE e).
  Hypothesis Hsf : forall e a b, nth_error edges e = Some (a, b) -> scalings_ok (rsc (fd a)) (rsc (fd b)).
  Hypothesis Hsc : forall ce A C, nth_error cedges ce = Some (A, C) -> A < NCV /\ C < NCV /\ scalings_ok (rsc (cd A)) (rsc (cd C)).
  Hypothesis Hgr : forall e a b A, nth_error edges e = Some (a, b) ->
    (target vmap a = Some A /\ target vmap b = None -> same_place (cd A) (fd a)) /\
    (target vmap b = Some A /\ target vmap a = None -> same_place (cd A) (fd b)).

  Definition cjump (U : nat -> fvec) (ce : nat) : fvec :=
    match nth_error cedges ce with Some (A, C) => jump d3 (cd A) (cd C) (U A) (U C) | None => fun _ => f0 end.
  Definition ePhi (U : nat -> fvec) (st : list mat * list mat) : K :=
    gsum f0 fadd (fun ce => quad d3 (nth ce (fst st) mzero) (cjump U ce)) (seq 0 NCE)
    + gsum f0 fadd (fun A => quad d3 (nth A (snd st) mzero) (U A)) (seq 0 NCV).
  Definition edl (U : nat -> fvec) (e : nat) : K :=
    match nth_error edges e with
    | Some (a, b) => edge_quad d3 (fE e) (fd a) (fd b) (extend d3 vmap cd fd U a) (extend d3 vmap cd fd U b)
    | None => f0 end.

  Lemma mv_vzero (A : mat) : veq n (mv n A (fun _ => f0)) (fun _ => f0).
  Proof using L. clear - L. intros i _. unfold mv. transitivity (fsum n (fun _ => @f0 F)); [|apply (fsum_zero L)]. apply fsum_ext. intros j _. ring. Qed.
  Lemma mid_sym (va vb v : vdata) : scalings_ok (rsc va) (rsc vb) -> meq n (Qto d3 v (CalcMPData va vb)) (Qto d3 v (CalcMPData vb va)).
  Proof using L.
    clear - L. intros (H1 & H2 & H3 & H4 & H5). assert (H6 : fsqrt (rsc vb) + fsqrt (rsc va) <> f0) by (intros Q; apply H5; rewrite <- Q; ring).
    unfold Qto. apply Qof_ext.
    - cbn. f_equal. ring.
    - intros i. unfold tang, GetQiToj, CalcMPData, vscal, vminus, vplus. cbn [pos rsc]. field. auto.
  Qed.
  Lemma scal_sym (s t : K) : scalings_ok s t -> scalings_ok t s.
  Proof using L. clear - L. intros (H1 & H2 & H3 & H4 & H5). unfold scalings_ok. intuition. apply H5. rewrite <- H. ring. Qed.

  Lemma eed_step U e st : e < length edges -> length (fst st) = NCE /\ length (snd st) = NCV ->
    exists st', eed_add d3 G vmap emap edges cedges fvd cvd fed st e = Ret st' /\ (length (fst st') = NCE /\ length (snd st') = NCV) /\
      ePhi U st' = ePhi U st + edl U e.
  Proof using L MF Hfl Hcl Hel Hfd Hcd Hfe HEs Hsf Hsc Hgr.
    destruct MF as (Hlv & Hle & Hlc & Hv & He & Hf).
    intros Hlt [L1 L2]. unfold eed_add, edl. destruct (nth_error edges e) as [[a b]|] eqn:Ee; [|apply nth_error_None in Ee; lia].
    destruct (Hf e a b Ee) as (Ha & Hb & Q). pose proof (Hsf e a b Ee) as Sab. pose proof Sab as (_ & _ & Na & Nb & _).
    pose proof (mid_nz L (fd a) (fd b) Sab) as Nm.
    assert (Ra : rd fvd a = Ret (fd a)) by (rewrite <- (Hfd a Ha); apply rd_nth_error, nth_error_nth'; lia).
    assert (Rb : rd fvd b = Ret (fd b)) by (rewrite <- (Hfd b Hb); apply rd_nth_error, nth_error_nth'; lia).
    rewrite (rd_nth_error edges _ _ Ee).
    rewrite (rd_nth_error fed e (fE e)) by (rewrite <- (Hfe e Hlt); apply nth_error_nth'; lia). cbn [fst snd].
    destruct (target_nth NCE emap e He ltac:(lia)) as [[E T]|(ce & E & T & Hce)]; rewrite (rd_nth_error _ _ _ E); cbn [bind fst snd]; rewrite T in Q.
    - cbn [Z.eqb Pos.eqb negb].
      assert (U1 : forall l l' A (cond : scalings_ok (rsc (fd l)) (rsc (fd l'))), A < NCV -> l < NV -> l' < NV -> nth_error vmap l = Some (Z.of_nat A) ->
        same_place (cd A) (fd l) -> rsc (fd l) <> f0 -> rd fvd l = Ret (fd l) -> rd fvd l' = Ret (fd l') ->
        exists st', (cvnr <- rd vmap l ;; vl <- rd fvd l ;; vl' <- rd fvd l' ;;
          add <- modify (fun x => AddQtMQ d3 f1 x (CalcQij d3 vl vl' G) (fE e)) (snd st) cvnr ;; Ret (fst st, add)) = Ret st' /\
          (length (fst st') = NCE /\ length (snd st') = NCV) /\
          ePhi U st' = ePhi U st + quad d3 (fE e) (mv n (Qto d3 (fd l) (CalcMPData (fd l) (fd l'))) (mv n (Qto d3 (cd A) (fd l)) (U A)))).
      { intros l l' A cond HA Hl Hl' El Sp Nl Rl Rl'. rewrite (rd_nth_error _ _ _ El). cbn [bind]. rewrite Rl, Rl'. cbn [bind].
        rewrite (modify_ok _ _ _ mzero) by lia. cbn [bind]. eexists. split; [reflexivity|]. cbn [fst snd]. split; [split; [auto|now rewrite upd_length]|].
        unfold ePhi. cbn [fst snd]. rewrite <- L2. erewrite (gsum_upd _ _ fc fa fz (fun A (x : mat) => quad d3 x (U A))); [|lia|].
        2:{ rewrite (quad_add_QtMQ _ _ _ (rs (GetQij (fd l) (fd l'))) (tang (GetQij (fd l) (fd l')))); [reflexivity|apply (SetQ_ok L)|now apply HEs]. }
        rewrite fa. f_equal. apply quad_ext; [apply meq_refl|]. apply mv_ext.
        - exact (Qij_mid L (fd l) (fd l') d3).
        - apply veq_sym. eapply veq_trans; [apply mv_ext; [apply (Qself _ _ Nl Sp)|apply veq_refl]|]. apply (mv_ident). }
      pose proof (Hgr e a b) as Gr.
      destruct (target_nth NCV vmap a Hv ltac:(lia)) as [[Ea Ta]|(A & Ea & Ta & HA)];
      destruct (target_nth NCV vmap b Hv ltac:(lia)) as [[Eb Tb]|(C & Eb & Tb & HC)];
        rewrite (rd_nth_error _ _ _ Ea), (rd_nth_error _ _ _ Eb); cbn [bind]; unfold edge_quad, jump, extend; rewrite Ta, Tb.
      + cbn [Z.eqb Pos.eqb negb]. exists st. split; [reflexivity|]. split; [auto|].
        rewrite (quad_ext (fE e) (fE e) _ (fun _ => f0)); [rewrite quad_vzero; ring|apply meq_refl|].
        eapply veq_trans; [apply vminus_ext; apply mv_vzero|]. intros i _. unfold vminus. ring.
      + destruct (Z.eqb_spec (-1) (Z.of_nat C)) as [|nz]; [lia|]. cbn [Z.eqb Pos.eqb negb].
        destruct (U1 b a C) as (st' & Es & Ls & Ps); auto. { now apply scal_sym. } { apply (Gr C Ee). auto. }
        exists st'. split; [exact Es|]. split; [exact Ls|]. rewrite Ps. f_equal. rewrite quad_swap. apply quad_ext; [apply meq_refl|].
        intros i Hi. unfold vminus. rewrite (mv_vzero _ i Hi). rewrite (mv_ext n _ _ _ (mv n (Qto d3 (cd C) (fd b)) (U C)) (mid_sym _ _ (fd b) Sab) (veq_refl _ _) i Hi). ring.
      + destruct (Z.eqb_spec (Z.of_nat A) (-1)) as [|nz]; [lia|]. cbn [negb].
        destruct (U1 a b A) as (st' & Es & Ls & Ps); auto. { apply (Gr A Ee). auto. }
        exists st'. split; [exact Es|]. split; [exact Ls|]. rewrite Ps. f_equal. apply quad_ext; [apply meq_refl|].
        intros i Hi. unfold vminus. rewrite (mv_vzero _ i Hi). ring.
      + rewrite Ta, Tb in Q. destruct Q as [Q|[Q|Q]]; try discriminate. injection Q as ->. rewrite Z.eqb_refl. cbn [negb].
        exists st. split; [reflexivity|]. split; [auto|].
        rewrite (quad_ext (fE e) (fE e) _ (fun _ => f0)); [rewrite quad_vzero; ring|apply meq_refl|].
        assert (X : forall v, rsc (fd v) <> f0 -> veq n (mv n (Qto d3 (fd v) (CalcMPData (fd a) (fd b))) (mv n (Qto d3 (cd C) (fd v)) (U C)))
                                       (mv n (Qto d3 (cd C) (CalcMPData (fd a) (fd b))) (U C))).
        { intros v Nv. eapply veq_trans; [apply veq_sym, (mv_mmul L)|]. apply mv_ext; [now apply Qlaw|apply veq_refl]. }
        eapply veq_trans; [apply vminus_ext; apply X; auto|]. intros i _. unfold vminus. ring.
    - destruct Q as (A & C & Ta & Tb & J). destruct (Z.eqb_spec (Z.of_nat ce) (-1)) as [|nz]; [lia|]. cbn [negb]. destruct (Z.ltb_spec (Z.of_nat ce) 0); [lia|].
      rewrite Nat2Z.id.
      assert (J' : exists A' C', nth_error cedges ce = Some (A', C') /\ ((A' = A /\ C' = C) \/ (A' = C /\ C' = A))) by (destruct J; eauto 7).
      destruct J' as (A' & C' & Ec & Q). destruct (Hsc ce A' C' Ec) as (HA' & HC' & SC).
      rewrite (rd_nth_error _ _ _ Ec). cbn [bind fst snd].
      rewrite (rd_nth_error cvd A' (cd A')) by (rewrite <- (Hcd A' HA'); apply nth_error_nth'; lia).
      rewrite (rd_nth_error cvd C' (cd C')) by (rewrite <- (Hcd C' HC'); apply nth_error_nth'; lia). cbn [bind].
      rewrite Ra, Rb. cbn [bind]. rewrite (modify_ok _ _ _ mzero) by lia. cbn [bind]. eexists. split; [reflexivity|]. cbn [fst snd].
      split; [split; [now rewrite upd_length|auto]|].
      unfold ePhi. cbn [fst snd]. rewrite <- L1. erewrite (gsum_upd _ _ fc fa fz (fun ce (x : mat) => quad d3 x (cjump U ce))); [|lia|].
      2:{ rewrite quad_madd, quad_QtEQ. reflexivity. }
      rewrite <- !fa. f_equal. rewrite fc. f_equal.
      unfold edge_quad, jump, extend, cjump. rewrite Ta, Tb, Ec. unfold jump.
      pose proof (mid_nz L _ _ SC) as NM.
      assert (X : veq n (vminus (mv n (Qto d3 (fd a) (CalcMPData (fd a) (fd b))) (mv n (Qto d3 (cd A) (fd a)) (U A)))
                                (mv n (Qto d3 (fd b) (CalcMPData (fd a) (fd b))) (mv n (Qto d3 (cd C) (fd b)) (U C))))
                         (mv n (Qto d3 (CalcMPData (cd A') (cd C')) (CalcMPData (fd a) (fd b)))
                            (vminus (mv n (Qto d3 (cd A) (CalcMPData (cd A') (cd C'))) (U A)) (mv n (Qto d3 (cd C) (CalcMPData (cd A') (cd C'))) (U C))))).
      { apply jump_transfer; auto. }
      rewrite (quad_ext (fE e) (fE e) _ _ (meq_refl _ _) X).
      assert (Y : forall W x, quad d3 W (mv n (CalcQHh d3 (CalcMPData (cd A') (cd C')) (CalcMPData (fd a) (fd b)) G) x)
                            = quad d3 W (mv n (Qto d3 (CalcMPData (cd A') (cd C')) (CalcMPData (fd a) (fd b))) x)).
      { intros W x. apply quad_ext; [apply meq_refl|]. apply mv_ext; [apply (SetQ_ok L)|apply veq_refl]. }
      rewrite Y. destruct Q as [[-> ->]|[-> ->]]; [reflexivity|].
      rewrite <- !quad_QtEQ. apply quad_swap.
  Qed.

  Lemma eed_ok eqe : classes_in (length edges) eqe ->
    exists st, foldM (eed_add d3 G vmap emap edges cedges fvd cvd fed) (AuxModel.master_nodes eqe) (repeat mzero NCE, repeat mzero NCV) = Ret st /\
      (length (fst st) = NCE /\ length (snd st) = NCV) /\ forall U, ePhi U st = fsumf (edl U) (mastered eqe).
  Proof using L MF Hfl Hcl Hel Hfd Hcd Hfe HEs Hsf Hsc Hgr.
    intros Ce. rewrite master_mastered'.
    assert (St : forall U, exists st, foldM (eed_add d3 G vmap emap edges cedges fvd cvd fed) (mastered eqe) (repeat mzero NCE, repeat mzero NCV) = Ret st /\
      (length (fst st) = NCE /\ length (snd st) = NCV) /\ ePhi U st = fsumf (edl U) (mastered eqe)).
    { intros U. destruct (accum _ _ fc fa fz (fun st : list mat * list mat => length (fst st) = NCE /\ length (snd st) = NCV) (ePhi U)
        (eed_add d3 G vmap emap edges cedges fvd cvd fed) (edl U) (mastered eqe)) with (s := (repeat (@mzero F) NCE, repeat (@mzero F) NCV)) as (st & E & Ls & P).
      - intros e s He Hs. apply eed_step; auto. eapply mastered_cls; eauto.
      - cbn [fst snd]. now rewrite !repeat_length.
      - exists st. split; [exact E|]. split; [exact Ls|]. rewrite P.
        assert (Z0 : ePhi U (repeat mzero NCE, repeat mzero NCV) = f0).
        { unfold ePhi. cbn [fst snd]. rewrite !(gsum_zero _ _ fz); [ring| |]; intros k _; rewrite nth_repeat; apply quad_zero. }
        rewrite Z0, fz. reflexivity. }
    destruct (St (fun _ _ => f0)) as (st & E & Ls & _). exists st. split; [exact E|]. split; [exact Ls|].
    intros U. destruct (St U) as (st' & E' & _ & P). rewrite E in E'. injection E' as <-. exact P.
  Qed.
  End Edges.

  Lemma add_all_ok NCV (add : list mat) (cvd : list vdata) : length add = NCV -> length cvd = NCV ->
    foldM (fun c k => a <- rd add k ;; x <- rd c k ;; wr c k (mkVD (pos x) (madd (wt x) a) (rsc x))) (seq 0 NCV) cvd =
    Ret (map (fun xa : vdata * mat => mkVD (pos (fst xa)) (madd (wt (fst xa)) (snd xa)) (rsc (fst xa))) (combine cvd add)).
  Proof.
    intros La Lc.
    assert (Gn : forall (post : list vdata) (a2 : list mat) (pre : list vdata) (a1 : list mat), length pre = length a1 -> length post = length a2 ->
      foldM (fun c k => a <- rd (a1 ++ a2) k ;; x <- rd c k ;; wr c k (mkVD (pos x) (madd (wt x) a) (rsc x))) (seq (length pre) (length post)) (pre ++ post) =
      Ret (pre ++ map (fun xa : vdata * mat => mkVD (pos (fst xa)) (madd (wt (fst xa)) (snd xa)) (rsc (fst xa))) (combine post a2))).
    { induction post as [|x post IH]; intros [|a a2] pre a1 H1 H2; try discriminate; [reflexivity|]. cbn [length seq foldM].
      rewrite (rd_nth_error (a1 ++ a :: a2) _ a). 2:{ rewrite nth_error_app2 by lia. replace (length pre - length a1)%nat with 0 by lia. reflexivity. }
      cbn [bind]. rewrite (rd_nth_error (pre ++ x :: post) _ x). 2:{ rewrite nth_error_app2 by lia. now rewrite Nat.sub_diag. }
      cbn [bind]. rewrite wr_ok by (rewrite app_length; cbn; lia). cbn [bind].
      assert (Eu : upd (pre ++ x :: post) (length pre) (mkVD (pos x) (madd (wt x) a) (rsc x)) = (pre ++ [mkVD (pos x) (madd (wt x) a) (rsc x)]) ++ post).
      { clear. induction pre as [|y pre IHp]; [reflexivity|]. cbn. now rewrite IHp. }
      rewrite Eu. specialize (IH a2 (pre ++ [mkVD (pos x) (madd (wt x) a) (rsc x)]) (a1 ++ [a])).
      rewrite !app_length in IH. cbn [length] in IH. rewrite Nat.add_1_r in IH. rewrite <- app_assoc in IH. cbn [app] in IH.
      rewrite IH by (cbn in H2; lia). f_equal. cbn [combine map fst snd]. now rewrite <- app_assoc. }
    specialize (Gn cvd add [] []). cbn [length app] in Gn. rewrite Lc in Gn. apply Gn; lia.
  Qed.
End P.
