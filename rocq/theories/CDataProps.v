(** C75: vertex and edge weights of the coarse mesh (scalar energy); C76: node maps, concatenation. *)
From Verif Require Import Base AGroup LinAlg LinTools Instances SparseModel AuxModel AuxSpec AuxProofs CDataModel CDataSpec CDataProofs.
Local Open Scope nat_scope.

Section P.
  Context {B : Blk} (L : BlkLaws B).
  Local Notation K := (K B). Local Notation X := (X B).
  Add Ring Kr : (lawK B L).
  Let LX := lawX B L.
  Ltac agl := ag LX.
  Local Notation kc := (kc L). Local Notation ka := (ka L). Local Notation kz := (kz L).

  Lemma all_concat eqcs : all_nodes eqcs = concat (map snd eqcs).
  Proof. unfold all_nodes. now rewrite flat_map_concat_map. Qed.

  (** === C75, scalar energy, edges: the weight of a coarse edge is the sum of the weights of the fine edges mapped to it; cumulated
      fine weights are taken from the masters only, distributed ones from all edges the process has. *)
  Theorem C75_h1_edge_weights : forall (NCE : nat) (emap : list Z) (cumulated : bool) (eqe : list (bool * list nat)) (ed : list K),
    map_into NCE emap -> length ed = length emap -> classes_in (length emap) eqe ->
    exists c, H1E_map_data emap NCE cumulated eqe ed = Ret c /\ length c = NCE /\
      forall k, k < NCE ->
        nth k c k0 = ksumf (fun e => if hits (target emap e) k then nth e ed k0 else k0)
                       (if cumulated then mastered eqe else concat (map snd eqe)).
  Proof.
    intros NCE emap cumulated eqe ed He Hd Hc.
    assert (D : forall e, In e (if cumulated then master_nodes eqe else all_nodes eqe) -> e < length (repeat (0, 0) (length emap))).
    { intros e H. rewrite repeat_length. destruct cumulated.
      - rewrite master_mastered' in H. eapply mastered_cls; eauto.
      - rewrite all_concat in H. apply in_concat in H. destruct H as (l & Hl & Hi). apply in_map_iff in Hl. destruct Hl as (q & <- & Hq). eapply Hc; eauto. }
    destruct (H1E_weak L emap (repeat (0, 0) (length emap)) NCE ed He ltac:(now rewrite repeat_length) ltac:(rewrite repeat_length; lia) _ D) as (c & E & Lc & P).
    exists c. split; [exact E|]. split; [exact Lc|]. intros k Hk.
    pose proof (P (fun j => if j =? k then k1 else k0)) as Q.
    transitivity (Phi1 NCE (fun j => if j =? k then k1 else k0) c).
    - symmetry. unfold Phi1. rewrite (gsum_ext _ _ _ (fun j => if j =? k then nth j c k0 else k0)).
      + apply (gsum_delta _ _ kc kz). lia.
      + intros j _. destruct (j =? k); ring.
    - rewrite Q. rewrite master_mastered', all_concat. apply gsum_ext. intros e _. unfold eterm, hits. destruct (target emap e) as [j|]; [|reflexivity].
      destruct (j =? k); ring.
  Qed.

  (** === C75, scalar energy, vertices: the weight of a coarse vertex is the sum of the weights of the mastered fine vertices mapped to
      it, plus the weights of the mastered edges joining one of these to a vertex that is not mapped; counts are added up. *)
  Theorem C75_h1_vertex_weights : forall (NV NCV NCE : nat) (edges cedges : list (nat * nat)) (vmap emap : list Z)
      (eqv eqe : list (bool * list nat)) (vd : list (K * K)) (ed : list K),
    maps_fit NV NCV NCE edges cedges vmap emap -> length vd = NV -> length ed = length edges ->
    classes_in NV eqv -> classes_in (length edges) eqe ->
    exists c, H1V_map_data vmap emap edges NCV eqv eqe vd ed = Ret c /\ length c = NCV /\
      forall A, A < NCV ->
        fst (nth A c (k0, k0)) =
          kadd (ksumf (fun v => if hits (target vmap v) A then fst (nth v vd (k0, k0)) else k0) (mastered eqv))
               (ksumf (fun e => if hits (ground_of edges vmap emap e) A then nth e ed k0 else k0) (mastered eqe)) /\
        snd (nth A c (k0, k0)) = ksumf (fun v => if hits (target vmap v) A then snd (nth v vd (k0, k0)) else k0) (mastered eqv).
  Proof.
    intros NV NCV NCE edges cedges vmap emap eqv eqe vd ed (Hlv & Hle & Hlc & Hv & He & Hf) Hvd Hed Cv Ce. subst NV.
    assert (Hends : forall a b, In (a, b) edges -> a < length vmap /\ b < length vmap).
    { intros a b Hi. apply In_nth_error in Hi. destruct Hi as (e & Hi). destruct (Hf e a b Hi) as (? & ? & _). auto. }
    destruct (H1V_weak L vmap emap edges NCV NCE vd ed Hv He Hvd Hle Hed Hends eqv eqe Cv Ce) as (c & E & Lc & P).
    { intros e _ a b T Ee. destruct (Hf e a b Ee) as (_ & _ & H). now rewrite T in H. }
    exists c. split; [exact E|]. split; [exact Lc|]. intros A HA.
    split.
    - transitivity (Phi2 NCV (fun j => if j =? A then k1 else k0) (fun _ => k0) c).
      + symmetry. unfold Phi2. rewrite (gsum_ext _ _ _ (fun j => if j =? A then fst (nth j c (k0, k0)) else k0)).
        * apply (gsum_delta _ _ kc kz (fun j => fst (nth j c (k0, k0)))). lia.
        * intros j _. destruct (j =? A); ring.
      + rewrite P. f_equal; apply gsum_ext.
        * intros v _. unfold vterm, hits. destruct (target vmap v) as [j|]; [|reflexivity]. destruct (j =? A); ring.
        * intros e _. unfold gterm, hits. destruct (ground_of edges vmap emap e) as [j|]; [|reflexivity]. destruct (j =? A); ring.
    - transitivity (Phi2 NCV (fun _ => k0) (fun j => if j =? A then k1 else k0) c).
      + symmetry. unfold Phi2. rewrite (gsum_ext _ _ _ (fun j => if j =? A then snd (nth j c (k0, k0)) else k0)).
        * apply (gsum_delta _ _ kc kz (fun j => snd (nth j c (k0, k0)))). lia.
        * intros j _. destruct (j =? A); ring.
      + rewrite P. assert (G0 : ksumf (gterm vmap emap edges ed (fun _ => k0)) (mastered eqe) = k0).
        { apply (gsum_zero _ _ kz). intros e _. unfold gterm. destruct (ground_of edges vmap emap e); ring. }
        rewrite G0, kc, kz. apply gsum_ext. intros v _. unfold vterm, hits. destruct (target vmap v) as [j|]; [|reflexivity]. destruct (j =? A); ring.
  Qed.

  Lemma ksumf_app {A} (f : A -> K) l l' : ksumf f (l ++ l') = kadd (ksumf f l) (ksumf f l').
  Proof. apply (gsum_app _ _ ka kz). Qed.
  Lemma nrm2_opp (x : X) : nrm2 (xopp x) = nrm2 x.
  Proof. unfold nrm2. rewrite <- (xsc_m1 L). rewrite (dot_sc B L), (dot_sc_r L). ring. Qed.

  Section G.
  Variables NV NCV NCE : nat.
  Variables edges cedges : list (nat * nat).
  Variables vmap emap : list Z.
  Variables vw ew : nat -> K.
  Hypothesis MF : maps_fit NV NCV NCE edges cedges vmap emap.

  Definition gl_v (q : nat -> K) (v : nat) : K := match target vmap v with Some A => kmul (vw v) (q A) | None => k0 end.
  Definition gl_g (q : nat -> K) (e : nat) : K := match ground_of edges vmap emap e with Some A => kmul (ew e) (q A) | None => k0 end.
  Definition gl_e (q : nat -> K) (e : nat) : K := match target emap e with Some A => kmul (ew e) (q A) | None => k0 end.

  Lemma cumulate_sum gl (parts : list (share B * list K)) (q : nat -> K) NC :
    (forall so, In so parts -> forall k, k < length (snd so) -> gl (fst so) k < NC) ->
    ksumf (fun g => kmul (cumulate gl parts g) (q g)) (seq 0 NC) =
    ksumf (fun so : share B * list K => ksumf (fun k => kmul (nth k (snd so) k0) (q (gl (fst so) k))) (seq 0 (length (snd so)))) parts.
  Proof.
    intros H. unfold cumulate.
    assert (D : forall (A : Type) (f : A -> K) l c, kmul (ksumf f l) c = ksumf (fun a => kmul (f a) c) l).
    { intros A f l c. induction l as [|a l IH]; [cbn; ring|]. cbn [ksumf fold_right]. fold (ksumf f l) (ksumf (fun a => kmul (f a) c) l). rewrite <- IH. ring. }
    transitivity (ksumf (fun g => ksumf (fun so : share B * list K =>
        ksumf (fun k => if gl (fst so) k =? g then kmul (nth k (snd so) k0) (q g) else k0) (seq 0 (length (snd so)))) parts) (seq 0 NC)).
    { apply gsum_ext. intros g _. rewrite D. apply gsum_ext. intros so _. rewrite D. apply gsum_ext. intros k _. destruct (_ =? _); ring. }
    etransitivity; [apply (gsum_swap _ _ kc ka kz)|]. apply gsum_ext. intros so Hso.
    etransitivity; [apply (gsum_swap _ _ kc ka kz)|]. apply gsum_ext. intros k Hk. apply in_seq in Hk.
    etransitivity; [apply (gsum_ext _ _ _ (fun g => if g =? gl (fst so) k then kmul (nth k (snd so) k0) (q g) else k0))|].
    { intros g _. now rewrite Nat.eqb_sym. }
    rewrite (gsum_delta _ _ kc kz (fun g => kmul (nth k (snd so) k0) (q g))); [reflexivity|]. specialize (H so Hso k). lia.
  Qed.

  Lemma joins_ground e a b : joins edges e a b ->
    ground_of edges vmap emap e = match target emap e with Some _ => None | None =>
      match target vmap a, target vmap b with Some A, None => Some A | None, Some A => Some A | _, _ => None end end.
  Proof. clear. intros [H|H]; unfold ground_of; rewrite H; destruct (target emap e), (target vmap a), (target vmap b); reflexivity. Qed.

  Lemma share_results (s : share B) : share_ok NCV NCE edges vmap emap vw ew s ->
    exists cv ce, H1V_map_data (s_vmap s) (s_emap s) (s_edges s) (s_ncv s) (s_eqv s) (s_eqe s) (s_vd s) (s_ed s) = Ret cv /\
      H1E_map_data (s_emap s) (s_nce s) true (s_eqe s) (s_ed s) = Ret ce /\ length cv = s_ncv s /\ length ce = s_nce s /\
      (forall q, ksumf (fun k => kmul (nth k (map fst cv) k0) (q (s_gcv s k))) (seq 0 (length (map fst cv))) =
        kadd (ksumf (gl_v q) (map (s_gv s) (mastered (s_eqv s)))) (ksumf (gl_g q) (map (s_ge s) (mastered (s_eqe s))))) /\
      (forall q, ksumf (fun k => kmul (nth k ce k0) (q (s_gce s k))) (seq 0 (length ce)) = ksumf (gl_e q) (map (s_ge s) (mastered (s_eqe s)))).
  Proof.
    intros (Cv & Ce & Hvd & Hem & Hed & Hv & He & Hends & Dv & Tv & De & Je & Te & Rv & Re & Inj).
    destruct MF as (Hlv & Hle & Hlc & GV & GE & Hf).
    assert (NX : forall e, In e (mastered (s_eqe s)) -> no_cross (s_vmap s) (s_emap s) (s_edges s) e).
    { intros e Hin a b T Ee. assert (e < length (s_edges s)) by (eapply mastered_cls; eauto).
      pose proof (Te e ltac:(auto)) as T'. rewrite T in T'. cbn [option_map] in T'.
      destruct (Hends a b (nth_error_In _ _ Ee)) as [Ha Hb].
      pose proof (Tv a Ha) as Ta. pose proof (Tv b Hb) as Tb.
      assert (X1 : target vmap (s_gv s a) = target vmap (s_gv s b) \/ target vmap (s_gv s a) = None \/ target vmap (s_gv s b) = None).
      { destruct (Je e a b Ee) as [J|J]; destruct (Hf _ _ _ J) as (_ & _ & F); rewrite T' in F; intuition. }
      rewrite Ta, Tb in X1.
      destruct (target_nth _ _ a Hv Ha) as [[_ Qa]|(A & _ & Qa & HA)]; rewrite Qa in *; auto.
      destruct (target_nth _ _ b Hv Hb) as [[_ Qb]|(A' & _ & Qb & HA')]; rewrite Qb in *; auto.
      cbn [option_map] in X1. destruct X1 as [E|[E|E]]; try discriminate. injection E as E. left. f_equal. now apply Inj. }
    destruct (H1V_weak L _ _ _ _ _ _ _ Hv He Hvd Hem Hed Hends _ _ Cv Ce NX) as (cv & E1 & L1 & P1).
    destruct (H1E_weak L _ _ _ _ He Hem Hed (mastered (s_eqe s))) as (ce & E2 & L2 & P2).
    { intros e Hin. eapply mastered_cls; eauto. }
    exists cv, ce. split; [exact E1|]. split. { unfold H1E_map_data. rewrite master_mastered'. exact E2. }
    split; [exact L1|]. split; [exact L2|]. split.
    - intros q. rewrite map_length, L1. etransitivity.
      2:{ etransitivity; [apply (P1 (fun k => q (s_gcv s k)) (fun _ => k0))|]. f_equal.
          - etransitivity; [|symmetry; apply gsum_map]. apply gsum_ext. intros v Hin. assert (v < length (s_vmap s)) by (eapply mastered_cls; eauto).
            unfold vterm, gl_v. rewrite Tv by auto. destruct (target (s_vmap s) v) as [A|]; cbn [option_map]; [|reflexivity].
            rewrite <- (Dv v (nth v (s_vd s) (k0, k0))) by (apply nth_error_nth'; lia). ring.
          - etransitivity; [|symmetry; apply gsum_map]. apply gsum_ext. intros e Hin. assert (e < length (s_edges s)) by (eapply mastered_cls; eauto).
            unfold gterm, gl_g. destruct (nth_error (s_edges s) e) as [[a b]|] eqn:Ee; [|apply nth_error_None in Ee; lia].
            destruct (Hends a b (nth_error_In _ _ Ee)) as [Ha Hb].
            rewrite (joins_ground _ _ _ (Je e a b Ee)). unfold ground_of at 1. rewrite Te, !Tv, Ee by auto.
            rewrite <- (De e (nth e (s_ed s) k0)) by (apply nth_error_nth'; lia).
            destruct (target (s_emap s) e), (target (s_vmap s) a), (target (s_vmap s) b); reflexivity. }
      unfold Phi2. apply gsum_ext. intros k Hk. etransitivity; [|symmetry; rewrite kc; etransitivity; [|apply kz]; f_equal; ring].
      f_equal. change (@k0 B) with (fst (@k0 B, @k0 B)) at 1. apply map_nth.
    - intros q. rewrite L2. etransitivity; [apply (P2 (fun k => q (s_gce s k)))|].
      etransitivity; [|symmetry; apply gsum_map]. apply gsum_ext. intros e Hin. assert (e < length (s_edges s)) by (eapply mastered_cls; eauto).
      unfold eterm, gl_e. rewrite Te by auto. rewrite <- (De e (nth e (s_ed s) k0)) by (apply nth_error_nth'; lia).
      destruct (target (s_emap s) e); reflexivity.
  Qed.
  End G.

  (** === C75, scalar energy: on any number of processes, the coarse weights (summed over the processes) define the energy of the
      coarse mesh that every coarse vector has the same energy as its piecewise constant extension has on the fine mesh, where every fine
      vertex and edge is counted once. *)
  Theorem C75_h1_energy : forall (NV NCV NCE : nat) (edges cedges : list (nat * nat)) (vmap emap : list Z) (vw ew : nat -> K)
      (ss : list (share B)) (U : nat -> X),
    maps_fit NV NCV NCE edges cedges vmap emap ->
    Forall (share_ok NCV NCE edges vmap emap vw ew) ss -> masters_ok NV edges ss ->
    exists outs : list (list (K * K) * list K),
      Forall2 (fun s o => H1V_map_data (s_vmap s) (s_emap s) (s_edges s) (s_ncv s) (s_eqv s) (s_eqe s) (s_vd s) (s_ed s) = Ret (fst o) /\
                          H1E_map_data (s_emap s) (s_nce s) true (s_eqe s) (s_ed s) = Ret (snd o)) ss outs /\
      let cvw := cumulate s_gcv (combine ss (map (fun o => map fst (fst o)) outs)) in
      let cew := cumulate s_gce (combine ss (map snd outs)) in
      kadd (ksumf (edge_en cedges cew U) (seq 0 NCE)) (ksumf (vert_en cvw U) (seq 0 NCV)) =
      kadd (ksumf (edge_en edges ew (interp vmap U)) (seq 0 (length edges))) (ksumf (vert_en vw (interp vmap U)) (seq 0 NV)).
  Proof.
    intros NV NCV NCE edges cedges vmap emap vw ew ss U MF HS [PV PE].
    assert (R : exists outs : list (list (K * K) * list K),
      Forall2 (fun s o => H1V_map_data (s_vmap s) (s_emap s) (s_edges s) (s_ncv s) (s_eqv s) (s_eqe s) (s_vd s) (s_ed s) = Ret (fst o) /\
                          H1E_map_data (s_emap s) (s_nce s) true (s_eqe s) (s_ed s) = Ret (snd o)) ss outs /\
      (forall so, In so (combine ss (map (fun o : list (K * K) * list K => map fst (fst o)) outs)) -> forall k, k < length (snd so) -> s_gcv (fst so) k < NCV) /\
      (forall so, In so (combine ss (map (fun o : list (K * K) * list K => snd o) outs)) -> forall k, k < length (snd so) -> s_gce (fst so) k < NCE) /\
      (forall q, ksumf (fun so : share B * list K => ksumf (fun k => kmul (nth k (snd so) k0) (q (s_gcv (fst so) k))) (seq 0 (length (snd so))))
                   (combine ss (map (fun o : list (K * K) * list K => map fst (fst o)) outs)) =
        kadd (ksumf (gl_v vmap vw q) (concat (map (fun s => map (s_gv s) (mastered (s_eqv s))) ss)))
             (ksumf (gl_g edges vmap emap ew q) (concat (map (fun s => map (s_ge s) (mastered (s_eqe s))) ss)))) /\
      (forall q, ksumf (fun so : share B * list K => ksumf (fun k => kmul (nth k (snd so) k0) (q (s_gce (fst so) k))) (seq 0 (length (snd so))))
                   (combine ss (map (fun o : list (K * K) * list K => snd o) outs)) =
             ksumf (gl_e emap ew q) (concat (map (fun s => map (s_ge s) (mastered (s_eqe s))) ss)))).
    { clear PV PE. induction ss as [|s ss IH].
      - exists []. split; [constructor|]. split; [easy|]. split; [easy|]. split; intros q; cbn; ring.
      - inversion HS as [|? ? H1 H2]; subst. destruct (IH H2) as (outs & F & I1 & I2 & S1 & S2).
        destruct (share_results _ _ _ _ _ _ _ _ _ MF s H1) as (cv & ce & E1 & E2 & L1 & L2 & P1 & P2).
        exists ((cv, ce) :: outs). split; [constructor; auto|]. cbn [map combine fst snd concat].
        destruct H1 as (_ & _ & _ & _ & _ & _ & _ & _ & _ & _ & _ & _ & _ & Rv & Re & _).
        split. { intros so [<-|Hso] k Hk; [cbn [fst snd] in *; rewrite map_length in Hk; apply Rv; lia|eapply I1; eauto]. }
        split. { intros so [<-|Hso] k Hk; [cbn [fst snd] in *; apply Re; lia|eapply I2; eauto]. }
        split; intros q.
        + etransitivity; [apply gsum_cons|]. cbn [fst snd]. rewrite P1. etransitivity; [apply f_equal, S1|].
          rewrite !ksumf_app. ring.
        + etransitivity; [apply gsum_cons|]. cbn [fst snd]. rewrite P2. etransitivity; [apply f_equal, S2|].
          rewrite !ksumf_app. reflexivity. }
    destruct R as (outs & F & I1 & I2 & S1 & S2). exists outs. split; [exact F|]. cbv zeta.
    set (cq := fun ce => match nth_error cedges ce with Some (a, b) => nrm2 (xminus (U a) (U b)) | None => k0 end).
    assert (Z1 : ksumf (vert_en (cumulate s_gcv (combine ss (map (fun o : list (K * K) * list K => map fst (fst o)) outs))) U) (seq 0 NCV) =
       kadd (ksumf (gl_v vmap vw (fun A => nrm2 (U A))) (seq 0 NV)) (ksumf (gl_g edges vmap emap ew (fun A => nrm2 (U A))) (seq 0 (length edges)))).
    { etransitivity; [apply (cumulate_sum s_gcv _ (fun A => nrm2 (U A)) NCV I1)|]. etransitivity; [apply (S1 (fun A => nrm2 (U A)))|]. f_equal; apply (gsum_perm _ _ kc ka); auto. }
    assert (Z2 : ksumf (edge_en cedges (cumulate s_gce (combine ss (map (fun o : list (K * K) * list K => snd o) outs))) U) (seq 0 NCE) =
       ksumf (gl_e emap ew cq) (seq 0 (length edges))).
    { etransitivity; [|etransitivity; [apply (cumulate_sum s_gce _ cq NCE I2)|]].
      - apply gsum_ext. intros ce _. unfold edge_en, cq. destruct (nth_error cedges ce) as [[a b]|]; [reflexivity|ring].
      - etransitivity; [apply S2|]. apply (gsum_perm _ _ kc ka); auto. }
    change (map snd outs) with (map (fun o : list (K * K) * list K => snd o) outs). rewrite Z1, Z2.
    assert (Z3 : ksumf (gl_v vmap vw (fun A => nrm2 (U A))) (seq 0 NV) = ksumf (vert_en vw (interp vmap U)) (seq 0 NV)).
    { apply gsum_ext. intros v _. unfold gl_v, vert_en, interp. destruct (target vmap v); [reflexivity|]. unfold nrm2. rewrite (dot_0l L). ring. }
    rewrite Z3.
    assert (Z4 : kadd (ksumf (gl_e emap ew cq) (seq 0 (length edges))) (ksumf (gl_g edges vmap emap ew (fun A => nrm2 (U A))) (seq 0 (length edges))) =
                 ksumf (edge_en edges ew (interp vmap U)) (seq 0 (length edges))).
    { etransitivity; [symmetry; apply (gsum_add _ _ kc ka kz)|]. apply gsum_ext. intros e _. unfold gl_e, gl_g, edge_en, ground_of.
      destruct MF as (Hlv & Hle & _ & _ & _ & Hf).
      destruct (nth_error edges e) as [[a b]|] eqn:Ee.
      2:{ destruct (target emap e) as [ce|] eqn:T; [|ring]. exfalso. apply target_some in T. assert (e < length emap) by (apply nth_error_Some; congruence).
          apply nth_error_None in Ee. lia. }
      destruct (Hf e a b Ee) as (_ & _ & H). destruct (target emap e) as [ce|].
      - destruct H as (A & C & Ta & Tb & J). unfold interp. rewrite Ta, Tb. rewrite kc, kz. f_equal. unfold cq. destruct J as [J|J]; rewrite J; [reflexivity|].
        rewrite <- nrm2_opp. f_equal. unfold xminus. agl.
      - rewrite kz. unfold interp. destruct (target vmap a) as [A|], (target vmap b) as [C|].
        + destruct H as [H|[H|H]]; try discriminate. injection H as ->. transitivity (kmul (ew e) (dot (@x0 B) x0)).
          * rewrite (dot_0l L). ring.
          * unfold nrm2. f_equal. f_equal; unfold xminus; agl.
        + f_equal. f_equal. unfold xminus. agl.
        + f_equal. rewrite <- nrm2_opp. f_equal. unfold xminus. agl.
        + transitivity (kmul (ew e) (dot (@x0 B) x0)).
          * rewrite (dot_0l L). ring.
          * unfold nrm2. f_equal. f_equal; unfold xminus; agl. }
    rewrite <- Z4. ring.
  Qed.
End P.

(** Example: a path of four vertices on two processes; vertices 0, 1 go to coarse vertex 0, vertex 2 (shared) to coarse vertex 1,
    vertex 3 is not mapped.  The second process is not master of vertex 2. *)
Definition cx_edges := [(0, 1); (1, 2); (2, 3)].
Definition cx_vmap : list Z := [0; 0; 1; -1]%Z.
Definition cx_emap : list Z := [-1; 0; -1]%Z.
Definition cx_vw (v : nat) : Z := nth v [1; 2; 3; 4]%Z 0%Z.
Definition cx_ew (v : nat) : Z := nth v [10; 20; 30]%Z 0%Z.
Definition cx_s0 : share ZBlk :=
  @mkShare ZBlk [(true, [0; 1]); (true, [2])] [(true, [0; 1])] [0; 0; 1]%Z [-1; 0]%Z [(0, 1); (1, 2)]
    [(1, 1); (2, 1); (3, 1)]%Z [10; 20]%Z 2 1 (fun v => v) (fun e => e) (fun k => k) (fun k => k).
Definition cx_s1 : share ZBlk :=
  @mkShare ZBlk [(false, [0]); (true, [1])] [(true, [0])] [0; -1]%Z [-1]%Z [(1, 0)] [(3, 1); (4, 1)]%Z [30]%Z 1 0
    (fun v => v + 2) (fun e => e + 2) (fun k => k + 1) (fun k => k).

Ltac dn v := destruct v as [|[|[|[|[|v]]]]].
Example cx_maps : maps_fit 4 2 1 cx_edges [(0, 1)] cx_vmap cx_emap.
Proof.
  split; [reflexivity|]. split; [reflexivity|]. split; [reflexivity|].
  split. { intros c H. cbn in H. lia. }
  split. { intros c H. cbn in H. lia. }
  intros e a b H. dn e; cbn in H; try discriminate; injection H as <- <-; (split; [lia|]; split; [lia|]); cbn; auto.
  all: try (exists 0, 1; split; [reflexivity|]; split; [reflexivity|]; left; reflexivity).
  all: destruct e; discriminate.
Qed.
Ltac share_tac :=
  unfold share_ok; cbv zeta;
  split; [intros q v Hq Hv; cbn in Hq; intuition; subst q; cbn in Hv |- *; lia|];
  split; [intros q v Hq Hv; cbn in Hq; intuition; subst q; cbn in Hv |- *; lia|];
  split; [reflexivity|]; split; [reflexivity|]; split; [reflexivity|];
  split; [intros c H; cbn in H |- *; lia|]; split; [intros c H; cbn in H |- *; lia|];
  split; [intros a b H; cbn in H |- *; intuition; match goal with X : (_, _) = (_, _) |- _ => injection X as <- <- end; lia|];
  split; [intros v d H; dn v; cbn in H; try discriminate; try (destruct v; discriminate); injection H as <-; reflexivity|];
  split; [intros v H; dn v; cbn in H; try lia; reflexivity|];
  split; [intros v d H; dn v; cbn in H; try discriminate; try (destruct v; discriminate); injection H as <-; reflexivity|];
  split; [intros v a b H; dn v; cbn in H; try discriminate; try (destruct v; discriminate); injection H as <- <-; cbn; unfold joins; cbn; auto|];
  split; [intros v H; dn v; cbn in H; try lia; reflexivity|];
  split; [intros k H; cbn in *; lia|]; split; [intros k H; cbn in *; lia|];
  intros k l H1 H2 H3; cbn in *; lia.
Example cx_share0 : share_ok 2 1 cx_edges cx_vmap cx_emap (cx_vw : nat -> K ZBlk) cx_ew cx_s0. Proof. share_tac. Qed.
Example cx_share1 : share_ok 2 1 cx_edges cx_vmap cx_emap (cx_vw : nat -> K ZBlk) cx_ew cx_s1. Proof. share_tac. Qed.
Example cx_masters : masters_ok 4 cx_edges [cx_s0; cx_s1].
Proof. split; vm_compute; auto. Qed.
(** the weights of the two processes: vertex 0: 1 + 2, vertex 1: 3 on the master, 30 (edge to the unmapped vertex) on the other *)
Example cx_results :
  (H1V_map_data (B:=ZBlk) (s_vmap cx_s0) (s_emap cx_s0) (s_edges cx_s0) 2 (s_eqv cx_s0) (s_eqe cx_s0) (s_vd cx_s0) (s_ed cx_s0) = Ret [(3, 2); (3, 1)]%Z) /\
  (H1V_map_data (B:=ZBlk) (s_vmap cx_s1) (s_emap cx_s1) (s_edges cx_s1) 1 (s_eqv cx_s1) (s_eqe cx_s1) (s_vd cx_s1) (s_ed cx_s1) = Ret [(30, 0)]%Z) /\
  (H1E_map_data (B:=ZBlk) (s_emap cx_s0) 1 true (s_eqe cx_s0) (s_ed cx_s0) = Ret [20]%Z).
Proof. vm_compute. auto. Qed.
Example cx_energy : exists outs, Forall2 (fun s o => H1V_map_data (s_vmap s) (s_emap s) (s_edges s) (s_ncv s) (s_eqv s) (s_eqe s) (s_vd s) (s_ed s) = Ret (fst o) /\
                          H1E_map_data (s_emap s) (s_nce s) true (s_eqe s) (s_ed s) = Ret (snd o)) [cx_s0; cx_s1] outs.
Proof.
  destruct (C75_h1_energy ZLaws 4 2 1 cx_edges [(0, 1)] cx_vmap cx_emap cx_vw cx_ew [cx_s0; cx_s1] (fun _ => 0%Z) cx_maps) as (o & H & _).
  - constructor; [apply cx_share0|]. constructor; [apply cx_share1|]. constructor.
  - apply cx_masters.
  - now exists o.
Qed.

Print Assumptions C75_h1_edge_weights.
Print Assumptions C75_h1_vertex_weights.
Print Assumptions C75_h1_energy.
