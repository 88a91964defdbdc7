(** C74: edge connectivity and auxiliary matrix. *)
From Verif Require Import Base AGroup LinAlg ArraysModel SparseModel SparseSpec SparseProofs ProlSpec AuxModel AuxSpec AuxProofs AuxProofs2 Instances GSSpec.
From Coq Require Import Ring QArith Qcanon.
Local Open Scope nat_scope.

Lemma master_mastered eqcs : master_nodes eqcs = mastered eqcs.
Proof. unfold master_nodes, mastered. induction eqcs as [|[[] l] q IH]; cbn; auto. now rewrite IH. Qed.
Lemma mastered_in n eqcs v : classes_in n eqcs -> In v (mastered eqcs) -> v < n.
Proof.
  intros H Hv. unfold mastered in Hv. apply in_concat in Hv as (l & Hl & Hv). apply in_map_iff in Hl as (q & <- & Hq). apply filter_In in Hq as [Hq _]. eapply H; eauto.
Qed.

(** The edge connectivity matrix: for any edge list whose vertices exist, row v holds exactly the edges at v (as pairs
    neighbour, edge number; as often as they occur), by ascending neighbours; an edge with a vertex that does not exist is an
    out of bounds access.  If no edge occurs twice the neighbours of a row are different, which is what the prolongations
    rely on. *)
Theorem C74_edge_connectivity : forall sortn NV edges, sortn_ok sortn ->
  ((forall a b, In (a, b) edges -> a < NV /\ b < NV) ->
     exists econ, GetEdgeCM sortn NV edges = Ret econ /\ length econ = NV /\
       forall v, v < NV -> StronglySorted le (map fst (nth v econ [])) /\ forall w e, In (w, e) (nth v econ []) <-> joins edges e v w)
  /\ ((exists a b, In (a, b) edges /\ (NV <= a \/ NV <= b)) -> GetEdgeCM sortn NV edges = Err OutOfBounds)
  /\ (simple_mesh NV edges -> exists econ, GetEdgeCM sortn NV edges = Ret econ /\ connectivity NV edges econ /\
        forall v, v < NV -> edges_ok (fun v => nth v econ []) (fun e => nth e edges (0, 0)) NV v).
Proof.
  intros sortn NV edges HS. split; [|split].
  - intros HE. eexists. split; [apply GetEdgeCM_any; auto|]. split; [now rewrite map_length, seq_length|].
    intros v Hv. rewrite (nth_map_seq (fun v => sortn (bucket (econ_items edges) v))) by auto.
    destruct (HS (bucket (econ_items edges) v)) as [P SS]. split.
    + clear - SS. induction SS as [|p l SS IH F]; cbn; constructor; auto. rewrite Forall_forall in *. intros x Hx. apply in_map_iff in Hx as (q & <- & Hq). auto.
    + intros w e. rewrite <- in_econ_items, <- (in_bucket (econ_items edges) v (w, e)). split; apply Permutation_in; auto using Permutation_sym.
  - intros (a & b & Hi & H). unfold GetEdgeCM, count_fill.
    destruct (In_nth_error _ _ Hi) as (e & He).
    assert (J1 : In (a, (b, e)) (econ_items edges)) by (apply in_econ_items; now left).
    assert (J2 : In (b, (a, e)) (econ_items edges)) by (apply in_econ_items; now right).
    assert (E : count_items NV (econ_items edges) = Err OutOfBounds).
    { destruct H as [H|H]; [apply (count_items_oob _ _ _ J1)|apply (count_items_oob _ _ _ J2)]; auto. }
    rewrite E. reflexivity.
  - intros HM. destruct (GetEdgeCM_ok sortn NV edges HS HM) as (econ & E & HC). exists econ. split; auto. split; auto.
    intros v Hv. destruct HC as (_ & C1 & C2). split; [|apply C1; auto].
    intros w e Hi. apply C2 in Hi; auto. assert (J := Hi). apply joins_in in J.
    assert (G : w <> v /\ w < NV).
    { destruct J as [J|J]; apply (proj1 HM) in J; split; try tauto; intros ->; tauto. }
    split; [tauto|]. split; [tauto|]. destruct Hi as [Hi|Hi]; [left|right]; now apply nth_error_nth.
Qed.
Print Assumptions C74_edge_connectivity.

Section C74.
  Context (B : Blk) (L : BlkLaws B).
  Local Notation M := (M B). Local Notation X := (X B). Local Notation K := (K B).
  Add Ring Kr : (lawK B L).
  Let LX := lawX B L.
  Ltac agx := ag LX.

  (** The auxiliary matrix exists, its rows have ascending columns, namely the vertex and its neighbours; it is the sum of the
      edge matrices of the mastered edges without excluded ends (and the vertex matrices of the mastered vertices), as an
      operator and as an energy; it is symmetric if those are; without vertex matrices it annihilates what they annihilate. *)
  Theorem C74_auxiliary_matrix : forall NV edges econ (rmb : nat -> nat -> nat -> M) (vmatr : nat -> M) eqe eqv (inclv : bool) excl,
    simple_mesh NV edges -> connectivity NV edges econ -> classes_in (length edges) eqe -> classes_in NV eqv ->
    let used := filter (not_excluded edges excl) (mastered eqe) in
    exists A, AssembleAhatSparse edges rmb vmatr NV econ eqe eqv inclv excl = Ret A
    /\ wf_mat NV NV A
    /\ (forall i, i < NV -> StronglySorted lt (map fst (nth i A [])) /\ forall j, In j (map fst (nth i A [])) <-> j = i \/ exists e, joins edges e i j)
    /\ (forall u i, length u = NV -> i < NV -> ent (matvec A u) i
          = xadd (xsumf (edge_action rmb edges u i) used)
                 (if inclv then xsumf (fun v => if v =? i then act (vmatr v) (ent u v) else x0) (mastered eqv) else x0))
    /\ (forall u, length u = NV -> vdot (matvec A u) u
          = kadd (ksumf (edge_energy rmb edges u) used)
                 (if inclv then ksumf (fun v => dot (act (vmatr v) (ent u v)) (ent u v)) (mastered eqv) else k0))
    /\ ((forall e i j, In e (mastered eqe) -> i < 2 -> j < 2 -> rmb e j i = mtr (rmb e i j)) ->
        (forall v, In v (mastered eqv) -> vmatr v = mtr (vmatr v)) -> sym_mat NV A)
    /\ (forall u, length u = NV -> inclv = false -> (forall e i, In e used -> edge_action rmb edges u i e = x0) -> matvec A u = vzero NV).
  Proof.
    intros NV edges econ rmb vmatr eqe eqv inclv excl HM HC HE HV used.
    assert (HE' : forall e, In e (master_nodes eqe) -> e < length edges) by (intros e; rewrite master_mastered; apply mastered_in; auto).
    assert (HV' : forall v, In v (master_nodes eqv) -> v < NV) by (intros v; rewrite master_mastered; apply mastered_in; auto).
    exists (mat_of NV (pat econ) (ffinal edges rmb vmatr inclv excl (master_nodes eqe) (master_nodes eqv))).
    assert (ACT : forall u i, i < NV -> ent (matvec (mat_of NV (pat econ) (ffinal edges rmb vmatr inclv excl (master_nodes eqe) (master_nodes eqv))) u) i
          = xadd (xsumf (edge_action rmb edges u i) used)
                 (if inclv then xsumf (fun v => if v =? i then act (vmatr v) (ent u v) else x0) (mastered eqv) else x0)).
    { intros u i Hi. rewrite ent_matvec.
      rewrite (mat_of_row NV (pat econ) (ffinal edges rmb vmatr inclv excl (master_nodes eqe) (master_nodes eqv)) i Hi : getrow _ i = _). rewrite (row_times_pat L).
      rewrite (ffinal_action L NV edges econ HM HC) by auto. unfold used. now rewrite !master_mastered. }
    assert (LEN := mat_of_length NV (pat econ) (ffinal edges rmb vmatr inclv excl (master_nodes eqe) (master_nodes eqv))).
    split; [apply Assemble_ok; auto|]. split; [|split; [|split; [|split; [|split]]]].
    - split; [exact LEN|]. intros i p Hp.
      destruct (Nat.lt_ge_cases i NV) as [Hi|Hi]; [|unfold getrow in Hp; rewrite nth_overflow in Hp by (eapply Nat.le_trans; [apply Nat.eq_le_incl; exact LEN|auto]); destruct Hp].
      rewrite (mat_of_row NV (pat econ) (ffinal edges rmb vmatr inclv excl (master_nodes eqe) (master_nodes eqv)) i Hi : getrow _ i = _) in Hp. apply in_map_iff in Hp as (c & <- & Hc). cbn [fst].
      apply (pat_in (B := B) NV edges econ HM HC) in Hc; auto. destruct Hc as [->|(e & Hc)]; auto. apply joins_in in Hc as [Hc|Hc]; apply (proj1 HM) in Hc; tauto.
    - intros i Hi. rewrite mat_of_row by auto. rewrite map_map. cbn [fst]. rewrite map_id. split.
      + apply (pat_ss (B := B) NV edges econ HM HC); auto.
      + intros j. apply (pat_in (B := B) NV edges econ HM HC); auto.
    - intros u i _ Hi. apply ACT; auto.
    - intros u Hu. rewrite (vdot_ksum NV) by (auto; now rewrite matvec_length).
      rewrite (ksum_ext _ _ (fun i => kadd (ksumf (fun e => dot (edge_action rmb edges u i e) (ent u i)) used)
        (if inclv then ksumf (fun v => if v =? i then dot (act (vmatr v) (ent u v)) (ent u v) else k0) (mastered eqv) else k0))).
      2:{ intros i Hi. rewrite ACT by auto. rewrite (dot_add B L), (dot_xsumf L). f_equal. destruct inclv; [|apply (dot_0l L)].
          rewrite (dot_xsumf L). unfold ksumf. clear - L. induction (mastered eqv) as [|v l IH]; cbn [fold_right]; auto. rewrite IH. f_equal.
          destruct (Nat.eqb_spec v i) as [->|]; auto. apply (dot_0l L). }
      rewrite (ksum_add L), (ksum_ksumf L). f_equal.
      + unfold ksumf. clear - L HM. induction used as [|e l IH]; cbn [fold_right]; auto. rewrite IH. f_equal. apply (edge_energy_sum L). apply (proj1 HM).
      + destruct inclv; [|apply (ksum_zero L)]. rewrite (ksum_ksumf L). assert (HV2 : forall v, In v (mastered eqv) -> v < NV) by (intros v; apply mastered_in; auto).
        clear - L HV2. unfold ksumf. induction (mastered eqv) as [|v l IH]; cbn [fold_right]; auto. rewrite IH by (intros; apply HV2; now right). f_equal.
        apply (ksum_delta L). apply HV2. now left.
    - intros HB Hv. apply (mat_of_sym L NV edges econ HM HC). apply (ffinal_sym L NV edges HM); rewrite master_mastered; auto.
    - intros u Hu Hin HK. apply (vec_ext NV); [now rewrite matvec_length|apply repeat_length|].
      intros i Hi. rewrite ACT by auto. rewrite Hin. rewrite (ent_vzero). clear Hin.
      assert (Z0 : xsumf (edge_action rmb edges u i) used = x0).
      { revert HK. generalize used as l. clear - LX. unfold xsumf. induction l as [|e l IH]; cbn [fold_right]; intros HK; auto. rewrite (HK e i) by now left. rewrite IH by (intros; apply HK; now right). agx. }
      rewrite Z0. agx.
  Qed.

  (** Scalar (H1) energy: constants are in the kernel, and the energy is that of the differences along the edges. *)
  Theorem C74_h1 : forall NV edges econ (mneg : M -> M) (em vmatr : nat -> M) eqe eqv excl,
    (forall a x, act (mneg a) x = xopp (act a x)) ->
    simple_mesh NV edges -> connectivity NV edges econ -> classes_in (length edges) eqe -> classes_in NV eqv ->
    let used := filter (not_excluded edges excl) (mastered eqe) in
    exists A, AssembleAhatSparse edges (h1_rmb mneg em) vmatr NV econ eqe eqv false excl = Ret A
    /\ (forall c, matvec A (repeat c NV) = vzero NV)
    /\ (forall u, length u = NV -> vdot (matvec A u) u
          = ksumf (fun e => let '(a, b) := nth e edges (0, 0) in
                            let d := xadd (ent u a) (xopp (ent u b)) in dot (act (em e) d) d) used).
  Proof.
    intros NV edges econ mneg em vmatr eqe eqv excl HN HM HC HE HV used.
    destruct (C74_auxiliary_matrix NV edges econ (h1_rmb mneg em) vmatr eqe eqv false excl HM HC HE HV) as (A & EA & _ & _ & _ & EN & _ & KE).
    fold used in EN, KE. exists A. split; auto. split.
    - intros c. apply KE; auto. { apply repeat_length. } intros e i He. unfold edge_action. destruct (nth_error edges e) as [[a b]|] eqn:E; auto.
      assert (Hin := nth_error_In _ _ E). apply (proj1 HM) in Hin as (Ha & Hb & Hab).
      assert (R : forall k, k < NV -> ent (repeat c NV) k = c). { intros k Hk. unfold ent. rewrite (nth_indep _ _ c) by now rewrite repeat_length. apply nth_repeat. }
      rewrite !R by auto. unfold h1_rmb. cbn [Nat.eqb]. rewrite HN. destruct (i =? a); [|destruct (i =? b)]; agx.
    - intros u Hu. rewrite EN by auto. replace (kadd (ksumf (edge_energy (h1_rmb mneg em) edges u) used) k0) with (ksumf (edge_energy (h1_rmb mneg em) edges u) used) by ring.
      unfold ksumf. assert (HU : forall e, In e used -> e < length edges). { intros e He. apply filter_In in He as [He _]. eapply mastered_in; eauto. }
      clear - L LX HN HU HM. induction used as [|e l IH]; cbn [fold_right]; auto. rewrite IH by (intros; apply HU; now right). f_equal.
      unfold edge_energy, edge_action. assert (He := HU e (or_introl eq_refl)).
      rewrite (nth_error_nth' edges (0, 0) He). assert (Hin := nth_In edges (0, 0) He). destruct (nth e edges (0, 0)) as [a b].
      apply (proj1 HM) in Hin as (_ & _ & Hab). rewrite !Nat.eqb_refl. destruct (Nat.eqb_spec b a); [congruence|].
      unfold h1_rmb. cbn [Nat.eqb]. rewrite !HN. set (E := em e).
      rewrite (act_add B L), (act_opp L). rewrite !(dot_add B L), !(dot_add_r L).
      assert (DO : forall x y : X, dot (xopp x) y = kopp (dot x y)). { intros x y. rewrite <- (xsc_m1 L), (dot_sc B L). ring. }
      assert (DO2 : forall x y : X, dot x (xopp y) = kopp (dot x y)). { intros x y. rewrite (dot_comm B L), DO, (dot_comm B L). reflexivity. }
      rewrite ?DO, ?DO2. ring.
  Qed.

  (** Boosting the edges inside aggregates (AssembleAhatSparseStabSP): the pattern stays, a row acts as before on every vector
      whose values at the neighbours inside the aggregate transform to its own (so kernel vectors stay kernel vectors), rows
      without partner in the aggregate stay; for one mastered class and one process the diagonal is multiplied by 1 + theta,
      i.e. a smoothing step with the boosted matrix is one with the original matrix, damped by 1 / (1 + theta). *)
  Theorem C74_boost : forall (msc : K -> M -> M) kdiv keqb (trace : M -> K) QMQ vmap (Q : nat -> nat -> M) allred excl NV eqv theta (A : smat M),
    (forall c a x, act (msc c a) x = xsc c (act a x)) ->
    (exists inv : K -> K, (forall a b, kdiv a b = kmul a (inv b)) /\ (forall b, b <> k0 -> kmul b (inv b) = k1)) ->
    (forall a b, keqb a b = true <-> a = b) ->
    (forall j k c a x, act (QMQ j k c a) x = xsc c (act a (act (Q j k) x))) ->
    length A = NV -> (forall k, k < NV -> NoDup (map fst (nth k A [])) /\ In k (map fst (nth k A []))) ->
    let A' := addInAggregateEdgeBoost msc kdiv keqb trace QMQ vmap allred excl NV eqv theta A in
    length A' = NV /\ forall k, k < NV ->
      map fst (nth k A' []) = map fst (nth k A [])
      /\ (forall u, (forall j, In j (map fst (nth k A [])) -> j <> k -> vmap j = vmap k -> act (Q j k) (ent u j) = ent u k) ->
            row_times (nth k A' []) u = row_times (nth k A []) u)
      /\ ((forall j, In j (map fst (nth k A [])) -> j <> k -> vmap j <> vmap k) -> nth k A' [] = nth k A [])
      /\ (allred = (fun l => l) -> excl = None -> length (filter fst eqv) = 1 -> vmap k <> (-1)%Z ->
          ksumf (fun p => if negb (fst p =? k) && (vmap (fst p) =? vmap k)%Z then trace (snd p) else k0) (nth k A []) <> k0 ->
          let D := entry A k k in let D' := entry A' k k in
          (forall x, act D' x = xadd (act D x) (xsc theta (act D x))) /\
          (forall s x y, kmul s (kadd k1 theta) = k1 -> act D y = x -> act D' (xsc s y) = x)).
  Proof.
    intros msc kdiv keqb trace QMQ vmap Q allred excl NV eqv theta A H1 H2 H3 H4 HL HA A'.
    set (diags := allred (map (fun k => if (match excl with Some ex => ex k | None => false end) then m0 else diag_of A k) (seq 0 NV))).
    set (step := fun (A : smat M) (q : bool * list nat) =>
        if fst q then map (fun k => boost_row msc kdiv keqb trace QMQ vmap theta (nth k diags m0) k (nth k A [])) (seq 0 NV) else A).
    assert (EA' : A' = fold_left step eqv A) by reflexivity. clearbody A'.
    assert (STEP : forall (A1 : smat M) q, length A1 = NV -> length (step A1 q) = NV).
    { intros A1 q H. unfold step. destruct (fst q); auto. now rewrite map_length, seq_length. }
    assert (ROW : forall (A1 : smat M) q k, k < NV -> nth k (step A1 q) [] = if fst q then boost_row msc kdiv keqb trace QMQ vmap theta (nth k diags m0) k (nth k A1 []) else nth k A1 []).
    { intros A1 q k Hk. unfold step. destruct (fst q); auto. apply (nth_map_seq (fun k => boost_row msc kdiv keqb trace QMQ vmap theta (nth k diags m0) k (nth k A1 []))); auto. }
    assert (LENS : forall l (A1 : smat M), length A1 = NV -> length (fold_left step l A1) = NV).
    { induction l as [|q l IH]; intros A1 H; cbn [fold_left]; auto. }
    split. { rewrite EA'. apply LENS; auto. }
    intros k Hk.
    assert (COLS : forall l (A1 : smat M), length A1 = NV -> map fst (nth k (fold_left step l A1) []) = map fst (nth k A1 [])).
    { induction l as [|q l IH]; intros A1 H; cbn [fold_left]; auto. rewrite IH by auto. rewrite ROW by auto. destruct (fst q); auto. apply boost_row_cols. }
    split; [|split; [|split]].
    - rewrite EA'. apply COLS; auto.
    - intros u Hu. rewrite EA'.
      assert (G : forall l (A1 : smat M), length A1 = NV -> map fst (nth k A1 []) = map fst (nth k A []) -> row_times (nth k (fold_left step l A1) []) u = row_times (nth k A1 []) u).
      { induction l as [|q l IH]; intros A1 HL1 E1; cbn [fold_left]; auto.
        assert (E2 : map fst (nth k (step A1 q) []) = map fst (nth k A [])). { rewrite ROW by auto. destruct (fst q); auto. rewrite boost_row_cols. auto. }
        rewrite IH by auto. rewrite ROW by auto. destruct (fst q); auto.
        apply (boost_row_action L msc kdiv keqb trace QMQ vmap Q); auto.
        - rewrite E1. apply HA; auto. - rewrite E1. apply HA; auto.
        - intros p Hp. apply Hu. rewrite <- E1. now apply in_map. }
      apply G; auto.
    - intros Hn. rewrite EA'.
      assert (G : forall l (A1 : smat M), nth k A1 [] = nth k A [] -> nth k (fold_left step l A1) [] = nth k A []).
      { induction l as [|q l IH]; intros A1 E1; cbn [fold_left]; auto. apply IH. rewrite ROW by auto. destruct (fst q); auto. rewrite E1.
        apply (boost_row_alone L); auto. intros p Hp. apply Hn. now apply in_map. }
      apply G; auto.
    - intros Ea Ex Hone Hm Hs.
      assert (ER : nth k A' [] = boost_row msc kdiv keqb trace QMQ vmap theta (nth k diags m0) k (nth k A [])).
      { rewrite EA'. assert (G0 : forall l (A1 : smat M), filter fst l = [] -> nth k (fold_left step l A1) [] = nth k A1 []).
        { induction l as [|q l IH]; intros A1 H; cbn [fold_left filter] in *; auto. destruct (fst q) eqn:Eq; [discriminate|]. rewrite IH by auto. rewrite ROW by auto. now rewrite Eq. }
        assert (G1 : forall l (A1 : smat M), length (filter fst l) = 1 -> nth k (fold_left step l A1) [] = boost_row msc kdiv keqb trace QMQ vmap theta (nth k diags m0) k (nth k A1 [])).
        { induction l as [|q l IH]; intros A1 H; cbn [fold_left filter] in *; [discriminate|]. destruct (fst q) eqn:Eq.
          - cbn in H. injection H as H. apply length_zero_iff_nil in H. rewrite G0 by auto. rewrite ROW by auto. now rewrite Eq.
          - rewrite IH by auto. rewrite ROW by auto. now rewrite Eq. }
        apply G1; auto. }
      assert (ED : nth k diags m0 = diag_of A k).
      { unfold diags. rewrite Ea, Ex. apply (nth_map_seq (fun k => diag_of A k)); auto. }
      assert (EF : forall r : list (nat * M), NoDup (map fst r) -> In k (map fst r) ->
        exists p, find (fun p : nat * M => fst p =? k) r = Some p /\ forall x, act (row_ent r k) x = act (snd p) x).
      { clear - L LX. intros r ND Hi. unfold row_ent. induction r as [|p r IH]; [destruct Hi|]. cbn [find fold_right]. inversion ND as [|? ? N1 N2]; subst.
        destruct (Nat.eqb_spec (fst p) k) as [E|E].
        - exists p. split; auto. intros x. assert (R0 : fold_right (fun p s => if fst p =? k then madd (snd p) s else s) (@m0 B) r = m0).
          { clear - N1 E. induction r as [|q r IH]; cbn [fold_right]; auto. destruct (Nat.eqb_spec (fst q) k) as [Eq|Eq].
            - exfalso. apply N1. left. congruence. - apply IH. intros H. apply N1. now right. }
          rewrite R0, (act_madd B L), (act_m0 B L). agx.
        - apply IH; auto. destruct Hi as [Hi|Hi]; [cbn in Hi; congruence|auto]. }
      destruct (HA k Hk) as [ND Hi]. destruct (EF _ ND Hi) as (p & Fp & Ap).
      assert (ND' : NoDup (map fst (nth k A' []))) by (rewrite EA', COLS; auto). assert (Hi' : In k (map fst (nth k A' []))) by (rewrite EA', COLS; auto).
      destruct (EF _ ND' Hi') as (p' & Fp' & Ap').
      assert (HLS : lsum trace vmap k (nth k A []) <> k0) by (rewrite (lsum_r L); exact Hs).
      rewrite ER in Fp'. rewrite (find_boost msc kdiv keqb trace QMQ vmap H3 theta (nth k diags m0) k (nth k A []) Hm HLS) in Fp'. rewrite Fp in Fp'. cbn [option_map] in Fp'. injection Fp' as <-.
      cbn [snd] in Ap'. rewrite ED in Ap'. unfold diag_of in Ap'. rewrite Fp in Ap'.
      assert (DD : forall x, act (entry A' k k) x = xadd (act (entry A k k) x) (xsc theta (act (entry A k k) x))).
      { intros x. unfold entry, getrow. rewrite Ap', Ap, (act_madd B L), H1. reflexivity. }
      split; [exact DD|]. intros s x y Es Ey. rewrite DD. rewrite (act_sc B L), Ey, <- (sc_mul B L), <- (sc_kadd B L).
      replace (kadd s (kmul theta s)) with (kmul s (kadd k1 theta)) by ring. rewrite Es. apply (sc_1 B L).
  Qed.
End C74.
Print Assumptions C74_auxiliary_matrix.
Print Assumptions C74_h1.
Print Assumptions C74_boost.

(** *** examples: four vertices, the edges of a triangle and one more *)
Fixpoint insn (a : nat * nat) (l : list (nat * nat)) : list (nat * nat) :=
  match l with [] => [a] | b :: l' => if fst a <=? fst b then a :: l else b :: insn a l' end.
Definition ex_sortn (l : list (nat * nat)) : list (nat * nat) := fold_right insn [] l.
Lemma ex_sortn_ok : sortn_ok ex_sortn.
Proof.
  assert (P : forall a l, Permutation (a :: l) (insn a l)).
  { intros a. induction l as [|b l IH]; cbn [insn]; auto. destruct (fst a <=? fst b); auto. eapply perm_trans; [apply perm_swap|]. auto. }
  assert (S : forall a l, StronglySorted (fun a b => fst a <= fst b) l -> StronglySorted (fun a b => fst a <= fst b) (insn a l)).
  { intros a. induction 1 as [|b l H IH F]; cbn [insn]; [repeat constructor|]. destruct (Nat.leb_spec (fst a) (fst b)).
    - constructor; [constructor; auto|]. constructor; [auto|]. rewrite Forall_forall in *. intros x Hx. specialize (F x Hx). cbn in *. lia.
    - constructor; auto. rewrite Forall_forall in *. intros x Hx. apply (Permutation_in _ (Permutation_sym (P a l))) in Hx. destruct Hx as [<-|Hx]; [lia|auto]. }
  intros l. induction l as [|a l [IP IS]]; cbn [ex_sortn fold_right]; [repeat constructor|]. split; [|apply S; auto].
  eapply perm_trans; [apply perm_skip, IP|]. apply P.
Qed.
Definition ax_edges : list (nat * nat) := [(0, 1); (2, 1); (0, 2); (2, 3)].
Definition ax_econ : list (list (nat * nat)) := [[(1, 0); (2, 2)]; [(0, 0); (2, 1)]; [(0, 2); (1, 1); (3, 3)]; [(2, 3)]].
Lemma ax_simple : simple_mesh 4 ax_edges.
Proof.
  split.
  - intros a b H. cbn in H. repeat (destruct H as [H|H]; [inversion H; subst; lia|]). destruct H.
  - intros e e' v w H1 H2. unfold joins, ax_edges in *.
    do 4 (destruct e as [|e]; [do 4 (destruct e' as [|e']; [auto; cbn in *; exfalso; destruct H1 as [H1|H1], H2 as [H2|H2]; inversion H1; inversion H2; subst; discriminate|]); destruct e'; cbn in H2; destruct H2; discriminate|]).
    destruct e; cbn in H1; destruct H1; discriminate.
Qed.
Example C74_ex_econ : GetEdgeCM ex_sortn 4 ax_edges = Ret ax_econ. Proof. vm_compute. reflexivity. Qed.
Example C74_ex_connectivity : connectivity 4 ax_edges ax_econ.
Proof. destruct (GetEdgeCM_ok ex_sortn 4 ax_edges ex_sortn_ok ax_simple) as (econ & E & C). rewrite C74_ex_econ in E. injection E as <-. exact C. Qed.
Definition ax_em (e : nat) : Qc := nth e (map (fun z => Q2Qc (inject_Z z)) [1; 2; 3; 4]%Z) (Q2Qc 0).
Definition ax_show (r : res (list (list (nat * Qc)))) : res (list (list (nat * Q))) :=
  match r with Ret l => Ret (map (map (fun p => (fst p, this (snd p)))) l) | Err e => Err e end.
(** the process is not master of the class of edge 0 *)
Example C74_ex_matrix :
  ax_show (AssembleAhatSparse (B := QcBlk) ax_edges (@h1_rmb QcBlk Qcopp ax_em) (fun _ => Q2Qc 1) 4 ax_econ [(true, [1; 3]); (false, [0]); (true, [2])] [] false None)
  = Ret [[(0, 3%Q); (1, 0%Q); (2, (-3)%Q)]; [(0, 0%Q); (1, 2%Q); (2, (-2)%Q)]; [(0, (-3)%Q); (1, (-2)%Q); (2, 9%Q); (3, (-4)%Q)]; [(2, (-4)%Q); (3, 4%Q)]].
Proof. vm_compute. reflexivity. Qed.
Example C74_ex_hyps : classes_in (length ax_edges) [(true, [1; 3]); (false, [0]); (true, [2])] /\ classes_in 4 [(true, [0; 1; 2; 3])] /\
  (forall a x : Qc, act (b := QcBlk) (Qcopp a) x = xopp (b := QcBlk) (act (b := QcBlk) a x)).
Proof.
  split; [|split].
  - intros q v Hq Hv. cbn in Hq. repeat (destruct Hq as [<-|Hq]; [cbn in Hv; repeat (destruct Hv as [<-|Hv]; [cbn; lia|]); destruct Hv|]). destruct Hq.
  - intros q v Hq Hv. cbn in Hq. repeat (destruct Hq as [<-|Hq]; [cbn in Hv; repeat (destruct Hv as [<-|Hv]; [cbn; lia|]); destruct Hv|]). destruct Hq.
  - intros a x. cbn. ring.
Qed.

Definition ax_boost (eqv : list (bool * list nat)) : list (list (nat * Qc)) :=
  addInAggregateEdgeBoost (B := QcBlk) Qcmult Qcdiv (fun a b => if Qc_eq_dec a b then true else false) (fun m => m) (fun _ _ c m => Qcmult c m)
    (fun v => nth v [0; 0; 1]%Z (-1)%Z) (fun l => l) None 3 eqv (Q2Qc 1)
    (map (map (fun p : nat * Z => (fst p, Q2Qc (inject_Z (snd p))))) [[(0, 2%Z); (1, (-2)%Z)]; [(0, (-2)%Z); (1, 3%Z); (2, (-1)%Z)]; [(1, (-1)%Z); (2, 1%Z)]]).
Example C74_ex_boost : ax_show (Ret (ax_boost [(true, [0; 1; 2])])) = Ret [[(0, 4%Q); (1, (-4)%Q)]; [(0, (-5)%Q); (1, 6%Q); (2, (-1)%Q)]; [(1, (-1)%Q); (2, 1%Q)]].
Proof. vm_compute. reflexivity. Qed.
Example C74_ex_boost_hyps :
  (exists inv : Qc -> Qc, (forall a b, Qcdiv a b = Qcmult a (inv b)) /\ (forall b, b <> Q2Qc 0 -> Qcmult b (inv b) = Q2Qc 1)) /\
  (forall a b : Qc, (if Qc_eq_dec a b then true else false) = true <-> a = b).
Proof.
  split.
  - exists Qcinv. split; [reflexivity|]. intros b Hb. apply Qcmult_inv_r. exact Hb.
  - intros a b. destruct (Qc_eq_dec a b); split; auto; discriminate.
Qed.
(** The boost is applied to all rows once per mastered class: with two of them the diagonal is multiplied by 1 + 2 theta. *)
Theorem C74_boost_repeated_refuted : exists eqv, length (filter fst eqv) = 2 /\
  (entry (B := QcBlk) (ax_boost eqv) 1 1 = Q2Qc 9 /\ entry (B := QcBlk) (ax_boost [(true, [0; 1; 2])]) 1 1 = Q2Qc 6).
Proof. exists [(true, [0; 1]); (true, [2])]. split; [reflexivity|]. split; apply Qc_is_canon; vm_compute; reflexivity. Qed.
Print Assumptions C74_boost_repeated_refuted.
