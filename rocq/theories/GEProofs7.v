(** Writing the edges of the new mesh and the maps. *)
From Verif Require Import Base EQCModel UtilProofs EQCProofs EQCProofs2 EQCProofs3 EQCProps AggMapModel AggMapProofs ReduceModel ReduceProps GCModel GCProofs GCProofs2 GEModel GEProofs GEProofs2 GEProofs3 GEProofs4 GEProofs5 GEProofs6.
Local Open Scope nat_scope.

Lemma nth_filter_pre {A} (f : A -> bool) (pre post : list A) e d : f e = true -> nth (cntb f pre) (filter f (pre ++ e :: post)) d = e /\ cntb f pre < length (filter f (pre ++ e :: post)).
Proof. intros F. rewrite filter_app. cbn [filter]. rewrite F. unfold cntb. rewrite app_nth2, Nat.sub_diag by lia. split; auto. rewrite app_length. cbn. lia. Qed.
Definition dge : ge := (([], 0), ([], 0)).

Section GE7.
  Variables (H : list (list (list nat))) (groups : list (list nat)).
  Hypothesis HW : world H.
  Notation np := (length H).
  Notation ng := (length groups).
  Notation grp g := (nth g groups []).
  Hypothesis G_rank : forall g p, g < ng -> In p (grp g) -> p < np.
  Hypothesis G_all : forall p, p < np -> exists g, g < ng /\ In p (grp g).
  Hypothesis G_one : forall g g' p, g < ng -> g' < ng -> In p (grp g) -> In p (grp g') -> g = g'.
  Hypothesis G_ne : forall g, g < ng -> grp g <> [].
  Hypothesis G_sort : forall g, g < ng -> sset (grp g).
  Notation MC := (MC H groups).
  Notation cset := (cset groups).
  Notation crow := (crow groups).
  Notation ctab_of := (ctab_of H groups).
  Notation mnr := (mnr H groups).
  Notation cnr := (cnr H groups).
  Notation cl := (cl H groups).
  Variable V : list (list (list nat)).
  Hypothesis V_len : forall r, r < np -> length (nth r V []) = length (nth r H []).
  Notation nv := (nv H V).
  Notation CN g := (length (ctab_of g)).
  Notation MN g := (length (MC g)).
  Notation CT := (CT H groups).
  Notation iv := (iv H groups V).
  Notation isv := (isv H groups V).
  Notation ise := (ise H groups V).
  Notation sp := (sp H groups V).
  Notation qd := (qd H groups V).
  Notation cE := (cE H groups).
  Notation isec := (isec groups).
  Notation dsp_ok := (dsp_ok H groups V).

  Variables (EI EC : list (list (list fedge))) (gvr : nat -> nat -> gv) (ei ec : list nat -> list ge).
  Notation gf := (gf gvr).
  Notation row T r j := (nth j (nth r T []) []).
  Hypothesis EI_len : forall r, r < np -> length (nth r EI []) = length (nth r H []).
  Hypothesis EC_len : forall r, r < np -> length (nth r EC []) = length (nth r H []).
  Hypothesis E_ei : forall r j, r < np -> j < length (nth r H []) -> map (gf r) (row EI r j) = ei (nth j (classes H r) []).
  Hypothesis E_ec : forall r j, r < np -> j < length (nth r H []) -> map (gf r) (row EC r j) = ec (nth j (classes H r) []).
  Hypothesis ei_ok : forall r D e, r < np -> In D (classes H r) -> In e (ei D) -> fst (fst e) = D /\ fst (snd e) = D /\ snd (fst e) < nv D /\ snd (snd e) < nv D.
  Hypothesis ec_ok : forall r D e, r < np -> In D (classes H r) -> In e (ec D) -> In (fst (fst e)) (classes H r) /\ In (fst (snd e)) (classes H r) /\ snd (fst e) < nv (fst (fst e)) /\ snd (snd e) < nv (fst (snd e)).
  Hypothesis closed : forall g A B, g < ng -> In A (MC g) -> In B (MC g) -> exists D, In D (MC g) /\ cset D = isec A B.
  Notation tg := (tg groups).
  Notation same := (same groups).
  Notation hit := (hit groups).
  Notation ci := (ci groups).
  Notation cc := (cc groups).
  Notation ci_i := (ci_i groups).
  Notation an_i := (an_i groups).
  Notation items := (items H groups V ec).
  Notation inv := (inv H groups V).
  Hypothesis ec_det : forall r D e, r < np -> In D (classes H r) -> In e (ec D) -> (forall x, In x D <-> In x (fst (fst e)) /\ In x (fst (snd e))) /\ fst (fst e) <> fst (snd e).
  Hypothesis ec_nd : forall r D, r < np -> In D (classes H r) -> NoDup (ec D).
  Hypothesis ec_sw : forall r D e, r < np -> In D (classes H r) -> In e (ec D) -> ~ In (snd e, fst e) (ec D).
  Hypothesis ei_nd : forall r D, r < np -> In D (classes H r) -> NoDup (ei D).
  Hypothesis ei_sw : forall r D e, r < np -> In D (classes H r) -> In e (ei D) -> ~ In (snd e, fst e) (ei D).
  Notation AG := (AG H groups V ec).
  Notation nci := (nci groups ec).
  Notation ncc := (ncc groups ec).
  Notation nan := (nan groups ec).
  Notation ecs_of := (ecs_of groups EC).
  Notation ees_of := (ees_of groups EI).
  Notation is_sender := (is_sender H groups).
  Notation mslot g s := (mnr g (cl g (fst s) (snd s))).
  Notation cslot g s := (cnr g (cl g (fst s) (snd s))).
  Notation Dm := (Dm H groups).
  Notation mcl := (mcl H groups).
  Notation fII := (fII H groups V ei).
  Notation fCI := (fCI H groups V ec).
  Notation fCC := (fCC H groups V ec).
  Notation ms := (ms H groups).
  Notation Ec := (Ec H groups).
  Notation ld := (ld H groups V ec).
  Notation AI := (AI H groups V ec).
  Notation AC := (AC H groups V ec).
  Notation LII := (LII H groups V ei).
  Notation LCI := (LCI H groups V ec).
  Notation LCC := (LCC H groups V ec).
  Notation in1 := (in1 H groups V ei ec).
  Notation in2 := (in2 H groups V ec).
  Notation CL1 := (CL1 H groups V ei ec).
  Notation CL2 := (CL2 H groups V ec).
  Notation CL := (CL H groups V ei ec).
  Notation X5 := (X5 H groups V ei ec).
  Notation ok_at := (ok_at H groups V ei ec).
  Notation ae_ok := (ae_ok H groups V ec).
  Notation psm g f k := (psum (mcl g) (fun m => length (f g m)) k).
  Notation vm_ok := (vm_ok H groups V EI EC gvr).
  Notation split_ok := (split_ok H groups V ec).
  Definition im (g : nat) (e : ge) : nat * nat := (iv g (fst e), iv g (snd e)).
  Definition flp (g r : nat) (e : fedge) : bool := iv g (gvr r (snd (fst e))) <? iv g (gvr r (fst (fst e))).
  Definition good (g : nat) (es : list (option (nat * nat))) (i : nat) : Prop := nth i es None = Some (im g (nth i (CL g) dge)).
  Definition einv (g : nat) (es : list (option (nat * nat))) : Prop := length es = length (CL g) /\ forall i, nth i es None = None \/ good g es i.
  Definition sub (g : nat) (es es' : list (option (nat * nat))) : Prop := forall i, good g es i -> good g es' i.
  Definition minv (g r n : nat) (F : fstate) (done : list fedge) : Prop :=
    einv g (f_edges F) /\ length (f_map F) = n /\ length (f_flip F) = n /\
    (forall e, In e done -> exists p, nth (snd e) (f_map F) None = Some p /\ ok_at g p (sp g (gf r e)) /\ good g (f_edges F) p /\ nth (snd e) (f_flip F) false = flp g r e) /\
    (forall id, ~ In id (map snd done) -> nth id (f_flip F) false = false).
  Lemma einv_upd g es p e : einv g es -> ok_at g p e -> einv g (upd es p (Some (im g e))) /\ sub g es (upd es p (Some (im g e))) /\ good g (upd es p (Some (im g e))) p.
  Proof.
    intros (L & A) (P1 & P2). assert (G : good g (upd es p (Some (im g e))) p) by (unfold good; rewrite nth_upd_eq by lia; now rewrite P2). split; [|split; auto].
    - split. now rewrite upd_length. intros i. destruct (Nat.eq_dec p i) as [<-|NE]; auto. unfold good. rewrite nth_upd_neq by auto. apply A.
    - intros i X. destruct (Nat.eq_dec p i) as [<-|NE]; auto. unfold good. now rewrite nth_upd_neq.
  Qed.
  Lemma put_ok g r n vm F done p e j : vm_ok g r vm -> j < length (nth r H []) -> In e (row EI r j) \/ In e (row EC r j) -> ok_at g p (sp g (gf r e)) -> snd e < n -> ~ In (snd e) (map snd done) -> minv g r n F done ->
    exists F', put vm F p e = Ret F' /\ minv g r n F' (done ++ [e]) /\ sub g (f_edges F) (f_edges F').
  Proof.
    intros HV Hj HE HP Hn ND (M1 & M2 & M3 & M4 & M5). destruct (HV j e Hj HE) as (A & B). unfold put. rewrite A. cbn [bind]. rewrite B. cbn [bind]. destruct (einv_upd g _ _ _ M1 HP) as (U1 & U2 & U3).
    assert (EI1 : (if iv g (gvr r (snd (fst e))) <? iv g (gvr r (fst (fst e))) then (iv g (gvr r (snd (fst e))), iv g (gvr r (fst (fst e)))) else (iv g (gvr r (fst (fst e))), iv g (gvr r (snd (fst e))))) = im g (sp g (gf r e))) by (unfold im, GEProofs2.sp, GEProofs3.gf; cbn [fst snd]; destruct (_ <? _); reflexivity). rewrite EI1.
    rewrite wr_ok by (destruct M1 as (M1 & _); rewrite M1; apply HP). cbn [bind]. rewrite wr_ok by lia. cbn [bind]. fold (flp g r e).
    assert (EF : (if flp g r e then wr (f_flip F) (snd e) true else Ret (f_flip F)) = Ret (if flp g r e then upd (f_flip F) (snd e) true else f_flip F)) by (destruct (flp g r e); auto; rewrite wr_ok by lia; auto). rewrite EF. cbn [bind]. eexists. split; [reflexivity|]. cbn [f_edges f_map f_flip]. split; auto.
    split; auto. cbn [f_edges f_map f_flip]. split. now rewrite upd_length. split. destruct (flp g r e); auto; now rewrite upd_length. split.
    - intros e' X. apply in_app_or in X as [X|[<-|[]]].
      + assert (NE : snd e <> snd e') by (intros Q; apply ND; rewrite Q; now apply in_map). destruct (M4 e' X) as (p' & Q1 & Q2 & Q3 & Q4). exists p'. rewrite nth_upd_neq by auto. split; auto. split; auto. split; auto. destruct (flp g r e); auto. now rewrite nth_upd_neq.
      + exists p. rewrite nth_upd_eq by lia. split; auto. split; auto. split; auto. destruct (flp g r e) eqn:EF1. rewrite nth_upd_eq by lia. auto. now apply M5.
    - intros id X. rewrite map_app in X. assert (NE : snd e <> id) by (intros Q; apply X, in_or_app; right; now left). assert (X' : ~ In id (map snd done)) by (intros Q; apply X, in_or_app; now left). destruct (flp g r e); auto. rewrite nth_upd_neq by auto. auto.
  Qed.
  (** positions *)
  Definition P_ok (g : nat) (P : epos) : Prop :=
    (length (p_ii P) = MN g /\ forall m, m < MN g -> nth m (p_ii P) 0 = b3 (X5 g) (cnr g (Dm g m)) + psm g fII m) /\
    (length (p_cc P) = MN g /\ forall m, m < MN g -> nth m (p_cc P) 0 = length (CL1 g) + (b2 (X5 g) (cnr g (Dm g m)) + psm g fCC m)) /\
    (forall m, m < MN g -> at2 (p_ci P) (m, cnr g (Dm g m)) = Ret (b3 (X5 g) (cnr g (Dm g m)) + length (LII g (cnr g (Dm g m))) + psm g fCI m)) /\
    (length (p_a P) = CN g /\ forall c, c < CN g -> nth c (p_a P) (0, 0) = (b3 (X5 g) c + length (LII g c) + length (LCI g c), length (CL1 g) + (b2 (X5 g) c + length (LCC g c)))) /\
    p_ac P = annoy_count (p_ae P) /\ ae_ok g (p_ae P).
  Lemma P_split g P : g < ng -> P_ok g P -> split_ok g.
  Proof. intros Hg (_ & _ & _ & _ & _ & _ & A) D X. destruct (cnr_ok H groups g D X) as (C1 & _). rewrite <- (Ec_cset H groups HW G_rank G_one g D Hg X). now apply A. Qed.
  (** *** edges within a class *)
  Lemma put_inner_ok g r n vm P j F done : g < ng -> In r (grp g) -> j < length (nth r H []) -> vm_ok g r vm -> P_ok g P -> let D := nth j (classes H r) [] in
    (forall e, In e (row EI r j) -> snd e < n) -> NoDup (map snd (done ++ row EI r j)) -> minv g r n F done ->
    exists F', foldM (fun F l => e <- rd (row EI r j) l ;; put vm F (nth (mnr g D) (p_ii P) 0 + l) e) (seq 0 (length (row EI r j))) F = Ret F' /\ minv g r n F' (done ++ row EI r j) /\ sub g (f_edges F) (f_edges F').
  Proof.
    intros Hg Hr Hj HV HP D HN ND HM. assert (Hrn := G_rank g r Hg Hr). assert (DC : In D (classes H r)) by (apply nth_In; unfold classes; now rewrite map_length). assert (DM : In D (MC g)) by (apply MC_in; exists r; auto). destruct (mnr_ok H groups g D DM) as (M1 & M2). destruct HP as ((_ & P1) & _).
    assert (DD : Dm g (mnr g D) = D) by exact M2. assert (EQ := E_ei r j Hrn Hj). fold D in EQ.
    assert (K : forall k, k <= length (row EI r j) -> exists F', foldM (fun F l => e <- rd (row EI r j) l ;; put vm F (nth (mnr g D) (p_ii P) 0 + l) e) (seq 0 k) F = Ret F' /\ minv g r n F' (done ++ firstn k (row EI r j)) /\ sub g (f_edges F) (f_edges F')).
    { induction k as [|k IH]; intros Hk.
      - exists F. cbn [firstn]. rewrite app_nil_r. split; auto. split; auto. intros i; auto.
      - destruct IH as (F1 & E1 & J1 & S1); [lia|]. rewrite seq_S, foldM_app, E1. cbn [bind foldM Nat.add]. set (e0 := ((0, 0), 0) : fedge). rewrite (rd_ok _ _ e0) by lia. cbn [bind]. set (e := nth k (row EI r j) e0). assert (IE : In e (row EI r j)) by (apply nth_In; lia).
        assert (FS : firstn (S k) (row EI r j) = firstn k (row EI r j) ++ [e]) by (apply firstn_S; lia).
        destruct (put_ok g r n vm F1 (done ++ firstn k (row EI r j)) (nth (mnr g D) (p_ii P) 0 + k) e j HV Hj) as (F2 & E2 & J2 & S2); auto.
        + rewrite P1 by auto. rewrite DD. assert (LI : length (fII g (mnr g D)) = length (row EI r j)) by (unfold GEProofs5.fII; rewrite map_length, DD, <- EQ, map_length; auto). pose proof (pos_ii H groups V ei ec g (mnr g D) k dge M1 ltac:(lia)) as Q. rewrite DD in Q. replace (sp g (gf r e)) with (nth k (fII g (mnr g D)) dge); auto.
          unfold GEProofs5.fII. rewrite DD, <- EQ. rewrite (nth_map_ok _ _ _ dge) by (rewrite map_length; lia). rewrite (nth_map_ok _ _ _ e0) by lia. reflexivity.
        + intros X. rewrite <- (firstn_skipn (S k) (row EI r j)), FS, !map_app in ND. rewrite !app_assoc in ND. apply NoDup_app_l in ND. rewrite <- app_assoc in ND. rewrite app_assoc in ND. apply (NoDup_remove_2 _ [] (snd e)) in ND. apply ND. rewrite app_nil_r, <- map_app. exact X.
        + rewrite E2. cbn [bind]. exists F2. rewrite FS, app_assoc. split; auto. split; auto. intros i X. auto. }
    destruct (K (length (row EI r j)) (Nat.le_refl _)) as (F' & E & J & S'). rewrite firstn_all in J. eauto.
  Qed.
  (** *** annoying edges are found *)
  Lemma find_ai g D e : g < ng -> split_ok g -> In D (MC g) -> ise g e -> In e (AI (cset D)) -> exists i, pos_by quad_eqb (qd e) (map qd (AG (cset D))) 0 = Ret i /\ i < length (AI (cset D)) /\ nth i (AI (cset D)) dge = e.
  Proof.
    intros Hg HS X IE Y. assert (Z : In e (AG (cset D))) by (apply (AI_same H groups HW G_rank G_all G_one G_sort V V_len ec ec_ok closed ec_det g); auto). destruct (pos_by_idx quad_eqb (qd e) (map qd (AG (cset D))) quad_eqb_eq (in_map qd _ _ Z) 0) as (Q1 & Q2 & Q3). cbn [Nat.add] in Q1. set (i := idx quad_eqb (qd e) (map qd (AG (cset D)))) in *. exists i. split; auto. rewrite map_length in Q2.
    assert (EN : nth i (AG (cset D)) dge = e). { specialize (Q3 (qd dge)). rewrite (nth_map_ok _ _ _ dge) in Q3 by auto. apply (qd_inj H groups HW G_rank G_all G_one V g); auto. apply (AG_ise H groups HW G_rank G_all G_one G_sort V V_len ec ec_ok closed ec_det g D); auto. now apply nth_In. }
    destruct (AI_same H groups HW G_rank G_all G_one G_sort V V_len ec ec_ok closed ec_det g D e Hg HS X Y) as (ES & _). assert (EA : AG (cset D) = AI (cset D) ++ AC (cset D)) by (symmetry; apply firstn_skipn).
    destruct (Nat.lt_ge_cases i (length (AI (cset D)))) as [L|L]. split; auto. rewrite EA, app_nth1 in EN by auto. auto. exfalso. rewrite EA, app_nth2 in EN by auto. assert (W : In e (AC (cset D))). { rewrite <- EN. apply nth_In. rewrite EA, app_length in Q2. lia. } apply (AC_same H groups HW G_rank G_all G_one G_sort V V_len ec ec_ok closed ec_det g) in W as (W & _); auto. congruence.
  Qed.
  Lemma find_ac g D e : g < ng -> split_ok g -> In D (MC g) -> ise g e -> In e (AC (cset D)) -> exists i, pos_by quad_eqb (qd e) (map qd (AC (cset D))) 0 = Ret i /\ i < length (AC (cset D)) /\ nth i (AC (cset D)) dge = e.
  Proof.
    intros Hg HS X IE Y. destruct (pos_by_idx quad_eqb (qd e) (map qd (AC (cset D))) quad_eqb_eq (in_map qd _ _ Y) 0) as (Q1 & Q2 & Q3). cbn [Nat.add] in Q1. set (i := idx quad_eqb (qd e) (map qd (AC (cset D)))) in *. exists i. split; auto. rewrite map_length in Q2. split; auto. specialize (Q3 (qd dge)). rewrite (nth_map_ok _ _ _ dge) in Q3 by auto. apply (qd_inj H groups HW G_rank G_all G_one V g); auto.
    apply (AG_ise H groups HW G_rank G_all G_one G_sort V V_len ec ec_ok closed ec_det g D); auto. apply (AC_same H groups HW G_rank G_all G_one G_sort V V_len ec ec_ok closed ec_det g); auto. now apply nth_In.
  Qed.
  (** *** cross edges *)
  Definition cr_inv (g r n : nat) (D : list nat) (st : fstate * list nat * nat) (done pre : list fedge) : Prop :=
    let '(F, cci, ccc) := st in minv g r n F (done ++ pre) /\ length cci = CN g /\ nth (cnr g D) cci 0 = cntb (ci D) (map (gf r) pre) /\ ccc = cntb (cc D) (map (gf r) pre).
  Lemma put_cross_ok g r n vm dsp P j st done pre e post : g < ng -> In r (grp g) -> j < length (nth r H []) -> vm_ok g r vm -> dsp_ok g dsp -> P_ok g P -> let D := nth j (classes H r) [] in row EC r j = pre ++ e :: post ->
    snd e < n -> NoDup (map snd (done ++ pre ++ [e])) -> cr_inv g r n D st done pre ->
    exists st', put_cross CT g (mnr g D) (cnr g D) dsp vm P st e = Ret st' /\ cr_inv g r n D st' done (pre ++ [e]) /\ sub g (f_edges (fst (fst st))) (f_edges (fst (fst st'))).
  Proof.
    intros Hg Hr Hj HV HD HP D ER Hn ND HI. assert (Hrn := G_rank g r Hg Hr). assert (DC : In D (classes H r)) by (apply nth_In; unfold classes; now rewrite map_length). assert (DM : In D (MC g)) by (apply MC_in; exists r; auto). assert (HE : In e (row EC r j)) by (rewrite ER; apply in_or_app; right; now left).
    assert (EE : In (gf r e) (ec D)) by (unfold D; rewrite <- (E_ec r j) by auto; now apply in_map). assert (IE : ise g (gf r e)) by (apply (ec_ise H groups G_rank V ec ec_ok g D); auto). assert (IS := sp_ise H groups V g _ IE). assert (HS := P_split g P Hg HP).
    destruct (tests H groups HW G_rank G_one V closed g D _ Hg DM IS) as (T1 & T2 & T3 & T4 & T5 & T6). rewrite same_sp, ?tg_sp in T1, T2, T3. rewrite tg_sp in T4, T5, T6. unfold GEProofs3.hit in T2, T4. rewrite tg_sp in T2, T3, T4. fold (hit D (gf r e)) in T2, T4.
    destruct st as ((F & cci) & ccc). destruct HI as (HM & LC & C1 & C2). destruct (mnr_ok H groups g D DM) as (M1 & M2). destruct (cnr_ok H groups g D DM) as (N1 & N2). assert (DD : Dm g (mnr g D) = D) by exact M2.
    assert (EQ := E_ec r j Hrn Hj). fold D in EQ. rewrite ER, map_app in EQ. cbn [map] in EQ. assert (NI : ~ In (snd e) (map snd (done ++ pre))). { rewrite app_assoc, map_app in ND. cbn [map] in ND. apply (NoDup_remove_2 _ [] (snd e)) in ND. now rewrite app_nil_r in ND. }
    destruct HP as ((PL1 & P1) & (PL2 & P2) & P3 & (PL4 & P4) & P5 & P6).
    assert (ANN : hit D (gf r e) = false -> exists F1, In F1 (MC g) /\ cset F1 = tg (gf r e) /\ cnr g F1 = cE g (tg (gf r e)) /\ Ec g (cE g (tg (gf r e))) = cset F1 /\ In (sp g (gf r e)) (AG (cset F1))).
    { intros EH. destruct (closed g _ _ Hg (proj1 (proj1 IE)) (proj1 (proj2 IE))) as (F1 & F2 & F3). fold (tg (gf r e)) in F3. exists F1. split; auto. split; auto. rewrite <- F3. split; auto. split. rewrite <- cnr_cE. now apply (Ec_cset H groups HW G_rank G_one). apply (AG_in H groups HW G_rank G_all G_one G_sort V V_len ec ec_ok closed ec_det g); auto. exists g, D, (gf r e). auto 10. }
    assert (KEEP : forall F', minv g r n F' (done ++ pre ++ [e]) -> ci D (gf r e) = false -> cc D (gf r e) = false -> cr_inv g r n D (F', cci, ccc) done (pre ++ [e])).
    { intros F' HF K1 K2. unfold cr_inv. rewrite map_app. cbn [map]. rewrite !cntb_snoc, K1, K2, !Nat.add_0_r. auto. }
    unfold put_cross. rewrite (ends_ok H groups V EI EC gvr g r vm j e HV Hj (or_intror HE)). cbn [bind]. rewrite !(class_of_vertex H groups V g dsp) by (auto; apply IS). cbn [bind]. rewrite T1. destruct (same (gf r e)) eqn:ES.
    - rewrite (T2 eq_refl). destruct (hit D (gf r e)) eqn:EH.
      + assert (KI : ci D (gf r e) = true) by (unfold GEProofs3.ci; now rewrite ES, EH). assert (KC : cc D (gf r e) = false) by (unfold GEProofs3.cc; now rewrite ES). assert (EC0 : cnr g (fst (fst (sp g (gf r e)))) = cnr g D). { rewrite (T3 eq_refl). apply Nat.eqb_eq in T4. auto. } rewrite EC0.
        assert (Q3 := P3 _ M1). rewrite DD in Q3. rewrite Q3. cbn [bind]. rewrite (rd_ok _ _ 0) by lia. cbn [bind]. rewrite wr_ok by lia. cbn [bind].
        destruct (nth_filter_pre (ci D) (map (gf r) pre) (map (gf r) post) (gf r e) dge KI) as (Z1 & Z2). rewrite EQ in Z1, Z2. assert (LI : cntb (ci D) (map (gf r) pre) < length (fCI g (mnr g D))) by (unfold GEProofs5.fCI; rewrite map_length, DD; auto).
        destruct (put_ok g r n vm F (done ++ pre) (b3 (X5 g) (cnr g D) + length (LII g (cnr g D)) + psm g fCI (mnr g D) + nth (cnr g D) cci 0) e j HV Hj (or_intror HE)) as (F2 & E2 & J2 & S2); auto.
        * rewrite C1. pose proof (pos_ci H groups V ei ec g (mnr g D) _ dge M1 LI) as Q. rewrite DD in Q. replace (sp g (gf r e)) with (nth (cntb (ci D) (map (gf r) pre)) (fCI g (mnr g D)) dge); auto. unfold GEProofs5.fCI. rewrite DD. rewrite (nth_map_ok _ _ _ dge) by auto. now rewrite Z1.
        * rewrite E2. cbn [bind]. eexists. split; [reflexivity|]. cbn [fst]. split; auto. unfold cr_inv. rewrite app_assoc. split; auto. rewrite upd_length. split; auto. rewrite nth_upd_eq by lia. rewrite map_app. cbn [map]. rewrite !cntb_snoc, KI, KC. lia.
      + assert (KI : ci D (gf r e) = false) by (unfold GEProofs3.ci; now rewrite ES, EH). assert (KC : cc D (gf r e) = false) by (unfold GEProofs3.cc; now rewrite ES). destruct (ANN eq_refl) as (F1 & A1 & A2 & A3 & A4 & A5). rewrite (quad_of_ok H groups HW G_rank G_all G_one V g dsp (sp g (gf r e))) by auto. cbn [bind]. rewrite (T3 eq_refl). destruct P6 as (AL & AN). destruct (AN _ T5) as (AN1 & _). rewrite (rd_ok _ _ []) by lia. cbn [bind]. rewrite AN1, A4.
        pose proof (AG_split H groups HW G_rank G_all G_one G_sort V V_len ec ec_ok closed ec_det g F1 _ Hg HS A1 A5) as SPL. rewrite same_sp, ES in SPL. destruct (find_ai g F1 _ Hg HS A1 IS SPL) as (i & I1 & I2 & I3). rewrite I1. cbn [bind]. rewrite (rd_ok _ _ (0, 0)) by lia. cbn [bind]. rewrite P4 by auto. cbn [fst].
        destruct (put_ok g r n vm F (done ++ pre) (b3 (X5 g) (cE g (tg (gf r e))) + length (LII g (cE g (tg (gf r e)))) + length (LCI g (cE g (tg (gf r e)))) + i) e j HV Hj (or_intror HE)) as (F2 & E2 & J2 & S2); auto.
        * pose proof (pos_ia H groups V ei ec g (cE g (tg (gf r e))) i dge T5) as Q. rewrite A4, I3 in Q. auto.
        * rewrite E2. cbn [bind]. eexists. split; [reflexivity|]. cbn [fst]. split; auto. apply KEEP; auto. now rewrite app_assoc.
    - rewrite T6. cbn [bind]. rewrite T4. destruct (hit D (gf r e)) eqn:EH.
      + assert (KI : ci D (gf r e) = false) by (unfold GEProofs3.ci; now rewrite ES). assert (KC : cc D (gf r e) = true) by (unfold GEProofs3.cc; now rewrite ES, EH). rewrite (rd_ok _ _ 0) by lia. cbn [bind]. rewrite P2 by auto. rewrite DD.
        destruct (nth_filter_pre (cc D) (map (gf r) pre) (map (gf r) post) (gf r e) dge KC) as (Z1 & Z2). rewrite EQ in Z1, Z2. assert (LI : cntb (cc D) (map (gf r) pre) < length (fCC g (mnr g D))) by (unfold GEProofs5.fCC; rewrite map_length, DD; auto).
        destruct (put_ok g r n vm F (done ++ pre) (length (CL1 g) + (b2 (X5 g) (cnr g D) + psm g fCC (mnr g D)) + ccc) e j HV Hj (or_intror HE)) as (F2 & E2 & J2 & S2); auto.
        * rewrite C2. pose proof (pos_cc H groups V ei ec g (mnr g D) _ dge M1 LI) as Q. rewrite DD in Q. replace (sp g (gf r e)) with (nth (cntb (cc D) (map (gf r) pre)) (fCC g (mnr g D)) dge); auto. unfold GEProofs5.fCC. rewrite DD. rewrite (nth_map_ok _ _ _ dge) by auto. now rewrite Z1.
        * rewrite E2. cbn [bind]. eexists. split; [reflexivity|]. cbn [fst]. split; auto. unfold cr_inv. rewrite app_assoc. split; auto. split; auto. rewrite map_app. cbn [map]. rewrite !cntb_snoc, KI, KC. lia.
      + assert (KI : ci D (gf r e) = false) by (unfold GEProofs3.ci; now rewrite ES). assert (KC : cc D (gf r e) = false) by (unfold GEProofs3.cc; now rewrite ES, EH). destruct (ANN eq_refl) as (F1 & A1 & A2 & A3 & A4 & A5). rewrite (quad_of_ok H groups HW G_rank G_all G_one V g dsp (sp g (gf r e))) by auto. cbn [bind]. destruct (ac_nth H groups V ec g _ _ P6 T5) as (AC1 & AC2). destruct P6 as (AL & AN). destruct (AN _ T5) as (AN1 & _). rewrite (rd_ok _ _ []) by lia. cbn [bind]. rewrite P5. rewrite (rd_ok _ _ (0, 0)) by (unfold annoy_count; rewrite map_length; lia). cbn [bind]. rewrite AC1. cbn [fst snd]. rewrite AN1, A4.
        pose proof (AG_split H groups HW G_rank G_all G_one G_sort V V_len ec ec_ok closed ec_det g F1 _ Hg HS A1 A5) as SPL. rewrite same_sp, ES in SPL. destruct (find_ac g F1 _ Hg HS A1 IS SPL) as (i & I1 & I2 & I3).
        replace (firstn (length (AC (cset F1))) (skipn (length (AI (cset F1))) (map qd (AG (cset F1))))) with (map qd (AC (cset F1))). 2: { rewrite A4 in AC2. rewrite AC2. rewrite skipn_map. fold (AC (cset F1)). rewrite firstn_all2; auto. now rewrite map_length. }
        rewrite I1. cbn [bind]. rewrite (rd_ok _ _ (0, 0)) by lia. cbn [bind]. rewrite P4 by auto. cbn [snd].
        destruct (put_ok g r n vm F (done ++ pre) (length (CL1 g) + (b2 (X5 g) (cE g (tg (gf r e))) + length (LCC g (cE g (tg (gf r e))))) + i) e j HV Hj (or_intror HE)) as (F2 & E2 & J2 & S2); auto.
        * pose proof (pos_ca H groups V ei ec g (cE g (tg (gf r e))) i dge T5) as Q. rewrite A4, I3 in Q. auto.
        * rewrite E2. cbn [bind]. eexists. split; [reflexivity|]. cbn [fst]. split; auto. apply KEEP; auto. now rewrite app_assoc.
  Qed.
  Lemma put_crosses_ok g r n vm dsp P j done : g < ng -> In r (grp g) -> j < length (nth r H []) -> vm_ok g r vm -> dsp_ok g dsp -> P_ok g P -> let D := nth j (classes H r) [] in
    (forall e, In e (row EC r j) -> snd e < n) -> NoDup (map snd (done ++ row EC r j)) -> forall post pre st, row EC r j = pre ++ post -> cr_inv g r n D st done pre ->
    exists st', foldM (put_cross CT g (mnr g D) (cnr g D) dsp vm P) post st = Ret st' /\ cr_inv g r n D st' done (pre ++ post) /\ sub g (f_edges (fst (fst st))) (f_edges (fst (fst st'))).
  Proof.
    intros Hg Hr Hj HV HD HP D HN ND. induction post as [|e post IH]; intros pre st ER HI; cbn [foldM]. { exists st. rewrite app_nil_r. split; auto. split; auto. intros i; auto. }
    destruct (put_cross_ok g r n vm dsp P j st done pre e post Hg Hr Hj HV HD HP ER) as (s1 & E1 & J1 & S1); auto. apply HN. rewrite ER. apply in_or_app. right. now left. { rewrite ER in ND. replace (done ++ pre ++ e :: post) with ((done ++ pre ++ [e]) ++ post) in ND by (rewrite <- !app_assoc; reflexivity). rewrite map_app in ND. now apply NoDup_app_l in ND. }
    fold D in E1. rewrite E1. cbn [bind]. destruct (IH (pre ++ [e]) s1) as (s2 & E2 & J2 & S2); auto. rewrite <- app_assoc. exact ER. exists s2. split; auto. rewrite <- app_assoc in J2. split; auto. intros i X; auto.
  Qed.
End GE7.
