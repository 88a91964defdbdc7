(** The redistributed mesh is again a distributed mesh. *)
From Verif Require Import Base EQCModel UtilProofs EQCProofs EQCProofs2 EQCProofs3 EQCProps AggMapModel AggMapProofs ReduceModel ReduceProps GCModel GCProofs GCProofs2 GCProps GEModel GEProofs GEProofs2 GEProofs3 GEProofs4 GEProofs5 GEProofs6 GEProofs7 GEProofs8 GESpec.
Local Open Scope nat_scope.

Lemma concat_seq (d : nat -> nat) n s : (forall c, c < n -> d c <= d (c + 1)) -> concat (map (fun c => seq (s + d c) (d (c + 1) - d c)) (seq 0 n)) = seq (s + d 0) (d n - d 0) /\ d 0 <= d n.
Proof.
  induction n as [|n IH]; intros M. cbn. now rewrite Nat.sub_diag. destruct IH as (A & B). intros; apply M; lia. rewrite seq_S, map_app, concat_app, A. cbn [map concat Nat.add]. rewrite app_nil_r. specialize (M n ltac:(lia)). split. 2: { replace (S n) with (n + 1) by lia. lia. }
  replace (s + d n) with (s + d 0 + (d n - d 0)) by lia. rewrite <- seq_app. f_equal. replace (S n) with (n + 1) by lia. lia.
Qed.
Lemma f2_seq {A B} (R : A -> B -> Prop) (f : nat -> A) (h : nat -> B) n : forall s s', (forall i, i < n -> R (f (s + i)) (h (s' + i))) -> Forall2 R (map f (seq s n)) (map h (seq s' n)).
Proof. induction n as [|n IH]; intros s s' X; cbn [seq map]; constructor. specialize (X 0 ltac:(lia)). now rewrite !Nat.add_0_r in X. apply IH. intros i Hi. specialize (X (S i) ltac:(lia)). now rewrite !Nat.add_succ_r in X. Qed.
Lemma map_concat_f {A B} (f : A -> B) (h : nat -> list A) l : concat (map (fun c => map f (h c)) l) = map f (concat (map h l)).
Proof. induction l as [|x l IH]; cbn; auto. now rewrite map_app, IH. Qed.
Section GE10.
  Variables (H : list (list (list nat))) (groups : list (list nat)).
  Hypothesis HW : world H.
  Notation np := (length H).
  Notation ng := (length groups).
  Notation grp g := (nth g groups []).
  Hypothesis G_rank : forall g p, g < ng -> In p (grp g) -> p < np.
  Hypothesis G_all : forall p, p < np -> exists g, g < ng /\ In p (grp g).
  Hypothesis G_one : forall g g' p, g < ng -> g' < ng -> In p (grp g) -> In p (grp g') -> g = g'.
  Hypothesis G_ne : forall g, g < ng -> grp g <> [].
  Hypothesis G_sort : forall g, g < ng -> sset (grp g).
  Notation MC := (MC H groups).
  Notation cset := (cset groups).
  Notation crow := (crow groups).
  Notation ctab_of := (ctab_of H groups).
  Notation mnr := (mnr H groups).
  Notation cnr := (cnr H groups).
  Notation cl := (cl H groups).
  Variable V : list (list (list nat)).
  Hypothesis V_len : forall r, r < np -> length (nth r V []) = length (nth r H []).
  Notation nv := (nv H V).
  Notation CN g := (length (ctab_of g)).
  Notation MN g := (length (MC g)).
  Notation CT := (CT H groups).
  Notation iv := (iv H groups V).
  Notation isv := (isv H groups V).
  Notation ise := (ise H groups V).
  Notation sp := (sp H groups V).
  Notation qd := (qd H groups V).
  Notation cE := (cE H groups).
  Notation isec := (isec groups).
  Notation dsp_ok := (dsp_ok H groups V).

  Variables (EI EC : list (list (list fedge))) (gvr : nat -> nat -> gv) (ei ec : list nat -> list ge).
  Notation gf := (gf gvr).
  Notation row T r j := (nth j (nth r T []) []).
  Hypothesis EI_len : forall r, r < np -> length (nth r EI []) = length (nth r H []).
  Hypothesis EC_len : forall r, r < np -> length (nth r EC []) = length (nth r H []).
  Hypothesis E_ei : forall r j, r < np -> j < length (nth r H []) -> map (gf r) (row EI r j) = ei (nth j (classes H r) []).
  Hypothesis E_ec : forall r j, r < np -> j < length (nth r H []) -> map (gf r) (row EC r j) = ec (nth j (classes H r) []).
  Hypothesis ei_ok : forall r D e, r < np -> In D (classes H r) -> In e (ei D) -> fst (fst e) = D /\ fst (snd e) = D /\ snd (fst e) < nv D /\ snd (snd e) < nv D.
  Hypothesis ec_ok : forall r D e, r < np -> In D (classes H r) -> In e (ec D) -> In (fst (fst e)) (classes H r) /\ In (fst (snd e)) (classes H r) /\ snd (fst e) < nv (fst (fst e)) /\ snd (snd e) < nv (fst (snd e)).
  Hypothesis closed : forall g A B, g < ng -> In A (MC g) -> In B (MC g) -> exists D, In D (MC g) /\ cset D = isec A B.
  Notation tg := (tg groups).
  Notation same := (same groups).
  Notation hit := (hit groups).
  Notation ci := (ci groups).
  Notation cc := (cc groups).
  Notation ci_i := (ci_i groups).
  Notation an_i := (an_i groups).
  Notation items := (items H groups V ec).
  Notation inv := (inv H groups V).
  Hypothesis ec_det : forall r D e, r < np -> In D (classes H r) -> In e (ec D) -> (forall x, In x D <-> In x (fst (fst e)) /\ In x (fst (snd e))) /\ fst (fst e) <> fst (snd e).
  Hypothesis ec_nd : forall r D, r < np -> In D (classes H r) -> NoDup (ec D).
  Hypothesis ec_sw : forall r D e, r < np -> In D (classes H r) -> In e (ec D) -> ~ In (snd e, fst e) (ec D).
  Hypothesis ei_nd : forall r D, r < np -> In D (classes H r) -> NoDup (ei D).
  Hypothesis ei_sw : forall r D e, r < np -> In D (classes H r) -> In e (ei D) -> ~ In (snd e, fst e) (ei D).
  Notation AG := (AG H groups V ec).
  Notation nci := (nci groups ec).
  Notation ncc := (ncc groups ec).
  Notation nan := (nan groups ec).
  Notation ecs_of := (ecs_of groups EC).
  Notation ees_of := (ees_of groups EI).
  Notation is_sender := (is_sender H groups).
  Notation mslot g s := (mnr g (cl g (fst s) (snd s))).
  Notation cslot g s := (cnr g (cl g (fst s) (snd s))).
  Notation Dm := (Dm H groups).
  Notation mcl := (mcl H groups).
  Notation fII := (fII H groups V ei).
  Notation fCI := (fCI H groups V ec).
  Notation fCC := (fCC H groups V ec).
  Notation ms := (ms H groups).
  Notation Ec := (Ec H groups).
  Notation ld := (ld H groups V ec).
  Notation AI := (AI H groups V ec).
  Notation AC := (AC H groups V ec).
  Notation LII := (LII H groups V ei).
  Notation LCI := (LCI H groups V ec).
  Notation LCC := (LCC H groups V ec).
  Notation in1 := (in1 H groups V ei ec).
  Notation in2 := (in2 H groups V ec).
  Notation CL1 := (CL1 H groups V ei ec).
  Notation CL2 := (CL2 H groups V ec).
  Notation CL := (CL H groups V ei ec).
  Notation X5 := (X5 H groups V ei ec).
  Notation ok_at := (ok_at H groups V ei ec).
  Notation ae_ok := (ae_ok H groups V ec).
  Notation psm g f k := (psum (mcl g) (fun m => length (f g m)) k).
  Notation R_ok := (R_ok H groups V EI EC gvr).
  Notation split_ok := (split_ok H groups V ec).
  Notation im := (im H groups V).
  Notation E_ok := (E_ok H groups V EI EC gvr ei ec).
  Notation ps := (ps H groups V).
  Notation base := (base H groups V).
  Notation cnt := (cnt H groups V).
  Lemma flat_shared g g' c c' (h : nat -> list nat -> list ge) : g < ng -> g' < ng -> c < CN g -> c' < CN g' -> Ec g c = Ec g' c' -> (forall D, In D (MC g) -> In D (MC g') -> h g D = h g' D) ->
    flat_map (fun m => h g (Dm g m)) (ms g c) = flat_map (fun m => h g' (Dm g' m)) (ms g' c').
  Proof.
    intros Hg Hg' Hc Hc' E X. rewrite !ms_flat. destruct (class_D H groups g c Hc) as (D & D1 & D2). destruct (class_D H groups g' c' Hc') as (D' & D1' & D2'). rewrite <- D2, <- D2'. rewrite !(cnr_blk H groups HW G_rank G_one) by auto. assert (EE : cset D = cset D') by (rewrite <- (Ec_cset H groups HW G_rank G_one g D), <- (Ec_cset H groups HW G_rank G_one g' D'); congruence).
    assert (I1 : In g (cset D)) by now apply (MC_gof H groups HW G_rank G_one). assert (I2 : In g' (cset D)) by (rewrite EE; now apply (MC_gof H groups HW G_rank G_one)). rewrite <- EE. rewrite (blk_shared H groups HW G_rank G_all G_one g g') by auto. 
    rewrite !flat_map_concat_map. f_equal. apply map_ext_in. intros F Y. apply X. rewrite <- (blk_shared H groups HW G_rank G_all G_one g g') in Y by auto. apply blk_in in Y. apply Y. apply blk_in in Y. apply Y.
  Qed.
  Lemma in1_shared g g' c c' : g < ng -> g' < ng -> c < CN g -> c' < CN g' -> Ec g c = Ec g' c' -> in1 g c = in1 g' c'.
  Proof.
    intros Hg Hg' Hc Hc' E. unfold GEProofs5.in1. rewrite E. f_equal; [|f_equal].
    - unfold GEProofs5.LII, GEProofs5.fII. apply (flat_shared g g' c c' (fun g D => map (sp g) (ei D))); auto. intros D X X'. apply map_ext_in. intros e Y. apply (sp_shared H groups HW G_rank G_all G_one V); auto; eapply (ei_ise H groups G_rank V ei ei_ok); eauto.
    - unfold GEProofs5.LCI, GEProofs5.fCI. apply (flat_shared g g' c c' (fun g D => map (sp g) (filter (ci D) (ec D)))); auto. intros D X X'. apply map_ext_in. intros e Y. apply filter_In in Y as (Y & _). apply (sp_shared H groups HW G_rank G_all G_one V); auto; eapply (ec_ise H groups G_rank V ec ec_ok); eauto.
  Qed.
  Lemma in2_shared g g' c c' : g < ng -> g' < ng -> c < CN g -> c' < CN g' -> Ec g c = Ec g' c' -> in2 g c = in2 g' c'.
  Proof.
    intros Hg Hg' Hc Hc' E. unfold GEProofs5.in2. rewrite E. f_equal.
    unfold GEProofs5.LCC, GEProofs5.fCC. apply (flat_shared g g' c c' (fun g D => map (sp g) (filter (cc D) (ec D)))); auto. intros D X X'. apply map_ext_in. intros e Y. apply filter_In in Y as (Y & _). apply (sp_shared H groups HW G_rank G_all G_one V); auto; eapply (ec_ise H groups G_rank V ec ec_ok); eauto.
  Qed.
  (** *** edges of the list *)
  Lemma CL_lt g e : g < ng -> split_ok g -> In e (CL g) -> ise g e /\ iv g (fst e) < iv g (snd e).
  Proof.
    intros Hg HS X. apply (CL_in H groups HW G_rank G_all G_one G_sort V V_len ei ec ec_ok closed ec_det g e Hg HS) in X.
    assert (K : exists e', ise g e' /\ fst e' <> snd e' /\ e = sp g e').
    { destruct X as [(D & e' & X1 & X2 & X3)|(q & D & e' & Hq & X1 & X2 & X4 & X3)]; exists e'.
      - split. now apply (ei_ise H groups G_rank V ei ei_ok g D). split; auto. intros Q. destruct (MC_r H groups G_rank g D Hg X1) as (r & R1 & R2). apply (ei_sw r D e' R1 R2 X2). rewrite Q. rewrite <- Q at 1. destruct e'; auto.
      - split. eapply (ec_isv H groups HW G_rank G_all G_one V ec ec_ok q D e' g); eauto. split; auto. intros Q. destruct (MC_r H groups G_rank q D Hq X1) as (r & R1 & R2). destruct (ec_det r D e' R1 R2 X2) as (_ & N). congruence. }
    destruct K as (e' & K1 & K2 & ->). split. now apply sp_ise. assert (N : iv g (fst e') <> iv g (snd e')). { intros Q. apply K2. eapply (iv_inj H groups V g); eauto; apply K1. } unfold GEProofs2.sp. destruct (Nat.ltb_spec (iv g (snd e')) (iv g (fst e'))); cbn [fst snd]; lia.
  Qed.
  Lemma edge_nr_ok g E i : E_ok g E -> i < length (CL g) -> edge_nr E i = (im g (nth i (CL g) dge), i).
  Proof. intros (_ & _ & _ & A & _) Hi. unfold edge_nr. rewrite A, (nth_map_ok _ _ _ dge) by auto. reflexivity. Qed.
  Lemma ie_nth g E c : E_ok g E -> c <= CN g -> nth c (e_ie E) 0 = b3 (X5 g) c /\ nth c (e_ce E) 0 = b2 (X5 g) c /\ last (e_ie E) 0 = length (CL1 g) /\ last (e_ce E) 0 = length (CL2 g) /\ length (e_ie E) = CN g + 1 /\ length (e_ce E) = CN g + 1.
  Proof.
    intros (_ & A & B & _) Hc. rewrite A, B. destruct (die_ok (X5 g)) as (D1 & D2 & D3 & D4). destruct (last_die (X5 g)) as (L1 & L2). rewrite X5_len in *. rewrite D1, D3, D2, D4, L1, L2 by auto. rewrite <- CL1_len, <- CL2_len. repeat (split; auto); lia.
  Qed.
  Lemma b3_S g c : c < CN g -> b3 (X5 g) (c + 1) = b3 (X5 g) c + length (in1 g c) /\ b2 (X5 g) (c + 1) = b2 (X5 g) c + length (in2 g c).
  Proof. intros Hc. rewrite !b3_ok, !b2_ok by lia. replace (c + 1) with (S c) by lia. now rewrite !sg_S. Qed.
  Lemma new_inner_row g E c : E_ok g E -> c < CN g -> nth c (new_inner (contr H groups g) E) [] = map (fun i => (im g (nth (i - b3 (X5 g) c) (in1 g c) dge), i)) (seq (b3 (X5 g) c) (length (in1 g c))).
  Proof.
    intros HE Hc. unfold new_inner. cbn [c_tab contr]. rewrite (nth_map_ok _ _ _ 0) by (now rewrite seq_length). rewrite seq_nth by auto. cbn [Nat.add]. destruct (ie_nth g E c HE ltac:(lia)) as (A & _). destruct (ie_nth g E (c + 1) HE ltac:(lia)) as (A' & _). rewrite A, A'. destruct (b3_S g c Hc) as (S1 & _). rewrite S1. replace (b3 (X5 g) c + length (in1 g c) - b3 (X5 g) c) with (length (in1 g c)) by lia.
    apply map_ext_in. intros i Hi. apply in_seq in Hi. destruct (CL1_nth H groups V ei ec g c (i - b3 (X5 g) c) dge Hc ltac:(lia)) as (N1 & N2). replace (b3 (X5 g) c + (i - b3 (X5 g) c)) with i in N1, N2 by lia. rewrite (edge_nr_ok g) by (auto; unfold GEProofs5.CL; rewrite app_length; lia). now rewrite N1.
  Qed.
  Lemma new_cross_row g E c : E_ok g E -> c < CN g -> nth c (new_cross (contr H groups g) E) [] = map (fun i => (im g (nth (i - (length (CL1 g) + b2 (X5 g) c)) (in2 g c) dge), i)) (seq (length (CL1 g) + b2 (X5 g) c) (length (in2 g c))).
  Proof.
    intros HE Hc. unfold new_cross. cbn [c_tab contr]. rewrite (nth_map_ok _ _ _ 0) by (now rewrite seq_length). rewrite seq_nth by auto. cbn [Nat.add]. destruct (ie_nth g E c HE ltac:(lia)) as (_ & A & L & _). destruct (ie_nth g E (c + 1) HE ltac:(lia)) as (_ & A' & _). rewrite A, A', L. destruct (b3_S g c Hc) as (_ & S1). rewrite S1. replace (b2 (X5 g) c + length (in2 g c) - b2 (X5 g) c) with (length (in2 g c)) by lia.
    apply map_ext_in. intros i Hi. apply in_seq in Hi. destruct (CL2_nth H groups V ei ec g c (i - (length (CL1 g) + b2 (X5 g) c)) dge Hc ltac:(lia)) as (N1 & N2). replace (length (CL1 g) + (b2 (X5 g) c + (i - (length (CL1 g) + b2 (X5 g) c)))) with i in N1 by lia. rewrite (edge_nr_ok g) by (auto; unfold GEProofs5.CL; rewrite app_length; lia). now rewrite N1.
  Qed.
  (** *** the tables of all groups *)
  Variables (Rf : nat -> cverts) (Ef : nat -> cedges).
  Hypothesis HR : forall g, g < ng -> R_ok g (Rf g).
  Hypothesis HE : forall g, g < ng -> E_ok g (Ef g).
  Definition NV : list (list (list nat)) := map (fun g => new_verts (contr H groups g) (Rf g)) (seq 0 ng).
  Definition NI : list (list (list fedge)) := map (fun g => new_inner (contr H groups g) (Ef g)) (seq 0 ng).
  Definition NC : list (list (list fedge)) := map (fun g => new_cross (contr H groups g) (Ef g)) (seq 0 ng).
  Lemma fam_nth {A} (f : nat -> A) g d : g < ng -> nth g (map f (seq 0 ng)) d = f g.
  Proof. intros Hg. rewrite (nth_map_ok _ _ _ 0) by (now rewrite seq_length). now rewrite seq_nth. Qed.
  Lemma base_S g c : base g (c + 1) = base g c + cnt g c.
  Proof. unfold GCProofs2.base. replace (c + 1) with (S c) by lia. rewrite seq_S, map_app, sum_app. cbn. lia. Qed.
  Lemma NV_row g c : g < ng -> c < CN g -> row NV g c = seq (base g c) (cnt g c).
  Proof. intros Hg Hc. unfold NV. rewrite fam_nth by auto. unfold new_verts. cbn [c_tab contr]. rewrite (nth_map_ok _ _ _ 0) by (now rewrite seq_length). rewrite seq_nth by auto. cbn [Nat.add]. destruct (HR g Hg) as ((_ & A) & _). rewrite !A by lia. rewrite base_S. f_equal. lia. Qed.
  Lemma CT_row g c : g < ng -> members g (row CT g c) = Ec g c. Proof. intros Hg. rewrite CT_nth by auto. reflexivity. Qed.
  Lemma at_new g a : g < ng -> isv g a -> at_vertex CT NV g (iv g a) (cnr g (fst a)) (ps a).
  Proof.
    intros Hg X. destruct (cnr_ok H groups g _ (proj1 X)) as (C1 & _). destruct (iv_range H groups V g a X) as (R1 & _). pose proof (iv_ps H groups HW G_rank G_all G_one V g a Hg X) as P. split. now rewrite CT_nth. rewrite NV_row by auto. rewrite seq_length. replace (S (cnr g (fst a))) with (cnr g (fst a) + 1) in R1 by lia. rewrite base_S in R1. split. lia. rewrite seq_nth by lia. lia.
  Qed.
  Lemma row_CT_inc g c : g < ng -> c < CN g -> increasing (row CT g c).
  Proof. intros Hg Hc. apply (row_facts CT (CT_world H groups HW G_rank G_all G_one) g). now rewrite CT_len. apply nth_In. now rewrite CT_nth. Qed.
  Lemma same_Ec g g' c c' : g < ng -> g' < ng -> c < CN g -> c' < CN g' -> (same_class g (row CT g c) g' (row CT g' c') <-> Ec g c = Ec g' c').
  Proof. intros Hg Hg' Hc Hc'. rewrite <- !CT_row by auto. apply same_members; now apply row_CT_inc. Qed.
  Lemma same_new g g' a : g < ng -> g' < ng -> isv g a -> isv g' a -> same_vertex CT NV g (iv g a) g' (iv g' a).
  Proof.
    intros Hg Hg' X X'. exists (cnr g (fst a)), (cnr g' (fst a)), (ps a). split. now apply at_new. split. now apply at_new. apply same_Ec; auto. apply cnr_ok, X. apply cnr_ok, X'. rewrite (Ec_cset H groups HW G_rank G_one g) by (auto; apply X). rewrite (Ec_cset H groups HW G_rank G_one g') by (auto; apply X'). auto.
  Qed.
  Theorem new_vertex_tables : vertex_tables CT NV.
  Proof.
    constructor.
    - unfold NV. now rewrite map_length, seq_length, CT_len.
    - rewrite CT_len. intros g Hg. unfold NV. rewrite fam_nth, CT_nth by auto. unfold new_verts. now rewrite map_length, seq_length.
    - rewrite CT_len. intros g Hg. unfold NV. rewrite fam_nth by auto. unfold new_verts. cbn [c_tab contr]. destruct (HR g Hg) as ((_ & A) & _).
      destruct (concat_seq (fun c => nth c (v_dsp (Rf g)) 0) (CN g) 0) as (B & _). { intros c Hc. rewrite !A by lia. rewrite base_S. lia. } cbn [Nat.add] in B. rewrite B. rewrite A by lia. change (base g 0) with 0. rewrite seq_length. reflexivity.
    - rewrite CT_len. intros g g' c c' Hg Hg' Hc Hc' SC. rewrite CT_nth in Hc, Hc' by auto. rewrite !NV_row by auto. rewrite !seq_length. apply same_Ec in SC; auto. destruct (class_D H groups g c Hc) as (D & D1 & D2). destruct (class_D H groups g' c' Hc') as (D' & D1' & D2'). rewrite <- D2, <- D2' in *. rewrite !(Ec_cset H groups HW G_rank G_one) in SC by auto.
      assert (I2 : In g' (cset D)) by (rewrite SC; now apply (MC_gof H groups HW G_rank G_one)). assert (X : In D (MC g')) by now apply (MC_share H groups HW G_rank G_all G_one g). destruct (offs_shared H groups HW G_rank G_all G_one V g g' D Hg Hg' D1 X) as (_ & O). rewrite O. f_equal. apply (cnr_iff H groups HW G_rank G_one); auto.
  Qed.
  Lemma rank_new g : g < ng -> rank_edges NI NC g = map (edge_nr (Ef g)) (seq 0 (length (CL g))).
  Proof.
    intros Hg. assert (X := HE g Hg). unfold rank_edges, NI, NC. rewrite !fam_nth by auto. unfold new_inner, new_cross. cbn [c_tab contr]. rewrite !map_concat_f, <- map_app. f_equal.
    destruct (concat_seq (fun c => nth c (e_ie (Ef g)) 0) (CN g) 0) as (A & _). { intros c Hc. destruct (ie_nth g _ c X) as (-> & _); [lia|]. destruct (ie_nth g _ (c + 1) X) as (-> & _); [lia|]. destruct (b3_S g c Hc). lia. }
    destruct (concat_seq (fun c => nth c (e_ce (Ef g)) 0) (CN g) (last (e_ie (Ef g)) 0)) as (B & _). { intros c Hc. destruct (ie_nth g _ c X) as (_ & -> & _); [lia|]. destruct (ie_nth g _ (c + 1) X) as (_ & -> & _); [lia|]. destruct (b3_S g c Hc). lia. }
    cbn [Nat.add] in A. rewrite A, B. destruct (ie_nth g _ 0 X) as (-> & -> & -> & _); [lia|]. destruct (ie_nth g _ (CN g) X) as (-> & -> & _); [lia|]. rewrite <- CL1_len, <- CL2_len. change (b3 (X5 g) 0) with 0. change (b2 (X5 g) 0) with 0. rewrite Nat.add_0_r, !Nat.sub_0_r. rewrite <- seq_app. unfold GEProofs5.CL. now rewrite app_length.
  Qed.
  Lemma NI_row g c : g < ng -> c < CN g -> row NI g c = map (fun i => (im g (nth (i - b3 (X5 g) c) (in1 g c) dge), i)) (seq (b3 (X5 g) c) (length (in1 g c))).
  Proof. intros Hg Hc. unfold NI. rewrite fam_nth by auto. apply new_inner_row; auto. Qed.
  Lemma NC_row g c : g < ng -> c < CN g -> row NC g c = map (fun i => (im g (nth (i - (length (CL1 g) + b2 (X5 g) c)) (in2 g c) dge), i)) (seq (length (CL1 g) + b2 (X5 g) c) (length (in2 g c))).
  Proof. intros Hg Hc. unfold NC. rewrite fam_nth by auto. apply new_cross_row; auto. Qed.
  Lemma same_im g g' e i i' : g < ng -> g' < ng -> ise g e -> ise g' e -> same_ends CT NV g g' (im g e, i) (im g' e, i').
  Proof. intros Hg Hg' (A & B) (A' & B'). split; cbn [fst snd GEProofs7.im]; now apply same_new. Qed.
  Lemma tg_class g c e : g < ng -> c < CN g -> ise g e -> tg e = Ec g c -> forall x, shares g (row CT g c) x <-> shares g (row CT g (cnr g (fst (fst e)))) x /\ shares g (row CT g (cnr g (fst (snd e)))) x.
  Proof.
    intros Hg Hc (A & B) T x. assert (M : forall c, shares g (row CT g c) x <-> In x (Ec g c)) by (intros c1; rewrite <- CT_row by auto; now rewrite in_members). rewrite !M. rewrite <- T. unfold GEProofs3.tg. rewrite (isec_in groups). rewrite !(Ec_cset H groups HW G_rank G_one) by (auto; apply A || apply B). reflexivity.
  Qed.
  Theorem new_edge_tables : edge_tables CT NV NI NC.
  Proof.
    constructor.
    - unfold NI, NC. now rewrite !map_length, seq_length, CT_len.
    - rewrite CT_len. intros g Hg. unfold NI, NC. rewrite !fam_nth, CT_nth by auto. unfold new_inner, new_cross. now rewrite !map_length, seq_length.
    - rewrite CT_len. intros g Hg. rewrite rank_new by auto. rewrite map_map, map_length, seq_length. cbn [edge_nr snd]. now rewrite map_id.
    - rewrite CT_len. intros g e Hg X. rewrite rank_new in X by auto. apply in_map_iff in X as (i & <- & Hi). apply in_seq in Hi. rewrite (edge_nr_ok g) by (auto; lia). cbn [fst snd]. apply CL_lt; auto. apply (HE g Hg). apply nth_In. lia.
    - rewrite CT_len. intros g Hg. rewrite rank_new by auto. rewrite map_map. assert (HS : split_ok g) by apply (HE g Hg). assert (ND := CL_nodup H groups HW G_rank G_all G_one G_sort V V_len ei ec ei_ok ec_ok closed ec_det ec_nd ec_sw ei_nd ei_sw g Hg HS).
      replace (map (fun i => fst (edge_nr (Ef g) i)) (seq 0 (length (CL g)))) with (map (im g) (CL g)). 2: { apply (nth_ext_eq _ _ (0, 0)). now rewrite !map_length, seq_length. intros i Hi. rewrite map_length in Hi. rewrite (nth_map_ok _ _ _ dge) by auto. rewrite (nth_map_ok _ _ _ 0) by (now rewrite seq_length). rewrite seq_nth by auto. rewrite (edge_nr_ok g) by auto. reflexivity. }
      apply nodup_map_in; auto. intros x y Hx Hy Q. destruct (CL_lt g x Hg HS Hx) as ((A1 & A2) & _). destruct (CL_lt g y Hg HS Hy) as ((B1 & B2) & _). unfold GEProofs7.im in Q. injection Q as Q1 Q2. apply (iv_inj H groups V g) in Q1; auto. apply (iv_inj H groups V g) in Q2; auto. destruct x, y; cbn [fst snd] in *; congruence.
    - rewrite CT_len. intros g c e Hg Hc X. rewrite CT_nth in Hc by auto. rewrite NI_row in X by auto. apply in_map_iff in X as (i & <- & Hi). apply in_seq in Hi. assert (HS : split_ok g) by apply (HE g Hg). set (x := nth _ (in1 g c) dge). assert (IX : In x (in1 g c)) by (apply nth_In; lia). destruct (in1_kind H groups HW G_rank G_all G_one G_sort V V_len ei ec ei_ok ec_ok closed ec_det g c x Hg HS Hc IX) as (K1 & K2 & K3).
      assert (KC : cnr g (fst (fst x)) = c /\ cnr g (fst (snd x)) = c). { destruct K1 as (K4 & K5). unfold GEProofs3.same in K2. apply list_eqb_eq in K2. unfold GEProofs3.tg in K3. rewrite (isec_same groups _ _ K2) in K3. rewrite <- (Ec_cset H groups HW G_rank G_one g) in K3 by (auto; apply K4). split. apply (Ec_inj H groups HW G_rank G_one g); auto. apply cnr_ok, K4. apply (Ec_inj H groups HW G_rank G_one g); auto. apply cnr_ok, K5. rewrite <- K3. rewrite !(Ec_cset H groups HW G_rank G_one g) by (auto; apply K4 || apply K5). auto. }
      destruct KC as (KC1 & KC2). cbn [fst snd GEProofs7.im]. split; eexists. rewrite <- KC1. apply at_new; auto. apply K1. rewrite <- KC2. apply at_new; auto. apply K1.
    - rewrite CT_len. intros g c e Hg Hc X. rewrite CT_nth in Hc by auto. rewrite NC_row in X by auto. apply in_map_iff in X as (i & <- & Hi). apply in_seq in Hi. assert (HS : split_ok g) by apply (HE g Hg). set (x := nth _ (in2 g c) dge). assert (IX : In x (in2 g c)) by (apply nth_In; lia). destruct (in2_kind H groups HW G_rank G_all G_one G_sort V V_len ec ec_ok closed ec_det g c x Hg HS Hc IX) as (K1 & K2 & K3).
      cbn [fst snd GEProofs7.im]. eexists _, _, _, _. split. apply at_new; auto. apply K1. split. apply at_new; auto. apply K1. split. { intros Q. apply (cnr_iff H groups HW G_rank G_one) in Q; auto. unfold GEProofs3.same in K2. rewrite Q, list_eqb_refl in K2. discriminate. apply K1. apply K1. } now apply tg_class.
    - rewrite CT_len. intros g g' c c' Hg Hg' Hc Hc' SC. rewrite CT_nth in Hc, Hc' by auto. apply same_Ec in SC; auto. assert (HS : split_ok g) by apply (HE g Hg). assert (HS' : split_ok g') by apply (HE g' Hg'). rewrite !NI_row, !NC_row by auto. assert (Q1 := in1_shared g g' c c' Hg Hg' Hc Hc' SC). assert (Q2 := in2_shared g g' c c' Hg Hg' Hc Hc' SC). rewrite <- Q1, <- Q2. split; apply f2_seq; intros i Hi.
      + replace (b3 (X5 g) c + i - b3 (X5 g) c) with i by lia. replace (b3 (X5 g') c' + i - b3 (X5 g') c') with i by lia. assert (IX : In (nth i (in1 g c) dge) (in1 g c)) by now apply nth_In. apply same_im; auto. eapply (in1_kind H groups HW G_rank G_all G_one G_sort V V_len ei ec ei_ok ec_ok closed ec_det g c); eauto. rewrite Q1 in IX at 2. eapply (in1_kind H groups HW G_rank G_all G_one G_sort V V_len ei ec ei_ok ec_ok closed ec_det g' c'); eauto.
      + replace (length (CL1 g) + b2 (X5 g) c + i - (length (CL1 g) + b2 (X5 g) c)) with i by lia. replace (length (CL1 g') + b2 (X5 g') c' + i - (length (CL1 g') + b2 (X5 g') c')) with i by lia. assert (IX : In (nth i (in2 g c) dge) (in2 g c)) by now apply nth_In. apply same_im; auto. eapply (in2_kind H groups HW G_rank G_all G_one G_sort V V_len ec ec_ok closed ec_det g c); eauto. rewrite Q2 in IX at 2. eapply (in2_kind H groups HW G_rank G_all G_one G_sort V V_len ec ec_ok closed ec_det g' c'); eauto.
  Qed.
End GE10.
