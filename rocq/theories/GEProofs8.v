(** The edges of the new mesh: all members of a group and all groups. *)
From Verif Require Import Base EQCModel UtilProofs EQCProofs EQCProofs2 EQCProofs3 EQCProps AggMapModel AggMapProofs ReduceModel ReduceProps GCModel GCProofs GCProofs2 GEModel GEProofs GEProofs2 GEProofs3 GEProofs4 GEProofs5 GEProofs6 GEProofs7.
Local Open Scope nat_scope.

Lemma nth_rep {A} (x : A) n i : nth i (repeat x n) x = x.
Proof. revert i. induction n; intros [|i]; cbn; auto. Qed.
Section GE8.
  Variables (H : list (list (list nat))) (groups : list (list nat)).
  Hypothesis HW : world H.
  Notation np := (length H).
  Notation ng := (length groups).
  Notation grp g := (nth g groups []).
  Hypothesis G_rank : forall g p, g < ng -> In p (grp g) -> p < np.
  Hypothesis G_all : forall p, p < np -> exists g, g < ng /\ In p (grp g).
  Hypothesis G_one : forall g g' p, g < ng -> g' < ng -> In p (grp g) -> In p (grp g') -> g = g'.
  Hypothesis G_ne : forall g, g < ng -> grp g <> [].
  Hypothesis G_sort : forall g, g < ng -> sset (grp g).
  Notation MC := (MC H groups).
  Notation cset := (cset groups).
  Notation crow := (crow groups).
  Notation ctab_of := (ctab_of H groups).
  Notation mnr := (mnr H groups).
  Notation cnr := (cnr H groups).
  Notation cl := (cl H groups).
  Variable V : list (list (list nat)).
  Hypothesis V_len : forall r, r < np -> length (nth r V []) = length (nth r H []).
  Notation nv := (nv H V).
  Notation CN g := (length (ctab_of g)).
  Notation MN g := (length (MC g)).
  Notation CT := (CT H groups).
  Notation iv := (iv H groups V).
  Notation isv := (isv H groups V).
  Notation ise := (ise H groups V).
  Notation sp := (sp H groups V).
  Notation qd := (qd H groups V).
  Notation cE := (cE H groups).
  Notation isec := (isec groups).
  Notation dsp_ok := (dsp_ok H groups V).

  Variables (EI EC : list (list (list fedge))) (gvr : nat -> nat -> gv) (ei ec : list nat -> list ge).
  Notation gf := (gf gvr).
  Notation row T r j := (nth j (nth r T []) []).
  Hypothesis EI_len : forall r, r < np -> length (nth r EI []) = length (nth r H []).
  Hypothesis EC_len : forall r, r < np -> length (nth r EC []) = length (nth r H []).
  Hypothesis E_ei : forall r j, r < np -> j < length (nth r H []) -> map (gf r) (row EI r j) = ei (nth j (classes H r) []).
  Hypothesis E_ec : forall r j, r < np -> j < length (nth r H []) -> map (gf r) (row EC r j) = ec (nth j (classes H r) []).
  Hypothesis ei_ok : forall r D e, r < np -> In D (classes H r) -> In e (ei D) -> fst (fst e) = D /\ fst (snd e) = D /\ snd (fst e) < nv D /\ snd (snd e) < nv D.
  Hypothesis ec_ok : forall r D e, r < np -> In D (classes H r) -> In e (ec D) -> In (fst (fst e)) (classes H r) /\ In (fst (snd e)) (classes H r) /\ snd (fst e) < nv (fst (fst e)) /\ snd (snd e) < nv (fst (snd e)).
  Hypothesis closed : forall g A B, g < ng -> In A (MC g) -> In B (MC g) -> exists D, In D (MC g) /\ cset D = isec A B.
  Notation tg := (tg groups).
  Notation same := (same groups).
  Notation hit := (hit groups).
  Notation ci := (ci groups).
  Notation cc := (cc groups).
  Notation ci_i := (ci_i groups).
  Notation an_i := (an_i groups).
  Notation items := (items H groups V ec).
  Notation inv := (inv H groups V).
  Hypothesis ec_det : forall r D e, r < np -> In D (classes H r) -> In e (ec D) -> (forall x, In x D <-> In x (fst (fst e)) /\ In x (fst (snd e))) /\ fst (fst e) <> fst (snd e).
  Hypothesis ec_nd : forall r D, r < np -> In D (classes H r) -> NoDup (ec D).
  Hypothesis ec_sw : forall r D e, r < np -> In D (classes H r) -> In e (ec D) -> ~ In (snd e, fst e) (ec D).
  Hypothesis ei_nd : forall r D, r < np -> In D (classes H r) -> NoDup (ei D).
  Hypothesis ei_sw : forall r D e, r < np -> In D (classes H r) -> In e (ei D) -> ~ In (snd e, fst e) (ei D).
  Notation AG := (AG H groups V ec).
  Notation nci := (nci groups ec).
  Notation ncc := (ncc groups ec).
  Notation nan := (nan groups ec).
  Notation ecs_of := (ecs_of groups EC).
  Notation ees_of := (ees_of groups EI).
  Notation is_sender := (is_sender H groups).
  Notation mslot g s := (mnr g (cl g (fst s) (snd s))).
  Notation cslot g s := (cnr g (cl g (fst s) (snd s))).
  Notation Dm := (Dm H groups).
  Notation mcl := (mcl H groups).
  Notation fII := (fII H groups V ei).
  Notation fCI := (fCI H groups V ec).
  Notation fCC := (fCC H groups V ec).
  Notation ms := (ms H groups).
  Notation Ec := (Ec H groups).
  Notation ld := (ld H groups V ec).
  Notation AI := (AI H groups V ec).
  Notation AC := (AC H groups V ec).
  Notation LII := (LII H groups V ei).
  Notation LCI := (LCI H groups V ec).
  Notation LCC := (LCC H groups V ec).
  Notation in1 := (in1 H groups V ei ec).
  Notation in2 := (in2 H groups V ec).
  Notation CL1 := (CL1 H groups V ei ec).
  Notation CL2 := (CL2 H groups V ec).
  Notation CL := (CL H groups V ei ec).
  Notation X5 := (X5 H groups V ei ec).
  Notation ok_at := (ok_at H groups V ei ec).
  Notation ae_ok := (ae_ok H groups V ec).
  Notation psm g f k := (psum (mcl g) (fun m => length (f g m)) k).
  Notation vm_ok := (vm_ok H groups V EI EC gvr).
  Notation R_ok := (R_ok H groups V EI EC gvr).
  Notation split_ok := (split_ok H groups V ec).
  Notation im := (im H groups V).
  Notation flp := (flp H groups V gvr).
  Notation good := (good H groups V ei ec).
  Notation einv := (einv H groups V ei ec).
  Notation sub := (sub H groups V ei ec).
  Notation minv := (minv H groups V gvr ei ec).
  Notation P_ok := (P_ok H groups V ei ec).
  Definition nE (r : nat) : nat := length (concat (nth r EI [])) + length (concat (nth r EC [])).
  Definition upE (r k : nat) : list fedge := flat_map (fun j => row EI r j ++ row EC r j) (seq 0 k).
  Hypothesis num_lt : forall r e, r < np -> In e (upE r (length (nth r H []))) -> snd e < nE r.
  Hypothesis num_nd : forall r, r < np -> NoDup (map snd (upE r (length (nth r H [])))).

  Lemma sub_refl g es : sub g es es. Proof. intros i; auto. Qed.
  Lemma sub_trans g a b c : sub g a b -> sub g b c -> sub g a c. Proof. intros X Y i Z; auto. Qed.
  Lemma upE_S r k : upE r (S k) = upE r k ++ row EI r k ++ row EC r k.
  Proof. unfold upE. rewrite seq_S, flat_map_app. cbn [flat_map Nat.add]. now rewrite app_nil_r. Qed.
  Lemma upE_split r k n : k <= n -> exists rest, upE r n = upE r k ++ rest.
  Proof. intros X. exists (flat_map (fun j => row EI r j ++ row EC r j) (seq k (n - k))). unfold upE. rewrite <- flat_map_app. f_equal. rewrite <- (Nat.add_0_l k) at 2. rewrite <- seq_app. f_equal. lia. Qed.
  Lemma upE_in r j e n : j < n -> In e (row EI r j) \/ In e (row EC r j) -> In e (upE r n).
  Proof. intros Hj X. apply in_flat_map. exists j. split. apply in_seq. lia. apply in_or_app. auto. Qed.
  Lemma upE_nd r k : r < np -> k < length (nth r H []) -> NoDup (map snd (upE r k ++ row EI r k ++ row EC r k)).
  Proof. intros Hr Hk. destruct (upE_split r (S k) _ Hk) as (rest & E). pose proof (num_nd r Hr) as N. rewrite E, map_app in N. apply NoDup_app_l in N. now rewrite upE_S in N. Qed.
  (** *** one class of one member *)
  Lemma put_class_ok g k n vm dsp P j F : let r := nth k (grp g) 0 in g < ng -> k < length (grp g) -> j < length (nth r H []) -> n = nE r -> vm_ok g r vm -> dsp_ok g dsp -> P_ok g P -> minv g r n F (upE r j) ->
    exists F', put_class CT g (contr H groups g) dsp vm P (map (mnr g) (classes H r)) (nth r EI []) (nth r EC []) F j = Ret F' /\ minv g r n F' (upE r (S j)) /\ sub g (f_edges F) (f_edges F').
  Proof.
    intros r Hg Hk Hj En HV HD HP HM. assert (Hr : In r (grp g)) by now apply nth_In. assert (Hrn := G_rank g r Hg Hr). set (D := nth j (classes H r) []). assert (LC : length (classes H r) = length (nth r H [])) by (unfold classes; apply map_length). assert (DC : In D (classes H r)) by (apply nth_In; lia). assert (DM : In D (MC g)) by (apply MC_in; exists r; auto). destruct (mnr_ok H groups g D DM) as (M1 & M2).
    unfold put_class. rewrite (rd_ok _ _ 0) by (rewrite map_length; lia). cbn [bind]. rewrite (nth_map_ok _ _ _ []) by lia. fold D. cbn [c_mc contr c_tab]. rewrite (rd_ok _ _ 0) by (rewrite map_length; lia). cbn [bind]. rewrite (nth_map_ok _ _ _ []) by lia. rewrite M2. rewrite (rd_ok _ _ []) by (rewrite EI_len by auto; lia). cbn [bind]. assert (HP' := HP). destruct HP' as ((PL & _) & _). rewrite (rd_ok _ _ 0) by lia. cbn [bind].
    assert (ND := upE_nd r j Hrn Hj).
    destruct (put_inner_ok H groups G_rank V EI EC gvr ei ec E_ei g r n vm P j F (upE r j)) as (F1 & E1 & J1 & S1); auto. { intros e X. subst n. apply num_lt; auto. apply (upE_in r j); auto. } { rewrite app_assoc, map_app in ND. now apply NoDup_app_l in ND. }
    fold D in E1. rewrite E1. cbn [bind]. rewrite (rd_ok _ _ []) by (rewrite EC_len by auto; lia). cbn [bind].
    destruct (put_crosses_ok H groups HW G_rank G_all G_one G_sort V V_len EI EC gvr ei ec E_ec ec_ok closed ec_det g r n vm dsp P j (upE r j ++ row EI r j) Hg Hr Hj HV HD HP) with (post := row EC r j) (pre := @nil fedge) (st := (F1, repeat 0 (CN g), 0)) as (st & E2 & J2 & S2); auto.
    - intros e X. subst n. apply num_lt; auto. apply (upE_in r j); auto.
    - now rewrite <- app_assoc.
    - split; [now rewrite app_nil_r|]. split. apply repeat_length. split; auto. apply nth_rep.
    - fold D in E2. cbn [c_tab contr]. rewrite E2. cbn [bind]. destruct st as ((F2 & cci) & ccc). exists F2. split; auto. destruct J2 as (J2 & _). cbn [app] in J2. rewrite upE_S. rewrite <- app_assoc in J2. split; auto. cbn [fst] in S2. eapply sub_trans; eauto.
  Qed.
  Lemma put_classes_ok g k n vm dsp P es : let r := nth k (grp g) 0 in g < ng -> k < length (grp g) -> n = nE r -> vm_ok g r vm -> dsp_ok g dsp -> P_ok g P -> einv g es ->
    forall j, j <= length (nth r H []) -> exists F', foldM (put_class CT g (contr H groups g) dsp vm P (map (mnr g) (classes H r)) (nth r EI []) (nth r EC [])) (seq 0 j) (mkF es (repeat None n) (repeat false n)) = Ret F' /\ minv g r n F' (upE r j) /\ sub g es (f_edges F').
  Proof.
    intros r Hg Hk En HV HD HP HE. induction j as [|j IH]; intros Hj.
    - eexists. split; [reflexivity|]. split; [|apply sub_refl]. split; auto. cbn [f_map f_flip]. rewrite !repeat_length. split; auto. split; auto. split. intros e []. intros id _. apply nth_rep.
    - destruct IH as (F1 & E1 & J1 & S1); [lia|]. rewrite seq_S, foldM_app, E1. cbn [bind foldM Nat.add]. destruct (put_class_ok g k n vm dsp P j F1 Hg Hk Hj En HV HD HP J1) as (F2 & E2 & J2 & S2). fold r in E2. rewrite E2. cbn [bind]. exists F2. split; auto. split; auto. eapply sub_trans; eauto.
  Qed.
  (** *** all members *)
  Definition mem_ok (g : nat) (es : list (option (nat * nat))) (r : nat) (mp : list (option nat)) (fl : list bool) : Prop :=
    length mp = nE r /\ length fl = nE r /\ forall j e, j < length (nth r H []) -> In e (row EI r j) \/ In e (row EC r j) -> exists p, nth (snd e) mp None = Some p /\ ok_at g p (sp g (gf r e)) /\ good g es p /\ nth (snd e) fl false = flp g r e.
  Lemma mem_sub g es es' r mp fl : sub g es es' -> mem_ok g es r mp fl -> mem_ok g es' r mp fl.
  Proof. intros X (A & B & C). split; auto. split; auto. intros j e Hj He. destruct (C j e Hj He) as (p & C1 & C2 & C3 & C4). exists p. auto. Qed.
  Lemma put_members_ok g R P es : g < ng -> R_ok g R -> P_ok g P -> einv g es -> forall k, k <= length (grp g) ->
    exists es' maps flips, foldM (put_member CT g (contr H groups g) R P (ees_of g) (ecs_of g)) (seq 0 k) (es, [], []) = Ret (es', maps, flips) /\ length maps = k /\ length flips = k /\ einv g es' /\ sub g es es' /\
      forall i, i < k -> mem_ok g es' (nth i (grp g) 0) (nth i maps []) (nth i flips []).
  Proof.
    intros Hg (R1 & R2 & R3) HP HE. induction k as [|k IH]; intros Hk.
    - exists es, [], []. cbn. split; auto. split; auto. split; auto. split; auto. split. apply sub_refl. intros i Hi. lia.
    - destruct IH as (e1 & mp & fl & E1 & L1 & L2 & J1 & S1 & A1); [lia|]. rewrite seq_S, foldM_app, E1. cbn [bind foldM Nat.add]. set (r := nth k (grp g) 0). assert (Hr : In r (grp g)) by (apply nth_In; lia). assert (Hrn := G_rank g r Hg Hr).
      unfold put_member. cbn [c_om contr]. rewrite (rd_ok _ _ []) by (rewrite map_length; lia). cbn [bind]. rewrite (nth_map_ok _ _ _ 0) by lia. fold r. rewrite (rd_ok _ _ []) by lia. cbn [bind]. rewrite (rd_ok _ _ []) by (unfold GEProofs3.ees_of; rewrite map_length; lia). cbn [bind]. rewrite (rd_ok _ _ []) by (unfold GEProofs3.ecs_of; rewrite map_length; lia). cbn [bind].
      unfold GEProofs3.ees_of, GEProofs3.ecs_of. rewrite !(nth_map_ok _ _ _ 0) by lia. fold r. fold (nE r). change (om_of H groups g r) with (map (mnr g) (classes H r)). rewrite map_length. replace (length (classes H r)) with (length (nth r H [])) by (unfold classes; now rewrite map_length).
      destruct (put_classes_ok g k (nE r) (nth k (v_maps R) []) (v_dsp R) P e1 Hg Hk eq_refl (R3 k Hk) R1 HP J1 (length (nth r H [])) (Nat.le_refl _)) as (F & E2 & J2 & S2). fold r in E2, J2. rewrite E2. cbn [bind]. destruct J2 as (J2 & J3 & J4 & J5 & _).
      eexists _, _, _. split; [reflexivity|]. rewrite !app_length. cbn [length]. split; [lia|]. split; [lia|]. split; auto. split. eapply sub_trans; eauto. intros i Hi. destruct (Nat.eq_dec i k) as [->|NE].
      + rewrite !app_nth2 by lia. rewrite L1, L2, Nat.sub_diag. cbn [nth]. fold r. split; auto. split; auto. intros j e Hj He. apply J5. now apply (upE_in r j).
      + rewrite !app_nth1 by lia. eapply mem_sub; eauto. apply A1. lia.
  Qed.
  (** *** annoying edges *)
  Definition an_at (g c l : nat) : nat := if l <? length (AI (Ec g c)) then b3 (X5 g) c + length (LII g c) + length (LCI g c) + l else length (CL1 g) + (b2 (X5 g) c + length (LCC g c)) + (l - length (AI (Ec g c))).
  Lemma an_at_ok g P c l : P_ok g P -> c < CN g -> l < length (AG (Ec g c)) -> ok_at g (an_at g c l) (nth l (AG (Ec g c)) dge).
  Proof.
    intros HP Hc Hl. assert (EA : AG (Ec g c) = AI (Ec g c) ++ AC (Ec g c)) by (symmetry; apply firstn_skipn). unfold an_at. destruct (Nat.ltb_spec l (length (AI (Ec g c)))) as [L|L].
    - rewrite EA, app_nth1 by auto. now apply pos_ia.
    - rewrite EA, app_nth2 by auto. apply pos_ca; auto. rewrite EA, app_length in Hl. lia.
  Qed.
  Lemma put_annoy_ok g dsp P es ids c : g < ng -> dsp_ok g dsp -> P_ok g P -> einv g es -> c < CN g ->
    exists es', put_annoy CT g dsp P (es, ids) c = Ret (es', ids ++ [map (an_at g c) (seq 0 (length (AG (Ec g c))))]) /\ einv g es' /\ sub g es es' /\ forall l, l < length (AG (Ec g c)) -> good g es' (an_at g c l).
  Proof.
    intros Hg HD HP HE Hc. destruct (class_D H groups g c Hc) as (D0 & D1 & D2). assert (HP' := HP). destruct HP' as (_ & _ & _ & (P4 & P4') & P5 & P6). destruct (ac_nth H groups V ec g _ _ P6 Hc) as (Q1 & _). destruct P6 as (A1 & A2). destruct (A2 _ Hc) as (A3 & _).
    unfold put_annoy. rewrite (rd_ok _ _ []) by lia. cbn [bind]. rewrite (rd_ok _ _ (0, 0)) by lia. cbn [bind]. rewrite P5. rewrite (rd_ok _ _ (0, 0)) by (unfold annoy_count; rewrite map_length; lia). cbn [bind]. rewrite Q1, A3, P4' by auto. cbn [fst snd]. rewrite map_length.
    assert (IND : forall k, k <= length (AG (Ec g c)) -> exists es', foldM (fun '(es, ids) l => q <- rd (map qd (AG (Ec g c))) l ;; v0 <- end_of CT g dsp (fst q) ;; v1 <- end_of CT g dsp (snd q) ;;
      let id := if l <? length (AI (Ec g c)) then b3 (X5 g) c + length (LII g c) + length (LCI g c) + l else length (CL1 g) + (b2 (X5 g) c + length (LCC g c)) + (l - length (AI (Ec g c))) in
      es <- wr es id (Some (v0, v1)) ;; Ret (es, ids ++ [id])) (seq 0 k) (es, []) = Ret (es', map (an_at g c) (seq 0 k)) /\ einv g es' /\ sub g es es' /\ forall l, l < k -> good g es' (an_at g c l)).
    { induction k as [|k IH]; intros Hk.
      - exists es. split; auto. split; auto. split. apply sub_refl. intros; lia.
      - destruct IH as (e1 & E1 & J1 & S1 & G1); [lia|]. rewrite seq_S, foldM_app, E1. cbn [bind foldM Nat.add]. rewrite (rd_ok _ _ (qd dge)) by (rewrite map_length; lia). cbn [bind]. rewrite (nth_map_ok _ _ _ dge) by lia. set (e := nth k (AG (Ec g c)) dge).
        assert (IE : ise g e). { apply (AG_ise H groups HW G_rank G_all G_one G_sort V V_len ec ec_ok closed ec_det g D0); auto. rewrite <- (Ec_cset H groups HW G_rank G_one g D0) by auto. rewrite D2. apply nth_In. lia. }
        unfold GEProofs2.qd. cbn [fst snd]. rewrite !(end_of_ok H groups HW G_rank G_all G_one V g dsp) by (auto; apply IE). cbn [bind]. fold (an_at g c k). assert (OK : ok_at g (an_at g c k) e) by (apply (an_at_ok g P); auto; lia).
        rewrite wr_ok by (destruct J1 as (J1 & _); rewrite J1; apply OK). cbn [bind]. destruct (einv_upd H groups V ei ec g e1 _ _ J1 OK) as (U1 & U2 & U3). fold (im g e). eexists. split. rewrite map_app. cbn [map]. reflexivity. split; auto. split. eapply sub_trans; eauto. intros l Hl. destruct (Nat.eq_dec l k) as [->|NE]; auto. apply U2, G1. lia. }
    destruct (IND _ (Nat.le_refl _)) as (e1 & E1 & J1 & S1 & G1). cbv zeta in E1 |- *. rewrite E1. cbn [bind]. exists e1. auto.
  Qed.
  Lemma put_annoys_ok g dsp P es : g < ng -> dsp_ok g dsp -> P_ok g P -> einv g es -> forall k, k <= CN g ->
    exists es', foldM (put_annoy CT g dsp P) (seq 0 k) (es, []) = Ret (es', map (fun c => map (an_at g c) (seq 0 (length (AG (Ec g c))))) (seq 0 k)) /\ einv g es' /\ sub g es es' /\ forall c l, c < k -> l < length (AG (Ec g c)) -> good g es' (an_at g c l).
  Proof.
    intros Hg HD HP HE. induction k as [|k IH]; intros Hk.
    - exists es. split; auto. split; auto. split. apply sub_refl. intros; lia.
    - destruct IH as (e1 & E1 & J1 & S1 & G1); [lia|]. rewrite seq_S, foldM_app, E1. cbn [bind foldM Nat.add]. destruct (put_annoy_ok g dsp P e1 (map (fun c => map (an_at g c) (seq 0 (length (AG (Ec g c))))) (seq 0 k)) k Hg HD HP J1 Hk) as (e2 & E2 & J2 & S2 & G2). rewrite E2. cbn [bind]. exists e2. rewrite map_app. cbn [map]. split; auto. split; auto. split. eapply sub_trans; eauto. intros c l Hc Hl. destruct (Nat.eq_dec c k) as [->|NE]; auto. apply S2, G1; auto. lia.
  Qed.
  (** *** positions *)
  Lemma positions_ok g St ae : g < ng -> inv g St (items g) -> ae_ok g ae -> exists ii cc ii' cc' cts cts' ci,
    count_all (grp g) (contr H groups g) St (annoy_count ae) (ees_of g) (ecs_of g) = Ret (ii, cc, X5 g) /\ sum_five (X5 g) = Ret cts /\
    place_blocks (contr H groups g) (length (CL1 g)) ii cc cts = Ret (ii', cc', cts') /\ place_ci (MN g) (CN g) cts' (s_ci St) = Ret ci /\
    P_ok g (mkP ii' cc' ci (map (fun x => (n_ia x, length (CL1 g) + n_ca x)) cts) (annoy_count ae) ae).
  Proof.
    intros Hg HI HA. destruct (count_all_ok H groups HW G_rank G_sort V V_len EI EC gvr ei ec EI_len EC_len E_ei E_ec g St ae Hg HI HA) as (ii & cc & E1 & L1 & L2 & A1 & A2). destruct (sum_five_ok (X5 g)) as (cts & E2 & L3 & A3). rewrite X5_len in L3, A3.
    destruct (place_blocks_ok (mcl g) (contr H groups g) (length (CL1 g)) (fun m => length (fII g m)) (fun m => length (fCC g m)) ii cc cts) as (ii' & cc' & cts' & E3 & L4 & L5 & L6 & B1 & B2 & B3); rewrite ?mcl_len; auto. { intros m Hm. rewrite mcl_nth, L3 by auto. apply cnr_ok. now apply nth_In. }
    rewrite mcl_len in *. destruct (have_ok H groups HW G_rank G_sort V V_len ec g St Hg HI) as (_ & _ & _ & HM). destruct (place_ci_ok (MN g) (CN g) cts' (s_ci St) _ ltac:(lia) HM) as (t & E4 & M4).
    exists ii, cc, ii', cc', cts, cts', t. split; auto. split; auto. split; auto. split; auto. unfold GEProofs7.P_ok. cbn [p_ii p_cc p_ci p_a p_ac p_ae]. split; [split; auto|split; [split; auto|split; [|split; [split|split; auto]]]].
    - intros m Hm. rewrite B1, mcl_nth, A3 by (try rewrite mcl_nth by auto; auto; apply cnr_ok, nth_In; auto). reflexivity.
    - intros m Hm. rewrite B2, mcl_nth, A3 by (try rewrite mcl_nth by auto; auto; apply cnr_ok, nth_In; auto). reflexivity.
    - intros m Hm. destruct (cnr_ok H groups g (Dm g m) (nth_In _ _ Hm)) as (C1 & _). rewrite (at2_mat _ _ _ _ m (cnr g (Dm g m)) M4) by lia. cbn beta. destruct (Nat.ltb_spec m (MN g)); [|lia]. rewrite B3, A3 by auto. cbn [bw n_ci]. rewrite X5_nth by auto. cbn [n_ii]. f_equal. f_equal.
      rewrite (sg_ext _ (fun i => if nth i (mcl g) 0 =? nth m (mcl g) 0 then length (fCI g i) else 0)). rewrite sg_filter. reflexivity. intros i Hi. destruct (Nat.ltb_spec i (MN g)); [|lia]. rewrite !mcl_nth by lia. fold (Dm g i). rewrite len_CI. reflexivity.
    - now rewrite map_length.
    - intros c Hc. rewrite (nth_map_ok _ _ _ z5) by lia. rewrite A3 by auto. cbn [bw n_ia n_ca]. rewrite X5_nth by auto. reflexivity.
  Qed.
  (** *** one group *)
  Definition E_ok (g : nat) (E : cedges) : Prop :=
    split_ok g /\ e_ie E = disp_ie (X5 g) /\ e_ce E = disp_ce (X5 g) /\ e_edges E = map (fun e => Some (im g e)) (CL g) /\ length (e_maps E) = length (grp g) /\ length (e_flips E) = length (grp g) /\
    (forall k, k < length (grp g) -> mem_ok g (e_edges E) (nth k (grp g) 0) (nth k (e_maps E) []) (nth k (e_flips E) [])) /\ e_annoy E = map (fun c => map (an_at g c) (seq 0 (length (AG (Ec g c))))) (seq 0 (CN g)).
  Lemma number_ok g R St ae : g < ng -> R_ok g R -> inv g St (items g) -> ae_ok g ae -> exists E, number_edges CT g (grp g) (contr H groups g) R (ees_of g) (ecs_of g) St ae = Ret E /\ E_ok g E.
  Proof.
    intros Hg HR HI HA. unfold number_edges. destruct (positions_ok g St ae Hg HI HA) as (ii & cc & ii' & cc' & cts & cts' & ci & E1 & E2 & E3 & E4 & HP). rewrite E1. cbn [bind]. destruct (last_die (X5 g)) as (D1 & D2). rewrite X5_len in D1, D2. rewrite D1, D2, <- CL1_len, <- CL2_len. rewrite E2. cbn [bind]. rewrite E3. cbn [bind]. cbn [c_mc contr c_tab]. rewrite map_length, E4. cbn [bind]. rewrite <- app_length. fold (CL g).
    set (P := mkP ii' cc' ci _ _ ae) in *. assert (HS := P_split H groups HW G_rank G_one V ei ec g P Hg HP). assert (R1 := proj1 HR).
    destruct (put_members_ok g R P (repeat None (length (CL g))) Hg HR HP) with (k := length (grp g)) as (es & mp & fl & E5 & L1 & L2 & J1 & S1 & A1); auto. { split. apply repeat_length. intros i. left. apply nth_rep. }
    fold (contr H groups g). rewrite E5. cbn [bind]. destruct (put_annoys_ok g (v_dsp R) P es Hg R1 HP J1 (CN g) (Nat.le_refl _)) as (es' & E6 & J2 & S2 & G2). rewrite E6. cbn [bind]. eexists. split; [reflexivity|].
    assert (A2 : forall k, k < length (grp g) -> mem_ok g es' (nth k (grp g) 0) (nth k mp []) (nth k fl [])) by (intros k Hk; eapply mem_sub; eauto).
    assert (ND := CL_nodup H groups HW G_rank G_all G_one G_sort V V_len ei ec ei_ok ec_ok closed ec_det ec_nd ec_sw ei_nd ei_sw g Hg HS).
    assert (PI : forall p i e, ok_at g p e -> i < length (CL g) -> nth i (CL g) dge = e -> p = i). { intros p i e (Q1 & Q2) Hi Q3. apply (proj1 (NoDup_nth (CL g) dge) ND); auto. now rewrite Q2, Q3. }
    assert (GA : forall i, i < length (CL g) -> good g es' i).
    { intros i Hi. set (e := nth i (CL g) dge). assert (IC : In e (CL g)) by now apply nth_In.
      assert (MEM : forall D e', In D (MC g) -> In e' (ei D) \/ In e' (ec D) -> e = sp g e' -> good g es' i).
      { intros D e' X Y Z. apply MC_in in X as (r & X1 & X2). assert (Hr := G_rank g r Hg X1). destruct (In_nth _ _ 0 X1) as (k & K1 & K2). destruct (In_nth _ _ [] X2) as (j & J3 & J4). assert (LC : length (classes H r) = length (nth r H [])) by (unfold classes; apply map_length). rewrite LC in J3. destruct (A2 k K1) as (_ & _ & B). rewrite K2 in B.
        assert (W : exists f, (In f (row EI r j) \/ In f (row EC r j)) /\ gf r f = e'). { destruct Y as [Y|Y]; rewrite <- J4 in Y. rewrite <- (E_ei r j) in Y by auto. apply in_map_iff in Y as (f & F1 & F2). exists f. auto. rewrite <- (E_ec r j) in Y by auto. apply in_map_iff in Y as (f & F1 & F2). exists f. auto. }
        destruct W as (f & W1 & W2). destruct (B j f J3 W1) as (p & B1 & B2 & B3 & B4). rewrite W2, <- Z in B2. rewrite <- (PI p i e); auto. }
      apply (CL_in H groups HW G_rank G_all G_one G_sort V V_len ei ec ec_ok closed ec_det g) in IC; auto. destruct IC as [(D & e' & X1 & X2 & X3)|(q & D & e' & Hq & X1 & X2 & X4 & X3)]. eapply MEM; eauto.
      destruct (in_dec Nat.eq_dec g (cset D)) as [IN|NI]. { apply (MEM D e'); auto. now apply (MC_share H groups HW G_rank G_all G_one q). }
      destruct (ec_isv H groups HW G_rank G_all G_one V ec ec_ok q D e' g Hq X1 X2 X4) as (_ & IE). destruct (closed g _ _ Hg (proj1 (proj1 IE)) (proj1 (proj2 IE))) as (D0 & D3 & D4). fold (tg e') in D4. destruct (cnr_ok H groups g D0 D3) as (C1 & _). assert (EE := Ec_cset H groups HW G_rank G_one g D0 Hg D3).
      assert (IA : In e (AG (Ec g (cnr g D0)))). { rewrite EE. apply (AG_in H groups HW G_rank G_all G_one G_sort V V_len ec ec_ok closed ec_det g); auto. exists q, D, e'. repeat (split; auto). unfold GEProofs3.hit. destruct (list_eqb (cset D) (tg e')) eqn:EL; auto. apply list_eqb_eq in EL. exfalso. apply NI. now rewrite EL. }
      destruct (In_nth _ _ dge IA) as (l & N1 & N2). assert (OK := an_at_ok g P (cnr g D0) l HP C1 N1). rewrite N2 in OK. rewrite <- (PI _ i e OK Hi eq_refl). now apply G2. }
    unfold E_ok. cbn [e_ie e_ce e_edges e_maps e_flips e_annoy]. split; auto. split; auto. split; auto. split; [|auto]. apply (nth_ext_eq _ _ None). destruct J2 as (J2 & _). now rewrite map_length. intros i Hi. destruct J2 as (J2 & _). rewrite J2 in Hi. rewrite (nth_map_ok _ _ _ dge) by auto. now apply GA.
  Qed.
  (** *** all groups *)
  Lemma map_edges_ok Rs : length Rs = ng -> (forall g, g < ng -> exists R, nth_error Rs g = Some R /\ R_ok g R) ->
    exists Es, map_edges groups (map (contr H groups) (seq 0 ng)) Rs (map (map (fun r => nth r EI [])) groups) (map (map (fun r => nth r EC [])) groups) = Ret Es /\ length Es = ng /\ forall g, g < ng -> exists E, nth_error Es g = Some E /\ E_ok g E.
  Proof.
    intros LR HR. unfold map_edges. assert (EC0 : map c_tab (map (contr H groups) (seq 0 ng)) = CT) by (rewrite map_map; reflexivity). rewrite EC0.
    assert (RC : forall g, g < ng -> rd (map (contr H groups) (seq 0 ng)) g = Ret (contr H groups g)). { intros g Hg. rewrite (rd_ok _ _ (contr H groups 0)) by (rewrite map_length, seq_length; lia). rewrite (nth_map_ok _ _ _ 0) by (now rewrite seq_length). now rewrite seq_nth. }
    assert (RG : forall g, g < ng -> rd groups g = Ret (grp g)) by (intros; now apply rd_ok).
    assert (RR : forall g, g < ng -> exists R, rd Rs g = Ret R /\ R_ok g R). { intros g Hg. destruct (HR g Hg) as (R & A & B). exists R. split; auto. unfold rd. now rewrite A. }
    assert (RT : forall T g, g < ng -> rd (map (map (fun r => nth r T [])) groups) g = Ret (map (fun r : nat => nth r T ([] : list (list fedge))) (grp g))). { intros T g Hg. rewrite (rd_ok _ _ []) by (now rewrite map_length). now rewrite (nth_map_ok _ _ _ []) by auto. }
    destruct (mapM_exists (fun g => grp <- rd groups g ;; C <- rd (map (contr H groups) (seq 0 ng)) g ;; R <- rd Rs g ;; ce <- rd (map (map (fun r => nth r EC [])) groups) g ;; count_cross CT g grp C R ce) (fun g St => inv g St (items g)) (seq 0 ng)) as (Ss & E1 & L1 & A1).
    { intros g Hg. apply in_seq in Hg. destruct (RR g) as (R & R1 & R2); [lia|]. rewrite RG, RC by lia. cbn [bind]. rewrite R1, RT by lia. cbn [bind]. apply (count_cross_ok H groups HW G_rank G_all G_one V V_len EI EC gvr ec EC_len E_ec ec_ok closed g R); auto. lia. }
    rewrite E1. cbn [bind]. rewrite seq_length in L1.
    assert (A2 : forall g, g < ng -> inv g (nth g Ss dS) (items g)). { intros g Hg. destruct (A1 g g) as (St & B1 & B2). { rewrite (nth_error_nth' _ 0) by (now rewrite seq_length). now rewrite seq_nth. } now rewrite (nth_error_nth Ss g dS B1). }
    destruct (reduce_ok H groups HW G_rank G_all G_one V ec Ss L1 A2) as (aes & E2 & L2 & L3 & A3). rewrite E2. cbn [bind].
    destruct (mapM_exists (fun g => grp <- rd groups g ;; C <- rd (map (contr H groups) (seq 0 ng)) g ;; R <- rd Rs g ;; ee <- rd (map (map (fun r => nth r EI [])) groups) g ;; ce <- rd (map (map (fun r => nth r EC [])) groups) g ;; S <- rd Ss g ;; ae <- rd aes g ;; number_edges CT g grp C R ee ce S ae) E_ok (seq 0 ng)) as (Es & E3 & L4 & A4).
    { intros g Hg. apply in_seq in Hg. destruct (RR g) as (R & R1 & R2); [lia|]. rewrite RG, RC by lia. cbn [bind]. rewrite R1, !RT by lia. cbn [bind]. rewrite (rd_ok Ss _ dS) by lia. cbn [bind]. rewrite (rd_ok aes _ []) by lia. cbn [bind]. apply number_ok; auto; try lia. apply A2; lia. split. apply L3; lia. intros c Hc. destruct (class_D H groups g c Hc) as (D & D1 & D2). rewrite <- D2. rewrite (Ec_cset H groups HW G_rank G_one g D) by (auto; lia). apply A3; auto; lia. }
    rewrite E3. exists Es. split; auto. rewrite seq_length in L4. split; auto. intros g Hg. apply (A4 g g). rewrite (nth_error_nth' _ 0) by (now rewrite seq_length). now rewrite seq_nth.
  Qed.
End GE8.
