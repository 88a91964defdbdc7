(** Counting of the cross edges (GEModel.count_cross). *)
From Verif Require Import Base EQCModel UtilProofs EQCProofs EQCProofs2 EQCProofs3 EQCProps AggMapModel AggMapProofs ReduceModel GCModel GCProofs GCProofs2 GEModel GEProofs GEProofs2.
Local Open Scope nat_scope.

Lemma tslots_shape {A B} (t : list (list (list A))) (u : list (list (list B))) : length t = length u -> (forall k, k < length t -> length (nth k t []) = length (nth k u [])) -> tslots t = tslots u.
Proof. intros L E. unfold tslots. rewrite <- L. rewrite !flat_map_concat_map. f_equal. apply map_ext_in. intros k X. apply in_seq in X. rewrite E by lia. reflexivity. Qed.
Definition cntb {A} (f : A -> bool) (l : list A) : nat := length (filter f l).
Lemma cntb_snoc {A} (f : A -> bool) l x : cntb f (l ++ [x]) = cntb f l + if f x then 1 else 0.
Proof. unfold cntb. rewrite filter_app, app_length. cbn [filter]. destruct (f x); reflexivity. Qed.
Lemma incr_ok l i : i < length l -> incr l i = Ret (upd l i (S (nth i l 0))).
Proof. intros Hi. unfold incr. rewrite (rd_ok _ _ 0) by auto. cbn [bind]. now rewrite wr_ok. Qed.

Section GE3.
  Variables (H : list (list (list nat))) (groups : list (list nat)).
  Hypothesis HW : world H.
  Notation np := (length H).
  Notation ng := (length groups).
  Notation grp g := (nth g groups []).
  Hypothesis G_rank : forall g p, g < ng -> In p (grp g) -> p < np.
  Hypothesis G_all : forall p, p < np -> exists g, g < ng /\ In p (grp g).
  Hypothesis G_one : forall g g' p, g < ng -> g' < ng -> In p (grp g) -> In p (grp g') -> g = g'.
  Hypothesis G_ne : forall g, g < ng -> grp g <> [].
  Hypothesis G_sort : forall g, g < ng -> sset (grp g).
  Notation MC := (MC H groups).
  Notation cset := (cset groups).
  Notation crow := (crow groups).
  Notation ctab_of := (ctab_of H groups).
  Notation mnr := (mnr H groups).
  Notation cnr := (cnr H groups).
  Notation cl := (cl H groups).
  Variable V : list (list (list nat)).
  Hypothesis V_len : forall r, r < np -> length (nth r V []) = length (nth r H []).
  Notation nv := (nv H V).
  Notation CN g := (length (ctab_of g)).
  Notation MN g := (length (MC g)).
  Notation CT := (CT H groups).
  Notation iv := (iv H groups V).
  Notation isv := (isv H groups V).
  Notation ise := (ise H groups V).
  Notation sp := (sp H groups V).
  Notation qd := (qd H groups V).
  Notation cE := (cE H groups).
  Notation isec := (isec groups).
  Notation dsp_ok := (dsp_ok H groups V).
  (** edges by class of the old mesh *)
  Variables (EI EC : list (list (list fedge))) (gvr : nat -> nat -> gv) (ei ec : list nat -> list ge).
  Definition gf (r : nat) (e : fedge) : ge := (gvr r (fst (fst e)), gvr r (snd (fst e))).
  Notation row T r j := (nth j (nth r T []) []).
  Hypothesis EI_len : forall r, r < np -> length (nth r EI []) = length (nth r H []).
  Hypothesis EC_len : forall r, r < np -> length (nth r EC []) = length (nth r H []).
  Hypothesis E_ei : forall r j, r < np -> j < length (nth r H []) -> map (gf r) (row EI r j) = ei (nth j (classes H r) []).
  Hypothesis E_ec : forall r j, r < np -> j < length (nth r H []) -> map (gf r) (row EC r j) = ec (nth j (classes H r) []).
  Hypothesis ei_ok : forall r D e, r < np -> In D (classes H r) -> In e (ei D) -> fst (fst e) = D /\ fst (snd e) = D /\ snd (fst e) < nv D /\ snd (snd e) < nv D.
  Hypothesis ec_ok : forall r D e, r < np -> In D (classes H r) -> In e (ec D) -> In (fst (fst e)) (classes H r) /\ In (fst (snd e)) (classes H r) /\ snd (fst e) < nv (fst (fst e)) /\ snd (snd e) < nv (fst (snd e)).
  Definition vm_ok (g r : nat) (vm : list (option nat)) : Prop := forall j e, j < length (nth r H []) -> In e (row EI r j) \/ In e (row EC r j) -> map_at vm (fst (fst e)) = Ret (iv g (gvr r (fst (fst e)))) /\ map_at vm (snd (fst e)) = Ret (iv g (gvr r (snd (fst e)))).
  Hypothesis closed : forall g A B, g < ng -> In A (MC g) -> In B (MC g) -> exists D, In D (MC g) /\ cset D = isec A B.

  (** kinds of cross edges *)
  Definition tg (e : ge) : list nat := isec (fst (fst e)) (fst (snd e)).
  Definition same (e : ge) : bool := list_eqb (cset (fst (fst e))) (cset (fst (snd e))).
  Definition hit (D : list nat) (e : ge) : bool := list_eqb (cset D) (tg e).
  Definition ci (D : list nat) (e : ge) : bool := same e && hit D e.
  Definition cc (D : list nat) (e : ge) : bool := negb (same e) && hit D e.
  Lemma tg_sp g e : tg (sp g e) = tg e. Proof. unfold sp. destruct (_ <? _); auto. unfold tg. cbn [fst snd]. apply isect_comm; apply cset_sset. Qed.
  Lemma same_sp g e : same (sp g e) = same e.
  Proof. unfold sp. destruct (_ <? _); auto. unfold same. cbn [fst snd]. destruct (list_eqb (cset (fst (fst e))) (cset (fst (snd e)))) eqn:E. apply list_eqb_eq in E. rewrite E. apply list_eqb_refl. destruct (list_eqb (cset (fst (snd e))) (cset (fst (fst e)))) eqn:E'; auto. apply list_eqb_eq in E'. rewrite E', list_eqb_refl in E. discriminate. Qed.
  Lemma MC_rank g D : In D (MC g) -> exists r, In r (grp g) /\ In D (classes H r). Proof. apply MC_in. Qed.
  Lemma ec_ise g D e : g < ng -> In D (MC g) -> In e (ec D) -> ise g e.
  Proof. intros Hg X Y. apply MC_in in X as (r & R1 & R2). assert (Hr := G_rank g r Hg R1). destruct (ec_ok r D e Hr R2 Y) as (A & B & C & E). split; split; auto; apply MC_in; exists r; auto. Qed.
  Lemma ei_ise g D e : g < ng -> In D (MC g) -> In e (ei D) -> ise g e.
  Proof. intros Hg X Y. assert (X' := X). apply MC_in in X as (r & R1 & R2). assert (Hr := G_rank g r Hg R1). destruct (ei_ok r D e Hr R2 Y) as (A & B & C & E). split; split; rewrite ?A, ?B; auto. Qed.
  Lemma ends_ok g r vm j e : vm_ok g r vm -> j < length (nth r H []) -> In e (row EI r j) \/ In e (row EC r j) -> ends_of vm e = Ret (iv g (fst (sp g (gf r e))), iv g (snd (sp g (gf r e)))).
  Proof. intros HV Hj X. destruct (HV j e Hj X) as (A & B). unfold ends_of. rewrite A. cbn [bind]. rewrite B. cbn [bind]. unfold sp, gf. cbn [fst snd]. destruct (_ <? _); reflexivity. Qed.
  Lemma cE_of g E : g < ng -> (exists D, In D (MC g) /\ cset D = E) -> cE g E < CN g.
  Proof. intros Hg (D & X & <-). change (cnr g D < CN g). now apply cnr_ok. Qed.
  Lemma tests g D e : g < ng -> In D (MC g) -> ise g e ->
    ((cnr g (fst (fst e)) =? cnr g (fst (snd e))) = same e) /\ (same e = true -> (cnr g (fst (fst e)) =? cnr g D) = hit D e) /\ (same e = true -> cnr g (fst (fst e)) = cE g (tg e)) /\
    (cnr g D =? cE g (tg e)) = hit D e /\ cE g (tg e) < CN g /\ GetCommonEQC (nth g CT []) (cnr g (fst (fst e))) (cnr g (fst (snd e))) = Ret (Some (cE g (tg e))).
  Proof.
    intros Hg X (A & B). destruct (closed g (fst (fst e)) (fst (snd e)) Hg (proj1 A) (proj1 B)) as (F & F1 & F2). fold (tg e) in F2.
    assert (EQ : forall D D', In D (MC g) -> In D' (MC g) -> (cnr g D =? cnr g D') = list_eqb (cset D) (cset D')). { intros D1 D2 X1 X2. destruct (list_eqb (cset D1) (cset D2)) eqn:E. apply list_eqb_eq in E. apply Nat.eqb_eq. now apply (cnr_iff H groups HW G_rank G_one). apply Nat.eqb_neq. intros Y. apply (cnr_iff H groups HW G_rank G_one) in Y; auto. rewrite Y, list_eqb_refl in E. discriminate. }
    assert (ST : same e = true -> tg e = cset (fst (fst e))). { intros E. apply list_eqb_eq in E. unfold tg. now apply isec_same. }
    assert (CF : cE g (tg e) = cnr g F) by (now rewrite <- F2).
    split. apply EQ; [apply A|apply B]. split. { intros E. rewrite EQ by (auto; apply A). unfold hit. rewrite (ST E). destruct (list_eqb (cset D) (cset (fst (fst e)))) eqn:E1. apply list_eqb_eq in E1. rewrite E1. apply list_eqb_refl. destruct (list_eqb (cset (fst (fst e))) (cset D)) eqn:E2; auto. apply list_eqb_eq in E2. rewrite E2, list_eqb_refl in E1. discriminate. }
    split. { intros E. rewrite (ST E). reflexivity. } split. { rewrite CF, EQ by auto. unfold hit. now rewrite F2. } split. rewrite CF. now apply cnr_ok. apply (common_ok H groups g _ _ F); auto. apply A. apply B.
  Qed.
  (** *** state after the items (class, edge) *)
  Definition item : Type := list nat * ge.
  Definition ci_i (x : item) := ci (fst x) (snd x).
  Definition an_i (x : item) := negb (hit (fst x) (snd x)).
  Definition inv (g : nat) (S : cstate) (L : list item) : Prop :=
    mat (s_ci S) (MN g + 1) (CN g) (fun m c => cntb (fun x => ci_i x && (mnr g (fst x) =? m) && (cnr g (fst x) =? c)) L) /\
    (length (s_get S) = CN g /\ forall c, c < CN g -> nth c (s_get S) 0 = cntb (fun x => ci_i x && (cnr g (fst x) =? c)) L) /\
    (length (s_have S) = MN g /\ forall m, m < MN g -> nth m (s_have S) 0 = cntb (fun x => ci_i x && (mnr g (fst x) =? m)) L) /\
    (length (s_annoy S) = MN g /\ forall m, m < MN g -> nth m (s_annoy S) 0 = cntb (fun x => an_i x && (mnr g (fst x) =? m)) L) /\
    (length (s_tab S) = CN g /\ forall c, c < CN g -> nth c (s_tab S) [] = map (fun x => qd (sp g (snd x))) (filter (fun x => an_i x && (cE g (tg (snd x)) =? c) && (g =? hd 0 (cset (fst x)))) L)).
  Lemma incr_inv l n (f : item -> bool) (key : item -> nat) L x : length l = n -> (forall c, c < n -> nth c l 0 = cntb (fun y => f y && (key y =? c)) L) -> f x = true -> key x < n ->
    exists l', incr l (key x) = Ret l' /\ length l' = n /\ forall c, c < n -> nth c l' 0 = cntb (fun y => f y && (key y =? c)) (L ++ [x]).
  Proof.
    intros Ln A F K. rewrite incr_ok by lia. eexists. split; [reflexivity|]. rewrite upd_length. split; auto. intros c Hc. rewrite cntb_snoc, F. cbn [andb]. destruct (Nat.eqb_spec (key x) c) as [<-|NE]. rewrite nth_upd_eq by lia. rewrite A by auto. lia. rewrite nth_upd_neq by lia. rewrite A by auto. lia.
  Qed.
  Lemma keep_inv (l : list nat) n (f : item -> bool) (P : item -> nat -> bool) L x : f x = false -> (length l = n /\ forall c, c < n -> nth c l 0 = cntb (fun y => f y && P y c) L) -> length l = n /\ forall c, c < n -> nth c l 0 = cntb (fun y => f y && P y c) (L ++ [x]).
  Proof. intros F (A & B). split; auto. intros c Hc. rewrite cntb_snoc, F. cbn [andb]. rewrite B by auto. lia. Qed.
  Lemma count_edge_ok g r j vm dsp S L e : g < ng -> In r (grp g) -> j < length (nth r H []) -> vm_ok g r vm -> dsp_ok g dsp -> In e (row EC r j) -> let D := nth j (classes H r) [] in inv g S L ->
    exists S', count_edge CT g (mnr g D) (cnr g D) dsp vm S e = Ret S' /\ inv g S' (L ++ [(D, gf r e)]).
  Proof.
    intros Hg Hr Hj HV HD HE D HI. assert (Hrn := G_rank g r Hg Hr). assert (DC : In D (classes H r)) by (apply nth_In; unfold classes; now rewrite map_length). assert (DM : In D (MC g)) by (apply MC_in; exists r; auto).
    assert (EE : In (gf r e) (ec D)) by (unfold D; rewrite <- (E_ec r j) by auto; now apply in_map). assert (IE := ec_ise g D _ Hg DM EE). assert (IS := sp_ise H groups V g _ IE).
    destruct (tests g D _ Hg DM IS) as (T1 & T2 & T3 & T4 & T5 & T6). rewrite same_sp, ?tg_sp in T1, T2, T3. rewrite tg_sp in T4, T5, T6. unfold hit in T2, T4. rewrite tg_sp in T2, T4. fold (hit D (gf r e)) in T2, T4.
    unfold count_edge. rewrite (ends_ok g r vm j e HV Hj (or_intror HE)). cbn [bind]. rewrite !(class_of_vertex H groups V g dsp) by (auto; apply IS). cbn [bind]. rewrite T1.
    destruct (mnr_ok H groups g D DM) as (M1 & _). destruct (cnr_ok H groups g D DM) as (C1 & C2). destruct HI as (I1 & (I2 & I2') & (I3 & I3') & (I4 & I4') & (I5 & I5')).
    assert (CI : same (gf r e) && (cnr g (fst (fst (sp g (gf r e)))) =? cnr g D) = ci D (gf r e)). { unfold ci. destruct (same (gf r e)) eqn:ES; cbn [andb]; auto. } rewrite CI. destruct (ci D (gf r e)) eqn:EC1.
    - assert (CI' := EC1). unfold ci in CI'. apply andb_prop in CI' as (ES & EH). assert (EQ : cnr g (fst (fst (sp g (gf r e)))) = cnr g D). { rewrite (T3 ES), tg_sp. rewrite EH in T4. apply Nat.eqb_eq in T4. congruence. } rewrite EQ.
      destruct (incr2_mat _ _ _ _ (mnr g D) (cnr g D) I1) as (t & E1 & N1); try lia. rewrite E1. cbn [bind]. destruct (incr_inv _ _ ci_i (fun x => cnr g (fst x)) L (D, gf r e) I2 I2' EC1 C1) as (l2 & E2 & N2 & N2'). cbn [fst] in E2. rewrite E2. cbn [bind]. destruct (incr_inv _ _ ci_i (fun x => mnr g (fst x)) L (D, gf r e) I3 I3' EC1 M1) as (l3 & E3 & N3 & N3'). cbn [fst] in E3. rewrite E3. cbn [bind]. eexists. split; [reflexivity|].
      assert (AN : an_i (D, gf r e) = false) by (unfold an_i; cbn [fst snd]; now rewrite EH). split; [|split; [|split; [|split]]]; cbn [s_ci s_get s_have s_annoy s_tab].
      + eapply mat_ext; [exact N1|]. intros m c Hm Hc. cbn beta. rewrite cntb_snoc. replace (ci_i (D, gf r e)) with true by (symmetry; exact EC1). cbn [andb fst]. rewrite (Nat.eqb_sym m), (Nat.eqb_sym c). destruct (mnr g D =? m), (cnr g D =? c); cbn [andb]; lia.
      + auto. + auto.
      + apply (keep_inv _ _ an_i (fun y c => mnr g (fst y) =? c)); auto.
      + split; auto. intros c Hc. rewrite filter_app, map_app. cbn [filter]. rewrite AN. cbn [andb map]. rewrite app_nil_r. auto.
    - rewrite T6. cbn [bind]. rewrite T4. assert (K1 : ci_i (D, gf r e) = false) by exact EC1.
      assert (KC : mat (s_ci S) (MN g + 1) (CN g) (fun m c => cntb (fun x => ci_i x && (mnr g (fst x) =? m) && (cnr g (fst x) =? c)) (L ++ [(D, gf r e)]))). { eapply mat_ext; [exact I1|]. intros m c Hm Hc. cbn beta. rewrite cntb_snoc, K1. cbn [andb]. lia. }
      assert (KG : length (s_get S) = CN g /\ forall c, c < CN g -> nth c (s_get S) 0 = cntb (fun x => ci_i x && (cnr g (fst x) =? c)) (L ++ [(D, gf r e)])) by (apply (keep_inv _ _ ci_i (fun y c => cnr g (fst y) =? c)); auto).
      assert (KH : length (s_have S) = MN g /\ forall c, c < MN g -> nth c (s_have S) 0 = cntb (fun x => ci_i x && (mnr g (fst x) =? c)) (L ++ [(D, gf r e)])) by (apply (keep_inv _ _ ci_i (fun y c => mnr g (fst y) =? c)); auto).
      destruct (hit D (gf r e)) eqn:EH.
      + exists S. split; auto. assert (AN : an_i (D, gf r e) = false) by (unfold an_i; cbn [fst snd]; now rewrite EH). split; auto. split; auto. split; auto. split. apply (keep_inv _ _ an_i (fun y c => mnr g (fst y) =? c)); auto. split; auto. intros c Hc. rewrite filter_app, map_app. cbn [filter]. rewrite AN. cbn [andb map]. rewrite app_nil_r. auto.
      + assert (AN : an_i (D, gf r e) = true) by (unfold an_i; cbn [fst snd]; now rewrite EH). rewrite (quad_of_ok H groups HW G_rank G_all G_one V g dsp (sp g (gf r e))) by auto. cbn [bind]. rewrite (rd_ok _ _ []) by (rewrite CT_nth by auto; auto). cbn [bind]. rewrite CT_nth, C2 by auto. rewrite (master_ok H groups HW G_rank G_one) by auto.
        destruct (incr_inv _ _ an_i (fun x => mnr g (fst x)) L (D, gf r e) I4 I4' AN M1) as (l4 & E4 & N4 & N4'). cbn [fst] in E4.
        assert (TB : exists t, (if g =? hd 0 (cset D) then r0 <- rd (s_tab S) (cE g (tg (gf r e))) ;; wr (s_tab S) (cE g (tg (gf r e))) (r0 ++ [qd (sp g (gf r e))]) else Ret (s_tab S)) = Ret t /\ length t = CN g /\
          forall c, c < CN g -> nth c t [] = map (fun x => qd (sp g (snd x))) (filter (fun x => an_i x && (cE g (tg (snd x)) =? c) && (g =? hd 0 (cset (fst x)))) (L ++ [(D, gf r e)]))).
        { destruct (g =? hd 0 (cset D)) eqn:EG.
          - rewrite (rd_ok _ _ []) by lia. cbn [bind]. rewrite wr_ok by lia. eexists. split; [reflexivity|]. rewrite upd_length. split; auto. intros c Hc. rewrite filter_app, map_app. cbn [filter fst snd]. rewrite AN, EG. cbn [andb]. rewrite andb_true_r. destruct (Nat.eqb_spec (cE g (tg (gf r e))) c) as [<-|NE]. rewrite nth_upd_eq by lia. rewrite I5' by auto. reflexivity. rewrite nth_upd_neq by lia. cbn [map]. rewrite app_nil_r. auto.
          - exists (s_tab S). split; auto. split; auto. intros c Hc. rewrite filter_app, map_app. cbn [filter fst snd]. rewrite EG, andb_false_r. cbn [map]. rewrite app_nil_r. auto. }
        destruct TB as (t & ET & LT & TT). rewrite ET. cbn [bind]. rewrite E4. cbn [bind]. eexists. split; [reflexivity|]. split; [exact KC|]. split; [exact KG|]. split; [exact KH|]. split; [split; auto|]. split; auto.
  Qed.
  Lemma count_edges_ok g r j vm dsp : g < ng -> In r (grp g) -> j < length (nth r H []) -> vm_ok g r vm -> dsp_ok g dsp -> let D := nth j (classes H r) [] in forall es S L, incl es (row EC r j) -> inv g S L ->
    exists S', foldM (count_edge CT g (mnr g D) (cnr g D) dsp vm) es S = Ret S' /\ inv g S' (L ++ map (pair D) (map (gf r) es)).
  Proof.
    intros Hg Hr Hj HV HD D. induction es as [|e es IH]; intros S L HI HS; cbn [foldM map]. { exists S. rewrite app_nil_r. auto. }
    destruct (count_edge_ok g r j vm dsp S L e) as (S1 & E1 & J1); auto. apply HI. now left. fold D in E1, J1. rewrite E1. cbn [bind]. destruct (IH S1 (L ++ [(D, gf r e)])) as (S2 & E2 & J2); auto. intros z Z. apply HI. now right. exists S2. split; auto. rewrite <- app_assoc in J2. exact J2.
  Qed.
  Definition ecs_of (g : nat) : list (list (list fedge)) := map (fun r => nth r EC []) (grp g).
  Definition ees_of (g : nat) : list (list (list fedge)) := map (fun r => nth r EI []) (grp g).
  Lemma ecs_slots g : g < ng -> tslots (ecs_of g) = tslots (evs_of groups V g).
  Proof.
    intros Hg. apply tslots_shape. unfold ecs_of, evs_of. now rewrite !map_length. intros k Hk. unfold ecs_of in *. rewrite map_length in Hk. unfold evs_of. rewrite !(nth_map_ok _ _ _ 0) by auto. assert (Hr : nth k (grp g) 0 < np) by (apply (G_rank g); auto; now apply nth_In). now rewrite EC_len, V_len.
  Qed.
  Lemma ec_read g k j : g < ng -> k < length (grp g) -> j < length (nth (nth k (grp g) 0) H []) -> at2 (ecs_of g) (k, j) = Ret (row EC (nth k (grp g) 0) j).
  Proof. intros Hg Hk Hj. unfold at2, ecs_of. cbn [fst snd]. rewrite (rd_ok _ _ []) by now rewrite map_length. cbn [bind]. rewrite (nth_map_ok _ _ _ 0) by auto. apply rd_ok. rewrite EC_len; auto. apply (G_rank g); auto. now apply nth_In. Qed.
  Lemma ee_read g k j : g < ng -> k < length (grp g) -> j < length (nth (nth k (grp g) 0) H []) -> at2 (ees_of g) (k, j) = Ret (row EI (nth k (grp g) 0) j).
  Proof. intros Hg Hk Hj. unfold at2, ees_of. cbn [fst snd]. rewrite (rd_ok _ _ []) by now rewrite map_length. cbn [bind]. rewrite (nth_map_ok _ _ _ 0) by auto. apply rd_ok. rewrite EI_len; auto. apply (G_rank g); auto. now apply nth_In. Qed.
  Notation is_sender := (is_sender H groups).
  Definition slot_items (g : nat) (s : nat * nat) : list item := let D := cl g (fst s) (snd s) in map (pair D) (ec D).
  Definition items (g : nat) : list item := flat_map (slot_items g) (filter (is_sender g) (tslots (evs_of groups V g))).
  Definition R_ok (g : nat) (R : cverts) : Prop := dsp_ok g (v_dsp R) /\ length (v_maps R) = length (grp g) /\ forall k, k < length (grp g) -> vm_ok g (nth k (grp g) 0) (nth k (v_maps R) []).
  Lemma count_cross_ok g R : g < ng -> R_ok g R -> exists S, count_cross CT g (grp g) (contr H groups g) R (ecs_of g) = Ret S /\ inv g S (items g).
  Proof.
    intros Hg (RD & RL & RM). unfold count_cross. cbn [c_om c_oc c_tab c_mc contr]. rewrite map_length. rewrite ecs_slots by auto.
    match goal with |- context [foldM ?f _ _] => set (F := f) end.
    assert (K : forall l, incl l (tslots (evs_of groups V g)) -> forall S L, inv g S L -> exists S', foldM F l S = Ret S' /\ inv g S' (L ++ flat_map (slot_items g) (filter (is_sender g) l))).
    { induction l as [|(k, j) l IH]; intros HI S L HS; cbn [foldM filter flat_map]. { exists S. rewrite app_nil_r. auto. }
      destruct (proj1 (vslot H groups G_rank V V_len g k j Hg) (HI _ ltac:(now left))) as (Hk & Hj). assert (Hr : In (nth k (grp g) 0) (grp g)) by now apply nth_In. destruct (mnr_ok H groups g _ (cl_in H groups g k j Hk Hj)) as (M1 & M2).
      assert (EF : F S (k, j) = if is_sender g (k, j) then foldM (count_edge CT g (mnr g (cl g k j)) (cnr g (cl g k j)) (v_dsp R) (nth k (v_maps R) [])) (row EC (nth k (grp g) 0) j) S else Ret S).
      { unfold F. rewrite (om_read H groups) by auto. cbn [bind]. rewrite (oc_read H groups) by auto. cbn [bind]. rewrite (rd_ok _ _ None) by (unfold senders; cbn [c_mmems contr]; now rewrite map_length). cbn [bind fst]. rewrite (rd_ok _ _ 0) by auto. cbn [bind].
        unfold senders. cbn [c_mmems contr]. rewrite (nth_map_ok _ _ _ []) by auto. rewrite M2. change (oeqb (Some (nth k (grp g) 0)) (cut_min (cl g k j) (grp g))) with (is_sender g (k, j)). destruct (is_sender g (k, j)); auto. rewrite ec_read by auto. cbn [bind]. rewrite (rd_ok _ _ []) by lia. reflexivity. }
      rewrite EF. destruct (is_sender g (k, j)) eqn:ES.
      - destruct (count_edges_ok g (nth k (grp g) 0) j (nth k (v_maps R) []) (v_dsp R) Hg Hr Hj (RM k Hk) RD (row EC (nth k (grp g) 0) j) S L) as (S1 & E1 & J1); auto. intros z; auto. unfold GCProofs.cl. rewrite E1. cbn [bind]. destruct (IH ltac:(intros z Z; apply HI; now right) S1 _ J1) as (S2 & E2 & J2). exists S2. split; auto. cbn [flat_map]. rewrite app_assoc. unfold slot_items at 1. cbn [fst snd]. unfold GCProofs.cl. rewrite (E_ec (nth k (grp g) 0) j) in J2; auto. apply (G_rank g); auto.
      - cbn [bind]. apply IH; auto. intros z Z; apply HI; now right. }
    destruct (K (tslots (evs_of groups V g)) ltac:(intros z; auto) (mkS (repeat (repeat 0 (CN g)) (MN g + 1)) (repeat 0 (CN g)) (repeat 0 (MN g)) (repeat 0 (MN g)) (repeat [] (CN g))) []) as (S & E & J).
    - split; [|split; [|split; [|split]]]; cbn [s_ci s_get s_have s_annoy s_tab].
      + split. apply repeat_length. split. intros i Hi. rewrite (nth_indep _ [] (repeat 0 (CN g))) by now rewrite repeat_length. rewrite nth_repeat. apply repeat_length. intros i jj Hi Hj. rewrite (nth_indep _ [] (repeat 0 (CN g))) by now rewrite repeat_length. rewrite nth_repeat. rewrite nth_repeat. reflexivity.
      + split. apply repeat_length. intros. now rewrite nth_repeat. + split. apply repeat_length. intros. now rewrite nth_repeat. + split. apply repeat_length. intros. now rewrite nth_repeat. + split. apply repeat_length. intros. now rewrite nth_repeat.
    - exists S. split; auto.
  Qed.
End GE3.
