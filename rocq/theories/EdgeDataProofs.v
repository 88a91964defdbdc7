(** Data of the edges of the redistributed mesh. *)
From Verif Require Import Base EQCModel ReduceModel UtilProofs EQCProofs EQCProofs2 EQCProofs3 EQCProps ReduceProofs ReduceProps AggMapModel AggMapProofs GCModel GCProofs GCProofs2 GCProofs3 GCProps GEModel GEProofs GEProofs2 GEProofs3 GEProofs4 GEProofs5 GEProofs6 GEProofs7 GEProofs8 GESpec GEProofs9 GEProofs10 GECheck GEProps DataModel DataSpec DataProofs DataProofs2 DataProofs3 DataProofs4 AnnoyProofs EdgeDataSpec.
Local Open Scope nat_scope.

Definition ge_dec (x y : ge) : {x = y} + {x <> y}.
Proof. repeat (decide equality). Defined.
Definition dfe : fedge := ((0, 0), 0).
Lemma not_all_in (l l' : list nat) : sset l -> sset l' -> (forall x, In x l -> In x l') -> l <> l' -> exists x, In x l' /\ ~ In x l.
Proof.
  intros S1 S2 I N. destruct (Exists_dec (fun x => ~ In x l) l') as [X|X]. intros x. destruct (in_dec Nat.eq_dec x l); [right|left]; auto. apply Exists_exists in X as (x & X1 & X2). eauto. exfalso. apply N. apply sset_ext; auto. intros x. split; auto. intros Y. destruct (in_dec Nat.eq_dec x l); auto. exfalso. apply X. apply Exists_exists. eauto.
Qed.

Section Mesh.
  Variables (W V : list (list (list nat))) (groups : list (list nat)) (EI EC : list (list (list fedge))).
  Notation H := (map dist_procs W).
  Hypothesis HC : consistent W.
  Hypothesis HG : grouping (length W) groups.
  Hypothesis HV : vertex_tables H V.
  Hypothesis HE : edge_tables H V EI EC.
  Hypothesis HCL : groups_closed H groups.
  Notation ng := (length groups).
  Notation np := (length H).
  Notation gvr := (gvr H V).
  Notation ei := (ei H V EI).
  Notation ec := (ec H V EC).
  Notation gf := (gf gvr).
  Notation MC := (MC H groups).
  Notation gof := (gof groups).
  Notation cset := (cset groups).
  Notation cnr := (cnr H groups).
  Notation iv := (iv H groups V).
  Notation isv := (isv H groups V).
  Notation ise := (ise H groups V).
  Notation sp := (sp H groups V).
  Notation CL := (CL H groups V ei ec).
  Notation AG := (AG H groups V ec).
  Notation AI := (AI H groups V ec).
  Notation AC := (AC H groups V ec).
  Notation Ec := (Ec H groups).
  Notation an_at := (an_at H groups V ei ec).
  Notation E_ok := (E_ok H groups V EI EC gvr ei ec).
  Notation CN g := (length (ctab_of H groups g)).
  Notation tg := (tg groups).
  Let KW := HW W HC.
  Let KR := G_rank W groups HG.
  Let KA := G_all W groups HG.
  Let K1 := G_one W groups HG.
  Let KS := gr_sorted _ _ HG.
  Let KV := vt_rows _ _ HV.
  Let Kei := E_ei H V EI EC KW HV HE.
  Let Kec := E_ec H V EI EC KW HV HE.
  Let Keiok := ei_ok H V EI EC KW HV HE.
  Let Kecok := ec_ok H V EI EC KW HV HE.
  Let Kdet := ec_det H V EI EC KW HV HE.
  Let Kecnd := ec_nd H V EI EC KW HV HE.
  Let Kecsw := ec_sw H V EI EC KW HV HE.
  Let Keind := ei_nd H V EI EC KW HV HE.
  Let Keisw := ei_sw H V EI EC KW HV HE.
  Let Kcl := mclosed W groups HC HG HCL.
  Notation re := (rank_edges EI EC).
  Notation n := (edges EI EC).
  Lemma edge_i r i : r < np -> i < n r -> In (nth i (re r) dfe) (re r) /\ snd (nth i (re r) dfe) = i.
  Proof. intros Hr Hi. split. now apply nth_In. pose proof (et_numbers _ _ _ _ HE r Hr) as Q. apply (f_equal (fun l => nth i l 0)) in Q. rewrite (nth_map_ok _ _ _ dfe), seq_nth in Q by auto. exact Q. Qed.
  Lemma edge_of r e : r < np -> In e (re r) -> snd e < n r /\ nth (snd e) (re r) dfe = e.
  Proof. intros Hr X. destruct (In_nth _ _ dfe X) as (i & Hi & Q). destruct (edge_i r i Hr Hi) as (_ & Z). rewrite Q in Z. rewrite Z. auto. Qed.
  Lemma gof_r r : r < np -> gof r < ng /\ In r (grp groups (gof r)).
  Proof. intros Hr. destruct (KA r Hr) as (q & Hq & X). rewrite (gof_ok groups K1 q r Hq X). auto. Qed.
  Lemma ge_class r e : r < np -> In e (re r) -> exists D, In D (classes H r) /\ (In (gf r e) (ei D) \/ In (gf r e) (ec D)).
  Proof. intros Hr X. destruct (rank_row W V EI EC HE r e Hr X) as (j & Hj & Y). destruct (gf_class W V EI EC HC HV HE r e j Hr Hj) as (A & B). exists (nth j (classes H r) []). split. now apply cls_in. destruct Y; auto. Qed.
  Lemma ise_in g D x : g < ng -> In D (MC g) -> In x (ei D) \/ In x (ec D) -> ise g x.
  Proof. intros Hg X [Y|Y]. now apply (ei_ise H groups KR V ei Keiok g D). now apply (ec_ise H groups KR V ec Kecok g D). Qed.
  Lemma ise_rank r e : r < np -> In e (re r) -> ise (gof r) (gf r e).
  Proof. intros Hr X. destruct (gof_r r Hr) as (Q1 & Q2). destruct (ge_class r e Hr X) as (D & C & Y). apply (ise_in _ D); auto. apply MC_in. exists r. auto. Qed.
  Lemma ge_uniq g g' r r' D D' x y : r < np -> r' < np -> In D (classes H r) -> In D' (classes H r') -> In x (ei D) \/ In x (ec D) -> In y (ei D') \/ In y (ec D') -> sp g x = sp g' y -> D = D' /\ x = y.
  Proof.
    intros Hr Hr' C C' [Y|Y] [Y'|Y'] Q.
    - eapply (ei_uniq H groups V ei Keiok Keisw g g' r r'); eauto.
    - exfalso. eapply (eiec_uniq H groups V ei ec Keiok Kdet g g' r r'); eauto.
    - exfalso. eapply (eiec_uniq H groups V ei ec Keiok Kdet g' g r' r); eauto.
    - eapply (ec_uniq H groups KW V ec Kdet Kecsw g g' r r'); eauto.
  Qed.
  Lemma gf_uniq2 g g' r r' e e' : r < np -> r' < np -> In e (re r) -> In e' (re r') -> sp g (gf r e) = sp g' (gf r' e') -> gf r e = gf r' e'.
  Proof. intros Hr Hr' X X' Q. destruct (ge_class r e Hr X) as (D & C & Y). destruct (ge_class r' e' Hr' X') as (D' & C' & Y'). now apply (ge_uniq g g' r r' D D'). Qed.
  Definition key (r i : nat) : ge := sp (gof r) (gf r (nth i (re r) dfe)).
  Lemma key_e g k e : g < ng -> k < length (grp groups g) -> In e (re (rk groups g k)) -> key (rk groups g k) (snd e) = sp g (gf (rk groups g k) e).
  Proof. intros Hg Hk X. assert (Hr := rk_np W groups HG g k Hg Hk). unfold key. rewrite (gof_ok groups K1 g) by (auto; now apply nth_In). now rewrite (proj2 (edge_of _ e Hr X)). Qed.
  (** *** classes of the new edges *)
  Lemma Ec_some g c : g < ng -> c < CN g -> exists D, In D (MC g) /\ cnr g D = c /\ Ec g c = cset D.
  Proof. intros Hg Hc. destruct (class_D H groups g c Hc) as (D & D1 & D2). exists D. split; auto. split; auto. rewrite <- D2. now apply (Ec_cset H groups KW KR K1). Qed.
  Lemma AG_kind g c x : g < ng -> c < CN g -> In x (AG (Ec g c)) -> ise g x /\ tg x = Ec g c.
  Proof. intros Hg Hc X. destruct (Ec_some g c Hg Hc) as (D & D1 & D2 & D3). rewrite D3 in *. apply (AG_ise H groups KW KR KA K1 KS V KV ec Kecok Kcl Kdet g D x); auto. Qed.
  Lemma AG_from g c x : g < ng -> c < CN g -> In x (AG (Ec g c)) -> exists q D e', q < ng /\ In D (MC q) /\ In e' (ec D) /\ hit groups D e' = false /\ tg e' = Ec g c /\ x = sp g e'.
  Proof. intros Hg Hc X. destruct (Ec_some g c Hg Hc) as (D & D1 & D2 & D3). rewrite D3 in *. apply (AG_in H groups KW KR KA K1 KS V KV ec Kecok Kcl Kdet g D x); auto. Qed.
  Lemma tg_lt g x q : g < ng -> ise g x -> In q (tg x) -> q < ng.
  Proof. intros Hg (A & B) X. apply isec_in in X as (X & _). apply (cset_lt H groups KW KR KA K1 g (fst (fst x))); auto. apply A. Qed.
  Lemma ise_tg g q x : g < ng -> q < ng -> ise g x -> In q (tg x) -> ise q x.
  Proof. intros Hg Hq (A & B) X. apply isec_in in X as (X & Y). split; (split; [|apply A || apply B]); apply (MC_share H groups KW KR KA K1 g q); auto. apply A. apply B. Qed.
  Lemma tg_self g x : g < ng -> ise g x -> In g (tg x).
  Proof. intros Hg (A & B). apply isec_in. split; apply (MC_gof H groups KW KR K1); auto. apply A. apply B. Qed.
  Lemma class_tg g x : g < ng -> ise g x -> exists c, c < CN g /\ Ec g c = tg x.
  Proof. intros Hg (A & B). destruct (Kcl g _ _ Hg (proj1 A) (proj1 B)) as (D & D1 & D2). destruct (cnr_ok H groups g D D1) as (C1 & _). exists (cnr g D). split; auto. rewrite (Ec_cset H groups KW KR K1) by auto. exact D2. Qed.
  (** *** the new mesh *)
  Variables (Rs : list cverts) (Es : list cedges).
  Notation Rf := (fun g => nth g Rs (mkV [] [] [])).
  Notation Ef := (fun g => nth g Es (mkE [] [] [] [] [] [])).
  Hypothesis LR : length Rs = ng.
  Hypothesis LE : length Es = ng.
  Hypothesis HR : forall g, g < ng -> R_full W V groups EI EC g (Rf g).
  Hypothesis HEf : forall g, g < ng -> E_ok g (Ef g).
  Lemma spl g : g < ng -> split_ok H groups V ec g. Proof. intros Hg. apply (HEf g Hg). Qed.
  Lemma cl_iff g x : g < ng -> In x (CL g) <-> (exists D e', In D (MC g) /\ In e' (ei D) /\ x = sp g e') \/ (exists q D e', q < ng /\ In D (MC q) /\ In e' (ec D) /\ In g (tg e') /\ x = sp g e').
  Proof. intros Hg. apply (CL_in H groups KW KR KA K1 KS V KV ei ec Kecok Kcl Kdet g x Hg (spl g Hg)). Qed.
  Lemma cl_ise g x : g < ng -> In x (CL g) -> ise g x /\ iv g (fst x) < iv g (snd x).
  Proof. intros Hg. exact (CLlt W V groups EI EC HC HG HV HE HCL g (Ef g) x Hg (HEf g Hg)). Qed.
  Lemma cl_nd g : g < ng -> NoDup (CL g).
  Proof. intros Hg. exact (CLnd W V groups EI EC HC HG HV HE HCL g (Ef g) Hg (HEf g Hg)). Qed.
  Lemma AG_CL g c x : g < ng -> c < CN g -> In x (AG (Ec g c)) -> In x (CL g).
  Proof. intros Hg Hc X. destruct (AG_kind g c x Hg Hc X) as (I & T). destruct (AG_from g c x Hg Hc X) as (q & D & e' & Q1 & Q2 & Q3 & Q4 & Q5 & ->). apply (cl_iff g _ Hg). right. exists q, D, e'. repeat (split; auto). rewrite Q5, <- T. now apply tg_self. Qed.
  Definition has_member (g : nat) (x : ge) : Prop := exists k f, k < length (grp groups g) /\ In f (re (rk groups g k)) /\ x = sp g (gf (rk groups g k) f).
  Lemma member_class g D e' : g < ng -> In D (MC g) -> In e' (ei D) \/ In e' (ec D) -> has_member g (sp g e').
  Proof.
    intros Hg X Y. apply MC_in in X as (r & X1 & X2). assert (Hr : r < np) by now apply (KR g). destruct (In_nth _ _ 0 X1) as (k & Hk & Q). exists k.
    assert (Z : exists f, In f (re r) /\ e' = gf r f). { destruct Y as [Y|Y]. destruct (ei_from H V EI EC KW HV HE r D e' Hr X2 Y) as (j & f & Hj & _ & F & ->). exists f. split; auto. now apply (in_rank_ei H V EI EC HE r j). destruct (ec_from H V EI EC KW HV HE r D e' Hr X2 Y) as (j & f & Hj & _ & F & ->). exists f. split; auto. now apply (in_rank_ec H V EI EC HE r j). }
    destruct Z as (f & F & ->). exists f. rewrite Q. auto.
  Qed.
  Lemma annoy_or g x : g < ng -> In x (CL g) -> (exists c, c < CN g /\ In x (AG (Ec g c))) \/ has_member g x.
  Proof.
    intros Hg X. apply (cl_iff g x Hg) in X as [(D & e' & A1 & A2 & ->)|(q & D & e' & Hq & A1 & A2 & A3 & ->)]. right. eapply member_class; eauto.
    destruct (hit groups D e') eqn:EH.
    - right. apply (member_class g D); auto. apply list_eqb_eq in EH. apply (MC_share H groups KW KR KA K1 q g); auto. now rewrite EH.
    - left. assert (I : ise g e') by (apply (ise_tg q g); auto; apply (ise_in q D); auto). destruct (class_tg g e' Hg I) as (c & Hc & EC0). exists c. split; auto. destruct (Ec_some g c Hg Hc) as (D0 & D1 & D2 & D3). rewrite D3. apply (AG_in H groups KW KR KA K1 KS V KV ec Kecok Kcl Kdet g D0); auto. exists q, D, e'. repeat (split; auto). now rewrite <- EC0.
  Qed.
  (** an edge that is not with the members of all its groups *)
  Lemma annoy_no g c x : g < ng -> c < CN g -> In x (AG (Ec g c)) -> exists q, q < ng /\ In x (CL q) /\ ~ has_member q x.
  Proof.
    intros Hg Hc X. destruct (AG_kind g c x Hg Hc X) as (I & T). destruct (AG_from g c x Hg Hc X) as (q & D & e' & Q1 & Q2 & Q3 & Q4 & Q5 & ->). destruct (MC_r H groups KR q D Q1 Q2) as (r & Hr & C).
    destruct (not_all_in (cset D) (tg e')) as (g2 & G1 & G2). apply cset_sset. apply isec_sset. exact (ec_target H groups ec Kdet r D e' Hr C Q3). intros Z. unfold hit in Q4. rewrite Z, list_eqb_refl in Q4. discriminate.
    assert (I' : ise q e') by (apply (ise_in q D); auto). assert (Hg2 : g2 < ng) by (now apply (tg_lt q e')). assert (I2 : ise g2 e') by (now apply (ise_tg q g2)). assert (Ig : ise g e') by (apply (ise_tg q g); auto; rewrite Q5, <- T; now apply tg_self).
    rewrite (sp_shared H groups KW KR KA K1 V g g2) by auto. exists g2. split; auto. split. apply (cl_iff g2 _ Hg2). right. exists q, D, e'. auto.
    intros (k & f & Hk & F & Q). assert (Hr2 := rk_np W groups HG g2 k Hg2 Hk). destruct (ge_class _ f Hr2 F) as (D' & C' & Y'). destruct (ge_uniq g2 g2 r _ D D' e' _ Hr Hr2 C C' (or_intror Q3) Y' Q) as (<- & _). apply G2. apply (MC_gof H groups KW KR K1); auto. apply MC_in. exists (rk groups g2 k). split; auto. now apply nth_In.
  Qed.
  Lemma annoy_all g q x : g < ng -> q < ng -> In x (CL q) -> ~ has_member q x -> In x (CL g) -> exists c, c < CN g /\ In x (AG (Ec g c)).
  Proof.
    intros Hg Hq X N Y. destruct (annoy_or q x Hq X) as [(c & Hc & Z)|Z]; [|contradiction]. destruct (AG_kind q c x Hq Hc Z) as (_ & T). destruct (class_tg g x Hg) as (c' & Hc' & E). now apply cl_ise. exists c'. split; auto. now rewrite E, T.
  Qed.
  (** *** maps *)
  Definition eim (g k i : nat) : nat := match nth i (nth k (e_maps (Ef g)) []) None with Some p => p | None => 0 end.
  Lemma mem g k i : g < ng -> k < length (grp groups g) -> i < n (rk groups g k) -> nth i (nth k (e_maps (Ef g)) []) None = Some (eim g k i) /\ eim g k i < length (CL g) /\ nth (eim g k i) (CL g) dge = key (rk groups g k) i.
  Proof.
    intros Hg Hk Hi. assert (Hr := rk_np W groups HG g k Hg Hk). destruct (edge_i _ i Hr Hi) as (X & Q). set (e := nth i (re (rk groups g k)) dfe) in *. destruct (rank_row W V EI EC HE _ e Hr X) as (j & Hj & Y). destruct (HEf g Hg) as (_ & _ & _ & _ & _ & _ & B4 & _). destruct (B4 k Hk) as (_ & _ & F). destruct (F j e Hj Y) as (p & P1 & (P2 & P3) & _). rewrite Q in P1. unfold eim. rewrite P1. split; auto. split; auto. rewrite P3. rewrite <- (key_e g k e Hg Hk X). now rewrite Q.
  Qed.
  Lemma len_map g k : g < ng -> k < length (grp groups g) -> length (nth k (e_maps (Ef g)) []) = n (rk groups g k).
  Proof. intros Hg Hk. destruct (HEf g Hg) as (_ & _ & _ & _ & _ & _ & B4 & _). destruct (B4 k Hk) as (B & _). rewrite B. unfold nE, edges, rank_edges. now rewrite app_length. Qed.
  Lemma an_pos g c l : c < CN g -> l < length (AG (Ec g c)) -> an_at g c l < length (CL g) /\ nth (an_at g c l) (CL g) dge = nth l (AG (Ec g c)) dge.
  Proof.
    intros Hc Hl. enough (Z : ok_at H groups V ei ec g (an_at g c l) (nth l (AG (Ec g c)) dge)) by (destruct Z as (Z1 & Z2); auto). assert (EA : AG (Ec g c) = AI (Ec g c) ++ AC (Ec g c)) by (symmetry; apply firstn_skipn). unfold GEProofs8.an_at. destruct (Nat.ltb_spec l (length (AI (Ec g c)))) as [L|L].
    - rewrite EA, app_nth1 by auto. now apply pos_ia.
    - rewrite EA, app_nth2 by auto. apply pos_ca; auto. rewrite EA, app_length in Hl. lia.
  Qed.
  Lemma e_len g : g < ng -> length (e_edges (Ef g)) = length (CL g).
  Proof. intros Hg. destruct (HEf g Hg) as (_ & _ & _ & B & _). rewrite B. apply map_length. Qed.
  Lemma becomes_iff r e g p : r < np -> In e (re r) -> g < ng -> (becomes H V groups Rs Es r e g p <-> p < length (CL g) /\ nth p (CL g) dge = sp g (gf r e) /\ ise g (gf r e)).
  Proof.
    intros Hr X Hg. assert (B := HEf g Hg). destruct B as (_ & _ & _ & B & _). assert (IMG := proj2 (HR g Hg)).
    split.
    - intros (k & v & k' & v' & a & b & Hk & Hk' & S1 & S2 & I1 & I2 & Q). pose proof (same_gvr H V KW HV r _ _ _ Hr (rk_np W groups HG g k Hg Hk) S1) as G1. pose proof (same_gvr H V KW HV r _ _ _ Hr (rk_np W groups HG g k' Hg Hk') S2) as G2.
      destruct S1 as (j1 & j2 & l & _ & AT & _). destruct S2 as (j1' & j2' & l' & _ & AT' & _). destruct (IMG k v _ _ Hk AT) as (J1 & V1). destruct (IMG k' v' _ _ Hk' AT') as (J2 & V2). rewrite <- G1 in J1, V1. rewrite <- G2 in J2, V2. rewrite J1 in I1. rewrite J2 in I2. injection I1 as <-. injection I2 as <-.
      assert (Hp : p < length (CL g)). { destruct (Nat.lt_ge_cases p (length (CL g))); auto. rewrite B, nth_overflow in Q by now rewrite map_length. destruct Q; discriminate. } split; auto. rewrite B, (nth_map_ok _ _ _ dge) in Q by auto. set (x := nth p (CL g) dge) in *. destruct (cl_ise g x Hg) as ((X1 & X2) & LT). { apply nth_In; auto. } split; [|split; auto].
      assert (EQ : forall y z, isv g y -> isv g z -> iv g y = iv g z -> y = z) by (intros y z Y Z; now apply (iv_inj H groups V g)). unfold GEProofs2.sp. destruct Q as [Q|Q]; injection Q as Q1 Q2; apply EQ in Q1; auto; apply EQ in Q2; auto; cbn [fst snd GEProofs3.gf]; rewrite Q1, Q2 in LT; destruct (Nat.ltb_spec (iv g (gvr r (snd (fst e)))) (iv g (gvr r (fst (fst e))))); try lia; destruct x; cbn [fst snd] in *; subst; reflexivity.
    - intros (Hp & Q & (I1 & I2)). destruct (vert_of W V groups EI EC HC HG HV g (Rf g) _ Hg (HR g Hg) I1) as (k & v & j & l & Hk & AT & GV & IM). destruct (vert_of W V groups EI EC HC HG HV g (Rf g) _ Hg (HR g Hg) I2) as (k' & v' & j' & l' & Hk' & AT' & GV' & IM'). destruct (ends_at H V EI EC HE _ e Hr X) as ((a1 & b1 & C1) & (a2 & b2 & C2)).
      exists k, v, k', v', (iv g (gvr r (fst (fst e)))), (iv g (gvr r (snd (fst e)))). split; auto. split; auto. split. { eapply (gvr_same H V KW HV); eauto. now apply (rk_np W groups HG). } split. { eapply (gvr_same H V KW HV); eauto. now apply (rk_np W groups HG). } split; auto. split; auto. rewrite B, (nth_map_ok _ _ _ dge), Q by auto. unfold GEProofs2.sp. cbn [fst snd GEProofs3.gf]. destruct (_ <? _); auto.
  Qed.
  Lemma member_iff r e g : r < np -> In e (re r) -> g < ng -> ise g (gf r e) -> (member_has H V groups EI EC r e g <-> has_member g (sp g (gf r e))).
  Proof.
    intros Hr X Hg I. split; intros (k & f & Hk & F & Q); exists k, f; split; auto; split; auto; assert (Hr2 := rk_np W groups HG g k Hg Hk).
    - apply (gf_ends W V EI EC HC HV HE) in Q; auto. now rewrite Q.
    - apply (gf_ends W V EI EC HC HV HE); auto. now apply (gf_uniq2 g g).
  Qed.
End Mesh.
