(** C97, C98: the edges of the redistributed mesh. *)
From Verif Require Import Base EQCModel UtilProofs EQCProofs EQCProofs2 EQCProofs3 EQCProps AggMapModel AggMapProofs GCModel GCProofs GCProofs2 GCProofs3 GCProps GEModel GEProofs GEProofs2 GEProofs3 GEProofs4 GEProofs5 GEProofs6 GEProofs7 GEProofs8 GESpec GEProofs9 GEProofs10 GECheck.
Local Open Scope nat_scope.

(** number of an edge of member [k] in the new mesh, and whether its direction changes *)
Definition edge_image (E : cedges) (k n : nat) : option nat := nth n (nth k (e_maps E) []) None.
Definition flipped (E : cedges) (k n : nat) : bool := nth n (nth k (e_flips E) []) false.

Section Mesh.
  Variables (W V : list (list (list nat))) (groups : list (list nat)) (EI EC : list (list (list fedge))).
  Notation H := (map dist_procs W).
  Hypothesis HC : consistent W.
  Hypothesis HG : grouping (length W) groups.
  Hypothesis HV : vertex_tables H V.
  Hypothesis HE : edge_tables H V EI EC.
  Hypothesis HCL : groups_closed H groups.
  Notation ng := (length groups).
  Notation np := (length H).
  Notation gvr := (gvr H V).
  Notation ei := (ei H V EI).
  Notation ec := (ec H V EC).
  Notation gf := (gf gvr).
  Notation MC := (MC H groups).
  Notation cset := (cset groups).
  Notation iv := (iv H groups V).
  Notation isv := (isv H groups V).
  Notation ise := (ise H groups V).
  Notation sp := (sp H groups V).
  Notation CL := (CL H groups V ei ec).
  Notation E_ok := (E_ok H groups V EI EC gvr ei ec).
  Notation R_ok := (R_ok H groups V EI EC gvr).
  Let KW := HW W HC.
  Let KR := G_rank W groups HG.
  Let KA := G_all W groups HG.
  Let K1 := G_one W groups HG.
  Let KS := gr_sorted _ _ HG.
  Let KV := vt_rows _ _ HV.
  Let KEI : forall r, r < np -> length (nth r EI []) = length (nth r H []). Proof. intros r Hr. apply (et_rows _ _ _ _ HE r Hr). Qed.
  Let KEC : forall r, r < np -> length (nth r EC []) = length (nth r H []). Proof. intros r Hr. apply (et_rows _ _ _ _ HE r Hr). Qed.
  Let Kei := E_ei H V EI EC KW HV HE.
  Let Kec := E_ec H V EI EC KW HV HE.
  Let Keiok := ei_ok H V EI EC KW HV HE.
  Let Kecok := ec_ok H V EI EC KW HV HE.
  Let Kdet := ec_det H V EI EC KW HV HE.
  Let Kecnd := ec_nd H V EI EC KW HV HE.
  Let Kecsw := ec_sw H V EI EC KW HV HE.
  Let Keind := ei_nd H V EI EC KW HV HE.
  Let Keisw := ei_sw H V EI EC KW HV HE.
  Lemma mclosed : forall g A B, g < ng -> In A (MC g) -> In B (MC g) -> exists D, In D (MC g) /\ cset D = isec groups A B.
  Proof.
    intros g A B Hg XA XB. destruct (MC_slot H groups g A Hg XA) as (k & j & Hk & Hj & <-). destruct (MC_slot H groups g B Hg XB) as (k' & j' & Hk' & Hj' & <-). destruct (HCL g k j k' j' Hg (conj Hk Hj) (conj Hk' Hj')) as (k2 & j2 & X2 & Q). exists (cl H groups g k2 j2). split. now apply (cl_MC W groups). apply sset_ext. apply cset_sset. apply isec_sset. intros q. rewrite isec_in. 
    assert (T : forall k j, is_class H groups g k j -> In q (cset (cl H groups g k j)) <-> q < ng /\ meets groups q (rk groups g k) (row H (rk groups g k) j)). { intros a b X. split. intros Y. assert (Hq := cset_lt H groups KW KR KA K1 g _ q Hg (cl_MC W groups g a b X) Y). split; auto. now apply (hits_ok W groups HC HG g a b q). intros (Hq & Y). now apply (hits_ok W groups HC HG g a b q). }
    rewrite (T k2 j2 X2), (T k j (conj Hk Hj)), (T k' j' (conj Hk' Hj')). split. intros (Hq & Y). apply Q in Y; auto. destruct Y; auto. intros ((Hq & Y) & _ & Z). split; auto. apply Q; auto.
  Qed.
  (** images of vertices *)
  Definition R_full (g : nat) (R : cverts) : Prop := R_ok g R /\ forall k v j l, k < length (grp groups g) -> at_vertex H V (rk groups g k) v j l -> image R k v = Some (iv g (gvr (rk groups g k) v)) /\ isv g (gvr (rk groups g k) v).
  Lemma verts_full g : g < ng -> exists R, map_vertices (grp groups g) (contr H groups g) (map (fun r => nth r V []) (grp groups g)) = Ret R /\ R_full g R.
  Proof.
    intros Hg. destruct (verts_ok W V groups HC HG HV g Hg) as (R & E & A1 & A2 & A3 & A4 & A5). exists R. split; auto.
    assert (F : forall k v j l, k < length (grp groups g) -> at_vertex H V (rk groups g k) v j l -> image R k v = Some (iv g (gvr (rk groups g k) v)) /\ isv g (gvr (rk groups g k) v)).
    { intros k v j l Hk X. assert (Hr : rk groups g k < np) by (apply (KR g); auto; now apply nth_In). destruct (at_num H V HV _ v j l Hr X) as (_ & _ & B). rewrite B. destruct X as (X1 & X2 & X3). assert (IV : is_vertex H V groups g k j l) by (split; [split|]; auto). rewrite <- X3. rewrite (A5 k j l IV). split; auto. split. apply (cl_MC W groups g k j). split; auto. apply (nv_at W V groups HC HG HV g k j l Hg IV). }
    split; auto. split. split; auto. split; auto. intros k Hk j e Hj X. assert (Hr : rk groups g k < np) by (apply (KR g); auto; now apply nth_In).
    assert (IR : In e (rank_edges EI EC (rk groups g k))) by (destruct X as [X|X]; [apply (in_rank_ei H V EI EC HE _ j)|apply (in_rank_ec H V EI EC HE _ j)]; auto). destruct (ends_at H V EI EC HE _ e Hr IR) as ((a1 & b1 & B1) & (a2 & b2 & B2)).
    assert (M : forall v j l, at_vertex H V (rk groups g k) v j l -> map_at (nth k (v_maps R) []) v = Ret (iv g (gvr (rk groups g k) v))). { intros v a b Y. destruct (at_num H V HV _ v a b Hr Y) as (_ & L & _). destruct (F k v a b Hk Y) as (I & _). unfold map_at. rewrite (rd_ok _ _ None) by (rewrite A4; auto). cbn [bind]. unfold image in I. now rewrite I. }
    split; eapply M; eauto.
  Qed.
  Lemma rk_np g k : g < ng -> k < length (grp groups g) -> rk groups g k < np. Proof. intros Hg Hk. apply (KR g); auto. now apply nth_In. Qed.
  Lemma all_ok : exists Rs Es, contract_mesh H groups V EI EC = Ret (map (contr H groups) (seq 0 ng), Rs, Es) /\ length Rs = ng /\ length Es = ng /\ (forall g, g < ng -> exists R, nth_error Rs g = Some R /\ R_full g R) /\ (forall g, g < ng -> exists E, nth_error Es g = Some E /\ E_ok g E).
  Proof.
    unfold contract_mesh. rewrite (GCProofs.mapM_map _ (contr H groups)). 2: { intros g X. apply in_seq in X. apply Build_ok; auto. lia. } cbn [bind].
    assert (RC : forall g, g < ng -> rd (map (contr H groups) (seq 0 ng)) g = Ret (contr H groups g)). { intros g Hg. rewrite (rd_ok _ _ (contr H groups 0)) by (rewrite map_length, seq_length; lia). rewrite (nth_map_ok _ _ _ 0) by (now rewrite seq_length). now rewrite seq_nth. }
    destruct (mapM_exists (fun g => grp <- rd groups g ;; C <- rd (map (contr H groups) (seq 0 ng)) g ;; map_vertices grp C (map (fun r => nth r V []) grp)) R_full (seq 0 ng)) as (Rs & E1 & L1 & A1).
    { intros g Hg. apply in_seq in Hg. rewrite (rd_ok _ _ []) by lia. cbn [bind]. rewrite RC by lia. cbn [bind]. apply verts_full. lia. }
    rewrite E1. cbn [bind]. rewrite seq_length in L1. assert (A2 : forall g, g < ng -> exists R, nth_error Rs g = Some R /\ R_full g R). { intros g Hg. apply (A1 g g). rewrite (nth_error_nth' _ 0) by (now rewrite seq_length). now rewrite seq_nth. }
    destruct (map_edges_ok H groups KW KR KA K1 KS V KV EI EC gvr ei ec KEI KEC Kei Kec Keiok Kecok mclosed Kdet Kecnd Kecsw Keind Keisw (num_lt H V EI EC HE) (num_nd H V EI EC HE) Rs L1) as (Es & E2 & L2 & A3). { intros g Hg. destruct (A2 g Hg) as (R & B1 & B2 & _). exists R. auto. }
    rewrite E2. cbn [bind]. exists Rs, Es. auto.
  Qed.
  (** *** edges of the members *)
  Lemma rank_row r e : r < np -> In e (rank_edges EI EC r) -> exists j, j < length (nth r H []) /\ (In e (row EI r j) \/ In e (row EC r j)).
  Proof. intros Hr X. apply in_app_or in X as [X|X]; apply in_concat in X as (y & Y & X); destruct (In_nth _ _ [] Y) as (j & Hj & <-); exists j; rewrite ?KEI, ?KEC in Hj by auto; auto. Qed.
  Lemma gf_class r e j : r < np -> j < length (nth r H []) -> (In e (row EI r j) -> In (gf r e) (ei (nth j (classes H r) []))) /\ (In e (row EC r j) -> In (gf r e) (ec (nth j (classes H r) []))).
  Proof. intros Hr Hj. split; intros X; [rewrite <- Kei|rewrite <- Kec]; auto; now apply in_map. Qed.
  Lemma cls_in r j : j < length (nth r H []) -> In (nth j (classes H r) []) (classes H r). Proof. intros Hj. apply nth_In. unfold classes. now rewrite map_length. Qed.
  Lemma gf_uniq g r r' e e' : r < np -> r' < np -> In e (rank_edges EI EC r) -> In e' (rank_edges EI EC r') -> sp g (gf r e) = sp g (gf r' e') -> gf r e = gf r' e'.
  Proof.
    intros Hr Hr' X X' Q. destruct (rank_row r e Hr X) as (j & Hj & Y). destruct (rank_row r' e' Hr' X') as (j' & Hj' & Y'). destruct (gf_class r e j Hr Hj) as (A & B). destruct (gf_class r' e' j' Hr' Hj') as (A' & B'). assert (C := cls_in r j Hj). assert (C' := cls_in r' j' Hj'). destruct Y as [Y|Y], Y' as [Y'|Y'].
    - eapply (ei_uniq H groups V ei Keiok Keisw g g r r'); eauto.
    - exfalso. eapply (eiec_uniq H groups V ei ec Keiok Kdet g g r r'); eauto.
    - exfalso. eapply (eiec_uniq H groups V ei ec Keiok Kdet g g r' r); eauto.
    - eapply (ec_uniq H groups KW V ec Kdet Kecsw g g r r'); eauto.
  Qed.
  Lemma gf_ends r r' e e' : r < np -> r' < np -> In e (rank_edges EI EC r) -> In e' (rank_edges EI EC r') -> (gf r e = gf r' e' <-> same_ends H V r r' e e').
  Proof.
    intros Hr Hr' X X'. split. 2: now apply same_gf. intros Q. assert (Q1 : gvr r (fst (fst e)) = gvr r' (fst (fst e'))) by exact (f_equal fst Q). assert (Q2 : gvr r (snd (fst e)) = gvr r' (snd (fst e'))) by exact (f_equal snd Q). destruct (ends_at H V EI EC HE r e Hr X) as ((a1 & b1 & B1) & (a2 & b2 & B2)). destruct (ends_at H V EI EC HE r' e' Hr' X') as ((a3 & b3 & B3) & (a4 & b4 & B4)). split; eapply gvr_same; eauto.
  Qed.
  Lemma pos_uniq g E p p' e : g < ng -> E_ok g E -> ok_at H groups V ei ec g p e -> ok_at H groups V ei ec g p' e -> p = p'.
  Proof.
    intros Hg (HS & _) (A & B) (A' & B'). assert (ND := CL_nodup H groups KW KR KA K1 KS V KV ei ec Keiok Kecok mclosed Kdet Kecnd Kecsw Keind Keisw g Hg HS). apply (proj1 (NoDup_nth (CL g) dge) ND); auto. now rewrite B, B'.
  Qed.
  (** *** all edges of a group *)
  Lemma vert_of g R a : g < ng -> R_full g R -> isv g a -> exists k v j l, k < length (grp groups g) /\ at_vertex H V (rk groups g k) v j l /\ gvr (rk groups g k) v = a /\ image R k v = Some (iv g a).
  Proof.
    intros Hg HR (X1 & X2). destruct (MC_slot H groups g _ Hg X1) as (k & j & Hk & Hj & Q). assert (Hr := rk_np g k Hg Hk). assert (ND : nv H V (fst a) = length (row V (rk groups g k) j)). { rewrite <- Q. unfold cl. apply (nv_row H V KW HV); auto. } set (v := nth (snd a) (row V (rk groups g k) j) 0). assert (AT : at_vertex H V (rk groups g k) v j (snd a)) by (split; [auto|split; auto; lia]). exists k, v, j, (snd a). split; auto. split; auto. destruct (at_num H V HV _ v j _ Hr AT) as (_ & _ & B). assert (GV : gvr (rk groups g k) v = a). { rewrite B. unfold cl in Q. rewrite Q. destruct a; auto. } split; auto. destruct HR as (_ & HR). destruct (HR k v j _ Hk AT) as (I & _). now rewrite GV in I.
  Qed.
  Lemma in_group g r e : g < ng -> r < np -> In e (rank_edges EI EC r) -> ise g (gf r e) -> forall E, E_ok g E -> In (sp g (gf r e)) (CL g).
  Proof.
    intros Hg Hr X (I1 & I2) E (HS & _). apply (CL_in H groups KW KR KA K1 KS V KV ei ec Kecok mclosed Kdet g _ Hg HS). destruct (rank_row r e Hr X) as (j & Hj & Y). destruct (gf_class r e j Hr Hj) as (A & B). assert (C := cls_in r j Hj). destruct Y as [Y|Y].
    - left. exists (nth j (classes H r) []), (gf r e). destruct (Keiok r _ _ Hr C (A Y)) as (Z & _). assert (I3 : In (nth j (classes H r) []) (MC g)) by (rewrite <- Z; exact (proj1 I1)). repeat (split; auto).
    - right. destruct (KA r Hr) as (q & Hq & RQ). exists q, (nth j (classes H r) []), (gf r e). split; auto. split. apply MC_in. exists r. auto. split; auto. split; auto. unfold tg. apply isec_in. split; apply (MC_gof H groups KW KR K1); auto. apply I1. apply I2.
  Qed.
  Lemma from_rank g E e : g < ng -> E_ok g E -> In e (CL g) -> exists r f, r < np /\ In f (rank_edges EI EC r) /\ ise g (gf r f) /\ e = sp g (gf r f).
  Proof.
    intros Hg (HS & _) X. apply (CL_in H groups KW KR KA K1 KS V KV ei ec Kecok mclosed Kdet g e Hg HS) in X. destruct X as [(D & e' & X1 & X2 & ->)|(q & D & e' & Hq & X1 & X2 & X4 & ->)].
    - assert (I := ei_ise H groups KR V ei Keiok g D e' Hg X1 X2). destruct (MC_r H groups KR g D Hg X1) as (r & Hr & C). destruct (ei_from H V EI EC KW HV HE r D e' Hr C X2) as (j & f & Hj & -> & F & ->). exists r, f. split; auto. split; auto. now apply (in_rank_ei H V EI EC HE r j).
    - destruct (ec_isv H groups KW KR KA K1 V ec Kecok q D e' g Hq X1 X2 X4) as (_ & I). destruct (MC_r H groups KR q D Hq X1) as (r & Hr & C). destruct (ec_from H V EI EC KW HV HE r D e' Hr C X2) as (j & f & Hj & -> & F & ->). exists r, f. split; auto. split; auto. now apply (in_rank_ec H V EI EC HE r j).
  Qed.
  Lemma CLlt g E e : g < ng -> E_ok g E -> In e (CL g) -> ise g e /\ iv g (fst e) < iv g (snd e).
  Proof. intros Hg (HS & _) X. exact (CL_lt H groups KW KR KA K1 KS V KV ei ec Keiok Kecok mclosed Kdet Keisw g e Hg HS X). Qed.
  Lemma CLnd g E : g < ng -> E_ok g E -> NoDup (CL g).
  Proof. intros Hg (HS & _). exact (CL_nodup H groups KW KR KA K1 KS V KV ei ec Keiok Kecok mclosed Kdet Kecnd Kecsw Keind Keisw g Hg HS). Qed.
  Lemma CLim g E e e' : g < ng -> E_ok g E -> In e (CL g) -> In e' (CL g) -> im H groups V g e = im H groups V g e' -> e = e'.
  Proof.
    intros Hg X X1 X2 Q. destruct (CLlt g E e Hg X X1) as ((A1 & A2) & _). destruct (CLlt g E e' Hg X X2) as ((B1 & B2) & _). unfold im in Q. injection Q as Q1 Q2. apply (iv_inj H groups V g) in Q1; auto. apply (iv_inj H groups V g) in Q2; auto. destruct e, e'; cbn [fst snd] in *; congruence.
  Qed.
End Mesh.

(** *** C97 *)
Theorem C97_edges : forall W groups V EI EC, let H := map dist_procs W in consistent W -> grouping (length W) groups -> vertex_tables H V -> edge_tables H V EI EC -> groups_closed H groups ->
  exists Cs Rs Es, contract_mesh H groups V EI EC = Ret (Cs, Rs, Es) /\ length Cs = length groups /\ length Rs = length groups /\ length Es = length groups /\
  forall g C R E, nth_error Cs g = Some C -> nth_error Rs g = Some R -> nth_error Es g = Some E ->
  (* every edge of a member gets a number: the edge of the new mesh between the images of its vertices, smaller one first *)
  (forall k e, k < length (grp groups g) -> In e (rank_edges EI EC (rk groups g k)) -> exists p a b, edge_image E k (snd e) = Some p /\ image R k (fst (fst e)) = Some a /\ image R k (snd (fst e)) = Some b /\
    a <> b /\ nth p (e_edges E) None = Some (if b <? a then (b, a) else (a, b)) /\ flipped E k (snd e) = (b <? a)) /\
  (* two edges get the same number iff they are the same edge of the original mesh *)
  (forall k e k' e', k < length (grp groups g) -> k' < length (grp groups g) -> In e (rank_edges EI EC (rk groups g k)) -> In e' (rank_edges EI EC (rk groups g k')) ->
    (edge_image E k (snd e) = edge_image E k' (snd e') <-> same_ends H V (rk groups g k) (rk groups g k') e e')) /\
  (* the new mesh has, once, the edges of any rank that have both vertices in the group *)
  ~ In None (e_edges E) /\ NoDup (e_edges E) /\
  (forall a b, In (Some (a, b)) (e_edges E) <-> a < b /\ exists r e k v k' v', r < length H /\ In e (rank_edges EI EC r) /\ k < length (grp groups g) /\ k' < length (grp groups g) /\
    same_vertex H V r (fst (fst e)) (rk groups g k) v /\ same_vertex H V r (snd (fst e)) (rk groups g k') v' /\
    (image R k v = Some a /\ image R k' v' = Some b \/ image R k v = Some b /\ image R k' v' = Some a)).
Proof.
  intros W groups V EI EC H HC HG HV HE HCL. subst H. destruct (all_ok W V groups EI EC HC HG HV HE HCL) as (Rs & Es & EQ & L1 & L2 & A1 & A2). exists (map (contr (map dist_procs W) groups) (seq 0 (length groups))), Rs, Es. split; auto. split. now rewrite map_length, seq_length. split; auto. split; auto.
  intros g C R E _ ER EE. assert (Hg : g < length groups) by (rewrite <- L1; apply nth_error_Some; congruence). destruct (A1 g Hg) as (R' & Q1 & HR). rewrite ER in Q1. injection Q1 as <-. destruct (A2 g Hg) as (E' & Q2 & HE'). rewrite EE in Q2. injection Q2 as <-. clear A1 A2.
  assert (HE2 := HE'). destruct HE2 as (HS & _ & _ & B1 & B2 & B3 & B4 & _). set (H := map dist_procs W) in *. pose proof (HW W HC) as KW. pose proof (rk_np W groups HG) as KN. fold H in KW, KN.
  assert (MEM : forall k e, k < length (grp groups g) -> In e (rank_edges EI EC (rk groups g k)) -> exists p, edge_image E k (snd e) = Some p /\ ok_at H groups V (ei H V EI) (ec H V EC) g p (sp H groups V g (gf (gvr H V) (rk groups g k) e)) /\ nth p (e_edges E) None = Some (im H groups V g (sp H groups V g (gf (gvr H V) (rk groups g k) e))) /\ flipped E k (snd e) = flp H groups V (gvr H V) g (rk groups g k) e).
  { intros k e Hk X. destruct (rank_row W V EI EC HE _ e (KN g k Hg Hk) X) as (j & Hj & Y). destruct (B4 k Hk) as (_ & _ & F). destruct (F j e Hj Y) as (p & P1 & P2 & P3 & P4). exists p. split; auto. split; auto. split; auto. destruct P2 as (_ & P2). unfold good in P3. rewrite P2 in P3. exact P3. }
  assert (IMG : forall k v j l, k < length (grp groups g) -> at_vertex H V (rk groups g k) v j l -> image R k v = Some (iv H groups V g (gvr H V (rk groups g k) v)) /\ isv H groups V g (gvr H V (rk groups g k) v)) by apply HR.
  split; [|split; [|split; [|split]]].
  - intros k e Hk X. assert (Hr := KN g k Hg Hk). destruct (MEM k e Hk X) as (p & P1 & P2 & P3 & P4). destruct (ends_at H V EI EC HE _ e Hr X) as ((a1 & b1 & C1) & (a2 & b2 & C2)). destruct (IMG k _ _ _ Hk C1) as (I1 & J1). destruct (IMG k _ _ _ Hk C2) as (I2 & J2). exists p, (iv H groups V g (gvr H V (rk groups g k) (fst (fst e)))), (iv H groups V g (gvr H V (rk groups g k) (snd (fst e)))). split; auto. split; auto. split; auto. split.
    + intros Q. apply (iv_inj H groups V g) in Q; auto. apply (gvr_inj H V KW HV _ _ _ a1 b1 a2 b2) in Q; auto. pose proof (et_order H V EI EC HE _ e Hr X). lia.
    + split; [|exact P4]. rewrite P3. f_equal. unfold sp, gf. cbn [fst snd]. destruct (_ <? _); reflexivity.
  - intros k e k' e' Hk Hk' X X'. assert (Hr := KN g k Hg Hk). assert (Hr' := KN g k' Hg Hk'). destruct (MEM k e Hk X) as (p & P1 & P2 & _). destruct (MEM k' e' Hk' X') as (p' & P1' & P2' & _). rewrite P1, P1'. pose proof (gf_ends W V EI EC HC HV HE _ _ e e' Hr Hr' X X') as GE. change (map dist_procs W) with H in GE. rewrite <- GE. split.
    + intros Q. injection Q as ->. apply (gf_uniq W V groups EI EC HC HV HE g); auto. destruct P2 as (_ & P2), P2' as (_ & P2'). exact (eq_trans (eq_sym (P2 dge)) (P2' dge)).
    + intros Q. rewrite Q in P2. f_equal. eapply (pos_uniq W V groups EI EC HC HG HV HE HCL g E); eauto.
  - rewrite B1. intros X. apply in_map_iff in X as (x & X & _). discriminate.
  - rewrite B1. apply nodup_map_in. apply (CLnd W V groups EI EC HC HG HV HE HCL g E Hg HE'). intros x y Hx Hy Q. assert (Q3 : im H groups V g x = im H groups V g y) by congruence. apply (CLim W V groups EI EC HC HG HV HE HCL g E x y Hg HE' Hx Hy). exact Q3.
  - intros a b. rewrite B1. split.
    + intros X. apply in_map_iff in X as (x & Q & X). injection Q as <- <-. destruct (CLlt W V groups EI EC HC HG HV HE HCL g E x Hg HE' X) as (_ & LT). split; auto. destruct (from_rank W V groups EI EC HC HG HV HE HCL g E x Hg HE' X) as (r & e & Hr & RE & (I1 & I2) & ->).
      destruct (vert_of W V groups EI EC HC HG HV g R _ Hg HR I1) as (k & v & j & l & Hk & AT & GV & IM). destruct (vert_of W V groups EI EC HC HG HV g R _ Hg HR I2) as (k' & v' & j' & l' & Hk' & AT' & GV' & IM').
      destruct (ends_at H V EI EC HE _ e Hr RE) as ((a1 & b1 & C1) & (a2 & b2 & C2)). exists r, e, k, v, k', v'. split; auto. split; auto. split; auto. split; auto. split. { eapply (gvr_same H V KW HV); eauto. } split. { eapply (gvr_same H V KW HV); eauto. }
      change (map dist_procs W) with H in IM, IM'. unfold sp. cbn [fst snd gf] in *. destruct (_ <? _); cbn [fst snd]; [right|left]; auto.
    + intros (LT & r & e & k & v & k' & v' & Hr & RE & Hk & Hk' & S1 & S2 & IM). pose proof (same_gvr H V KW HV r _ _ _ Hr (KN g k Hg Hk) S1) as G1. pose proof (same_gvr H V KW HV r _ _ _ Hr (KN g k' Hg Hk') S2) as G2.
      destruct S1 as (j1 & j2 & l & _ & AT & _). destruct S2 as (j1' & j2' & l' & _ & AT' & _). destruct (IMG k v _ _ Hk AT) as (I1 & J1). destruct (IMG k' v' _ _ Hk' AT') as (I2 & J2). rewrite <- G1 in I1, J1. rewrite <- G2 in I2, J2. rewrite I1, I2 in IM.
      apply in_map_iff. exists (sp H groups V g (gf (gvr H V) r e)). split. 2: { apply (in_group W V groups EI EC HC HG HV HE HCL g r e Hg Hr RE) with (E := E); auto. split; auto. }
      f_equal. destruct IM as [(Q1 & Q2)|(Q1 & Q2)]; injection Q1 as Q1; injection Q2 as Q2.
      * change (iv H groups V g (fst (gf (gvr H V) r e)) = a) in Q1; change (iv H groups V g (snd (gf (gvr H V) r e)) = b) in Q2; unfold sp. destruct (Nat.ltb_spec (iv H groups V g (snd (gf (gvr H V) r e))) (iv H groups V g (fst (gf (gvr H V) r e)))) as [Z|Z]. rewrite Q1, Q2 in Z. lia. unfold im. now rewrite Q1, Q2.
      * change (iv H groups V g (fst (gf (gvr H V) r e)) = b) in Q1; change (iv H groups V g (snd (gf (gvr H V) r e)) = a) in Q2; unfold sp. destruct (Nat.ltb_spec (iv H groups V g (snd (gf (gvr H V) r e))) (iv H groups V g (fst (gf (gvr H V) r e)))) as [Z|Z]. unfold im. cbn [fst snd]. now rewrite Q1, Q2. rewrite Q1, Q2 in Z. lia.
Qed.

(** *** C98: the tables of the new mesh fit together *)
Theorem C98_mesh : forall W groups V EI EC, let H := map dist_procs W in consistent W -> grouping (length W) groups -> vertex_tables H V -> edge_tables H V EI EC -> groups_closed H groups ->
  exists Cs Rs Es, contract_mesh H groups V EI EC = Ret (Cs, Rs, Es) /\
  let H' := map c_tab Cs in let V' := map (fun x => new_verts (fst x) (snd x)) (combine Cs Rs) in
  consistent H' /\ map dist_procs H' = H' /\ length H' = length groups /\ vertex_tables H' V' /\
  edge_tables H' V' (map (fun x => new_inner (fst x) (snd x)) (combine Cs Es)) (map (fun x => new_cross (fst x) (snd x)) (combine Cs Es)).
Proof.
  intros W groups V EI EC H HC HG HV HE HCL. subst H. destruct (all_ok W V groups EI EC HC HG HV HE HCL) as (Rs & Es & EQ & L1 & L2 & A1 & A2). eexists _, Rs, Es. split. exact EQ. set (H := map dist_procs W) in *. cbv zeta.
  set (dR := mkV [] [] []). set (dE := mkE [] [] [] [] [] []).
  assert (CB : forall {A B} (f : ceqch -> A -> B) (l : list A) d, length l = length groups -> map (fun x => f (fst x) (snd x)) (combine (map (contr H groups) (seq 0 (length groups))) l) = map (fun g => f (contr H groups g) (nth g l d)) (seq 0 (length groups))).
  { intros A B f l d L. rewrite <- L. clear. rewrite <- (map_id l) at 2. assert (Z : forall s, map (fun x => f (fst x) (snd x)) (combine (map (contr H groups) (seq s (length l))) (map (fun x => x) l)) = map (fun g => f (contr H groups g) (nth (g - s) l d)) (seq s (length l))).
    { induction l as [|a l IH]; intros s; auto. cbn [length seq map combine]. rewrite IH. f_equal. cbn [fst snd]. now rewrite Nat.sub_diag. apply map_ext_in. intros g X. apply in_seq in X. replace (g - s) with (S (g - S s)) by lia. reflexivity. }
    rewrite Z. apply map_ext. intros g. now rewrite Nat.sub_0_r. }
  assert (RG : forall g, g < length groups -> R_full W V groups EI EC g (nth g Rs dR)). { intros g Hg. destruct (A1 g Hg) as (R & Q & X). now rewrite (nth_error_nth _ _ dR Q). }
  assert (EG : forall g, g < length groups -> E_ok H groups V EI EC (gvr H V) (ei H V EI) (ec H V EC) g (nth g Es dE)). { intros g Hg. destruct (A2 g Hg) as (R & Q & X). now rewrite (nth_error_nth _ _ dE Q). }
  rewrite (CB _ _ new_verts Rs dR L1), (CB _ _ new_inner Es dE L2), (CB _ _ new_cross Es dE L2).
  destruct (C95_consistent W groups HC HG) as (Cs & Q1 & Q2 & Q3 & Q4). rewrite (GCProofs.mapM_map _ (contr H groups)) in Q1. 2: { intros g X. apply in_seq in X. apply Build_ok; auto. lia. } injection Q1 as <-.
  split; [exact Q3|]. split; [exact Q4|]. split. { now rewrite !map_length, seq_length. }
  replace (map c_tab (map (contr H groups) (seq 0 (length groups)))) with (CT H groups) by (unfold CT; rewrite map_map; reflexivity).
  split.
  - apply (new_vertex_tables H groups (HW W HC) (G_rank W groups HG) (G_all W groups HG) (G_one W groups HG) V EI EC (gvr H V) (fun g => nth g Rs dR)). intros g Hg. apply (RG g Hg).
  - apply (new_edge_tables H groups (HW W HC) (G_rank W groups HG) (G_all W groups HG) (G_one W groups HG) (gr_sorted _ _ HG) V (vt_rows _ _ HV) EI EC (gvr H V) (ei H V EI) (ec H V EC)
      (ei_ok H V EI EC (HW W HC) HV HE) (ec_ok H V EI EC (HW W HC) HV HE) (mclosed W groups HC HG HCL) (ec_det H V EI EC (HW W HC) HV HE) (ec_nd H V EI EC (HW W HC) HV HE) (ec_sw H V EI EC (HW W HC) HV HE) (ei_nd H V EI EC (HW W HC) HV HE) (ei_sw H V EI EC (HW W HC) HV HE)
      (fun g => nth g Rs dR) (fun g => nth g Es dE)). intros g Hg. apply (RG g Hg). exact EG.
Qed.

(** four ranks, three groups: edges within a class of a member, between classes that become one, and between classes whose common class becomes larger *)
Definition Wx : list (list (list nat)) := [[[]; [1]; [2]; [1; 3]]; [[]; [0]; [2]; [0; 3]]; [[]; [0]; [1]]; [[]; [0; 1]]].
Definition Gx : list (list nat) := [[0]; [1; 2]; [3]].
Definition Vx : list (list (list nat)) := [[[0]; [1; 2]; [3]; [4]]; [[0]; [1; 2]; [3]; [4]]; [[]; [0]; [1]]; [[0]; [1]]].
Definition EIx : list (list (list fedge)) := [[[]; [((1, 2), 0)]; []; []]; [[]; [((1, 2), 0)]; []; []]; [[]; []; []]; [[]; []]].
Definition ECx : list (list (list fedge)) := [[[((0, 1), 1); ((1, 3), 2); ((3, 4), 3)]; [((1, 4), 4)]; []; []]; [[((0, 3), 1)]; [((1, 4), 2)]; []; []]; [[]; []; []]; [[((0, 1), 0)]; []]].
Example C98_ex : let H := map dist_procs Wx in consistent Wx /\ grouping (length Wx) Gx /\ vertex_tables H Vx /\ edge_tables H Vx EIx ECx /\ groups_closed H Gx /\
  exists Cs Rs Es, contract_mesh H Gx Vx EIx ECx = Ret (Cs, Rs, Es) /\ map c_tab Cs = [[[]; [1]; [1; 2]]; [[]; [0]; [0; 2]]; [[]; [0; 1]]] /\
    map e_edges Es = [[Some (1, 2); Some (1, 3); Some (0, 1); Some (1, 4); Some (3, 4)]; [Some (0, 1); Some (2, 3); Some (2, 4); Some (2, 5); Some (4, 5)]; [Some (0, 1)]].
Proof.
  intros H. subst H. split. apply consistent_ok. vm_compute. reflexivity. split. apply grouping_ok. vm_compute. reflexivity. split. apply tables_ok. vm_compute. reflexivity. split. apply edges_ok. vm_compute. reflexivity. split. apply closed_ok. vm_compute. reflexivity.
  eexists _, _, _. split. vm_compute. reflexivity. split; reflexivity.
Qed.
(** the assumption on the groups is needed: a cross edge between two classes of the new mesh without a common class.
    The code uses -1 as the number of its class *)
Definition Vb : list (list (list nat)) := [[[]; [0]]; [[]; [0]]; [[]; [0]; [1]]; [[]; [0]]; [[]; [0]]].
Definition EIb : list (list (list fedge)) := [[[]; []]; [[]; []]; [[]; []; []]; [[]; []]; [[]; []]].
Definition ECb : list (list (list fedge)) := [[[]; []]; [[]; []]; [[((0, 1), 0)]; []; []]; [[]; []]; [[]; []]].
Theorem C97_closed_refuted : exists W groups V EI EC, let H := map dist_procs W in EQCHierarchy W = Ret H /\ consistent W /\ grouping (length W) groups /\ vertex_tables H V /\ edge_tables H V EI EC /\ contract_mesh H groups V EI EC = Err OutOfBounds.
Proof.
  exists Wbad, Gbad, Vb, EIb, ECb. split. vm_compute. reflexivity. split. apply consistent_ok. vm_compute. reflexivity. split. apply grouping_ok. vm_compute. reflexivity. split. apply tables_ok. vm_compute. reflexivity. split. apply edges_ok. vm_compute. reflexivity. vm_compute. reflexivity.
Qed.

Print Assumptions C97_edges.
Print Assumptions C97_closed_refuted.
Print Assumptions C98_mesh.
