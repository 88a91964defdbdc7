(** C101: data of edges after redistribution. *)
From Verif Require Import Base EQCModel ReduceModel UtilProofs EQCProofs EQCProofs2 EQCProofs3 EQCProps ReduceProofs ReduceProps AggMapModel AggMapProofs GCModel GCProofs GCProofs2 GCProofs3 GCProps GEModel GEProofs GEProofs2 GEProofs3 GEProofs4 GEProofs5 GEProofs6 GEProofs7 GEProofs8 GESpec GEProofs9 GEProofs10 GECheck GEProps DataModel DataSpec DataProofs DataProofs2 DataProofs3 DataProofs4 AnnoyProofs EdgeDataSpec EdgeDataProofs EdgeDataProofs2.
Local Open Scope nat_scope.

(** data of edges, as GridContractMap::MapNodeData<NT_EDGE> maps it; tables of the new mesh *)
Definition map_edge_data (groups : list (list nat)) (Cs : list ceqch) (Es : list cedges) (dist : bool) (data : list (list Z)) : res (list (list Z)) :=
  MapNodeData (map c_tab Cs) groups (map (fun E => length (e_edges E)) Es) (map e_maps Es) (map e_annoy Es) dist data.
Definition new_verts_of (Cs : list ceqch) (Rs : list cverts) : list (list (list nat)) := map (fun x => new_verts (fst x) (snd x)) (combine Cs Rs).
Definition new_inner_of (Cs : list ceqch) (Es : list cedges) : list (list (list fedge)) := map (fun x => new_inner (fst x) (snd x)) (combine Cs Es).
Definition new_cross_of (Cs : list ceqch) (Es : list cedges) : list (list (list fedge)) := map (fun x => new_cross (fst x) (snd x)) (combine Cs Es).

Lemma comb_eq H groups {A B} (f : ceqch -> A -> B) (l : list A) d : length l = length groups -> map (fun x => f (fst x) (snd x)) (combine (map (contr H groups) (seq 0 (length groups))) l) = map (fun g => f (contr H groups g) (nth g l d)) (seq 0 (length groups)).
Proof.
  intros L. rewrite <- L. clear. rewrite <- (map_id l) at 2. assert (Z : forall s, map (fun x => f (fst x) (snd x)) (combine (map (contr H groups) (seq s (length l))) (map (fun x => x) l)) = map (fun g => f (contr H groups g) (nth (g - s) l d)) (seq s (length l))).
  { induction l as [|a l IH]; intros s; auto. cbn [length seq map combine]. rewrite IH. f_equal. cbn [fst snd]. now rewrite Nat.sub_diag. apply map_ext_in. intros g X. apply in_seq in X. replace (g - s) with (S (g - S s)) by lia. reflexivity. }
  rewrite Z. apply map_ext. intros g. now rewrite Nat.sub_0_r.
Qed.
Lemma mesh_full W groups V EI EC : let H := map dist_procs W in consistent W -> grouping (length W) groups -> vertex_tables H V -> edge_tables H V EI EC -> groups_closed H groups ->
  exists Rs Es, contract_mesh H groups V EI EC = Ret (map (contr H groups) (seq 0 (length groups)), Rs, Es) /\ length Rs = length groups /\ length Es = length groups /\
    (forall g, g < length groups -> vok W V groups g (nth g Rs (mkV [] [] []))) /\ (forall g, g < length groups -> R_full W V groups EI EC g (nth g Rs (mkV [] [] []))) /\
    (forall g, g < length groups -> E_ok H groups V EI EC (gvr H V) (ei H V EI) (ec H V EC) g (nth g Es (mkE [] [] [] [] [] []))).
Proof.
  intros H HC HG HV HE HCL. subst H. destruct (all_ok W V groups EI EC HC HG HV HE HCL) as (Rs & Es & EQ & L1 & L2 & A1 & A2). exists Rs, Es. split; auto. split; auto. split; auto.
  destruct (verts_all W V groups HC HG HV) as (Rs' & E' & _ & HR). rewrite (verts_of_mesh _ _ _ _ _ _ _ _ EQ) in E'. injection E' as <-. split; auto. split.
  - intros g Hg. destruct (A1 g Hg) as (R & Q & X). now rewrite (nth_error_nth _ _ _ Q).
  - intros g Hg. destruct (A2 g Hg) as (R & Q & X). now rewrite (nth_error_nth _ _ _ Q).
Qed.
Section Main.
  Variables (W V : list (list (list nat))) (groups : list (list nat)) (EI EC : list (list (list fedge))).
  Notation H := (map dist_procs W).
  Hypothesis HC : consistent W.
  Hypothesis HG : grouping (length W) groups.
  Hypothesis HV : vertex_tables H V.
  Hypothesis HE : edge_tables H V EI EC.
  Hypothesis HCL : groups_closed H groups.
  Variables (Rs : list cverts) (Es : list cedges) (data : list (list Z)).
  Notation ng := (length groups).
  Notation dE := (mkE [] [] [] [] [] []).
  Hypothesis LR : length Rs = ng.
  Hypothesis LE : length Es = ng.
  Hypothesis HF : forall g, g < ng -> R_full W V groups EI EC g (nth g Rs (mkV [] [] [])).
  Hypothesis HEf : forall g, g < ng -> E_ok H groups V EI EC (gvr H V) (ei H V EI) (ec H V EC) g (nth g Es dE).
  (** every edge of a rank is an edge of its group, and every edge of the new mesh is the edge of some rank *)
  Lemma becomes_some r e : r < length H -> In e (rank_edges EI EC r) -> exists g p, g < ng /\ In r (nth g groups []) /\ becomes H V groups Rs Es r e g p.
  Proof.
    intros Hr X. destruct (gof_r W groups HG r Hr) as (Hg & IR). set (g := gof groups r) in *. assert (I : ise H groups V g (gf (gvr H V) r e)) by (now apply (ise_rank W V groups EI EC HC HG HV HE)).
    pose proof (in_group W V groups EI EC HC HG HV HE HCL g r e Hg Hr X I (nth g Es dE) (HEf g Hg)) as Y. destruct (In_nth _ _ dge Y) as (p & Hp & Q). exists g, p. split; auto. split; auto. apply (becomes_iff W V groups EI EC HC HG HV HE HCL Rs Es LR LE HF HEf); auto.
  Qed.
  Lemma becomes_onto g p : g < ng -> p < length (CL H groups V (ei H V EI) (ec H V EC) g) -> exists r e, r < length H /\ In e (rank_edges EI EC r) /\ becomes H V groups Rs Es r e g p.
  Proof.
    intros Hg Hp. destruct (from W V groups EI EC HC HG HV HE HCL Es HEf g p Hg Hp) as (r & e & Hr & X & I & Q). exists r, e. split; auto. split; auto. apply (becomes_iff W V groups EI EC HC HG HV HE HCL Rs Es LR LE HF HEf); auto.
  Qed.
End Main.

(** Cumulated data: every edge of the new mesh has the value it had on the ranks; all ranks of the new mesh agree *)
Theorem C101_cumulated : forall W groups V EI EC data, let H := map dist_procs W in consistent W -> grouping (length W) groups -> vertex_tables H V -> edge_tables H V EI EC -> groups_closed H groups ->
  sizes_fit H (edges EI EC) data -> edge_values_agree H V EI EC data ->
  exists Cs Rs Es out, contract_mesh H groups V EI EC = Ret (Cs, Rs, Es) /\ map_edge_data groups Cs Es false data = Ret out /\
  let H' := map c_tab Cs in let V' := new_verts_of Cs Rs in let EI' := new_inner_of Cs Es in let EC' := new_cross_of Cs Es in
  sizes_fit H' (edges EI' EC') out /\ edge_values_agree H' V' EI' EC' out /\
  (forall r e g p, r < length H -> In e (rank_edges EI EC r) -> g < length groups -> becomes H V groups Rs Es r e g p -> val out g p = val data r (snd e)) /\
  (forall r e, r < length H -> In e (rank_edges EI EC r) -> exists g p, g < length groups /\ In r (nth g groups []) /\ becomes H V groups Rs Es r e g p) /\
  (forall g p, g < length groups -> p < edges EI' EC' g -> exists r e, r < length H /\ In e (rank_edges EI EC r) /\ becomes H V groups Rs Es r e g p).
Proof.
  intros W groups V EI EC data H HC HG HV HE HCL HS AG. destruct (mesh_full W groups V EI EC HC HG HV HE HCL) as (Rs & Es & EQ & L1 & L2 & HR & HF & HEf). subst H. set (H := map dist_procs W) in *.
  destruct (result_ok W V groups EI EC HC HG HV HE HCL Rs Es data L1 L2 HEf HS false (fun _ => AG)) as (out & RES). assert (RES' := RES). destruct RES' as (E & L & P).
  exists (map (contr H groups) (seq 0 (length groups))), Rs, Es, out. split; auto. split. { unfold map_edge_data. rewrite map_map. exact E. } cbv zeta. unfold new_verts_of, new_inner_of, new_cross_of. rewrite (comb_eq H groups new_verts Rs (mkV [] [] [])), (comb_eq H groups new_inner Es (mkE [] [] [] [] [] [])), (comb_eq H groups new_cross Es (mkE [] [] [] [] [] [])), map_map by auto.
  assert (NCn := new_count W V groups EI EC Es HEf). assert (LCT : length (map (fun x => c_tab (contr H groups x)) (seq 0 (length groups))) = length groups) by now rewrite map_length, seq_length.
  split; [|split; [|split; [|split]]].
  - split. congruence. intros g Hg. rewrite LCT in Hg. unfold size. etransitivity. apply (P g Hg). symmetry. now apply NCn.
  - intros g g' e e' Hg Hg' X X' S. rewrite LCT in Hg, Hg'. 
    change (In e (rank_edges (NI H groups (fun g => nth g Es (mkE [] [] [] [] [] []))) (NC H groups (fun g => nth g Es (mkE [] [] [] [] [] []))) g)) in X. change (In e' (rank_edges (NI H groups (fun g => nth g Es (mkE [] [] [] [] [] []))) (NC H groups (fun g => nth g Es (mkE [] [] [] [] [] []))) g')) in X'.
    rewrite (new_edges W V groups EI EC Es HEf) in X, X' by auto. apply in_map_iff in X as (p & <- & Xp). apply in_map_iff in X' as (p' & <- & Xp'). apply in_seq in Xp, Xp'.
    apply (new_same W V groups EI EC HC HG HV HE HCL Rs Es HR HEf g g' p p') in S; auto; try lia. rewrite (nr W V groups EI EC Es HEf p g), (nr W V groups EI EC Es HEf p' g') by (auto; lia). cbn [snd].
    destruct (from W V groups EI EC HC HG HV HE HCL Es HEf g p Hg) as (r & f & Hr & F & I & Q); [lia|]. pose proof (key_in W V groups EI EC HC HG HV HE r f g Hr F Hg I) as K. destruct (edge_of W V EI EC HE r f Hr F) as (F1 & _).
    destruct (P g Hg) as (_ & P1 & _). destruct (P g' Hg') as (_ & P1' & _). rewrite <- (P1 eq_refl p r (snd f)), <- (P1' eq_refl p' r (snd f)) by (auto; try lia; congruence). reflexivity.
  - intros r e g p Hr X Hg B. destruct (bec_cl W V groups EI EC HC HG HV HE HCL Rs Es L1 L2 HEf r e g p Hr X Hg (HF g Hg) HF B) as (B1 & B2 & B3 & B4 & B5). destruct (P g Hg) as (_ & P1 & _). symmetry. apply (P1 eq_refl); auto.
  - apply (becomes_some W V groups EI EC HC HG HV HE HCL Rs Es L1 L2 HF HEf).
  - intros g p Hg Hp. apply (becomes_onto W V groups EI EC HC HG HV HE HCL Rs Es L1 L2 HF HEf); auto. rewrite <- NCn by auto. exact Hp.
Qed.
(** Distributed data. An edge of which every group that gets it has a member with it keeps its total. An edge that one of the groups only gets from another group has its whole total
    on every group that gets it: the total of the new data is the old one times the number of these groups *)
Theorem C101_distributed : forall W groups V EI EC data, let H := map dist_procs W in consistent W -> grouping (length W) groups -> vertex_tables H V -> edge_tables H V EI EC -> groups_closed H groups ->
  sizes_fit H (edges EI EC) data ->
  exists Cs Rs Es out, contract_mesh H groups V EI EC = Ret (Cs, Rs, Es) /\ map_edge_data groups Cs Es true data = Ret out /\
  let H' := map c_tab Cs in let V' := new_verts_of Cs Rs in let EI' := new_inner_of Cs Es in let EC' := new_cross_of Cs Es in
  sizes_fit H' (edges EI' EC') out /\
  (forall r e, r < length H -> In e (rank_edges EI EC r) ->
    ((forall q p', q < length groups -> becomes H V groups Rs Es r e q p' -> member_has H V groups EI EC r e q) ->
       forall g p f, g < length groups -> becomes H V groups Rs Es r e g p -> In f (rank_edges EI' EC' g) -> snd f = p -> edge_total H' V' EI' EC' out g f = edge_total H V EI EC data r e) /\
    ((exists q p', q < length groups /\ becomes H V groups Rs Es r e q p' /\ ~ member_has H V groups EI EC r e q) ->
       forall g p f Q, g < length groups -> becomes H V groups Rs Es r e g p -> In f (rank_edges EI' EC' g) -> snd f = p -> NoDup Q -> (forall q, In q Q <-> q < length groups /\ exists p', becomes H V groups Rs Es r e q p') ->
         val out g p = edge_total H V EI EC data r e /\ edge_total H' V' EI' EC' out g f = (Z.of_nat (length Q) * edge_total H V EI EC data r e)%Z)).
Proof.
  intros W groups V EI EC data H HC HG HV HE HCL HS. destruct (mesh_full W groups V EI EC HC HG HV HE HCL) as (Rs & Es & EQ & L1 & L2 & HR & HF & HEf). subst H. set (H := map dist_procs W) in *.
  destruct (result_ok W V groups EI EC HC HG HV HE HCL Rs Es data L1 L2 HEf HS true) as (out & RES). discriminate. assert (RES' := RES). destruct RES' as (E & L & P).
  exists (map (contr H groups) (seq 0 (length groups))), Rs, Es, out. split; auto. split. { unfold map_edge_data. rewrite map_map. exact E. } cbv zeta. unfold new_verts_of, new_inner_of, new_cross_of. rewrite (comb_eq H groups new_verts Rs (mkV [] [] [])), (comb_eq H groups new_inner Es (mkE [] [] [] [] [] [])), (comb_eq H groups new_cross Es (mkE [] [] [] [] [] [])), map_map by auto.
  assert (NCn := new_count W V groups EI EC Es HEf). assert (LCT : length (map (fun x => c_tab (contr H groups x)) (seq 0 (length groups))) = length groups) by now rewrite map_length, seq_length.
  assert (BC := fun r e g p Hr X Hg => bec_cl W V groups EI EC HC HG HV HE HCL Rs Es L1 L2 HEf r e g p Hr X Hg (HF g Hg) HF).
  assert (OT : forall r e g p, r < length H -> In e (rank_edges EI EC r) -> g < length groups -> becomes H V groups Rs Es r e g p -> edge_total H V EI EC data r e = Fsum ge ge_dec data (length H) (edges EI EC) (key W V groups EI EC) (sp H groups V g (gf (gvr H V) r e))).
  { intros r e g p Hr X Hg B. destruct (BC r e g p Hr X Hg B) as (_ & _ & I & _). apply (old_total W V groups EI EC HC HG HV HE Rs Es data L1 L2); auto. }
  split. { split. congruence. intros g Hg. rewrite LCT in Hg. unfold size. etransitivity. apply (P g Hg). symmetry. now apply NCn. }
  intros r e Hr X.
  assert (NM : forall g p q, g < length groups -> q < length groups -> becomes H V groups Rs Es r e g p -> In (nth p (CL H groups V (ei H V EI) (ec H V EC) g) dge) (CL H groups V (ei H V EI) (ec H V EC) q) ->
     exists p', becomes H V groups Rs Es r e q p' /\ (member_has H V groups EI EC r e q <-> has_member W V groups EI EC q (nth p (CL H groups V (ei H V EI) (ec H V EC) g) dge))).
  { intros g p q Hg Hq B Y. destruct (BC r e g p Hr X Hg B) as (B1 & B2 & B3 & B4 & B5). destruct (In_nth _ _ dge Y) as (p' & Hp' & Q).
    assert (I : ise H groups V q (gf (gvr H V) r e)). { destruct (from W V groups EI EC HC HG HV HE HCL Es HEf q p' Hq Hp') as (r2 & f & Hr2 & F & I2 & Q2). pose proof (eq_trans (eq_sym B2) (eq_trans (eq_sym Q) Q2)) as Q3. apply (gf_uniq2 W V groups EI EC HC HV HE g q r r2) in Q3; auto. exact (eq_ind_r (fun z => ise H groups V q z) I2 Q3). }
    assert (Z : nth p (CL H groups V (ei H V EI) (ec H V EC) g) dge = sp H groups V q (gf (gvr H V) r e)). { etransitivity. exact B2. apply (sp_shared H groups (HW W HC) (G_rank W groups HG) (G_all W groups HG) (G_one W groups HG)); auto. }
    exists p'. split. apply (becomes_iff W V groups EI EC HC HG HV HE HCL Rs Es L1 L2 HF HEf); auto. split; auto. split; auto. exact (eq_trans Q Z). rewrite Z. now apply (member_iff W V groups EI EC HC HG HV HE). }
  split.
  - intros M g p f Hg B IF <-. rename B into B0. pose proof (BC r e g _ Hr X Hg B0) as B. destruct (B) as (B1 & B2 & B3 & B4 & B5).
    change (In f (rank_edges (NI H groups (fun g => nth g Es (mkE [] [] [] [] [] []))) (NC H groups (fun g => nth g Es (mkE [] [] [] [] [] []))) g)) in IF. rewrite (new_edges W V groups EI EC Es HEf) in IF by auto. apply in_map_iff in IF as (p & <- & Xp). apply in_seq in Xp. rewrite (nr W V groups EI EC Es HEf p g) in B0, B, B1, B2, B4 by (auto; lia). cbn [snd] in B0, B, B1, B2, B4.
    etransitivity. apply (all_have W V groups EI EC HC HG HV HE HCL Rs Es data L1 L2 HR HEf out g p Hg B1 RES). intros q Hq Y. destruct (NM g p q Hg Hq B0 Y) as (p' & N1 & N2). apply N2. now apply (M q p'). etransitivity. exact (f_equal _ B2). symmetry. exact (OT r e g _ Hr X Hg B0).
  - intros (q & p' & Hq & Bq & N) g p f Q Hg B0 IF Ef ND HQ. pose proof (BC r e g p Hr X Hg B0) as B. destruct (B) as (B1 & B2 & B3 & B4 & B5). destruct (BC r e q p' Hr X Hq Bq) as (C1 & C2 & C3 & C4 & C5). destruct (P g Hg) as (_ & _ & P1).
    assert (Y : In (nth p (CL H groups V (ei H V EI) (ec H V EC) g) dge) (CL H groups V (ei H V EI) (ec H V EC) q)) by (refine (eq_ind _ (fun z => In z _) _ _ (eq_trans (eq_sym C4) B4)); now apply nth_In).
    assert (LK : exists q, q < length groups /\ In (nth p (CL H groups V (ei H V EI) (ec H V EC) g) dge) (CL H groups V (ei H V EI) (ec H V EC) q) /\ ~ has_member W V groups EI EC q (nth p (CL H groups V (ei H V EI) (ec H V EC) g) dge)).
    { exists q. split; auto. split; auto. destruct (NM g p q Hg Hq B0 Y) as (p2 & _ & N2). tauto. }
    rewrite (OT r e g p Hr X Hg B0). split. refine (eq_trans _ (f_equal _ B2)). now apply (P1 eq_refl p B1).
    change (In f (rank_edges (NI H groups (fun g => nth g Es (mkE [] [] [] [] [] []))) (NC H groups (fun g => nth g Es (mkE [] [] [] [] [] []))) g)) in IF. rewrite (new_edges W V groups EI EC Es HEf) in IF by auto. apply in_map_iff in IF as (p3 & <- & Xp). apply in_seq in Xp. rewrite (nr W V groups EI EC Es HEf p3 g) in Ef by (auto; lia). cbn [snd] in Ef. subst p3.
    etransitivity. apply (some_lack W V groups EI EC HC HG HV HE HCL Rs Es data L1 L2 HR HEf out g p Q Hg B1 RES LK ND).
    + intros q'. rewrite HQ. split; intros (Hq' & Z); split; auto. destruct Z as (p2 & Z). destruct (BC r e q' p2 Hr X Hq' Z) as (Z1 & Z2 & Z3 & Z4 & Z5). refine (eq_ind _ (fun z => In z _) _ _ (eq_trans (eq_sym Z4) B4)); now apply nth_In. destruct (NM g p q' Hg Hq' B0 Z) as (p2 & Z1 & _). eauto.
    + apply f_equal. exact (f_equal _ B2).
Qed.
(** the mesh of C98_ex: four ranks become three *)
Definition De : list (list Z) := [[1; 2; 3; 4; 5]; [10; 20; 30]; []; [100]]%Z.
Definition Dc : list (list Z) := [[11; 2; 3; 4; 35]; [11; 20; 35]; []; [100]]%Z.
Lemma same_v H V r v r' v' : same_vertex_b H V r v r' v' = true -> same_vertex H V r v r' v'.
Proof. apply same_vertex_iff. Qed.
(** the total of the edge between vertices 1 and 3 of rank 0, which no other rank has, is 3; in the new mesh the edge is in groups 0 and 1 and its total is 6 *)
Theorem C101_refuted : exists W groups V EI EC data, let H := map dist_procs W in consistent W /\ grouping (length W) groups /\ vertex_tables H V /\ edge_tables H V EI EC /\ groups_closed H groups /\ sizes_fit H (edges EI EC) data /\
  exists Cs Rs Es out, contract_mesh H groups V EI EC = Ret (Cs, Rs, Es) /\ map_edge_data groups Cs Es true data = Ret out /\
  exists r e g f, r < length H /\ In e (rank_edges EI EC r) /\ g < length groups /\ becomes H V groups Rs Es r e g (snd f) /\ In f (rank_edges (new_inner_of Cs Es) (new_cross_of Cs Es) g) /\
    edge_total H V EI EC data r e = 3%Z /\ edge_total (map c_tab Cs) (new_verts_of Cs Rs) (new_inner_of Cs Es) (new_cross_of Cs Es) out g f = 6%Z.
Proof.
  exists Wx, Gx, Vx, EIx, ECx, De. cbv zeta. pose proof C98_ex as (X1 & X2 & X3 & X4 & X5 & _). do 5 (split; auto). split. { split. reflexivity. intros r Hr. do 4 (destruct r as [|r]; [reflexivity|]). cbn in Hr. lia. }
  eexists _, _, _, _. split. vm_compute. reflexivity. split. vm_compute. reflexivity. exists 0, ((1, 3), 2), 0, ((1, 3), 1). split. cbn. lia. split. { apply in_or_app. right. cbn. tauto. } split. cbn. lia. split.
  { exists 0, 1, 0, 3, 1, 3. split. cbn. lia. split. cbn. lia. split. { apply same_v. vm_compute. reflexivity. } split. { apply same_v. vm_compute. reflexivity. } split. reflexivity. split. reflexivity. left. reflexivity. }
  split. { vm_compute. tauto. } split; vm_compute; reflexivity.
Qed.
Definition agree_b (H V : list (list (list nat))) (EI EC : list (list (list fedge))) (data : list (list Z)) : bool :=
  forallb (fun r => forallb (fun r' => forallb (fun e => forallb (fun e' => implb (same_ends_b H V r r' e e') (val data r (snd e) =? val data r' (snd e'))%Z) (rank_edges EI EC r')) (rank_edges EI EC r)) (seq 0 (length H))) (seq 0 (length H)).
Lemma agree_ok H V EI EC data : agree_b H V EI EC data = true -> edge_values_agree H V EI EC data.
Proof.
  unfold agree_b. rewrite all_lt. intros A r r' e e' Hr Hr' X X' S. specialize (A r Hr). rewrite all_lt in A. specialize (A r' Hr'). rewrite forallb_forall in A. specialize (A e X). rewrite forallb_forall in A. specialize (A e' X').
  assert (B : same_ends_b H V r r' e e' = true). { unfold same_ends_b. destruct S as (S1 & S2). apply same_vertex_iff in S1. apply same_vertex_iff in S2. now rewrite S1, S2. } rewrite B in A. cbn [implb] in A. now apply Z.eqb_eq in A.
Qed.
Example C101_ex : let H := map dist_procs Wx in consistent Wx /\ grouping (length Wx) Gx /\ vertex_tables H Vx /\ edge_tables H Vx EIx ECx /\ groups_closed H Gx /\
  sizes_fit H (edges EIx ECx) De /\ sizes_fit H (edges EIx ECx) Dc /\ edge_values_agree H Vx EIx ECx Dc /\ ~ edge_values_agree H Vx EIx ECx De /\
  exists Cs Rs Es, contract_mesh H Gx Vx EIx ECx = Ret (Cs, Rs, Es) /\ map e_annoy Es = [[[]; [1; 4]; []]; [[]; [2; 4]; []]; [[]; []]] /\
    map_edge_data Gx Cs Es false Dc = Ret [[11; 3; 2; 35; 4]; [20; 11; 3; 35; 4]; [100]]%Z /\
    map_edge_data Gx Cs Es true De = Ret [[1; 3; 2; 5; 4]; [20; 10; 3; 30; 4]; [100]]%Z.
Proof.
  cbv zeta. pose proof C98_ex as (X1 & X2 & X3 & X4 & X5 & _). do 5 (split; auto). split. { split. reflexivity. intros r Hr. do 4 (destruct r as [|r]; [reflexivity|]). cbn in Hr. lia. } split. { split. reflexivity. intros r Hr. do 4 (destruct r as [|r]; [reflexivity|]). cbn in Hr. lia. }
  split. { apply agree_ok. vm_compute. reflexivity. } split. { intros A. specialize (A 0 1 ((1, 2), 0) ((1, 2), 0)). cbn [snd] in A. assert (Z : val De 0 0 = val De 1 0). { apply A. cbn. lia. cbn. lia. cbn. tauto. cbn. tauto. split; apply same_v; vm_compute; reflexivity. } vm_compute in Z. discriminate. }
  eexists _, _, _. split. vm_compute. reflexivity. split. reflexivity. split; vm_compute; reflexivity.
Qed.
Print Assumptions C101_cumulated.
Print Assumptions C101_distributed.
Print Assumptions C101_refuted.
