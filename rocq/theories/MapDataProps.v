(** C100: data of vertices after redistribution. *)
From Verif Require Import Base EQCModel ReduceModel UtilProofs EQCProofs EQCProofs2 EQCProofs3 EQCProps ReduceProofs ReduceProps AggMapModel AggMapProofs GCModel GCProofs GCProofs2 GCProofs3 GCProps GEModel GEProofs GEProofs2 GEProofs3 GEProofs9 GEProofs10 GESpec GECheck GEProps DataModel DataSpec DataProofs DataProofs2 DataProps DataProofs3 DataProofs4.
Local Open Scope nat_scope.

(** data of vertices, as GridContractMap::MapNodeData<NT_VERTEX> maps it; vertex tables of the new mesh *)
Definition map_vertex_data (groups : list (list nat)) (Cs : list ceqch) (Rs : list cverts) (dist : bool) (data : list (list Z)) : res (list (list Z)) :=
  MapNodeData (map c_tab Cs) groups (map (fun R => last (v_dsp R) 0) Rs) (map v_maps Rs) (map (fun _ => []) groups) dist data.
Definition new_tables (Cs : list ceqch) (Rs : list cverts) : list (list (list nat)) := map (fun x => new_verts (fst x) (snd x)) (combine Cs Rs).
Definition vertices (V : list (list (list nat))) (r : nat) : nat := length (concat (nth r V [])).

Section Main.
  Variables (W V : list (list (list nat))) (groups : list (list nat)) (data : list (list Z)).
  Notation H := (map dist_procs W).
  Hypothesis HC : consistent W.
  Hypothesis HG : grouping (length W) groups.
  Hypothesis HV : vertex_tables H V.
  Hypothesis HS : sizes_fit H (vertices V) data.
  Notation ng := (length groups).
  Notation grp g := (nth g groups []).
  Variable Rs : list cverts.
  Hypothesis HL : length Rs = ng.
  Notation Rf := (fun g => nth g Rs (mkV [] [] [])).
  Hypothesis HR : forall g, g < ng -> vok W V groups g (Rf g).
  Notation Cs := (map (contr H groups) (seq 0 ng)).
  Definition vim (g k i : nat) : nat := iv H groups V g (gvr H V (rk groups g k) i).
  Lemma tabs_eq : map c_tab Cs = CT H groups. Proof. unfold CT. now rewrite map_map. Qed.
  Lemma new_eq : new_tables Cs Rs = NV H groups Rf.
  Proof.
    unfold new_tables, NV. revert HL. clear. intros L. rewrite <- L. clear L. rewrite <- (map_id Rs) at 2. assert (Z : forall s, map (fun x => new_verts (fst x) (snd x)) (combine (map (contr H groups) (seq s (length Rs))) (map (fun x => x) Rs)) = map (fun g => new_verts (contr H groups g) (nth (g - s) Rs (mkV [] [] []))) (seq s (length Rs))).
    { induction Rs as [|a l IH]; intros s; auto. cbn [length seq map combine]. rewrite IH. f_equal. cbn [fst snd]. now rewrite Nat.sub_diag. apply map_ext_in. intros g X. apply in_seq in X. replace (g - s) with (S (g - S s)) by lia. reflexivity. }
    rewrite Z. apply map_ext. intros g. now rewrite Nat.sub_0_r.
  Qed.
  Lemma len_H : length H = length W. Proof. apply map_length. Qed.
  Lemma G_H : grouping (length H) groups. Proof. now rewrite len_H. Qed.
  Lemma maps_len : length (map v_maps Rs) = ng. Proof. now rewrite map_length. Qed.
  Lemma NN_len : length (map (fun R => last (v_dsp R) 0) Rs) = ng. Proof. now rewrite map_length. Qed.
  Lemma vM3 g : g < ng -> length (nth g (map v_maps Rs) []) = length (grp g) /\ 0 < length (grp g).
  Proof. intros Hg. rewrite (nth_map_ok _ _ _ (mkV [] [] [])) by lia. split. apply (HR g Hg). pose proof (gr_some _ _ HG g Hg). destruct (grp g); [congruence|cbn; lia]. Qed.
  Lemma vM4 g k : g < ng -> k < length (grp g) -> rk groups g k < length H /\ length (nth k (nth g (map v_maps Rs) []) []) = vertices V (rk groups g k) /\ forall i, i < vertices V (rk groups g k) -> nth i (nth k (nth g (map v_maps Rs) []) []) None = Some (vim g k i) /\ vim g k i < nth g (map (fun R => last (v_dsp R) 0) Rs) 0.
  Proof.
    intros Hg Hk. destruct (HR g Hg) as (_ & A1 & A2 & A3 & A4). split. { rewrite len_H. apply (gr_rank _ _ HG g); auto. now apply nth_In. } rewrite !(nth_map_ok _ _ _ (mkV [] [] [])) by lia. split. now apply A3. intros i Hi. destruct (A4 k i Hk Hi) as (B1 & B2). split. exact B1. rewrite A1. now apply iv_range.
  Qed.
  Lemma vsame g k i g' k' i' : g < ng -> g' < ng -> k < length (grp g) -> k' < length (grp g') -> i < vertices V (rk groups g k) -> i' < vertices V (rk groups g' k') ->
    (same_vertex (CT H groups) (NV H groups Rf) g (vim g k i) g' (vim g' k' i') <-> same_vertex H V (rk groups g k) i (rk groups g' k') i').
  Proof.
    intros Hg Hg' Hk Hk' Hi Hi'. destruct (HR g Hg) as (_ & _ & _ & _ & A). destruct (HR g' Hg') as (_ & _ & _ & _ & A'). destruct (A k i Hk Hi) as (_ & B). destruct (A' k' i' Hk' Hi') as (_ & B'). unfold vim. rewrite (iv_same W V groups HC HG Rs HR g g') by auto. destruct (vM4 g k Hg Hk) as (Hr & _). destruct (vM4 g' k' Hg' Hk') as (Hr' & _). pose proof (HW W HC) as KW. split.
    - intros Q. destruct (at_ex H V _ (vertex_node_tables H V HV) _ i Hr Hi) as (j & l & X). destruct (at_ex H V _ (vertex_node_tables H V HV) _ i' Hr' Hi') as (j' & l' & X'). eapply gvr_same; eauto.
    - now apply (same_gvr H V KW HV).
  Qed.
  Lemma map_ok d : map_vertex_data groups Cs Rs d data = Ret (out1 groups (map (fun R => last (v_dsp R) 0) Rs) data vim d).
  Proof.
    unfold map_vertex_data. rewrite tabs_eq. destruct HS as (S1 & S2). assert (LC : length (CT H groups) = ng) by (unfold CT; now rewrite map_length, seq_length). apply (no_annoy H (CT H groups) groups _ _ data (vertices V) vim LC maps_len NN_len vM3 vM4 S1 S2).
  Qed.
  Lemma new_size g : g < ng -> vertices (NV H groups Rf) g = nth g (map (fun R => last (v_dsp R) 0) Rs) 0.
  Proof.
    intros Hg. rewrite (nth_map_ok _ _ _ (mkV [] [] [])) by lia. destruct (HR g Hg) as ((RD & _) & A1 & _). destruct RD as (D1 & D2). rewrite A1. unfold vertices, NV. rewrite (nth_map_ok _ _ _ 0) by now rewrite seq_length. rewrite seq_nth by auto. cbn [Nat.add]. unfold new_verts. cbn [c_tab contr]. destruct (concat_seq (fun c => nth c (v_dsp (Rf g)) 0) (length (ctab_of H groups g)) 0) as (E & _).
    - intros c Hc. rewrite !D2 by lia. unfold base. replace (c + 1) with (S c) by lia. rewrite seq_S, map_app, sum_app. lia.
    - cbn [Nat.add] in E. rewrite E, seq_length, !D2 by lia. unfold base at 2. cbn. lia.
  Qed.
  Lemma onto g p : g < ng -> p < vertices (NV H groups Rf) g -> exists k i, k < length (grp g) /\ i < vertices V (rk groups g k) /\ p = vim g k i.
  Proof.
    intros Hg Hp. rewrite new_size in Hp by auto. rewrite (nth_map_ok _ _ _ (mkV [] [] [])) in Hp by lia. destruct (HR g Hg) as (_ & A1 & _). rewrite A1 in Hp. destruct (cvert_onto H groups V g p Hp) as (D & l & D1 & D2 & <-). destruct (MC_slot H groups g D Hg D1) as (k & j & Hk & Hj & Q). assert (Hr : rk groups g k < length H) by (now apply (vM4 g k)). pose proof (HW W HC) as KW.
    assert (ND : nv H V D = length (row V (rk groups g k) j)). { rewrite <- Q. unfold cl. apply (nv_row H V KW HV); auto. } set (i := nth l (row V (rk groups g k) j) 0). assert (AT : at_vertex H V (rk groups g k) i j l) by (split; [auto|split; auto; lia]). destruct (at_num H V HV _ i j l Hr AT) as (_ & L & B). exists k, i. split; auto. split; auto. unfold vim. rewrite B. unfold cl in Q. rewrite Q. reflexivity.
  Qed.
  Lemma same_self r i : r < length H -> i < vertices V r -> same_vertex H V r i r i.
  Proof.
    intros Hr Hi. destruct (at_ex H V _ (vertex_node_tables H V HV) r i Hr Hi) as (j & l & X). exists j, j, l. split; auto. split; auto. unfold same_class. tauto.
  Qed.
  Lemma fits d : sizes_fit (CT H groups) (vertices (NV H groups Rf)) (out1 groups (map (fun R => last (v_dsp R) 0) Rs) data vim d).
  Proof.
    split. unfold out1, CT. now rewrite !map_length. intros g Hg. unfold CT in Hg. rewrite map_length, seq_length in Hg. unfold size. rewrite out1_nth by auto. rewrite outs_length. symmetry. now apply new_size.
  Qed.
End Main.

(** Cumulated data: every vertex of the new mesh has the value it had *)
Theorem C100_cumulated : forall W groups V data, consistent W -> grouping (length W) groups -> let H := map dist_procs W in vertex_tables H V -> sizes_fit H (vertices V) data -> values_agree H V data ->
  exists Cs Rs out, contract_verts H groups V = Ret (Cs, Rs) /\ map_vertex_data groups Cs Rs false data = Ret out /\
    sizes_fit (map c_tab Cs) (vertices (new_tables Cs Rs)) out /\ values_agree (map c_tab Cs) (new_tables Cs Rs) out /\
    forall g k v, g < length groups -> k < length (grp groups g) -> v < vertices V (rk groups g k) -> exists p, image (nth g Rs (mkV [] [] [])) k v = Some p /\ val out g p = val data (rk groups g k) v.
Proof.
  intros W groups V data HC HG H HV HS AG. subst H. destruct (verts_all W V groups HC HG HV) as (Rs & E & HL & HR).
  exists (map (contr (map dist_procs W) groups) (seq 0 (length groups))), Rs. eexists. split. exact E. split. exact (map_ok W V groups data HG HS Rs HL HR false). rewrite (tabs_eq W), (new_eq W groups Rs HL).
  assert (CO : forall g k i, g < length groups -> k < length (grp groups g) -> i < vertices V (rk groups g k) -> val (out1 groups (map (fun R => last (v_dsp R) 0) Rs) data (vim W V groups) false) g (vim W V groups g k i) = val data (rk groups g k) i).
  { apply (cum_out (map dist_procs W) V (CT (map dist_procs W) groups) (NV (map dist_procs W) groups (fun g => nth g Rs (mkV [] [] []))) groups (map v_maps Rs) (map (fun R => last (v_dsp R) 0) Rs) data (vertices V) (vim W V groups)); auto.
    - apply (maps_len groups Rs HL).
    - apply (NN_len groups Rs HL).
    - apply (vM3 W V groups HG Rs HL HR).
    - apply (vM4 W V groups HG Rs HL HR).
    - apply HS.
    - apply HS.
    - apply (vsame W V groups HC HG HV Rs HL HR).
    - intros g k i Hg Hk Hi. apply (vsame W V groups HC HG HV Rs HL HR); auto. apply same_self; auto. now apply (vM4 W V groups HG Rs HL HR g k). }
  split; [|split].
  - now apply fits.
  - intros g v g' v' Hg Hg' S. assert (P : v < vertices (NV (map dist_procs W) groups (fun g => nth g Rs (mkV [] [] []))) g /\ v' < vertices (NV (map dist_procs W) groups (fun g => nth g Rs (mkV [] [] []))) g').
    { destruct S as (j & j' & l & X & X' & _). split. apply (at_lt _ _ _ (NT W V groups HC HG Rs HR) g v j l Hg X). apply (at_lt _ _ _ (NT W V groups HC HG Rs HR) g' v' j' l Hg' X'). } destruct P as (P & P').
    unfold CT in Hg, Hg'. rewrite map_length, seq_length in Hg, Hg'. destruct (onto W V groups HC HG HV Rs HL HR g v Hg P) as (k & i & Hk & Hi & ->). destruct (onto W V groups HC HG HV Rs HL HR g' v' Hg' P') as (k' & i' & Hk' & Hi' & ->).
    rewrite !CO by auto. apply AG; try now apply (vM4 W V groups HG Rs HL HR). now apply (vsame W V groups HC HG HV Rs HL HR g k i g' k' i').
  - intros g k v Hg Hk Hv. exists (vim W V groups g k v). split. now apply (HR g Hg). now apply CO.
Qed.
(** Distributed data: the parts of a vertex are added within a group; its total over all ranks stays *)
Theorem C100_distributed : forall W groups V data, consistent W -> grouping (length W) groups -> let H := map dist_procs W in vertex_tables H V -> sizes_fit H (vertices V) data ->
  exists Cs Rs out, contract_verts H groups V = Ret (Cs, Rs) /\ map_vertex_data groups Cs Rs true data = Ret out /\
    sizes_fit (map c_tab Cs) (vertices (new_tables Cs Rs)) out /\
    forall g k v, g < length groups -> k < length (grp groups g) -> v < vertices V (rk groups g k) -> exists p, image (nth g Rs (mkV [] [] [])) k v = Some p /\ total (map c_tab Cs) (new_tables Cs Rs) out g p = total H V data (rk groups g k) v.
Proof.
  intros W groups V data HC HG H HV HS. subst H. destruct (verts_all W V groups HC HG HV) as (Rs & E & HL & HR).
  exists (map (contr (map dist_procs W) groups) (seq 0 (length groups))), Rs. eexists. split. exact E. split. exact (map_ok W V groups data HG HS Rs HL HR true). rewrite (tabs_eq W), (new_eq W groups Rs HL). split. now apply fits.
  intros g k v Hg Hk Hv. exists (vim W V groups g k v). split. now apply (HR g Hg).
  apply (total_out (map dist_procs W) V (CT (map dist_procs W) groups) (NV (map dist_procs W) groups (fun g => nth g Rs (mkV [] [] []))) groups (map v_maps Rs) (map (fun R => last (v_dsp R) 0) Rs) data (vertices V) (vim W V groups)); auto.
  - now rewrite map_length.
  - unfold CT. now rewrite map_length, seq_length.
  - apply (maps_len groups Rs HL).
  - apply (NN_len groups Rs HL).
  - apply (vM3 W V groups HG Rs HL HR).
  - apply (vM4 W V groups HG Rs HL HR).
  - apply HS.
  - apply HS.
  - apply (vsame W V groups HC HG HV Rs HL HR).
Qed.
(** the order does not matter: redistributing and then cumulating gives what cumulating and then redistributing gives *)
Lemma numbers_only H V n : node_tables H V n -> numbers H V [] = V.
Proof.
  intros [A B _ _]. unfold numbers. rewrite <- A. apply (nth_ext _ _ [] []). now rewrite map_length, seq_length. rewrite map_length, seq_length. intros r Hr. rewrite (nth_map_ok _ _ _ 0) by now rewrite seq_length. rewrite seq_nth by auto. cbn [Nat.add]. rewrite A in Hr. specialize (B r Hr). apply (nth_ext _ _ [] []). now rewrite map_length, seq_length. rewrite map_length, seq_length. intros j Hj. rewrite (nth_map_ok _ _ _ 0) by now rewrite seq_length. rewrite seq_nth by auto. cbn [Nat.add]. destruct r; destruct j; cbn [nth]; now rewrite app_nil_r.
Qed.
Lemma ctab_local W groups g : consistent W -> grouping (length W) groups -> local_first (map dist_procs W) -> g < length groups -> nth 0 (ctab_of (map dist_procs W) groups g) [] = [].
Proof.
  intros HC HG LF Hg. destruct (ctab_of (map dist_procs W) groups g) as [|c0 l0] eqn:Q; auto. cbn [nth].
  assert (X : exists D, In D (MC (map dist_procs W) groups g)) by (assert (Y : In c0 (ctab_of (map dist_procs W) groups g)) by (rewrite Q; now left); apply ctab_in in Y as (D & Y & _); eauto).
  destruct X as (D & X). destruct (MC_slot (map dist_procs W) groups g D Hg X) as (k & j & Hk & Hj & _).
  assert (X0 : is_class (map dist_procs W) groups g k 0) by (split; [auto|lia]).
  assert (Y : In [] (ctab_of (map dist_procs W) groups g)).
  { apply ctab_in. exists (cl (map dist_procs W) groups g k 0). split. apply (cl_MC W groups g k 0 X0). symmetry. unfold crow. destruct (del g _) as [|x l] eqn:Z; auto. assert (I : In x (del g (cset groups (cl (map dist_procs W) groups g k 0)))) by (rewrite Z; now left). apply in_del in I as (I & N). apply cset_in in I as (p & P & Q'). rewrite (cl_shares W groups g k 0 Hg X0) in P. apply in_members in P. rewrite LF in P by (now apply (rk_lt W groups HG g k 0)). destruct P as [->|[]].
    exfalso. apply N. rewrite <- Q'. apply (gof_ok groups (G_one W groups HG)); auto. now apply nth_In. }
  rewrite Q in Y. destruct Y as [Y|Y]; auto. pose proof (ctab_ss (map dist_procs W) groups g) as S1. rewrite Q in S1. inversion S1 as [|? ? _ F]; subst. rewrite Forall_forall in F. specialize (F [] Y). unfold dps_less in F. destruct c0; auto. discriminate.
Qed.
Theorem C100_commute : forall W groups V data, consistent W -> grouping (length W) groups -> let H := map dist_procs W in vertex_tables H V -> local_first H -> sizes_fit H (vertices V) data ->
  exists Cs Rs cum cum' new, contract_verts H groups V = Ret (Cs, Rs) /\
    Cumulate H V [] (mkA true data) = Ret (mkA false cum) /\ map_vertex_data groups Cs Rs false cum = Ret cum' /\
    map_vertex_data groups Cs Rs true data = Ret new /\ Cumulate (map c_tab Cs) (new_tables Cs Rs) [] (mkA true new) = Ret (mkA false cum').
Proof.
  intros W groups V data HC HG H HV LF HS. destruct (C100_distributed W groups V data HC HG HV HS) as (Cs & Rs & new & E & M & F & P). pose proof (vertex_node_tables H V HV) as NV1.
  destruct (C99_cumulate W V [] (vertices V) data HC) as (cum & C1 & C2 & C3 & C4); auto. { change (map dist_procs W) with H. rewrite (numbers_only H V _ NV1). exact NV1. } change (map dist_procs W) with H in C1, C2, C3, C4. rewrite (numbers_only H V _ NV1) in C3, C4.
  destruct (C100_cumulated W groups V cum HC HG HV C2 C3) as (Cs' & Rs' & cum' & E' & M' & F' & _ & P'). change (map dist_procs W) with H in E; change (map dist_procs W) with H in E'; change (map dist_procs W) with H in P; change (map dist_procs W) with H in P'. rewrite E in E'. injection E' as <- <-.
  destruct (C95_consistent W groups HC HG) as (Cs' & B1 & B2 & B3 & B4). assert (Q : Cs' = Cs). { unfold contract_verts in E. change (map dist_procs W) with H in B1. rewrite B1 in E. cbn [bind] in E. destruct (mapM _ _) in E; [|discriminate]. now injection E. } subst Cs'.
  destruct (verts_all W V groups HC HG HV) as (Rs' & E' & HL & HR). change H with (map dist_procs W) in E; rewrite E in E'. injection E' as Q <-. 
  assert (NT' : node_tables (map c_tab Cs) (new_tables Cs Rs) (vertices (new_tables Cs Rs))). { rewrite Q. rewrite (tabs_eq W), (new_eq W groups Rs HL). exact (NT W V groups HC HG Rs HR). }
  assert (LF' : local_first (map c_tab Cs)). { intros g Hg. rewrite Q, (tabs_eq W). rewrite map_length, B2 in Hg. unfold CT. rewrite (nth_map_ok _ _ _ 0) by now rewrite seq_length. rewrite seq_nth by auto. now apply ctab_local. }
  destruct (C99_cumulate (map c_tab Cs) (new_tables Cs Rs) [] (vertices (new_tables Cs Rs)) new B3) as (c2 & D1 & D2 & _ & D4); rewrite ?B4, ?(numbers_only _ _ _ NT'); auto.
  rewrite B4 in D1, D2, D4. rewrite (numbers_only _ _ _ NT') in D4. exists Cs, Rs, cum, cum', new. split; auto. split; auto. split; auto. split; auto. rewrite D1. f_equal. f_equal.
  destruct F' as (L1 & N1), D2 as (L2 & N2). apply (nth_ext _ _ [] []). congruence. intros g Hg. rewrite L2 in Hg. specialize (N1 g Hg). specialize (N2 g Hg). unfold size in N1, N2. apply (nth_ext _ _ 0%Z 0%Z). congruence. intros p Hp. rewrite N2 in Hp. change (val c2 g p = val cum' g p). rewrite D4 by auto.
  rewrite map_length, B2 in Hg. assert (Hp' := Hp). rewrite Q, (new_eq W groups Rs HL) in Hp'. destruct (onto W V groups HC HG HV Rs HL HR g p Hg Hp') as (k & i & Hk & Hi & Qp). destruct (P g k i Hg Hk Hi) as (p1 & P1 & P2). destruct (P' g k i Hg Hk Hi) as (p2 & P3 & P4). assert (X : image (nth g Rs (mkV [] [] [])) k i = Some p) by (rewrite Qp; now apply (HR g Hg)). rewrite X in P1, P3. injection P1 as <-. injection P3 as <-. rewrite P2, P4. symmetry. apply C4; auto. 
  destruct (vM4 W V groups HG Rs HL HR g k Hg Hk) as (Z & _). exact Z.
Qed.
(** a case: the mesh of C98_ex, four ranks become three *)
Example C100_ex : let H := map dist_procs Wx in consistent Wx /\ grouping (length Wx) Gx /\ vertex_tables H Vx /\ local_first H /\
  sizes_fit H (vertices Vx) [[1; 2; 3; 4; 5]; [10; 20; 30; 40; 50]; [100; 200]; [1000; 2000]]%Z /\
  exists Cs Rs, contract_verts H Gx Vx = Ret (Cs, Rs) /\
    map_vertex_data Gx Cs Rs true [[1; 2; 3; 4; 5]; [10; 20; 30; 40; 50]; [100; 200]; [1000; 2000]]%Z = Ret [[1; 2; 3; 4; 5]; [10; 240; 20; 30; 100; 50]; [1000; 2000]]%Z /\
    values_agree H Vx [[1; 22; 33; 104; 2055]; [10; 22; 33; 240; 2055]; [104; 240]; [1000; 2055]]%Z /\
    map_vertex_data Gx Cs Rs false [[1; 22; 33; 104; 2055]; [10; 22; 33; 240; 2055]; [104; 240]; [1000; 2055]]%Z = Ret [[1; 22; 33; 104; 2055]; [10; 240; 22; 33; 104; 2055]; [1000; 2055]]%Z.
Proof.
  pose proof C98_ex as (X1 & X2 & X3 & _). cbn zeta. assert (X4 : local_first (map dist_procs Wx)) by (intros r Hr; do 4 (destruct r as [|r]; [reflexivity|]); cbn in Hr; lia). assert (X5 : sizes_fit (map dist_procs Wx) (vertices Vx) [[1; 2; 3; 4; 5]; [10; 20; 30; 40; 50]; [100; 200]; [1000; 2000]]%Z) by (split; [reflexivity|intros r Hr; do 4 (destruct r as [|r]; [reflexivity|]); cbn in Hr; lia]).
  split; auto. split; auto. split; auto. split; auto. split; auto. 
  eexists. eexists. split. vm_compute. reflexivity. split. vm_compute. reflexivity. split; [|vm_compute; reflexivity].
  destruct (C99_cumulate Wx Vx [] (vertices Vx) [[1; 2; 3; 4; 5]; [10; 20; 30; 40; 50]; [100; 200]; [1000; 2000]]%Z X1 X4) with (2 := X5) as (v & E & _ & A & _). rewrite (numbers_only _ _ _ (vertex_node_tables _ _ X3)). exact (vertex_node_tables _ _ X3). vm_compute in E. injection E as <-. rewrite (numbers_only _ _ _ (vertex_node_tables _ _ X3)) in A. exact A.
Qed.
Print Assumptions C100_cumulated.
Print Assumptions C100_distributed.
Print Assumptions C100_commute.
