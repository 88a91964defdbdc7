(** C94-C96: groups of processes, equivalence classes and vertices of the redistributed mesh. *)
From Verif Require Import Base EQCModel UtilProofs EQCProofs EQCProofs2 EQCProofs3 EQCProps GCModel GCProofs GCProofs2 GCProofs3.
Local Open Scope nat_scope.

(** *** specification *)
Notation grp groups g := (nth g groups []).
(** the ranks 0..np-1 are divided into non-empty groups; each group is listed in increasing order *)
Record grouping (np : nat) (groups : list (list nat)) : Prop := {
  gr_rank : forall g p, g < length groups -> In p (grp groups g) -> p < np;
  gr_all : forall p, p < np -> exists g, g < length groups /\ In p (grp groups g);
  gr_one : forall g g' p, g < length groups -> g' < length groups -> In p (grp groups g) -> In p (grp groups g') -> g = g';
  gr_some : forall g, g < length groups -> grp groups g <> [];
  gr_sorted : forall g, g < length groups -> increasing (grp groups g) }.
(** some rank of group [q] belongs to the class that rank [r] stores as [d] *)
Definition meets (groups : list (list nat)) (q r : nat) (d : list nat) : Prop := exists x, shares r d x /\ In x (grp groups q).
(** rank of member [k] of group [g]; class [j] of that member *)
Notation rk groups g k := (nth k (grp groups g) 0).
Notation row H r j := (nth j (nth r H []) []).
(** [k], [j] is a class of a member of group [g] *)
Definition is_class (H : list (list (list nat))) (groups : list (list nat)) (g k j : nat) : Prop := k < length (grp groups g) /\ j < length (nth (rk groups g k) H []).
(** vertices of all ranks by class: numbered in the order of the classes; a class has the same number of vertices on all its ranks *)
Record vertex_tables (H V : list (list (list nat))) : Prop := {
  vt_all : length V = length H;
  vt_rows : forall r, r < length H -> length (nth r V []) = length (nth r H []);
  vt_numbers : forall r, r < length H -> concat (nth r V []) = seq 0 (length (concat (nth r V [])));
  vt_same : forall r r' j j', r < length H -> r' < length H -> j < length (nth r H []) -> j' < length (nth r' H []) -> same_class r (row H r j) r' (row H r' j') -> length (row V r j) = length (row V r' j') }.
(** image of a vertex of member [k] *)
Definition image (R : cverts) (k v : nat) : option nat := nth v (nth k (v_maps R) []) None.
(** vertex [l] of class [j] of member [k] of group [g] *)
Definition is_vertex (H V : list (list (list nat))) (groups : list (list nat)) (g k j l : nat) : Prop := is_class H groups g k j /\ l < length (row V (rk groups g k) j).

(** *** C94: groups *)
Theorem C94_groups : forall np nparts sep_p0 metis, 0 < np -> 0 < nparts -> (sep_p0 = true -> 2 <= np /\ 2 <= nparts) -> length metis = np -> (forall p, p < np -> nth p metis 0 < (if sep_p0 : bool then nparts - 1 else nparts)) ->
  exists groups, PartitionProcs np nparts sep_p0 metis = Ret groups /\ grouping np groups /\ length groups <= nparts /\ (sep_p0 = true -> nth 0 groups [] = [0]) /\ hd 0 (grp groups 0) = 0 /\
    (forall g g', g < g' -> g' < length groups -> hd 0 (grp groups g) < hd 0 (grp groups g')).
Proof.
  intros np nparts sep metis Hn Hp HS L HB. assert (FIN : forall groups, good_groups np groups -> hd 0 (grp groups 0) = 0 /\ grouping np groups /\ (forall g g', g < g' -> g' < length groups -> hd 0 (grp groups g) < hd 0 (grp groups g'))).
  { intros groups (A1 & A2 & A3 & A4 & A5 & A6). split; [|split; auto; constructor; auto]. destruct (A2 0 Hn) as (g & Hg & X). assert (Y : hd 0 (grp groups g) = 0). { assert (S := A5 g Hg). destruct (grp groups g) as [|h t] eqn:E; [destruct X|]. cbn [hd]. pose proof (sset_hd t 0 h S X). lia. } destruct g as [|g]; auto. specialize (A6 0 (S g) ltac:(lia) Hg). lia. }
  unfold PartitionProcs. destruct (Nat.eqb_spec nparts 1) as [->|N1]; cbn [orb].
  - assert (sep = false) by (destruct sep; auto; specialize (HS eq_refl); lia). subst sep. exists [seq 0 np]. destruct (FIN _ (good_one np Hn)) as (F1 & F2 & F3). repeat split; auto; try discriminate; try apply F2. now apply trivial_one.
  - destruct (sep && (nparts =? 2)) eqn:E.
    + apply andb_prop in E as (-> & E). apply Nat.eqb_eq in E. subst. destruct (HS eq_refl) as (S1 & S2). exists [[0]; seq 1 (length metis - 1)]. split. apply trivial_two. lia. destruct (FIN _ (good_two (length metis) S1)) as (F1 & F2 & F3). split; auto.
    + destruct (partition_good np nparts sep metis L Hn HB) as (groups & EG & LG & GG & G0). exists groups. destruct (FIN _ GG) as (F1 & F2 & F3). split; auto.
Qed.
(** METIS may leave parts empty: they give no group *)
Example C94_ex : PartitionProcs 5 4 false [3; 1; 3; 0; 1] = Ret [[0; 2]; [1; 4]; [3]] /\ PartitionProcs 5 4 true [0; 2; 0; 2; 0] = Ret [[0]; [1; 3]; [2; 4]] /\ PartitionProcs 4 2 true [] = Ret [[0]; [1; 2; 3]].
Proof. vm_compute. auto. Qed.

(** *** C95: classes *)
Section Glue.
  Variables (W : list (list (list nat))) (groups : list (list nat)).
  Hypothesis HC : consistent W.
  Notation H := (map dist_procs W).
  Hypothesis HG : grouping (length W) groups.
  Lemma HW : world H. Proof. apply sorted_world. now apply consistent_tables. Qed.
  Lemma G_rank : forall g p, g < length groups -> In p (grp groups g) -> p < length H. Proof. rewrite map_length. apply HG. Qed.
  Lemma G_all : forall p, p < length H -> exists g, g < length groups /\ In p (grp groups g). Proof. rewrite map_length. apply HG. Qed.
  Lemma G_one : forall g g' p, g < length groups -> g' < length groups -> In p (grp groups g) -> In p (grp groups g') -> g = g'. Proof. apply HG. Qed.
  Lemma G_ne : forall g, g < length groups -> grp groups g <> []. Proof. apply HG. Qed.
  Lemma Build_ok g : g < length groups -> BuildCEQCH H groups g = Ret (contr H groups g).
  Proof. apply (BuildCEQCH_ok H groups HW G_rank G_all G_one G_ne). Qed.
  Lemma rk_lt g k j : g < length groups -> is_class H groups g k j -> rk groups g k < length H.
  Proof. intros Hg (Hk & _). apply (G_rank g); auto. now apply nth_In. Qed.
  Lemma cl_shares g k j : g < length groups -> is_class H groups g k j -> cl H groups g k j = members (rk groups g k) (row H (rk groups g k) j).
  Proof. intros Hg (Hk & Hj). now apply cl_members. Qed.
  Lemma inc_row g k j : g < length groups -> is_class H groups g k j -> increasing (row H (rk groups g k) j).
  Proof. intros Hg X. apply (row_facts H HW (rk groups g k)). now apply (rk_lt g k j). apply nth_In. apply X. Qed.
  Lemma cl_MC g k j : is_class H groups g k j -> In (cl H groups g k j) (MC H groups g). Proof. intros (Hk & Hj). now apply cl_in. Qed.
  Lemma om_at g k j : g < length groups -> is_class H groups g k j -> nth j (nth k (c_om (contr H groups g)) []) 0 = mnr H groups g (cl H groups g k j).
  Proof. intros Hg (Hk & Hj). cbn [c_om contr]. rewrite (nth_map_ok _ _ _ 0) by auto. unfold om_of. rewrite (nth_map_ok _ _ _ []) by (unfold classes; now rewrite map_length). reflexivity. Qed.
  Lemma oc_at g k j : is_class H groups g k j -> nth j (nth k (c_oc (contr H groups g)) []) 0 = cnr H groups g (cl H groups g k j).
  Proof. intros (Hk & Hj). cbn [c_oc contr]. rewrite (nth_map_ok _ _ _ 0) by auto. rewrite (nth_map_ok _ _ _ []) by (unfold classes; now rewrite map_length). reflexivity. Qed.
  Lemma hits_ok g k j q : g < length groups -> is_class H groups g k j -> q < length groups -> In q (cset groups (cl H groups g k j)) <-> meets groups q (rk groups g k) (row H (rk groups g k) j).
  Proof.
    intros Hg X Hq. rewrite cset_in, cl_shares by auto. unfold meets. split.
    - intros (p & P1 & P2). assert (Hp : p < length H). { destruct (MC_facts H groups HW G_rank g _ Hg (cl_MC g k j X)) as (_ & A & _). apply A. now rewrite cl_shares. } apply in_members in P1. exists p. split; auto. rewrite <- P2. now apply (gof_in H groups G_all G_one).
    - intros (p & P1 & P2). exists p. split. now apply in_members. now apply (gof_ok groups G_one).
  Qed.
End Glue.
(** what the master of group [g] computes for class [j] of member [k] *)
Theorem C95_classes : forall W groups g, consistent W -> grouping (length W) groups -> g < length groups -> let H := map dist_procs W in
  exists C, BuildCEQCH H groups g = Ret C /\ NoDup (c_tab C) /\
  (forall k j, is_class H groups g k j -> let r := rk groups g k in let d := row H r j in let m := nth j (nth k (c_om C) []) 0 in let c := nth j (nth k (c_oc C) []) 0 in
    (m < length (c_mmems C) /\ increasing (nth m (c_mmems C) []) /\ forall x, In x (nth m (c_mmems C) []) <-> shares r d x) /\
    nth m (c_mc C) 0 = c /\
    (c < length (c_tab C) /\ increasing (nth c (c_tab C) []) /\ forall q, In q (nth c (c_tab C) []) <-> q < length groups /\ q <> g /\ meets groups q r d)) /\
  (forall k j k' j', is_class H groups g k j -> is_class H groups g k' j' ->
    (nth j (nth k (c_om C) []) 0 = nth j' (nth k' (c_om C) []) 0 <-> same_class (rk groups g k) (row H (rk groups g k) j) (rk groups g k') (row H (rk groups g k') j'))) /\
  (forall m, m < length (c_mmems C) -> exists k j, is_class H groups g k j /\ nth j (nth k (c_om C) []) 0 = m) /\
  (forall c, c < length (c_tab C) -> exists k j, is_class H groups g k j /\ nth j (nth k (c_oc C) []) 0 = c).
Proof.
  intros W groups g HC HG Hg H. subst H. exists (contr (map dist_procs W) groups g). pose proof (HW W HC) as HWW.  pose proof (G_rank W groups HG) as GR.  pose proof (G_all W groups HG) as GA.  pose proof (G_one W groups HG) as G1. split. now apply Build_ok. split. apply ctab_nodup. split; [|split; [|split]].
  - intros k j X r d m c. unfold m, c. rewrite (om_at W groups g k j) by auto. rewrite (oc_at W groups g k j) by auto. assert (XM := cl_MC W groups g k j X).  destruct (mnr_ok (map dist_procs W) groups g _ XM) as (M1 & M2). destruct (cnr_ok (map dist_procs W) groups g _ XM) as (C1 & C2). split; [|split].
    + cbn [c_mmems contr]. split; auto. rewrite M2. rewrite (cl_shares W groups g k j) by auto. split. apply members_sset. now apply (inc_row W groups HC HG g k j). intros x. apply in_members.
    + cbn [c_mc contr]. rewrite (nth_map_ok _ _ _ []) by auto. now rewrite M2.
    + cbn [c_tab contr]. split; auto. rewrite C2. split. apply del_sset, cset_sset. intros q. unfold crow. rewrite in_del. split.
      * intros (A & B). assert (Hq : q < length groups) by (apply (cset_lt (map dist_procs W) groups HWW GR GA G1 g _ q Hg XM A)). split; auto. split; auto. now apply (hits_ok W groups HC HG g k j q).
      * intros (A & B & E). split; auto. now apply (hits_ok W groups HC HG g k j q).
  - intros k j k' j' X X'. rewrite !(om_at W groups g) by auto. assert (XM := cl_MC W groups g k j X). assert (XM' := cl_MC W groups g k' j' X'). rewrite same_members by (eapply inc_row; eauto). rewrite <- !(cl_shares W groups g) by auto.  destruct (mnr_ok (map dist_procs W) groups g _ XM) as (M1 & M2). destruct (mnr_ok (map dist_procs W) groups g _ XM') as (M1' & M2'). split; congruence.
  - cbn [c_mmems contr]. intros m Hm. destruct (MC_slot (map dist_procs W) groups g _ Hg (nth_In (MC (map dist_procs W) groups g) [] Hm)) as (k & j & Hk & Hj & E). exists k, j. assert (X : is_class (map dist_procs W) groups g k j) by now split. split; auto. rewrite (om_at W groups g k j) by auto.  rewrite E. now apply mnr_nth.
  - cbn [c_tab contr]. intros c Hc. assert (Y := nth_In _ [] Hc). apply ctab_in in Y as (D & Y & E). destruct (MC_slot (map dist_procs W) groups g D Hg Y) as (k & j & Hk & Hj & E'). exists k, j. assert (X : is_class (map dist_procs W) groups g k j) by now split. split; auto. rewrite (oc_at W groups g k j) by auto.  rewrite E'. destruct (cnr_ok (map dist_procs W) groups g D Y) as (C1 & C2). apply (proj1 (NoDup_nth (ctab_of (map dist_procs W) groups g) []) (ctab_nodup (map dist_procs W) groups g)); auto. congruence.
Qed.
(** the tables of all new processes fit together, and are sorted *)
Theorem C95_consistent : forall W groups, consistent W -> grouping (length W) groups ->
  exists Cs, mapM (BuildCEQCH (map dist_procs W) groups) (seq 0 (length groups)) = Ret Cs /\ length Cs = length groups /\ consistent (map c_tab Cs) /\ map dist_procs (map c_tab Cs) = map c_tab Cs.
Proof.
  intros W groups HC HG. exists (map (contr (map dist_procs W) groups) (seq 0 (length groups))). split; [|split; [|split]].
  - apply mapM_map. intros g X. apply in_seq in X. apply Build_ok; auto. lia.
  - now rewrite map_length, seq_length.
  - rewrite map_map. apply consistent_tables. apply (ctabs_ok (map dist_procs W) groups (HW W HC) (G_rank W groups HG) (G_all W groups HG) (G_one W groups HG)).
  - rewrite !map_map. apply map_ext_in. intros g _. cbn [c_tab contr]. apply (ss_ext (fun a b => dps_less a b = true)). intros x X. rewrite less_irrefl in X. discriminate. apply less_trans.
    + apply sort_by_ss. apply dps_less_total. apply ctab_nodup. + apply ctab_ss. + intros x. apply dist_in.
Qed.
(** a case: four ranks become two *)
Lemma groups_ex : grouping 4 [[0; 3]; [1; 2]].
Proof.
  assert (Z : forall g, g < 2 -> g = 0 \/ g = 1) by (intros; lia). constructor; cbn [length].
  - intros g p Hg X. destruct (Z g Hg); subst; cbn in X; intuition lia.
  - intros p Hp. assert (Zp : p = 0 \/ p = 1 \/ p = 2 \/ p = 3) by lia. destruct Zp as [->|[->|[->| ->]]]; [exists 0|exists 1|exists 1|exists 0]; cbn; auto.
  - intros g g' p Hg Hg' X X'. destruct (Z g Hg), (Z g' Hg'); subst; auto; cbn in *; intuition lia.
  - intros g Hg. destruct (Z g Hg); subst; discriminate.
  - intros g Hg. destruct (Z g Hg); subst; cbn; repeat constructor.
Qed.
Example C95_ex : consistent W4 /\ grouping 4 [[0; 3]; [1; 2]] /\
  BuildCEQCH (map dist_procs W4) [[0; 3]; [1; 2]] 0 = Ret (mkC [[0; 2; 3]; [1; 3]] [[0]; [3]; [0; 1; 2]; [0; 1; 3]] [0; 0; 1; 1] [[0; 1; 1]; [0; 1]] [[]; [1]]).
Proof. split. exact W4_ok. split. exact groups_ex. vm_compute. reflexivity. Qed.
(** the contracted hierarchy is not closed under intersection even if the original one is: two classes may have no common class.
    The code that maps the edges uses the result (-1) as the number of a class *)
Definition Wbad : list (list (list nat)) := [[[]; [2; 3]]; [[]; [2; 4]]; [[]; [0; 3]; [1; 4]]; [[]; [0; 2]]; [[]; [1; 2]]].
Definition Gbad : list (list nat) := [[0; 1]; [2]; [3]; [4]].
Lemma Wbad_ok : consistent Wbad.
Proof.
  apply consistent_tables. constructor.
  - intros r d Hr Hd. do 5 (destruct r as [|r]; [cbn in Hd; repeat (destruct Hd as [<-|Hd]; [split; [repeat constructor|split; [cbn; lia|intros q; cbn; lia]]|]); destruct Hd|]). cbn in Hr. lia.
  - intros r Hr. do 5 (destruct r as [|r]; [cbn; repeat constructor; cbn; intuition discriminate|]). cbn in Hr. lia.
  - intros r d q Hr Hd Hq. do 5 (destruct r as [|r]; [cbn in Hd; intuition (subst; cbn in Hq; intuition (subst; vm_compute; auto))|]). cbn in Hr. lia.
Qed.
Lemma Gbad_ok : grouping 5 Gbad.
Proof.
  assert (Z : forall g, g < 4 -> g = 0 \/ g = 1 \/ g = 2 \/ g = 3) by (intros; lia). constructor; cbn [length Gbad].
  - intros g p Hg X. destruct (Z g Hg) as [->|[->|[->| ->]]]; cbn in X; intuition lia.
  - intros p Hp. assert (Zp : p = 0 \/ p = 1 \/ p = 2 \/ p = 3 \/ p = 4) by lia. destruct Zp as [->|[->|[->|[->| ->]]]]; [exists 0|exists 0|exists 1|exists 2|exists 3]; (split; [lia|cbn; auto]).
  - intros g g' p Hg Hg' X X'. destruct (Z g Hg) as [->|[->|[->| ->]]], (Z g' Hg') as [->|[->|[->| ->]]]; auto; cbn in *; intuition lia.
  - intros g Hg. destruct (Z g Hg) as [->|[->|[->| ->]]]; discriminate.
  - intros g Hg. destruct (Z g Hg) as [->|[->|[->| ->]]]; cbn; repeat constructor.
Qed.
Theorem C95_closed_refuted : exists W groups g C i j, EQCHierarchy W = Ret (map dist_procs W) /\ consistent W /\ grouping (length W) groups /\ BuildCEQCH (map dist_procs W) groups g = Ret C /\ i < length (c_tab C) /\ j < length (c_tab C) /\ GetCommonEQC (c_tab C) i j = Ret None.
Proof.
  exists Wbad, Gbad, 0. eexists. exists 1, 2. split. vm_compute. reflexivity. split. exact Wbad_ok. split. exact Gbad_ok. split. vm_compute. reflexivity. vm_compute. auto.
Qed.

(** *** C96: vertices *)
Section Verts.
  Variables (W V : list (list (list nat))) (groups : list (list nat)).
  Hypothesis HC : consistent W.
  Notation H := (map dist_procs W).
  Hypothesis HG : grouping (length W) groups.
  Hypothesis HV : vertex_tables H V.
  Lemma V_same : forall r r' j j', r < length H -> r' < length H -> j < length (nth r H []) -> j' < length (nth r' H []) -> nth j (classes H r) [] = nth j' (classes H r') [] -> length (row V r j) = length (row V r' j').
  Proof.
    intros r r' j j' Hr Hr' Hj Hj' E. apply (vt_same H V HV); auto. apply same_members. apply (row_facts H (HW W HC) r); auto using nth_In. apply (row_facts H (HW W HC) r'); auto using nth_In. unfold classes in E. rewrite (nth_map_ok _ (nth r _ []) _ []) in E by auto. rewrite (nth_map_ok _ (nth r' _ []) _ []) in E by auto. exact E.
  Qed.
  Lemma verts_ok g : g < length groups -> exists R, map_vertices (grp groups g) (contr H groups g) (map (fun r => nth r V []) (grp groups g)) = Ret R /\ length (v_dsp R) = length (c_tab (contr H groups g)) + 1 /\ (forall c, c <= length (c_tab (contr H groups g)) -> nth c (v_dsp R) 0 = base H groups V g c) /\
    length (v_maps R) = length (grp groups g) /\ (forall k, k < length (grp groups g) -> length (nth k (v_maps R) []) = length (concat (nth (rk groups g k) V []))) /\
    forall k j l, is_vertex H V groups g k j l -> image R k (nth l (row V (rk groups g k) j) 0) = Some (cvert H groups V g (cl H groups g k j) l).
  Proof.
    intros Hg. destruct (map_vertices_ok H groups (HW W HC) (G_rank W groups HG) (gr_sorted _ _ HG) V (vt_rows _ _ HV) (vt_numbers _ _ HV) V_same g Hg) as (R & E & A1 & A2 & A3 & A4 & A5 & A6). exists R. split. exact E. split; auto. split; auto. split; auto. split; auto. intros k j l ((Hk & Hj) & Hl). now apply A6.
  Qed.
  Lemma nv_at g k j l : g < length groups -> is_vertex H V groups g k j l -> l < nv H V (cl H groups g k j).
  Proof. intros Hg (X & Hl). unfold cl. rewrite (nv_ok H (HW W HC) V V_same); auto. now apply (rk_lt W groups HG g k j). apply X. Qed.
End Verts.
Theorem C96_vertices : forall W groups V g, consistent W -> grouping (length W) groups -> let H := map dist_procs W in vertex_tables H V -> g < length groups ->
  exists C R, BuildCEQCH H groups g = Ret C /\ map_vertices (grp groups g) C (map (fun r => nth r V []) (grp groups g)) = Ret R /\ length (v_dsp R) = length (c_tab C) + 1 /\ nth 0 (v_dsp R) 0 = 0 /\
  (* every vertex gets a number in the range of its contracted class *)
  (forall k j l, is_vertex H V groups g k j l -> exists v, image R k (nth l (row V (rk groups g k) j) 0) = Some v /\ v < nth (length (c_tab C)) (v_dsp R) 0 /\
    let c := nth j (nth k (c_oc C) []) 0 in nth c (v_dsp R) 0 <= v < nth (c + 1) (v_dsp R) 0) /\
  (* two vertices get the same number iff they are the same vertex of the original mesh *)
  (forall k j l k' j' l', is_vertex H V groups g k j l -> is_vertex H V groups g k' j' l' ->
    (image R k (nth l (row V (rk groups g k) j) 0) = image R k' (nth l' (row V (rk groups g k') j') 0) <-> same_class (rk groups g k) (row H (rk groups g k) j) (rk groups g k') (row H (rk groups g k') j') /\ l = l')) /\
  (* every number is used *)
  (forall v, v < nth (length (c_tab C)) (v_dsp R) 0 -> exists k j l, is_vertex H V groups g k j l /\ image R k (nth l (row V (rk groups g k) j) 0) = Some v).
Proof.
  intros W groups V g HC HG H HV Hg. subst H. pose proof (HW W HC) as HWW.  pose proof (G_rank W groups HG) as GR.  pose proof (V_same W V HC HV) as VS. 
  destruct (verts_ok W V groups HC HG HV g Hg) as (R & E & A1 & A2 & A3 & _ & A4).  exists (contr (map dist_procs W) groups g), R. split. now apply Build_ok. split; auto. split; auto. split. rewrite A2 by lia. reflexivity. split; [|split].
  - intros k j l X. exists (cvert (map dist_procs W) groups V g (cl (map dist_procs W) groups g k j) l). split; auto. assert (XM := cl_MC W groups g k j (proj1 X)).  pose proof (nv_at W V groups HC HG HV g k j l Hg X) as NL.  destruct (vlist_nth (map dist_procs W) groups V g _ l XM NL) as (B1 & _ & B2). rewrite (oc_at W groups g k j) by apply X.  destruct (cnr_ok (map dist_procs W) groups g _ XM) as (C1 & _). rewrite !A2 by (cbn [c_tab contr]; lia). split; auto. cbv zeta. rewrite !A2 by (cbn [c_tab contr]; lia). rewrite Nat.add_1_r. exact B2.
  - intros k j l k' j' l' X X'. rewrite !A4 by auto. assert (XM := cl_MC W groups g k j (proj1 X)). assert (XM' := cl_MC W groups g k' j' (proj1 X')).  pose proof (nv_at W V groups HC HG HV g k j l Hg X) as NL. pose proof (nv_at W V groups HC HG HV g k' j' l' Hg X') as NL'.  rewrite same_members by (first [exact (inc_row W groups HC HG g k j Hg (proj1 X))|exact (inc_row W groups HC HG g k' j' Hg (proj1 X'))]). rewrite <- (cl_shares W groups g k j Hg (proj1 X)), <- (cl_shares W groups g k' j' Hg (proj1 X')).  split.
    + intros Q. injection Q as Q. now apply (cvert_inj (map dist_procs W) groups V g) in Q.
    + intros (-> & ->). reflexivity.
  - intros v Hv. rewrite A2 in Hv by lia. destruct (cvert_onto (map dist_procs W) groups V g v Hv) as (D & l & D1 & D2 & <-). destruct (MC_slot (map dist_procs W) groups g D Hg D1) as (k & j & Hk & Hj & <-). assert (X : is_vertex (map dist_procs W) V groups g k j l). { split. now split. unfold cl in D2. rewrite (nv_ok (map dist_procs W) HWW V VS) in D2; auto. apply (GR g); auto. now apply nth_In. } exists k, j, l. split; auto.
Qed.
(** two groups that share a vertex number it alike within the class, and the class has the same size *)
Theorem C96_agree : forall W groups V g g', consistent W -> grouping (length W) groups -> let H := map dist_procs W in vertex_tables H V -> g < length groups -> g' < length groups ->
  exists C R C' R', BuildCEQCH H groups g = Ret C /\ map_vertices (grp groups g) C (map (fun r => nth r V []) (grp groups g)) = Ret R /\ BuildCEQCH H groups g' = Ret C' /\ map_vertices (grp groups g') C' (map (fun r => nth r V []) (grp groups g')) = Ret R' /\
  forall k j l k' j', is_vertex H V groups g k j l -> is_class H groups g' k' j' -> same_class (rk groups g k) (row H (rk groups g k) j) (rk groups g' k') (row H (rk groups g' k') j') ->
  let c := nth j (nth k (c_oc C) []) 0 in let c' := nth j' (nth k' (c_oc C') []) 0 in
  exists p, image R k (nth l (row V (rk groups g k) j) 0) = Some (nth c (v_dsp R) 0 + p) /\ image R' k' (nth l (row V (rk groups g' k') j') 0) = Some (nth c' (v_dsp R') 0 + p) /\
    nth (c + 1) (v_dsp R) 0 - nth c (v_dsp R) 0 = nth (c' + 1) (v_dsp R') 0 - nth c' (v_dsp R') 0 /\
    forall q, (q = g \/ In q (nth c (c_tab C) [])) <-> (q = g' \/ In q (nth c' (c_tab C') [])).
Proof.
  intros W groups V g g' HC HG H HV Hg Hg'. subst H. pose proof (HW W HC) as HWW.  pose proof (G_rank W groups HG) as GR.  pose proof (G_all W groups HG) as GA.  pose proof (G_one W groups HG) as G1. pose proof (V_same W V HC HV) as VS. 
  destruct (verts_ok W V groups HC HG HV g Hg) as (R & E & A1 & A2 & A3 & _ & A4).  destruct (verts_ok W V groups HC HG HV g' Hg') as (R' & E' & A1' & A2' & A3' & _ & A4'). 
  exists (contr (map dist_procs W) groups g), R, (contr (map dist_procs W) groups g'), R'. split. now apply Build_ok. split; auto. split. now apply Build_ok. split; auto. intros k j l k' j' X Y' SC c c'. unfold c, c'. rewrite (oc_at W groups g k j) by apply X. rewrite (oc_at W groups g' k' j') by auto.
  assert (XM := cl_MC W groups g k j (proj1 X)). assert (XM' := cl_MC W groups g' k' j' Y').  pose proof (nv_at W V groups HC HG HV g k j l Hg X) as NL. 
  assert (EC : cl (map dist_procs W) groups g k j = cl (map dist_procs W) groups g' k' j'). { pose proof (cl_shares W groups g k j Hg (proj1 X)) as Q1. pose proof (cl_shares W groups g' k' j' Hg' Y') as Q2.  rewrite Q1, Q2. apply same_members; auto. apply (inc_row W groups HC HG g k j Hg (proj1 X)). apply (inc_row W groups HC HG g' k' j' Hg' Y'). }
  assert (X' : is_vertex (map dist_procs W) V groups g' k' j' l). { split; auto. rewrite EC in NL. unfold cl in NL. rewrite (nv_ok (map dist_procs W) HWW V VS) in NL; auto. apply (GR g'); auto. apply nth_In, Y'. apply Y'. }
  rewrite <- EC in XM'. rewrite <- EC. destruct (cnr_ok (map dist_procs W) groups g _ XM) as (C1 & C2). destruct (cnr_ok (map dist_procs W) groups g' _ XM') as (C1' & C2'). destruct (offs_shared (map dist_procs W) groups HWW GR GA G1 V g g' _ Hg Hg' XM XM') as (O1 & O2).
  exists (offs (map dist_procs W) groups V g (mnr (map dist_procs W) groups g (cl (map dist_procs W) groups g k j)) + l). rewrite A4 by auto. rewrite A4' by auto. rewrite <- EC. rewrite !A2, !A2' by (cbn [c_tab contr]; lia). split. unfold cvert. f_equal. lia. split. unfold cvert. f_equal. lia. split.
  - assert (BS : forall g c, base (map dist_procs W) groups V g (c + 1) = base (map dist_procs W) groups V g c + cnt (map dist_procs W) groups V g c). { intros a b. unfold base. replace (b + 1) with (S b) by lia. rewrite seq_S, map_app, sum_app. cbn. lia. } rewrite !BS. lia.
  - intros q. cbn [c_tab contr]. rewrite C2, C2'. pose proof (members_crow (map dist_procs W) groups HWW GR G1 g _ Hg XM) as M1. pose proof (members_crow (map dist_procs W) groups HWW GR G1 g' _ Hg' XM') as M2. rewrite <- !in_members. rewrite M1, M2. reflexivity.
Qed.
(** two vertices per rank of its own, one per shared class *)
Definition V4 : list (list (list nat)) := [[[0; 1]; [2]; [3]]; [[0]; [1]; [2]]; [[]; [0]]; [[0; 1]; [2]]].
Lemma V4_ok : vertex_tables (map dist_procs W4) V4.
Proof.
  constructor; auto.
  - intros r Hr. cbn in Hr. do 4 (destruct r as [|r]; [reflexivity|]). lia.
  - intros r Hr. cbn in Hr. do 4 (destruct r as [|r]; [reflexivity|]). lia.
  - intros r r' j j' Hr Hr' Hj Hj' SC. cbn in Hr, Hr'. assert (Z : forall r, r < 4 -> r = 0 \/ r = 1 \/ r = 2 \/ r = 3) by (intros; lia). destruct (Z r Hr) as [->|[->|[->| ->]]], (Z r' Hr') as [->|[->|[->| ->]]]; cbn in Hj, Hj'; repeat (destruct j as [|j]; [|try lia]); repeat (destruct j' as [|j']; [|try lia]); try reflexivity; exfalso; rewrite same_members in SC by (vm_compute; repeat constructor); vm_compute in SC; discriminate.
Qed.
Example C96_ex : vertex_tables (map dist_procs W4) V4 /\ exists C R, BuildCEQCH (map dist_procs W4) [[0; 3]; [1; 2]] 0 = Ret C /\ map_vertices [0; 3] C [nth 0 V4 []; nth 3 V4 []] = Ret R /\ v_dsp R = [0; 4; 6] /\ v_maps R = [[Some 0; Some 1; Some 4; Some 5]; [Some 2; Some 3; Some 5]].
Proof. split. exact V4_ok. eexists _, _. split. vm_compute. reflexivity. split. vm_compute. reflexivity. split; reflexivity. Qed.

Print Assumptions C94_groups.
Print Assumptions C95_classes.
Print Assumptions C95_consistent.
Print Assumptions C95_closed_refuted.
Print Assumptions C96_vertices.
Print Assumptions C96_agree.
