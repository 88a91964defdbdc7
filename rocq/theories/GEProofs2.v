(** Classes, positions and identifiers of the vertices of the new mesh, seen from different groups. *)
From Verif Require Import Base EQCModel UtilProofs EQCProofs EQCProofs2 EQCProofs3 EQCProps AggMapModel AggMapProofs GCModel GCProofs GCProofs2 GEModel GEProofs.
Local Open Scope nat_scope.

Lemma nth_ext_eq {A} (l l' : list A) d : length l = length l' -> (forall i, i < length l -> nth i l d = nth i l' d) -> l = l'.
Proof. intros L E. apply (nth_ext l l' d d); auto. Qed.
Lemma idx_nodup {A} (eqb : A -> A -> bool) (E : forall a b, eqb a b = true <-> a = b) l d i : NoDup l -> i < length l -> idx eqb (nth i l d) l = i.
Proof. intros ND Hi. destruct (pos_by_idx eqb (nth i l d) l E (nth_In _ _ Hi) 0) as (_ & Q & B). apply (proj1 (NoDup_nth l d) ND); auto. Qed.

Section GE.
  Variables (H : list (list (list nat))) (groups : list (list nat)).
  Hypothesis HW : world H.
  Notation np := (length H).
  Notation ng := (length groups).
  Notation grp g := (nth g groups []).
  Hypothesis G_rank : forall g p, g < ng -> In p (grp g) -> p < np.
  Hypothesis G_all : forall p, p < np -> exists g, g < ng /\ In p (grp g).
  Hypothesis G_one : forall g g' p, g < ng -> g' < ng -> In p (grp g) -> In p (grp g') -> g = g'.
  Notation MC := (MC H groups).
  Notation gof := (gof groups).
  Notation cset := (cset groups).
  Notation crow := (crow groups).
  Notation ctab_of := (ctab_of H groups).
  Notation mnr := (mnr H groups).
  Notation cnr := (cnr H groups).
  Notation cl := (cl H groups).
  Variable V : list (list (list nat)).
  Notation nv := (nv H V).
  Notation base := (base H groups V).
  Notation offs := (offs H groups V).
  Notation cvert := (cvert H groups V).
  Notation cnt := (cnt H groups V).
  Notation CN g := (length (ctab_of g)).
  Notation MN g := (length (MC g)).

  Definition CT : list (list (list nat)) := map ctab_of (seq 0 ng).
  Lemma CT_len : length CT = ng. Proof. unfold CT. now rewrite map_length, seq_length. Qed.
  Lemma CT_nth g : g < ng -> nth g CT [] = ctab_of g. Proof. intros Hg. unfold CT. rewrite (nth_map_ok _ _ _ 0) by (now rewrite seq_length). now rewrite seq_nth. Qed.
  Lemma CT_sorted : map dist_procs CT = CT.
  Proof.
    unfold CT. rewrite !map_map. apply map_ext_in. intros g _. apply (ss_ext (fun a b => dps_less a b = true)). intros x X. rewrite less_irrefl in X. discriminate. apply less_trans.
    + apply sort_by_ss. apply dps_less_total. apply ctab_nodup. + apply ctab_ss. + intros x. apply dist_in.
  Qed.
  Lemma CT_world : world CT.
  Proof. rewrite <- CT_sorted. apply sorted_world. apply (ctabs_ok H groups HW G_rank G_all G_one). Qed.
  Definition cE (g : nat) (E : list nat) : nat := idx list_eqb (del g E) (ctab_of g).
  Lemma cnr_cE g D : cnr g D = cE g (cset D). Proof. reflexivity. Qed.
  Lemma cclass g A : g < ng -> In A (MC g) -> nth (cnr g A) (classes CT g) [] = cset A.
  Proof. intros Hg X. destruct (cnr_ok H groups g A X) as (C1 & C2). unfold classes. rewrite CT_nth by auto. rewrite (nth_map_ok _ _ _ []) by auto. rewrite C2. now apply (members_crow H groups HW G_rank G_one). Qed.
  Lemma cset_class g A : g < ng -> In A (MC g) -> In (cset A) (classes CT g).
  Proof. intros Hg X. rewrite <- (cclass g A Hg X). apply nth_In. unfold classes. rewrite map_length, CT_nth by auto. now apply cnr_ok. Qed.
  Definition cid (E : list nat) : nat := gid CT E.
  Lemma id_ok g A : g < ng -> In A (MC g) -> GetEQCID CT g (cnr g A) = Ret (cid (cset A)).
  Proof.
    intros Hg X. unfold GetEQCID. rewrite (eqc_ids_ok CT CT_world) by (now rewrite CT_len). cbn [bind]. destruct (cnr_ok H groups g A X) as (C1 & C2). assert (L : cnr g A < length (classes CT g)) by (unfold classes; rewrite map_length, CT_nth; auto). rewrite (rd_ok _ _ 0) by now rewrite map_length. rewrite (nth_map_ok _ _ _ []) by auto. now rewrite cclass.
  Qed.
  Lemma ofid_ok g A : g < ng -> In A (MC g) -> GetEQCOfID CT g (cid (cset A)) = Ret (Some (cnr g A)).
  Proof.
    intros Hg X. unfold GetEQCOfID. rewrite (eqc_ids_ok CT CT_world) by (now rewrite CT_len). cbn [bind]. destruct (idf_ok CT CT_world g) as (t & T1 & T2). now rewrite CT_len. rewrite T1. cbn [bind]. destruct (cnr_ok H groups g A X) as (C1 & C2).
    specialize (T2 (cnr g A)). rewrite CT_nth in T2 by auto. specialize (T2 C1). rewrite cclass in T2 by auto. unfold cid. rewrite (rd_ok _ _ None). now rewrite T2. destruct (Nat.lt_ge_cases (gid CT (cset A)) (length t)); auto. rewrite nth_overflow in T2 by auto. discriminate.
  Qed.
  Lemma cid_inj g g' A B : g < ng -> g' < ng -> In A (MC g) -> In B (MC g') -> cid (cset A) = cid (cset B) -> cset A = cset B.
  Proof. intros Hg Hg' X X' E. destruct (class_kind CT CT_world g (cset A)) as (m & K). now rewrite CT_len. now apply cset_class. destruct (class_kind CT CT_world g' (cset B)) as (m' & K'). now rewrite CT_len. now apply cset_class. now apply (gid_inj CT _ _ m m'). Qed.

  (** *** vertices *)
  Definition gv : Type := list nat * nat.
  Definition iv (g : nat) (a : gv) : nat := cvert g (fst a) (snd a).
  Definition isv (g : nat) (a : gv) : Prop := In (fst a) (MC g) /\ snd a < nv (fst a).
  Definition ps (a : gv) : nat := let q := hd 0 (cset (fst a)) in offs q (mnr q (fst a)) + snd a.
  Lemma hd_in E : sset E -> E <> [] -> In (hd 0 E) E. Proof. destruct E; [congruence|]. now left. Qed.
  Lemma lead_group g A : g < ng -> In A (MC g) -> let q := hd 0 (cset A) in q < ng /\ In A (MC q) /\ In q (cset A).
  Proof.
    intros Hg X q. assert (Y : In q (cset A)). { apply hd_in. apply cset_sset. intros E. pose proof (MC_gof H groups HW G_rank G_one g A Hg X) as Z. rewrite E in Z. destruct Z. }
    assert (Hq : q < ng) by (apply (cset_lt H groups HW G_rank G_all G_one g A); auto). split; auto. split; auto. now apply (MC_share H groups HW G_rank G_all G_one g).
  Qed.
  Lemma iv_ps g a : g < ng -> isv g a -> iv g a = base g (cnr g (fst a)) + ps a.
  Proof. intros Hg (X & L). unfold iv, cvert, ps. destruct (lead_group g (fst a) Hg X) as (Q1 & Q2 & _). destruct (offs_shared H groups HW G_rank G_all G_one V g (hd 0 (cset (fst a))) (fst a)) as (E & _); auto. rewrite E. lia. Qed.
  Lemma iv_range g a : isv g a -> base g (cnr g (fst a)) <= iv g a < base g (S (cnr g (fst a))) /\ iv g a < base g (CN g).
  Proof. intros (X & L). destruct (vlist_nth H groups V g (fst a) (snd a) X L) as (A & _ & B). split; auto. Qed.
  Lemma iv_inj g a b : isv g a -> isv g b -> iv g a = iv g b -> a = b.
  Proof. intros (X & L) (X' & L') E. destruct (cvert_inj H groups V g _ _ _ _ X L X' L' E). destruct a, b; cbn in *; congruence. Qed.
  Lemma base_mono g c c' : c <= c' -> base g c <= base g c'.
  Proof. intros L. induction L; auto. unfold base in *. rewrite seq_S, map_app, sum_app. cbn. lia. Qed.
  (** *** reading the class and position of a vertex *)
  Definition dsp_ok (g : nat) (dsp : list nat) : Prop := length dsp = CN g + 1 /\ forall c, c <= CN g -> nth c dsp 0 = base g c.
  Lemma off_base g c : c <= CN g -> off (map (cnt g) (seq 0 (CN g))) c = base g c.
  Proof. intros Hc. unfold off, base. rewrite firstn_map. replace (firstn c (seq 0 (CN g))) with (seq 0 c). reflexivity. rewrite (firstn_map_seq (seq 0 (CN g)) 0) by now rewrite seq_length. rewrite <- (map_id (seq 0 c)) at 1. apply map_ext_in. intros i X. apply in_seq in X. now rewrite seq_nth by lia. Qed.
  Lemma dsp_disps g dsp : dsp_ok g dsp -> dsp = disps_of (map (cnt g) (seq 0 (CN g))).
  Proof.
    intros (L & A). apply (nth_ext_eq _ _ 0). rewrite AggMapProofs.disps_length, map_length, seq_length. lia. intros i Hi. rewrite A by lia. rewrite AggMapProofs.disps_nth by (rewrite map_length, seq_length; lia). rewrite off_base by lia. reflexivity.
  Qed.
  Lemma class_of_vertex g dsp a : dsp_ok g dsp -> isv g a -> GetEQCOfVertex dsp (iv g a) = Ret (cnr g (fst a)).
  Proof.
    intros HD X. destruct (iv_range g a X) as ((B1 & B2) & B3). assert (C1 : cnr g (fst a) < CN g) by (apply cnr_ok, X). rewrite (dsp_disps g dsp HD). rewrite eqc_of_vertex.
    - f_equal. apply cls_unique. rewrite map_length, seq_length. auto. rewrite off_base by lia. rewrite (nth_map_ok _ _ _ 0) by now rewrite seq_length. rewrite seq_nth by auto. cbn [Nat.add]. split; auto. unfold base in B2. rewrite seq_S, map_app, sum_app in B2. unfold base. cbn in B2. lia.
    - rewrite <- off_all. rewrite map_length, seq_length, off_base by auto. auto.
  Qed.
  Lemma pos_of_vertex g dsp a : g < ng -> dsp_ok g dsp -> isv g a -> pos_in_class dsp (iv g a) = Ret (ps a).
  Proof. intros Hg HD X. unfold pos_in_class. rewrite (class_of_vertex g dsp a HD X). cbn [bind]. assert (C1 : cnr g (fst a) < CN g) by (apply cnr_ok, X). destruct HD as (L & A). rewrite (rd_ok _ _ 0) by lia. cbn [bind]. rewrite A by lia. rewrite iv_ps by auto. f_equal. lia. Qed.
  (** *** the order of two vertices is the same on all groups *)
  Lemma order_classes g g' A B : g < ng -> g' < ng -> In A (MC g) -> In B (MC g) -> In A (MC g') -> In B (MC g') -> cnr g A < cnr g B -> cnr g' A < cnr g' B.
  Proof.
    intros Hg Hg' XA XB XA' XB' HL. assert (LN := CT_len).
    assert (SC : forall D, In D (MC g) -> In D (MC g') -> same_class g (nth (cnr g D) (nth g CT []) []) g' (nth (cnr g' D) (nth g' CT []) [])).
    { intros D X X'. destruct (cnr_ok H groups g D X) as (C1 & C2). destruct (cnr_ok H groups g' D X') as (C1' & C2'). rewrite !CT_nth by auto. rewrite C2, C2'. apply same_members. 1,2: apply del_sset, cset_sset. rewrite !(members_crow H groups HW G_rank G_one) by auto. reflexivity. }
    apply (EQCProps.order_ok CT CT_world g g' (cnr g A) (cnr g B)); rewrite ?LN, ?CT_nth by auto; auto; try (now apply cnr_ok). all: rewrite <- ?CT_nth by auto; auto.
  Qed.
  Lemma order_shared g g' a b : g < ng -> g' < ng -> isv g a -> isv g b -> isv g' a -> isv g' b -> iv g a < iv g b -> iv g' a < iv g' b.
  Proof.
    intros Hg Hg' XA XB XA' XB' HL. destruct (Nat.lt_trichotomy (cnr g (fst a)) (cnr g (fst b))) as [L|[E|L]].
    - assert (L' : cnr g' (fst a) < cnr g' (fst b)) by (apply (order_classes g g'); auto; first [apply XA|apply XB|apply XA'|apply XB']). destruct (iv_range g' a XA'), (iv_range g' b XB'). pose proof (base_mono g' (S (cnr g' (fst a))) (cnr g' (fst b)) L'). lia.
    - assert (EC : cset (fst a) = cset (fst b)) by (apply (cnr_iff H groups HW G_rank G_one g); auto; first [apply XA|apply XB]). rewrite !iv_ps in HL by auto. rewrite !iv_ps by auto. rewrite E in HL. assert (E' : cnr g' (fst a) = cnr g' (fst b)) by (rewrite !cnr_cE; congruence). rewrite E'. lia.
    - exfalso. destruct (iv_range g a XA), (iv_range g b XB). pose proof (base_mono g (S (cnr g (fst b))) (cnr g (fst a)) L). lia.
  Qed.
  (** *** common class *)
  Definition isec (A B : list nat) : list nat := intersect_arrays (cset A) (cset B).
  Lemma isec_in A B q : In q (isec A B) <-> In q (cset A) /\ In q (cset B). Proof. apply isect_in; apply cset_sset. Qed.
  Lemma isec_sset A B : sset (isec A B). Proof. apply isect_sset; apply cset_sset. Qed.
  Lemma isec_same A B : cset A = cset B -> isec A B = cset A.
  Proof. intros E. apply sset_ext. apply isec_sset. apply cset_sset. intros x. rewrite isec_in, <- E. tauto. Qed.
  Lemma common_ok g A B D : g < ng -> In A (MC g) -> In B (MC g) -> In D (MC g) -> cset D = isec A B -> GetCommonEQC (nth g CT []) (cnr g A) (cnr g B) = Ret (Some (cE g (isec A B))).
  Proof.
    intros Hg XA XB XD E. rewrite CT_nth by auto. destruct (cnr_ok H groups g A XA) as (A1 & A2). destruct (cnr_ok H groups g B XB) as (B1 & B2). destruct (cnr_ok H groups g D XD) as (D1 & D2).
    assert (SS : forall d, In d (ctab_of g) -> increasing d) by (intros d Y; apply ctab_in in Y as (D' & _ & ->); apply del_sset, cset_sset).
    destruct (C41_common (ctab_of g) (cnr g A) (cnr g B) SS (ctab_nodup H groups g) A1 B1) as (o & EO & RO). rewrite EO. f_equal. rewrite A2, B2 in RO. rewrite <- E, <- cnr_cE.
    assert (PX : forall x, In x (crow g D) <-> In x (crow g A) /\ In x (crow g B)). { intros x. unfold crow. rewrite !in_del, E, isec_in. tauto. }
    destruct o as [k|]; cbn [row_of] in RO.
    - destruct RO as (K1 & K2). f_equal. apply (proj1 (NoDup_nth (ctab_of g) []) (ctab_nodup H groups g)); auto. rewrite D2. apply sset_ext. apply SS. now apply nth_In. apply del_sset, cset_sset. intros x. rewrite PX. apply K2.
    - exfalso. apply (RO (cnr g D) D1). intros x. rewrite D2. apply PX.
  Qed.
  Lemma master_ok g D : g < ng -> In D (MC g) -> is_master g (crow g D) = (g =? hd 0 (cset D)).
  Proof.
    intros Hg X. assert (Y := MC_gof H groups HW G_rank G_one g D Hg X). assert (S1 := cset_sset groups D). unfold crow. destruct (cset D) as [|h t]; [destruct Y|]. cbn [hd]. inversion S1 as [|? ? S2 F]; subst. rewrite Forall_forall in F. unfold del. cbn [filter]. destruct (Nat.eqb_spec h g) as [->|NE]; cbn [negb].
    - rewrite Nat.eqb_refl. fold (del g t). rewrite del_notin by (intros Z; specialize (F g Z); lia). destruct t as [|y t]; cbn [is_master]; auto. apply Nat.ltb_lt. apply F. now left.
    - cbn [is_master]. destruct Y as [|Y]; [congruence|]. specialize (F g Y). destruct (Nat.eqb_spec g h); [congruence|]. apply Nat.ltb_ge. lia.
  Qed.
  (** *** edges *)
  Definition ge : Type := gv * gv.
  Definition ise (g : nat) (e : ge) : Prop := isv g (fst e) /\ isv g (snd e).
  Definition sp (g : nat) (e : ge) : ge := if iv g (snd e) <? iv g (fst e) then (snd e, fst e) else e.
  Definition qd (e : ge) : quad := ((cid (cset (fst (fst e))), ps (fst e)), (cid (cset (fst (snd e))), ps (snd e))).
  Lemma sp_ise g e : ise g e -> ise g (sp g e). Proof. intros (A & B). unfold sp. destruct (_ <? _); split; auto. Qed.
  Lemma sp_shared g g' e : g < ng -> g' < ng -> ise g e -> ise g' e -> sp g e = sp g' e.
  Proof.
    intros Hg Hg' (A & B) (A' & B'). unfold sp. destruct (Nat.ltb_spec (iv g (snd e)) (iv g (fst e))) as [L|L].
    - destruct (Nat.ltb_spec (iv g' (snd e)) (iv g' (fst e))); auto. pose proof (order_shared g g' _ _ Hg Hg' B A B' A' L). lia.
    - destruct (Nat.ltb_spec (iv g' (snd e)) (iv g' (fst e))) as [L'|L']; auto. pose proof (order_shared g' g _ _ Hg' Hg B' A' B A L'). lia.
  Qed.
  Lemma qd_inj g e e' : g < ng -> ise g e -> ise g e' -> qd e = qd e' -> e = e'.
  Proof.
    intros Hg (A & B) (A' & B') E. injection E as E1 E2 E3 E4. assert (EA : cset (fst (fst e)) = cset (fst (fst e'))) by (apply (cid_inj g g); auto; first [apply A|apply A']). assert (EB : cset (fst (snd e)) = cset (fst (snd e'))) by (apply (cid_inj g g); auto; first [apply B|apply B']).
    destruct e as (a & b), e' as (a' & b'). cbn [fst snd] in *. f_equal; apply (iv_inj g); auto; rewrite !iv_ps by auto; rewrite !cnr_cE; congruence.
  Qed.
  Lemma quad_of_ok g dsp e : g < ng -> dsp_ok g dsp -> ise g e -> quad_of CT g dsp (cnr g (fst (fst e))) (cnr g (fst (snd e))) (iv g (fst e)) (iv g (snd e)) = Ret (qd e).
  Proof. intros Hg HD (A & B). unfold quad_of. rewrite (id_ok g (fst (fst e))) by (auto; apply A). cbn [bind]. rewrite (id_ok g (fst (snd e))) by (auto; apply B). cbn [bind]. rewrite (pos_of_vertex g dsp (fst e)) by auto. cbn [bind]. rewrite (pos_of_vertex g dsp (snd e)) by auto. reflexivity. Qed.
  Lemma end_of_ok g dsp a : g < ng -> dsp_ok g dsp -> isv g a -> end_of CT g dsp (cid (cset (fst a)), ps a) = Ret (iv g a).
  Proof.
    intros Hg HD X. unfold end_of. cbn [fst snd]. rewrite ofid_ok by (auto; apply X). cbn [bind]. assert (C1 : cnr g (fst a) < CN g) by (apply cnr_ok, X). destruct HD as (L & A). repeat (rewrite (rd_ok _ _ 0) by lia; cbn [bind]). rewrite !A by lia. rewrite <- iv_ps by auto. destruct (iv_range g a X) as (B & _). rewrite Nat.add_1_r. destruct (Nat.ltb_spec (iv g a) (base g (S (cnr g (fst a))))); auto. lia.
  Qed.
End GE.
