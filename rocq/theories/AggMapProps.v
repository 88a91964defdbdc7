(** C48: the vertex map of an agglomeration step (agglomerate_map.cpp:106-283), for any number of ranks. *)
From Verif Require Import Base EQCModel EQCProofs EQCProofs2 EQCProps AggMapModel AggMapProofs AggMapProofs2.
Local Open Scope nat_scope.

(** *** Specification *)
(** the numbers 0 .. total - 1 are split into consecutive classes of [n] 0, [n] 1, ... numbers: [v] is number [j] of class [e] *)
Definition total (n : list nat) : nat := fold_right Nat.add 0 n.
Definition vertex_in (n : list nat) (v e j : nat) : Prop := e < length n /\ j < nth e n 0 /\ v = total (firstn e n) + j.
(** the other ranks of class [e] of rank [r] *)
Definition others (H : list (list (list nat))) (r e : nat) : list nat := nth e (nth r H []) [].
(** number [v] of rank [r] and number [v'] of rank [r'] are one vertex: the same place in the same class.  [n] r: numbers per class on rank [r] *)
Definition same_vertex (H : list (list (list nat))) (n : nat -> list nat) (r v r' v' : nat) : Prop :=
  exists e e' j, vertex_in (n r) v e j /\ vertex_in (n r') v' e' j /\ same_class r (others H r e) r' (others H r' e').
(** rank [r] is the lowest of the ranks that have its vertex [v] *)
Definition owns (H : list (list (list nat))) (n : nat -> list nat) (r v : nat) : Prop :=
  exists e j, vertex_in (n r) v e j /\ forall x, In x (others H r e) -> r < x.
Definition fine_verts (W : list fine) (r : nat) : list nat := nverts (nth r W no_fine).
Definition agg_centre (W : list fine) (r a : nat) : nat := fst (nth a (aggs (nth r W no_fine)) (0, [])).
Definition agg_members (W : list fine) (r a : nat) : list nat := snd (nth a (aggs (nth r W no_fine)) (0, [])).
Definition n_aggs (W : list fine) (r : nat) : nat := length (aggs (nth r W no_fine)).
Definition agg_nr (W : list fine) (r v : nat) : option nat := nth v (v_to_agg (nth r W no_fine)) None.
(** what MapVerts asks for (its comment, :110-118): agglomerates of vertices the rank owns, whose ranks also have the centre *)
Record agglomeration (H : list (list (list nat))) (W : list fine) : Prop := {
  a_classes : forall r, r < length H -> length (fine_verts W r) = length (nth r H []);
  a_local : forall r, r < length H -> nth r H [] <> [] -> In [] (nth r H []);
  a_shared : forall r r' e e', r < length H -> r' < length H -> e < length (nth r H []) -> e' < length (nth r' H []) ->
    same_class r (others H r e) r' (others H r' e') -> nth e (fine_verts W r) 0 = nth e' (fine_verts W r') 0;
  a_map : forall r, r < length H -> length (v_to_agg (nth r W no_fine)) = total (fine_verts W r);
  a_agg : forall r v a, r < length H -> v < total (fine_verts W r) -> (agg_nr W r v = Some a <-> a < n_aggs W r /\ In v (agg_members W r a));
  a_range : forall r a v, r < length H -> a < n_aggs W r -> In v (agg_members W r a) -> v < total (fine_verts W r);
  a_centre : forall r a, r < length H -> a < n_aggs W r -> In (agg_centre W r a) (agg_members W r a);
  a_owned : forall r a v, r < length H -> a < n_aggs W r -> In v (agg_members W r a) -> owns H (fine_verts W) r v;
  a_smaller : forall r a v e j e' j', r < length H -> a < n_aggs W r -> In v (agg_members W r a) ->
    vertex_in (fine_verts W r) v e j -> vertex_in (fine_verts W r) (agg_centre W r a) e' j' -> incl (others H r e) (others H r e') }.
(** vertex [v] of rank [r] is in agglomerate [a] of its owner [m] *)
Definition in_agg (H : list (list (list nat))) (W : list fine) (r v m a : nat) : Prop :=
  exists u, m < length H /\ owns H (fine_verts W) m u /\ same_vertex H (fine_verts W) r v m u /\ agg_nr W m u = Some a.

(** *** Proofs *)
Lemma vin_cls n v e j : vertex_in n v e j <-> v < sum n /\ e = cls n v /\ j = v - off n (cls n v).
Proof.
  unfold vertex_in, total. split.
  - intros (A & B & C). change (fold_right Nat.add 0 (firstn e n)) with (off n e) in C. assert (E : cls n v = e) by (apply cls_unique; auto; lia). rewrite E. split; [|split; auto; lia]. subst v. now apply off_lt.
  - intros (A & -> & ->). destruct (cls_ok n v A) as (B & C). split; auto. split; [lia|]. change (fold_right Nat.add 0 (firstn (cls n v) n)) with (off n (cls n v)). lia.
Qed.
Section C48.
  Variable H : list (list (list nat)).
  Hypothesis HW : world H.
  Variable W : list fine.
  Hypothesis HA : agglomeration H W.
  Notation np := (length H).
  Notation F r := (nth r W no_fine).
  Notation nv r := (sum (nverts (F r))).
  Notation cl r := (classes H r).
  Lemma row_inc r e : r < np -> e < length (nth r H []) -> increasing (others H r e).
  Proof. intros Hr He. apply (w_row H HW r); auto. now apply nth_In. Qed.
  Lemma same_cl r e r' e' : r < np -> r' < np -> e < length (nth r H []) -> e' < length (nth r' H []) -> (same_class r (others H r e) r' (others H r' e') <-> nth e (cl r) [] = nth e' (cl r') []).
  Proof. intros. rewrite same_members by (apply row_inc; auto). rewrite !cl_nth by auto. reflexivity. Qed.
  Lemma local_0 r : r < np -> nth r H [] <> [] -> nth 0 (nth r H []) [] = [].
  Proof.
    intros Hr N. pose proof (a_local H W HA r Hr N) as I1. pose proof (w_sort H HW r Hr) as S1. destruct (nth r H []) as [|h l]; [congruence|]. cbn [nth]. destruct I1 as [->|I1]; auto. inversion S1 as [|? ? _ FF]; subst. rewrite Forall_forall in FF. specialize (FF _ I1). destruct h as [|x h]; auto. cbn in FF. discriminate.
  Qed.
  Lemma owns_master r v : r < np -> v < nv r -> (owns H (fine_verts W) r v <-> is_master r (nth (cls (nverts (F r)) v) (nth r H []) []) = true).
  Proof.
    intros Hr Hv. assert (L : cls (nverts (F r)) v < length (nth r H [])). { rewrite <- (a_classes H W HA r Hr). now apply cls_ok. } pose proof (row_inc r _ Hr L) as SI. unfold owns. split.
    - intros (e & j & V & M). apply vin_cls in V as (_ & E & _). subst e. unfold fine_verts, others in *. destruct (nth (cls (nverts (F r)) v) (nth r H []) []) as [|p d]; auto. cbn. apply Nat.ltb_lt. apply M. now left.
    - intros M. exists (cls (nverts (F r)) v), (v - off (nverts (F r)) (cls (nverts (F r)) v)). split. apply vin_cls. auto. intros x X. unfold others in *. destruct (nth (cls (nverts (F r)) v) (nth r H []) []) as [|p d]. destruct X. cbn in M. apply Nat.ltb_lt in M. pose proof (sset_hd d x p SI X). lia.
  Qed.
  Lemma rank_ok_all r : r < np -> rank_ok (nth r H []) r (F r).
  Proof.
    intros Hr. constructor.
    - now apply (a_classes H W HA).
    - now apply (a_map H W HA).
    - intros v a Hv. now apply (a_agg H W HA).
    - intros a v. now apply (a_range H W HA).
    - intros a. now apply (a_centre H W HA).
    - intros a v Ha Hv. assert (V : v < nv r) by now apply (a_range H W HA r a). split. apply owns_master; auto. now apply (a_owned H W HA r a).
      assert (C : cent (F r) a < nv r). { apply (a_range H W HA r a); auto. now apply (a_centre H W HA). }
      apply (a_smaller H W HA r a v _ (v - off (nverts (F r)) (cls (nverts (F r)) v)) _ (cent (F r) a - off (nverts (F r)) (cls (nverts (F r)) (cent (F r) a)))); auto; apply vin_cls; auto.
  Qed.
  Lemma counts_eq r q D : r < np -> q < np -> In D (cl r) -> In D (cl q) -> nth (idx D (cl r)) (nverts (F r)) 0 = nth (idx D (cl q)) (nverts (F q)) 0.
  Proof. intros Hr Hq HD HE. destruct (idx_in H r D HD) as (A & B), (idx_in H q D HE) as (C & E). apply (a_shared H W HA r q); auto. apply same_cl; auto. congruence. Qed.
  Notation HK := rank_ok_all.
  Lemma owner_unique r v m u : r < np -> m < np -> owns H (fine_verts W) m u -> same_vertex H (fine_verts W) r v m u -> v < nv r /\ m = vown H W r v /\ u = hv H W r v.
  Proof.
    intros Hr Hm (e1 & j1 & V1 & M1) (e & e' & j & V2 & V3 & SC). assert (Ow : owns H (fine_verts W) m u) by (exists e1, j1; auto). apply vin_cls in V1 as (U & E1 & J1), V2 as (V & E2 & J2), V3 as (_ & E3 & J3). unfold fine_verts in *. split; auto.
    assert (L : e < length (nth r H [])). { subst e. rewrite <- (a_classes H W HA r Hr). now apply cls_ok. } assert (L' : e' < length (nth m H [])). { subst e'. rewrite <- (a_classes H W HA m Hm). now apply cls_ok. }
    apply same_cl in SC; auto. apply owns_master in Ow; auto. rewrite <- E3 in Ow. apply (master_iff H HW m e' Hm L') in Ow. rewrite <- SC in Ow.
    assert (O : vown H W r v = m). { unfold vown, vcl. now rewrite <- E2. } split; auto. unfold hv. rewrite O. assert (VC : vcl H W r v = nth e' (cl m) []) by (unfold vcl; rewrite <- E2; auto). rewrite VC, (idx_nth H HW) by auto. rewrite <- J2. destruct (cls_ok _ _ U). subst e'. lia.
  Qed.
  Lemma owner_exists r v : r < np -> v < nv r -> vown H W r v < np /\ owns H (fine_verts W) (vown H W r v) (hv H W r v) /\ same_vertex H (fine_verts W) r v (vown H W r v) (hv H W r v).
  Proof.
    intros Hr Hv. destruct (hv_ok H HW W HK counts_eq r v Hr Hv) as (M1 & V1 & V2 & V3). split; auto. pose proof (vcl_in H W HK r v Hr Hv) as HD. destruct (master_facts H HW r _ Hr HD) as (_ & M2 & _ & _). fold (vown H W r v) in M2. destruct (idx_in H _ _ M2) as (I1 & I2).
    assert (L := cls_lt H W HK r v Hr Hv). split.
    - apply owns_master; auto. rewrite V2. apply (master_iff H HW _ _ M1 I1). now rewrite I2.
    - exists (cls (nverts (F r)) v), (idx (vcl H W r v) (cl (vown H W r v))), (v - off (nverts (F r)) (cls (nverts (F r)) v)). split; [apply vin_cls; auto|]. split; [|apply same_cl; auto].
      apply vin_cls. split; auto. split; auto. unfold fine_verts. rewrite V2. unfold hv. lia.
  Qed.
  Lemma in_agg_iff r v m a : r < np -> (in_agg H W r v m a <-> v < nv r /\ m = vown H W r v /\ hagg H W r v = Some a).
  Proof.
    intros Hr. split.
    - intros (u & Hm & O & S1 & A). destruct (owner_unique r v m u Hr Hm O S1) as (V & -> & ->). auto.
    - intros (V & -> & A). destruct (owner_exists r v Hr V) as (B & C & D). exists (hv H W r v). auto.
  Qed.
  (** the same coarse vertex *)
  Lemma same_coarse r v k m a r' v' k' m' a' : r < np -> r' < np -> v < nv r -> v' < nv r' -> gval H W r v = Some k -> gval H W r' v' = Some k' -> in_agg H W r v m a -> in_agg H W r' v' m' a' ->
    (same_vertex H (cnts H W) r k r' k' <-> m = m' /\ a = a').
  Proof.
    intros Hr Hr' Hv Hv' G G' I1 I2. apply in_agg_iff in I1 as (_ & E1 & A1); auto. apply in_agg_iff in I2 as (_ & E2 & A2); auto.
    destruct (val_lt H HW W HK local_0 counts_eq r v k Hr Hv G) as (b & B1 & B2 & B3 & B4 & B5 & B6 & B7). rewrite A1 in B1. injection B1 as <-. rewrite <- E1 in *.
    destruct (val_lt H HW W HK local_0 counts_eq r' v' k' Hr' Hv' G') as (b & B1' & B2' & B3' & B4' & B5' & B6' & B7'). rewrite A2 in B1'. injection B1' as <-. rewrite <- E2 in *.
    destruct (idx_in H _ _ B4) as (J1 & J2), (idx_in H _ _ B4') as (J1' & J2').
    split.
    - intros (e & e' & j & V1 & V2 & SC). apply vin_cls in V1 as (_ & X1 & Y1), V2 as (_ & X2 & Y2). rewrite B5 in X1, Y1. rewrite B5' in X2, Y2. subst e e'. apply same_cl in SC; auto. rewrite J2, J2' in SC.
      assert (EM : m = m'). { destruct (ccls_in H HW W HK m a B3 B2) as (_ & _ & <- & _). destruct (ccls_in H HW W HK m' a' B3' B2') as (_ & _ & <- & _). now rewrite SC. }
      split; auto. assert (P : pos a (gnum H W (ccls H W m a)) = pos a' (gnum H W (ccls H W m' a'))) by lia. clear E2. subst m'. destruct (gnum_ccls H HW W HK local_0 _ a B3 B2) as (_ & P1). destruct (gnum_ccls H HW W HK local_0 _ a' B3 B2') as (_ & P2).
      rewrite SC in P, P1. now apply (posb_inj Nat.eqb eqb_iff a a' _ P1 P2).
    - intros (EM & EA). clear E2. subst m' a'. exists (idx (ccls H W m a) (cl r)), (idx (ccls H W m a) (cl r')), (pos a (gnum H W (ccls H W m a))).
      split; [apply vin_cls; rewrite B5; split; auto; split; auto; lia|]. split; [apply vin_cls; rewrite B5'; split; auto; split; auto; lia|]. apply same_cl; auto. congruence.
  Qed.
  Lemma onto r k : r < np -> k < sum (cnts H W r) -> exists v, v < nv r /\ gval H W r v = Some k.
  Proof.
    intros Hr Hk. destruct (cls_ok _ _ Hk) as (L & B). set (e := cls (cnts H W r) k) in *. rewrite cnts_len in L. set (D := nth e (cl r) []). assert (HD : In D (cl r)) by now apply cl_in. destruct (master_facts H HW r D Hr HD) as (M1 & M2 & M3 & M4). set (m := hd 0 D) in *. destruct (idx_in H _ _ M2) as (I1 & I2).
    assert (CN : nth e (cnts H W r) 0 = length (gnum H W D)). { unfold cnts. rewrite (nth_indep _ 0 (length (gnum H W []))) by (rewrite map_length, cl_len; auto). now rewrite (map_nth (fun D => length (gnum H W D))). }
    rewrite CN in B. set (j := k - off (cnts H W r) e). set (a := nth j (gnum H W D) 0). assert (Ia : In a (gnum H W D)) by (apply nth_In; lia). pose proof Ia as Ja. unfold gnum in Ja. fold m in Ja. apply (num_in H HW W HK local_0) in Ja as (Ha & Hc); auto.
    assert (CD : ccls H W m a = D) by (unfold ccls; now rewrite Hc). pose proof (a_centre H W HA m a M1 Ha) as Hcm. change (agg_centre W m a) with (cent (F m) a) in Hcm. pose proof (a_range H W HA m a _ M1 Ha Hcm) as Hcv. change (fine_verts W m) with (nverts (F m)) in Hcv. destruct (cls_ok _ _ Hcv) as (C1 & C2). fold (ce (F m) a) in C1, C2.
    pose proof (counts_eq r m D Hr M1 HD M2) as EQ. assert (ID : idx D (cl r) = e) by (apply (idx_nth H HW r e); auto). rewrite ID in EQ. rewrite <- Hc in EQ. assert (Le : e < length (nverts (F r))). { pose proof (a_classes H W HA r Hr) as X. unfold fine_verts in X. lia. }
    set (v := off (nverts (F r)) e + (cent (F m) a - off (nverts (F m)) (ce (F m) a))). assert (V : v < nv r) by (apply off_lt; auto; lia). assert (CV : cls (nverts (F r)) v = e) by (apply cls_unique; auto; unfold v; lia).
    assert (VC : vcl H W r v = D) by (unfold vcl; now rewrite CV). assert (VO : vown H W r v = m) by (unfold vown; now rewrite VC).
    assert (HV : hv H W r v = cent (F m) a). { unfold hv. rewrite VO, VC, CV, <- Hc. unfold v. lia. }
    exists v. split; auto. unfold gval. assert (HG : hagg H W r v = Some a). { unfold hagg. rewrite VO, HV. apply (a_agg H W HA m); auto. } rewrite HG, VO. cbv zeta. rewrite CD, ID. f_equal. unfold a. rewrite (posb_nth Nat.eqb eqb_iff). lia. unfold gnum. now apply (num_nodup H HW W HK local_0). lia.
  Qed.
  Lemma coarse_class r v k m a : r < np -> in_agg H W r v m a -> gval H W r v = Some k -> exists e j e' j', vertex_in (cnts H W r) k e j /\ vertex_in (fine_verts W m) (agg_centre W m a) e' j' /\ same_class r (others H r e) m (others H m e').
  Proof.
    intros Hr I1 G. apply in_agg_iff in I1 as (V & E & A); auto. destruct (val_lt H HW W HK local_0 counts_eq r v k Hr V G) as (b & B1 & B2 & B3 & B4 & B5 & B6 & B7). rewrite A in B1. injection B1 as <-. rewrite <- E in *. destruct (idx_in H _ _ B4) as (J1 & J2). destruct (ccls_in H HW W HK m a B3 B2) as (C1 & C2 & C3 & C4).
    exists (idx (ccls H W m a) (cl r)), (k - off (cnts H W r) (idx (ccls H W m a) (cl r))), (ce (F m) a), (agg_centre W m a - off (nverts (F m)) (ce (F m) a)).
    split; [apply vin_cls; rewrite B5; auto|]. split. { apply vin_cls. split; auto. apply (a_range H W HA m a _ B3 B2 (a_centre H W HA m a B3 B2)). } apply same_cl; auto.
  Qed.
  Lemma coarse_counts r r' e e' : r < np -> r' < np -> e < length (nth r H []) -> e' < length (nth r' H []) -> same_class r (others H r e) r' (others H r' e') -> nth e (cnts H W r) 0 = nth e' (cnts H W r') 0.
  Proof.
    intros Hr Hr' He He' SC. apply same_cl in SC; auto. assert (X : forall q d, d < length (nth q H []) -> nth d (cnts H W q) 0 = length (gnum H W (nth d (cl q) []))). { intros q d Hd. unfold cnts. rewrite (nth_indep _ 0 (length (gnum H W []))) by (rewrite map_length, cl_len; auto). now rewrite (map_nth (fun D => length (gnum H W D))). }
    rewrite !X by auto. now rewrite SC.
  Qed.
End C48.

(** *** C48 *)
(** On every rank the map sends exactly the vertices that are in no agglomerate (of the owner of the vertex) to -1, two vertices to the same number iff they are in the same agglomerate,
    and it reaches exactly the numbers below the number of coarse vertices.  Numbers of different ranks are the same coarse vertex iff they stand for the same agglomerate;
    a coarse vertex is in the class of the centre; ranks agree on the number of coarse vertices of a class *)
Theorem C48_vertex_map : forall W0 H W, consistent W0 -> EQCHierarchy W0 = Ret H -> agglomeration H W ->
  exists (vmap : nat -> list (option nat)) (cv : nat -> list nat),
    (forall r, r < length H -> MapVerts H W r = Ret (vmap r, cv r) /\ length (vmap r) = total (fine_verts W r) /\ length (cv r) = length (nth r H [])) /\
    (forall r v, r < length H -> v < total (fine_verts W r) -> (nth v (vmap r) None = None <-> ~ exists m a, in_agg H W r v m a)) /\
    (forall r v w m a m' a', r < length H -> in_agg H W r v m a -> in_agg H W r w m' a' -> (nth v (vmap r) None = nth w (vmap r) None <-> m = m' /\ a = a')) /\
    (forall r k, r < length H -> (k < total (cv r) <-> exists v, v < total (fine_verts W r) /\ nth v (vmap r) None = Some k)) /\
    (forall r v k m a r' v' k' m' a', r < length H -> r' < length H -> in_agg H W r v m a -> in_agg H W r' v' m' a' -> nth v (vmap r) None = Some k -> nth v' (vmap r') None = Some k' ->
      (same_vertex H cv r k r' k' <-> m = m' /\ a = a')) /\
    (forall r v k m a, r < length H -> in_agg H W r v m a -> nth v (vmap r) None = Some k ->
      exists e j e' j', vertex_in (cv r) k e j /\ vertex_in (fine_verts W m) (agg_centre W m a) e' j' /\ same_class r (others H r e) m (others H m e')) /\
    (forall r r' e e', r < length H -> r' < length H -> e < length (nth r H []) -> e' < length (nth r' H []) -> same_class r (others H r e) r' (others H r' e') -> nth e (cv r) 0 = nth e' (cv r') 0).
Proof.
  intros W0 H W HC E HA. destruct (hierarchy_world W0 HC) as (H' & E' & L & HW & _). assert (H' = H) by congruence. subst H'. clear E' HC.
  assert (HK := rank_ok_all H HW W HA). assert (H0 := local_0 H HW W HA). assert (CE := counts_eq H HW W HA).
  assert (NV : forall r v, v < total (fine_verts W r) -> nth v (map (gval H W r) (seq 0 (total (fine_verts W r)))) None = gval H W r v).
  { intros r v Hv. rewrite (nth_indep _ None (gval H W r 0)) by (rewrite map_length, seq_length; auto). rewrite (map_nth (gval H W r)), seq_nth by auto. reflexivity. }
  assert (IA := fun r v m a (Hr : r < length H) => in_agg_iff H HW W HA r v m a Hr).
  exists (fun r => map (gval H W r) (seq 0 (total (fine_verts W r)))), (cnts H W).
  split. { intros r Hr. split. now apply (MapVerts_ok H HW W HK H0 CE). split. now rewrite map_length, seq_length. apply cnts_len. }
  split. { intros r v Hr Hv. rewrite NV by auto. split.
    - intros G (m & a & I1). apply IA in I1 as (_ & _ & A); auto. unfold gval in G. rewrite A in G. discriminate.
    - intros N. unfold gval. destruct (hagg H W r v) as [a|] eqn:EA; auto. exfalso. apply N. exists (vown H W r v), a. apply IA; auto. }
  split. { intros r v w m a m' a' Hr I1 I2. pose proof I1 as J1. pose proof I2 as J2. apply IA in J1 as (V1 & O1 & A1), J2 as (V2 & O2 & A2); auto. rewrite !NV by auto.
    destruct (gval H W r v) as [k|] eqn:G1; [|unfold gval in G1; rewrite A1 in G1; discriminate]. destruct (gval H W r w) as [k'|] eqn:G2; [|unfold gval in G2; rewrite A2 in G2; discriminate].
    rewrite <- (same_coarse H HW W HA r v k m a r w k' m' a') by auto. split.
    - intros X. injection X as <-. destruct (val_lt H HW W HK H0 CE r v k Hr V1 G1) as (b & _ & _ & _ & B4 & B5 & B6 & _). exists (cls (cnts H W r) k), (cls (cnts H W r) k), (k - off (cnts H W r) (cls (cnts H W r) k)). split; [now apply vin_cls|]. split; [now apply vin_cls|]. intros x. tauto.
    - intros (e & e' & j & X1 & X2 & SC). f_equal. apply vin_cls in X1 as (P1 & P2 & P3), X2 as (Q1 & Q2 & Q3). destruct (cls_ok _ _ P1) as (Le & R1), (cls_ok _ _ Q1) as (Le' & R2). rewrite cnts_len in Le, Le'. rewrite <- P2 in P3, R1, Le. rewrite <- Q2 in Q3, R2, Le'. apply same_cl in SC; auto. assert (EE : e = e'). { rewrite <- (idx_nth H HW r e), <- (idx_nth H HW r e'); auto. now rewrite SC. } rewrite <- EE in *. lia. }
  split. { intros r k Hr. split.
    - intros Hk. destruct (onto H HW W HA r k Hr Hk) as (v & V & G). exists v. split; auto. now rewrite NV.
    - intros (v & V & G). rewrite NV in G by auto. destruct (val_lt H HW W HK H0 CE r v k Hr V G) as (b & _ & _ & _ & _ & _ & B6 & _). exact B6. }
  split. { intros r v k m a r' v' k' m' a' Hr Hr' I1 I2 G1 G2. pose proof I1 as J1. pose proof I2 as J2. apply IA in J1 as (V1 & O1 & A1), J2 as (V2 & O2 & A2); auto. rewrite NV in G1, G2 by auto. now apply (same_coarse H HW W HA r v k m a r' v' k' m' a'). }
  split. { intros r v k m a Hr I1 G. pose proof I1 as J1. apply IA in J1 as (V1 & O1 & A1); auto. rewrite NV in G by auto. now apply (coarse_class H HW W HA r v k m a). }
  intros r r' e e'. now apply (coarse_counts H HW W).
Qed.
Print Assumptions C48_vertex_map.

(** *** A concrete case: three ranks, an agglomerate that reaches over three classes, a vertex without agglomerate *)
Definition M3 : list (list (list nat)) := [[[]; [1]; [1; 2]]; [[]; [0]; [0; 2]]; [[]; [0; 1]]].
Definition A3 : list fine :=
  [{| nverts := [2; 2; 1]; aggs := [(4, [1; 3; 4]); (2, [2]); (0, [0])]; v_to_agg := [Some 2; Some 0; Some 1; Some 0; Some 0] |};
   {| nverts := [2; 2; 1]; aggs := [(0, [0])]; v_to_agg := [Some 0; None; None; None; None] |};
   {| nverts := [2; 1]; aggs := [(1, [1; 0])]; v_to_agg := [Some 0; Some 0; None] |}].
Example M3_ok : consistent M3 /\ EQCHierarchy M3 = Ret M3.
Proof.
  split; [|vm_compute; reflexivity]. apply consistent_tables. constructor.
  - intros r d Hr Hd. do 3 (destruct r as [|r]; [cbn in Hd; repeat (destruct Hd as [<-|Hd]; [split; [repeat constructor|split; [cbn; lia|intros q; cbn; lia]]|]); destruct Hd|]). cbn in Hr. lia.
  - intros r Hr. do 3 (destruct r as [|r]; [cbn; repeat constructor; cbn; intuition discriminate|]). cbn in Hr. lia.
  - intros r d q Hr Hd Hq. do 3 (destruct r as [|r]; [cbn in Hd; intuition (subst; cbn in Hq; intuition (subst; vm_compute; auto))|]). cbn in Hr. lia.
Qed.
Ltac small_nat H := cbn in H; match type of H with ?x < _ => repeat (destruct x as [|x]; [|try (exfalso; lia)]) end.
Example A3_ok : agglomeration M3 A3.
Proof.
  constructor.
  - intros r Hr. do 3 (destruct r as [|r]; [reflexivity|]). cbn in Hr. lia.
  - intros r Hr _. do 3 (destruct r as [|r]; [cbn; auto|]). cbn in Hr. lia.
  - intros r r' e e' Hr Hr' He He' SC.
    apply same_members in SC; [|(do 3 (destruct r as [|r]; [do 3 (destruct e as [|e]; [first [exfalso; cbn in He; lia|repeat constructor]|]); cbn in He; lia|])); cbn in Hr; lia|(do 3 (destruct r' as [|r']; [do 3 (destruct e' as [|e']; [first [exfalso; cbn in He'; lia|repeat constructor]|]); cbn in He'; lia|])); cbn in Hr'; lia].
    do 3 (destruct r as [|r]; [do 3 (destruct e as [|e]; [(do 3 (destruct r' as [|r']; [do 3 (destruct e' as [|e']; [first [exfalso; cbn in He, He'; lia|reflexivity|vm_compute in SC; discriminate SC]|]); cbn in He'; lia|])); cbn in Hr'; lia|]); cbn in He; lia|]). cbn in Hr; lia.
  - intros r Hr. do 3 (destruct r as [|r]; [reflexivity|]). cbn in Hr. lia.
  - intros r v a Hr Hv. unfold agg_nr, n_aggs, agg_members. do 3 (destruct r as [|r]; [do 5 (destruct v as [|v]; [do 3 (destruct a as [|a]; [cbn; intuition (try congruence; try lia)|]); cbn; intuition (try congruence; try lia)|]); cbn in Hv; lia|]). cbn in Hr; lia.
  - intros r a v Hr Ha Hv. unfold n_aggs, agg_members in *. do 3 (destruct r as [|r]; [do 3 (destruct a as [|a]; [cbn in *; lia|]); cbn in Ha; lia|]). cbn in Hr; lia.
  - intros r a Hr Ha. unfold n_aggs, agg_members, agg_centre in *. do 3 (destruct r as [|r]; [do 3 (destruct a as [|a]; [cbn in *; lia|]); cbn in Ha; lia|]). cbn in Hr; lia.
  - intros r a v Hr Ha Hv. unfold n_aggs, agg_members, owns in *.
    assert (X : forall n l, (exists e j, (e < length (n r) /\ j < nth e (n r) 0 /\ v = total (firstn e (n r)) + j) /\ (forall x, In x (l r e) -> r < x)) -> exists e j, vertex_in (n r) v e j /\ forall x, In x (l r e) -> r < x) by (intros n l (e & j & X); exists e, j; exact X). apply X. clear X.
    do 3 (destruct r as [|r]; [do 3 (destruct a as [|a]; [cbn in Hv; intuition (subst v; first [exists 0, 0; cbn; intuition lia | exists 0, 1; cbn; intuition lia | exists 1, 0; cbn; intuition lia | exists 1, 1; cbn; intuition lia | exists 2, 0; cbn; intuition lia])|]); cbn in Ha; lia|]). cbn in Hr; lia.
  - intros r a v e j e' j' Hr Ha Hv V V'. apply vin_cls in V as (_ & -> & _), V' as (_ & -> & _). unfold n_aggs, agg_members, agg_centre, others in *.
    do 3 (destruct r as [|r]; [do 3 (destruct a as [|a]; [cbn in Hv; intuition (subst v; intros x X; vm_compute in X; vm_compute; tauto)|]); cbn in Ha; lia|]). cbn in Hr; lia.
Qed.
Example C48_ex : MapVerts M3 A3 0 = Ret ([Some 0; Some 2; Some 1; Some 2; Some 2], [1; 1; 1]) /\
  MapVerts M3 A3 1 = Ret ([Some 0; None; Some 1; Some 2; Some 2], [1; 1; 1]) /\ MapVerts M3 A3 2 = Ret ([Some 0; Some 0; Some 1], [1; 1]).
Proof. vm_compute. auto. Qed.
