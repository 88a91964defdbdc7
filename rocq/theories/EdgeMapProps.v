(** C49: the edge map of an agglomeration step (agglomerate_map.cpp:469-957), for any number of ranks. *)
From Verif Require Import Base EQCModel ReduceModel EQCProofs EQCProofs2 EQCProofs3 EQCProps AggMapModel AggMapProofs AggMapProofs2 AggMapProps EdgeMapModel EdgeMapProofs EdgeMapProofs2 EdgeMapProofs3 EdgeMapProofs4 EdgeMapProofs5.
Local Open Scope nat_scope.

(** *** Specification; total, vertex_in, others, same_vertex: AggMapProps *)
Definition rank_mesh (RS : list emesh) (r : nat) : emesh := nth r RS no_emesh.
Definition n_classes (H : list (list (list nat))) (r : nat) : nat := length (nth r H []).
(** an edge of rank [r] and an edge of rank [q] join the same two vertices *)
Definition same_edge (H : list (list (list nat))) (n : nat -> list nat) (r : nat) (e : nat * nat) (q : nat) (e' : nat * nat) : Prop :=
  (same_vertex H n r (fst e) q (fst e') /\ same_vertex H n r (snd e) q (snd e')) \/ (same_vertex H n r (fst e) q (snd e') /\ same_vertex H n r (snd e) q (fst e')).
(** the fine mesh; [n] r: numbers of vertices per class on rank [r] *)
Record fine_mesh (H : list (list (list nat))) (n : nat -> list nat) (RS : list emesh) : Prop := {
  m_classes : forall r, r < length H -> length (n r) = n_classes H r /\ length (eedges (rank_mesh RS r)) = n_classes H r /\ length (xedges (rank_mesh RS r)) = n_classes H r;
  m_local : forall r, r < length H -> nth r H [] <> [] -> In [] (nth r H []);
  m_ends : forall r u v, r < length H -> In (u, v) (all_edges (rank_mesh RS r)) -> u < total (n r) /\ v < total (n r) /\ u <> v;
  m_simple : forall r i j u v u' v', r < length H -> nth_error (all_edges (rank_mesh RS r)) i = Some (u, v) -> nth_error (all_edges (rank_mesh RS r)) j = Some (u', v') ->
    (u = u' /\ v = v') \/ (u = v' /\ v = u') -> i = j;
  m_ranks : forall r e u v x eu ju, r < length H -> In (u, v) (nth e (eedges (rank_mesh RS r)) [] ++ nth e (xedges (rank_mesh RS r)) []) -> x = u \/ x = v -> vertex_in (n r) x eu ju -> incl (others H r e) (others H r eu);
  m_shared : forall r q e e', r < length H -> q < length H -> e < n_classes H r -> e' < n_classes H q -> same_class r (others H r e) q (others H q e') ->
    Forall2 (fun a b => same_edge H n r a q b) (nth e (eedges (rank_mesh RS r)) []) (nth e' (eedges (rank_mesh RS q)) []) /\
    Forall2 (fun a b => same_edge H n r a q b) (nth e (xedges (rank_mesh RS r)) []) (nth e' (xedges (rank_mesh RS q)) []) }.
Definition coarse_verts (RS : list emesh) (r : nat) : list nat := ecv (rank_mesh RS r).
Definition image (RS : list emesh) (r v : nat) : option nat := nth v (evmap (rank_mesh RS r)) None.
(** the vertex map: one vertex has the same image on all ranks, the ranks of a vertex have its image *)
Record vertex_map (H : list (list (list nat))) (n : nat -> list nat) (RS : list emesh) : Prop := {
  v_length : forall r, r < length H -> length (evmap (rank_mesh RS r)) = total (n r) /\ length (coarse_verts RS r) = n_classes H r;
  v_range : forall r v k, r < length H -> image RS r v = Some k -> k < total (coarse_verts RS r);
  v_same : forall r v q w, r < length H -> q < length H -> same_vertex H n r v q w ->
    match image RS r v, image RS q w with None, None => True | Some k, Some k' => same_vertex H (coarse_verts RS) r k q k' | _, _ => False end;
  v_ranks : forall r v k e j e' j', r < length H -> image RS r v = Some k -> vertex_in (n r) v e j -> vertex_in (coarse_verts RS r) k e' j' -> incl (others H r e) (others H r e');
  v_counts : forall r q e e', r < length H -> q < length H -> e < n_classes H r -> e' < n_classes H q -> same_class r (others H r e) q (others H q e') -> nth e (coarse_verts RS r) 0 = nth e' (coarse_verts RS q) 0 }.
(** coarse edge [k] is number [j] of the edges within (cross = false) or between (cross = true) classes of class [e]: first all edges within classes, class by class, then all edges between classes *)
Definition edge_at (nE nX : list nat) (k e : nat) (cross : bool) (j : nat) : Prop :=
  if cross then exists i, k = total nE + i /\ vertex_in nX i e j else vertex_in nE k e j.
(** what MapEdges gives: edge map, coarse edges, their numbers per class *)
Record edge_map (H : list (list (list nat))) (RS : list emesh) (em : nat -> list (option nat)) (ce : nat -> list (nat * nat)) (nE nX : nat -> list nat) : Prop := {
  (** an edge vanishes iff one of its vertices does or both become one vertex; otherwise it becomes the edge that joins the images of its vertices *)
  em_zero : forall r i u v, r < length H -> nth_error (all_edges (rank_mesh RS r)) i = Some (u, v) ->
    (nth i (em r) None = None <-> image RS r u = None \/ image RS r v = None \/ image RS r u = image RS r v);
  em_ends : forall r i u v k, r < length H -> nth_error (all_edges (rank_mesh RS r)) i = Some (u, v) -> nth i (em r) None = Some k ->
    exists a b, nth_error (ce r) k = Some (a, b) /\ ((image RS r u = Some a /\ image RS r v = Some b) \/ (image RS r u = Some b /\ image RS r v = Some a));
  (** coarse edges join two vertices, no two of them the same *)
  em_simple : forall r i a b, r < length H -> nth_error (ce r) i = Some (a, b) -> a < b /\ b < total (coarse_verts RS r) /\ forall j, nth_error (ce r) j = Some (a, b) -> j = i;
  (** the class of a coarse edge: the ranks that have both its vertices *)
  em_class : forall r k a b ea ja eb jb, r < length H -> nth_error (ce r) k = Some (a, b) -> vertex_in (coarse_verts RS r) a ea ja -> vertex_in (coarse_verts RS r) b eb jb ->
    exists e cross j, edge_at (nE r) (nX r) k e cross j /\ (cross = true <-> ea <> eb) /\ forall x, In x (others H r e) <-> In x (others H r ea) /\ In x (others H r eb);
  (** a coarse edge is the image of an edge on one of its ranks *)
  em_source : forall r k e cross j, r < length H -> k < length (ce r) -> edge_at (nE r) (nX r) k e cross j ->
    exists q i k', (q = r \/ In q (others H r e)) /\ nth i (em q) None = Some k' /\ same_edge H (coarse_verts RS) r (nth k (ce r) (0, 0)) q (nth k' (ce q) (0, 0));
  (** the ranks agree *)
  em_counts : forall r q e e', r < length H -> q < length H -> e < n_classes H r -> e' < n_classes H q -> same_class r (others H r e) q (others H q e') -> nth e (nE r) 0 = nth e' (nE q) 0 /\ nth e (nX r) 0 = nth e' (nX q) 0;
  em_same : forall r q k k' e e' cross cross' j j', r < length H -> q < length H -> edge_at (nE r) (nX r) k e cross j -> edge_at (nE q) (nX q) k' e' cross' j' ->
    (same_edge H (coarse_verts RS) r (nth k (ce r) (0, 0)) q (nth k' (ce q) (0, 0)) <-> same_class r (others H r e) q (others H q e') /\ cross = cross' /\ j = j') }.

(** *** Proofs *)
Lemma nodup_map_in {A B} (f : A -> B) l : (forall x y, In x l -> In y l -> f x = f y -> x = y) -> NoDup l -> NoDup (map f l).
Proof.
  induction l as [|x l IH]; intros HI ND; cbn [map]; constructor; inversion ND as [|? ? N1 N2]; subst.
  - intros X. apply in_map_iff in X as (y & E & Hy). apply N1. rewrite (HI x y); auto. now left. now right.
  - apply IH; auto. intros; apply HI; auto; now right.
Qed.
Section C49.
  Variable H : list (list (list nat)).
  Hypothesis HW : world H.
  Hypothesis HC : forall r a b, r < length H -> In a (nth r H []) -> In b (nth r H []) -> exists c, In c (nth r H []) /\ increasing c /\ forall x, In x c <-> In x a /\ In x b.
  Variable n : nat -> list nat.
  Variable RS : list emesh.
  Hypothesis HM : fine_mesh H n RS.
  Hypothesis HV : vertex_map H n RS.
  Notation np := (length H).
  Notation cl r := (classes H r).
  Notation nq r := (length (nth r H [])).
  Notation Rr r := (nth r RS no_emesh).
  Notation cv := (coarse_verts RS).
  Lemma scls r e q e' : r < np -> q < np -> e < nq r -> e' < nq q -> (same_class r (others H r e) q (others H q e') <-> nth e (cl r) [] = nth e' (cl q) []).
  Proof. apply scl. exact HW. Qed.
  Lemma sv_iff (N : nat -> list nat) r v q w : r < np -> q < np -> length (N r) = nq r -> length (N q) = nq q ->
    (same_vertex H N r v q w <-> v < sum (N r) /\ w < sum (N q) /\ nth (cls (N r) v) (cl r) [] = nth (cls (N q) w) (cl q) [] /\ v - off (N r) (cls (N r) v) = w - off (N q) (cls (N q) w)).
  Proof.
    intros Hr Hq Lr Lq. split.
    - intros (e & e' & j & V1 & V2 & SC). apply vin_cls in V1 as (A & -> & ->), V2 as (B & -> & C). split; auto. split; auto. split; auto. apply scls in SC; auto. rewrite <- Lr. now apply cls_ok. rewrite <- Lq. now apply cls_ok.
    - intros (A & B & C & D). exists (cls (N r) v), (cls (N q) w), (v - off (N r) (cls (N r) v)). split; [apply vin_cls; auto|]. split; [apply vin_cls; auto|]. apply scls; auto. rewrite <- Lr. now apply cls_ok. rewrite <- Lq. now apply cls_ok.
  Qed.
  Lemma cvl r : r < np -> length (ecv (Rr r)) = nq r. Proof. intros Hr. apply (v_length H n RS HV r Hr). Qed.
  Lemma edges_ok_all r : r < np -> edges_ok (nq r) (Rr r).
  Proof.
    intros Hr. destruct (m_classes H n RS HM r Hr) as (_ & A & B). destruct (v_length H n RS HV r Hr) as (C & D). constructor; auto.
    - intros u v I1. destruct (m_ends H n RS HM r u v Hr I1) as (X & Y & Z). unfold rank_mesh in C. rewrite C. auto.
    - intros i j u v u' v'. now apply (m_simple H n RS HM r).
    - intros v k E. now apply (v_range H n RS HV r v).
  Qed.
  Notation HE := edges_ok_all.
  Lemma inter_all r c c' : r < np -> c < nq r -> c' < nq r -> In (inter (nth c (cl r) []) (nth c' (cl r) [])) (cl r).
  Proof.
    intros Hr Hc Hc'. destruct (HC r (nth c (nth r H []) []) (nth c' (nth r H []) []) Hr) as (d & D1 & D2 & D3); try now apply nth_In. destruct (w_row H HW r d Hr D1) as (_ & N1 & _). unfold classes at 3. apply in_map_iff. exists d. split; auto. rewrite !cl_nth by auto. apply sset_ext. now apply members_sset. apply inter_sset. apply members_sset. apply (w_row H HW r); auto. now apply nth_In.
    intros x. rewrite inter_in, !in_members, D3. destruct (w_row H HW r _ Hr (nth_In _ [] Hc)) as (_ & N2 & _). destruct (w_row H HW r _ Hr (nth_In _ [] Hc')) as (_ & N3 & _). intuition.
  Qed.
  Lemma loc0 r : r < np -> nth r H [] <> [] -> nth 0 (nth r H []) [] = [].
  Proof.
    intros Hr N. pose proof (m_local H n RS HM r Hr N) as I1. pose proof (w_sort H HW r Hr) as S1. destruct (nth r H []) as [|h l]; [congruence|]. cbn [nth]. destruct I1 as [->|I1]; auto. inversion S1 as [|? ? _ FF]; subst. rewrite Forall_forall in FF. specialize (FF _ I1). destruct h as [|x h]; auto. cbn in FF. discriminate.
  Qed.
  Lemma cv_eq r q D : r < np -> q < np -> In D (cl r) -> In D (cl q) -> nth (idx D (cl r)) (ecv (Rr r)) 0 = nth (idx D (cl q)) (ecv (Rr q)) 0.
  Proof. intros Hr Hq HD HD'. destruct (idx_in H r D HD) as (A & B), (idx_in H q D HD') as (C & E). apply (v_counts H n RS HV r q); auto. apply scls; auto. congruence. Qed.
  Notation gvr := (gv H RS).
  Notation tk r := (tupk (Rr r) (gq H r)).
  Notation isk := (iskey RS).
  Lemma sv_gv r v q w : r < np -> q < np -> (same_vertex H cv r v q w <-> v < sum (ecv (Rr r)) /\ w < sum (ecv (Rr q)) /\ gvr r v = gvr q w).
  Proof.
    intros Hr Hq. rewrite sv_iff by (auto; apply cvl; auto). unfold coarse_verts, rank_mesh. split; intros (A & B & C).
    - split; auto. split; auto. destruct C as (C & E). unfold gv, vset. rewrite C, E. reflexivity.
    - split; auto. split; auto. pose proof (gv_set H HW RS HE r q v w Hr Hq A B C) as ES. split; auto. unfold gv in C. injection C. auto.
  Qed.
  (** edges of a class *)
  Lemma edge_class r id u v : r < np -> nth_error (all_edges (Rr r)) id = Some (u, v) -> feq (Rr r) id < nq r /\ In (u, v) (nth (feq (Rr r) id) (eedges (Rr r)) [] ++ nth (feq (Rr r) id) (xedges (Rr r)) []).
  Proof.
    intros Hr E. assert (Lid : id < length (all_edges (Rr r))) by (apply nth_error_Some; congruence). pose proof (feq_lt _ _ (HE r Hr) id Lid) as Lq. split; auto. apply in_or_app. destruct (m_classes H n RS HM r Hr) as (_ & LE & LX).
    assert (LLE : length (map (@length (nat * nat)) (eedges (Rr r))) = nq r) by now rewrite map_length. assert (LLX : length (map (@length (nat * nat)) (xedges (Rr r))) = nq r) by now rewrite map_length.
    unfold feq in *. destruct (Nat.ltb_spec id (nE (Rr r))) as [L|L].
    - left. unfold nE in L. destruct (cls_ok _ _ L) as (A & B). set (e := cls (map (@length (nat * nat)) (eedges (Rr r))) id) in *. rewrite len_nth in B. rewrite map_length in A. pose proof (nth_concat (eedges (Rr r)) e (id - off (map (@length (nat * nat)) (eedges (Rr r))) e) (0, 0) A ltac:(lia)) as NC.
      replace (off (map (@length (nat * nat)) (eedges (Rr r))) e + (id - off (map (@length (nat * nat)) (eedges (Rr r))) e)) with id in NC by lia. unfold all_edges in E. rewrite nth_error_app1 in E by (apply nth_error_Some; congruence). rewrite NC in E. injection E as <-. apply nth_In. lia.
    - right. assert (NL : length (concat (eedges (Rr r))) = nE (Rr r)) by (unfold nE; now rewrite <- sum_length). assert (LX2 : id - nE (Rr r) < sum (map (@length (nat * nat)) (xedges (Rr r)))). { rewrite sum_length. unfold all_edges in Lid. rewrite app_length in Lid. lia. }
      destruct (cls_ok _ _ LX2) as (A & B). set (e := cls (map (@length (nat * nat)) (xedges (Rr r))) (id - nE (Rr r))) in *. rewrite len_nth in B. rewrite map_length in A. pose proof (nth_concat (xedges (Rr r)) e (id - nE (Rr r) - off (map (@length (nat * nat)) (xedges (Rr r))) e) (0, 0) A ltac:(lia)) as NC.
      replace (off (map (@length (nat * nat)) (xedges (Rr r))) e + (id - nE (Rr r) - off (map (@length (nat * nat)) (xedges (Rr r))) e)) with (id - nE (Rr r)) in NC by lia. unfold all_edges in E. rewrite nth_error_app2 in E by lia. rewrite NL, NC in E. injection E as <-. apply nth_In. lia.
  Qed.
  Lemma okey_some r e k : okey (Rr r) e = Some k -> exists a b, image RS r (fst e) = Some a /\ image RS r (snd e) = Some b /\ a <> b /\ k = (Nat.min a b, Nat.max a b).
  Proof.
    unfold okey, image, rank_mesh. destruct (nth (fst e) (evmap (Rr r)) None) as [a|]; [|discriminate]. destruct (nth (snd e) (evmap (Rr r)) None) as [b|]; [|discriminate]. destruct (Nat.eqb_spec a b); [discriminate|]. intros E. injection E as <-. exists a, b. auto.
  Qed.
  Lemma okey_none r e : okey (Rr r) e = None <-> image RS r (fst e) = None \/ image RS r (snd e) = None \/ image RS r (fst e) = image RS r (snd e).
  Proof.
    unfold okey, image, rank_mesh. destruct (nth (fst e) (evmap (Rr r)) None) as [a|]; [|intuition]. destruct (nth (snd e) (evmap (Rr r)) None) as [b|]; [|intuition]. destruct (Nat.eqb_spec a b) as [->|N]. intuition. split; [discriminate|]. intros [|[|]]; congruence.
  Qed.
  Lemma sub_set r e e' : r < np -> e < nq r -> e' < nq r -> incl (others H r e) (others H r e') -> incl (nth e (cl r) []) (nth e' (cl r) []).
  Proof. intros Hr He He' IN x. rewrite !cl_nth by auto. rewrite !in_members. intros [->|X]; [now left|right; now apply IN]. Qed.
  Lemma img_set r v k e : r < np -> e < nq r -> v < total (n r) -> (forall eu ju, vertex_in (n r) v eu ju -> incl (others H r e) (others H r eu)) -> image RS r v = Some k -> incl (nth e (cl r) []) (vset H RS r k).
  Proof.
    intros Hr He Hv HI E. pose proof (v_range H n RS HV r v k Hr E) as Kk. assert (V1 : vertex_in (n r) v (cls (n r) v) (v - off (n r) (cls (n r) v))) by (apply vin_cls; auto). assert (V2 : vertex_in (cv r) k (cls (cv r) k) (k - off (cv r) (cls (cv r) k))) by (apply vin_cls; auto).
    unfold vset. apply sub_set; auto. rewrite <- cvl by auto. now apply cls_ok. eapply incl_tran. apply (HI _ _ V1). apply (v_ranks H n RS HV r v k _ _ _ _ Hr E V1 V2).
  Qed.
  Lemma feq_sub r id k : r < np -> key_of (Rr r) id = Some k -> incl (nth (feq (Rr r) id) (cl r) []) (kset H RS r k).
  Proof.
    intros Hr E. unfold key_of in E. destruct (nth_error (all_edges (Rr r)) id) as [[u v]|] eqn:EN; [|discriminate]. destruct (edge_class r id u v Hr EN) as (Lq & IE). destruct (m_ends H n RS HM r u v Hr (nth_error_In _ _ EN)) as (Lu & Lv & _).
    destruct (okey_some r _ k E) as (a & b & A & B & N & ->). cbn [fst snd] in *. assert (SA : incl (nth (feq (Rr r) id) (cl r) []) (vset H RS r a)). { apply (img_set r u); auto. intros eu ju. apply (m_ranks H n RS HM r _ u v u); auto. }
    assert (SB : incl (nth (feq (Rr r) id) (cl r) []) (vset H RS r b)). { apply (img_set r v); auto. intros eu ju. apply (m_ranks H n RS HM r _ u v v); auto. }
    intros x X. unfold kset. cbn [fst snd]. apply inter_in. destruct (Nat.le_gt_cases a b) as [L|L]. rewrite Nat.min_l, Nat.max_r by lia. auto. rewrite Nat.min_r, Nat.max_l by lia. auto.
  Qed.
  Lemma otup_eq r e : otup H RS r e = match image RS r (fst e), image RS r (snd e) with Some a, Some b => if a =? b then None else Some (s2 (gvr r a) (gvr r b)) | _, _ => None end.
  Proof.
    unfold otup, okey, image, rank_mesh. destruct (nth (fst e) (evmap (Rr r)) None) as [a|]; auto. destruct (nth (snd e) (evmap (Rr r)) None) as [b|]; auto. destruct (Nat.eqb_spec a b); auto. cbn [option_map]. f_equal. rewrite tk_s2. cbn [fst snd]. destruct (Nat.le_gt_cases a b) as [L|L]. rewrite Nat.min_l, Nat.max_r by lia. auto. rewrite Nat.min_r, Nat.max_l by lia. apply s2_sym.
  Qed.
  Lemma otup_sym r u v : otup H RS r (u, v) = otup H RS r (v, u).
  Proof. rewrite !otup_eq. cbn [fst snd]. destruct (image RS r u) as [a|], (image RS r v) as [b|]; auto. rewrite (Nat.eqb_sym b a). destruct (a =? b); auto. now rewrite s2_sym. Qed.
  Lemma otup_same r u v q u' v' : r < np -> q < np -> same_vertex H n r u q u' -> same_vertex H n r v q v' -> otup H RS r (u, v) = otup H RS q (u', v').
  Proof.
    intros Hr Hq S1 S2. pose proof (v_same H n RS HV r u q u' Hr Hq S1) as X. pose proof (v_same H n RS HV r v q v' Hr Hq S2) as Y. rewrite !otup_eq. cbn [fst snd]. destruct (image RS r u) as [a|], (image RS q u') as [a'|]; try tauto. destruct (image RS r v) as [b|], (image RS q v') as [b'|]; try tauto.
    apply sv_gv in X as (A1 & A2 & A3), Y as (B1 & B2 & B3); auto. destruct (Nat.eqb_spec a b) as [<-|N], (Nat.eqb_spec a' b') as [<-|N']; auto.
    - exfalso. apply N'. apply (gv_inj H HW RS HE q); auto. congruence.
    - exfalso. apply N. apply (gv_inj H HW RS HE r); auto. congruence.
    - now rewrite A3, B3.
  Qed.
  Lemma otup_lists r q L L' : r < np -> q < np -> Forall2 (fun a b => same_edge H n r a q b) L L' -> map (otup H RS r) L = map (otup H RS q) L'.
  Proof.
    intros Hr Hq. induction 1 as [|[u v] [u' v'] L L' SE F IH]; auto. cbn [map]. f_equal; auto. unfold same_edge in SE. cbn [fst snd] in SE. destruct SE as [(A & B)|(A & B)]. now apply otup_same. rewrite (otup_sym q). now apply otup_same.
  Qed.
  Lemma SE_all r q D : r < np -> q < np -> In D (cl r) -> In D (cl q) -> map (otup H RS r) (nth (idx D (cl r)) (eedges (Rr r)) []) = map (otup H RS q) (nth (idx D (cl q)) (eedges (Rr q)) []).
  Proof. intros Hr Hq HD HD'. destruct (idx_in H r D HD) as (A & B), (idx_in H q D HD') as (C & E). apply otup_lists; auto. apply (m_shared H n RS HM r q); auto. apply scls; auto. congruence. Qed.
  Lemma SX_all r q D : r < np -> q < np -> In D (cl r) -> In D (cl q) -> map (otup H RS r) (nth (idx D (cl r)) (xedges (Rr r)) []) = map (otup H RS q) (nth (idx D (cl q)) (xedges (Rr q)) []).
  Proof. intros Hr Hq HD HD'. destruct (idx_in H r D HD) as (A & B), (idx_in H q D HD') as (C & E). apply otup_lists; auto. apply (m_shared H n RS HM r q); auto. apply scls; auto. congruence. Qed.
  Notation K0 := (qk H RS).
  Notation aE := (ake H RS).
  Notation aX := (akx H RS).
  Definition em0 (r : nat) : list (option nat) := map (fun id => option_map (pk H r (Rr r) (K0 r) (aE r) (aX r)) (key_of (Rr r) id)) (seq 0 (length (all_edges (Rr r)))).
  Definition ce0 (r : nat) : list (nat * nat) := CE H r (Rr r) (K0 r) (aE r) (aX r).
  Definition nE0 (r : nat) : list nat := nsE H r (Rr r) (K0 r) (aE r) (aX r).
  Definition nX0 (r : nat) : list nat := nsX H r (Rr r) (K0 r) (aE r) (aX r).
  Lemma run r : r < np -> MapEdges H RS r = Ret (em0 r, map Some (ce0 r), nE0 r, nX0 r).
  Proof. intros Hr. apply MapEdges_ok; auto. apply inter_all. apply loc0. apply edges_ok_all. apply cv_eq. apply feq_sub. Qed.
  Lemma AD r : r < np -> adds_ok H r (Rr r) (K0 r) (aE r) (aX r).
  Proof. apply adds_ok_all; auto. apply inter_all. apply loc0. apply edges_ok_all. apply cv_eq. apply feq_sub. Qed.
  Lemma CO r : r < np -> EdgeMapProofs2.classes_ok H r (Rr r) (K0 r).
  Proof. apply classes_ok_all; auto. apply inter_all. apply edges_ok_all. apply feq_sub. Qed.
  Lemma len_nE r : length (nE0 r) = nq r. Proof. unfold nE0, nsE. now rewrite map_length, seq_length. Qed.
  Lemma len_nX r : length (nX0 r) = nq r. Proof. unfold nX0, nsX. now rewrite map_length, seq_length. Qed.
  Notation sgE r := (segE H r (Rr r) (K0 r) (aE r) (aX r)).
  Notation sgX r := (segX H r (Rr r) (K0 r) (aE r) (aX r)).
  Definition sg (r : nat) (cr : bool) (e : nat) : list key := if cr then sgX r e else sgE r e.
  Lemma nth_nE r e : e < nq r -> nth e (nE0 r) 0 = length (sgE r e).
  Proof. intros He. unfold nE0, nsE. rewrite (nth_indep _ 0 (length (sgE r 0))) by (rewrite map_length, seq_length; auto). rewrite (map_nth (fun c => length (sgE r c))), seq_nth by auto. reflexivity. Qed.
  Lemma nth_nX r e : e < nq r -> nth e (nX0 r) 0 = length (sgX r e).
  Proof. intros He. unfold nX0, nsX. rewrite (nth_indep _ 0 (length (sgX r 0))) by (rewrite map_length, seq_length; auto). rewrite (map_nth (fun c => length (sgX r c))), seq_nth by auto. reflexivity. Qed.
  Lemma at_sg r k e cr j : edge_at (nE0 r) (nX0 r) k e cr j -> e < nq r /\ j < length (sg r cr e) /\ nth_error (ce0 r) k = nth_error (sg r cr e) j.
  Proof.
    unfold edge_at. destruct cr; cbn [sg].
    - intros (i & -> & A & B & C). rewrite len_nX in A. rewrite nth_nX in B by auto. split; auto. split; auto. subst i. rewrite Nat.add_assoc. change (total (nE0 r)) with (sum (nE0 r)). change (total (firstn e (nX0 r))) with (off (nX0 r) e). now apply CE_X.
    - intros (A & B & C). rewrite len_nE in A. rewrite nth_nE in B by auto. split; auto. split; auto. subst k. change (total (firstn e (nE0 r))) with (off (nE0 r) e). now apply CE_E.
  Qed.
  Lemma at_ex r k : k < length (ce0 r) -> exists e cr j, edge_at (nE0 r) (nX0 r) k e cr j.
  Proof.
    intros Hk. unfold ce0 in Hk. rewrite CE_len in Hk. fold (nE0 r) (nX0 r) in Hk. destruct (Nat.lt_ge_cases k (sum (nE0 r))) as [L|L].
    - exists (cls (nE0 r) k), false, (k - off (nE0 r) (cls (nE0 r) k)). cbn [edge_at]. apply vin_cls. auto.
    - exists (cls (nX0 r) (k - sum (nE0 r))), true, (k - sum (nE0 r) - off (nX0 r) (cls (nX0 r) (k - sum (nE0 r)))). cbn [edge_at]. exists (k - sum (nE0 r)). split. change (total (nE0 r)) with (sum (nE0 r)). lia. apply vin_cls. split; auto. lia.
  Qed.
  Lemma sg_in r cr e k : r < np -> e < nq r -> In k (sg r cr e) -> K0 r k = e /\ crossk (Rr r) k = cr /\ isk r k /\ kset H RS r k = nth e (cl r) [] /\
    exists q id k', In q (nth e (cl r) []) /\ q < np /\ key_of (Rr q) id = Some k' /\ tk q k' = tk r k.
  Proof.
    intros Hr He I1. assert (X : K0 r k = e /\ crossk (Rr r) k = cr /\ (In k (aE r e ++ aX r e) \/ exists id, key_of (Rr r) id = Some k)).
    { destruct cr; cbn [sg] in I1. destruct (segX_in _ _ _ _ _ _ (AD r Hr) e k He I1) as (A & B & [C|(_ & C)]); split; auto; split; auto. left. apply in_or_app; auto. destruct (segE_in _ _ _ _ _ _ (AD r Hr) e k He I1) as (A & B & [C|(_ & C)]); split; auto; split; auto. left. apply in_or_app; auto. }
    destruct X as (A & B & C). split; auto. split; auto. destruct (class_facts H HW r _ Hr (cl_in H r e He)) as (_ & IR & _ & BD). destruct C as [C|(id & C)].
    - destruct (ake_src H HW RS inter_all edges_ok_all cv_eq r e k Hr He C) as (IK & _ & KS & IT). split; auto. split; auto. destruct (addt_src H HW RS inter_all edges_ok_all cv_eq _ _ r Hr (cl_in H r e He) IT) as (q & id & k' & Q1 & Q2 & Q3 & Q4 & Q5 & Q6 & _). exists q, id, k'. auto.
    - pose proof (key_is H RS edges_ok_all r id k Hr C) as IK. split; auto. split. destruct (qk_lt H RS inter_all edges_ok_all r k Hr IK) as (_ & X). rewrite A in X. auto. exists r, id, k. auto.
  Qed.
  Lemma sg_nodup r cr e : r < np -> e < nq r -> NoDup (sg r cr e).
  Proof.
    intros Hr He. pose proof (CE_nodup H r (Rr r) (K0 r) (aE r) (aX r) (AD r Hr)) as ND. apply (NoDup_nth_error (sg r cr e)). intros i j Hi E. assert (Hj : j < length (sg r cr e)) by (apply nth_error_Some; rewrite <- E; now apply nth_error_Some).
    destruct cr; cbn [sg] in *.
    - rewrite <- (CE_X H r (Rr r) (K0 r) (aE r) (aX r) e i He Hi), <- (CE_X H r (Rr r) (K0 r) (aE r) (aX r) e j He Hj) in E. apply (proj1 (NoDup_nth_error _) ND) in E. lia. apply nth_error_Some. rewrite CE_X by auto. now apply nth_error_Some.
    - rewrite <- (CE_E H r (Rr r) (K0 r) (aE r) (aX r) e i He Hi), <- (CE_E H r (Rr r) (K0 r) (aE r) (aX r) e j He Hj) in E. apply (proj1 (NoDup_nth_error _) ND) in E. lia. apply nth_error_Some. rewrite CE_E by auto. now apply nth_error_Some.
  Qed.
  Lemma sg_eq r q cr e e' : r < np -> q < np -> e < nq r -> e' < nq q -> nth e (cl r) [] = nth e' (cl q) [] -> map (tk r) (sg r cr e) = map (tk q) (sg q cr e').
  Proof.
    intros Hr Hq He He' E. pose proof (cl_in H r e He) as I1. pose proof (cl_in H q e' He') as I2. rewrite <- E in I2. rewrite <- (idx_nth H HW r e Hr He), <- (idx_nth H HW q e' Hq He'). rewrite <- E. destruct cr; cbn [sg].
    - apply segX_eq; auto. apply inter_all. apply loc0. apply edges_ok_all. apply cv_eq. apply feq_sub. apply SE_all. apply SX_all.
    - apply segE_eq; auto. apply inter_all. apply loc0. apply edges_ok_all. apply cv_eq. apply feq_sub. apply SE_all. apply SX_all.
  Qed.
  Lemma edge_tk r k q k' : r < np -> q < np -> isk r k -> isk q k' -> (same_edge H cv r k q k' <-> tk r k = tk q k').
  Proof.
    intros Hr Hq IK IK'. unfold same_edge. rewrite !sv_gv by auto. destruct IK as (A & B), IK' as (A' & B'). rewrite !tk_s2. split.
    - intros [((_ & _ & X) & (_ & _ & Y))|((_ & _ & X) & (_ & _ & Y))]. now rewrite X, Y. rewrite X, Y. apply s2_sym.
    - intros E. apply s2_inj in E as [(X & Y)|(X & Y)]; [left|right]; (split; split; [lia|split; [lia|auto]|lia|split; [lia|auto]]).
  Qed.
  Lemma key_img r id u v : nth_error (all_edges (Rr r)) id = Some (u, v) -> nth id (em0 r) None = option_map (pk H r (Rr r) (K0 r) (aE r) (aX r)) (okey (Rr r) (u, v)).
  Proof.
    intros E. assert (L : id < length (all_edges (Rr r))) by (apply nth_error_Some; congruence). unfold em0. pose (f := fun id => option_map (pk H r (Rr r) (K0 r) (aE r) (aX r)) (key_of (Rr r) id)). fold f. change (nth id (map f (seq 0 (length (all_edges (Rr r))))) None = option_map (pk H r (Rr r) (K0 r) (aE r) (aX r)) (okey (Rr r) (u, v))). rewrite (nth_indep _ None (f 0)) by (rewrite map_length, seq_length; auto). rewrite (map_nth f), seq_nth by auto. unfold f, key_of. cbn [Nat.add]. now rewrite E.
  Qed.
  Lemma pk_ce r id k : r < np -> key_of (Rr r) id = Some k -> nth_error (ce0 r) (pk H r (Rr r) (K0 r) (aE r) (aX r) k) = Some k.
  Proof.
    intros Hr E. pose proof (key_in_CE H r (Rr r) (HE r Hr) (K0 r) (CO r Hr) (aE r) (aX r) (AD r Hr) id k E) as I1. destruct (posb_in key_eqb key_iff k _ (0, 0) I1) as (L & N). unfold pk, ce0. rewrite (nth_error_nth' _ (0, 0) L). exact (f_equal Some N).
  Qed.
  Theorem edge_map_ok : edge_map H RS em0 ce0 nE0 nX0.
  Proof.
    constructor.
    - intros r i u v Hr E. change (rank_mesh RS r) with (Rr r) in E. rewrite (key_img r i u v E). rewrite <- (okey_none r (u, v)). destruct (okey (Rr r) (u, v)); cbn [option_map]; split; auto; discriminate.
    - intros r i u v k Hr E Ek. change (rank_mesh RS r) with (Rr r) in E. rewrite (key_img r i u v E) in Ek. destruct (okey (Rr r) (u, v)) as [k0|] eqn:EO; [|discriminate]. cbn [option_map] in Ek. injection Ek as <-. assert (EK : key_of (Rr r) i = Some k0) by (unfold key_of; now rewrite E). destruct (okey_some r _ k0 EO) as (a & b & A & B & N & ->). cbn [fst snd] in *.
      exists (Nat.min a b), (Nat.max a b). split. now apply (pk_ce r i). destruct (Nat.le_gt_cases a b) as [L|L]. rewrite Nat.min_l, Nat.max_r by lia. auto. rewrite Nat.min_r, Nat.max_l by lia. auto.
    - intros r i a b Hr E. assert (L : i < length (ce0 r)) by (apply nth_error_Some; congruence). destruct (at_ex r i L) as (e & cr & j & A). destruct (at_sg r i e cr j A) as (He & Hj & EN). rewrite E in EN. symmetry in EN. apply nth_error_In in EN. destruct (sg_in r cr e _ Hr He EN) as (_ & _ & (X & Y) & _). cbn [fst snd] in *. split; auto. split; auto. intros j' E'. apply (proj1 (NoDup_nth_error _) (CE_nodup H r (Rr r) (K0 r) (aE r) (aX r) (AD r Hr))). apply nth_error_Some. unfold ce0 in E'. unfold key in *. rewrite E'. discriminate. fold (ce0 r). unfold key in *. congruence.
    - intros r k a b ea ja eb jb Hr E Va Vb. assert (L : k < length (ce0 r)) by (apply nth_error_Some; congruence). destruct (at_ex r k L) as (e & cr & j & A). destruct (at_sg r k e cr j A) as (He & Hj & EN). rewrite E in EN. symmetry in EN. apply nth_error_In in EN. destruct (sg_in r cr e _ Hr He EN) as (_ & C & (X & Y) & KS & _). cbn [fst snd] in *. exists e, cr, j. split; auto.
      apply vin_cls in Va as (La & -> & _), Vb as (Lb & -> & _). unfold coarse_verts, rank_mesh in *. split.
      + unfold crossk in C. cbn [fst snd] in C. destruct (Nat.eqb_spec (cls (ecv (Rr r)) a) (cls (ecv (Rr r)) b)); cbn in C; split; congruence.
      + assert (Qa : cls (ecv (Rr r)) a < nq r) by (rewrite <- cvl by auto; now apply cls_ok). assert (Qb : cls (ecv (Rr r)) b < nq r) by (rewrite <- cvl by auto; now apply cls_ok). intros x. unfold others. rewrite !(row_idx H HW r) by auto. rewrite !in_del. rewrite <- KS. unfold kset. cbn [fst snd]. rewrite inter_in. unfold vset. tauto.
    - intros r k e cr j Hr Hk A. destruct (at_sg r k e cr j A) as (He & Hj & EN). assert (Ek : nth_error (ce0 r) k = Some (nth k (ce0 r) (0, 0))) by now apply nth_error_nth'. unfold key in *. rewrite Ek in EN. symmetry in EN. apply nth_error_In in EN. destruct (sg_in r cr e _ Hr He EN) as (_ & _ & IK & _ & q & id & k' & IQ & Hq & EK & ET).
      exists q, id, (pk H q (Rr q) (K0 q) (aE q) (aX q) k'). split. rewrite cl_nth in IQ by auto. now apply in_members in IQ. split.
      + unfold key_of in EK. destruct (nth_error (all_edges (Rr q)) id) as [[u v]|] eqn:EQ; [|discriminate]. rewrite (key_img q id u v EQ), EK. reflexivity.
      + pose proof (pk_ce q id k' Hq EK) as P. apply nth_error_nth with (d := (0, 0)) in P. unfold key in *. rewrite P. apply edge_tk; auto. now apply (key_is H RS edges_ok_all q id).
    - intros r q e e' Hr Hq He He' SC. unfold n_classes in *. apply scls in SC; auto. rewrite !nth_nE, !nth_nX by auto. split.
      + pose proof (sg_eq r q false e e' Hr Hq He He' SC) as X. apply (f_equal (@length tup)) in X. now rewrite !map_length in X.
      + pose proof (sg_eq r q true e e' Hr Hq He He' SC) as X. apply (f_equal (@length tup)) in X. now rewrite !map_length in X.
    - intros r q k k' e e' cr cr' j j' Hr Hq A A'. destruct (at_sg r k e cr j A) as (He & Hj & EN), (at_sg q k' e' cr' j' A') as (He' & Hj' & EN').
      assert (NK : nth_error (ce0 r) k = Some (nth k (ce0 r) (0, 0))). { apply nth_error_nth'. apply nth_error_Some. unfold key in *. rewrite EN. now apply nth_error_Some. } assert (NK' : nth_error (ce0 q) k' = Some (nth k' (ce0 q) (0, 0))). { apply nth_error_nth'. apply nth_error_Some. unfold key in *. rewrite EN'. now apply nth_error_Some. }
      unfold key in *. rewrite NK in EN. rewrite NK' in EN'. symmetry in EN, EN'. pose proof (nth_error_In _ _ EN) as I1. pose proof (nth_error_In _ _ EN') as I2. destruct (sg_in r cr e _ Hr He I1) as (_ & C & IK & KS & _), (sg_in q cr' e' _ Hq He' I2) as (_ & C' & IK' & KS' & _).
      set (x := nth k (ce0 r) (0, 0)) in *. set (y := nth k' (ce0 q) (0, 0)) in *. rewrite edge_tk, scls by auto. split.
      + intros E. destruct (tk_eq H HW RS edges_ok_all r q x y Hr Hq IK IK' E) as (P & Q & _). assert (EC : cr = cr') by congruence. assert (ED : nth e (cl r) [] = nth e' (cl q) []) by congruence. split; auto. split; auto. rewrite <- EC in EN'. clear A'.
        pose proof (sg_eq r q cr e e' Hr Hq He He' ED) as M. assert (Mj : nth_error (map (tk r) (sg r cr e)) j = Some (tk r x)) by exact (map_nth_error (tk r) _ _ EN). assert (Mj' : nth_error (map (tk q) (sg q cr e')) j' = Some (tk q y)) by exact (map_nth_error (tk q) _ _ EN'). rewrite M in Mj.
        assert (ND : NoDup (map (tk q) (sg q cr e'))). { apply nodup_map_in. intros u w Hu Hw. destruct (sg_in q cr e' u Hq He' Hu) as (_ & _ & U & _), (sg_in q cr e' w Hq He' Hw) as (_ & _ & V & _). now apply (tk_inj H HW RS edges_ok_all q). now apply sg_nodup. }
        apply (proj1 (NoDup_nth_error _) ND). apply nth_error_Some. congruence. congruence.
      + intros (ED & <- & <-). pose proof (sg_eq r q cr e e' Hr Hq He He' ED) as M. assert (Mj : nth_error (map (tk r) (sg r cr e)) j = Some (tk r x)) by exact (map_nth_error (tk r) _ _ EN). assert (Mj' : nth_error (map (tk q) (sg q cr e')) j = Some (tk q y)) by exact (map_nth_error (tk q) _ _ EN'). rewrite M in Mj. congruence.
  Qed.
End C49.
(** the vertex map of MapVerts *)
Section Verts.
  Lemma sv_sym H n r v q w : same_vertex H n r v q w -> same_vertex H n q w r v.
  Proof. intros (e & e' & j & A & B & C). exists e', e, j. split; auto. split; auto. intros x. symmetry. apply C. Qed.
  Lemma sv_trans H n r v q w p u : same_vertex H n r v q w -> same_vertex H n q w p u -> same_vertex H n r v p u.
  Proof.
    intros (e & e' & j & A & B & C) (f & f' & i & A' & B' & C'). apply vin_cls in B as (B1 & B2 & B3). pose proof A' as D. apply vin_cls in D as (D1 & D2 & D3). assert (f = e') by congruence. assert (i = j) by congruence. clear B2 B3 D2 D3. subst f i.
    exists e, f', j. split; auto. split; auto. intros x. rewrite (C x). apply C'.
  Qed.
  Lemma agg_same H W r v q w m a : same_vertex H (fine_verts W) r v q w -> in_agg H W r v m a -> in_agg H W q w m a.
  Proof. intros S1 (u & A & B & C & D). exists u. split; auto. split; auto. split; auto. apply (sv_trans H _ q w r v m u); auto. now apply sv_sym. Qed.
End Verts.

(** *** C49 *)
(** MapVerts (C48) gives a vertex map as MapEdges needs it *)
Theorem C49_vertices : forall W0 H W RS, consistent W0 -> EQCHierarchy W0 = Ret H -> agglomeration H W ->
  (forall r, r < length H -> MapVerts H W r = Ret (evmap (rank_mesh RS r), ecv (rank_mesh RS r))) -> vertex_map H (fine_verts W) RS.
Proof.
  intros W0 H W RS HC E HA HR. destruct (C48_vertex_map W0 H W HC E HA) as (vm & cv & C1 & C2 & C3 & C4 & C5 & C6 & C7). destruct (hierarchy_world W0 HC) as (H' & E' & _ & HW & _). assert (H' = H) by congruence. subst H'. clear E'.
  assert (EV : forall r, r < length H -> evmap (rank_mesh RS r) = vm r /\ coarse_verts RS r = cv r). { intros r Hr. destruct (C1 r Hr) as (A & _). rewrite HR in A by auto. injection A. auto. }
  assert (IM : forall r v, r < length H -> image RS r v = nth v (vm r) None) by (intros r v Hr; unfold image; now rewrite (proj1 (EV r Hr))).
  assert (LV : forall r v k, r < length H -> nth v (vm r) None = Some k -> v < total (fine_verts W r)). { intros r v k Hr G. destruct (C1 r Hr) as (_ & <- & _). destruct (Nat.lt_ge_cases v (length (vm r))); auto. rewrite nth_overflow in G by auto. discriminate. }
  assert (AG : forall r v k, r < length H -> nth v (vm r) None = Some k -> exists m a, in_agg H W r v m a).
  { intros r v k Hr G. pose proof (LV r v k Hr G) as Lv. destruct (hagg H W r v) as [a|] eqn:EA. exists (vown H W r v), a. apply (in_agg_iff H HW W HA); auto.
    exfalso. assert (X : nth v (vm r) None = None). { apply C2; auto. intros (m & a & IA). apply (in_agg_iff H HW W HA) in IA as (_ & _ & IA); auto. congruence. } congruence. }
  assert (SVC : forall r k q k', r < length H -> q < length H -> same_vertex H cv r k q k' -> same_vertex H (coarse_verts RS) r k q k').
  { intros r k q k' Hr Hq (e & e' & j & A & B & C). exists e, e', j. rewrite !(fun r Hr => proj2 (EV r Hr)) by auto. auto. }
  constructor.
  - intros r Hr. destruct (C1 r Hr) as (_ & A & B). destruct (EV r Hr) as (-> & ->). auto.
  - intros r v k Hr G. rewrite IM in G by auto. rewrite (proj2 (EV r Hr)). apply C4; auto. exists v. split; auto. now apply (LV r v k).
  - intros r v q w Hr Hq S1. rewrite !IM by auto. assert (LR : v < total (fine_verts W r)). { destruct S1 as (e & e' & j & A & _). now apply vin_cls in A as (A & _). } assert (LQ : w < total (fine_verts W q)). { destruct S1 as (e & e' & j & _ & A & _). now apply vin_cls in A as (A & _). }
    destruct (nth v (vm r) None) as [k|] eqn:G1, (nth w (vm q) None) as [k'|] eqn:G2; auto.
    + destruct (AG r v k Hr G1) as (m & a & IA). pose proof (agg_same H W r v q w m a S1 IA) as IA'. apply SVC; auto. apply (C5 r v k m a q w k' m a); auto.
    + destruct (AG r v k Hr G1) as (m & a & IA). apply C2 in G2; auto. apply G2. exists m, a. apply (agg_same H W r v); auto.
    + destruct (AG q w k' Hq G2) as (m & a & IA). apply C2 in G1; auto. apply G1. exists m, a. apply (agg_same H W q w); auto. now apply sv_sym.
  - intros r v k e j e' j' Hr G V V' x X. rewrite IM in G by auto. rewrite (proj2 (EV r Hr)) in V'. destruct (AG r v k Hr G) as (m & a & IA). destruct (C6 r v k m a Hr IA G) as (e1 & j1 & ec & jc & K1 & K2 & SC). destruct IA as (u & Hm & O & SV & AN). destruct SV as (ev & eu & i & V1 & V2 & SC2).
    assert (Ee : ev = e). { apply vin_cls in V1 as (_ & V1 & _), V as (_ & V & _). congruence. } assert (Ee' : e1 = e'). { apply vin_cls in K1 as (_ & K1 & _), V' as (_ & V' & _). congruence. } clear V1 V K1. subst ev e1.
    assert (Lu : u < total (fine_verts W m)) by (now apply vin_cls in V2 as (V2 & _)). apply (a_agg H W HA m u a Hm Lu) in AN as (La & Iu). pose proof (a_smaller H W HA m a u eu i ec jc Hm La Iu V2 K2) as SM.
    assert (Lv : v < total (fine_verts W r)) by now apply (LV r v k). assert (He : e < length (nth r H [])). { destruct (Nat.lt_ge_cases e (length (nth r H []))); auto. unfold others in X. rewrite nth_overflow in X by auto. destruct X. }
    assert (XR : x <> r). { intros ->. destruct (w_row H HW r _ Hr (nth_In _ [] He)) as (_ & N & _). now apply N. }
    assert (Y : x = m \/ In x (others H m ec)). { destruct (proj1 (SC2 x) (or_intror X)) as [->|Y]; auto. }
    destruct (proj2 (SC x) Y) as [->|Z]; auto. contradiction.
  - intros r q e e' Hr Hq He He' SC. rewrite !(fun r Hr => proj2 (EV r Hr)) by auto. now apply C7.
Qed.
(** every rank gets an edge map, and the maps of the ranks fit together *)
Theorem C49_edge_map : forall W0 H n RS, consistent W0 -> EQCHierarchy W0 = Ret H -> fine_mesh H n RS -> vertex_map H n RS ->
  exists em ce nE nX, (forall r, r < length H -> MapEdges H RS r = Ret (em r, map Some (ce r), nE r, nX r) /\ length (em r) = length (all_edges (rank_mesh RS r)) /\
      length (nE r) = n_classes H r /\ length (nX r) = n_classes H r /\ length (ce r) = total (nE r) + total (nX r)) /\
    edge_map H RS em ce nE nX.
Proof.
  intros W0 H n RS HC E HM HV. destruct (hierarchy_world W0 HC) as (H' & E' & L & HW & _ & _ & _ & HI). assert (H' = H) by congruence. subst H'. rewrite <- L in HI.
  exists (em0 H RS), (ce0 H RS), (nE0 H RS), (nX0 H RS). split.
  - intros r Hr. split. now apply (run H HW HI n). split. unfold em0. now rewrite map_length, seq_length. split. apply len_nE. split. apply len_nX. apply CE_len.
  - now apply (edge_map_ok H HW HI n).
Qed.
(** MapVerts, then MapEdges *)
Theorem C49_agglomeration : forall W0 H W RS, consistent W0 -> EQCHierarchy W0 = Ret H -> agglomeration H W -> fine_mesh H (fine_verts W) RS ->
  (forall r, r < length H -> MapVerts H W r = Ret (evmap (rank_mesh RS r), ecv (rank_mesh RS r))) ->
  exists em ce nE nX, (forall r, r < length H -> MapEdges H RS r = Ret (em r, map Some (ce r), nE r, nX r)) /\ edge_map H RS em ce nE nX.
Proof.
  intros W0 H W RS HC E HA HM HR. destruct (C49_edge_map W0 H (fine_verts W) RS HC E HM (C49_vertices W0 H W RS HC E HA HR)) as (em & ce & nE & nX & A & B). exists em, ce, nE, nX. split; auto. intros r Hr. now destruct (A r Hr).
Qed.
Print Assumptions C49_vertices.
Print Assumptions C49_edge_map.
Print Assumptions C49_agglomeration.

(** *** A concrete case: the ranks and agglomerates of C48; the coarse edge 1 - 2 of ranks 0 and 1 comes from an edge only rank 0 has *)
Definition E3 : list emesh :=
  [{| evmap := [Some 0; Some 2; Some 1; Some 2; Some 2]; ecv := [1; 1; 1]; eedges := [[(0, 1)]; []; []]; xedges := [[(1, 2)]; [(3, 4)]; []] |};
   {| evmap := [Some 0; None; Some 1; Some 2; Some 2]; ecv := [1; 1; 1]; eedges := [[(0, 1)]; []; []]; xedges := [[(0, 2)]; [(3, 4)]; []] |};
   {| evmap := [Some 0; Some 0; Some 1]; ecv := [1; 1]; eedges := [[(0, 1)]; []]; xedges := [[(1, 2)]; []] |}].
Ltac three r Hr := destruct r as [|[|[|r]]]; [| | | exfalso; cbn in Hr; lia].
Example E3_ok : fine_mesh M3 (fine_verts A3) E3.
Proof.
  constructor.
  - intros r Hr. three r Hr; cbn; auto.
  - intros r Hr _. three r Hr; cbn; auto.
  - intros r u v Hr I1. three r Hr; cbn in I1; repeat (destruct I1 as [I1|I1]; [injection I1 as <- <-; cbn; lia|]); destruct I1.
  - intros r i j u v u' v' Hr A B C. three r Hr; unfold all_edges, rank_mesh in *; cbn in A, B; (destruct i as [|[|[|i]]]); cbn in A; try (destruct i; discriminate A); (destruct j as [|[|[|j]]]); cbn in B; try (destruct j; discriminate B); auto; try discriminate; injection A as <- <-; injection B as <- <-; lia.
  - intros r e u v x eu ju Hr I1 X V. apply vin_cls in V as (_ & -> & _). three r Hr; (destruct e as [|[|[|e]]]); cbn in I1; try (destruct e; cbn in I1); repeat (destruct I1 as [I1|I1]; [injection I1 as <- <-; destruct X as [->| ->]; vm_compute; intuition|]); destruct I1.
  - intros r q e e' Hr Hq He He' SC. unfold n_classes in *.
    assert (IN : forall r e, r < 3 -> increasing (others M3 r e)). { intros p f Hp. three p Hp; (do 3 (destruct f as [|f]; [repeat constructor|])); destruct f; repeat constructor. }
    apply same_members in SC; [|now apply IN|now apply IN].
    assert (SV : forall r q v w e e' j, r < 3 -> q < 3 -> vertex_in (fine_verts A3 r) v e j -> vertex_in (fine_verts A3 q) w e' j -> members r (others M3 r e) = members q (others M3 q e') -> same_vertex M3 (fine_verts A3) r v q w).
    { intros. exists e0, e'0, j. split; auto. split; auto. apply same_members; auto. }
    assert (ID : forall r v, r < 3 -> v < total (fine_verts A3 r) -> same_vertex M3 (fine_verts A3) r v r v). { intros p v Hp Hv. apply (SV p p v v (cls (fine_verts A3 p) v) (cls (fine_verts A3 p) v) (v - off (fine_verts A3 p) (cls (fine_verts A3 p) v))); auto; apply vin_cls; auto. }
    assert (S33 : same_vertex M3 (fine_verts A3) 0 3 1 3) by (apply (SV 0 1 3 3 1 1 1); auto; unfold vertex_in; cbn; lia).
    assert (S44 : same_vertex M3 (fine_verts A3) 0 4 1 4) by (apply (SV 0 1 4 4 2 2 0); auto; unfold vertex_in; cbn; lia).
    three r Hr; (destruct e as [|[|[|e]]]); try (exfalso; cbn in He; lia); three q Hq; (destruct e' as [|[|[|e']]]); try (exfalso; cbn in He'; lia); try (vm_compute in SC; discriminate SC);
      (split; cbn [eedges xedges rank_mesh E3 nth]; repeat first [apply Forall2_nil | apply Forall2_cons]; left; cbn [fst snd]; split; first [assumption | apply sv_sym; assumption | (apply ID; cbn; lia)]).
Qed.
Example C49_ex_hyp : vertex_map M3 (fine_verts A3) E3.
Proof. apply (C49_vertices M3 M3 A3 E3 (proj1 M3_ok) (proj2 M3_ok) A3_ok). intros r Hr. three r Hr; vm_compute; reflexivity. Qed.
Example C49_ex : MapEdges M3 E3 0 = Ret ([Some 0; Some 1; None], [Some (0, 2); Some (1, 2)], [0; 0; 0], [1; 1; 0]) /\
  MapEdges M3 E3 1 = Ret ([None; Some 0; None], [Some (0, 1); Some (1, 2)], [0; 0; 0], [1; 1; 0]) /\ MapEdges M3 E3 2 = Ret ([None; Some 0], [Some (0, 1)], [0; 0], [1; 0]).
Proof. vm_compute. auto. Qed.
