(** C88-C90: loop blocks, edges with unknowns and ghost vertices of a Stokes mesh *)
From Verif Require Import Base ArraysModel SMapModel SMapProofs SMapProofs8 SMapProofs9 SMeshModel SMeshProofs SMeshProofs2 SMeshProofs3.
Import ListNotations.

(** ** C88 loop blocks: one block per coarse facet and one per loop without coarse facets *)
(** [inl f]: the block of the coarse facet f, [inr l]: the block of the loop l alone *)
Definition is_block (emap : list Z) (loops : list (list Z)) (x : Z + nat) (b : list nat) : Prop :=
  StronglySorted lt b /\ forall l, In l b <-> (l < length loops)%nat /\ match x with inl f => has_facet emap (nth l loops []) f | inr l' => l = l' end.
Theorem C88_blocks : forall emap nce loops, (forall l, In l loops -> codes_ok emap l) -> (forall f, In f emap -> (-1 <= f < Z.of_nat nce)%Z) ->
  exists blocks labels, Forall2 (is_block emap loops) labels blocks /\ NoDup labels /\
    (forall f, In (inl f) labels <-> exists l, In l loops /\ has_facet emap l f) /\
    (forall l, In (inr l) labels <-> (l < length loops)%nat /\ forall f, ~ has_facet emap (nth l loops []) f) /\
    ((exists b, In b blocks /\ (2 <= length b)%nat) -> LoopBlocks emap nce loops = Ret blocks) /\
    ((forall b, In b blocks -> (length b < 2)%nat) -> LoopBlocks emap nce loops = Ret []).
Proof.
  intros emap nce loops H1 H2. destruct (blocks_inv emap nce loops H1 H2) as (lab & E & N & A & B).
  exists (map (brow emap loops (length loops) []) lab), lab. pose proof (F_ok emap nce loops H1 H2) as FO.
  assert (HF : forall l f, (l < length loops)%nat -> In f (F emap loops l) <-> has_facet emap (nth l loops []) f) by (intros l f L; destruct (FO l L) as (_ & _ & Q & _); apply Q).
  split.
  { assert (BL : forall x, In x lab -> is_block emap loops x (brow emap loops (length loops) [] x)).
    { intros [f|l] I; unfold is_block, brow.
      - cbn [mem existsb]. rewrite app_nil_r. split; [apply sorted_seq_filter|]. intros l. rewrite filter_In, in_seq, mem_In. split.
        + intros [L Q]. split; [lia|]. apply HF; auto. lia.
        + intros [L Q]. split; [lia|]. apply HF; auto.
      - split; [repeat constructor|]. intros l'. cbn [In]. apply B in I. split; [intros [<-|[]]; tauto|intros [_ ->]; auto]. }
    clear -BL. induction lab as [|x lab IH]; constructor; [apply BL; cbn; auto|]. apply IH. intros; apply BL; cbn; auto. }
  split; [exact N|]. split.
  { intros f. rewrite A. split.
    - intros (l & L & I). exists (nth l loops []). split; [apply nth_In; auto|apply HF; auto].
    - intros (l & L & I). destruct (In_nth _ _ [] L) as (k & Hk & <-). exists k. split; auto. apply HF; auto. }
  split.
  { intros l. rewrite B. split; intros [L Q]; split; auto.
    - intros f I. apply HF in I; auto. rewrite Q in I. destruct I.
    - destruct (F emap loops l) as [|f u] eqn:X; auto. exfalso. apply (Q f). apply HF; auto. rewrite X. cbn; auto. }
  unfold LoopBlocks. rewrite E. cbn [bind]. split.
  - intros (b & I & L). assert (X : existsb (fun b => (1 <? length b)%nat) (map (brow emap loops (length loops) []) lab) = true) by (apply existsb_exists; exists b; split; auto; apply Nat.ltb_lt; lia). rewrite X. reflexivity.
  - intros Q. assert (X : existsb (fun b => (1 <? length b)%nat) (map (brow emap loops (length loops) []) lab) = false). { destruct (existsb _ _) eqn:Y; auto. apply existsb_exists in Y. destruct Y as (b & I & L). apply Nat.ltb_lt in L. specialize (Q b I). lia. } rewrite X. reflexivity.
Qed.
Print Assumptions C88_blocks.

(** every loop is in a block, and two loops are together in one exactly if they share a coarse facet *)
Theorem C88_together : forall emap nce loops, (forall l, In l loops -> codes_ok emap l) -> (forall f, In f emap -> (-1 <= f < Z.of_nat nce)%Z) ->
  forall blocks, LoopBlocks emap nce loops = Ret blocks -> blocks <> [] ->
    (forall l, (l < length loops)%nat -> exists b, In b blocks /\ In l b) /\
    forall l l', (l < length loops)%nat -> (l' < length loops)%nat -> l <> l' ->
      ((exists b, In b blocks /\ In l b /\ In l' b) <-> exists f, has_facet emap (nth l loops []) f /\ has_facet emap (nth l' loops []) f).
Proof.
  intros emap nce loops H1 H2 blocks E NE. destruct (C88_blocks emap nce loops H1 H2) as (bs & lab & F2 & N & A & B & C & D).
  assert (EQ : blocks = bs). { destruct (existsb (fun b => (1 <? length b)%nat) bs) eqn:X.
    - apply existsb_exists in X. destruct X as (b & I & L). apply Nat.ltb_lt in L. rewrite C in E by (exists b; split; auto). congruence.
    - rewrite D in E; [congruence|]. intros b I. destruct (Nat.lt_ge_cases (length b) 2); auto. assert (existsb (fun b => (1 <? length b)%nat) bs = true) by (apply existsb_exists; exists b; split; auto; apply Nat.ltb_lt; lia). congruence. }
  subst bs. assert (LB : forall x, In x lab -> exists b, In b blocks /\ is_block emap loops x b). { clear -F2. induction F2; intros z []; [subst; exists y; cbn; auto|]. destruct (IHF2 z H0) as (b & I & Q). exists b; cbn; auto. }
  assert (BL : forall b, In b blocks -> exists x, In x lab /\ is_block emap loops x b). { clear -F2. induction F2; intros z []; [subst; exists x; cbn; auto|]. destruct (IHF2 z H0) as (b & I & Q). exists b; cbn; auto. }
  split.
  - intros l L. destruct (facets_ok emap (nth l loops [])) as (u & _ & _ & HU). { apply H1, nth_In; auto. } destruct u as [|f u].
    + destruct (LB (inr l)) as (b & I & [_ Q]). { apply B. split; auto. intros f X. apply HU in X. destruct X. } exists b. split; auto. apply Q. auto.
    + assert (X : has_facet emap (nth l loops []) f) by (apply HU; cbn; auto). destruct (LB (inl f)) as (b & I & [_ Q]). { apply A. exists (nth l loops []). split; auto. apply nth_In; auto. } exists b. split; auto. apply Q. auto.
  - intros l l' L L' D'. split.
    + intros (b & I & I1 & I2). destruct (BL b I) as (x & _ & [_ Q]). apply Q in I1, I2. destruct x as [f|k]; [|lia]. exists f. tauto.
    + intros (f & X & X'). destruct (LB (inl f)) as (b & I & [_ Q]). { apply A. exists (nth l loops []). split; auto. apply nth_In; auto. } exists b. split; auto. split; apply Q; auto.
Qed.
Print Assumptions C88_together.
(** four loops: 0 and 1 share facet 2, 1 and 3 share facet 0, loop 2 has none *)
Example C88_nonvacuous : (forall l, In l [[1; -2]; [2; 3]; [4]; [-3; 4]]%Z -> codes_ok [-1; 2; 0; -1]%Z l) /\ (forall f, In f [-1; 2; 0; -1]%Z -> (-1 <= f < 3)%Z) /\
  LoopBlocks [-1; 2; 0; -1]%Z 3 [[1; -2]; [2; 3]; [4]; [-3; 4]]%Z = Ret [[0; 1]; [1; 3]; [2]]%nat /\ LoopBlocks [-1; 2; 0; -1]%Z 3 [[1; -2]; [3]; [4]]%Z = Ret [].
Proof.
  split; [|split; [|split; vm_compute; reflexivity]].
  - intros l H c Hc. cbn in H. repeat destruct H as [<-|H]; try destruct H; cbn in Hc; repeat destruct Hc as [<-|Hc]; try destruct Hc; cbn; lia.
  - intros f H. cbn in H. repeat destruct H as [<-|H]; try destruct H; lia.
Qed.

(** ** C89 edges with unknowns: the edges that do not lie between two ghost vertices, numbered in order *)
Theorem C89_numbering : forall dummy gv edges, ends_ok (length gv) edges ->
  exists des d2e e2d, SetUpDOFedEdges dummy (Some gv) edges = Ret (des, d2e, e2d) /\ length des = length edges /\ length e2d = length edges /\
    (forall k, (k < length edges)%nat -> (nth k des false = true <-> ~ (nth (fst (nth k edges (O, O))) gv false = true /\ nth (snd (nth k edges (O, O))) gv false = true))) /\
    StronglySorted lt d2e /\ (forall k, In k d2e <-> (k < length edges)%nat /\ nth k des false = true) /\
    (forall d, (d < length d2e)%nat -> nth (nth d d2e O) e2d 0%Z = Z.of_nat d) /\
    (forall k, (k < length edges)%nat -> nth k des false = false -> nth k e2d 0%Z = (-1)%Z).
Proof.
  intros dummy gv edges H. do 3 eexists. split; [apply SetUp_ok; auto|]. split; [apply map_length|]. split; [rewrite row_map_len; unfold rems; apply map_length|].
  assert (DE : forall k, (k < length edges)%nat -> nth k (map (solid gv) edges) false = solid gv (nth k edges (O, O))) by (intros k Hk; apply nth_map_in; auto).
  split. { intros k Hk. rewrite DE by auto. unfold solid. rewrite negb_true_iff, andb_false_iff. destruct (nth (fst _) gv false), (nth (snd _) gv false); intuition congruence. }
  split; [apply sorted_seq_filter|]. split. { intros k. rewrite dofed_nrs_in. split; intros [A B]; split; auto; rewrite DE in *; auto. }
  split.
  - intros d Hd. assert (I : In (nth d (dofed_nrs gv edges) O) (dofed_nrs gv edges)) by (apply nth_In; auto). apply dofed_nrs_in in I. destruct I as [A B]. destruct (dof_of_edge gv edges _ A B) as (d' & E & L & X). rewrite E. f_equal.
    assert (ND : NoDup (dofed_nrs gv edges)) by (apply NoDup_filter, seq_NoDup). rewrite NoDup_nth with (d := O) in ND. apply ND; auto.
  - intros k Hk B. rewrite DE in B by auto. rewrite e2dof_nth by auto. rewrite B. reflexivity.
Qed.
Print Assumptions C89_numbering.
Theorem C89_no_ghosts : forall edges, SetUpDOFedEdges true None edges = Ret (repeat true (length edges), seq 0 (length edges), map Z.of_nat (seq 0 (length edges))) /\ SetUpDOFedEdges false None edges = Err Thrown.
Proof. intros. split; reflexivity. Qed.
Print Assumptions C89_no_ghosts.

(** who shares the unknowns of an edge: the processes of its class for which it has unknowns too.
    [shares q k]: q has the edge k of process r as an edge with unknowns *)
Theorem C89_shared : forall W gid r, wf_meshes W gid -> (r < length W)%nat ->
  exists d2e e2d des t, SetUpDOFedEdges false (Some (m_gvs (nth r W dM))) (m_edges (nth r W dM)) = Ret (des, d2e, e2d) /\ GetDofedEdgeUDofs W r = Ret t /\ length t = length d2e /\
    forall d, (d < length d2e)%nat -> let k := nth d d2e O in
      exists f, nth d t [] = filter f (edge_dps (m_segs (nth r W dM)) k) /\ forall q, In q (edge_dps (m_segs (nth r W dM)) k) ->
        (f q = true <-> exists k', let N := nth (Z.to_nat q) W dM in (k' < length (m_edges N))%nat /\ gid (Z.to_nat q) k' = gid r k /\
           ~ (nth (fst (nth k' (m_edges N) (O, O))) (m_gvs N) false = true /\ nth (snd (nth k' (m_edges N) (O, O))) (m_gvs N) false = true)).
Proof.
  intros W gid r HW Hr. do 4 eexists. split; [apply SetUp_ok, (wm_ends _ _ HW), nth_In; auto|]. split; [apply (udofs_ok W gid); auto|]. set (M := nth r W dM) in *. pose proof (wm_con _ _ HW) as HC.
  assert (KN : keptnr (map edge_table W) (keepE W) r = dofed_nrs (m_gvs M) (m_edges M)). { unfold keptnr. rewrite dpss_nth, et_len by auto. reflexivity. }
  split. { unfold newdps. rewrite map_length, KN. reflexivity. }
  intros d Hd. cbv zeta. rewrite newdps_row by (rewrite KN; auto). rewrite KN. set (k := nth d (dofed_nrs (m_gvs M) (m_edges M)) O).
  assert (Hk : (k < length (m_edges M))%nat) by (apply (dofed_nrs_in (m_gvs M)), nth_In; auto).
  assert (ED : nth k (nth r (map edge_table W) []) [] = edge_dps (m_segs M) k). { rewrite dpss_nth by auto. unfold edge_table. rewrite map_nth_seq; auto. }
  unfold newrow. rewrite ED. eexists. split; [reflexivity|]. intros q Hq. cbv beta.
  assert (LR : (r < length (map m_all W))%nat) by (rewrite map_length; auto).
  assert (Rq : (Z.to_nat q < length W)%nat). { destruct (con_rows _ _ _ HC r (nth k (nth r (map edge_table W) []) []) LR) as [_ I]. { apply nth_In. rewrite dpss_nth, et_len by auto. auto. } rewrite ED in I. destruct (con_range _ _ _ HC r q LR (I _ Hq)) as [X _]. rewrite map_length in X. lia. }
  destruct (partner' (map m_all W) (map edge_table W) gid HC (repeat [] (length (map m_all W))) (repeat_length _ _) r LR q k) as (k' & Hk' & G). { rewrite dpss_nth, et_len by auto. auto. } { rewrite ED. auto. }
  rewrite <- G. rewrite (stays_ok _ _ _ HC) by auto. rewrite dpss_nth, et_len in Hk' by auto. unfold keepE. split.
  - intros X. exists k'. split; auto. split; auto. unfold solid in X. rewrite negb_true_iff, andb_false_iff in X. destruct X; intros [? ?]; congruence.
  - intros (k2 & A & B & C). apply (con_inj _ _ _ HC) in B; try (rewrite dpss_nth, et_len by auto; auto). subst k2. unfold solid. rewrite negb_true_iff, andb_false_iff. destruct (nth (fst _) _ false), (nth (snd _) _ false); auto. exfalso. apply C. auto.
Qed.
Print Assumptions C89_shared.
(** the tables of the processes fit: same groups, same order *)
Theorem C89_fits : forall W gid, wf_meshes W gid -> exists tabs gid', (forall r, (r < length W)%nat -> GetDofedEdgeUDofs W r = Ret (nth r tabs [])) /\ consistent (map m_all W) tabs gid' /\
  forall r d des d2e e2d, (r < length W)%nat -> SetUpDOFedEdges false (Some (m_gvs (nth r W dM))) (m_edges (nth r W dM)) = Ret (des, d2e, e2d) -> (d < length d2e)%nat -> gid' r d = gid r (nth d d2e O).
Proof.
  intros W gid HW. exists (map (newdps (map edge_table W) gid (keepE W)) (seq 0 (length (map m_all W)))), (newgid (map edge_table W) gid (keepE W)). split.
  - intros r Hr. rewrite (udofs_ok W gid) by auto. f_equal. symmetry. apply map_nth_seq. rewrite map_length; auto.
  - split; [apply (keep_consistent _ _ _ (wm_con _ _ HW))|]. intros r d des d2e e2d Hr E Hd. rewrite SetUp_ok in E by (apply (wm_ends _ _ HW), nth_In; auto). injection E as <- <- <-. unfold newgid, keptnr. rewrite dpss_nth, et_len by auto. reflexivity.
Qed.
Print Assumptions C89_fits.
(** two processes with four vertices each in a row (1 - 2 - 3 - 4 and 2 - 3 - 4 - 5 of six vertices): edges 2-3 and 3-4 are shared *)
Definition exW : list meshd :=
  [mkM [1]%Z [([1]%Z, [1; 2]%nat)] [false; false; true; true] [(0, 1); (1, 2); (2, 3)]%nat;
   mkM [0]%Z [([0]%Z, [0; 1]%nat)] [true; false; false; false] [(0, 1); (1, 2); (2, 3)]%nat].
Definition exgid (p k : nat) : nat := (p + k)%nat.
Ltac two2 r := destruct r as [|[|r]]; [| |cbn in *; lia].
Ltac mems H := cbn in H; repeat destruct H as [<-|H]; try destruct H.
Example C89_nonvacuous : wf_meshes exW exgid /\ GetDofedEdgeUDofs exW 0 = Ret [[]; [1]]%Z /\ GetDofedEdgeUDofs exW 1 = Ret [[0]; []; []]%Z.
Proof.
  split; [|split; vm_compute; reflexivity]. constructor.
  - constructor.
    + reflexivity.
    + intros r Hr. two2 r; cbn; repeat constructor.
    + intros r ps Hr Hps. two2 r; mems Hps; (split; [repeat constructor; cbn; tauto|intros q Hq; cbn in *; tauto]).
    + intros r p Hr Hp. two2 r; mems Hp; cbn; lia.
    + intros r p Hr Hp H. two2 r; two2 p; cbn in *; auto; lia.
    + intros r j k Hj Hk E. unfold exgid in E. lia.
    + intros r p Hr Hp. two2 r; two2 p; reflexivity.
    + intros r p j k Hr Hp Hj Hk E q. unfold exgid in E. two2 r; two2 p; cbn in Hj, Hk; (destruct j as [|[|[|j]]]; [| | |lia]); (destruct k as [|[|[|k]]]; [| | |lia]); try lia; cbn; tauto.
  - intros M s HM Hs. mems HM; mems Hs; (split; [repeat constructor; cbn; tauto|intros q Hq; exact Hq]).
  - intros M HM. mems HM; (split; [repeat constructor; cbn; lia|intros e He; mems He; cbn; lia]).
  - intros M HM e He. mems HM; mems He; cbn; lia.
  - intros r p Hr Hp. two2 r; two2 p; reflexivity.
Qed.

(** ** C90 ghost vertices of the coarse mesh *)
Theorem C90_ghosts : forall fgv vmap ncv, (length fgv <= length vmap)%nat -> (forall v, In v vmap -> (-1 <= v < Z.of_nat ncv)%Z) ->
  exists cgv, coarse_ghosts fgv vmap ncv = Ret cgv /\ length cgv = ncv /\
    forall c, (c < ncv)%nat -> (nth c cgv false = true <-> exists k, nth k fgv false = true /\ nth k vmap (-1)%Z = Z.of_nat c).
Proof.
  intros fgv vmap ncv HL HV. unfold coarse_ghosts.
  assert (G : forall l k cgv, (k + length l <= length vmap)%nat -> length cgv = ncv -> exists cgv', foldM (cgv_entry vmap) l (k, cgv) = Ret ((k + length l)%nat, cgv') /\ length cgv' = ncv /\
     forall c, (c < ncv)%nat -> (nth c cgv' false = true <-> nth c cgv false = true \/ exists j, nth j l false = true /\ nth (k + j) vmap (-1)%Z = Z.of_nat c)).
  { induction l as [|g l IH]; intros k cgv Hk L.
    - exists cgv. split; [cbn; rewrite Nat.add_0_r; reflexivity|]. split; auto. intros c Hc. split; auto. intros [X|(j & X & _)]; auto. destruct j; discriminate.
    - cbn [length] in Hk. cbn [foldM]. unfold cgv_entry at 1.
      assert (ST : forall cgv1, length cgv1 = ncv -> (forall c, (c < ncv)%nat -> (nth c cgv1 false = true <-> nth c cgv false = true \/ (g = true /\ nth k vmap (-1)%Z = Z.of_nat c))) ->
        exists cgv', foldM (cgv_entry vmap) l (S k, cgv1) = Ret ((k + length (g :: l))%nat, cgv') /\ length cgv' = ncv /\ forall c, (c < ncv)%nat -> (nth c cgv' false = true <-> nth c cgv false = true \/ exists j, nth j (g :: l) false = true /\ nth (k + j) vmap (-1)%Z = Z.of_nat c)).
      { intros cgv1 L1 H1. destruct (IH (S k) cgv1 ltac:(lia) L1) as (c2 & E & L2 & F). exists c2. split; [rewrite E; cbn [length]; do 2 f_equal; lia|]. split; auto. intros c Hc. rewrite F, H1 by auto. split.
        - intros [[X|[X Y]]|(j & X & Y)]; auto; right; [exists O; rewrite Nat.add_0_r; auto|exists (S j); cbn [nth]; split; auto; rewrite <- Y; f_equal; lia].
        - intros [X|(j & X & Y)]; auto. destruct j as [|j]; [rewrite Nat.add_0_r in Y; cbn in X; auto|]. right. exists j. split; auto. rewrite <- Y. f_equal. lia. }
      destruct g.
      + rewrite (rd_ok vmap k (-1)%Z) by lia. cbn [bind]. assert (RV : (-1 <= nth k vmap (-1) < Z.of_nat ncv)%Z) by (apply HV, nth_In; lia). destruct (Z.eqb_spec (nth k vmap (-1)%Z) (-1)) as [V|V].
        * apply ST; auto. intros c Hc. split; auto. intros [X|[_ X]]; auto. lia.
        * destruct (Z.ltb_spec (nth k vmap (-1)%Z) 0); [lia|]. rewrite wr_ok by lia. cbn [bind]. apply ST; [rewrite upd_length; auto|]. intros c Hc. destruct (Nat.eq_dec c (Z.to_nat (nth k vmap (-1)%Z))) as [->|NE].
          -- rewrite nth_upd_eq by lia. split; auto. intros _. right. split; auto. lia.
          -- rewrite nth_upd_neq by auto. split; auto. intros [X|[_ X]]; auto. lia.
      + apply ST; auto. intros c Hc. split; auto. intros [X|[X _]]; auto. discriminate. }
  destruct (G fgv O (repeat false ncv) HL (repeat_length _ _)) as (cgv & E & L & F). rewrite E. cbn [bind]. exists cgv. split; auto. split; auto. intros c Hc. rewrite F by auto. rewrite nth_repeat. split; [intros [X|X]; [discriminate|exact X]|auto].
Qed.
Print Assumptions C90_ghosts.

(** if every fine vertex is solid on one process, its owner, and the vertices of an agglomerate have the same owner, then a coarse vertex is solid on one process too.
    [vg], [cg]: global numbers of fine and coarse vertices; the lists fgvs (ghosts), vmaps (vertex maps), ncvs (numbers of coarse vertices), cgvs (coarse ghosts) have one entry per process *)
Record owned (fgvs : list (list bool)) (vmaps : list (list Z)) (ncvs : list nat) (vg cg : nat -> nat -> nat) (owner : nat -> nat) : Prop := mkOW {
  ow_map : forall p, (p < length fgvs)%nat -> length (nth p vmaps []) = length (nth p fgvs []) /\ forall v, In v (nth p vmaps []) -> (-1 <= v < Z.of_nat (nth p ncvs O))%Z;
  (* a vertex is solid on its owner only, and the owner has it *)
  ow_one : forall p k, (p < length fgvs)%nat -> (k < length (nth p fgvs []))%nat -> (owner (vg p k) < length fgvs)%nat /\ (nth k (nth p fgvs []) false = false <-> owner (vg p k) = p) /\
     exists k', (k' < length (nth (owner (vg p k)) fgvs []))%nat /\ vg (owner (vg p k)) k' = vg p k;
  (* the vertex maps of the processes fit, and a coarse vertex has a fine one *)
  ow_fit : forall p q k k', (p < length fgvs)%nat -> (q < length fgvs)%nat -> (k < length (nth p fgvs []))%nat -> (k' < length (nth q fgvs []))%nat -> vg p k = vg q k' ->
     let v := nth k (nth p vmaps []) (-1)%Z in let w := nth k' (nth q vmaps []) (-1)%Z in (v = -1 <-> w = -1)%Z /\ (v <> (-1)%Z -> cg p (Z.to_nat v) = cg q (Z.to_nat w));
  ow_onto : forall p c, (p < length fgvs)%nat -> (c < nth p ncvs O)%nat -> In (Z.of_nat c) (nth p vmaps []);
  (* the vertices of an agglomerate have one owner *)
  ow_agg : forall p q k k', (p < length fgvs)%nat -> (q < length fgvs)%nat -> (k < length (nth p fgvs []))%nat -> (k' < length (nth q fgvs []))%nat ->
     let v := nth k (nth p vmaps []) (-1)%Z in let w := nth k' (nth q vmaps []) (-1)%Z in v <> (-1)%Z -> w <> (-1)%Z -> cg p (Z.to_nat v) = cg q (Z.to_nat w) -> owner (vg p k) = owner (vg q k')
}.
Theorem C90_one_owner : forall fgvs vmaps ncvs cgvs vg cg owner, owned fgvs vmaps ncvs vg cg owner ->
  (forall p, (p < length fgvs)%nat -> coarse_ghosts (nth p fgvs []) (nth p vmaps []) (nth p ncvs O) = Ret (nth p cgvs [])) ->
  forall p c, (p < length fgvs)%nat -> (c < nth p ncvs O)%nat ->
    exists q, (q < length fgvs)%nat /\ (exists c', (c' < nth q ncvs O)%nat /\ cg q c' = cg p c /\ nth c' (nth q cgvs []) false = false) /\
      forall q' c', (q' < length fgvs)%nat -> (c' < nth q' ncvs O)%nat -> cg q' c' = cg p c -> nth c' (nth q' cgvs []) false = false -> q' = q.
Proof.
  intros fgvs vmaps ncvs cgvs vg cg owner [HP0 HO HF HS HA] HG p c Hp Hc.
  assert (HP : forall p, (p < length fgvs)%nat -> length (nth p vmaps []) = length (nth p fgvs []) /\ (forall v, In v (nth p vmaps []) -> (-1 <= v < Z.of_nat (nth p ncvs O))%Z) /\ coarse_ghosts (nth p fgvs []) (nth p vmaps []) (nth p ncvs O) = Ret (nth p cgvs [])) by (intros q Hq; destruct (HP0 q Hq); auto).
  assert (MEM : forall p c, (p < length fgvs)%nat -> (c < nth p ncvs O)%nat -> exists k, (k < length (nth p fgvs []))%nat /\ nth k (nth p vmaps []) (-1)%Z = Z.of_nat c).
  { intros p0 c0 Hp0 Hc0. destruct (In_nth _ _ (-1)%Z (HS p0 c0 Hp0 Hc0)) as (k & Hk & E). exists k. split; auto. destruct (HP p0 Hp0) as (X & _). lia. }
  assert (GH : forall p c, (p < length fgvs)%nat -> (c < nth p ncvs O)%nat -> (nth c (nth p cgvs []) false = true <-> exists k, nth k (nth p fgvs []) false = true /\ nth k (nth p vmaps []) (-1)%Z = Z.of_nat c)).
  { intros p0 c0 Hp0 Hc0. destruct (HP p0 Hp0) as (X1 & X2 & X3). destruct (C90_ghosts (nth p0 fgvs []) (nth p0 vmaps []) (nth p0 ncvs O)) as (cgv & E & _ & F); [lia|auto|]. rewrite E in X3. injection X3 as <-. apply F; auto. }
  destruct (MEM p c Hp Hc) as (k & Hk & Ek). destruct (HO p k Hp Hk) as (Ho & _ & (k1 & Hk1 & E1)). set (q := owner (vg p k)) in *. exists q. split; auto.
  destruct (HF p q k k1 Hp Ho Hk Hk1 (eq_sym E1)) as [F1 F2]. cbv zeta in *. rewrite Ek in *. specialize (F2 ltac:(lia)). rewrite Nat2Z.id in F2.
  assert (V1 : (0 <= nth k1 (nth q vmaps []) (-1) < Z.of_nat (nth q ncvs O))%Z). { destruct (HP q Ho) as (X1 & X2 & _). assert (X3 : (-1 <= nth k1 (nth q vmaps []) (-1) < Z.of_nat (nth q ncvs O))%Z) by (apply X2, nth_In; lia). destruct (Z.eq_dec (nth k1 (nth q vmaps []) (-1)%Z) (-1)%Z) as [Y|Y]; [apply F1 in Y|]; lia. }
  split.
  - exists (Z.to_nat (nth k1 (nth q vmaps []) (-1)%Z)). split; [lia|]. split; auto. destruct (nth (Z.to_nat (nth k1 (nth q vmaps []) (-1)%Z)) (nth q cgvs []) false) eqn:X; auto. exfalso.
    apply GH in X; [|auto|lia]. destruct X as (k2 & A & B). assert (Hk2 : (k2 < length (nth q fgvs []))%nat). { destruct (Nat.lt_ge_cases k2 (length (nth q fgvs []))); auto. rewrite nth_overflow in A by auto. discriminate. }
    destruct (HO q k2 Ho Hk2) as (_ & S2 & _). assert (OW : owner (vg q k2) = q). { symmetry. apply (HA p q k k2); auto; cbv zeta; rewrite ?Ek, ?B, ?Nat2Z.id; try lia. } apply S2 in OW. congruence.
  - intros q' c' Hq' Hc' CG SOL. destruct (MEM q' c' Hq' Hc') as (k2 & Hk2 & E2). destruct (HO q' k2 Hq' Hk2) as (_ & S2 & _).
    assert (OW : q = owner (vg q' k2)). { apply (HA p q' k k2); auto; cbv zeta; rewrite ?Ek, ?E2, ?Nat2Z.id; try lia. }
    rewrite OW. symmetry. apply S2. destruct (nth k2 (nth q' fgvs []) false) eqn:X; auto. exfalso. assert (nth c' (nth q' cgvs []) false = true) by (apply GH; auto; exists k2; auto). congruence.
Qed.
Print Assumptions C90_one_owner.

(** edges: a fine edge that is mapped to a coarse edge with unknowns has unknowns *)
Theorem C90_edges : forall fgv vmap ncv fedges cedges cgv fdes fd2e fe2d cdes cd2e ce2d k c,
  length fgv = length vmap -> (forall v, In v vmap -> (-1 <= v < Z.of_nat ncv)%Z) -> ends_ok (length fgv) fedges -> ends_ok ncv cedges ->
  coarse_ghosts fgv vmap ncv = Ret cgv -> SetUpDOFedEdges false (Some fgv) fedges = Ret (fdes, fd2e, fe2d) -> SetUpDOFedEdges false (Some cgv) cedges = Ret (cdes, cd2e, ce2d) ->
  (k < length fedges)%nat -> (c < length cedges)%nat ->
  (let v w e := nth (w (nth e fedges (O, O))) vmap (-1)%Z in let a := v fst k in let b := v snd k in let x := Z.of_nat (fst (nth c cedges (O, O))) in let y := Z.of_nat (snd (nth c cedges (O, O))) in (a = x /\ b = y) \/ (a = y /\ b = x)) ->
  nth c cdes false = true -> nth k fdes false = true.
Proof.
  intros fgv vmap ncv fedges cedges cgv fdes fd2e fe2d cdes cd2e ce2d k c HL HV HEf HEc EG EF EC Hk Hc HM D.
  destruct (C90_ghosts fgv vmap ncv ltac:(lia) HV) as (cgv' & E' & LC & GG). rewrite EG in E'. injection E' as <-.
  rewrite SetUp_ok in EF by auto. injection EF as <- <- <-. rewrite SetUp_ok in EC by (rewrite LC; auto). injection EC as <- <- <-.
  rewrite (nth_map_in _ _ k _ (O, O)) by auto. rewrite (nth_map_in _ _ c _ (O, O)) in D by auto. unfold solid in *. rewrite negb_true_iff, andb_false_iff in D. destruct (HEc _ (nth_In _ (O, O) Hc)) as [C1 C2]. cbv zeta in HM.
  destruct (nth (fst (nth k fedges (O, O))) fgv false) eqn:A; auto. destruct (nth (snd (nth k fedges (O, O))) fgv false) eqn:B; auto. exfalso.
  assert (X : forall cv, (cv < ncv)%nat -> (nth (fst (nth k fedges (O, O))) vmap (-1)%Z = Z.of_nat cv \/ nth (snd (nth k fedges (O, O))) vmap (-1)%Z = Z.of_nat cv) -> nth cv cgv false = true).
  { intros cv Hcv [Q|Q]; apply GG; auto; [exists (fst (nth k fedges (O, O)))|exists (snd (nth k fedges (O, O)))]; auto. }
  destruct D as [D|D]; rewrite X in D; try discriminate; auto; tauto.
Qed.
Print Assumptions C90_edges.
(** the two processes see vertices 0 1 2 3 of a row, process 0 owns 0 and 1, process 1 owns 2 and 3; pairs become coarse vertices *)
Example C90_nonvacuous : owned [[false; false; true; true]; [true; true; false; false]] [[0; 0; 1; 1]; [0; 0; 1; 1]]%Z [2; 2]%nat (fun _ k => k) (fun _ k => k) (fun g => if (g <? 2)%nat then 0%nat else 1%nat) /\
  coarse_ghosts [false; false; true; true] [0; 0; 1; 1]%Z 2 = Ret [false; true] /\ coarse_ghosts [true; true; false; false] [0; 0; 1; 1]%Z 2 = Ret [true; false].
Proof.
  split; [|split; vm_compute; reflexivity]. constructor.
  - intros p Hp. two2 p; (split; [reflexivity|intros v Hv; mems Hv; cbn; lia]).
  - intros p k Hp Hk. two2 p; cbn in Hk; (destruct k as [|[|[|[|k]]]]; [| | | |lia]); (split; [cbn; lia|]); (split; [cbn; split; intros; congruence || reflexivity|]); [exists 0%nat|exists 1%nat|exists 2%nat|exists 3%nat|exists 0%nat|exists 1%nat|exists 2%nat|exists 3%nat]; cbn; auto with arith; split; auto; lia.
  - intros p q k k' Hp Hq Hk Hk' <-. two2 p; two2 q; cbv zeta; cbn in Hk; (destruct k as [|[|[|[|k]]]]; [| | | |lia]); cbn; split; auto; tauto.
  - intros p c Hp Hc. two2 p; cbn in Hc; (destruct c as [|[|c]]; [| |lia]); cbn; tauto.
  - intros p q k k' Hp Hq Hk Hk'. two2 p; two2 q; cbn in Hk, Hk'; (destruct k as [|[|[|[|k]]]]; [| | | |lia]); (destruct k' as [|[|[|[|k']]]]; [| | | |lia]); cbn; intros; auto; discriminate.
Qed.
(** an agglomerate over two owners is solid on none of them *)
Example C90_two_owners : coarse_ghosts [false; true] [0; 0]%Z 1 = Ret [true] /\ coarse_ghosts [true; false] [0; 0]%Z 1 = Ret [true].
Proof. split; vm_compute; reflexivity. Qed.
