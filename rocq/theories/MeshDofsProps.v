(** C102: the dofs of a mesh are numbered edge after edge; contraction of the dofs of several meshes *)
From Verif Require Import Base ArraysModel ArraysProofs MeshDofsModel MeshDofsSpec MeshDofsProofs.
From Coq Require Import Lia.
Local Open Scope nat_scope.

Theorem C102_numbering : forall n calls, Forall (call_in n) calls ->
  let cnt := count_of calls in
  exists off, set_up n calls = Ret off /\ numbered n cnt off /\
    GetNDOF_all off = Ret (dofs_before cnt n) /\
    (forall e, e < n -> GetNDOF off e = Ret (cnt e) /\ GetDOFNrs off e = Ret (map (fun l => dofs_before cnt e + l) (seq 0 (cnt e))) /\ forall l, EdgeToDOF off e l = Ret (dofs_before cnt e + l)) /\
    (** every number below the total is the dof of one edge and one local number, which DOFToEdge finds *)
    forall d, d < dofs_before cnt n <-> exists e l, dof_of n cnt e l d /\ DOFToEdge off d = Ret e /\ forall e' l', dof_of n cnt e' l' d -> e' = e /\ l' = l.
Proof.
  intros n calls F cnt. unfold set_up.
  destruct (calls_ok n calls (Initialize n) (fun _ => 0) F) as (o & E1 & L1 & Z1 & A1). { unfold Initialize. apply repeat_length. } { intros. apply rep_nth. } { apply rep_nth. }
  rewrite E1. cbn [bind]. destruct (finalize_ok n cnt o L1 Z1 A1) as (off & E & N). exists off. split; auto. split; auto. split. now apply get_all. split.
  - intros e He. split. now apply (get_ndof n cnt). split. rewrite (get_nrs n cnt off N) by auto. f_equal. apply seq_as_map. intros l. now apply (get_dof n cnt off N).
  - intros d. split.
    + intros H. destruct (dof_exists cnt d n H) as (e & l & X). exists e, l. split; auto. split. destruct X as (X1 & X2 & ->). now apply (to_edge n cnt off N). intros e' l' Y. destruct (dof_unique n cnt e l e' l' d X Y). auto.
    + intros (e & l & X & _). exact (dof_bound n cnt e l d X).
Qed.

Theorem C102_sub : forall n cnt off es, numbered n cnt off -> Forall (fun e => e < n) es ->
  exists offs nums, SubDOFs off es = Ret (list_sum (map cnt es), offs, nums) /\ length offs = S (length es) /\ length nums = list_sum (map cnt es) /\
    (forall k, k <= length es -> nth k offs 0 = list_sum (map cnt (firstn k es))) /\
    forall k l, k < length es -> l < cnt (nth k es 0) -> nth (nth k offs 0 + l) nums 0 = dofs_before cnt (nth k es 0) + l.
Proof.
  intros n cnt off es N F. rewrite Forall_forall in F. unfold SubDOFs. set (m := length es).
  set (c := fun k => cnt (nth k es 0)).
  assert (FS : forall k, k <= m -> list_sum (map cnt (firstn k es)) = dofs_before c k).
  { intros k Hk. induction k as [|k IH]. reflexivity. rewrite before_S, <- IH by lia. unfold c. fold m in Hk.
    rewrite <- (firstn_skipn k es) at 3. assert (LE : k < length es) by (fold m; lia). rewrite <- (firstn_skipn k es) at 1.
    destruct (skipn k es) as [|x r] eqn:Q. { apply (f_equal (@length nat)) in Q. rewrite skipn_length in Q. cbn in Q. lia. }
    rewrite firstn_app, firstn_firstn, firstn_length_le by lia. replace (Nat.min (S k) k) with k by lia. replace (S k - k) with 1 by lia. cbn [firstn].
    rewrite map_app, list_sum_app. cbn. rewrite app_nth2; rewrite firstn_length_le by lia; auto. rewrite Nat.sub_diag. cbn. lia. }
  assert (NI : forall k, k < m -> nth k es 0 < n) by (intros k Hk; apply F, nth_In; auto).
  assert (G : forall k, k <= m -> exists o, foldM (fun offs k => e <- rd es k ;; c <- GetNDOF off e ;; a <- rd offs k ;; wr offs (S k) (a + c)) (seq 0 k) (repeat 0 (S m)) = Ret o /\ length o = S m /\ forall i, i <= k -> nth i o 0 = dofs_before c i).
  { induction k as [|k IH]; intros Hk. eexists. split. reflexivity. split. apply repeat_length. intros i Hi. replace i with 0 by lia. apply rep_nth.
    destruct (IH ltac:(lia)) as (o & E & Lo & P). rewrite seq_S, foldM_app, E. cbn [bind foldM plus]. rewrite (rd_ok es _ 0) by (fold m; lia). cbn [bind]. rewrite (get_ndof n cnt off N) by (apply NI; lia). cbn [bind]. rewrite (rd_ok o _ 0) by lia. cbn [bind]. rewrite wr_ok by lia. cbn [bind]. eexists. split. reflexivity. split. now rewrite upd_length.
    intros i Hi. destruct (Nat.eq_dec i (S k)) as [->|X]. rewrite nth_upd_eq by lia. rewrite before_S, P by lia. reflexivity. rewrite nth_upd_neq by lia. apply P. lia. }
  destruct (G m (Nat.le_refl m)) as (offs & E & Lo & P). rewrite E. cbn [bind]. rewrite (rd_ok offs _ 0) by lia. cbn [bind]. rewrite (P m) by lia.
  destruct (ranges_ok m c (fun k l => dofs_before cnt (nth k es 0) + l) (fun nums k => e <- rd es k ;; ds <- GetDOFNrs off e ;; a <- rd offs k ;; b <- rd offs (S k) ;; put_range a (firstn (b - a) ds) nums)) as (nums & E2 & L2 & P2).
  { intros k arr Hk La. rewrite (rd_ok es _ 0) by (fold m; lia). cbn [bind]. rewrite (get_nrs n cnt off N) by (apply NI; lia). cbn [bind]. rewrite (rd_ok offs k 0) by lia. cbn [bind]. rewrite (rd_ok offs (S k) 0) by lia. cbn [bind]. rewrite !P by lia. rewrite before_S. replace (dofs_before c k + c k - dofs_before c k) with (c k) by lia.
    rewrite firstn_all2 by (rewrite seq_length; unfold c; lia). f_equal. apply seq_as_map. }
  rewrite E2. cbn [bind]. pose proof (FS m (Nat.le_refl m)) as FM. unfold m in FM. rewrite firstn_all in FM. fold m in FM. exists offs, nums. rewrite FM. split; auto. split; auto. split; auto. split.
  - intros k Hk. rewrite FS by (fold m in Hk; lia). apply P. fold m in Hk. lia.
  - intros k l Hk Hl. fold m in Hk. rewrite P by lia. apply P2; auto.
Qed.

(** a member of a group: its edges (with cnt dofs each) become edges of the new mesh *)
Definition member_ok (nc : nat) (m : member) (cnt : nat -> nat) : Prop := numbered (length (m_map m)) cnt (m_off m) /\ Forall (fun ce => ce < nc) (m_map m).
(** N ce is the largest number of dofs of the edges that become ce *)
Definition largest (nc : nat) (ms : list member) (cnts : nat -> nat -> nat) (N : nat -> nat) : Prop :=
  forall ce, ce < nc -> (forall k l, k < length ms -> l < length (m_map (nth k ms {| m_map := []; m_off := [] |})) -> nth l (m_map (nth k ms {| m_map := []; m_off := [] |})) 0 = ce -> cnts k l <= N ce) /\
    (N ce = 0 \/ exists k l, k < length ms /\ l < length (m_map (nth k ms {| m_map := []; m_off := [] |})) /\ nth l (m_map (nth k ms {| m_map := []; m_off := [] |})) 0 = ce /\ cnts k l = N ce).
Local Notation no_member := {| m_map := []; m_off := [] |}.
Local Notation mem ms k := (nth k ms no_member).

Lemma member_count nc m cnt : member_ok nc m cnt -> forall c, length c = S nc ->
  exists c', count_member c m = Ret c' /\ length c' = S nc /\ nth 0 c' 0 = nth 0 c 0 /\
    forall ce, ce < nc -> nth (S ce) c 0 <= nth (S ce) c' 0 /\ (forall l, l < length (m_map m) -> nth l (m_map m) 0 = ce -> cnt l <= nth (S ce) c' 0) /\
      (nth (S ce) c' 0 = nth (S ce) c 0 \/ exists l, l < length (m_map m) /\ nth l (m_map m) 0 = ce /\ cnt l = nth (S ce) c' 0).
Proof.
  intros ((Lf & Pf) & F) c Lc. rewrite Forall_forall in F. unfold count_member.
  assert (G : forall k, k <= length (m_map m) -> exists c', foldM (count_edge m) (seq 0 k) c = Ret c' /\ length c' = S nc /\ nth 0 c' 0 = nth 0 c 0 /\
    forall ce, ce < nc -> nth (S ce) c 0 <= nth (S ce) c' 0 /\ (forall l, l < k -> nth l (m_map m) 0 = ce -> cnt l <= nth (S ce) c' 0) /\
      (nth (S ce) c' 0 = nth (S ce) c 0 \/ exists l, l < k /\ nth l (m_map m) 0 = ce /\ cnt l = nth (S ce) c' 0)).
  { induction k as [|k IH]; intros Hk. { exists c. repeat split; auto. intros; lia. }
    destruct (IH ltac:(lia)) as (c' & E & L & Z & P). rewrite seq_S, foldM_app, E. cbn [bind foldM plus]. unfold count_edge. rewrite (rd_ok (m_map m) _ 0) by lia. cbn [bind].
    assert (B : nth k (m_map m) 0 < nc) by (apply F, nth_In; lia). rewrite (rd_ok (m_off m) (S k) 0) by lia. cbn [bind]. rewrite (rd_ok (m_off m) k 0) by lia. cbn [bind]. rewrite (rd_ok c' _ 0) by lia. cbn [bind]. rewrite wr_ok by lia. cbn [bind].
    rewrite !Pf by lia. rewrite before_S. replace (dofs_before cnt k + cnt k - dofs_before cnt k) with (cnt k) by lia.
    eexists. split. reflexivity. split. now rewrite upd_length. split. rewrite nth_upd_neq by lia. auto.
    intros ce Hce. destruct (P ce Hce) as (P1 & P2 & P3). destruct (Nat.eq_dec (nth k (m_map m) 0) ce) as [EQ|X].
    - rewrite EQ. rewrite nth_upd_eq by lia. split. lia. split.
      + intros l Hl El. destruct (Nat.eq_dec l k) as [->|Y]. lia. specialize (P2 l ltac:(lia) El). lia.
      + destruct (Nat.max_spec (nth (S ce) c' 0) (cnt k)) as [(M1 & ->)|(M1 & ->)].
        * right. exists k. repeat split; auto; lia.
        * destruct P3 as [P3|(l & H1 & H2 & H3)]. left; auto. right. exists l. repeat split; auto; lia.
    - rewrite nth_upd_neq by lia. split. lia. split.
      + intros l Hl El. destruct (Nat.eq_dec l k) as [->|Y]. easy. apply P2; auto. lia.
      + destruct P3 as [P3|(l & H1 & H2 & H3)]. left; auto. right. exists l. repeat split; auto; lia. }
  apply (G (length (m_map m))). lia.
Qed.
Lemma members_count nc ms cnts : (forall k, k < length ms -> member_ok nc (mem ms k) (cnts k)) ->
  exists c, foldM count_member ms (repeat 0 (S nc)) = Ret c /\ length c = S nc /\ nth 0 c 0 = 0 /\ largest nc ms cnts (fun ce => nth (S ce) c 0).
Proof.
  intros A.
  assert (G : forall n, n <= length ms -> exists c, foldM count_member (firstn n ms) (repeat 0 (S nc)) = Ret c /\ length c = S nc /\ nth 0 c 0 = 0 /\
    forall ce, ce < nc -> (forall k l, k < n -> l < length (m_map (mem ms k)) -> nth l (m_map (mem ms k)) 0 = ce -> cnts k l <= nth (S ce) c 0) /\
      (nth (S ce) c 0 = 0 \/ exists k l, k < n /\ l < length (m_map (mem ms k)) /\ nth l (m_map (mem ms k)) 0 = ce /\ cnts k l = nth (S ce) c 0)).
  { induction n as [|n IH]; intros Hn. { eexists. split. reflexivity. split. apply repeat_length. split. apply rep_nth. intros ce Hce. split. intros; lia. left. apply rep_nth. }
    destruct (IH ltac:(lia)) as (c & E & L & Z & P). assert (Q : firstn (S n) ms = firstn n ms ++ [mem ms n]).
    { clear -Hn. revert n Hn; induction ms as [|x ms IH]; intros [|n] H; cbn in *; auto; try lia. f_equal. apply IH. lia. }
    rewrite Q, foldM_app, E. cbn [bind foldM]. destruct (member_count nc _ _ (A n ltac:(lia)) c L) as (c' & E' & L' & Z' & P'). rewrite E'. cbn [bind]. exists c'. split; auto. split; auto. split. congruence.
    intros ce Hce. destruct (P ce Hce) as (P1 & P2). destruct (P' ce Hce) as (X1 & X2 & X3). split.
    - intros k l Hk Hl El. destruct (Nat.eq_dec k n) as [->|Y]. now apply X2. specialize (P1 k l ltac:(lia) Hl El). lia.
    - destruct X3 as [X3|(l & H1 & H2 & H3)]. rewrite X3. destruct P2 as [P2|(k & l & H1 & H2 & H3 & H4)]. now left. right. exists k, l. repeat split; auto; lia. right. exists n, l. repeat split; auto; lia. }
  destruct (G (length ms) (Nat.le_refl _)) as (c & E & L & Z & P). rewrite firstn_all in E. exists c. repeat split; auto; apply (P ce H).
Qed.
Lemma mapM_out {A B} (f : A -> res B) (d : A) (db : B) l : (forall k, k < length l -> exists b, f (nth k l d) = Ret b) ->
  exists out, foldM (fun out m => b <- f m ;; Ret (out ++ [b])) l [] = Ret out /\ length out = length l /\ forall k, k < length l -> f (nth k l d) = Ret (nth k out db).
Proof.
  assert (G : forall l o, (forall k, k < length l -> exists b, f (nth k l d) = Ret b) ->
    exists out, foldM (fun out m => b <- f m ;; Ret (out ++ [b])) l o = Ret (o ++ out) /\ length out = length l /\ forall k, k < length l -> f (nth k l d) = Ret (nth k out db)).
  { clear l. induction l as [|x l IH]; intros o H; cbn [foldM]. exists []. rewrite app_nil_r. repeat split; auto. cbn. intros; lia.
    destruct (H 0 ltac:(cbn; lia)) as (b & Eb). cbn in Eb. rewrite Eb. cbn [bind]. destruct (IH (o ++ [b])) as (out & E & L & P). intros k Hk. apply (H (S k)). cbn. lia.
    exists (b :: out). rewrite E, <- app_assoc. split; auto. split. cbn; lia. intros [|k] Hk; cbn; auto. apply P. cbn in Hk. lia. }
  intros H. destruct (G l [] H) as (out & E & X). exists out. auto.
Qed.
Lemma dof_map_ok nc m cnt N coff : member_ok nc m cnt -> numbered nc N coff -> (forall l, l < length (m_map m) -> cnt l <= N (nth l (m_map m) 0)) ->
  exists dm, dof_map coff m = Ret dm /\ length dm = dofs_before cnt (length (m_map m)) /\ forall l i, l < length (m_map m) -> i < cnt l -> nth (dofs_before cnt l + i) dm 0 = dofs_before N (nth l (m_map m) 0) + i.
Proof.
  intros ((Lf & Pf) & F) NC LE. rewrite Forall_forall in F. unfold dof_map. rewrite (rd_ok _ _ 0) by lia. cbn [bind]. rewrite Lf. replace (S (length (m_map m)) - 1) with (length (m_map m)) by lia. rewrite Pf by lia.
  destruct (ranges_ok (length (m_map m)) cnt (fun l i => dofs_before N (nth l (m_map m) 0) + i) (map_dofs coff m)) as (dm & E & L & P).
  { intros k arr Hk La. unfold map_dofs. rewrite (rd_ok (m_map m) _ 0) by lia. cbn [bind]. rewrite (get_nrs nc N coff NC) by (apply F, nth_In; auto). cbn [bind]. rewrite (rd_ok (m_off m) k 0) by lia. cbn [bind]. rewrite (rd_ok (m_off m) (S k) 0) by lia. cbn [bind]. rewrite !Pf by lia. rewrite before_S. replace (dofs_before cnt k + cnt k - dofs_before cnt k) with (cnt k) by lia.
    rewrite firstn_seq by (apply LE; auto). f_equal. apply seq_as_map. }
  exists dm. auto.
Qed.

Theorem C102_contract : forall nc ms cnts, (forall k, k < length ms -> member_ok nc (mem ms k) (cnts k)) ->
  exists coff maps N, ContractMeshDOFs nc ms = Ret (coff, maps) /\ numbered nc N coff /\ largest nc ms cnts N /\ length maps = length ms /\
    (** dof i of edge l of member k becomes dof i of the new edge *)
    (forall k, k < length ms -> length (nth k maps []) = dofs_before (cnts k) (length (m_map (mem ms k))) /\
       forall l i d, dof_of (length (m_map (mem ms k))) (cnts k) l i d -> dof_of nc N (nth l (m_map (mem ms k)) 0) i (nth d (nth k maps []) 0)) /\
    (** every dof of the new mesh comes from a dof of a member *)
    (forall d, d < dofs_before N nc -> exists k d', k < length ms /\ d' < length (nth k maps []) /\ nth d' (nth k maps []) 0 = d) /\
    (** two dofs of members become the same dof if and only if they have the same number within the same new edge *)
    (forall k l i d k' l' i' d', k < length ms -> k' < length ms -> dof_of (length (m_map (mem ms k))) (cnts k) l i d -> dof_of (length (m_map (mem ms k'))) (cnts k') l' i' d' ->
       (nth d (nth k maps []) 0 = nth d' (nth k' maps []) 0 <-> nth l (m_map (mem ms k)) 0 = nth l' (m_map (mem ms k')) 0 /\ i = i')).
Proof.
  intros nc ms cnts A. unfold ContractMeshDOFs, coarse_offsets. destruct (members_count nc ms cnts A) as (c & E & L & Z & P). rewrite E. cbn [bind].
  destruct (finalize_ok nc (fun ce => nth (S ce) c 0) c L Z) as (coff & Ef & NC). auto. rewrite Ef. cbn [bind]. set (N := fun ce => nth (S ce) c 0) in *.
  assert (DM : forall k, k < length ms -> exists dm, dof_map coff (mem ms k) = Ret dm /\ length dm = dofs_before (cnts k) (length (m_map (mem ms k))) /\ forall l i, l < length (m_map (mem ms k)) -> i < cnts k l -> nth (dofs_before (cnts k) l + i) dm 0 = dofs_before N (nth l (m_map (mem ms k)) 0) + i).
  { intros k Hk. apply (dof_map_ok nc); auto. intros l Hl. destruct (A k Hk) as (_ & F). rewrite Forall_forall in F. apply (P (nth l (m_map (mem ms k)) 0)); auto. apply F, nth_In. auto. }
  destruct (mapM_out (dof_map coff) no_member [] ms) as (maps & Em & Lm & Pm). { intros k Hk. destruct (DM k Hk) as (dm & X & _). eauto. } rewrite Em. cbn [bind].
  assert (MP : forall k, k < length ms -> length (nth k maps []) = dofs_before (cnts k) (length (m_map (mem ms k))) /\
       forall l i d, dof_of (length (m_map (mem ms k))) (cnts k) l i d -> dof_of nc N (nth l (m_map (mem ms k)) 0) i (nth d (nth k maps []) 0)).
  { intros k Hk. destruct (DM k Hk) as (dm & X1 & X2 & X3). rewrite (Pm k Hk) in X1. injection X1 as X1. rewrite X1. split; auto. intros l i d (D1 & D2 & ->). destruct (A k Hk) as (_ & F). rewrite Forall_forall in F. split. apply F, nth_In; auto. split.
    - assert (B : cnts k l <= N (nth l (m_map (mem ms k)) 0)) by (apply (P (nth l (m_map (mem ms k)) 0)) with (l := l); auto; apply F, nth_In; auto). lia.
    - apply X3; auto. }
  exists coff, maps, N. split; auto. split; auto. split. exact P. split; auto. split; auto. split.
  - intros d Hd. destruct (dof_exists N d nc Hd) as (ce & i & D1 & D2 & D3). destruct (P ce D1) as (_ & [P2|(k & l & H1 & H2 & H3 & H4)]). cbv beta in P2; exfalso; revert D2 P2; unfold N; intros; cbv beta in *; lia.
    assert (D : dof_of (length (m_map (mem ms k))) (cnts k) l i (dofs_before (cnts k) l + i)). { split; auto. split; auto. rewrite H4. exact D2. }
    exists k, (dofs_before (cnts k) l + i). split; auto. destruct (MP k H1) as (M1 & M2). split. rewrite M1. exact (dof_bound _ _ _ _ _ D). destruct (M2 _ _ _ D) as (_ & _ & ->). rewrite H3. auto.
  - intros k l i d k' l' i' d' Hk Hk' D D'. apply (MP k Hk) in D. apply (MP k' Hk') in D'. split.
    + intros Q. rewrite Q in D. exact (dof_unique _ _ _ _ _ _ _ D D').
    + intros (Q1 & Q2). destruct D as (_ & _ & ->). destruct D' as (_ & _ & ->). congruence.
Qed.

(** four edges with 2, 0, 1, 3 dofs *)
Definition calls_x : list call := [SetNDOF 0 2; AddDOF 2; SetNDOF 3 1; AddDOF 3; AddDOF 3].
(** two members whose edges become four edges; the second has no dofs on an edge that the first has with two *)
Definition members_x : list member := [{| m_map := [2; 0; 1]; m_off := [0; 2; 5; 5] |}; {| m_map := [3; 2; 0]; m_off := [0; 1; 1; 4] |}].
Definition cnts_x (k l : nat) : nat := nth l (nth k [[2; 3; 0]; [1; 0; 3]] []) 0.
Example C102_ex : Forall (call_in 4) calls_x /\ set_up 4 calls_x = Ret [0; 2; 2; 3; 6] /\ DOFToEdge [0; 2; 2; 3; 6] 2 = Ret 2 /\ SubDOFs [0; 2; 2; 3; 6] [3; 1; 0] = Ret (5, [0; 3; 3; 5], [3; 4; 5; 0; 1]) /\
  (forall k, k < length members_x -> member_ok 4 (mem members_x k) (cnts_x k)) /\ ContractMeshDOFs 4 members_x = Ret ([0; 3; 3; 5; 6], [[3; 4; 0; 1; 2]; [5; 0; 1; 2]]).
Proof.
  split. { repeat constructor. } split. vm_compute. reflexivity. split. vm_compute. reflexivity. split. vm_compute. reflexivity. split; [|vm_compute; reflexivity].
  intros k Hk. do 2 (destruct k as [|k]; [split; [split; [reflexivity|intros e He; do 4 (destruct e as [|e]; [reflexivity|]); cbn in He; lia]|repeat constructor]|]). cbn in Hk. lia.
Qed.
Print Assumptions C102_numbering.
Print Assumptions C102_sub.
Print Assumptions C102_contract.
