(** C66-C68: handing dofs over to the master of a group (CtrMap). *)
From Verif Require Import Base ArraysModel AGroup LinAlg LinTools Instances MergeModel SparseModel SparseSpec SparseProofs SparseProofs2 SparseProofs3 CtrModel CtrProofs CtrProofs2 CtrProofs3 DofMapSpec.
From Coq Require Import Permutation Ring.
Open Scope nat_scope.

(** *** specification *)
(** the dof maps of a group (one per member, the master's first) into [nc] coarse dofs *)
Definition group_maps (nc : nat) (maps : list (list nat)) : Prop := maps <> [] /\ forall m d, In m maps -> In d m -> d < nc.
(** one vector per member, of the size of the member's dof map *)
Definition on_group {B : Blk} (maps : list (list nat)) (xs : list (list (X B))) : Prop := map (@length _) xs = map (@length _) maps.
(** the step with its communication buffers set up, as DOFMap::Finalize leaves it *)
Definition set_up (maps : list (list nat)) : ctr := SetUpMPIStuff (map (@length _) maps) (CtrMap maps).
(** the members other than the master that have dofs: each completes one request, in any order *)
Definition completion (maps : list (list nat)) (order : list nat) : Prop :=
  Permutation order (filter (fun k => 0 <? length (nth k maps [])) (seq 1 (length maps - 1))).
(** sum over all members k and their dofs j that are mapped to coarse dof i *)
Definition group_sum {B : Blk} (maps : list (list nat)) (xs : list (list (X B))) (i : nat) : X B :=
  xsum (length maps) (fun k => xsum (length (nth k maps [])) (fun j => if nth j (nth k maps []) 0 =? i then ent (nth k xs []) j else x0)).
(** the coarse entries a member sees *)
Definition seen {B : Blk} (map : list nat) (y : list (X B)) : list (X B) := List.map (fun d => ent y d) map.
(** inner product of group vectors *)
Definition group_dot {B : Blk} (xs ys : list (list (X B))) : K B := ksum (length xs) (fun k => vdot (nth k xs []) (nth k ys [])).

Section Facts.
  Context {B : Blk} (L : BlkLaws B).
  Add Ring KringC66 : (lawK B L).
  Let LX := lawX B L.
  Ltac agx := ag LX.
  Notation vec := (list (X B)).
  Lemma ready_up nc maps : group_maps nc maps -> ready nc (map (@length _) maps) (set_up maps).
  Proof. intros (H1 & H2). now apply SetUp_ready. Qed.
  Lemma maps_up maps : dof_maps (set_up maps) = maps.
  Proof. unfold set_up, SetUpMPIStuff, CtrMap. cbn [buffers dof_maps]. destruct (_ =? _); reflexivity. Qed.
  Lemma gathered_sum maps (xs : list vec) i : gathered maps xs i = group_sum maps xs i.
  Proof. reflexivity. Qed.
  Lemma addf2c nc maps order fac (xs : list vec) (y : vec) : group_maps nc maps -> on_group maps xs -> length y = nc -> completion maps order ->
    exists r, AddF2C (set_up maps) order fac xs y = Ret r /\ length r = nc /\ forall i, i < nc -> ent r i = xadd (ent y i) (xsc fac (group_sum maps xs i)).
  Proof.
    intros G O Hy C. destruct (AddF2C_ok L nc (map (@length _) maps) (set_up maps) order fac xs y) as (r & E & Hl & H); auto using ready_up.
    - unfold active. now rewrite maps_up.
    - exists r. split; auto. split; auto. intros i Hi. rewrite H by auto. now rewrite maps_up.
  Qed.
  Lemma f2c nc maps order (xs : list vec) : group_maps nc maps -> on_group maps xs -> completion maps order ->
    TransferF2C (set_up maps) order nc xs = Ret (map (group_sum maps xs) (seq 0 nc)).
  Proof.
    intros G O C. unfold TransferF2C. destruct (addf2c nc maps order k1 xs (vzero nc)) as (r & E & Hl & H); auto using vzero_length.
    rewrite E. f_equal. apply (vec_ext nc); auto. now rewrite map_length, seq_length. intros i Hi. rewrite H by auto. rewrite (ent_vzero), (sc_1 B L).
    unfold ent. rewrite (nth_map_seq (group_sum maps xs)) by auto. agx.
  Qed.
  Lemma c2f nc maps (xs : list vec) y : group_maps nc maps -> on_group maps xs -> length y = nc -> TransferC2F (set_up maps) xs y = Ret (map (fun m => seen m y) maps).
  Proof. intros G O Hy. rewrite (TransferC2F_ok nc (map (@length _) maps)); auto using ready_up. now rewrite maps_up. Qed.
  Lemma addc2f nc maps fac (xs : list vec) y : group_maps nc maps -> on_group maps xs -> length y = nc ->
    AddC2F (set_up maps) fac xs y = Ret (map (fun p => fst p +v vsc fac (seen (snd p) y)) (combine xs maps)).
  Proof. intros G O Hy. rewrite (AddC2F_ok L nc (map (@length _) maps)); auto using ready_up. now rewrite maps_up. Qed.
  Lemma on_group_nth maps (xs : list vec) : on_group maps xs -> length xs = length maps /\ forall k, length (nth k xs []) = length (nth k maps []).
  Proof. apply lens_nth. Qed.
  Lemma seen_length m (y : vec) : length (seen m y) = length m. Proof. apply map_length. Qed.
  Lemma ent_seen m (y : vec) j : j < length m -> ent (seen m y) j = ent y (nth j m 0).
  Proof. apply ent_scattered. Qed.
  Lemma nth_seen maps (y : vec) k : nth k (map (fun m => seen m y) maps) [] = seen (nth k maps []) y.
  Proof. change [] with (seen [] y) at 1. now rewrite (map_nth (fun m => seen m y)). Qed.
  Lemma group_adj nc maps (xs : list vec) (y : vec) : group_maps nc maps -> on_group maps xs -> length y = nc ->
    vdot (map (group_sum maps xs) (seq 0 nc)) y = group_dot xs (map (fun m => seen m y) maps).
  Proof.
    intros (Hn & Hd) O Hy. destruct (on_group_nth _ _ O) as (Hl & Hk). unfold group_dot. rewrite Hl.
    rewrite (vdot_ksum nc) by (rewrite ?map_length, ?seq_length; auto).
    rewrite (ksum_ext nc _ (fun i => ksum (length maps) (fun k => ksum (length (nth k maps [])) (fun j => if nth j (nth k maps []) 0 =? i then dot (ent (nth k xs []) j) (ent y i) else k0)))).
    2:{ intros i Hi. unfold ent at 1. rewrite (nth_map_seq (group_sum maps xs)) by auto. unfold group_sum. rewrite (dot_xsum L). apply ksum_ext. intros k _. rewrite (dot_xsum L). apply ksum_ext.
        intros j _. destruct (_ =? i); auto. apply (dot_0l L). }
    rewrite (ksum_swap L). apply ksum_ext. intros k Hkk. rewrite (ksum_swap L). rewrite nth_seen. rewrite (vdot_ksum (length (nth k maps []))) by (rewrite ?seen_length; auto).
    apply ksum_ext. intros j Hj. rewrite ent_seen by auto.
    rewrite (ksum_ext nc _ (fun i => if nth j (nth k maps []) 0 =? i then dot (ent (nth k xs []) j) (ent y (nth j (nth k maps []) 0)) else k0)).
    - apply (ksum_delta L). apply (Hd (nth k maps [])); now apply nth_In.
    - intros i _. destruct (Nat.eqb_spec (nth j (nth k maps []) 0) i) as [<-|]; auto.
  Qed.
End Facts.

(** C66: restriction sums the members' entries into the coarse dofs whatever the completion order, prolongation copies the
    coarse entries, the Add versions add a multiple, both are adjoint to each other *)
Theorem C66_redistribution_transfers : forall B, BlkLaws B -> forall nc maps, group_maps nc maps ->
  forall (xs : list (list (X B))) (y : list (X B)), on_group maps xs -> length y = nc ->
  (forall order, completion maps order ->
     (exists r, TransferF2C (set_up maps) order nc xs = Ret r /\ length r = nc /\ (forall i, i < nc -> ent r i = group_sum maps xs i) /\
        exists ys, TransferC2F (set_up maps) xs y = Ret ys /\ vdot r y = group_dot xs ys) /\
     (forall fac, exists r, AddF2C (set_up maps) order fac xs y = Ret r /\ length r = nc /\
        forall i, i < nc -> ent r i = xadd (ent y i) (xsc fac (group_sum maps xs i)))) /\
  (exists ys, TransferC2F (set_up maps) xs y = Ret ys /\ length ys = length maps /\ forall k, k < length maps -> nth k ys [] = seen (nth k maps []) y) /\
  (forall fac, exists ys, AddC2F (set_up maps) fac xs y = Ret ys /\ length ys = length maps /\
     forall k, k < length maps -> nth k ys [] = nth k xs [] +v vsc fac (seen (nth k maps []) y)) /\
  SetUpMPIStuff (map (@length _) maps) (set_up maps) = set_up maps.
Proof.
  intros B L nc maps G xs y O Hy. destruct (on_group_nth _ _ O) as (Hl & Hk). split; [|split; [|split]].
  - intros order C. split.
    + exists (map (group_sum maps xs) (seq 0 nc)). split; [now apply (f2c L)|]. split; [now rewrite map_length, seq_length|]. split.
      * intros i Hi. unfold ent. now rewrite (nth_map_seq (group_sum maps xs)).
      * exists (map (fun m => seen m y) maps). split; [now apply (c2f nc)|now apply (group_adj L)].
    + intros fac. now apply (addf2c L).
  - exists (map (fun m => seen m y) maps). split; [now apply (c2f nc)|]. split; [apply map_length|]. intros k Hkk. apply nth_seen.
  - intros fac. eexists. split; [now apply (addc2f L nc)|]. rewrite map_length, combine_length, Hl, Nat.min_id. split; auto. intros k Hkk.
    rewrite (nth_indep _ [] ((fun p : list (X B) * list nat => fst p +v vsc fac (seen (snd p) y)) ([], []))) by (rewrite map_length, combine_length; lia).
    rewrite (map_nth (fun p : list (X B) * list nat => fst p +v vsc fac (seen (snd p) y))). rewrite combine_nth by auto. reflexivity.
  - destruct (ready_up nc maps G) as (_ & _ & _ & _ & H1 & H2 & _). now apply SetUp_again.
Qed.

(** three members with 2, 0 and 3 dofs, 4 coarse dofs *)
Definition maps3 : list (list nat) := [[2; 0]; []; [1; 2; 3]].
Example C66_ex : group_maps 4 maps3 /\ on_group (B:=ZBlk) maps3 [[10; 20]; []; [1; 2; 3]]%Z /\ completion maps3 [2] /\
  TransferF2C (B:=ZBlk) (set_up maps3) [2] 4 [[10; 20]; []; [1; 2; 3]]%Z = Ret [20; 1; 12; 3]%Z /\
  TransferC2F (B:=ZBlk) (set_up maps3) [[0; 0]; []; [0; 0; 0]]%Z [5; 6; 7; 8]%Z = Ret [[7; 5]; []; [6; 7; 8]]%Z /\
  AddC2F (B:=ZBlk) (set_up maps3) 2%Z [[1; 1]; []; [0; 0; 0]]%Z [5; 6; 7; 8]%Z = Ret [[15; 11]; []; [12; 14; 16]]%Z.
Proof.
  split; [split; [discriminate|]|]. { intros m d [<-|[<-|[<-|[]]]]; simpl; intuition lia. }
  split; [reflexivity|]. split; [apply Permutation_refl|]. vm_compute. auto.
Qed.
Print Assumptions C66_redistribution_transfers.

(** *** C67 *)
(** one square matrix per member on the member's dofs, no column twice in a row *)
Definition group_mats {E} (maps : list (list nat)) (mats : list (smat E)) : Prop :=
  length mats = length maps /\ forall k, k < length maps -> length (nth k mats []) = length (nth k maps []) /\
    width_ok (length (nth k maps [])) (nth k mats []) /\ forall r, In r (nth k mats []) -> NoDup (cols r).

Section AsmFacts.
  Context {E : Type} (e0 : E) (eadd : E -> E -> E) (CM : CMon e0 eadd).
  Variables (maps : list (list nat)) (mats : list (smat E)) (w : nat).
  Hypothesis HM : group_maps w maps.
  Hypothesis HA : group_mats maps mats.
  Hypothesis HN : forall m, In m maps -> NoDup m.
  Lemma ga_len : length mats = length maps. Proof. apply HA. Qed.
  Lemma ga_rows k : length (nth k mats []) = length (nth k maps []).
  Proof. destruct HA as (H1 & H2). destruct (Nat.lt_ge_cases k (length maps)). now apply H2. rewrite !nth_overflow by lia. reflexivity. Qed.
  Lemma ga_cols k j c : In c (cols (nth j (nth k mats []) [])) -> c < length (nth k maps []).
  Proof.
    intros H. destruct HA as (H1 & H2). apply in_map_iff in H as (e & <- & He). destruct (Nat.lt_ge_cases k (length maps)) as [Hk|Hk].
    - destruct (H2 k Hk) as (Hr & Hw & _). destruct (Nat.lt_ge_cases j (length (nth k mats []))) as [Hj|Hj].
      + apply (Hw (nth j (nth k mats []) [])); auto. now apply nth_In.
      + rewrite (nth_overflow (nth k mats [])) in He by auto. destruct He.
    - rewrite (nth_overflow mats) in He by lia. destruct j; destruct He.
  Qed.
  Lemma ga_nd k j : NoDup (cols (nth j (nth k mats []) [])).
  Proof.
    destruct HA as (H1 & H2). destruct (Nat.lt_ge_cases k (length maps)) as [Hk|Hk].
    - destruct (Nat.lt_ge_cases j (length (nth k mats []))) as [Hj|Hj].
      + apply (H2 k Hk). now apply nth_In. + rewrite (nth_overflow (nth k mats [])) by auto. constructor.
    - rewrite (nth_overflow mats) by lia. destruct j; constructor.
  Qed.
End AsmFacts.

Theorem C67_contracted_matrix : forall B, BlkLaws B -> CMon (@m0 B) madd -> forall nc maps (mats : list (smat (M B))),
  group_maps nc maps -> (forall m, In m maps -> NoDup m) -> (Z.of_nat nc <= INT_MAX)%Z -> group_mats maps mats ->
  exists C, AssembleMatrix m0 madd nc maps mats = Ret C /\ length C = nc /\ width_ok nc C /\ (forall r, In r C -> StronglySorted lt (cols r)) /\
    (* pattern and entries *)
    (forall i j, i < nc -> In j (cols (nth i C [])) <-> exists k a b, k < length maps /\ a < length (nth k maps []) /\ nth a (nth k maps []) 0 = i /\
       In b (cols (nth a (nth k mats []) [])) /\ nth b (nth k maps []) 0 = j) /\
    (forall i j, i < nc -> @entry B C i j = sumN m0 madd (length maps) (fun k => let m := nth k maps [] in
       sumN m0 madd (length m) (fun a => if nth a m 0 =? i then sumN m0 madd (length m) (fun b => if nth b m 0 =? j then @entry B (nth k mats []) a b else m0) else m0))) /\
    (* the operator *)
    (forall y order, length y = nc -> completion maps order -> exists ys, TransferC2F (set_up maps) (map (fun m => vzero (length m)) maps) y = Ret ys /\
       TransferF2C (set_up maps) order nc (map (fun p => matvec (fst p) (snd p)) (combine mats ys)) = Ret (matvec C y)) /\
    (forall y z, length y = nc -> length z = nc ->
       vdot (matvec C y) z = ksum (length maps) (fun k => vdot (matvec (nth k mats []) (seen (nth k maps []) y)) (seen (nth k maps []) z))) /\
    ((forall k, k < length maps -> sym_mat (length (nth k maps [])) (nth k mats [] : @spmat B)) -> forall y z, length y = nc -> length z = nc ->
       vdot (matvec C y) z = vdot y (matvec C z)).
Proof.
  intros B L CM nc maps mats G HN HI HA. pose proof G as (Gn & Gd).
  destruct (Assemble_ok m0 madd CM maps mats nc (ga_len maps mats HA) (ga_rows maps mats HA) (ga_cols maps mats HA) (ga_nd maps mats HA) HN Gd HI) as (C & E & Cl & CR).
  exists C. split; auto. split; auto.
  assert (PAT : forall i j, i < nc -> In j (cols (nth i C [])) <-> exists k a b, k < length maps /\ a < length (nth k maps []) /\ nth a (nth k maps []) 0 = i /\
       In b (cols (nth a (nth k mats []) [])) /\ nth b (nth k maps []) 0 = j).
  { intros i j Hi. destruct (CR i Hi) as (_ & P & _). rewrite P. split.
    - intros ((k & a) & H1 & H2). apply in_rmi in H1 as ((V1 & V2) & V3). cbn [fst snd] in *. unfold RM, R in H2. cbn [fst snd] in H2. rewrite cols_renum in H2.
      apply in_map_iff in H2 as (b & H3 & H4). exists k, a, b. auto.
    - intros (k & a & b & H1 & H2 & H3 & H4 & H5). exists (k, a). split. { apply in_rmi. split; auto. split; auto. }
      unfold RM, R. cbn [fst snd]. rewrite cols_renum. apply in_map_iff. eauto. }
  assert (W : width_ok nc C).
  { intros r p Hr Hp. apply (In_nth _ _ []) in Hr as (i & Hi0 & <-). assert (Hi : i < nc) by (rewrite <- Cl; exact Hi0).
    assert (Hj : In (fst p) (cols (nth i C []))) by now apply in_map. apply (PAT i _ Hi) in Hj as (k & a & b & H1 & _ & _ & H4 & <-).
    apply (Gd (nth k maps [])). now apply nth_In. apply nth_In. now apply (ga_cols maps mats HA k a). }
  assert (ENT : forall i j, i < nc -> @entry B C i j = sumN m0 madd (length maps) (fun k => let m := nth k maps [] in
       sumN m0 madd (length m) (fun a => if nth a m 0 =? i then sumN m0 madd (length m) (fun b => if nth b m 0 =? j then @entry B (nth k mats []) a b else m0) else m0))).
  { intros i j Hi. etransitivity; [|exact (items_entry m0 madd CM maps mats (ga_cols maps mats HA) i j)]. now apply CR. }
  split; auto. split. { intros r Hr. apply (In_nth _ _ []) in Hr as (i & Hi0 & <-). assert (Hi : i < nc) by (rewrite <- Cl; exact Hi0). now apply CR. }
  split; auto. split; auto.
  assert (WA : forall k, k < length maps -> @wf_mat B (length (nth k maps [])) (length (nth k maps [])) (nth k mats [])).
  { intros k Hk. destruct HA as (_ & H). destruct (H k Hk) as (H1 & H2 & _). pose proof (width_wf (length (nth k maps [])) (nth k mats []) H2) as W1. now rewrite H1 in W1. }
  assert (ACT : forall y i, i < nc -> ent (matvec C y) i = xsum (length maps) (fun k => xsum (length (nth k maps [])) (fun a => if nth a (nth k maps []) 0 =? i then ent (matvec (nth k mats []) (seen (nth k maps []) y)) a else x0))).
  { intros y i Hi. assert (WC : wf_mat nc nc (C : @spmat B)) by (rewrite <- Cl at 1; now apply width_wf).
    rewrite (matvec_entries L C nc nc) by auto. rewrite !(xsum_sumN L).
    rewrite (sumN_ext' x0 xadd nc _ (fun j => sumN x0 xadd (length maps) (fun k => sumN x0 xadd (length (nth k maps [])) (fun a => if nth a (nth k maps []) 0 =? i then
       sumN x0 xadd (length (nth k maps [])) (fun b => if nth b (nth k maps []) 0 =? j then act (@entry B (nth k mats []) a b) (ent y j) else x0) else x0)))).
    2:{ intros j Hj. rewrite ENT by auto. rewrite (act_sumN L). apply sumN_ext'. intros k Hk. rewrite (act_sumN L). apply sumN_ext'. intros a Ha. destruct (_ =? i); [|apply (act_m0 B L)].
        rewrite (act_sumN L). apply sumN_ext'. intros b Hb. destruct (_ =? j); [reflexivity|apply (act_m0 B L)]. }
    rewrite (sumN_swap _ _ (CM_X L)). apply sumN_ext'. intros k Hk. rewrite (sumN_swap _ _ (CM_X L)). rewrite (xsum_sumN L). apply sumN_ext'. intros a Ha.
    destruct (_ =? i). 2:{ apply (sumN_0 _ _ (CM_X L)). }
    rewrite (sumN_swap _ _ (CM_X L)). rewrite (matvec_entries L _ _ _ _ _ (WA k Hk)), (xsum_sumN L). apply sumN_ext'. intros b Hb. rewrite ent_seen by auto.
    rewrite <- (sumN_single _ _ (CM_X L) nc (nth b (nth k maps []) 0) (fun j => act (@entry B (nth k mats []) a b) (ent y j))).
    - apply sumN_ext'. intros j Hj. reflexivity. - apply (Gd (nth k maps [])); now apply nth_In. }
  assert (ONG : forall y : list (X B), on_group maps (map (fun p => matvec (fst p) (snd p)) (combine mats (map (fun m => seen m y) maps)))).
  { intros y. unfold on_group. destruct HA as (H1 & H2). apply (nth_ext _ _ 0 0). { rewrite !map_length, combine_length, map_length. lia. }
    rewrite map_length, map_length, combine_length, map_length, H1, Nat.min_id. intros k Hk. rewrite map_map.
    rewrite (nth_indep _ 0 ((fun p : smat (M B) * list (X B) => length (matvec (fst p) (snd p))) ([], []))) by (rewrite map_length, combine_length, map_length; lia).
    rewrite (map_nth (fun p : smat (M B) * list (X B) => length (matvec (fst p) (snd p)))). rewrite combine_nth by now rewrite map_length. cbn [fst].
    rewrite matvec_length. rewrite nth_lens. now apply H2. }
  assert (GS : forall y, length y = nc -> map (group_sum maps (map (fun p => matvec (fst p) (snd p)) (combine mats (map (fun m => seen m y) maps)))) (seq 0 nc) = matvec C y).
  { intros y Hy. apply (vec_ext nc). now rewrite map_length, seq_length. now rewrite matvec_length.
    intros i Hi. rewrite ACT by auto. unfold ent at 1. rewrite (nth_map_seq (group_sum _ _)) by auto. unfold group_sum. apply xsum_ext. intros k Hk. apply xsum_ext. intros a Ha.
    destruct (_ =? i); auto. f_equal. rewrite (nth_indep _ [] ((fun p : smat (M B) * list (X B) => matvec (fst p) (snd p)) ([], []))) by (rewrite map_length, combine_length, map_length; destruct HA; lia).
    rewrite (map_nth (fun p : smat (M B) * list (X B) => matvec (fst p) (snd p))). rewrite combine_nth by (rewrite map_length; apply HA). cbn [fst snd]. now rewrite nth_seen. }
  assert (EN : forall y z, length y = nc -> length z = nc -> vdot (matvec C y) z = ksum (length maps) (fun k => vdot (matvec (nth k mats []) (seen (nth k maps []) y)) (seen (nth k maps []) z))).
  { intros y z Hy Hz. rewrite <- (GS y Hy). rewrite (group_adj L) by auto. unfold group_dot. rewrite map_length, combine_length, map_length, (ga_len maps mats HA), Nat.min_id.
    apply ksum_ext. intros k Hk. rewrite nth_seen. f_equal.
    rewrite (nth_indep _ [] ((fun p : smat (M B) * list (X B) => matvec (fst p) (snd p)) ([], []))) by (rewrite map_length, combine_length, map_length; destruct HA; lia).
    rewrite (map_nth (fun p : smat (M B) * list (X B) => matvec (fst p) (snd p))). rewrite combine_nth by (rewrite map_length; apply HA). cbn [fst snd]. now rewrite nth_seen. }
  split; [|split]; auto.
  - intros y order Hy Ho. exists (map (fun m => seen m y) maps). split.
    + apply (c2f nc); auto. unfold on_group. rewrite map_map. apply map_ext. intros m. apply vzero_length.
    + rewrite (f2c L) by auto. f_equal. now apply GS.
  - intros HS y z Hy Hz. rewrite EN by auto. rewrite (vdot_comm L y). rewrite EN by auto. apply ksum_ext. intros k Hk.
    rewrite (matvec_self_adjoint L (length (nth k maps []))) by (auto using seen_length). apply (vdot_comm L).
Qed.
(** two members; the matrices overlap in coarse dofs 1 and 2 *)
Definition maps2 : list (list nat) := [[2; 0; 1]; [1; 3; 2]].
Definition mats2 : list (smat Z) := [[[(0, (4)%Z); (1, (-1)%Z)]; [(0, (-1)%Z); (1, (5)%Z); (2, (2)%Z)]; [(1, (2)%Z); (2, (6)%Z)]]; [[(0, (7)%Z); (2, (-3)%Z)]; [(1, (9)%Z)]; [(0, (-3)%Z); (2, (8)%Z)]]].
Example C67_ex : group_maps 4 maps2 /\ (forall m, In m maps2 -> NoDup m) /\ group_mats maps2 mats2 /\
  AssembleMatrix 0%Z Z.add 4 maps2 mats2 =
    Ret [[(0, (5)%Z); (1, (2)%Z); (2, (-1)%Z)]; [(0, (2)%Z); (1, (13)%Z); (2, (-3)%Z)]; [(0, (-1)%Z); (1, (-3)%Z); (2, (12)%Z)]; [(3, (9)%Z)]].
Proof.
  split; [split; [discriminate|]|]. { intros m d [<-|[<-|[]]]; simpl; intuition lia. }
  split. { intros m [<-|[<-|[]]]; repeat constructor; simpl; intuition lia. }
  split. { split; [reflexivity|]. intros k Hk. destruct k as [|k]; [|destruct k as [|k]; [|simpl in Hk; lia]].
    all: split; [reflexivity|]; split; [intros r p Hr Hp; simpl in Hr; decompose [or] Hr; subst; try contradiction; simpl in Hp; decompose [or] Hp; subst; try contradiction; simpl; lia|].
    all: intros r Hr; simpl in Hr; decompose [or] Hr; subst; try contradiction; repeat constructor; simpl; intuition lia. }
  vm_compute. reflexivity.
Qed.
Print Assumptions C67_contracted_matrix.

(** *** C68 *)
Section Swap.
  Context {B : Blk} (L : BlkLaws B) (CM : CMon (@m0 B) madd).
  Notation vec := (list (X B)). Notation mat := (smat (M B)).
  Lemma mtr_sumN n (f : nat -> M B) : mtr (sumN m0 madd n f) = sumN m0 madd n (fun k => mtr (f k)).
  Proof. apply (sumN_hom _ _ m0 madd mtr); [apply (mtr_m0 B L)|intros; apply (mtr_madd B L)]. Qed.
  (** one member *)
  Definition chunk_ok (P : mat) (m : list nat) (q : list nat * mat) : Prop :=
    length (snd q) = length m /\ width_ok (length (fst q)) (snd q) /\ forall a, a < length m -> renum (fst q) (nth a (snd q) []) = nth (nth a m 0) P [].
  Lemma row_wf w (A : mat) a c : width_ok w A -> In c (cols (nth a A [])) -> c < w.
  Proof.
    intros W H. apply in_map_iff in H as (e & <- & He). destruct (Nat.lt_ge_cases a (length A)).
    - apply (W (nth a A [])); auto. now apply nth_In. - rewrite nth_overflow in He by auto. destruct He.
  Qed.
  Lemma chunk_act P m q (y : vec) : (forall d, In d m -> d < length P) -> chunk_ok P m q -> matvec (snd q) (seen (fst q) y) = seen m (matvec P y).
  Proof.
    intros Hd (H1 & H2 & H3). apply (vec_ext (length m)). now rewrite matvec_length. apply seen_length.
    intros a Ha. rewrite ent_seen by auto. rewrite !ent_matvec. unfold getrow. rewrite <- H3 by auto. symmetry. apply (row_times_renum L).
    intros c Hc. now apply (row_wf _ (snd q) a).
  Qed.
  Lemma chunk_tr w P T m q Tq (x : vec) i : width_ok w P -> (forall d, In d m -> d < length P) -> chunk_ok P m q -> transposed (length P) w P T -> transposed (length m) (length (fst q)) (snd q) Tq -> length x = length m -> i < w ->
    xsum (length P) (fun a => act (entry T i a) (xsum (length m) (fun j => if nth j m 0 =? a then ent x j else x0))) =
    xsum (length (fst q)) (fun b => if nth b (fst q) 0 =? i then ent (matvec Tq x) b else x0).
  Proof.
    intros W Hd (H1 & H2 & H3) (T1 & T2 & T3) (U1 & U2 & U3) Hx Hi. set (nd := fst q) in *. set (ch := snd q) in *.
    pose proof (CM_X L) as CX. rewrite !(xsum_sumN L).
    rewrite (sumN_ext' x0 xadd (length P) _ (fun a => sumN x0 xadd (length m) (fun j => if nth j m 0 =? a then act (mtr (@entry B P a i)) (ent x j) else x0))).
    2:{ intros a Ha. rewrite (xsum_sumN L), (act_sumN_r L). apply sumN_ext'. intros j Hj. rewrite T3 by auto. destruct (_ =? a); auto. apply (act_x0 L). }
    rewrite (sumN_swap _ _ CX).
    rewrite (sumN_ext' x0 xadd (length m) _ (fun j => sumN x0 xadd (length nd) (fun b => if nth b nd 0 =? i then act (mtr (@entry B ch j b)) (ent x j) else x0))).
    2:{ intros j Hj. assert (Hmj : nth j m 0 < length P) by (apply Hd; now apply nth_In).
        rewrite (sumN_single _ _ CX (length P) (nth j m 0) (fun a => act (mtr (@entry B P a i)) (ent x j))) by auto.
        assert (EE : @entry B P (nth j m 0) i = sumN m0 madd (length nd) (fun b => if nth b nd 0 =? i then @entry B ch j b else m0)).
        { unfold entry at 1, getrow. rewrite <- H3 by auto. apply (rent_renum m0 madd CM). intros c Hc. now apply (row_wf _ ch j). }
        rewrite EE, mtr_sumN, (act_sumN L). apply sumN_ext'. intros b Hb. destruct (_ =? i); auto. rewrite (mtr_m0 B L). apply (act_m0 B L). }
    rewrite (sumN_swap _ _ CX). apply sumN_ext'. intros b Hb. destruct (_ =? i). 2:{ apply (sumN_0 _ _ CX). }
    pose proof (width_wf (length m) Tq U2) as WT. rewrite (matvec_entries L _ _ _ _ _ WT), (xsum_sumN L). apply sumN_ext'. intros j Hj. now rewrite U3.
  Qed.
End Swap.

(** the chunks of a prolongation of width [w] for the members, and the new dof maps *)
Theorem C68_swap_with_prolongation : forall B, BlkLaws B -> CMon (@m0 B) madd -> forall nc maps w (P : smat (M B)),
  group_maps nc maps -> length P = nc -> width_ok w P ->
  exists maps' chunks, SwapWithProl w P (CtrMap maps) = Ret (CtrMap maps', chunks) /\ group_maps w maps' /\ length maps' = length maps /\ length chunks = length maps /\
    (forall k, k < length maps -> StronglySorted lt (nth k maps' []) /\ length (nth k chunks []) = length (nth k maps []) /\ width_ok (length (nth k maps' [])) (nth k chunks []) /\
       forall c, In c (nth k maps' []) <-> exists d, In d (nth k maps []) /\ In c (cols (nth d P []))) /\
    (* prolongating with P and handing down the result = handing down and prolongating with the chunks *)
    (forall y, length y = w -> exists ys, TransferC2F (set_up maps') (map (fun m => vzero (length m)) maps') y = Ret ys /\
       TransferC2F (set_up maps) (map (fun m => vzero (length m)) maps) (matvec P y) = Ret (map (fun p => matvec (fst p) (snd p)) (combine chunks ys))) /\
    (* the same for the restrictions *)
    (forall T Ts, transposed nc w P T -> length Ts = length maps -> (forall k, k < length maps -> transposed (length (nth k maps [])) (length (nth k maps' [])) (nth k chunks []) (nth k Ts [])) ->
       forall xs order order', on_group maps xs -> completion maps order -> completion maps' order' ->
       exists r, TransferF2C (set_up maps) order nc xs = Ret r /\
         TransferF2C (set_up maps') order' w (map (fun p => matvec (fst p) (snd p)) (combine Ts xs)) = Ret (matvec T r)).
Proof.
  intros B L CM nc maps w P G HP W. pose proof G as (Gn & Gd).
  assert (HG : forall m, In m maps -> exists q, CtrModel.get_rows w P m = Ret q /\ chunk_ok P m q /\ StronglySorted lt (fst q) /\ (forall c, In c (fst q) -> c < w) /\
     forall c, In c (fst q) <-> exists d, In d m /\ In c (cols (nth d P []))).
  { intros m Hm. destruct (get_rows_ok w P m W) as (nd & ch & E & H1 & H2 & H3 & H4 & H5 & H6). { intros d Hd. rewrite HP. now apply (Gd m). }
    exists (nd, ch). split; auto. split; auto. split; auto. }
  assert (HQ : exists qs, mapM (CtrModel.get_rows w P) maps = Ret qs /\ Forall2 (fun m q => chunk_ok P m q /\ StronglySorted lt (fst q) /\ (forall c, In c (fst q) -> c < w) /\
     forall c, In c (fst q) <-> exists d, In d m /\ In c (cols (nth d P []))) maps qs).
  { clear Gn G Gd. induction maps as [|m ms IH]. exists []. split; [reflexivity|constructor]. destruct (HG m) as (q & E & H); [now left|].
    destruct IH as (qs & Eq & Hq). { intros m' Hm'. apply HG. now right. } exists (q :: qs). cbn [mapM]. rewrite E, Eq. split; [reflexivity|]. constructor; auto. }
  destruct HQ as (qs & Eq & HQ). set (maps' := map fst qs). set (chunks := map snd qs).
  assert (Lq : length qs = length maps). { clear - HQ. induction HQ; simpl; auto. }
  assert (HK : forall k, k < length maps -> let q := nth k qs ([], []) in chunk_ok P (nth k maps []) q /\ StronglySorted lt (fst q) /\ (forall c, In c (fst q) -> c < w) /\
     forall c, In c (fst q) <-> exists d, In d (nth k maps []) /\ In c (cols (nth d P []))).
  { clear - HQ. induction HQ as [|m q ms qs H HQ IH]; intros k Hk; [simpl in Hk; lia|]. destruct k; [exact H|]. simpl in Hk. apply (IH k). lia. }
  assert (NM : forall k, nth k maps' [] = fst (nth k qs ([], []))). { intros k. unfold maps'. change [] with (fst (@nil nat, @nil (srow (M B)))) at 1. apply map_nth. }
  assert (NC : forall k, nth k chunks [] = snd (nth k qs ([], []))). { intros k. unfold chunks. change [] with (snd (@nil nat, @nil (srow (M B)))) at 1. apply map_nth. }
  assert (G' : group_maps w maps').
  { split. { unfold maps'. destruct qs; [destruct maps; [congruence|discriminate]|discriminate]. }
    intros m d Hm Hd. apply (In_nth _ _ []) in Hm as (k & Hk & <-). unfold maps' in Hk. rewrite map_length, Lq in Hk. rewrite NM in Hd. now apply (HK k Hk). }
  assert (Lm : length maps' = length maps) by (unfold maps'; now rewrite map_length).
  assert (Lc : length chunks = length maps) by (unfold chunks; now rewrite map_length).
  exists maps', chunks. split.
  { unfold SwapWithProl. cbn [dof_maps CtrMap]. rewrite Eq. cbn [bind mpi_types buffers mem_buffers CtrMap]. fold maps' chunks. f_equal. f_equal. unfold CtrMap. f_equal. clear - Lm.
    revert maps Lm. induction maps' as [|a l IH]; intros [|b l'] H; simpl in *; try discriminate; auto. f_equal. apply IH. lia. }
  split; auto. split; auto. split; auto. split; [|split].
  - intros k Hk. rewrite NM, NC. destruct (HK k Hk) as ((H1 & H2 & H3) & H4 & H5 & H6). auto.
  - intros y Hy. exists (map (fun m => seen m y) maps'). split.
    { apply (c2f w); auto. unfold on_group. rewrite map_map. apply map_ext. intros m. apply vzero_length. }
    rewrite (c2f nc); auto. 2:{ unfold on_group. rewrite map_map. apply map_ext. intros m. apply vzero_length. } 2:{ now rewrite matvec_length. }
    f_equal. apply (nth_ext _ _ [] []). { rewrite !map_length, combine_length, map_length. lia. }
    rewrite map_length. intros k Hk. rewrite nth_seen.
    rewrite (nth_indep (map (fun p => matvec (fst p) (snd p)) _) [] ((fun p : smat (M B) * list (X B) => matvec (fst p) (snd p)) ([], []))) by (rewrite map_length, combine_length, map_length; lia).
    rewrite (map_nth (fun p : smat (M B) * list (X B) => matvec (fst p) (snd p))). rewrite combine_nth by (rewrite map_length; transitivity (length maps); [exact Lc|now symmetry]). cbn [fst snd]. rewrite nth_seen, NM, NC.
    symmetry. apply (chunk_act L). { intros d Hd. rewrite HP. apply (Gd (nth k maps [])); auto. now apply nth_In. } now apply HK.
  - intros T Ts HT HTl HTk xs order order' O Ho Ho'. destruct (on_group_nth _ _ O) as (Hl & Hxk).
    exists (map (group_sum maps xs) (seq 0 nc)). split; [now apply (f2c L)|].
    assert (NT : forall k, k < length maps -> nth k (map (fun p : smat (M B) * list (X B) => matvec (fst p) (snd p)) (combine Ts xs)) [] = matvec (nth k Ts []) (nth k xs [])).
    { intros k Hk. rewrite (nth_indep _ [] ((fun p : smat (M B) * list (X B) => matvec (fst p) (snd p)) ([], []))) by (rewrite map_length, combine_length; lia).
      rewrite (map_nth (fun p : smat (M B) * list (X B) => matvec (fst p) (snd p))). rewrite combine_nth by lia. reflexivity. }
    assert (O' : on_group maps' (map (fun p => matvec (fst p) (snd p)) (combine Ts xs))).
    { unfold on_group. apply (nth_ext _ _ 0 0). { rewrite !map_length, combine_length. lia. } intros k Hk. rewrite !map_length, combine_length in Hk.
      rewrite nth_lens. change 0 with (length (@nil (X B))). rewrite (map_nth (@length (X B))). rewrite NT by lia. rewrite matvec_length. apply HTk. lia. }
    rewrite (f2c L) by auto. f_equal. destruct HT as (T1 & T2 & T3). apply (vec_ext w). now rewrite map_length, seq_length. now rewrite matvec_length.
    intros i Hi. unfold ent at 1. rewrite (nth_map_seq (group_sum _ _)) by auto. unfold group_sum at 1. rewrite Lm.
    pose proof (width_wf nc T T2) as WT. rewrite (matvec_entries L _ _ _ _ _ WT). pose proof (CM_X L) as CX.
    rewrite (xsum_sumN L nc). rewrite (sumN_ext' x0 xadd nc _ (fun a => sumN x0 xadd (length maps) (fun k => act (@entry B T i a) (xsum (length (nth k maps [])) (fun j => if nth j (nth k maps []) 0 =? a then ent (nth k xs []) j else x0))))).
    2:{ intros a Ha. unfold ent at 1. rewrite (nth_map_seq (group_sum _ _)) by auto. unfold group_sum. rewrite (xsum_sumN L). apply (act_sumN_r L). }
    rewrite (sumN_swap _ _ CX). rewrite (xsum_sumN L). apply sumN_ext'. intros k Hk. rewrite <- (xsum_sumN L). rewrite NT by auto. rewrite NM.
    symmetry. rewrite <- HP. apply (chunk_tr L CM w P); auto.
    + intros d Hd. rewrite HP. apply (Gd (nth k maps [])); auto. now apply nth_In.
    + now apply HK. + split; [auto|split]; rewrite HP; auto. + specialize (HTk k Hk). now rewrite NM, NC in HTk.
Qed.
(** two members share dof 1 of three; P has rows of different length *)
Definition P3 : smat Z := [[(3, (2)%Z)]; [(0, (1)%Z); (3, (1)%Z)]; [(1, (5)%Z); (2, (4)%Z)]].
Example C68_ex : group_maps 3 [[1; 0]; [2; 1]] /\ width_ok 4 P3 /\
  SwapWithProl 4 P3 (CtrMap [[1; 0]; [2; 1]]) =
    Ret (CtrMap [[0; 3]; [0; 1; 2; 3]], [[[(0, (1)%Z); (1, (1)%Z)]; [(1, (2)%Z)]]; [[(1, (5)%Z); (2, (4)%Z)]; [(0, (1)%Z); (3, (1)%Z)]]]).
Proof.
  split; [split; [discriminate|]|]. { intros m d [<-|[<-|[]]]; simpl; intuition lia. }
  split. { intros r p Hr Hp; simpl in Hr; decompose [or] Hr; subst; try contradiction; simpl in Hp; decompose [or] Hp; subst; try contradiction; simpl; lia. }
  vm_compute. reflexivity.
Qed.
Print Assumptions C68_swap_with_prolongation.

(** A step whose communication buffers are already set up must not be swapped: the data types of the messages stay those
    of the old dof maps, setting the step up again changes nothing, and the members get the wrong coarse entries. *)
Theorem C68_swap_after_set_up_refuted : exists nc maps w (P : smat (M ZBlk)) (y : list Z), group_maps nc maps /\ length P = nc /\ width_ok w P /\ length y = w /\
  exists c' chunks ys zs, SwapWithProl w P (set_up maps) = Ret (c', chunks) /\ let c'' := SetUpMPIStuff (map (@length _) (dof_maps c')) c' in
    TransferC2F (B:=ZBlk) c'' (map (fun m => vzero (B:=ZBlk) (length m)) (dof_maps c')) y = Ret ys /\
    TransferC2F (B:=ZBlk) (set_up maps) (map (fun m => vzero (B:=ZBlk) (length m)) maps) (matvec (B:=ZBlk) P y) = Ret zs /\
    zs <> map (fun p => matvec (B:=ZBlk) (fst p) (snd p)) (combine chunks ys).
Proof.
  exists 2, [[0]; [1]], 2, [[(1, 1%Z)]; [(0, 1%Z)]], [5; 6]%Z. split; [split; [discriminate|]|]. { intros m d [<-|[<-|[]]]; simpl; intuition lia. }
  split; [reflexivity|]. split. { intros r p Hr Hp; simpl in Hr; decompose [or] Hr; subst; try contradiction; simpl in Hp; decompose [or] Hp; subst; try contradiction; simpl; lia. }
  split; [reflexivity|]. do 4 eexists. split; [vm_compute; reflexivity|]. split; [vm_compute; reflexivity|]. split; [vm_compute; reflexivity|]. vm_compute. discriminate.
Qed.
Print Assumptions C68_swap_after_set_up_refuted.
