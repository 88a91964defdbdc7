(** C104: the preserved vectors survive the coarsening of the facets; the rows of the prolongation and the flow of the coarse edges *)
From Verif Require Import Base GramModel GramSpec GramProofs GramProps MeshDofsModel MeshDofsSpec MeshDofsProofs PresModel PresSpec PresProofs.
From Coq Require Import Lia Reals Lra.
Local Open Scope R_scope.

Theorem C104_coarse_facets : forall S nf cntf heap order,
  setting_ok S nf cntf -> Permutation order (seq 0 (length (c2f S))) -> (forall tag ce h w, matrix h w (heap tag ce h w)) ->
  exists cofs vecs prol flow cnt, coarsen_facets S heap order = Ret (cofs, vecs, prol, flow) /\
    numbered (length (c2f S)) cnt cofs /\ length vecs = length (pres S) /\ (forall w, In w vecs -> length w = dofs_before cnt (length (c2f S))) /\ length prol = dofs_before cntf nf /\ length flow = length (c2f S) /\
    (forall ce, (ce < length (c2f S))%nat -> nth ce (dofed S) false = false -> cnt ce = 0%nat) /\
    forall ce, facet S ce ->
      (* the number of dofs *)
      (1 <= cnt ce <= 1 + length (pres S))%nat /\
      (* the fine dofs depend on the dofs of the coarse edge only *)
      (forall d, In d (facet_dofs S cntf ce) -> fst (nth d prol ([], [])) = seq (dofs_before cnt ce) (cnt ce)) /\
      (* every preserved vector is, up to a small remainder, the prolongation of the coarse one *)
      (forall k, (k < length (pres S))%nat ->
         size_on (facet_dofs S cntf ce) (fun d => nth d (nth k (pres S) []) 0 - prolongate prol (fun c => nth c (nth k vecs []) 0) d) <= / 100000000 * size_on (facet_dofs S cntf ce) (fun d => nth d (nth k (pres S) []) 0)) /\
      (* the first coarse dof: 1 or -1 in the first dof of every fine edge, such that its flow is positive *)
      (forall fe, In fe (nth ce (c2f S) []) -> exists s, orient S ce fe * flow_of S fe * s = Rabs (flow_of S fe) /\ (s = 1 \/ s = -1) /\
         forall l, (l < cntf fe)%nat -> prolongate prol (unit_vec (dofs_before cnt ce)) (dofs_before cntf fe + l) = if (l =? 0)%nat then s else 0) /\
      (* its flow is that of the coarse edge, that of the other coarse dofs is 0 *)
      nth ce flow 0 = sum (map (fun fe => Rabs (flow_of S fe)) (nth ce (c2f S) [])) /\
      (forall t, (t < cnt ce)%nat -> sum (map (fun fe => orient S ce fe * flow_of S fe * prolongate prol (unit_vec (dofs_before cnt ce + t)) (dofs_before cntf fe)) (nth ce (c2f S) [])) = if (t =? 0)%nat then nth ce flow 0 else 0).
Proof.
  intros S nf cntf heap order OK HO HH. 
  destruct (sizes_ok S nf cntf OK order HO) as (offs & tot & E1 & L1 & FT).
  destruct (blocks_ok S heap nf cntf OK HH order HO offs tot L1 FT) as (cofs0 & buf & E2 & A1 & A2 & A3 & Lb & HB).
  destruct (finalize_ok (length (c2f S)) (cnt S heap) cofs0 A1 A2 A3) as (cofs & E3 & NC).
  destruct (vecs_ok S heap nf cntf OK HH order HO offs cofs buf tot L1 FT NC Lb HB) as (vecs & E4 & VD).
  destruct (prol_ok S heap nf cntf OK HH order HO offs cofs buf tot L1 FT NC Lb HB) as (prol & flow & E5 & PD).
  exists cofs, vecs, prol, flow, (cnt S heap). split.
  { unfold coarsen_facets. rewrite E1. cbn [bind]. rewrite E2. cbn [bind]. rewrite E3. cbn [bind]. rewrite (get_all _ _ _ NC). cbn [bind]. rewrite E4. cbn [bind]. destruct OK as (N & _). rewrite (get_all _ _ _ N). cbn [bind]. rewrite E5. reflexivity. }
  split. exact NC. split. apply VD. split. { intros w Hw. destruct VD as (V1 & V2 & _). apply (In_nth _ _ []) in Hw as (k & Hk & <-). apply V2. lia. } split. apply PD. split. apply PD. split. { intros ce Hce D. unfold cnt, is_f. now rewrite D. }
  intros ce F. assert (CF := cnt_f S heap ce F). split. { rewrite CF. eapply bm_bound; eauto. } split. { intros d Hd. eapply locality; eauto. } split. { intros k Hk. eapply kept; eauto. } split.
  { intros fe X. exists (sgn S ce fe). split. apply sgn_flow. split. unfold sgn. destruct (Bool.eqb _ _); auto. intros l Hl. eapply col_special; eauto. } split. eapply new_flow; eauto.
  intros t Ht. destruct (Nat.eqb_spec t 0) as [->|Nt].
  - rewrite (new_flow S heap nf cntf OK HH order HO offs buf tot L1 Lb prol flow PD ce F). rewrite Nat.add_0_r. f_equal. apply map_ext_in. intros fe X. rewrite <- (sgn_flow S ce fe). f_equal. assert (0 < cntf fe)%nat as P by (destruct OK as (_ & _ & _ & _ & _ & _ & _ & _ & D & _); eapply D; eauto).
    pose proof (col_special S heap nf cntf OK HH order HO offs buf tot L1 Lb prol flow PD ce fe 0 F X P) as C. rewrite Nat.add_0_r in C. exact C.
  - rewrite CF in Ht. eapply col_flow; eauto. lia.
Qed.
(** 4 fine edges with 2, 1, 2, 0 dofs; edges 0 and 2 become coarse edge 0, edge 1 becomes coarse edge 2; coarse edge 1 comes from edge 3 and has no dofs; one preserved vector *)
Definition Sx : setting := {| f_off := [0; 2; 3; 5; 5]%nat; c2f := [[0; 2]; [3]; [1]]%nat; dofed := [true; false; true]; f_edges := [(0, 1); (1, 2); (3, 0); (2, 3)]%nat; c_edges := [(0, 1); (1, 2); (0, 2)]%nat;
  v_map := [0; 1; 2; 1]%Z; f_flow := [1; -2; 0; 3]; pres := [[1; 2; 3; 4; 5]] |}.
Definition cx (e : nat) : nat := nth e [2; 1; 2; 0]%nat 0%nat.
Definition hx (tag ce h w : nat) : list (list R) := repeat (repeat 0 h) w.
Example C104_ex : setting_ok Sx 4 cx /\ Permutation [2; 0; 1]%nat (seq 0 (length (c2f Sx))) /\ (forall tag ce h w, matrix h w (hx tag ce h w)) /\ facet Sx 0 /\ facet Sx 2 /\ ~ facet Sx 1 /\
  facet_dofs Sx cx 0 = [0; 1; 3; 4]%nat /\ orient Sx 0 0 = 1 /\ orient Sx 0 2 = -1 /\ orient Sx 2 1 = -1 /\
  exists cofs vecs prol flow, coarsen_facets Sx hx [2; 0; 1]%nat = Ret (cofs, vecs, prol, flow) /\ nth 0 flow 0 = 1 /\ nth 2 flow 0 = 2.
Proof.
  assert (OK : setting_ok Sx 4 cx).
  { unfold setting_ok. split. { split. reflexivity. intros e He. do 5 (destruct e as [|e]; [reflexivity|]). lia. } split. { intros v [<-|[]]. reflexivity. } split. reflexivity. split. reflexivity. split. reflexivity. split. reflexivity. split. { cbn. repeat constructor; cbn; lia. } split.
    { intros ce fe X. do 3 (destruct ce as [|ce]; [cbn in X; intuition (subst; cbn; lia)|]). destruct ce; cbn in X; easy. } split.
    { intros ce fe (F1 & F2) X. do 3 (destruct ce as [|ce]; [cbn in F2, X; try discriminate; intuition (subst; cbn; lia)|]). cbn in F1. lia. }
    intros ce (F1 & F2). destruct ce as [|[|[|ce]]]; cbn in F1, F2; try discriminate; try lia; cbn. exists 0%nat. split. now left. unfold flow_of. cbn. lra. exists 1%nat. split. now left. unfold flow_of. cbn. lra. }
  assert (HO : Permutation [2; 0; 1]%nat (seq 0 (length (c2f Sx)))). { cbn. apply (Permutation_trans (l' := [0; 2; 1]%nat)). apply perm_swap. apply perm_skip. apply perm_swap. }
  assert (HH : forall tag ce h w, matrix h w (hx tag ce h w)). { intros tag ce h w. unfold hx. split. apply repeat_length. intros j Hj. rewrite (nth_indep _ [] (repeat 0 h)) by (now rewrite repeat_length). rewrite nth_repeat. apply repeat_length. }
  assert (F0 : facet Sx 0). { split. cbn. lia. reflexivity. } assert (F2 : facet Sx 2). { split. cbn. lia. reflexivity. }
  split; auto. split; auto. split; auto. split; auto. split; auto. split. { intros (_ & C). discriminate. } split. reflexivity. split. reflexivity. split. reflexivity. split. reflexivity.
  destruct (C104_coarse_facets Sx 4 cx hx _ OK HO HH) as (cofs & vecs & prol & flow & cnt & E & _ & _ & _ & _ & _ & _ & A). exists cofs, vecs, prol, flow. split; auto. split.
  - destruct (A 0%nat F0) as (_ & _ & _ & _ & -> & _). cbn. unfold flow_of. cbn. rewrite Rabs_R1, Rabs_R0. ring.
  - destruct (A 2%nat F2) as (_ & _ & _ & _ & -> & _). cbn. unfold flow_of. cbn. rewrite Rabs_left by lra. ring.
Qed.
Print Assumptions C104_coarse_facets.
