(** C107: the fine facet loops. *)
From Verif Require Import Base EQCModel ArraysModel ArraysProofs MISProofs CtrProofs2 GCProofs PresProofs FauxModel FauxSpec FauxProps FLoopModel FLoopSpec FLoopProofs.
From Coq Require Import Lia.
Local Open Scope nat_scope.

(** On a rank: the loop of a node lists, in increasing order and each once, exactly the active free facets that touch the node and that no lower rank has; nothing is accessed out of bounds *)
Theorem C107_loop2D : forall M nf v, mesh_ok M nf -> lr_2d M = true -> exists l, makeFacetLoop2D M v = Ret l /\ lists (loop_facet M v) l.
Proof. intros M nf v OK D. apply (loop_run M nf OK v volFacet2D). intros f H. now apply (vol2_step M nf OK v). Qed.
Theorem C107_loop3D : forall M nf v, mesh_ok M nf -> exists l, makeFacetLoop3D M v = Ret l /\ lists (loop_facet M v) l.
Proof. intros M nf v OK. apply (loop_run M nf OK v volFacet3D). intros f H. now apply (vol3_step M nf OK v). Qed.
(** all nodes of the list, in this order *)
Theorem C107_iterate : forall M nf r2a, mesh_ok M nf -> exists ls, iterateFacetLoops M r2a = Ret ls /\ length ls = length r2a /\
  forall i v l, nth_error r2a i = Some v -> nth_error ls i = Some l -> lists (loop_facet M v) l.
Proof.
  intros M nf r2a OK. unfold iterateFacetLoops. destruct (mapM_ex (facetLoop M) (fun v l => lists (loop_facet M v) l) r2a) as (ls & E & F). intros v _. exact (facetLoop_run M nf OK v). exists ls. split; auto. apply F2_nth in F as (L & N). split; auto. intros i v l A B. destruct (N i v l A) as (P & _). now rewrite (nth_error_nth _ _ l B) in P.
Qed.

Section D.
Variables (Ms : list lrank) (gf gn : nat -> list nat) (OK : dist_ok Ms gf gn).
Lemma ne_nth {A} (l : list A) i x d : nth_error l i = Some x -> nth i l d = x.
Proof. intros E. now apply nth_error_nth. Qed.
(** lowest = no lower rank has the facet *)
Lemma lowest_iff r M f F : nth_error Ms r = Some M -> nth_error (gf r) f = Some F -> (lowest M f <-> forall p, p < length Ms -> In F (gf p) -> r <= p).
Proof.
  intros HM HF. destruct (do_ok _ _ _ OK r M HM) as (HR & MO). assert (L : f < length (gf r)) by (apply nth_error_Some; congruence). rewrite <- (mk_fd _ _ MO) in L. destruct (ne_some _ _ L) as (dps & E). pose proof (do_dps _ _ _ OK r M f dps HM E) as D. rewrite (ne_nth _ _ _ 0 HF) in D. unfold lowest. rewrite HR. split.
  - intros (x & Q & X) p A B. rewrite E in Q. injection Q as <-. destruct (Nat.eq_dec p r) as [->|N]; auto. assert (In p dps) by (apply D; auto). specialize (X p H). lia.
  - intros X. exists dps. split; auto. intros p I. apply D in I as (A & B & C). specialize (X p B C). lia.
Qed.
Lemma in_loop_iff r F V : in_loop Ms gf gn F V r <-> exists M f v, nth_error Ms r = Some M /\ nth_error (gf r) f = Some F /\ nth_error (gn r) v = Some V /\ loop_facet M v f.
Proof.
  split.
  - intros (M & f & v & l & A & B & C & D & E). exists M, f, v. split; auto. split; auto. split; auto. destruct (do_ok _ _ _ OK r M A) as (_ & MO). destruct (facetLoop_run M _ MO v) as (l' & E' & _ & X). rewrite D in E'. injection E' as <-. apply X in E as (g & Q & P). apply Nat2Z.inj in Q. now subst g.
  - intros (M & f & v & A & B & C & P). destruct (do_ok _ _ _ OK r M A) as (_ & MO). destruct (facetLoop_run M _ MO v) as (l & E & _ & X). exists M, f, v, l. split; auto. split; auto. split; auto. split; auto. apply X. exists f. auto.
Qed.
Lemma in_loop_lowest r F V : in_loop Ms gf gn F V r -> r < length Ms /\ In F (gf r) /\ forall p, p < length Ms -> In F (gf p) -> r <= p.
Proof.
  intros H. apply in_loop_iff in H as (M & f & v & A & B & _ & (_ & _ & _ & L)). split. apply nth_error_Some. congruence. split. eapply nth_error_In; eauto. apply (lowest_iff r M f F A B). exact L.
Qed.
End D.
(** Over all ranks: no two ranks have the same facet in the loop of the same node, or in any loops; the rank is the lowest one that has the facet *)
Theorem C107_at_most_one : forall Ms gf gn, dist_ok Ms gf gn -> forall F V r, in_loop Ms gf gn F V r -> (forall p, p < length Ms -> In F (gf p) -> r <= p) /\ forall V' r', in_loop Ms gf gn F V' r' -> r' = r.
Proof.
  intros Ms gf gn OK F V r H. destruct (in_loop_lowest Ms gf gn OK r F V H) as (A & B & C). split; auto. intros V' r' H'. destruct (in_loop_lowest Ms gf gn OK r' F V' H') as (A' & B' & C'). specialize (C r' A' B'). specialize (C' r A B). lia.
Qed.
Lemma least (P : nat -> bool) : forall r, P r = true -> exists r0, P r0 = true /\ forall p, P p = true -> r0 <= p.
Proof.
  induction r as [r IH] using (well_founded_induction lt_wf). intros H. destruct (existsb P (seq 0 r)) eqn:E.
  - apply existsb_exists in E as (p & I & Q). apply in_seq in I. apply (IH p); auto. lia.
  - exists r. split; auto. intros p Q. destruct (Nat.lt_ge_cases p r) as [L|]; auto. assert (existsb P (seq 0 r) = true). apply existsb_exists. exists p. split; auto. apply in_seq. lia. congruence.
Qed.
(** A facet that is active and free on the ranks that have it is in the loop of each of its nodes on exactly one rank: the lowest one that has it *)
Theorem C107_owner : forall Ms gf gn, dist_ok Ms gf gn -> forall r M f v F V, nth_error Ms r = Some M -> nth_error (gf r) f = Some F -> nth_error (gn r) v = Some V -> touches M f v ->
  (forall r' M' f', nth_error Ms r' = Some M' -> nth_error (gf r') f' = Some F -> active M' f' /\ free_facet M' f') ->
  exists r0, in_loop Ms gf gn F V r0 /\ (forall p, p < length Ms -> In F (gf p) -> r0 <= p) /\ forall r', in_loop Ms gf gn F V r' -> r' = r0.
Proof.
  intros Ms gf gn OK r M f v F V HM HF HV T AF. set (P := fun p => (p <? length Ms) && existsb (Nat.eqb F) (gf p)).
  assert (PI : forall p, P p = true <-> p < length Ms /\ In F (gf p)). { intros p. unfold P. rewrite andb_true_iff, Nat.ltb_lt, existsb_exists. split; intros (A & B); split; auto. destruct B as (x & B & C). apply Nat.eqb_eq in C. now subst x. exists F. split; auto. apply Nat.eqb_refl. }
  destruct (least P r) as (r0 & H0 & L). { apply PI. split. apply nth_error_Some. congruence. eapply nth_error_In; eauto. }
  apply PI in H0 as (A & B). apply ne_some in A as (M0 & E0). apply In_nth_error in B as (f0 & F0). destruct (do_touch _ _ _ OK r r0 M M0 f f0 v HM E0) as (v0 & T0 & V0 & _); auto; try congruence.
  assert (H : in_loop Ms gf gn F V r0). { apply (in_loop_iff Ms gf gn OK). exists M0, f0, v0. split; auto. split; auto. split. congruence. destruct (AF r0 M0 f0 E0 F0) as (A1 & A2). split; auto. split; auto. split; auto. apply (lowest_iff Ms gf gn OK r0 M0 f0 F E0 F0). intros p X Y. apply L, PI. auto. }
  exists r0. destruct (C107_at_most_one Ms gf gn OK F V r0 H) as (X & Y). split; auto. split; auto. intros r'. apply Y.
Qed.
(** ... and if the lowest rank that has a facet does not have it as an active free facet, no rank has it in any loop *)
Theorem C107_lost : forall Ms gf gn, dist_ok Ms gf gn -> forall r M f F, nth_error Ms r = Some M -> nth_error (gf r) f = Some F -> (forall p, p < length Ms -> In F (gf p) -> r <= p) ->
  ~ (active M f /\ free_facet M f) -> forall V r', ~ in_loop Ms gf gn F V r'.
Proof.
  intros Ms gf gn OK r M f F HM HF L N V r' H. pose proof H as H1. apply (in_loop_iff Ms gf gn OK) in H1 as (M' & f' & v & A & B & _ & (X1 & X2 & _)). destruct (in_loop_lowest Ms gf gn OK r' F V H) as (C1 & C2 & C3). assert (r' = r). { specialize (L r' C1 C2). assert (r < length Ms) by (apply nth_error_Some; congruence). specialize (C3 r H0 (nth_error_In _ _ HF)). lia. } subst r'.
  rewrite HM in A. injection A as <-. assert (f' = f). { pose proof (do_nodup _ _ _ OK r) as ND. rewrite NoDup_nth_error in ND. apply ND. apply nth_error_Some. congruence. congruence. } subst f'. auto.
Qed.

(** the meshes of C106's example: three triangles on rank 0, one on rank 1, a common facet (0: number 6, 1: number 0) *)
Definition N0 (free : option (list bool)) (act : list bool) (dofs : list Z) : lrank := mkLR true 0 [mkLE [0; 1; 2] [0; 1; 2]; mkLE [1; 2; 3] [2; 3; 4]; mkLE [2; 3; 4] [4; 5; 6]] [mkLE [0; 1] [0]; mkLE [1; 3] [3]]
  [[0; 1]; [0; 2]; [1; 2]; [1; 3]; [2; 3]; [2; 4]; [3; 4]] [[]; []; []; []; []; []; [1]] (map (fun d => [d]) dofs) free act.
Definition N1 (free : option (list bool)) (act : list bool) (dofs : list Z) : lrank := mkLR true 1 [mkLE [0; 1; 2] [0; 1; 2]] [mkLE [1; 2] [2]]
  [[0; 1]; [0; 2]; [1; 2]] [[0]; []; []] (map (fun d => [d]) dofs) free act.
Definition gf01 (r : nat) : list nat := match r with 0 => [0; 1; 2; 3; 4; 5; 6] | 1 => [6; 7; 8] | _ => [] end.
Definition gn01 (r : nat) : list nat := match r with 0 => [0; 1; 2; 3; 4] | 1 => [3; 4; 5] | _ => [] end.
Definition dofs_good (free : option (list bool)) (act : list bool) (dofs : list Z) : Prop := forall f fr, free = Some fr -> nth_error act f = Some true -> exists d, nth_error dofs f = Some (Z.of_nat d) /\ d < length fr.
Ltac dlist H := cbn in H; repeat (destruct H as [H|H]; [subst|]); try contradiction.
Ltac dnth k H := destruct k as [|[|[|[|[|[|[|[|k]]]]]]]]; cbn in H; try discriminate.
Lemma N0_ok free act dofs : length act = 7 -> length dofs = 7 -> dofs_good free act dofs -> mesh_ok (N0 free act dofs) 7.
Proof.
  intros LA LD G. constructor; try reflexivity; auto.
  - cbn. now rewrite map_length.
  - intros _ vs H. dlist H; reflexivity.
  - intros e f H H2. dlist H; dlist H2; lia.
  - intros f Hf. assert (X : In f [0; 1; 2; 3; 4; 5; 6]) by (cbn; lia). cbn [lr_els N0]. destruct (le_lt_dec f 2) as [L|L]; [exists (mkLE [0; 1; 2] [0; 1; 2])|destruct (le_lt_dec f 4) as [L2|L2]; [exists (mkLE [1; 2; 3] [2; 3; 4])|exists (mkLE [2; 3; 4] [4; 5; 6])]]; (split; [cbn; tauto|]); (split; [cbn; lia|]); intros v (vs & Q & I); cbn [lr_fnodes N0] in Q; dlist X; try lia; cbn in Q; injection Q as <-; cbn in *; tauto.
  - intros e f v H H2 H3. dlist H; dlist H2; eexists; (split; [reflexivity|]); dlist H3; cbn; tauto.
  - intros dps H. dlist H; repeat constructor.
  - intros f fr FR A. destruct (G f fr FR A) as (d & Q & L). exists d, []. split; auto. cbn [lr_fdofs N0]. now rewrite (map_nth_error _ _ _ Q).
Qed.
Lemma N1_ok free act dofs : length act = 3 -> length dofs = 3 -> dofs_good free act dofs -> mesh_ok (N1 free act dofs) 3.
Proof.
  intros LA LD G. constructor; try reflexivity; auto.
  - cbn. now rewrite map_length.
  - intros _ vs H. dlist H; reflexivity.
  - intros e f H H2. dlist H; dlist H2; lia.
  - intros f Hf. assert (X : In f [0; 1; 2]) by (cbn; lia). exists (mkLE [0; 1; 2] [0; 1; 2]). split. now left. split. exact X. intros v (vs & Q & I). cbn [lr_fnodes N1] in Q; dlist X; cbn in Q; injection Q as <-; cbn in *; tauto.
  - intros e f v H H2 H3. dlist H; dlist H2; eexists; (split; [reflexivity|]); dlist H3; cbn; tauto.
  - intros dps H. dlist H; repeat constructor.
  - intros f fr FR A. destruct (G f fr FR A) as (d & Q & L). exists d, []. split; auto. cbn [lr_fdofs N1]. now rewrite (map_nth_error _ _ _ Q).
Qed.
Lemma N_dist free0 act0 dofs0 free1 act1 dofs1 : length act0 = 7 -> length dofs0 = 7 -> dofs_good free0 act0 dofs0 -> length act1 = 3 -> length dofs1 = 3 -> dofs_good free1 act1 dofs1 ->
  dist_ok [N0 free0 act0 dofs0; N1 free1 act1 dofs1] gf01 gn01.
Proof.
  intros A1 A2 A3 B1 B2 B3. constructor.
  - intros [|[|r]] M H; cbn in H; [injection H as <-|injection H as <-|destruct r; discriminate]; (split; [reflexivity|]). now apply N0_ok. now apply N1_ok.
  - intros [|[|r]]; repeat constructor; cbn; intuition discriminate.
  - intros [|[|r]]; repeat constructor; cbn; intuition discriminate.
  - intros [|[|r]] M f dps H HD p; cbn in H; [injection H as <-|injection H as <-|destruct r; discriminate]; cbn [lr_fdps N0 N1] in HD; dnth f HD; injection HD as <-; cbn [length nth gf01]; (destruct p as [|[|p]]; cbn; (split; [intros I|intros (I1 & I2 & I3)]); try lia; try (repeat split; try lia; cbn; tauto); repeat (destruct I3 as [I3|I3]; try discriminate; try lia); try contradiction).
  - intros [|[|r]] [|[|r']] M M' f f' v H H' Q NN (vs & T & I); cbn in H, H'; try (destruct r; discriminate); try (destruct r'; discriminate); injection H as <-; injection H' as <-; cbn [lr_fnodes N0 N1] in T; dnth f T; injection T as <-; cbn [gf01 nth_error] in Q; dnth f' Q; dlist I; try (exists v; fail); unfold touches; cbn [lr_fnodes N0 N1 nth_error gn01].
    all: try (eexists; split; [eexists; split; [reflexivity|left; reflexivity]|split; [reflexivity|discriminate]]).
    all: try (eexists; split; [eexists; split; [reflexivity|right; left; reflexivity]|split; [reflexivity|discriminate]]).
Qed.
(** a space defined everywhere, dof 1 of rank 0 not free: the loops of all nodes; the common facet (dof 6 of rank 0) is in the loops of its nodes 3 and 4 on rank 0 only *)
Definition fr7 : list bool := [true; false; true; true; true; true; true].
Example C107_ex : let A := N0 (Some fr7) (repeat true 7) [0; 1; 2; 3; 4; 5; 6]%Z in let B := N1 (Some [true; true; true]) (repeat true 3) [0; 1; 2]%Z in
  dist_ok [A; B] gf01 gn01 /\ iterateFacetLoops A [0; 1; 2; 3; 4] = Ret [[0]; [0; 2; 3]; [2; 4; 5]; [3; 4; 6]; [5; 6]]%Z /\ iterateFacetLoops B [0; 1; 2] = Ret [[1]; [2]; [1; 2]]%Z.
Proof.
  cbv zeta. split. 2:{ split; vm_compute; reflexivity. }
  apply N_dist; try reflexivity; intros f fr [= <-] A; destruct f as [|[|[|[|[|[|[|f]]]]]]]; cbn in A; try discriminate; try (destruct f; discriminate); match goal with |- exists d, nth_error _ ?k = _ /\ _ => exists k end; cbn; split; auto; lia.
Qed.
(** the same loops if the mesh is taken as one of faces and their edges *)
Example C107_3D_ex : makeFacetLoop3D (N0 (Some fr7) (repeat true 7) [0; 1; 2; 3; 4; 5; 6]%Z) 3 = Ret [3; 4; 6]%Z.
Proof. vm_compute. reflexivity. Qed.
(** the premises of C107_owner and C107_at_most_one hold for the common facet *)
Example C107_owner_ex : let A := N0 None (repeat true 7) [0; 1; 2; 3; 4; 5; 6]%Z in let B := N1 None (repeat true 3) [0; 1; 2]%Z in
  dist_ok [A; B] gf01 gn01 /\ touches B 0 0 /\ (forall r' M' f', nth_error [A; B] r' = Some M' -> nth_error (gf01 r') f' = Some 6 -> active M' f' /\ free_facet M' f') /\ in_loop [A; B] gf01 gn01 6 3 0.
Proof.
  cbv zeta. split. { apply N_dist; try reflexivity; intros f fr X; discriminate X. } split. { exists [0; 1]. split. reflexivity. now left. } split.
  - intros [|[|r']] M' f' H Q; cbn in H; [injection H as <-|injection H as <-|destruct r'; discriminate]; destruct f' as [|[|[|[|[|[|[|f']]]]]]]; cbn in Q; try discriminate; try (destruct f'; discriminate); split; try exact I; reflexivity.
  - eexists _, 6, 3, _. split. reflexivity. split. reflexivity. split. reflexivity. split. vm_compute. reflexivity. right. right. now left.
Qed.
(** With the active facets that FacetAuxiliaryInformation makes (C106) this goes wrong: the space is defined on the middle triangle of rank 0 and on the triangle of rank 1.
    The common facet has a number on both ranks, but is in no loop on any rank; and if not all dofs are free, rank 0 asks for the free dof number -1 *)
Theorem C107_refuted : exists F0 F1 A B, setup true [R0; R1] = Ret [F0; F1] /\
  A = (fun free => N0 free (rel_facets F0) (a2r_facet F0)) /\ B = (fun free => N1 free (rel_facets F1) (a2r_facet F1)) /\
  (forall free, map (fun e => (le_nodes e, le_fac e)) (lr_els (A free)) = map (fun e => (fe_psn e, fe_fac e)) (fr_els R0) /\ map (fun e => (le_nodes e, le_fac e)) (lr_els (B free)) = map (fun e => (fe_psn e, fe_fac e)) (fr_els R1)) /\
  dist_ok [A None; B None] gf01 gn01 /\ A2R_Facet F0 6 = Ret 3%Z /\ A2R_Facet F1 0 = Ret 0%Z /\ (forall V r, ~ in_loop [A None; B None] gf01 gn01 6 V r) /\
  forall free, iterateFacetLoops (A (Some free)) (r2a_psn F0) = Err OutOfBounds.
Proof.
  exists (nth 0 F01 (mkFA true 0 [] [] 0 [] [] 0 [] [] [])), (nth 1 F01 (mkFA true 0 [] [] 0 [] [] 0 [] [] [])). eexists _, _. split. vm_compute. reflexivity. split. reflexivity. split. reflexivity. split. { intros free. split; reflexivity. }
  match goal with |- ?D /\ _ => assert (OK : D) by (apply N_dist; try reflexivity; intros f fr X; discriminate X) end. split. exact OK. split. reflexivity. split. reflexivity. split.
  - eapply (C107_lost _ _ _ OK 0 _ 6 6); try reflexivity. intros; lia. intros (X & _). discriminate X.
  - intros free. reflexivity.
Qed.
Print Assumptions C107_loop2D.
Print Assumptions C107_loop3D.
Print Assumptions C107_iterate.
Print Assumptions C107_at_most_one.
Print Assumptions C107_owner.
Print Assumptions C107_lost.
Print Assumptions C107_refuted.
