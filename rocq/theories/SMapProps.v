(** C85-C87: coarse loops of the Stokes preconditioner on all processes *)
From Verif Require Import Base ArraysModel LoopModel LoopSpec LoopProofs2 LoopProps SMapModel SMapProofs SMapProofs2 SMapProofs3 SMapProofs4 SMapSpec SMapProofs5 SMapProofs6 SMapProofs7 SMapProofs8 SMapProofs9.
Import ListNotations.

(** ** C85 the coarse loops of a fine loop carry its flow *)
(** [vg p v]: global number of the fine vertex v of process p; [cm]: coarse vertex of a global fine vertex *)
Theorem C85_flow : forall W gid vg cm sorti r, wf_world W gid ->
  (forall p v, (p < length W)%nat -> (v < length (r_vmap (nth p W dR)))%nat -> cm (vg p v) = cpoint (nth p W dR) v) ->
  sorti_ok sorti -> (r < length W)%nat ->
  (forall k, (k < length (r_loops (nth r W dR)))%nat -> balanced Nat.eqb (fine_loop W gid vg r k)) ->
  exists N, forall fuel, (N <= fuel)%nat -> exists outs, phase2 sorti fuel W r = Ret outs /\ length outs = length (r_loops (nth r W dR)) /\
    forall k, (k < length (r_loops (nth r W dR)))%nat -> Forall coarse_loop (nth k outs []) /\
      exists ss, length ss = length (nth k outs []) /\ Forall (fun s => s = 1 \/ s = -1)%Z ss /\
        forall a b, net (map (image cm) (fine_loop W gid vg r k)) a b = loop_sum ss (nth k outs []) a b.
Proof. intros W gid vg cm sorti r HW Hcm HS Hr HB. apply (flow W gid vg cm HW Hcm sorti r HS Hr HB). Qed.
Print Assumptions C85_flow.

(** the part of one process: the edges it is the master of, in the order and direction of the loop, without those that vanish *)
Theorem C85_local_part : forall R loop, wf_rank R -> (forall c, In c loop -> wf_entry R c) ->
  init_loop R loop = Ret (proper pteqb (map (cstep R) (filter (entered R) loop))).
Proof. intros R loop HR H. apply init_loop_ok; auto. Qed.
Print Assumptions C85_local_part.

(** a master edge from a dropped vertex to one that is kept is an access out of bounds *)
Theorem C85_dropped_next_to_kept : forall R before c after, wf_rank R -> (forall c', In c' before -> wf_entry R c') -> entered R c = true ->
  c <> 0%Z -> (Z.to_nat (Z.abs c - 1) < length (r_e2dof R))%nat -> (Z.to_nat (Z.abs c - 1) < length (r_edges R))%nat ->
  (let d := nth (Z.to_nat (Z.abs c - 1)) (r_e2dof R) (-1)%Z in (-1 <= d < Z.of_nat (length (r_master R)))%Z) ->
  (code_from (r_edges R) c < length (r_vmap R))%nat -> (code_to (r_edges R) c < length (r_vmap R))%nat ->
  nth (code_from (r_edges R) c) (r_vmap R) 0%Z <> nth (code_to (r_edges R) c) (r_vmap R) 0%Z ->
  nth (code_from (r_edges R) c) (r_vmap R) 0%Z = (-1)%Z ->
  init_loop R (before ++ c :: after) = Err OutOfBounds.
Proof.
  intros R before c after HR Hb HE NZ H1 H2 H3 H4 H5 NE M1. unfold init_loop. rewrite foldM_app. pose proof (init_loop_ok R HR before Hb) as E. unfold init_loop in E. rewrite E. cbn [bind foldM].
  unfold init_entry at 1, loopDecode. unfold rdz. destruct (Z.ltb_spec (Z.abs c - 1) 0); [lia|]. rewrite (rd_ok _ _ (-1)%Z) by auto. cbn [bind]. unfold entered in HE. cbv zeta in *.
  set (d := nth (Z.to_nat (Z.abs c - 1)) (r_e2dof R) (-1)%Z) in *. apply andb_prop in HE. destruct HE as [HE1 HE2]. destruct (Z.eqb_spec d (-1)) as [D|D]; [discriminate|].
  destruct (Z.ltb_spec d 0); [lia|]. rewrite (rd_ok (r_master R) _ false) by lia. cbn [bind]. rewrite HE2. cbn [negb]. rewrite (rd_ok (r_edges R) _ (O, O)) by auto. cbn [bind].
  unfold code_from, code_to in *. cbv zeta in *. destruct (0 <? c)%Z.
  - rewrite !(rd_ok (r_vmap R) _ 0%Z) by auto. cbn [bind]. destruct (Z.eqb_spec (nth (fst (nth (Z.to_nat (Z.abs c - 1)) (r_edges R) (O, O))) (r_vmap R) 0%Z) (nth (snd (nth (Z.to_nat (Z.abs c - 1)) (r_edges R) (O, O))) (r_vmap R) 0%Z)); [contradiction|].
    destruct (Z.ltb_spec (nth (fst (nth (Z.to_nat (Z.abs c - 1)) (r_edges R) (O, O))) (r_vmap R) 0%Z) 0); [reflexivity|lia].
  - rewrite !(rd_ok (r_vmap R) _ 0%Z) by auto. cbn [bind]. destruct (Z.eqb_spec (nth (fst (nth (Z.to_nat (Z.abs c - 1)) (r_edges R) (O, O))) (r_vmap R) 0%Z) (nth (snd (nth (Z.to_nat (Z.abs c - 1)) (r_edges R) (O, O))) (r_vmap R) 0%Z)); [congruence|].
    destruct (Z.ltb_spec (nth (snd (nth (Z.to_nat (Z.abs c - 1)) (r_edges R) (O, O))) (r_vmap R) 0%Z) 0); [reflexivity|lia].
Qed.
Print Assumptions C85_dropped_next_to_kept.

(** a hexagon on two processes, pairs of vertices become one: a coarse triangle *)
Definition exA : pt := (1, 0)%Z. Definition exB : pt := (1, 1)%Z. Definition exC : pt := (1, 2)%Z.
Definition exR0 : rankd := mkR [[1; 2; 3]%Z] [[1%Z]] [1%Z] [0; 1; 2]%Z [true; true; true] [(0, 1); (1, 2); (2, 3)]%nat [0; 0; 1; 1]%Z [exA; exB] (fun _ => None) (fun _ _ => (-1)%Z) [1%Z].
Definition exR1 : rankd := mkR [[-3; -2; -1]%Z] [[0%Z]] [0%Z] [0; 1; 2]%Z [true; true; true] [(0, 1); (1, 2); (2, 3)]%nat [0; 1; 1; 2]%Z [exA; exC; exB] (fun _ => None) (fun _ _ => (-1)%Z) [0%Z].
Definition exW := [exR0; exR1].
Definition exvg (p v : nat) : nat := nth v (nth p [[0; 1; 2; 3]; [0; 5; 4; 3]]%nat []) 0%nat.
Definition excm (g : nat) : pt := nth g [exA; exA; exB; exB; exC; exC] (0, 0)%Z.
Ltac wfe := constructor; [discriminate|vm_compute; lia|vm_compute; lia|vm_compute; split; (discriminate || reflexivity)|vm_compute; split; lia|right; vm_compute; repeat split; (discriminate || reflexivity)].
Ltac two r := destruct r as [|[|r]]; [| |cbn in *; lia].
Lemma ex_world : wf_world exW (fun _ k => k).
Proof.
  constructor.
  - constructor.
    + reflexivity.
    + intros r Hr. two r; cbn; repeat constructor.
    + intros r ps Hr Hps. two r; cbn in Hps; destruct Hps as [<-|[]]; (split; [repeat constructor; cbn; tauto|intros q Hq; exact Hq]).
    + intros r p Hr Hp. two r; cbn in Hp; destruct Hp as [<-|[]]; cbn; lia.
    + intros r p Hr Hp H. two r; two p; cbn in *; auto; lia.
    + intros r j k Hj Hk E. exact E.
    + intros r p Hr Hp. two r; two p; reflexivity.
    + intros r p j k Hr Hp Hj Hk E q. subst k. two r; two p; cbn in Hj; destruct j as [|j]; try lia; cbn; tauto.
  - intros R [<-|[<-|[]]]; reflexivity.
  - intros R [<-|[<-|[]]]; (constructor; [intros x Hx; cbn in Hx; repeat destruct Hx as [<-|Hx]; cbn; try lia; destruct Hx|repeat constructor; cbn; intuition discriminate]).
  - intros R l c HR Hl Hc. destruct HR as [<-|[<-|[]]]; cbn in Hl; destruct Hl as [<-|[]]; cbn in Hc; repeat destruct Hc as [<-|Hc]; try destruct Hc; wfe.
Qed.
Example C85_nonvacuous : wf_world exW (fun _ k => k) /\
  (forall p v, (p < length exW)%nat -> (v < length (r_vmap (nth p exW dR)))%nat -> excm (exvg p v) = cpoint (nth p exW dR) v) /\
  fine_loop exW (fun _ k => k) exvg 0 0 = [(0, 1); (1, 2); (2, 3); (3, 4); (4, 5); (5, 0)]%nat /\
  balanced Nat.eqb [(0, 1); (1, 2); (2, 3); (3, 4); (4, 5); (5, 0)]%nat /\
  phase2 psort 20 exW 0 = Ret [[[exA; exB; exC; exA]]] /\ phase2 psort 20 exW 1 = Ret [[[exA; exB; exC; exA]]].
Proof.
  split; [apply ex_world|]. split. { intros p v Hp Hv. two p; cbn in Hv; do 4 (destruct v as [|v]; [reflexivity|]); lia. }
  split; [reflexivity|]. split. { intros v. do 6 (destruct v as [|v]; [reflexivity|]). reflexivity. }
  split; vm_compute; reflexivity.
Qed.
(** a coarse loop with the other sign would not carry the same flow *)
Example C85_flow_sees : net (map (image excm) [(0, 1); (1, 2); (2, 3); (3, 4); (4, 5); (5, 0)]%nat) exA exB = 1%Z /\ loop_sum [-1]%Z [[exA; exB; exC; exA]] exA exB = (-1)%Z.
Proof. split; vm_compute; reflexivity. Qed.

(** ** C86 every process of a loop gets the same coarse loops; duplicates *)
Theorem C86_same_on_all_processes : forall W gid sorti fuel r p outr outp j k, wf_world W gid -> (r < length W)%nat -> (p < length W)%nat ->
  phase2 sorti fuel W r = Ret outr -> phase2 sorti fuel W p = Ret outp ->
  (j < length (r_loops (nth r W dR)))%nat -> (k < length (r_loops (nth p W dR)))%nat -> gid r j = gid p k -> nth j outr [] = nth k outp [].
Proof. intros W gid sorti fuel r p outr outp j k HW. apply (same_loops W gid HW). Qed.
Print Assumptions C86_same_on_all_processes.

(** of equal coarse loops the first one is kept *)
Theorem C86_duplicates : forall R cl, Forall (fun x => fst x <> []) cl -> exists out ks, phase3 R cl = Ret out /\ length out = length ks /\ StronglySorted lt ks /\
  (forall k, In k ks <-> (k < length cl)%nat /\ forall l, (l < k)%nat -> fst (nth l cl ([], [])) <> fst (nth k cl ([], []))) /\
  forall i, (i < length ks)%nat -> snd (nth i out ([], [])) = snd (nth (nth i ks 0%nat) cl ([], [])) /\
    convert_loop R (fst (nth (nth i ks 0%nat) cl ([], []))) = Ret (fst (nth i out ([], []))).
Proof.
  intros R cl F. exists (map (fun k => kept R (nth k cl ([], []))) (firsts (map fst cl))), (firsts (map fst cl)). split; [apply phase3_ok; auto|]. split; [apply map_length|]. split; [apply sorted_seq_filter|]. split.
  - intros k. rewrite firsts_in, map_length. split; intros [A B]; split; auto; intros l Hl; specialize (B l Hl); rewrite (nth_map_in fst cl l [] ([], [])), (nth_map_in fst cl k [] ([], [])) in * by lia; auto.
  - intros i Hi. rewrite (nth_map_in _ _ _ _ 0%nat) by auto. cbn [fst snd kept]. split; auto. apply convert_ok. pose proof (nth_In _ 0%nat Hi) as I. apply firsts_in in I. rewrite map_length in I. rewrite Forall_forall in F. apply F. apply nth_In. tauto.
Qed.
Print Assumptions C86_duplicates.

(** the signed coarse edges of a loop: its steps between vertices this process knows, along edges it knows *)
Theorem C86_signed_edges : forall R E l, econ_ok R E -> l <> [] -> exists codes, convert_loop R l = Ret codes /\
  Forall2 (fun e c => r_vert R (fst e) = Some (code_from E c) /\ r_vert R (snd e) = Some (code_to E c))
    (filter (fun e => match r_vert R (fst e), r_vert R (snd e) with Some a, Some b => negb (r_econ R a b =? -1)%Z | _, _ => false end) (steps l)) codes.
Proof.
  intros R E l HE NE. exists (map (step_code R) (filter (known R) (steps l))). split; [apply convert_ok; auto|]. change (fun e => match r_vert R (fst e), r_vert R (snd e) with Some a, Some b => negb (r_econ R a b =? -1)%Z | _, _ => false end) with (known R).
  assert (G : forall es : list edge4, Forall2 (fun e c => r_vert R (fst e) = Some (code_from E c) /\ r_vert R (snd e) = Some (code_to E c)) (filter (known R) es) (map (step_code R) (filter (known R) es))).
  { induction es as [|e es IH]; [constructor|]. cbn [filter]. destruct (known R e) eqn:K; auto. cbn [map]. constructor; auto. apply step_code_ok; auto. }
  apply G.
Qed.
Print Assumptions C86_signed_edges.

(** a loop that is known as a whole becomes a closed trail of coarse edges *)
Theorem C86_closed : forall R E l, econ_ok R E -> simple_cycle l -> (forall e, In e (steps l) -> exists a b, r_vert R (fst e) = Some a /\ r_vert R (snd e) = Some b /\ r_econ R a b <> (-1)%Z) ->
  exists codes, convert_loop R l = Ret codes /\ length codes = (length l - 1)%nat /\ closed_trail (code_from E) (code_to E) codes.
Proof.
  intros R E l HE (a & m & El & Nm & _) K. assert (NE : l <> []) by (rewrite El; discriminate). destruct (C86_signed_edges R E l HE NE) as (codes & EC & F). exists codes. split; auto.
  assert (FA : forall es : list edge4, (forall e, In e es -> exists a b, r_vert R (fst e) = Some a /\ r_vert R (snd e) = Some b /\ r_econ R a b <> (-1)%Z) -> filter (fun e : edge4 => match r_vert R (fst e), r_vert R (snd e) with Some a, Some b => negb (r_econ R a b =? -1)%Z | _, _ => false end) es = es).
  { clear. induction es as [|e es IH]; intros H; auto. cbn [filter]. destruct (H e ltac:(cbn; auto)) as (a & b & -> & -> & N). destruct (Z.eqb_spec (r_econ R a b) (-1)); [contradiction|]. cbn [negb]. f_equal. apply IH. intros; apply H; cbn; auto. }
  rewrite FA in F by exact K. split. { apply F2_length in F. rewrite <- F. rewrite steps_length. reflexivity. }
  assert (T : forall l s codes v, Forall2 (fun e c => r_vert R (fst e) = Some (code_from E c) /\ r_vert R (snd e) = Some (code_to E c)) (steps (v :: l)) codes -> r_vert R v = Some s -> exists t, r_vert R (last (v :: l) v) = Some t /\ trail (code_from E) (code_to E) s codes t).
  { clear. induction l as [|w l IH]; intros s codes v F Hv.
    - cbn in F. inversion F; subst. exists s. split; [exact Hv|reflexivity].
    - change (steps (v :: w :: l)) with ((v, w) :: steps (w :: l)) in F. inversion F as [|? c ? cs [A B] F2]; subst. cbn [fst snd] in A, B. destruct (IH (code_to E c) cs w F2 B) as (t & Ht & Tr). exists t. split.
      + change (last (v :: w :: l) v) with (last (w :: l) v). rewrite <- Ht. f_equal. clear. revert w. induction l as [|x l IH]; intros w; [reflexivity|]. change (last (w :: x :: l) v) with (last (x :: l) v). change (last (w :: x :: l) w) with (last (x :: l) w). clear. revert x. induction l as [|y l IH]; intros x; [reflexivity|]. apply (IH y).
      + cbn [trail]. split; [congruence|auto]. }
  subst l. destruct m as [|x m]; [congruence|]. destruct (K (a, x)) as (i & j & Ha & _); [cbn; auto|]. cbn [fst] in Ha. destruct (T (x :: m ++ [a]) i codes a F Ha) as (t & Ht & Tr).
  replace (last (a :: x :: m ++ [a]) a) with a in Ht by (symmetry; change (a :: x :: m ++ [a]) with ((a :: x :: m) ++ [a]); apply last_last). rewrite Ha in Ht. injection Ht as <-. split.
  - intros X. subst codes. inversion F.
  - exists i. exact Tr.
Qed.
Print Assumptions C86_closed.

Lemma phase3_nonempty R cl t : phase3 R cl = Ret t -> Forall (fun x => fst x <> []) cl.
Proof.
  unfold phase3, ce_dups, buckets, eq_arrays. intros E. destruct (foldM eq_entry (map fst cl) ([], [], [])) as [st|] eqn:Q; [|discriminate]. clear E. revert Q. generalize (@nil Z, @nil Z, @nil Z). induction cl as [|x cl IH]; intros s Q; [constructor|].
  cbn [map foldM] in Q. destruct (eq_entry s (fst x)) as [s1|] eqn:E1; [|discriminate]. cbn [bind] in Q. constructor; [|eapply IH; eauto]. intros X. rewrite X in E1. destruct s as [[? ?] ?]. discriminate.
Qed.
(** the tables of the kept loops fit on all processes as long as equal coarse loops come from loops on the same processes *)
Theorem C86_tables_fit : forall W gid sorti fuel outs tab, wf_world W gid ->
  (forall r, (r < length W)%nat -> phase2 sorti fuel W r = Ret (outs r)) ->
  (forall r, (r < length W)%nat -> phase3 (nth r W dR) (flat_loops (r_dps (nth r W dR)) (outs r)) = Ret (tab r)) ->
  (forall r j k, let fl := flat_loops (r_dps (nth r W dR)) (outs r) in (r < length W)%nat -> (j < length fl)%nat -> (k < length fl)%nat ->
     fst (nth j fl ([], [])) = fst (nth k fl ([], [])) -> forall q, In q (snd (nth j fl ([], []))) <-> In q (snd (nth k fl ([], [])))) ->
  exists gid', consistent (map r_all W) (map (fun r => map snd (tab r)) (seq 0 (length W))) gid'.
Proof.
  intros W gid sorti fuel outs tab HW H2 H3 HD. destruct (tables_fit W gid HW sorti fuel outs H2) as (gid' & HC & _).
  - intros r j k Hr Hj Hk E q. unfold lp, flat in *. rewrite (nth_map_in fst _ j [] ([], [])), (nth_map_in fst _ k [] ([], [])) in E by auto. rewrite (nth_map_in snd _ j [] ([], [])), (nth_map_in snd _ k [] ([], [])) by auto. apply HD; auto.
  - exists gid'. rewrite map_length in HC. replace (map (fun r => map snd (tab r)) (seq 0 (length W))) with (map (kept_dps W outs) (seq 0 (length W))); auto.
    apply map_ext_in. intros r Hr. apply in_seq in Hr. specialize (H3 r ltac:(lia)). pose proof (phase3_nonempty _ _ _ H3) as F. rewrite (phase3_ok _ _ F) in H3. injection H3 as <-. unfold kept_dps, flat. rewrite map_map. apply map_ext_in. intros k Hk. apply firsts_in in Hk. rewrite map_length in Hk. cbn [kept snd]. apply nth_map_in. tauto.
Qed.
Print Assumptions C86_tables_fit.

(** a loop of process 0 alone in front of a shared loop with the same coarse triangle: process 0 drops the shared one, process 1 keeps it *)
Definition exvert (p : pt) : option nat := if pteqb p exA then Some 0%nat else if pteqb p exB then Some 1%nat else if pteqb p exC then Some 2%nat else None.
Definition execon (a b : nat) : Z := match a, b with O, 1%nat => 0%Z | 1%nat, O => 0%Z | O, 2%nat => 1%Z | 2%nat, O => 1%Z | 1%nat, 2%nat => 2%Z | 2%nat, 1%nat => 2%Z | _, _ => (-1)%Z end.
Definition exD0 : rankd := mkR [[1; 3; -2]%Z; [4; 6; -5]%Z] [[]; [1%Z]] [1%Z] [0; 1; 2; 3; 4; 5]%Z [true; true; true; true; true; true] [(0, 1); (0, 2); (1, 2); (3, 4); (3, 5); (4, 5)]%nat [0; 1; 2; 0; 1; 2]%Z [exA; exB; exC] exvert execon [1%Z].
Definition exD1 : rankd := mkR [[1; 3; -2]%Z] [[0%Z]] [0%Z] [0; 1; 2]%Z [false; false; false] [(0, 1); (0, 2); (1, 2)]%nat [0; 1; 2]%Z [exA; exB; exC] exvert execon [0%Z].
Definition exD := [exD0; exD1].
Definition exDgid (r k : nat) : nat := match r, k with 0%nat, 0%nat => 1%nat | 0%nat, 1%nat => 0%nat | _, _ => k end.
Lemma exD_world : wf_world exD exDgid.
Proof.
  constructor.
  - constructor.
    + reflexivity.
    + intros r Hr. two r; cbn; repeat constructor.
    + intros r ps Hr Hps. two r; cbn in Hps; repeat destruct Hps as [<-|Hps]; try destruct Hps; (split; [repeat constructor; cbn; tauto|intros q Hq; cbn in *; tauto]).
    + intros r p Hr Hp. two r; cbn in Hp; destruct Hp as [<-|[]]; cbn; lia.
    + intros r p Hr Hp H. two r; two p; cbn in *; auto; lia.
    + intros r j k Hj Hk E. destruct (Nat.lt_ge_cases r 2) as [L|L]; [|rewrite nth_overflow in Hj by (cbn; lia); cbn in Hj; lia]. two r; cbn in Hj, Hk; destruct j as [|[|j]], k as [|[|k]]; cbn in E; try lia.
    + intros r p Hr Hp. two r; two p; reflexivity.
    + intros r p j k Hr Hp Hj Hk E q. two r; two p; cbn in Hj, Hk; destruct j as [|[|j]], k as [|[|k]]; cbn in E; try lia; try discriminate; cbn; tauto.
  - intros R [<-|[<-|[]]]; reflexivity.
  - intros R [<-|[<-|[]]]; (constructor; [intros x Hx; cbn in Hx; repeat destruct Hx as [<-|Hx]; cbn; try lia; destruct Hx|repeat constructor; cbn; intuition discriminate]).
  - intros R l c HR Hl Hc. destruct HR as [<-|[<-|[]]]; cbn in Hl; repeat destruct Hl as [<-|Hl]; try destruct Hl; cbn in Hc; repeat destruct Hc as [<-|Hc]; try destruct Hc; wfe.
Qed.
Theorem C86_local_duplicates_refuted : exists W gid sorti fuel outs tab, wf_world W gid /\ sorti_ok sorti /\ length W = 2%nat /\
  (forall r, (r < 2)%nat -> phase2 sorti fuel W r = Ret (outs r) /\ phase3 (nth r W dR) (flat_loops (r_dps (nth r W dR)) (outs r)) = Ret (tab r)) /\
  (forall gid', ~ consistent (map r_all W) [map snd (tab 0%nat); map snd (tab 1%nat)] gid') /\
  AddOrientedLoops (map r_eqdps W) [map fst (tab 0%nat); map fst (tab 1%nat)] [map snd (tab 0%nat); map snd (tab 1%nat)] 0 = Err OutOfBounds.
Proof.
  exists exD, exDgid, psort, 20%nat, (fun r => match r with O => [[[exA; exB; exC; exA]]; [[exA; exB; exC; exA]]] | _ => [[[exA; exB; exC; exA]]] end),
    (fun r => match r with O => [([1; 3; -2]%Z, [])] | _ => [([1; 3; -2]%Z, [0%Z])] end).
  split; [apply exD_world|]. split; [apply psort_ok|]. split; [reflexivity|]. split. { intros r Hr. destruct r as [|[|r]]; [| |lia]; split; vm_compute; reflexivity. }
  split; [|vm_compute; reflexivity]. intros gid' HC. pose proof (con_order _ _ _ HC 0%nat 1%nat ltac:(cbn; lia) ltac:(cbn; lia)) as X. vm_compute in X. discriminate.
Qed.
Print Assumptions C86_local_duplicates_refuted.
Example C86_nonvacuous : econ_ok exD0 [(0, 1); (0, 2); (1, 2)]%nat /\ simple_cycle [exA; exB; exC; exA] /\ convert_loop exD0 [exA; exB; exC; exA] = Ret [1; 3; -2]%Z /\
  phase3 exD0 [([exA; exB; exC; exA], []); ([exA; exC; exB; exA], [1%Z]); ([exA; exB; exC; exA], [])] = Ret [([1; 3; -2]%Z, []); ([2; -3; -1]%Z, [1%Z])].
Proof.
  split.
  - intros a b. cbn [r_econ exD0]. destruct a as [|[|[|a]]], b as [|[|[|b]]]; cbn [execon]; try (left; reflexivity); right; (split; [cbn; lia|]); ((left; split; [reflexivity|lia]) || (right; split; [reflexivity|lia])).
  - split; [exists exA, [exB; exC]; split; [reflexivity|split; [discriminate|repeat constructor; cbn; intuition discriminate]]|]. split; vm_compute; reflexivity.
Qed.

(** ** C87 leaving out empty loops keeps the tables of shared loops fitting *)
Theorem C87_shrink : forall alls dpss gid rems r, consistent alls dpss gid -> length rems = length alls ->
  (forall q, (q < length alls)%nat -> length (nth q rems []) = length (nth q dpss [])) -> (r < length alls)%nat ->
  exists out rm ks, ShrinkDPTable alls dpss rems r = Ret (out, rm) /\ StronglySorted lt ks /\ (forall k, In k ks <-> (k < length (nth r dpss []))%nat /\ nth k (nth r rems []) true = false) /\
    length out = length ks /\ length rm = length (nth r rems []) /\
    (forall k, (k < length rm)%nat -> nth k (nth r rems []) true = true -> nth k rm 0%Z = (-1)%Z) /\
    forall i, (i < length ks)%nat -> let k := nth i ks 0%nat in nth k rm 0%Z = Z.of_nat i /\
      exists f, nth i out [] = filter f (nth k (nth r dpss []) []) /\ forall q, In q (nth k (nth r dpss []) []) ->
        (f q = true <-> exists k', (k' < length (nth (Z.to_nat q) dpss []))%nat /\ gid (Z.to_nat q) k' = gid r k /\ nth k' (nth (Z.to_nat q) rems []) true = false).
Proof.
  intros alls dpss gid rems r HC HR HL Hr. exists (newdps dpss gid (keepR rems) r), (row_map (nth r rems []) 0), (keptnr dpss (keepR rems) r). split; [apply (shrink_ok alls); auto|]. split; [apply sorted_seq_filter|]. split.
  { intros k. rewrite keptnr_in. unfold keepR. rewrite negb_true_iff. tauto. }
  split; [apply map_length|].
  assert (RM : forall rem n, length (row_map rem n) = length rem /\ (forall k, (k < length rem)%nat -> nth k rem true = true -> nth k (row_map rem n) 0%Z = (-1)%Z) /\
     forall i, let ks := filter (fun k => negb (nth k rem true)) (seq 0 (length rem)) in (i < length ks)%nat -> nth (nth i ks 0%nat) (row_map rem n) 0%Z = Z.of_nat (n + i)).
  { induction rem as [|b rem IH]; intros n; [split; [reflexivity|]; split; [intros k Hk; cbn in Hk; lia|intros i ks Hi; cbn in Hi; lia]|].
    assert (FS : filter (fun k => negb (nth k (b :: rem) true)) (seq 0 (length (b :: rem))) = (if b then [] else [0%nat]) ++ map S (filter (fun k => negb (nth k rem true)) (seq 0 (length rem)))).
    { cbn [length seq filter nth]. rewrite <- seq_shift. rewrite (filter_map_S (fun k => negb (nth k (b :: rem) true))). destruct b; reflexivity. }
    cbv zeta. rewrite FS. cbn [row_map length]. destruct b; cbn [app].
    - destruct (IH n) as (A & B & C). cbn [length]. split; [congruence|]. split.
      + intros k Hk E. destruct k as [|k]; [reflexivity|]. cbn [nth] in *. apply B; auto. lia.
      + intros i Hi. rewrite map_length in Hi. rewrite (nth_map_in S _ i 0%nat 0%nat) by auto. cbn [nth]. apply C; auto.
    - destruct (IH (S n)) as (A & B & C). cbn [length]. split; [congruence|]. split.
      + intros k Hk E. destruct k as [|k]; [discriminate|]. cbn [nth] in *. apply B; auto. lia.
      + intros i Hi. destruct i as [|i]; [cbn; f_equal; lia|]. cbn [nth length] in *. rewrite map_length in Hi. rewrite (nth_map_in S _ i 0%nat 0%nat) by lia. cbn [nth]. rewrite C by (cbv zeta; lia). f_equal. lia. }
  destruct (RM (nth r rems []) 0%nat) as (R1 & R2 & R3). split; [exact R1|]. split; [intros k Hk; apply R2; lia|].
  intros i Hi. cbv zeta. split. { unfold keptnr in *. rewrite <- HL in * by auto. apply (R3 i). exact Hi. }
  exists (fun q => stays dpss gid (keepR rems) (Z.to_nat q) (gid r (nth i (keptnr dpss (keepR rems) r) 0%nat))). split; [rewrite newdps_row by auto; reflexivity|].
  intros q Hq. set (k := nth i (keptnr dpss (keepR rems) r) 0%nat) in *. assert (Hk : (k < length (nth r dpss []))%nat) by (apply (keptnr_in dpss (keepR rems)), nth_In; auto).
  destruct (partner' alls dpss gid HC rems HR r Hr q k Hk Hq) as (k' & Hk' & G). rewrite <- G. rewrite (stays_ok alls dpss gid HC) by auto. unfold keepR. rewrite negb_true_iff. split.
  - intros X. exists k'. auto.
  - intros (k2 & A & B & C). apply (con_inj _ _ _ HC) in B; auto. subst k2. exact C.
Qed.
Print Assumptions C87_shrink.

Theorem C87_add_loops : forall eqdps loopss dpss gid alls0 r, consistent alls0 dpss gid -> length alls0 = length eqdps -> length loopss = length eqdps ->
  (forall q, (q < length eqdps)%nat -> length (nth q loopss []) = length (nth q dpss [])) ->
  (forall q, (q < length eqdps)%nat -> StronglySorted Z.lt (nth q eqdps [])) ->
  (forall q p, (q < length eqdps)%nat -> In p (nth q eqdps []) -> (0 <= p < Z.of_nat (length eqdps))%Z /\ p <> Z.of_nat q) ->
  (forall q p, (q < length eqdps)%nat -> (p < length eqdps)%nat -> In (Z.of_nat p) (nth q eqdps []) -> In (Z.of_nat q) (nth p eqdps [])) -> (r < length eqdps)%nat ->
  exists out ks, AddOrientedLoops eqdps loopss dpss r = Ret (map (fun k => nth k (nth r loopss []) []) ks, out) /\ StronglySorted lt ks /\
    (forall k, In k ks <-> (k < length (nth r loopss []))%nat /\ nth k (nth r loopss []) [] <> []) /\ length out = length ks /\
    forall i, (i < length ks)%nat -> let k := nth i ks 0%nat in
      exists f, nth i out [] = filter f (nth k (nth r dpss []) []) /\ forall q, In q (nth k (nth r dpss []) []) ->
        (f q = true <-> exists k', (k' < length (nth (Z.to_nat q) dpss []))%nat /\ gid (Z.to_nat q) k' = gid r k /\ nth k' (nth (Z.to_nat q) loopss []) [] <> []).
Proof.
  intros eqdps loopss dpss gid alls0 r HC L0 L1 L2 E1 E2 E3 Hr. destruct (add_ok eqdps loopss dpss gid alls0 HC L0 L1 L2 E1 E2 E3 r Hr) as [EQ _]. 
  exists (newdps dpss gid (nonempty loopss) r), (keptnr dpss (nonempty loopss) r).
  assert (NE : forall p k, nonempty loopss p k = true <-> nth k (nth p loopss []) [] <> []) by (intros p k; unfold nonempty; destruct (nth k (nth p loopss []) []); split; congruence).
  split.
  { rewrite EQ. f_equal. f_equal. unfold keptnr. rewrite <- L2 by auto. unfold nonempty. rewrite (filter_pos (fun l => l) (fun l : list Z => match l with [] => false | _ => true end) []). rewrite map_id. reflexivity. }
  split; [apply sorted_seq_filter|]. split. { intros k. rewrite keptnr_in, NE, L2 by auto. tauto. } split; [apply map_length|].
  intros i Hi. cbv zeta. exists (fun q => stays dpss gid (nonempty loopss) (Z.to_nat q) (gid r (nth i (keptnr dpss (nonempty loopss) r) 0%nat))). split; [rewrite newdps_row by auto; reflexivity|].
  intros q Hq. set (k := nth i (keptnr dpss (nonempty loopss) r) 0%nat) in *. assert (Hk : (k < length (nth r dpss []))%nat) by (apply (keptnr_in dpss (nonempty loopss)), nth_In; auto).
  destruct (partner' alls0 dpss gid HC (repeat [] (length alls0)) (repeat_length _ _) r ltac:(lia) q k Hk Hq) as (k' & Hk' & G). rewrite <- G. rewrite (stays_ok alls0 dpss gid HC) by auto. rewrite NE. split.
  - intros X. exists k'. auto.
  - intros (k2 & A & B & C). apply (con_inj _ _ _ HC) in B; auto. subst k2. exact C.
Qed.
Print Assumptions C87_add_loops.

(** the result fits again: a loop that two processes keep is shared by both, in the same order *)
Theorem C87_fits_again : forall eqdps loopss dpss gid alls0, consistent alls0 dpss gid -> length alls0 = length eqdps -> length loopss = length eqdps ->
  (forall q, (q < length eqdps)%nat -> length (nth q loopss []) = length (nth q dpss [])) ->
  (forall q, (q < length eqdps)%nat -> StronglySorted Z.lt (nth q eqdps [])) ->
  (forall q p, (q < length eqdps)%nat -> In p (nth q eqdps []) -> (0 <= p < Z.of_nat (length eqdps))%Z /\ p <> Z.of_nat q) ->
  (forall q p, (q < length eqdps)%nat -> (p < length eqdps)%nat -> In (Z.of_nat p) (nth q eqdps []) -> In (Z.of_nat q) (nth p eqdps [])) ->
  exists res alls gid', (forall r, (r < length eqdps)%nat -> exists loops, AddOrientedLoops eqdps loopss dpss r = Ret (loops, nth r res [])) /\ consistent alls res gid'.
Proof.
  intros eqdps loopss dpss gid alls0 HC L0 L1 L2 E1 E2 E3. destruct (length eqdps) as [|n] eqn:LE.
  - exists [], [], (fun _ k => k). split; [intros r Hr; lia|]. constructor; intros; cbn in *; lia.
  - rewrite <- LE in *. pose proof (fun r Hr => add_ok eqdps loopss dpss gid alls0 HC L0 L1 L2 E1 E2 E3 r Hr) as A. destruct (A 0%nat ltac:(lia)) as [_ (alls & C)].
    exists (map (newdps dpss gid (nonempty loopss)) (seq 0 (length eqdps))), alls, (newgid dpss gid (nonempty loopss)). split; [|exact C].
    intros r Hr. destruct (A r Hr) as [E _]. eexists. rewrite E. f_equal. f_equal. symmetry. apply map_nth_seq; auto.
Qed.
Print Assumptions C87_fits_again.
(** two processes, the second loop is empty on process 1 *)
Example C87_nonvacuous : consistent [[1]; [0]]%Z [[[1]; [1]; []]; [[0]; [0]]]%Z (fun _ k => k) /\
  AddOrientedLoops [[1]; [0]]%Z [[[1; -2]; [3]; [4]]; [[5]; []]]%Z [[[1]; [1]; []]; [[0]; [0]]]%Z 0 = Ret ([[1; -2]; [3]; [4]]%Z, [[1]; []; []]%Z) /\
  AddOrientedLoops [[1]; [0]]%Z [[[1; -2]; [3]; [4]]; [[5]; []]]%Z [[[1]; [1]; []]; [[0]; [0]]]%Z 1 = Ret ([[5]]%Z, [[0]]%Z).
Proof.
  split; [|split; vm_compute; reflexivity]. constructor.
  - reflexivity.
  - intros r Hr. two r; cbn; repeat constructor.
  - intros r ps Hr Hps. two r; cbn in Hps; repeat destruct Hps as [<-|Hps]; try destruct Hps; (split; [repeat constructor; cbn; tauto|intros q Hq; cbn in *; tauto]).
  - intros r p Hr Hp. two r; cbn in Hp; destruct Hp as [<-|[]]; cbn; lia.
  - intros r p Hr Hp H. two r; two p; cbn in *; auto; lia.
  - intros r j k Hj Hk E. exact E.
  - intros r p Hr Hp. two r; two p; reflexivity.
  - intros r p j k Hr Hp Hj Hk E q. subst k. two r; two p; cbn in Hj, Hk; destruct j as [|[|[|j]]]; try lia; cbn; tauto.
Qed.
