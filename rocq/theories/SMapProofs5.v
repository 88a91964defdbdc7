(** Cutting the image of a loop keeps its flow *)
From Verif Require Import Base ArraysModel LoopModel LoopSpec LoopProofs LoopProofs2 LoopProofs3 LoopProofs4 LoopProofs5 LoopProps SMapModel SMapProofs SMapSpec.
Import ListNotations.

Lemma runs_app es fs a b : runs (es ++ fs) a b = (runs es a b + runs fs a b)%nat.
Proof. unfold runs. rewrite filter_app, app_length. reflexivity. Qed.
Lemma net_app es fs a b : net (es ++ fs) a b = (net es a b + net fs a b)%Z.
Proof. unfold net. rewrite !runs_app. lia. Qed.
Lemma runs_perm es fs a b : Permutation es fs -> runs es a b = runs fs a b.
Proof. unfold runs. induction 1 as [|x l l' P IH|x y l|l l' l'' P1 IH1 P2 IH2]; cbn [filter]; auto; [destruct (_ && _); cbn; congruence| |congruence]. destruct (pteqb (fst y) a && _), (pteqb (fst x) a && _); reflexivity. Qed.
Lemma net_perm es fs a b : Permutation es fs -> net es a b = net fs a b.
Proof. intros P. unfold net. rewrite !(runs_perm es fs) by auto. reflexivity. Qed.
Lemma runs_flip es a b : runs (map flip4 es) a b = runs es b a.
Proof. unfold runs. induction es as [|e es IH]; cbn [map filter]; auto. unfold flip4 at 1 2. cbn [fst snd]. rewrite andb_comm. destruct (_ && _); cbn; congruence. Qed.
Lemma net_flip es a b : net (map flip4 es) a b = (- net es a b)%Z.
Proof. unfold net. rewrite !runs_flip. lia. Qed.
Lemma runs_proper es a b : a <> b -> runs (proper pteqb es) a b = runs es a b.
Proof.
  intros N. unfold runs, proper. induction es as [|e es IH]; cbn [filter]; auto. destruct (pteqb (fst e) (snd e)) eqn:E; cbn [negb].
  - apply pteqb_ok in E. rewrite IH. destruct (pteqb (fst e) a && pteqb (snd e) b) eqn:F; auto. apply andb_prop in F. destruct F as [F1 F2]. apply pteqb_ok in F1, F2. congruence.
  - cbn [filter]. destruct (_ && _); cbn; congruence.
Qed.
Lemma net_proper es a b : net (proper pteqb es) a b = net es a b.
Proof.
  unfold net. destruct (pteqb a b) eqn:E; [apply pteqb_ok in E; subst; lia|]. assert (a <> b) by (intros X; apply pteqb_ok in X; congruence). rewrite !runs_proper; auto.
Qed.

Lemma keep_simple l : simple_cycle l -> keep_loop l = (4 <=? length l)%nat.
Proof.
  intros (a & m & E & NE & ND). subst l. cbn [app]. unfold keep_loop. destruct (m ++ [a]) as [|y q] eqn:Q; [destruct m; discriminate|].
  replace (last (a :: y :: q) a) with a. 2:{ change (a :: y :: q) with ([a] ++ (y :: q)). rewrite <- Q, app_assoc. symmetry. apply last_last. }
  rewrite pteqb_refl, andb_true_r. destruct (Nat.leb_spec (length (a :: y :: q)) 3), (Nat.leb_spec 4 (length (a :: y :: q))); auto; lia.
Qed.
Lemma short_zero l a b : simple_cycle l -> (length l <= 3)%nat -> net (steps l) a b = 0%Z.
Proof.
  intros (x & m & E & NE & _) L. subst l. destruct m as [|y [|z m]]; [congruence| |cbn in L; rewrite app_length in L; cbn in L; lia].
  cbn [app]. unfold net, runs, steps. cbn [tl combine filter fst snd]. destruct (pteqb x a && pteqb y b) eqn:A, (pteqb x b && pteqb y a) eqn:B;
  rewrite ?(andb_comm (pteqb y a)), ?(andb_comm (pteqb y b)), ?A, ?B; reflexivity.
Qed.

Lemma net_concat_cons l ls a b : net (concat (map steps (l :: ls))) a b = (net (steps l) a b + net (concat (map steps ls)) a b)%Z.
Proof. cbn [map concat]. apply net_app. Qed.

Lemma steps_ends (l : list pt) e : In e (steps l) -> In (fst e) l /\ In (snd e) l.
Proof. destruct e as [x y]. unfold steps. intros H. split; [eapply in_combine_l; eauto|]. apply in_combine_r in H. destruct l; [destruct H|right; exact H]. Qed.
Lemma in_steps (l : list pt) v : simple_cycle l -> In v l -> exists e, In e (steps l) /\ fst e = v.
Proof.
  intros H Hv. destruct (simple_closed l H) as (C & L & _). destruct (In_nth _ _ d0 Hv) as (i & Hi & E). destruct (Nat.eq_dec i (length l - 1)) as [->|N].
  - exists (nth 0 l d0, nth 1 l d0). split; [apply steps_in; lia|]. cbn [fst]. rewrite <- hd_nth, C, last_nth. exact E.
  - exists (nth i l d0, nth (S i) l d0). split; [apply steps_in; lia|auto].
Qed.
Lemma rotate_members (l r : list pt) v : simple_cycle r -> Permutation (steps r) (steps l) \/ Permutation (steps r) (map flip4 (steps l)) -> In v r -> In v l.
Proof.
  intros H P Hv. destruct (in_steps r v H Hv) as (e & He & <-). destruct P as [P|P]; apply (Permutation_in _ P) in He.
  - apply steps_ends; auto.
  - apply in_map_iff in He. destruct He as (f & <- & Hf). unfold flip4. cbn [fst]. apply steps_ends; auto.
Qed.
Lemma rotate_all : forall ls : list (list pt), Forall simple_cycle ls -> exists out ss, mapM rotateVLoop (filter keep_loop ls) = Ret out /\ Forall coarse_loop out /\
  length ss = length out /\ Forall (fun s => s = 1 \/ s = -1)%Z ss /\ forall a b, net (concat (map steps ls)) a b = loop_sum ss out a b.
Proof.
  induction 1 as [|l ls H F IH]; [exists [], []; repeat split; auto|]. destruct IH as (out & ss & E & G & L & SS & N). cbn [filter]. rewrite (keep_simple l H).
  destruct (Nat.leb_spec 4 (length l)) as [L4|L4].
  - destruct (rotate_simple l H) as (r & Er & SC & Lr & P & M & _). cbn [mapM]. rewrite Er. cbn [bind]. rewrite E. cbn [bind].
    assert (CL : coarse_loop r). { split; auto. split; [lia|]. intros v Hv. apply M. apply (rotate_members l r); auto. }
    assert (X : exists s, (s = 1 \/ s = -1)%Z /\ forall a b, net (steps l) a b = (s * net (steps r) a b)%Z).
    { destruct P as [P|P]; [exists 1%Z|exists (-1)%Z]; (split; [lia|]); intros a b; rewrite (net_perm _ _ _ _ P); [lia|rewrite net_flip; lia]. }
    destruct X as (s & Hs & X). exists (r :: out), (s :: ss). split; [reflexivity|]. split; [constructor; auto|]. split; [cbn; lia|]. split; [constructor; auto|].
    intros a b. rewrite net_concat_cons. cbn [loop_sum]. rewrite N, X. reflexivity.
  - exists out, ss. split; [auto|]. split; [auto|]. split; [auto|]. split; [auto|]. intros a b. rewrite net_concat_cons, short_zero by (auto; lia). rewrite N. reflexivity.
Qed.

Theorem loops_of_ok sorti fuel (data : list (list edge4)) : sorti_ok sorti -> (forall e, In e (concat data) -> (0 < fst (fst e))%Z) -> balanced pteqb (concat data) -> (2 * length (concat data) < fuel)%nat ->
  exists out ss, loops_of sorti fuel data = Ret out /\ Forall coarse_loop out /\ length ss = length out /\ Forall (fun s => s = 1 \/ s = -1)%Z ss /\
    forall a b, net (concat data) a b = loop_sum ss out a b.
Proof.
  intros HS HP HB HF. unfold loops_of. destruct (C83_simple_loops sorti data fuel) as (simple & E & SC & P); auto. rewrite E. cbn [bind].
  destruct (rotate_all simple SC) as (out & ss & E' & CL & L & SS & N). exists out, ss. rewrite E'. split; [reflexivity|]. split; auto. split; auto. split; auto.
  intros a b. rewrite <- N. rewrite (net_perm _ _ _ _ P), net_proper. reflexivity.
Qed.

(** ** the local part of the image *)
Section Init.
  Variable R : rankd.
  (** the edge has a degree of freedom, and this process is its master *)
  Definition entered (c : Z) : bool :=
    let d := nth (Z.to_nat (Z.abs c - 1)) (r_e2dof R) (-1)%Z in negb (d =? -1)%Z && nth (Z.to_nat d) (r_master R) false.
  (** the coarse vertex of a fine one; a dropped one has none *)
  Definition cpoint (v : nat) : pt := let c := nth v (r_vmap R) (-1)%Z in if (c =? -1)%Z then (0, 0)%Z else nth (Z.to_nat c) (r_cid R) (0, 0)%Z.
  Definition cstep (c : Z) : edge4 := (cpoint (code_from (r_edges R) c), cpoint (code_to (r_edges R) c)).
  (** what the entries of a loop have to be *)
  Record wf_rank : Prop := {
    wf_ids : forall x, In x (r_cid R) -> (0 < fst x)%Z;
    wf_cid : NoDup (r_cid R)
  }.
  Record wf_entry (c : Z) : Prop := {
    wf_nz : c <> 0%Z;
    wf_e2dof : (Z.to_nat (Z.abs c - 1) < length (r_e2dof R))%nat;
    wf_edge : (Z.to_nat (Z.abs c - 1) < length (r_edges R))%nat;
    wf_dof : let d := nth (Z.to_nat (Z.abs c - 1)) (r_e2dof R) (-1)%Z in (-1 <= d < Z.of_nat (length (r_master R)))%Z;
    wf_ends : (code_from (r_edges R) c < length (r_vmap R))%nat /\ (code_to (r_edges R) c < length (r_vmap R))%nat;
    wf_map : let z0 := nth (code_from (r_edges R) c) (r_vmap R) (-1)%Z in let z1 := nth (code_to (r_edges R) c) (r_vmap R) (-1)%Z in
      (z0 = -1 /\ z1 = -1 \/ 0 <= z0 < Z.of_nat (length (r_cid R)) /\ 0 <= z1 < Z.of_nat (length (r_cid R)))%Z
  }.
  Hypothesis HR : wf_rank.

  Lemma cpoint_eq v w : let z0 := nth v (r_vmap R) (-1)%Z in let z1 := nth w (r_vmap R) (-1)%Z in
    (z0 = -1 /\ z1 = -1 \/ 0 <= z0 < Z.of_nat (length (r_cid R)) /\ 0 <= z1 < Z.of_nat (length (r_cid R)))%Z ->
    pteqb (cpoint v) (cpoint w) = (z0 =? z1)%Z.
  Proof.
    cbv zeta. unfold cpoint. intros [[-> ->]|[A B]]; [reflexivity|]. destruct (Z.eqb_spec (nth v (r_vmap R) (-1)%Z) (-1)); [lia|]. destruct (Z.eqb_spec (nth w (r_vmap R) (-1)%Z) (-1)); [lia|].
    destruct (Z.eqb_spec (nth v (r_vmap R) (-1)%Z) (nth w (r_vmap R) (-1)%Z)) as [->|N]; [apply pteqb_refl|].
    destruct (pteqb _ _) eqn:E; auto. exfalso. apply N. apply pteqb_ok in E. pose proof (wf_cid HR) as ND. rewrite (NoDup_nth _ ((0, 0)%Z : pt)) in ND. specialize (ND (Z.to_nat (nth v (r_vmap R) (-1)%Z)) (Z.to_nat (nth w (r_vmap R) (-1)%Z)) ltac:(lia) ltac:(lia) E). lia.
  Qed.

  Lemma init_loop_ok : forall loop, (forall c, In c loop -> wf_entry c) -> init_loop R loop = Ret (proper pteqb (map cstep (filter entered loop))).
  Proof.
    assert (G : forall loop acc, (forall c, In c loop -> wf_entry c) -> foldM (init_entry R) loop acc = Ret (acc ++ proper pteqb (map cstep (filter entered loop)))).
    { induction loop as [|c loop IH]; intros acc H; [cbn; rewrite app_nil_r; reflexivity|]. cbn [foldM]. destruct (H c ltac:(cbn; auto)) as [C1 C2 C3 C4 [C5 C5'] C6]. cbv zeta in C4, C6.
      assert (H' : forall c, In c loop -> wf_entry c) by (intros; apply H; cbn; auto).
      unfold init_entry at 1, loopDecode. unfold rdz. destruct (Z.ltb_spec (Z.abs c - 1) 0); [lia|]. rewrite (rd_ok _ _ (-1)%Z) by auto. cbn [bind].
      cbn [filter]. unfold entered at 1. cbv zeta. set (d := nth (Z.to_nat (Z.abs c - 1)) (r_e2dof R) (-1)%Z) in *.
      destruct (Z.eqb_spec d (-1)) as [D|D]; cbn [negb andb bind].
      { apply IH; auto. }
      destruct (Z.ltb_spec d 0); [lia|]. rewrite (rd_ok (r_master R) _ false) by lia. cbn [bind]. destruct (nth (Z.to_nat d) (r_master R) false); cbn [negb bind]; [|apply IH; auto].
      rewrite (rd_ok (r_edges R) _ (O, O)) by auto. cbn [bind].
      cbn [map]. unfold proper. cbn [filter]. unfold cstep at 1 2. cbn [fst snd]. rewrite (cpoint_eq _ _ C6).
      assert (X : forall z0 z1 : Z, (0 <= z0 < Z.of_nat (length (r_cid R)))%Z -> (0 <= z1 < Z.of_nat (length (r_cid R)))%Z -> forall acc : list edge4,
         (p0 <- rdz (r_cid R) z0 ;; p1 <- rdz (r_cid R) z1 ;; Ret (acc ++ [(p0, p1)])) = Ret (acc ++ [(nth (Z.to_nat z0) (r_cid R) (0, 0)%Z, nth (Z.to_nat z1) (r_cid R) (0, 0)%Z)])).
      { intros z0 z1 Z0 Z1 a. unfold rdz. destruct (Z.ltb_spec z0 0); [lia|]. destruct (Z.ltb_spec z1 0); [lia|]. rewrite !(rd_ok (r_cid R) _ (0, 0)%Z) by lia. reflexivity. }
      assert (Y : forall v, (0 <= nth v (r_vmap R) (-1) < Z.of_nat (length (r_cid R)))%Z -> cpoint v = nth (Z.to_nat (nth v (r_vmap R) (-1)%Z)) (r_cid R) (0, 0)%Z).
      { intros v Hv. unfold cpoint. destruct (Z.eqb_spec (nth v (r_vmap R) (-1)%Z) (-1)); [lia|reflexivity]. }
      unfold cstep. unfold code_from, code_to in *. cbv zeta in *. destruct (0 <? c)%Z.
      - rewrite !(rd_ok (r_vmap R) _ (-1)%Z) by auto. cbn [bind]. destruct (Z.eqb_spec (nth (fst (nth (Z.to_nat (Z.abs c - 1)) (r_edges R) (O, O))) (r_vmap R) (-1)%Z) (nth (snd (nth (Z.to_nat (Z.abs c - 1)) (r_edges R) (O, O))) (r_vmap R) (-1)%Z)) as [E|E]; cbn [negb].
        + cbn [bind]. apply IH; auto.
        + destruct C6 as [[C6 C7]|[C6 C7]]; [congruence|]. fold (rdz (r_cid R) (nth (fst (nth (Z.to_nat (Z.abs c - 1)) (r_edges R) (O, O))) (r_vmap R) (-1)%Z)). 
          match goal with |- bind ?m _ = _ => change m with (p0 <- rdz (r_cid R) (nth (fst (nth (Z.to_nat (Z.abs c - 1)) (r_edges R) (O, O))) (r_vmap R) (-1)%Z) ;; p1 <- rdz (r_cid R) (nth (snd (nth (Z.to_nat (Z.abs c - 1)) (r_edges R) (O, O))) (r_vmap R) (-1)%Z) ;; Ret (acc ++ [(p0, p1)])) end.
          rewrite X by auto. cbn [bind]. rewrite IH by auto. rewrite <- app_assoc, <- !Y by auto. reflexivity.
      - rewrite !(rd_ok (r_vmap R) _ (-1)%Z) by auto. cbn [bind]. rewrite Z.eqb_sym. destruct (Z.eqb_spec (nth (snd (nth (Z.to_nat (Z.abs c - 1)) (r_edges R) (O, O))) (r_vmap R) (-1)%Z) (nth (fst (nth (Z.to_nat (Z.abs c - 1)) (r_edges R) (O, O))) (r_vmap R) (-1)%Z)) as [E|E]; cbn [negb].
        + cbn [bind]. apply IH; auto.
        + destruct C6 as [[C6 C7]|[C6 C7]]; [congruence|].
          match goal with |- bind ?m _ = _ => change m with (p0 <- rdz (r_cid R) (nth (snd (nth (Z.to_nat (Z.abs c - 1)) (r_edges R) (O, O))) (r_vmap R) (-1)%Z) ;; p1 <- rdz (r_cid R) (nth (fst (nth (Z.to_nat (Z.abs c - 1)) (r_edges R) (O, O))) (r_vmap R) (-1)%Z) ;; Ret (acc ++ [(p0, p1)])) end.
          rewrite X by auto. cbn [bind]. rewrite IH by auto. rewrite <- app_assoc, <- !Y by auto. reflexivity. }
    intros loop H. unfold init_loop. rewrite G by auto. reflexivity.
  Qed.
  Lemma init_cl_vs_ok : (forall l, In l (r_loops R) -> forall c, In c l -> wf_entry c) -> init_cl_vs R = Ret (map (fun l => proper pteqb (map cstep (filter entered l))) (r_loops R)).
  Proof. intros H. unfold init_cl_vs. apply mapM_ok. intros l Hl. apply init_loop_ok. intros; eapply H; eauto. Qed.
  Lemma cstep_pos l : (forall c, In c l -> wf_entry c) -> forall e, In e (proper pteqb (map cstep (filter entered l))) -> (0 < fst (fst e))%Z.
  Proof.
    intros H e He. unfold proper in He. apply filter_In in He. destruct He as [He N]. apply in_map_iff in He. destruct He as (c & <- & Hc). apply filter_In in Hc. destruct Hc as [Hc _].
    destruct (H c Hc) as [_ _ _ _ _ C6]. cbv zeta in C6. unfold cstep in N. cbn [fst snd] in N. rewrite (cpoint_eq _ _ C6) in N.
    destruct C6 as [[C6 C7]|[C6 C7]]; [rewrite C6, C7 in N; discriminate|]. unfold cstep. cbn [fst]. unfold cpoint. destruct (Z.eqb_spec (nth (code_from (r_edges R) c) (r_vmap R) (-1)%Z) (-1)); [lia|]. apply (wf_ids HR). apply nth_In. lia.
  Qed.
End Init.
