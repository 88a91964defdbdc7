From Verif Require Import Base ArraysModel AGroup LinAlg LinTools SparseModel SparseSpec SparseProofs MergeModel BlockModel CtrModel HybMatProofs.
From Coq Require Import Ring Permutation.
Open Scope nat_scope.

Lemma rd_some {A} (a : list A) i v : nth_error a i = Some v -> rd a i = Ret v.
Proof. unfold rd. now intros ->. Qed.
Lemma numbered_seq {A} (l : list A) (d : A) : numbered l = map (fun i => (i, nth i l d)) (seq 0 (length l)).
Proof.
  unfold numbered. apply nth_ext with (d := (0, d)) (d' := (0, d)).
  - rewrite combine_length, map_length, seq_length. lia.
  - intros i Hi. rewrite combine_length, seq_length, Nat.min_id in Hi. rewrite combine_nth by (rewrite seq_length; auto).
    rewrite seq_nth by auto. rewrite (nth_indep _ (0, d) ((fun i => (i, nth i l d)) 0)) by (rewrite map_length, seq_length; auto).
    rewrite (map_nth (fun i => (i, nth i l d))). rewrite seq_nth by auto. reflexivity.
Qed.
Lemma mapM_ok {A C} (f : A -> res C) (g : A -> C) l : (forall a, In a l -> f a = Ret (g a)) -> mapM f l = Ret (map g l).
Proof.
  induction l as [|a l IH]; intros H; simpl; auto. rewrite H by now left. cbn [bind]. rewrite IH; auto. intros; apply H; now right.
Qed.
Lemma mapM_ret {A C} (f : A -> res C) l out : mapM f l = Ret out -> Forall2 (fun a c => f a = Ret c) l out.
Proof.
  revert out. induction l as [|a l IH]; simpl; intros out H.
  - injection H as <-. constructor.
  - destruct (f a) eqn:E; cbn [bind] in H; [|discriminate]. destruct (mapM f l) eqn:E2; cbn [bind] in H; [|discriminate].
    injection H as <-. constructor; auto.
Qed.

Section T.
  Context {B : Blk} (L : BlkLaws B).
  Let LX := lawX B L.
  Ltac agx := ag LX.
  Notation vec := (list (X B)).
  Definition lsum {A} (l : list A) (f : A -> X B) : X B := fold_right (fun a s => xadd (f a) s) x0 l.
  Lemma lsum_app {A} (l1 l2 : list A) f : lsum (l1 ++ l2) f = xadd (lsum l1 f) (lsum l2 f).
  Proof. induction l1; simpl. agx. rewrite IHl1. agx. Qed.
  Lemma lsum_perm {A} (l1 l2 : list A) f : Permutation l1 l2 -> lsum l1 f = lsum l2 f.
  Proof. induction 1; simpl; auto. now rewrite IHPermutation. agx. congruence. Qed.
  Lemma lsum_ext {A} (l : list A) f g : (forall a, In a l -> f a = g a) -> lsum l f = lsum l g.
  Proof. induction l as [|a l IH]; intros H; simpl; auto. rewrite H by now left. rewrite IH; auto. intros; apply H; now right. Qed.
  Lemma lsum_0 {A} (l : list A) : lsum l (fun _ => x0) = x0.
  Proof. induction l; simpl; auto. rewrite IHl. agx. Qed.
  Lemma lsum_filter {A} (p : A -> bool) (l : list A) f : (forall a, In a l -> p a = false -> f a = x0) -> lsum (filter p l) f = lsum l f.
  Proof.
    induction l as [|a l IH]; intros H; simpl; auto. destruct (p a) eqn:E; simpl; rewrite IH by (intros; apply H; auto; now right); auto.
    rewrite (H a) by (auto; now left). agx.
  Qed.
  Lemma lsum_sc {A} (l : list A) f c : lsum l (fun a => xsc c (f a)) = xsc c (lsum l f).
  Proof. induction l; simpl. now rewrite (xsc_0 L). rewrite IHl. now rewrite (sc_add B L). Qed.

  (** contribution of one vector through one map to entry i *)
  Definition through (map : list nat) (x : vec) (i : nat) : X B := lsum (seq 0 (length map)) (fun j => if nth j map 0 =? i then ent x j else x0).

  Lemma add_mapped_gen fac map buf : forall js fvc, (forall j, In j js -> j < length map /\ j < length buf /\ nth j map 0 < length fvc) ->
    exists r, foldM (fun fvc jm => b <- (match nth_error buf (fst jm) with Some b => Ret b | None => Err Uninit end) ;;
                         v <- rd fvc (snd jm) ;; wr fvc (snd jm) (xadd v (xsc fac b))) (List.map (fun i => (i, nth i map 0)) js) fvc = Ret r /\ length r = length fvc /\
      forall i, i < length fvc -> ent r i = xadd (ent fvc i) (xsc fac (lsum js (fun j => if nth j map 0 =? i then ent buf j else x0))).
  Proof.
    induction js as [|j js IH]; intros fvc H.
    - exists fvc. split; [reflexivity|]. split; auto. intros i Hi. simpl. rewrite (xsc_0 L). agx.
    - destruct (H j (or_introl eq_refl)) as (Hm & Hb & Hc). cbn [List.map foldM fst snd].
      rewrite (nth_error_nth' buf x0 Hb). cbn [bind]. rewrite (rd_some _ _ _ (nth_error_nth' fvc x0 Hc)). cbn [bind]. rewrite wr_ok by auto. cbn [bind].
      destruct (IH (upd fvc (nth j map 0) (xadd (nth (nth j map 0) fvc x0) (xsc fac (nth j buf x0))))) as (r & E & Hl & Hr).
      { intros j' Hj'. rewrite upd_length. apply H. now right. }
      exists r. rewrite upd_length in *. split; [exact E|]. split; auto. intros i Hi. rewrite Hr by auto. rewrite ent_upd. simpl.
      destruct (Nat.eqb_spec (nth j map 0) i) as [->|N]; cbn [andb].
      + destruct (Nat.ltb_spec i (length fvc)); [|lia]. rewrite (sc_add B L). unfold ent. agx.
      + rewrite (sc_add B L), (xsc_0 L). agx.
  Qed.
  Lemma add_mapped_ok fac map buf fvc : length map <= length buf -> (forall d, In d map -> d < length fvc) ->
    exists r, add_mapped fac map buf fvc = Ret r /\ length r = length fvc /\
      forall i, i < length fvc -> ent r i = xadd (ent fvc i) (xsc fac (through map buf i)).
  Proof.
    intros Hb Hm. unfold add_mapped. rewrite (numbered_seq map 0). apply add_mapped_gen. intros j Hj. apply in_seq in Hj.
    repeat split; try lia. apply Hm. apply nth_In. lia.
  Qed.

  (** what the group looks like once the communication buffers are set up *)
  Definition ready (nc : nat) (ns : list nat) (c : ctr) : Prop :=
    dof_maps c <> [] /\ map (@length _) (dof_maps c) = ns /\ (forall m d, In m (dof_maps c) -> In d m -> d < nc) /\
    mpi_types c = dof_maps c /\ mem_buffers c = ns /\ length (buffers c) = length (dof_maps c) /\
    (forall k, 0 < k < length (dof_maps c) -> nth k (buffers c) 0 = length (nth k (dof_maps c) [])).
  Lemma SetUp_ready nc maps : maps <> [] -> (forall m d, In m maps -> In d m -> d < nc) ->
    ready nc (map (@length _) maps) (SetUpMPIStuff (map (@length _) maps) (CtrMap maps)).
  Proof.
    intros Hn Hd. unfold ready, SetUpMPIStuff, CtrMap. cbn [buffers dof_maps length].
    destruct (Nat.eqb_spec 0 (length maps)) as [C|_]; [destruct maps; [congruence|discriminate]|].
    cbn [dof_maps mpi_types mem_buffers buffers]. repeat split; auto.
    - rewrite map_length, numbered_length. reflexivity.
    - intros k Hk. rewrite (numbered_seq maps []), map_map. rewrite (nth_map_seq (fun x => _)) by lia.
      cbn [fst snd]. destruct k; [lia|reflexivity].
  Qed.
  (** a second call changes nothing *)
  Lemma SetUp_again ns c : length (buffers c) = length (dof_maps c) -> mem_buffers c = ns -> SetUpMPIStuff ns c = c.
  Proof. intros H <-. unfold SetUpMPIStuff. rewrite H, Nat.eqb_refl. destruct c; reflexivity. Qed.

  Definition active (c : ctr) : list nat := filter (fun kp => 0 <? length (nth kp (dof_maps c) [])) (seq 1 (length (dof_maps c) - 1)).
  Definition gathered (maps : list (list nat)) (fines : list vec) (i : nat) : X B :=
    lsum (seq 0 (length maps)) (fun k => through (nth k maps []) (nth k fines []) i).
  Lemma nth_lens (maps : list (list nat)) k : nth k (map (@length _) maps) 0 = length (nth k maps []).
  Proof. change 0 with (length (@nil nat)). now rewrite (map_nth (@length nat)). Qed.
  Lemma lens_nth (maps : list (list nat)) (fines : list vec) : map (@length _) fines = map (@length _) maps ->
    length fines = length maps /\ forall k, length (nth k fines []) = length (nth k maps []).
  Proof.
    intros H. split; [rewrite <- (map_length (@length (X B))), H; apply map_length|]. intros k. rewrite <- nth_lens, <- H.
    change 0 with (length (@nil (X B))). now rewrite (map_nth (@length (X B))).
  Qed.

  Lemma AddF2C_ok nc ns c order fac (fines : list vec) fvc : ready nc ns c -> map (@length _) fines = ns -> length fvc = nc ->
    Permutation order (active c) ->
    exists r, AddF2C c order fac fines fvc = Ret r /\ length r = nc /\
      forall i, i < nc -> ent r i = xadd (ent fvc i) (xsc fac (gathered (dof_maps c) fines i)).
  Proof.
    intros (Hn & Hl & Hd & Ht & Hmb & Hbl & Hbs) Hf Hc Hp. subst nc.
    rewrite <- Hl in Hf. destruct (lens_nth _ _ Hf) as (Hfl & Hfk). clear Hf.
    set (maps := dof_maps c) in *. set (g := length maps) in *.
    assert (Hg : 0 < g) by (unfold g; destruct maps; [congruence|simpl; lia]).
    unfold AddF2C. fold maps. fold g.
    rewrite (mapM_ok _ (fun kp => if 0 <? length (nth kp maps []) then Some (nth kp fines []) else None)).
    2:{ intros kp Hk. apply in_seq in Hk. unfold post_recv. fold maps.
        rewrite (rd_some maps kp (nth kp maps [])) by (apply nth_error_nth'; fold g; lia). cbn [bind].
        rewrite (rd_some fines kp (nth kp fines [])) by (apply nth_error_nth'; lia). cbn [bind].
        rewrite (rd_some (buffers c) kp (nth kp (buffers c) 0)) by (apply nth_error_nth'; lia). cbn [bind].
        rewrite Hfk. destruct (Nat.ltb_spec 0 (length (nth kp maps []))); auto. rewrite Hbs by lia. now rewrite Nat.leb_refl. }
    cbn [bind]. rewrite (rd_some maps 0 (nth 0 maps [])) by (apply nth_error_nth'; fold g; lia). cbn [bind].
    rewrite (rd_some fines 0 (nth 0 fines [])) by (apply nth_error_nth'; lia). cbn [bind].
    destruct (add_mapped_ok fac (nth 0 maps []) (nth 0 fines []) fvc) as (f1 & E1 & Hl1 & He1).
    { now rewrite Hfk. } { intros d Hd'. apply (Hd (nth 0 maps [])); auto. apply nth_In. fold g; lia. }
    rewrite E1. cbn [bind].
    assert (Hin : forall kp, In kp order -> 0 < kp < g /\ 0 < length (nth kp maps [])).
    { intros kp H. apply (Permutation_in kp Hp) in H. unfold active in H. apply filter_In in H as (H & H'). apply in_seq in H.
      apply Nat.ltb_lt in H'. fold maps in H, H'. fold g in H. lia. }
    assert (G : forall ord fv, (forall kp, In kp ord -> 0 < kp < g /\ 0 < length (nth kp maps [])) -> length fv = length fvc ->
      exists r, foldM (fun fvc0 kp => map0 <- rd maps kp ;; b <- rd (List.map (fun kp0 => if 0 <? length (nth kp0 maps []) then Some (nth kp0 fines []) else None) (seq 1 (g - 1))) (kp - 1) ;;
          match b with Some buf => add_mapped fac map0 buf fvc0 | None => Err Thrown end) ord fv = Ret r /\ length r = length fvc /\
        forall i, i < length fvc -> ent r i = xadd (ent fv i) (xsc fac (lsum ord (fun k => through (nth k maps []) (nth k fines []) i)))).
    { clear E1 Hin Hp order. induction ord as [|kp ord IH]; intros fv H Hfv.
      - exists fv. split; [reflexivity|]. split; auto. intros i _. simpl. rewrite (xsc_0 L). agx.
      - destruct (H kp (or_introl eq_refl)) as (Hk & Hk'). cbn [foldM].
        rewrite (rd_some maps kp (nth kp maps [])) by (apply nth_error_nth'; fold g; lia). cbn [bind].
        rewrite (rd_some _ (kp - 1) (Some (nth kp fines []))).
        2:{ rewrite (map_nth_error (fun kp0 => if 0 <? length (nth kp0 maps []) then Some (nth kp0 fines []) else None) (kp - 1) (seq 1 (g - 1)) (d := kp)).
            - destruct (Nat.ltb_spec 0 (length (nth kp maps []))); auto; lia.
            - rewrite (nth_error_nth' _ 0) by (rewrite seq_length; lia). rewrite seq_nth by lia. f_equal. lia. }
        cbn [bind]. destruct (add_mapped_ok fac (nth kp maps []) (nth kp fines []) fv) as (f2 & E2 & Hl2 & He2).
        { now rewrite Hfk. } { intros d Hd'. rewrite Hfv. apply (Hd (nth kp maps [])); auto. apply nth_In. fold g; lia. }
        rewrite E2. cbn [bind]. destruct (IH f2) as (r & E & Hlr & Her); [intros; apply H; now right|lia|].
        exists r. split; auto. split; auto. intros i Hi. rewrite Her by auto. rewrite He2 by lia. simpl. rewrite (sc_add B L). agx. }
    destruct (G order f1 Hin Hl1) as (r & E & Hlr & Her). exists r. split; [exact E|]. split; auto.
    intros i Hi. rewrite Her, He1 by auto. unfold gathered. fold g. 
    replace (seq 0 g) with (0 :: seq 1 (g - 1)) by (destruct g; [lia|simpl; now rewrite Nat.sub_0_r]). simpl.
    rewrite (lsum_perm _ _ _ Hp). unfold active. fold maps. fold g. rewrite lsum_filter. rewrite (sc_add B L). agx.
    intros k Hk Hz. apply Nat.ltb_ge in Hz. unfold through. destruct (nth k maps []) as [|]; [reflexivity|simpl in Hz; lia].
  Qed.

  (** the way back *)
  Lemma mapM_rd (fvc : vec) map : (forall d, In d map -> d < length fvc) -> mapM (rd fvc) map = Ret (List.map (ent fvc) map).
  Proof. intros H. apply mapM_ok. intros d Hd. apply rd_some. apply nth_error_nth'. auto. Qed.
  Lemma loc_gen (h : X B -> X B -> X B) map (fvc : vec) : (forall d, In d map -> d < length fvc) -> forall js x,
    (forall j, In j js -> j < length map) -> length x = length map -> NoDup js ->
    exists r, foldM (fun x jm => v <- rd fvc (snd jm) ;; o <- rd x (fst jm) ;; wr x (fst jm) (h o v)) (List.map (fun i => (i, nth i map 0)) js) x = Ret r /\ length r = length x /\
      forall j, ent r j = if existsb (Nat.eqb j) js then h (ent x j) (ent fvc (nth j map 0)) else ent x j.
  Proof.
    intros Hd. induction js as [|j js IH]; intros x Hj Hx Hnd.
    - exists x. split; [reflexivity|]. split; auto.
    - inversion Hnd as [|? ? Hni Hnd']; subst. cbn [List.map foldM fst snd].
      assert (Hjm : j < length map) by (apply Hj; now left).
      rewrite (rd_some fvc _ (ent fvc (nth j map 0))) by (apply nth_error_nth'; apply Hd; apply nth_In; auto). cbn [bind].
      rewrite (rd_some x _ (ent x j)) by (apply nth_error_nth'; lia). cbn [bind]. rewrite wr_ok by lia. cbn [bind].
      destruct (IH (upd x j (h (ent x j) (ent fvc (nth j map 0))))) as (r & E & Hl & Hr); auto.
      { intros; apply Hj; now right. } { now rewrite upd_length. }
      exists r. rewrite upd_length in Hl. split; auto. split; auto. intros i. rewrite Hr. simpl. rewrite !ent_upd.
      destruct (Nat.eqb_spec j i) as [->|N]; cbn [andb].
      + rewrite Nat.eqb_refl. cbn [orb]. destruct (Nat.ltb_spec i (length x)); [|lia].
        replace (existsb (Nat.eqb i) js) with false; auto. symmetry. apply not_true_is_false. intros C. apply existsb_exists in C as (y & Hy & Hy').
        apply Nat.eqb_eq in Hy'. subst. tauto.
      + destruct (Nat.eqb_spec i j); [congruence|]. reflexivity.
  Qed.
  Lemma loc_all (h : X B -> X B -> X B) map (fvc x : vec) : (forall d, In d map -> d < length fvc) -> length x = length map ->
    foldM (fun x jm => v <- rd fvc (snd jm) ;; o <- rd x (fst jm) ;; wr x (fst jm) (h o v)) (numbered map) x
    = Ret (List.map (fun j => h (ent x j) (ent fvc (nth j map 0))) (seq 0 (length map))).
  Proof.
    intros Hd Hx. rewrite (numbered_seq map 0). destruct (loc_gen h map fvc Hd (seq 0 (length map)) x) as (r & E & Hl & Hr); auto.
    { intros j Hj. apply in_seq in Hj. lia. } { apply seq_NoDup. }
    rewrite E. f_equal. apply (list_ext_seq r _ _ x0). lia. intros i Hi. change (nth i r x0) with (ent r i). rewrite Hr.
    replace (existsb (Nat.eqb i) (seq 0 (length map))) with true; auto. symmetry. apply existsb_exists. exists i. split; [apply in_seq; lia|apply Nat.eqb_refl].
  Qed.
  Lemma loc_set_eq map (fvc x : vec) : (forall d, In d map -> d < length fvc) -> length x = length map ->
    loc_set map fvc x = Ret (List.map (ent fvc) map).
  Proof.
    intros Hd Hx. unfold loc_set. transitivity (foldM (fun x jm => v <- rd fvc (snd jm) ;; o <- rd x (fst jm) ;; wr x (fst jm) ((fun _ v => v) o v)) (numbered map) x).
    - apply (f_equal (fun z => z)). rewrite (numbered_seq map 0).
      assert (G : forall js y, (forall j, In j js -> j < length map) -> length y = length map -> 
        foldM (fun x0 jm => v <- rd fvc (snd jm) ;; wr x0 (fst jm) v) (List.map (fun i => (i, nth i map 0)) js) y =
        foldM (fun x0 jm => v <- rd fvc (snd jm) ;; o <- rd x0 (fst jm) ;; wr x0 (fst jm) ((fun _ v => v) o v)) (List.map (fun i => (i, nth i map 0)) js) y).
      { induction js as [|j js IH]; intros y Hj Hy; auto. cbn [List.map foldM fst snd].
        assert (j < length map) by (apply Hj; now left).
        rewrite (rd_some fvc _ (ent fvc (nth j map 0))) by (apply nth_error_nth'; apply Hd; apply nth_In; auto). cbn [bind].
        rewrite (rd_some y _ (ent y j)) by (apply nth_error_nth'; lia). cbn [bind]. rewrite wr_ok by lia. cbn [bind]. apply IH.
        intros; apply Hj; now right. now rewrite upd_length. }
      apply G; auto. intros j Hj. apply in_seq in Hj. lia.
    - rewrite loc_all by auto. f_equal. symmetry. apply (list_ext_seq _ _ _ x0). now rewrite map_length.
      intros i Hi. rewrite (nth_indep _ x0 (ent fvc 0)) by now rewrite map_length. now rewrite (map_nth (ent fvc)).
  Qed.
  Definition scattered (map : list nat) (fvc : vec) : vec := List.map (ent fvc) map.
  Lemma TransferC2F_ok nc ns c (fines : list vec) fvc : ready nc ns c -> List.map (@length _) fines = ns -> length fvc = nc ->
    TransferC2F c fines fvc = Ret (List.map (fun m => scattered m fvc) (dof_maps c)).
  Proof.
    intros (Hn & Hl & Hd & Ht & Hmb & Hbl & Hbs) Hf Hc. subst nc. rewrite <- Hl in Hf. destruct (lens_nth _ _ Hf) as (Hfl & Hfk). clear Hf.
    set (maps := dof_maps c) in *. set (g := length maps) in *.
    assert (Hg : 0 < g) by (unfold g; destruct maps; [congruence|simpl; lia]).
    unfold TransferC2F. fold maps. fold g. rewrite (rd_some maps 0 (nth 0 maps [])) by (apply nth_error_nth'; fold g; lia). cbn [bind].
    rewrite (rd_some fines 0 (nth 0 fines [])) by (apply nth_error_nth'; lia). cbn [bind].
    rewrite loc_set_eq; [|intros d Hd'; apply (Hd (nth 0 maps [])); auto; apply nth_In; fold g; lia|now rewrite Hfk]. cbn [bind].
    rewrite (mapM_ok _ (fun kp => scattered (nth kp maps []) fvc)).
    - cbn [bind]. f_equal. unfold g. destruct maps as [|m0 maps']; [congruence|]. simpl. f_equal. rewrite Nat.sub_0_r.
      rewrite <- seq_shift, map_map. apply nth_ext with (d := []) (d' := scattered [] fvc).
      + now rewrite !map_length, seq_length.
      + intros i Hi. rewrite map_length, seq_length in Hi. rewrite (nth_map_seq (fun x => scattered (nth x maps' []) fvc)) by auto.
        now rewrite (map_nth (fun m => scattered m fvc)).
    - intros kp Hk. apply in_seq in Hk. rewrite (rd_some fines kp (nth kp fines [])) by (apply nth_error_nth'; lia). cbn [bind].
      unfold send_part. fold maps. rewrite (rd_some maps kp (nth kp maps [])) by (apply nth_error_nth'; fold g; lia). cbn [bind].
      rewrite Ht. rewrite (rd_some maps kp (nth kp maps [])) by (apply nth_error_nth'; fold g; lia). cbn [bind].
      assert (Hdk : forall d, In d (nth kp maps []) -> d < length fvc) by (intros d Hd'; apply (Hd (nth kp maps [])); auto; apply nth_In; fold g; lia).
      rewrite mapM_rd by auto. cbn [bind]. unfold recv_into, meet.
      destruct (Nat.ltb_spec 0 (length (nth kp maps []))) as [P|P]; cbn [bind]; rewrite Hfk.
      + destruct (Nat.eqb_spec (length (nth kp maps [])) 0); [lia|]. rewrite map_length, Nat.leb_refl. cbn [bind].
        rewrite skipn_all2 by (rewrite map_length, Hfk; lia). now rewrite app_nil_r.
      + destruct (Nat.eqb_spec (length (nth kp maps [])) 0) as [P0|]; [|lia]. cbn [bind app].
        specialize (Hfk kp). rewrite P0 in Hfk. destruct (nth kp fines []); [|discriminate]. destruct (nth kp maps []); [reflexivity|discriminate].
  Qed.
  Lemma recv_add_ok fac (m x : vec) : length m = length x -> length x <> 0 ->
    recv_add (length x) fac (Some m) x = Ret (x +v vsc fac m).
  Proof.
    intros Hm Hx. unfold recv_add. destruct (Nat.eqb_spec (length x) 0); [lia|]. rewrite Hm, Nat.leb_refl. cbn [bind].
    assert (G : forall js y, (forall j, In j js -> j < length x) -> length y = length x -> NoDup js ->
      exists r, foldM (fun x1 k => if k <? length x then b <- (match nth_error m k with Some b => Ret b | None => Err Uninit end) ;; v <- rd x1 k ;; wr x1 k (xadd v (xsc fac b)) else Err OutOfBounds) js y = Ret r /\
        length r = length y /\ forall j, ent r j = if existsb (Nat.eqb j) js then xadd (ent y j) (xsc fac (ent m j)) else ent y j).
    { induction js as [|j js IH]; intros y Hj Hy Hnd.
      - exists y. auto.
      - inversion Hnd as [|? ? Hni Hnd']; subst. cbn [foldM]. assert (Hjx : j < length x) by (apply Hj; now left).
        destruct (Nat.ltb_spec j (length x)); [|lia]. rewrite (nth_error_nth' m x0) by lia. cbn [bind].
        rewrite (rd_some y j (ent y j)) by (apply nth_error_nth'; lia). cbn [bind]. rewrite wr_ok by lia. cbn [bind].
        destruct (IH (upd y j (xadd (ent y j) (xsc fac (nth j m x0))))) as (r & E & Hl & Hr); auto.
        { intros; apply Hj; now right. } { now rewrite upd_length. }
        exists r. rewrite upd_length in Hl. split; auto. split; auto. intros i. rewrite Hr. simpl. rewrite !ent_upd.
        destruct (Nat.eqb_spec j i) as [->|N]; cbn [andb].
        + rewrite Nat.eqb_refl. cbn [orb]. destruct (Nat.ltb_spec i (length y)); [|lia].
          replace (existsb (Nat.eqb i) js) with false; auto. symmetry. apply not_true_is_false. intros C. apply existsb_exists in C as (z & Hz & Hz').
          apply Nat.eqb_eq in Hz'. subst. tauto.
        + destruct (Nat.eqb_spec i j); [congruence|]. reflexivity. }
    destruct (G (seq 0 (length x)) x) as (r & E & Hl & Hr); auto. { intros j Hj. apply in_seq in Hj; lia. } { apply seq_NoDup. }
    rewrite E. f_equal. apply (vec_ext (length x)); auto. { rewrite vadd_length; auto. now rewrite vsc_length. }
    intros i Hi. rewrite Hr. replace (existsb (Nat.eqb i) (seq 0 (length x))) with true.
    - rewrite (ent_vadd L) by now rewrite vsc_length. now rewrite (ent_vsc L).
    - symmetry. apply existsb_exists. exists i. split; [apply in_seq; lia|apply Nat.eqb_refl].
  Qed.
  Lemma AddC2F_ok nc ns c fac (fines : list vec) fvc : ready nc ns c -> List.map (@length _) fines = ns -> length fvc = nc ->
    AddC2F c fac fines fvc = Ret (List.map (fun p => fst p +v vsc fac (scattered (snd p) fvc)) (combine fines (dof_maps c))).
  Proof.
    intros (Hn & Hl & Hd & Ht & Hmb & Hbl & Hbs) Hf Hc. subst nc. rewrite <- Hl in Hf. destruct (lens_nth _ _ Hf) as (Hfl & Hfk). clear Hf.
    set (maps := dof_maps c) in *. set (g := length maps) in *.
    assert (Hg : 0 < g) by (unfold g; destruct maps; [congruence|simpl; lia]).
    unfold AddC2F. fold maps. fold g. rewrite (rd_some maps 0 (nth 0 maps [])) by (apply nth_error_nth'; fold g; lia). cbn [bind].
    rewrite (rd_some fines 0 (nth 0 fines [])) by (apply nth_error_nth'; lia). cbn [bind].
    assert (Hdk : forall kp, kp < g -> forall d, In d (nth kp maps []) -> d < length fvc) by (intros kp Hkp d Hd'; apply (Hd (nth kp maps [])); auto; apply nth_In; auto).
    unfold loc_add. rewrite (loc_all (fun o v => xadd o (xsc fac v))); [|apply Hdk; lia|apply Hfk]. cbn [bind].
    assert (Z : forall kp, kp < g -> nth kp fines [] +v vsc fac (scattered (nth kp maps []) fvc) =
       List.map (fun j => xadd (ent (nth kp fines []) j) (xsc fac (ent fvc (nth j (nth kp maps []) 0)))) (seq 0 (length (nth kp maps [])))).
    { intros kp Hkp. assert (Hls : length (nth kp fines []) = length (vsc fac (scattered (nth kp maps []) fvc))).
      { rewrite vsc_length. unfold scattered. rewrite map_length. apply Hfk. }
      apply (list_ext_seq _ _ _ x0). { rewrite vadd_length; auto. }
      intros i Hi. change (nth i ?l x0) with (ent l i). rewrite (ent_vadd L) by auto. rewrite (ent_vsc L). unfold scattered.
      unfold ent at 2. rewrite (nth_indep _ x0 (ent fvc 0)) by now rewrite map_length. now rewrite (map_nth (ent fvc)). }
    rewrite (mapM_ok _ (fun kp => nth kp fines [] +v vsc fac (scattered (nth kp maps []) fvc))).
    - cbn [bind]. f_equal. rewrite <- (Z 0) by lia. apply nth_ext with (d := []) (d' := (fun p => fst p +v vsc fac (scattered (snd p) fvc)) ([], [])).
      + simpl. rewrite !map_length, seq_length, combine_length. fold g. lia.
      + intros i Hi. simpl in Hi. rewrite map_length, seq_length in Hi. rewrite (map_nth (fun p => fst p +v vsc fac (scattered (snd p) fvc))).
        rewrite combine_nth by auto. cbn [fst snd]. destruct i as [|i]; [reflexivity|]. cbn [nth].
        rewrite (nth_indep _ [] ((fun kp => nth kp fines [] +v vsc fac (scattered (nth kp maps []) fvc)) 0)) by (rewrite map_length, seq_length; lia).
        rewrite (map_nth (fun kp => nth kp fines [] +v vsc fac (scattered (nth kp maps []) fvc))). rewrite seq_nth by lia. reflexivity.
    - intros kp Hk. apply in_seq in Hk. rewrite (rd_some fines kp (nth kp fines [])) by (apply nth_error_nth'; lia). cbn [bind].
      unfold send_part. fold maps. rewrite (rd_some maps kp (nth kp maps [])) by (apply nth_error_nth'; fold g; lia). cbn [bind].
      rewrite Ht. rewrite (rd_some maps kp (nth kp maps [])) by (apply nth_error_nth'; fold g; lia). cbn [bind].
      rewrite mapM_rd by (apply Hdk; lia). cbn [bind].
      rewrite Hmb, <- Hl. rewrite (rd_some (List.map (@length nat) maps) kp (length (nth kp maps []))) by (apply map_nth_error; apply nth_error_nth'; fold g; lia).
      rewrite <- Hfk. destruct (Nat.ltb_spec 0 (length (nth kp fines []))) as [P|P]; cbn [bind].
      + rewrite recv_add_ok by (rewrite ?map_length, ?Hfk in *; auto; lia). reflexivity.
      + unfold recv_add. destruct (Nat.eqb_spec (length (nth kp fines [])) 0) as [P0|]; [|lia]. cbn [bind]. unfold meet. cbn [bind].
        rewrite Hfk in P0. destruct (nth kp maps []); [|discriminate]. simpl. unfold scattered. simpl. 
        specialize (Hfk kp). destruct (nth kp fines []); [reflexivity|simpl in *; lia].
  Qed.
End T.
