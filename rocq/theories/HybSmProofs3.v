(** Proofs about HybSmModel, part 3: the smoother's four variants. *)
From Verif Require Import Base AGroup LinAlg LinTools GSModel EQCModel ReduceModel NetModel DccModel HybMatModel HybSmModel EQCProofs EQCProofs2 ReduceProofs EQCProps ReduceProps NetProofs DccProofs HybMatProofs HybSmProofs HybSmProofs2.
Local Open Scope nat_scope.
Local Open Scope vec_scope.

Section Hyb3.
  Context {B : Blk} (L : BlkLaws B).
  Local Notation X := (X B). Local Notation vec := (list X). Local Notation spmat := (@spmat B). Local Notation hvec := (hvec B).
  Let LX := lawX B L.
  Variables (dps : list (list (list nat))) (key : nat -> nat -> nat).
  Hypothesis RM : rows_match dps dps key.
  Notation np := (nranks dps). Notation nd r := (ndof dps r).
  Notation total := (total dps key). Notation ms r := (is_master dps r).
  Lemma total_add (u v w : nat -> vec) g : (forall r k, r < np -> k < nd r -> ent (w r) k = xadd (ent (u r) k) (ent (v r) k)) -> total w g = xadd (total u g) (total v g).
  Proof.
    intros H. unfold DccProofs.total. rewrite <- (xsum_add L). apply xsum_ext. intros r Hr. unfold val. rewrite <- (xsum_add L). apply xsum_ext. intros k Hk. destruct (key r k =? g). auto. ag LX.
  Qed.
  Lemma seq_corr_dep n (Mm : spmat) (m : nat -> bool) (cs : list (vec -> vec)) (v w : vec) : wf_mat n n Mm -> (forall c, In c cs -> stage_op n m c) -> length v = n -> length w = n -> (forall k, k < n -> m k = true -> ent v k = ent w k) -> seq_corr n Mm cs v = seq_corr n Mm cs w.
  Proof.
    intros WM. revert v w. induction cs as [|c cs IH]; intros v w HC Hv Hw H; cbn [seq_corr]; auto. assert (S1 := HC c (or_introl eq_refl)). assert (E : c v = c w) by (apply (so_dep _ _ _ S1); auto). rewrite E. f_equal. pose proof (so_len _ _ _ S1 w Hw) as LC. pose proof (mv_len n Mm WM (c w)) as LM.
    apply IH; auto with len. { intros; apply HC; now right. } intros k Hk Ek. rewrite !(ent_vsub L) by congruence. now rewrite H.
  Qed.
  Lemma add_cancel (a b c : X) : xadd a b = c -> a = xadd c (xopp b). Proof. intros <-. ag LX. Qed.

  Variable MG : nat -> spmat * option spmat.
  Notation Mr r := (fst (MG r)).
  Hypothesis WM : forall r, r < np -> wf_mat (nd r) (nd r) (Mr r).
  Hypothesis HM : forall r k l, r < np -> k < nd r -> l < nd r -> is_master dps r k && is_master dps r l = false -> entry (Mr r) k l = m0.
  Hypothesis WG : forall r, r < np -> match snd (MG r) with Some G => wf_mat (nd r) (nd r) G | None => True end.
  Variables (kres : stage -> bool -> nat -> vec -> vec -> vec -> bool -> vec * vec) (krhs : stage -> bool -> nat -> vec -> vec -> bool -> vec) (nsteps : nat).
  Variable C : stage -> bool -> nat -> vec -> vec.
  Hypothesis KRES : forall st back r x b res xz, r < np -> length x = nd r -> length b = nd r -> length res = nd r -> kres st back r x b res xz = (x +v C st back r res, res -v matvec (Mr r) (C st back r res)).
  Hypothesis KRHS : forall st back r x b xz, r < np -> length x = nd r -> length b = nd r -> krhs st back r x b xz = x +v C st back r (b -v matvec (Mr r) x).
  Hypothesis KOP : forall st back r, r < np -> stage_op (nd r) (sdof dps st r) (C st back r).

  (** G x *)
  Definition gx (r : nat) (x : vec) : vec := match snd (MG r) with Some G => matvec G x | None => vzero (nd r) end.
  Lemma gx_len r x : r < np -> length (gx r x) = nd r.
  Proof. intros Hr. unfold gx. specialize (WG r Hr). destruct (snd (MG r)); auto with len. apply len_matvec. apply WG. Qed.
  Lemma multG_add r x y : r < np -> length y = nd r -> multG MG r x y false = y +v gx r x.
  Proof. intros Hr Hy. unfold multG, gx. destruct (snd (MG r)); auto. now rewrite (vadd_zero L (nd r)). Qed.
  Lemma multG_sub r x y : r < np -> length y = nd r -> multG MG r x y true = y -v gx r x.
  Proof. intros Hr Hy. unfold multG, gx. destruct (snd (MG r)); auto. now rewrite (vsub_zero L (nd r)). Qed.
  Lemma hyb_eq r x : r < np -> hyb_mult (MG r) x = matvec (Mr r) x +v gx r x.
  Proof. intros Hr. unfold hyb_mult, gx. pose proof (mv_len (nd r) (Mr r) (WM r Hr) x). destruct (snd (MG r)); auto. now rewrite (vadd_zero L (nd r)). Qed.
  Lemma noG r x : hasG dps MG = false -> r < np -> gx r x = vzero (nd r).
  Proof.
    intros H Hr. unfold gx. destruct (snd (MG r)) eqn:E; auto. unfold hasG in H. apply not_true_iff_false in H. destruct H. apply existsb_exists. exists r. split. apply in_seq; lia. now rewrite E.
  Qed.
  Lemma gx_zero r : r < np -> gx r (vzero (nd r)) = vzero (nd r).
  Proof. intros Hr. unfold gx. specialize (WG r Hr). destruct (snd (MG r)); auto. apply (lin_zero L). now apply (matvec_lin L). Qed.
  Lemma Mx_zero r : r < np -> matvec (Mr r) (vzero (nd r)) = vzero (nd r).
  Proof. intros Hr. apply (lin_zero L). now apply (matvec_lin L), WM. Qed.

  (** what a vector with a status stands for *)
  Definition stands (st : pstatus) (vs : nat -> vec) (vg : nat -> X) : Prop :=
    forall r k, r < np -> k < nd r -> match st with DISTRIBUTED => total vs (key r k) | CUMULATED => ent (vs r) k end = vg (key r k).
  Lemma stands_dist st vs vg : (forall r, r < np -> length (vs r) = nd r) -> stands st vs vg -> stands DISTRIBUTED (fun r => distribute dps st r (vs r)) vg.
  Proof.
    intros HL H r k Hr Hk. destruct st; unfold distribute; cbn [is_dist]. { specialize (H r k Hr Hk). cbn in H. rewrite <- H. apply total_ext. auto. }
    destruct (home dps key RM r k Hr Hk) as (m & km & A1 & A2 & A3 & A4). rewrite <- A3.
    assert (EV : forall r k, r < np -> k < nd r -> ent (map (fun k0 => if ms r k0 then ent (vs r) k0 else x0) (seq 0 (length (vs r)))) k = if ms r k then ent (vs r) k else x0).
    { intros q kq Hq Hkq. rewrite HL by auto. unfold ent at 1. rewrite nth_map_seq; auto. }
    rewrite (total_conc L dps key RM _ m km); auto. { rewrite EV, A4 by auto. now apply (H m km). } intros q kq Hq Hkq E. rewrite EV by auto. now rewrite E.
  Qed.
  Lemma dist_len st r (v : vec) : length v = nd r -> length (distribute dps st r v) = nd r.
  Proof. intros H. unfold distribute. destruct st; cbn [is_dist]; auto. now rewrite map_length, seq_length. Qed.
  (** a vector that is the total on the masters *)
  Lemma rho_master st (vs rho : nat -> vec) vg : stands st vs vg -> (if is_dist st then concentrated dps key vs rho else forall r, rho r = vs r) -> forall r k, r < np -> k < nd r -> ms r k = true -> ent (rho r) k = vg (key r k).
  Proof.
    intros HS HR r k Hr Hk EM. destruct st; cbn [is_dist] in HR. { destruct (HR r Hr) as (_ & R2). rewrite R2, EM by auto. now apply (HS r k). } rewrite HR. now apply (HS r k).
  Qed.

  Section Run.
  Variables (x : nat -> vec) (xg bg ag rg : nat -> X).      (* x, and the global x, b, A x, residual *)
  Hypothesis LEN : forall r, r < np -> length (x r) = nd r.
  Hypothesis HX : stands CUMULATED x xg.
  Hypothesis HAx : stands DISTRIBUTED (fun r => hyb_mult (MG r) (x r)) ag.
  Hypothesis HRG : forall g, rg g = xadd (bg g) (xopp (ag g)).
  (** the global A x on a master: M x and the total of G x *)
  Lemma ag_master r k : r < np -> k < nd r -> ms r k = true -> ag (key r k) = xadd (ent (matvec (Mr r) (x r)) k) (total (fun r => gx r (x r)) (key r k)).
  Proof.
    intros Hr Hk EM. rewrite <- (HAx r k Hr Hk). cbn. rewrite (total_add (fun r => matvec (Mr r) (x r)) (fun r => gx r (x r))).
    - f_equal. apply (total_conc L dps key RM (fun r => matvec (Mr r) (x r)) r k); auto. intros q kq Hq Hkq E. now apply (mv_ghost L (nd q) (Mr q) (ms q) (WM q Hq) (fun k l => HM q k l Hq)).
    - intros q kq Hq Hkq. rewrite hyb_eq by auto. rewrite (ent_vadd L); auto. rewrite gx_len by auto. now apply mv_len, WM.
  Qed.
  Notation corr back r xz := (seq_corr (nd r) (Mr r) (map (fun s : stage * bool => C (fst s) back r) (order nsteps back xz))).
  Definition cres (r : nat) : vec := map (fun k => if ms r k then rg (key r k) else x0) (seq 0 (nd r)).
  Definition delta (back xz : bool) (r : nat) : vec := corr back r xz (cres r).
  Lemma cres_len r : length (cres r) = nd r. Proof. apply map_seq_len. Qed.
  Lemma cres_ent r k : k < nd r -> ent (cres r) k = if ms r k then rg (key r k) else x0. Proof. intros Hk. unfold cres, ent. now rewrite nth_map_seq. Qed.
  Lemma ops back r xz c : r < np -> In c (map (fun s : stage * bool => C (fst s) back r) (order nsteps back xz)) -> stage_op (nd r) (ms r) c.
  Proof. apply (corr_ops dps C KOP back r (order nsteps back xz)). Qed.
  Lemma delta_eq back xz r v : r < np -> length v = nd r -> (forall k, k < nd r -> ms r k = true -> ent v k = rg (key r k)) -> corr back r xz v = delta back xz r.
  Proof.
    intros Hr Hv H. apply (seq_corr_dep _ _ (ms r)); auto. { intros c. now apply ops. } apply cres_len. intros k Hk EM. rewrite cres_ent, EM by auto. now apply H.
  Qed.
  Lemma delta_len back xz r : r < np -> length (delta back xz r) = nd r.
  Proof. intros Hr. apply (seq_corr_len (nd r) (Mr r) (ms r) (WM r Hr)). intros c. now apply ops. apply cres_len. Qed.
  (** the new x *)
  Definition good (back xz : bool) (x' : nat -> vec) : Prop := from_masters dps key (fun r => x r +v delta back xz r) x'.
  (** M of the correction *)
  Lemma M_delta back xz x' r : good back xz x' -> r < np -> matvec (Mr r) (x r) +v matvec (Mr r) (delta back xz r) = matvec (Mr r) (x' r).
  Proof.
    intros HG Hr. rewrite <- (lin_add _ _ _ (matvec_lin L _ _ _ (WM r Hr))) by (auto using delta_len). apply (mv_dep L (nd r) (Mr r) (ms r) (WM r Hr) (fun k l => HM r k l Hr)). intros k Hk EM. destruct (HG r Hr) as (_ & G). symmetry. apply (G k r k); auto.
  Qed.
  Lemma res_total back xz x' rho res' : good back xz x' -> (forall r, r < np -> length (rho r) = nd r) -> stands DISTRIBUTED rho rg ->
    (forall r, r < np -> res' r = ((rho r -v matvec (Mr r) (delta back xz r)) +v gx r (x r)) -v gx r (x' r)) ->
    stands DISTRIBUTED res' (fun g => xadd (bg g) (xopp (total (fun r => hyb_mult (MG r) (x' r)) g))).
  Proof.
    intros HG HL HR HE r k Hr Hk. apply add_cancel. transitivity (total (fun r => rho r +v hyb_mult (MG r) (x r)) (key r k)).
    - transitivity (total (fun r => res' r +v hyb_mult (MG r) (x' r)) (key r k)).
      + symmetry. apply total_add. intros q kq Hq Hkq. apply (ent_vadd L). rewrite HE, hyb_eq by auto. pose proof (HL q Hq). pose proof (gx_len q (x q) Hq). pose proof (gx_len q (x' q) Hq). pose proof (mv_len (nd q) (Mr q) (WM q Hq) (delta back xz q)). pose proof (mv_len (nd q) (Mr q) (WM q Hq) (x' q)). side_len (nd q).
      + apply total_ext. intros q kq Hq Hkq. pose proof (HL q Hq). pose proof (gx_len q (x q) Hq). pose proof (gx_len q (x' q) Hq). pose proof (mv_len (nd q) (Mr q) (WM q Hq) (delta back xz q)). pose proof (mv_len (nd q) (Mr q) (WM q Hq) (x' q)). pose proof (mv_len (nd q) (Mr q) (WM q Hq) (x q)). rewrite HE, !hyb_eq, <- (M_delta back xz x' q HG Hq) by auto. ent_rw L (nd q). ag LX.
    - rewrite (total_add rho (fun r => hyb_mult (MG r) (x r))). 2:{ intros q kq Hq Hkq. apply (ent_vadd L). rewrite hyb_eq by auto. pose proof (HL q Hq). pose proof (gx_len q (x q) Hq). pose proof (mv_len (nd q) (Mr q) (WM q Hq) (x q)). side_len (nd q). }
      specialize (HR r k Hr Hk). specialize (HAx r k Hr Hk). cbn in HR, HAx. rewrite HR, HAx, HRG. ag LX.
  Qed.
  Notation ls P s := (lockstep np (dcc_recvs dps) P s).
  Notation oks := (oks np (okv dps)).
  Notation bufs_ok s := (forall r, r < np -> length (lg s r) = np /\ length (lm s r) = np).
  Lemma lsapp (P Q : list (instr hvec X)) s : ls (P ++ Q) s = ls Q (ls P s). Proof. unfold lockstep. apply fold_left_app. Qed.
  Notation zero_x := (forall r, r < np -> x r = vzero (nd r)).

  (** residual variant *)
  Lemma RES_ok cm back xz str s : bufs_ok s -> oks s -> (forall r, r < np -> hx (lv s r) = x r) -> (xz = true -> zero_x) -> stands str (fun r => hr (lv s r)) rg ->
    let t := ls (SmoothImplRES dps MG kres krhs nsteps cm back xz str) s in
    good back xz (fun r => hx (lv t r)) /\ (forall r, r < np -> hb (lv t r) = hb (lv s r)) /\ (forall r, r < np -> okv dps r (lv t r)) /\
    (str = DISTRIBUTED -> stands DISTRIBUTED (fun r => hr (lv t r)) (fun g => xadd (bg g) (xopp (total (fun r => hyb_mult (MG r) (hx (lv t r))) g)))).
  Proof.
    intros HB HO EX ZX HS. cbv zeta. unfold SmoothImplRES. set (stash := negb xz && hasG dps MG). rewrite !lsapp.
    set (s1 := ls (if stash then _ else []) s).
    assert (V1 : forall r, r < np -> lv s1 r = set_g (lv s r) (if stash then gx r (x r) else hg (lv s r))).
    { intros r Hr. unfold s1. destruct stash. 2:{ change (lv s r = set_g (lv s r) (hg (lv s r))). now destruct (lv s r). } cbn [lockstep fold_left lock1 lv]. rewrite onr_at by auto. rewrite EX by auto. rewrite multG_add by (auto with len; rewrite LEN by auto; apply vzero_length). rewrite LEN by auto. f_equal. apply (vzero_add L (nd r)). now apply gx_len. }
    assert (O1 : oks s1). { intros r Hr. rewrite V1 by auto. destruct (HO r Hr) as (A1 & A2 & A3 & A4). unfold okv. cbn. repeat (split; auto). destruct stash; auto. now apply gx_len. }
    assert (B1 : bufs_ok s1). { intros r Hr. unfold s1. destruct stash; auto. now apply HB. }
    destruct (call_stages_ok L dps key RM MG WM HM kres krhs nsteps C KRES KRHS KOP WRes cm back xz (is_dist str) s1 B1 O1) as (rho & R1 & K1 & K2 & K3). cbv zeta in K1, K2, K3. set (t := lockstep _ _ (call_stages _ _ _ _ _ _ _ _ _) s1) in *.
    assert (HS1 : stands str (fun r => getw WRes (lv s1 r)) rg). { intros r k Hr Hk. rewrite <- (HS r k Hr Hk). destruct str. apply total_ext. intros q kq Hq _. rewrite V1 by auto. reflexivity. rewrite V1 by auto. reflexivity. }
    assert (LR : forall r, r < np -> length (rho r) = nd r). { intros r Hr. destruct (K1 r Hr) as (_ & _ & A & _). exact A. }
    assert (ED : forall r, r < np -> seq_corr (nd r) (Mr r) (map (fun s : stage * bool => C (fst s) back r) (order nsteps back xz)) (seen MG WRes r (putw WRes (lv s1 r) (rho r))) = delta back xz r).
    { intros r Hr. apply delta_eq; auto. { now apply (LR r). } intros k Hk EM. cbn [seen putw set_r hr]. apply (rho_master str (fun r => getw WRes (lv s1 r))); auto. }
    assert (GT : good back xz (fun r => hx (lv t r))). { intros r Hr. destruct (K2 r Hr) as (A1 & A2). split; auto. intros k m km Hk Hm Hkm EK EM. rewrite (A2 k m km) by auto. rewrite ED by auto. f_equal. rewrite V1 by auto. cbn [set_g hx]. now rewrite EX. }
    assert (VT : forall r, r < np -> lv t r = mkHv B (hx (lv t r)) (hb (lv s r)) (rho r -v matvec (Mr r) (delta back xz r)) (if stash then gx r (x r) else hg (lv s r))).
    { intros r Hr. rewrite K3 at 1 by auto. rewrite ED by auto. rewrite V1 by auto. reflexivity. }
    set (fin := ls (if hasG dps MG then _ else []) t).
    assert (VF : forall r, r < np -> lv fin r = set_r (lv t r) (((rho r -v matvec (Mr r) (delta back xz r)) +v gx r (x r)) -v gx r (hx (lv t r)))).
    { intros r Hr. pose proof (LR r Hr). pose proof (mv_len (nd r) (Mr r) (WM r Hr) (delta back xz r)). pose proof (gx_len r (x r) Hr). unfold fin. destruct (hasG dps MG) eqn:EG.
      - cbn [lockstep fold_left lock1 lv]. rewrite onr_at by auto. f_equal. pose proof (VT r Hr) as V. destruct (lv t r) as [a b c d]. cbn [hx hb hr hg] in *. injection V as -> -> ->. unfold stash. rewrite andb_true_r. destruct xz; cbn [negb].
        + rewrite multG_sub by auto with len. f_equal. rewrite ZX by auto. rewrite gx_zero by auto. rewrite (vadd_zero L (nd r)); auto with len.
        + rewrite multG_sub by auto with len. reflexivity.
      - cbn [lockstep fold_left]. rewrite !(noG r _ EG) by auto. rewrite (vadd_zero L (nd r)), (vsub_zero L (nd r)) by auto with len. pose proof (VT r Hr) as V. destruct (lv t r) as [a b c d]. cbn [hx hb hr hg] in *. injection V as -> -> ->. reflexivity. }
    split; [|split; [|split]].
    - intros r Hr. destruct (GT r Hr) as (A1 & A2). rewrite VF by auto. cbn [set_r hx]. split; auto.
    - intros r Hr. rewrite VF by auto. cbn [set_r hb]. rewrite (VT r Hr). reflexivity.
    - intros r Hr. pose proof (LR r Hr). pose proof (mv_len (nd r) (Mr r) (WM r Hr) (delta back xz r)). pose proof (gx_len r (x r) Hr). pose proof (gx_len r (hx (lv t r)) Hr). rewrite VF by auto. destruct (HO r Hr) as (A1 & A2 & A3 & A4). unfold okv. cbn [set_r hx hb hr hg]. split. now destruct (GT r Hr). split. { rewrite (VT r Hr). exact A2. } split. auto with len. rewrite (VT r Hr). cbn [hg]. destruct stash; auto.
    - intros ->. assert (SR : stands DISTRIBUTED rho rg). { intros r k Hr Hk. cbn [is_dist] in R1. rewrite (conc_total L dps key RM _ rho _ R1). now apply (HS1 r k). }
      intros r k Hr Hk. etransitivity. { exact (res_total back xz (fun r => hx (lv t r)) rho (fun r => hr (lv fin r)) GT LR SR (fun r Hr => f_equal hr (VF r Hr)) r k Hr Hk). } cbv beta. f_equal. f_equal. apply total_ext. intros q kq Hq _. rewrite VF by auto. reflexivity.
  Qed.
  (** right-hand side variant *)
  Lemma RHS_ok cm back xz stb s : bufs_ok s -> oks s -> (forall r, r < np -> hx (lv s r) = x r) -> (xz = true -> zero_x) -> stands stb (fun r => hb (lv s r)) bg ->
    let t := ls (SmoothImplRHS dps MG kres krhs nsteps cm back xz stb) s in
    good back xz (fun r => hx (lv t r)) /\ (forall r, r < np -> hr (lv t r) = hr (lv s r)) /\ (forall r, r < np -> okv dps r (lv t r)) /\
    stands DISTRIBUTED (fun r => distribute dps stb r (hb (lv t r))) bg.
  Proof.
    intros HB HO EX ZX HS. cbv zeta. unfold SmoothImplRHS. destruct (negb xz && hasG dps MG) eqn:ES.
    - apply andb_prop in ES as (EZ & EG). change (ls (?i :: ?P) s) with (ls P (lock1 np (dcc_recvs dps) i s)). match goal with |- context [lockstep _ _ _ (lock1 _ _ ?i s)] => set (s1 := lock1 np (dcc_recvs dps) i s) end.
      assert (LB : forall r, r < np -> length (distribute dps stb r (hb (lv s r))) = nd r). { intros r Hr. apply dist_len. now apply HO. }
      assert (V1 : forall r, r < np -> lv s1 r = mkHv B (x r) (distribute dps stb r (hb (lv s r))) (hr (lv s r)) (distribute dps stb r (hb (lv s r)) -v gx r (x r))).
      { intros r Hr. unfold s1. cbn [lock1 lv]. rewrite onr_at by auto. rewrite EX by auto. rewrite multG_sub by auto. unfold set_g, set_b. cbn [hx hb hr hg]. now rewrite EX. }
      assert (O1 : oks s1). { intros r Hr. rewrite V1 by auto. destruct (HO r Hr) as (A1 & A2 & A3 & A4). pose proof (LB r Hr). pose proof (gx_len r (x r) Hr). unfold okv. cbn. repeat (split; auto with len). }
      assert (B1 : bufs_ok s1) by exact HB.
      destruct (call_stages_ok L dps key RM MG WM HM kres krhs nsteps C KRES KRHS KOP WGx cm back xz true s1 B1 O1) as (rho & R1 & K1 & K2 & K3). cbv zeta in K1, K2, K3. set (t := lockstep _ _ (call_stages _ _ _ _ _ _ _ _ _) s1) in *.
      assert (LR : forall r, r < np -> length (rho r) = nd r). { intros r Hr. destruct (K1 r Hr) as (_ & _ & _ & A). exact A. }
      assert (ED : forall r, r < np -> seq_corr (nd r) (Mr r) (map (fun s : stage * bool => C (fst s) back r) (order nsteps back xz)) (seen MG WGx r (putw WGx (lv s1 r) (rho r))) = delta back xz r).
      { intros r Hr. pose proof (mv_len (nd r) (Mr r) (WM r Hr) (x r)) as LM. assert (EQ : seen MG WGx r (putw WGx (lv s1 r) (rho r)) = rho r -v matvec (Mr r) (x r)) by (rewrite V1 by auto; reflexivity). rewrite EQ. pose proof (LR r Hr). apply delta_eq; auto with len. intros k Hk EM. rewrite (ent_vsub L) by congruence.
        destruct (R1 r Hr) as (_ & R2). rewrite R2, EM by auto. rewrite HRG, ag_master by auto.
        assert (T : xadd (total (fun r => getw WGx (lv s1 r)) (key r k)) (total (fun r => gx r (x r)) (key r k)) = bg (key r k)).
        { rewrite <- (total_add _ _ (fun r => distribute dps stb r (hb (lv s r)))). apply (stands_dist stb); auto. intros; now apply HO. intros q kq Hq Hkq. rewrite V1 by auto. cbn [getw hg]. pose proof (LB q Hq). pose proof (gx_len q (x q) Hq). ent_rw L (nd q). ag LX. }
        rewrite (add_cancel _ _ _ T). ag LX. }
      assert (VT : forall r, r < np -> lv t r = mkHv B (hx (lv t r)) (distribute dps stb r (hb (lv s r))) (hr (lv s r)) (rho r)). { intros r Hr. rewrite K3 at 1 by auto. rewrite V1 by auto. reflexivity. }
      split; [|split; [|split]].
      + intros r Hr. destruct (K2 r Hr) as (A1 & A2). split; auto. intros k m km Hk Hm Hkm EK EM. rewrite (A2 k m km) by auto. rewrite ED by auto. f_equal. rewrite V1 by auto. reflexivity.
      + intros r Hr. now rewrite VT.
      + intros r Hr. destruct (HO r Hr) as (A1 & A2 & A3 & A4). rewrite VT by auto. unfold okv. cbn [hx hb hr hg]. destruct (K2 r Hr) as (E1 & _). auto.
      + intros r k Hr Hk. transitivity (total (fun r => distribute dps stb r (distribute dps stb r (hb (lv s r)))) (key r k)). { apply total_ext. intros q kq Hq _. now rewrite VT. }
        transitivity (total (fun r => distribute dps stb r (hb (lv s r))) (key r k)). 2:{ apply (stands_dist stb (fun r => hb (lv s r))); auto. intros; now apply HO. }
        apply total_ext. intros q kq Hq Hkq. unfold distribute. destruct stb; cbn [is_dist]; auto. rewrite map_length, seq_length. assert (A2 : length (hb (lv s q)) = nd q) by now apply HO. rewrite A2. unfold ent at 1 3. rewrite !nth_map_seq by auto. destruct (ms q kq) eqn:E; auto. unfold ent at 1. rewrite nth_map_seq by auto. now rewrite E.
    - destruct (call_stages_ok L dps key RM MG WM HM kres krhs nsteps C KRES KRHS KOP WB cm back xz (is_dist stb) s HB HO) as (rho & R1 & K1 & K2 & K3). cbv zeta in K1, K2, K3. set (t := lockstep _ _ (call_stages _ _ _ _ _ _ _ _ _) s) in *.
      assert (LR : forall r, r < np -> length (rho r) = nd r). { intros r Hr. destruct (K1 r Hr) as (_ & A & _). exact A. }
      assert (ED : forall r, r < np -> seq_corr (nd r) (Mr r) (map (fun s : stage * bool => C (fst s) back r) (order nsteps back xz)) (seen MG WB r (putw WB (lv s r) (rho r))) = delta back xz r).
      { intros r Hr. pose proof (mv_len (nd r) (Mr r) (WM r Hr) (x r)) as LM. assert (EQ : seen MG WB r (putw WB (lv s r) (rho r)) = rho r -v matvec (Mr r) (x r)) by (rewrite <- EX by auto; reflexivity). rewrite EQ. pose proof (LR r Hr). apply delta_eq; auto with len. intros k Hk EM. rewrite (ent_vsub L) by congruence.
        rewrite (rho_master stb (fun r => hb (lv s r)) rho bg) by auto. rewrite HRG, ag_master by auto.
        assert (Z : forall q, q < np -> gx q (x q) = vzero (nd q)). { intros q Hq. destruct xz; cbn [negb andb] in ES. rewrite ZX by auto. now apply gx_zero. now apply noG. }
        assert (T : total (fun r => gx r (x r)) (key r k) = x0). { unfold DccProofs.total, val. rewrite (xsum_ext _ _ (fun _ => x0)). apply (xsum_zero L). intros q Hq. rewrite (xsum_ext _ _ (fun _ => x0)). apply (xsum_zero L). intros j _. rewrite Z, ent_vzero by auto. now destruct (_ =? _). }
        rewrite T. ag LX. }
      assert (VT : forall r, r < np -> lv t r = mkHv B (hx (lv t r)) (rho r) (hr (lv s r)) (hg (lv s r))). { intros r Hr. rewrite K3 at 1 by auto. reflexivity. }
      split; [|split; [|split]].
      + intros r Hr. destruct (K2 r Hr) as (A1 & A2). split; auto. intros k m km Hk Hm Hkm EK EM. rewrite (A2 k m km) by auto. rewrite ED by auto. f_equal. now rewrite EX.
      + intros r Hr. now rewrite VT.
      + intros r Hr. destruct (HO r Hr) as (A1 & A2 & A3 & A4). rewrite VT by auto. unfold okv. cbn [hx hb hr hg]. destruct (K2 r Hr) as (E1 & _). auto.
      + apply (stands_dist stb). { intros r Hr. rewrite VT by auto. now apply LR. } intros r k Hr Hk. rewrite <- (HS r k Hr Hk). destruct stb; cbn [is_dist] in R1.
        * transitivity (total rho (key r k)). { apply total_ext. intros q kq Hq _. now rewrite VT. } exact (conc_total L dps key RM _ rho _ R1).
        * rewrite VT by auto. cbn [hb]. now rewrite R1.
  Qed.
  End Run.
End Hyb3.
