(** Proofs about HybSmModel, part 4: the whole call, the Gauss-Seidel kernels, adjoints. *)
From Verif Require Import Base AGroup LinAlg LinTools GSModel GSProofs GSProofs2 EQCModel ReduceModel NetModel DccModel HybMatModel HybSmModel EQCProofs EQCProofs2 ReduceProofs EQCProps ReduceProps NetProofs DccProofs HybMatProofs HybSmProofs HybSmProofs2 HybSmProofs3.
Local Open Scope nat_scope.
Local Open Scope vec_scope.

(** the order of the stages *)
Definition stages (nsteps : nat) (back : bool) : list stage := [P1 back; EX_PART] ++ concat (repeat [P2 back; EX_PART; P1 back] (nsteps - 1)) ++ [P2 back].
Lemma order_stages nsteps back xz : map fst (order nsteps back xz) = stages nsteps back.
Proof.
  unfold order, stages. assert (G : forall n z, map fst (fst (loc_steps back n z)) = concat (repeat [P2 back; EX_PART; P1 back] n)).
  { induction n as [|n IH]; intros z; auto. cbn [loc_steps repeat concat]. specialize (IH false). destruct (loc_steps back n false) as [l z']. cbn [fst map app]. now rewrite <- IH. }
  specialize (G (nsteps - 1) xz). destruct (loc_steps back (nsteps - 1) xz) as [l z']. cbn [fst] in G. cbn [map fst app]. rewrite map_app, G. reflexivity.
Qed.

(** every mode respects the buffers *)
Section Safe.
  Context {B : Blk}.
  Local Notation X := (X B). Local Notation vec := (list X). Local Notation hvec := (hvec B).
  Variables (dps : list (list (list nat))) (MG : nat -> @spmat B * option (@spmat B)) (kres : stage -> bool -> nat -> vec -> vec -> vec -> bool -> vec * vec) (krhs : stage -> bool -> nat -> vec -> vec -> bool -> vec) (nsteps : nat).
  Definition none : flags := mkFl false false false false.
  (** runs through from idle to idle *)
  Definition clean (P : list (instr hvec X)) : Prop := forall Q, check (P ++ Q) none = check Q none.
  Lemma clean_app P Q : clean P -> clean Q -> clean (P ++ Q). Proof. intros A1 A2 R. now rewrite <- app_assoc, A1, A2. Qed.
  Lemma clean_nil : clean []. Proof. intros Q. reflexivity. Qed.
  Lemma clean_vec f P : clean P -> clean (IVec f :: P). Proof. intros A1 Q. cbn. apply A1. Qed.
  Lemma clean_vecs {T} (f : T -> nat -> hvec -> hvec) l : clean (map (fun a => IVec (f a)) l).
  Proof. induction l as [|a l IH]. apply clean_nil. now refine (clean_vec _ _ _). Qed.
  Lemma clean_d2c w cm need f : clean (d2c_stage dps w cm need f).
  Proof. intros Q. destruct need, cm; reflexivity. Qed.
  Lemma clean_c2c cm f : clean (c2c_stage dps cm f).
  Proof. intros Q. destruct cm; reflexivity. Qed.
  Lemma clean_stages w cm back xz need : clean (call_stages dps kres krhs nsteps w cm back xz need).
  Proof.
    unfold call_stages. destruct (loc_steps back (nsteps - 1) xz) as [l xz']. apply clean_app. apply clean_d2c. apply clean_app. 2: apply clean_c2c. apply (clean_vecs (fun s => callSM kres krhs w back (fst s) (snd s))).
  Qed.
  Lemma safe_SmoothImpl cm back stb str ru ur xz : safe (SmoothImpl dps MG kres krhs nsteps cm back stb str ru ur xz) = true.
  Proof.
    assert (R : forall str, clean (SmoothImplRES dps MG kres krhs nsteps cm back xz str)).
    { intros st. unfold SmoothImplRES. apply clean_app. destruct (_ && _); [refine (clean_vec _ _ _)|]; apply clean_nil. apply clean_app. apply clean_stages. destruct (hasG dps MG); [refine (clean_vec _ _ _)|]; apply clean_nil. }
    assert (H : clean (SmoothImplRHS dps MG kres krhs nsteps cm back xz stb)). { unfold SmoothImplRHS. destruct (_ && _). refine (clean_vec _ _ _). apply clean_stages. apply clean_stages. }
    assert (G : clean (SmoothImpl dps MG kres krhs nsteps cm back stb str ru ur xz)). { unfold SmoothImpl. destruct ur; [|exact H]. destruct ru; cbn [negb]; [exact (R str)|]. destruct xz; cbn [negb]. exact (clean_vec _ _ (R stb)). apply clean_app. exact H. exact (clean_vec _ _ clean_nil). }
    unfold safe. rewrite <- (app_nil_r (SmoothImpl _ _ _ _ _ _ _ _ _ _ _ _)). rewrite G. reflexivity.
  Qed.
End Safe.

Section Hyb4.
  Context {B : Blk} (L : BlkLaws B).
  Local Notation X := (X B). Local Notation vec := (list X). Local Notation spmat := (@spmat B). Local Notation hvec := (hvec B).
  Let LX := lawX B L.
  Variables (dps : list (list (list nat))) (key : nat -> nat -> nat).
  Hypothesis RM : rows_match dps dps key.
  Notation np := (nranks dps). Notation nd r := (ndof dps r).
  Notation total := (total dps key). Notation ms r := (is_master dps r).
  Variable MG : nat -> spmat * option spmat.
  Notation Mr r := (fst (MG r)).
  Hypothesis WM : forall r, r < np -> wf_mat (nd r) (nd r) (Mr r).
  Hypothesis HM : forall r k l, r < np -> k < nd r -> l < nd r -> is_master dps r k && is_master dps r l = false -> entry (Mr r) k l = m0.
  Hypothesis WG : forall r, r < np -> match snd (MG r) with Some G => wf_mat (nd r) (nd r) G | None => True end.
  Variables (kres : stage -> bool -> nat -> vec -> vec -> vec -> bool -> vec * vec) (krhs : stage -> bool -> nat -> vec -> vec -> bool -> vec) (nsteps : nat).
  Variable C : stage -> bool -> nat -> vec -> vec.
  Hypothesis KRES : forall st back r x b res xz, r < np -> length x = nd r -> length b = nd r -> length res = nd r -> kres st back r x b res xz = (x +v C st back r res, res -v matvec (Mr r) (C st back r res)).
  Hypothesis KRHS : forall st back r x b xz, r < np -> length x = nd r -> length b = nd r -> krhs st back r x b xz = x +v C st back r (b -v matvec (Mr r) x).
  Hypothesis KOP : forall st back r, r < np -> stage_op (nd r) (sdof dps st r) (C st back r).
  Notation stands := (stands dps key).
  Notation ls P s := (lockstep np (dcc_recvs dps) P s).
  Notation oks := (oks np (okv dps)).
  Notation bufs_ok s := (forall r, r < np -> length (lg s r) = np /\ length (lm s r) = np).
  (** the correction of rank r for its part of a global residual *)
  Definition rank_corr (back : bool) (r : nat) (rg : nat -> X) : vec := seq_corr (nd r) (Mr r) (map (fun st => C st back r) (stages nsteps back)) (cres dps key rg r).
  Lemma delta_rank rg back xz r : delta dps key MG nsteps C rg back xz r = rank_corr back r rg.
  Proof. unfold delta, rank_corr. rewrite <- (order_stages nsteps back xz), map_map. reflexivity. Qed.
  Lemma SmoothImpl_ok cm back stb str ru ur xz s xg bg ag : bufs_ok s -> oks s ->
    stands CUMULATED (fun r => hx (lv s r)) xg -> stands DISTRIBUTED (fun r => hyb_mult (MG r) (hx (lv s r))) ag -> stands stb (fun r => hb (lv s r)) bg ->
    (xz = true -> forall r, r < np -> hx (lv s r) = vzero (nd r)) ->
    (ur = true -> ru = true -> stands str (fun r => hr (lv s r)) (fun g => xadd (bg g) (xopp (ag g)))) ->
    let t := ls (SmoothImpl dps MG kres krhs nsteps cm back stb str ru ur xz) s in
    from_masters dps key (fun r => hx (lv s r) +v rank_corr back r (fun g => xadd (bg g) (xopp (ag g)))) (fun r => hx (lv t r)) /\
    stands DISTRIBUTED (fun r => distribute dps stb r (hb (lv t r))) bg /\ (forall r, r < np -> okv dps r (lv t r)) /\
    (ur = true -> (ru = true -> str = DISTRIBUTED) -> (ru = false -> xz = true -> stb = DISTRIBUTED) ->
       stands DISTRIBUTED (fun r => hr (lv t r)) (fun g => xadd (bg g) (xopp (total (fun r => hyb_mult (MG r) (hx (lv t r))) g)))) /\
    (ur = false -> forall r, r < np -> hr (lv t r) = hr (lv s r)).
  Proof.
    intros HB HO HX HAx HBb ZX HR. cbv zeta. set (rg := fun g => xadd (bg g) (xopp (ag g))) in *. set (x := fun r => hx (lv s r)) in *.
    assert (LEN : forall r, r < np -> length (x r) = nd r) by (intros r Hr; now apply HO).
    assert (LB : forall r, r < np -> length (hb (lv s r)) = nd r) by (intros r Hr; now apply HO).
    assert (GD : forall x', good dps key MG nsteps C x rg back xz x' -> from_masters dps key (fun r => x r +v rank_corr back r rg) x').
    { intros x' G r Hr. destruct (G r Hr) as (G1 & G2). split; auto. intros k m km Hk Hm Hkm EK EM. rewrite (G2 k m km) by auto. now rewrite delta_rank. }
    pose proof (RES_ok L dps key RM MG WM HM WG kres krhs nsteps C KRES KRHS KOP x bg ag rg LEN HAx (fun g => eq_refl) cm back xz) as RES.
    pose proof (RHS_ok L dps key RM MG WM HM WG kres krhs nsteps C KRES KRHS KOP x bg ag rg LEN HAx (fun g => eq_refl) cm back xz stb s HB HO (fun r Hr => eq_refl) ZX HBb) as RHS. cbv zeta in RES, RHS.
    unfold SmoothImpl. destruct ur.
    - destruct ru; cbn [negb].
      + destruct (RES str s HB HO (fun r Hr => eq_refl) ZX (HR eq_refl eq_refl)) as (R1 & R2 & R3 & R4). split; [now apply GD|]. split. { apply (stands_dist L dps key RM stb). { intros r Hr. rewrite R2 by auto. auto. } intros r k Hr Hk. rewrite <- (HBb r k Hr Hk). destruct stb. apply total_ext. intros q kq Hq _. now rewrite R2. now rewrite R2. } split; auto. split; [|discriminate]. intros _ ES _. apply R4. now apply ES.
      + destruct xz; cbn [negb].
        * change (ls (?i :: ?P) s) with (ls P (lock1 np (dcc_recvs dps) i s)). set (s1 := lock1 np (dcc_recvs dps) _ s).
          assert (V1 : forall r, r < np -> lv s1 r = set_r (lv s r) (hb (lv s r))). { intros r Hr. unfold s1. cbn [lock1 lv]. now rewrite onr_at. }
          assert (O1 : oks s1). { intros r Hr. rewrite V1 by auto. destruct (HO r Hr) as (A1 & A2 & A3 & A4). unfold okv. cbn. auto. }
          assert (S1 : stands stb (fun r => hr (lv s1 r)) rg).
          { intros r k Hr Hk. assert (Z : ag (key r k) = x0). { rewrite <- (HAx r k Hr Hk). cbn. unfold DccProofs.total, val. rewrite (xsum_ext _ _ (fun _ => x0)). apply (xsum_zero L). intros q Hq. rewrite (xsum_ext _ _ (fun _ => x0)). apply (xsum_zero L). intros j _.
              destruct (_ =? _); auto. unfold x. rewrite ZX by auto. rewrite (hyb_eq L dps MG WM) by auto. rewrite (Mx_zero L dps MG WM), (gx_zero L dps MG WG) by auto. rewrite (vadd_zero L (nd q)) by auto with len. apply ent_vzero. }
            unfold rg. rewrite Z. specialize (HBb r k Hr Hk). destruct stb. { transitivity (total (fun r => hb (lv s r)) (key r k)). apply total_ext. intros q kq Hq _. now rewrite V1. rewrite HBb. ag LX. } rewrite V1 by auto. cbn [set_r hr]. rewrite HBb. ag LX. }
          destruct (RES stb s1 HB O1) as (R1 & R2 & R3 & R4); auto. { intros r Hr. rewrite V1 by auto. reflexivity. }
          assert (R2' : forall r, r < np -> hb (lv (ls (SmoothImplRES dps MG kres krhs nsteps cm back true stb) s1) r) = hb (lv s r)). { intros r Hr. rewrite R2 by auto. rewrite V1 by auto. reflexivity. }
          split; [now apply GD|]. split. { apply (stands_dist L dps key RM stb). { intros r Hr. rewrite R2' by auto. auto. } intros r k Hr Hk. rewrite <- (HBb r k Hr Hk). destruct stb. apply total_ext. intros q kq Hq _. now rewrite R2'. now rewrite R2'. } split; auto. split; [|discriminate]. intros _ _ ES. apply R4. now apply ES.
        * rewrite lsapp. destruct RHS as (R1 & R2 & R3 & R4). set (t := lockstep _ _ (SmoothImplRHS _ _ _ _ _ _ _ _ _) s) in *.
          match goal with |- context [lockstep np (dcc_recvs dps) [?i] t] => set (u := lockstep np (dcc_recvs dps) [i] t) end.
          assert (LT : forall r, r < np -> length (distribute dps stb r (hb (lv t r))) = nd r). { intros r Hr. apply dist_len. now apply R3. }
          assert (VU : forall r, r < np -> lv u r = set_r (lv t r) (distribute dps stb r (hb (lv t r)) -v hyb_mult (MG r) (hx (lv t r)))).
          { intros r Hr. pose proof (LT r Hr). pose proof (mv_len (nd r) (Mr r) (WM r Hr) (hx (lv t r))). pose proof (gx_len dps MG WG r (hx (lv t r)) Hr). unfold u. cbn [lockstep fold_left lock1 lv]. rewrite onr_at by auto. f_equal. rewrite (multG_sub L dps MG) by auto with len. rewrite (hyb_eq L dps MG WM) by auto. symmetry. apply (vsub_vadd L (nd r)); auto. }
          split. { apply GD. intros r Hr. destruct (R1 r Hr) as (G1 & G2). rewrite VU by auto. cbn [set_r hx]. split; auto. }
          split. { intros r k Hr Hk. rewrite <- (R4 r k Hr Hk). apply total_ext. intros q kq Hq _. now rewrite VU. }
          assert (LH : forall r, r < np -> length (hyb_mult (MG r) (hx (lv t r))) = nd r). { intros r Hr. rewrite (hyb_eq L dps MG WM) by auto. pose proof (mv_len (nd r) (Mr r) (WM r Hr) (hx (lv t r))). pose proof (gx_len dps MG WG r (hx (lv t r)) Hr). auto with len. }
          split. { intros r Hr. rewrite VU by auto. destruct (R3 r Hr) as (A1 & A2 & A3 & A4). unfold okv. cbn [set_r hx hb hr hg]. pose proof (LT r Hr). pose proof (LH r Hr). repeat (split; auto with len). }
          split; [|discriminate]. intros _ _ _ r k Hr Hk. apply (add_cancel L).
          rewrite <- (total_add L dps key _ _ (fun r => distribute dps stb r (hb (lv t r)))). now apply (R4 r k).
          intros q kq Hq Hkq. rewrite VU by auto. cbn [set_r hr hx]. pose proof (LT q Hq). pose proof (LH q Hq). rewrite (ent_vsub L) by congruence. ag LX.
    - destruct RHS as (R1 & R2 & R3 & R4). split; [now apply GD|]. split; auto. split; auto. split; [discriminate|]. auto.
  Qed.
End Hyb4.
