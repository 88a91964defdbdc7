(** C37, C38: the MPI-parallel smoother. *)
From Verif Require Import Base AGroup LinAlg LinTools GSModel GSProofs Instances SparseSpec SparseProps EQCModel ReduceModel NetModel DccModel HybMatModel HybSmModel EQCProofs EQCProofs2 SparseProofs3 ReduceProofs EQCProps ReduceProps NetProofs DccProofs DccProps HybMatProofs HybMatProofs2 HybMatProps HybSmProofs HybSmProofs2 HybSmProofs3 HybSmProofs4 HybSmProofs5.
Local Open Scope nat_scope.
Local Open Scope vec_scope.

(** *** specification
    dps, key, [rows_match], [sum_of], [lowest], [always], [bufs]: DccProps.v; [owner_rank], [local_matrices]: HybMatProps.v *)
Section Spec.
  Context {B : Blk}.
  Local Notation X := (X B). Local Notation vec := (list X). Local Notation spmat := (@spmat B). Local Notation hvec := (hvec B).
  Variables (dps : list (list (list nat))) (key : nat -> nat -> nat).
  Notation nd r := (length (nth r dps [])).
  (** the global vector [vg] that the vectors of the ranks stand for: the sum of the ranks' values, or the value every rank has *)
  Definition represents (st : pstatus) (vs : nat -> vec) (vg : nat -> X) : Prop :=
    forall r k, r < length dps -> k < nd r -> match st with DISTRIBUTED => sum_of dps key vs (key r k) | CUMULATED => ent (vs r) k end = vg (key r k).
  Definition matching (v : nat -> hvec) : Prop :=
    forall r, r < length dps -> length (hx (v r)) = nd r /\ length (hb (v r)) = nd r /\ length (hr (v r)) = nd r /\ length (hg (v r)) = nd r.
  (** the global vector b - A x, for the local matrices As of the ranks *)
  Definition global_res (As : list spmat) (bg : nat -> X) (x : nat -> vec) (g : nat) : X := xadd (bg g) (xopp (sum_of dps key (fun r => matvec (nth r As []) (x r)) g)).
  (** the part of a global vector that belongs to rank r: its values for the dofs r is the lowest rank of, 0 for the others *)
  Definition owned (rg : nat -> X) (r : nat) : vec := map (fun k => if owner_rank dps r k =? r then rg (key r k) else x0) (seq 0 (nd r)).
  (** What a smoothing call does, whatever the overlap mode, flags, schedule: x becomes x + the owner's correction [K] for its part of b - A x; b stands for the same vector; the residual is updated if asked for, and else left alone *)
  Definition hybrid_contract (As : list spmat) (run : comm -> bool -> pstatus -> pstatus -> bool -> bool -> bool -> list (instr hvec X)) (K : bool -> nat -> vec -> vec) : Prop :=
    forall cm back stb str res_updated update_res x_zero v g m xg bg,
      matching v -> bufs (length dps) g -> bufs (length dps) m ->
      represents CUMULATED (fun r => hx (v r)) xg -> represents stb (fun r => hb (v r)) bg ->
      (x_zero = true -> forall r, r < length dps -> hx (v r) = vzero (nd r)) ->
      (update_res = true -> res_updated = true -> represents str (fun r => hr (v r)) (global_res As bg (fun r => hx (v r)))) ->
      always (length dps) (dcc_sends dps) (dcc_recvs dps) (run cm back stb str res_updated update_res x_zero) v g m (fun w =>
        matching w /\
        (exists xg', represents CUMULATED (fun r => hx (w r)) xg' /\
           forall r k, r < length dps -> k < nd r -> lowest dps r k -> xg' (key r k) = xadd (xg (key r k)) (ent (K back r (owned (global_res As bg (fun r => hx (v r))) r)) k)) /\
        match stb with
        | DISTRIBUTED => represents DISTRIBUTED (fun r => hb (w r)) bg
        | CUMULATED => forall r k, r < length dps -> k < nd r -> lowest dps r k -> ent (hb (w r)) k = bg (key r k)
        end /\
        (update_res = true -> (res_updated = true -> str = DISTRIBUTED) -> (res_updated = false -> x_zero = true -> stb = DISTRIBUTED) ->
           represents DISTRIBUTED (fun r => hr (w r)) (global_res As bg (fun r => hx (w r)))) /\
        (update_res = false -> forall r, r < length dps -> hr (w r) = hr (v r))).
  (** a stage kernel's correction depends only on, and changes only, dofs the rank is the lowest owner of; before and after the exchange only dofs that are not shared *)
  Definition stage_dof (st : stage) (r k : nat) : Prop := k < nd r /\ lowest dps r k /\ (st = EX_PART \/ nth k (nth r dps []) [] = []).
  Definition stage_correction (st : stage) (r : nat) (C : vec -> vec) : Prop :=
    (forall u, length u = nd r -> length (C u) = nd r) /\
    (forall u w, length u = nd r -> length w = nd r -> (forall k, stage_dof st r k -> ent u k = ent w k) -> C u = C w) /\
    (forall u k, length u = nd r -> k < nd r -> ~ stage_dof st r k -> ent (C u) k = x0).
  (** a stage kernel with correction [C] for the matrix Mr: the two variants, and what they do to x and the residual *)
  Definition stage_kernels (Mr : nat -> spmat) (kres : stage -> bool -> nat -> vec -> vec -> vec -> bool -> vec * vec) (krhs : stage -> bool -> nat -> vec -> vec -> bool -> vec) (C : stage -> bool -> nat -> vec -> vec) : Prop :=
    forall st back r, r < length dps -> stage_correction st r (C st back r) /\
      (forall x b res xz, length x = nd r -> length b = nd r -> length res = nd r -> kres st back r x b res xz = (x +v C st back r res, res -v matvec (Mr r) (C st back r res))) /\
      (forall x b xz, length x = nd r -> length b = nd r -> krhs st back r x b xz = x +v C st back r (b -v matvec (Mr r) x)).
  (** the inner product of a cumulated with a distributed vector *)
  Definition par_dot (x b : nat -> vec) : K B := ksum (length dps) (fun r => vdot (x r) (b r)).
End Spec.

Lemma always_imp {V A} np sends recvs (P : list (instr V A)) v g m (Q R : (nat -> V) -> Prop) : (forall w, Q w -> R w) -> always np sends recvs P v g m Q -> always np sends recvs P v g m R.
Proof. intros H (n & Hn). exists n. intros i u Hu. destruct (Hn i u Hu) as (A1 & A2 & A3 & A4). split; auto. split; auto. split; auto. intros E. destruct (A4 E) as (A5 & A6). split; auto. Qed.

Section C37.
  Context {B : Blk} (L : BlkLaws B) (CM : CMon (@m0 B) madd).
  Local Notation X := (X B). Local Notation vec := (list X). Local Notation spmat := (@spmat B). Local Notation hvec := (hvec B).
  Variables (dps : list (list (list nat))) (key : nat -> nat -> nat) (RM : rows_match dps dps key) (As : list spmat) (HL : local_matrices dps As) (MGs : list (spmat * option spmat)) (HD : Decompose dps As = Ret MGs).
  Notation MG := (fun r => nth r MGs ([], None)). Notation np := (nranks dps). Notation nd r := (ndof dps r).
  Lemma splits r : r < np -> split_ok dps key As r (nth r MGs ([], None)).
  Proof.
    destruct HL as (HA & HW0). destruct (Decompose_ok CM dps key RM As HA) as (MGs' & E & _ & ES). intros q Hq. now apply HW0. intros q k Hq. now apply HW0. rewrite HD in E. injection E as ->. apply ES.
  Qed.
  Lemma owner_master r k : r < np -> k < nd r -> (owner_rank dps r k =? r) = is_master dps r k.
  Proof.
    intros Hr Hk. rewrite (home_owner dps key RM) by auto. unfold home_of. destruct (is_master dps r k) eqn:EM. apply Nat.eqb_refl. destruct (dproc dps r k) as [|d0 d] eqn:ED.
    - exfalso. apply not_true_iff_false in EM. apply EM. apply (master_spec dps key RM r k Hr Hk). rewrite ED. intros q [].
    - destruct (rHR dps key RM r k Hr Hk) as (S1 & N1 & _). fold (dproc dps r k) in N1. rewrite ED in N1. apply Nat.eqb_neq. intros ->. apply N1. now left.
  Qed.
  Lemma owned_cres (rg : nat -> X) r : r < np -> owned dps key rg r = cres dps key rg r.
  Proof. intros Hr. unfold owned, cres. apply map_seq_ext. intros k Hk. now rewrite owner_master. Qed.
  Lemma WM r : r < np -> wf_mat (nd r) (nd r) (fst (MG r)). Proof. intros Hr. now destruct (splits r Hr). Qed.
  Lemma HM r k l : r < np -> k < nd r -> l < nd r -> is_master dps r k && is_master dps r l = false -> entry (fst (MG r)) k l = m0.
  Proof. intros Hr Hk Hl E. destruct (splits r Hr) as (_ & _ & S & _). rewrite S by auto. now rewrite E. Qed.
  Lemma WG r : r < np -> match snd (MG r) with Some G => wf_mat (nd r) (nd r) G | None => True end.
  Proof. intros Hr. destruct (splits r Hr) as (_ & _ & _ & S & _). destruct (snd (nth r MGs ([], None))); auto. now destruct S. Qed.
  Lemma hyb_A (x : nat -> vec) xg g : represents dps key CUMULATED x xg -> sum_of dps key (fun r => hyb_mult (MG r) (x r)) g = sum_of dps key (fun r => matvec (nth r As []) (x r)) g.
  Proof.
    intros HX. destruct HL as (HA & HW0). refine (mult_ok CM dps key RM As HA _ L x xg HX MGs g splits). intros q Hq. now apply HW0.
  Qed.
  Variables (kres : stage -> bool -> nat -> vec -> vec -> vec -> bool -> vec * vec) (krhs : stage -> bool -> nat -> vec -> vec -> bool -> vec) (nsteps : nat) (C : stage -> bool -> nat -> vec -> vec).
  Definition K_of (back : bool) (r : nat) : vec -> vec := seq_corr (nd r) (fst (MG r)) (map (fun st => C st back r) (stages nsteps back)).
  Hypothesis KRES : forall st back r x b res xz, r < np -> length x = nd r -> length b = nd r -> length res = nd r -> kres st back r x b res xz = (x +v C st back r res, res -v matvec (fst (MG r)) (C st back r res)).
  Hypothesis KRHS : forall st back r x b xz, r < np -> length x = nd r -> length b = nd r -> krhs st back r x b xz = x +v C st back r (b -v matvec (fst (MG r)) x).
  Hypothesis KOP : forall st back r, r < np -> stage_op (nd r) (sdof dps st r) (C st back r).
  Lemma contract_ok : hybrid_contract dps key As (SmoothImpl dps MG kres krhs nsteps) K_of.
  Proof.
    intros cm back stb str ru ur xz v g m xg bg HV HG HMb HX HB HZ HR. apply always_lock; [intros; now apply (req_match dps key RM)|apply safe_SmoothImpl|]. intros w HW.
    set (ag := fun i => sum_of dps key (fun r => hyb_mult (MG r) (hx (v r))) i).
    assert (EA : forall i, xadd (bg i) (xopp (ag i)) = global_res dps key As bg (fun r => hx (v r)) i). { intros i. unfold ag, global_res. now rewrite (hyb_A (fun r => hx (v r)) xg). }
    assert (H1 : stands dps key CUMULATED (fun r => hx (lv (mkLst v g m) r)) xg) by exact HX.
    assert (H2 : stands dps key DISTRIBUTED (fun r => hyb_mult (MG r) (hx (lv (mkLst v g m) r))) ag) by (intros r k Hr Hk; reflexivity).
    assert (H3 : stands dps key stb (fun r => hb (lv (mkLst v g m) r)) bg) by exact HB.
    assert (H4 : ur = true -> ru = true -> stands dps key str (fun r => hr (lv (mkLst v g m) r)) (fun i => xadd (bg i) (xopp (ag i)))). { intros A1 A2 r k Hr Hk. cbv beta. rewrite EA. exact (HR A1 A2 r k Hr Hk). }
    assert (H5 : forall r, r < np -> length (lg (mkLst v g m) r) = np /\ length (lm (mkLst v g m) r) = np) by (intros r Hr; split; [now apply HG|now apply HMb]).
    assert (H6 : oks np (okv dps) (mkLst v g m)) by (intros r Hr; exact (HV r Hr)).
    destruct (SmoothImpl_ok L dps key RM MG WM HM WG kres krhs nsteps C KRES KRHS KOP cm back stb str ru ur xz (mkLst v g m) xg bg ag H5 H6 H1 H2 H3 HZ H4) as (R1 & R2 & R3 & R4 & R5). cbv zeta in R1, R2, R3, R4, R5. cbn [lv] in R1, R2, R3, R4, R5.
    fold np in HW. set (t := lockstep np (dcc_recvs dps) _ _) in *. set (rg := fun i => xadd (bg i) (xopp (ag i))) in *.
    assert (ER : forall r, r < np -> owned dps key (global_res dps key As bg (fun r => hx (v r))) r = cres dps key rg r). { intros r Hr. rewrite <- owned_cres by auto. unfold owned. apply map_seq_ext. intros k Hk. unfold rg. now rewrite EA. }
    assert (LK : forall r, r < np -> length (K_of back r (cres dps key rg r)) = nd r). { intros r Hr. unfold K_of. apply (seq_corr_len _ _ (is_master dps r)). now apply WM. intros c Hc. apply in_map_iff in Hc as (st & <- & _). now apply (C_op dps C KOP). unfold cres. now rewrite map_length, seq_length. }
    (* the new global x *)
    set (home_val := fun i => fold_right (fun r s => fold_right (fun k s => if (key r k =? i) && is_master dps r k then ent (hx (t.(lv) r)) k else s) s (seq 0 (nd r))) x0 (seq 0 np)).
    assert (HVAL : forall m km, m < np -> km < nd m -> is_master dps m km = true -> home_val (key m km) = ent (hx (lv t m)) km).
    { intros m1 km Hm Hkm EM. unfold home_val.
      assert (G1 : forall r l s, r < np -> (forall k, In k l -> k < nd r) -> fold_right (fun k s => if (key r k =? key m1 km) && is_master dps r k then ent (hx (lv t r)) k else s) s l = if (r =? m1) && existsb (fun k => k =? km) l then ent (hx (lv t m1)) km else s).
      { intros r l s Hr. induction l as [|a l IH]; intros HK; cbn [fold_right existsb]. now rewrite andb_false_r. rewrite IH by (intros; apply HK; now right). destruct (Nat.eqb_spec (key r a) (key m1 km)) as [E|E], (is_master dps r a) eqn:EA2; cbn [andb].
        - destruct (home_unique dps key RM r a m1 km) as (-> & ->); auto. apply HK; now left. now rewrite !Nat.eqb_refl.
        - destruct (Nat.eqb_spec r m1) as [->|N]; cbn [andb]; auto. destruct (Nat.eqb_spec a km) as [->|N]; cbn [orb]; auto. congruence.
        - destruct (Nat.eqb_spec r m1) as [->|N]; cbn [andb]; auto. destruct (Nat.eqb_spec a km) as [->|N]; cbn [orb]; auto. congruence.
        - destruct (Nat.eqb_spec r m1) as [->|N]; cbn [andb]; auto. destruct (Nat.eqb_spec a km) as [->|N]; cbn [orb]; auto. congruence. }
      assert (G2 : forall l, (forall r, In r l -> r < np) -> fold_right (fun r s => fold_right (fun k s => if (key r k =? key m1 km) && is_master dps r k then ent (hx (lv t r)) k else s) s (seq 0 (nd r))) x0 l = if existsb (fun r => r =? m1) l then ent (hx (lv t m1)) km else x0).
      { induction l as [|a l IH]; intros HK; cbn [fold_right existsb]; auto. rewrite G1. 2: apply HK; now left. 2: intros k Hk; apply in_seq in Hk; lia. rewrite IH by (intros; apply HK; now right). destruct (Nat.eqb_spec a m1) as [->|N]; cbn [andb orb]; auto. assert (EX : existsb (fun k => k =? km) (seq 0 (nd m1)) = true). { apply existsb_exists. exists km. split. apply in_seq; lia. apply Nat.eqb_refl. } now rewrite EX. }
      rewrite G2. 2: intros r Hr; apply in_seq in Hr; lia. assert (EX : existsb (fun k => k =? m1) (seq 0 np) = true). { apply existsb_exists. exists m1. split. apply in_seq; lia. apply Nat.eqb_refl. } now rewrite EX. }
    assert (CU : represents dps key CUMULATED (fun r => hx (w r)) home_val).
    { intros r k Hr Hk. cbv beta. rewrite HW. destruct (home dps key RM r k Hr Hk) as (m1 & km & A1 & A2 & A3 & A4). rewrite <- A3, HVAL by auto. destruct (R1 r Hr) as (_ & R1b). destruct (R1 m1 A1) as (_ & R1c). rewrite (R1b k m1 km) by auto. now rewrite (R1c km m1 km). }
    split. { intros r Hr. rewrite HW. exact (R3 r Hr). } split; [|split; [|split]].
    - exists home_val. split; auto. intros r k Hr Hk HLo. apply (lowest_iff dps key RM) in HLo; auto. rewrite HVAL by auto. destruct (R1 r Hr) as (_ & R1b). rewrite (R1b k r k) by auto. rewrite ER by auto. assert (LXr : length (hx (v r)) = nd r) by now apply HV.
      rewrite (ent_vadd L). 2:{ etransitivity; [exact LXr|]. symmetry. exact (LK r Hr). } f_equal. exact (HX r k Hr Hk).
    - assert (LBt : forall r, r < np -> length (hb (lv t r)) = nd r) by (intros r Hr; now apply R3). destruct stb.
      + intros r k Hr Hk. specialize (R2 r k Hr Hk). cbn in R2. rewrite <- R2. apply total_ext. intros q kq _ _. now rewrite HW.
      + intros r k Hr Hk HLo. apply (lowest_iff dps key RM) in HLo; auto. specialize (R2 r k Hr Hk). cbn in R2. rewrite <- R2, HW.
        assert (EV : forall q k, q < np -> k < nd q -> ent (map (fun k0 => if is_master dps q k0 then ent (hb (lv t q)) k0 else x0) (seq 0 (length (hb (lv t q))))) k = if is_master dps q k then ent (hb (lv t q)) k else x0).
        { intros q kq Hq Hkq. rewrite LBt by auto. unfold ent at 1. rewrite nth_map_seq; auto. }
        rewrite (total_conc L dps key RM _ r k); auto. { rewrite EV, HLo by auto. reflexivity. } intros q kq Hq Hkq E. rewrite EV by auto. now rewrite E.
    - intros A1 A2 A3 r k Hr Hk. specialize (R4 A1 A2 A3 r k Hr Hk). cbn in R4. unfold global_res. rewrite <- (hyb_A (fun r => hx (w r)) home_val) by exact CU.
      transitivity (DccProofs.total dps key (fun r => hr (lv t r)) (key r k)). { apply total_ext. intros q kq _ _. now rewrite HW. } rewrite R4. f_equal. f_equal. apply total_ext. intros q kq _ _. now rewrite HW.
    - intros A1 r Hr. rewrite HW. now apply R5.
  Qed.
End C37.

Section C38.
  Context {B : Blk} (L : BlkLaws B).
  Local Notation X := (X B). Local Notation vec := (list X). Local Notation spmat := (@spmat B). Local Notation hvec := (hvec B).
  Let LX := lawX B L.
  Variables (dps : list (list (list nat))) (key : nat -> nat -> nat) (RM : rows_match dps dps key) (As : list spmat) (HL : local_matrices dps As).
  Notation np := (nranks dps). Notation nd r := (ndof dps r).
  Lemma par_dot_total (x b : nat -> vec) xg : (forall r, r < np -> length (x r) = nd r /\ length (b r) = nd r) -> represents dps key CUMULATED x xg ->
    par_dot dps x b = ksum (bound dps key) (fun i => dot (xg i) (sum_of dps key b i)).
  Proof.
    intros HLn HX. unfold par_dot. fold np.
    transitivity (ksum np (fun r => ksum (nd r) (fun k => ksum (bound dps key) (fun i => if key r k =? i then dot (xg i) (ent (b r) k) else k0)))).
    - apply ksum_ext. intros r Hr. destruct (HLn r Hr) as (A1 & A2). rewrite (vdot_ksum (nd r)) by auto. apply ksum_ext. intros k Hk. rewrite (ksum_ext (bound dps key) _ (fun i => if key r k =? i then dot (xg (key r k)) (ent (b r) k) else k0)). 2:{ intros j _. destruct (Nat.eqb_spec (key r k) j) as [<-|]; auto. }
      rewrite (ksum_delta L) by (apply (key_bound dps key As (proj1 HL)); auto). f_equal. exact (HX r k Hr Hk).
    - transitivity (ksum (bound dps key) (fun i => ksum np (fun r => ksum (nd r) (fun k => if key r k =? i then dot (xg i) (ent (b r) k) else k0)))).
      { rewrite (ksum_swap L). apply ksum_ext. intros r Hr. apply (ksum_swap L). }
      apply ksum_ext. intros i _. rewrite (dot_comm B L). unfold sum_of. rewrite (dot_xsum L). apply ksum_ext. intros r Hr. rewrite (dot_xsum L). apply ksum_ext. intros k Hk. destruct (key r k =? i). apply (dot_comm B L). now rewrite (dot_0l L).
  Qed.
  Lemma owned_len (rg : nat -> X) r : length (owned dps key rg r) = nd r. Proof. unfold owned. now rewrite map_length, seq_length. Qed.
  Lemma owned_ent (rg : nat -> X) r k : r < np -> k < nd r -> ent (owned dps key rg r) k = if is_master dps r k then rg (key r k) else x0.
  Proof. intros Hr Hk. unfold owned, ent. rewrite nth_map_seq by auto. now rewrite (owner_master dps key RM). Qed.
  Lemma owned_total (b : nat -> vec) bg i : represents dps key DISTRIBUTED b bg -> sum_of dps key b i = sum_of dps key (owned dps key bg) i.
  Proof.
    intros H. symmetry. refine (conc_total L dps key RM b (owned dps key bg) i _). intros r Hr. split; [apply owned_len|]. intros k Hk. rewrite owned_ent by auto. destruct (is_master dps r k); auto. symmetry. exact (H r k Hr Hk).
  Qed.
  Variables (run : comm -> bool -> pstatus -> pstatus -> bool -> bool -> bool -> list (instr hvec X)) (K : bool -> nat -> vec -> vec).
  Hypothesis HK : hybrid_contract dps key As run K.
  Hypothesis KL : forall back r u, r < np -> length u = nd r -> length (K back r u) = nd r.
  Lemma zero_mult (x : nat -> vec) i : (forall r, r < np -> x r = vzero (nd r)) -> sum_of dps key (fun r => matvec (nth r As []) (x r)) i = x0.
  Proof.
    intros HZ. unfold sum_of. fold np. rewrite (xsum_ext _ _ (fun _ => x0)). apply (xsum_zero L). intros r Hr. rewrite HZ by auto. destruct HL as (_ & HW). rewrite (lin_zero L (nd r) (nd r)) by now apply (matvec_lin L), HW.
    rewrite (xsum_ext _ _ (fun _ => x0)). apply (xsum_zero L). intros k Hk. rewrite ent_vzero. now destruct (_ =? _).
  Qed.
  (** a run from x = 0 *)
  Lemma run0 cm back str ru ur xz v g m bg : matching dps v -> bufs (length dps) g -> bufs (length dps) m -> (forall r, r < length dps -> hx (v r) = vzero (length (nth r dps []))) ->
    represents dps key DISTRIBUTED (fun r => hb (v r)) bg -> (ur = true -> ru = true -> represents dps key str (fun r => hr (v r)) bg) ->
    always (length dps) (dcc_sends dps) (dcc_recvs dps) (run cm back DISTRIBUTED str ru ur xz) v g m (fun w => matching dps w /\ exists xg, represents dps key CUMULATED (fun r => hx (w r)) xg /\
      forall r k, r < np -> k < nd r -> is_master dps r k = true -> ent (hx (w r)) k = ent (K back r (owned dps key bg r)) k).
  Proof.
    intros HV HG HM HZ HB HR. assert (EG : forall i, global_res dps key As bg (fun r => hx (v r)) i = bg i). { intros i. unfold global_res. rewrite zero_mult by exact HZ. ag LX. }
    assert (EO : forall r, r < np -> owned dps key (global_res dps key As bg (fun r => hx (v r))) r = owned dps key bg r). { intros r Hr. unfold owned. apply map_seq_ext. intros k Hk. now rewrite EG. }
    eapply always_imp; [|refine (HK cm back DISTRIBUTED str ru ur xz v g m (fun _ => x0) bg HV HG HM _ HB (fun _ => HZ) _)].
    - intros w (W1 & (xg & W2 & W3) & _). split; auto. exists xg. split; auto. intros r k Hr Hk EM. assert (LO : lowest dps r k) by now apply (lowest_iff dps key RM). specialize (W3 r k Hr Hk LO). pose proof (W2 r k Hr Hk) as W4. cbv beta in W4. rewrite W4, W3. rewrite EO by auto. ag LX.
    - intros r k Hr Hk. cbv beta. rewrite HZ by auto. apply ent_vzero.
    - intros A1 A2 r k Hr Hk. cbv beta. rewrite EG. exact (HR A1 A2 r k Hr Hk).
  Qed.
  Variables (bk1 bk2 : bool).
  Hypothesis KA : forall r, r < np -> adj (nd r) (nd r) (K bk1 r) (K bk2 r).
  Lemma run_adj cm1 cm2 str1 str2 ru1 ru2 ur1 ur2 xz1 xz2 v1 v2 g m bg1 bg2 : matching dps v1 -> matching dps v2 -> bufs (length dps) g -> bufs (length dps) m ->
    (forall r, r < length dps -> hx (v1 r) = vzero (length (nth r dps [])) /\ hx (v2 r) = vzero (length (nth r dps []))) ->
    represents dps key DISTRIBUTED (fun r => hb (v1 r)) bg1 -> represents dps key DISTRIBUTED (fun r => hb (v2 r)) bg2 ->
    (ur1 = true -> ru1 = true -> represents dps key str1 (fun r => hr (v1 r)) bg1) -> (ur2 = true -> ru2 = true -> represents dps key str2 (fun r => hr (v2 r)) bg2) ->
    always (length dps) (dcc_sends dps) (dcc_recvs dps) (run cm1 bk1 DISTRIBUTED str1 ru1 ur1 xz1) v1 g m (fun w1 =>
    always (length dps) (dcc_sends dps) (dcc_recvs dps) (run cm2 bk2 DISTRIBUTED str2 ru2 ur2 xz2) v2 g m (fun w2 =>
      par_dot dps (fun r => hx (w1 r)) (fun r => hb (v2 r)) = par_dot dps (fun r => hx (w2 r)) (fun r => hb (v1 r)))).
  Proof.
    intros HV1 HV2 HG HM HZ HB1 HB2 HR1 HR2. eapply always_imp; [|refine (run0 cm1 bk1 str1 ru1 ur1 xz1 v1 g m bg1 HV1 HG HM (fun r Hr => proj1 (HZ r Hr)) HB1 HR1)]. intros w1 (W1 & xg1 & X1 & Y1).
    eapply always_imp; [|refine (run0 cm2 bk2 str2 ru2 ur2 xz2 v2 g m bg2 HV2 HG HM (fun r Hr => proj2 (HZ r Hr)) HB2 HR2)]. intros w2 (W2 & xg2 & X2 & Y2).
    assert (G : forall (w : nat -> hvec) (b : nat -> vec) xg bg, (forall r, r < np -> length (hx (w r)) = nd r) -> (forall r, r < np -> length (b r) = nd r) -> represents dps key CUMULATED (fun r => hx (w r)) xg -> represents dps key DISTRIBUTED b bg -> par_dot dps (fun r => hx (w r)) b = par_dot dps (fun r => hx (w r)) (owned dps key bg)).
    { intros w b xg bg A1 A2 A3 A4. rewrite !(par_dot_total _ _ xg); auto. 2:{ intros r Hr. split; auto. apply owned_len. } apply ksum_ext. intros i _. f_equal. now apply owned_total. }
    assert (L1 : forall r, r < np -> length (hx (w1 r)) = nd r) by (intros r Hr; now apply W1). assert (L2 : forall r, r < np -> length (hx (w2 r)) = nd r) by (intros r Hr; now apply W2).
    rewrite (G w1 (fun r => hb (v2 r)) xg1 bg2); auto. 2:{ intros r Hr. now apply HV2. } rewrite (G w2 (fun r => hb (v1 r)) xg2 bg1); auto. 2:{ intros r Hr. now apply HV1. }
    unfold par_dot. fold np. apply ksum_ext. intros r Hr.
    assert (E : forall (x y : vec) (bg : nat -> X), length x = nd r -> length y = nd r -> (forall k, k < nd r -> is_master dps r k = true -> ent x k = ent y k) -> vdot x (owned dps key bg r) = vdot y (owned dps key bg r)).
    { intros x y bg A1 A2 A3. rewrite !(vdot_ksum (nd r)); auto using owned_len. apply ksum_ext. intros k Hk. rewrite owned_ent by auto. destruct (is_master dps r k) eqn:EM. now rewrite A3. now rewrite !(dot_0r L). }
    rewrite (E (hx (w1 r)) (K bk1 r (owned dps key bg1 r)) bg2); auto. 2:{ apply KL; auto using owned_len. }
    rewrite (E (hx (w2 r)) (K bk2 r (owned dps key bg2 r)) bg1); auto. 2:{ apply KL; auto using owned_len. }
    rewrite KA by auto using owned_len. apply (vdot_comm L).
  Qed.
End C38.

Section Final.
  Context {B : Blk} (L : BlkLaws B) (CM : CMon (@m0 B) madd).
  Local Notation X := (X B). Local Notation M := (M B). Local Notation vec := (list X). Local Notation spmat := (@spmat B). Local Notation hvec := (hvec B).
  Variables (dps : list (list (list nat))) (key : nat -> nat -> nat) (RM : rows_match dps dps key) (As : list spmat) (HL : local_matrices dps As) (MGs : list (spmat * option spmat)) (HD : Decompose dps As = Ret MGs).
  Notation MG := (fun r => nth r MGs ([], None)). Notation np := (nranks dps). Notation nd r := (ndof dps r).
  Lemma contract_Kext run (K K' : bool -> nat -> vec -> vec) : (forall back r u, r < np -> length u = nd r -> K back r u = K' back r u) -> hybrid_contract dps key As run K -> hybrid_contract dps key As run K'.
  Proof.
    intros HE HK cm back stb str ru ur xz v g m xg bg A1 A2 A3 A4 A5 A6 A7. eapply always_imp; [|exact (HK cm back stb str ru ur xz v g m xg bg A1 A2 A3 A4 A5 A6 A7)]. intros w (W1 & (xg' & W2 & W3) & W4). split; auto. split; auto. exists xg'. split; auto. intros r k Hr Hk Hl. rewrite <- HE; auto. apply owned_len.
  Qed.
  Lemma stage_dof_iff st r k : r < np -> k < nd r -> (stage_dof dps st r k <-> sdof dps st r k = true).
  Proof.
    intros Hr Hk. unfold stage_dof, sdof. rewrite (lowest_iff dps key RM r k Hr Hk). unfold dproc. split.
    - intros (_ & -> & H). destruct st; auto; destruct H as [H|H]; try discriminate; now rewrite H.
    - intros H. apply andb_prop in H as (H1 & H2). split; auto. split; auto. destruct st; [right|left; auto|right]; destruct (nth k (nth r dps []) []); auto; discriminate.
  Qed.
  Lemma stage_corr_op st r (C : vec -> vec) : r < np -> stage_correction dps st r C -> stage_op (nd r) (sdof dps st r) C.
  Proof.
    intros Hr (C1 & C2 & C3). constructor; auto.
    - intros v w Hv Hw H. apply C2; auto. intros k HS. pose proof HS as (Hk & _). apply H; auto. now apply stage_dof_iff in HS.
    - intros v k Hv Hk E. apply C3; auto. intros HS. apply stage_dof_iff in HS; auto. congruence.
  Qed.
  Section Kernels.
    Variables (kres : stage -> bool -> nat -> vec -> vec -> vec -> bool -> vec * vec) (krhs : stage -> bool -> nat -> vec -> vec -> bool -> vec) (nsteps : nat) (C : stage -> bool -> nat -> vec -> vec).
    Hypothesis HS : stage_kernels dps (fun r => fst (MG r)) kres krhs C.
    Lemma kernels_contract : hybrid_contract dps key As (SmoothImpl dps MG kres krhs nsteps) (K_of dps MGs nsteps C).
    Proof.
      apply (contract_ok L CM dps key RM As HL MGs HD).
      - intros st back r x b res xz Hr. now apply HS.
      - intros st back r x b xz Hr. now apply HS.
      - intros st back r Hr. apply stage_corr_op; auto. now apply HS.
    Qed.
    Lemma K_len back r u : r < np -> length u = nd r -> length (K_of dps MGs nsteps C back r u) = nd r.
    Proof.
      intros Hr Hu. unfold K_of. apply (seq_corr_len _ _ (is_master dps r)); auto. now apply (WM CM dps key RM As HL MGs HD). intros c Hc. apply in_map_iff in Hc as (st & <- & _). apply (stage_weak (nd r) (sdof dps st r)). intros k Hk E. unfold sdof in E. now apply andb_prop in E as (E & _). apply stage_corr_op; auto. now apply HS.
    Qed.
    Hypothesis SA : forall r, r < np -> sym_mat (nd r) (nth r As []).
    Hypothesis CL : forall st back r, r < np -> lin (nd r) (nd r) (C st back r).
    Hypothesis CA : forall st r, r < np -> adj (nd r) (nd r) (C st false r) (C st true r).
    Hypothesis N1 : nsteps <= 1.
    Lemma K_adj r : r < np -> adj (nd r) (nd r) (K_of dps MGs nsteps C false r) (K_of dps MGs nsteps C true r).
    Proof.
      intros Hr. set (n := nd r). set (Mr := fst (nth r MGs ([], None))). assert (W : wf_mat n n Mr) by now apply (WM CM dps key RM As HL MGs HD). assert (SM : sym_mat n Mr) by (apply (split_sym L dps key As SA CM r); auto; now apply (splits CM dps key RM As HL MGs HD)).
      pose proof (matvec_lin L n n Mr W) as ML. assert (MA : adj n n (matvec Mr) (matvec Mr)) by (intros x y Hx Hy; now apply (matvec_self_adjoint L n)).
      assert (E3 : forall c1 c2 c3 u, lin n n c1 -> lin n n c2 -> lin n n c3 -> length u = n -> seq_corr n Mr [c1; c2; c3] u = then_op (matvec Mr) c1 (then_op (matvec Mr) c2 c3) u).
      { intros c1 c2 c3 u L1 L2 L3 Hu. cbn [seq_corr]. unfold then_op. f_equal. f_equal. assert (LU : length (u -v matvec Mr (c1 u)) = n) by (pose proof (lin_len _ _ _ L1 u Hu); pose proof (lin_len _ _ _ ML (c1 u) H); auto with len). set (w := u -v matvec Mr (c1 u)) in *. clearbody w. assert (LW : length (w -v matvec Mr (c2 w)) = n) by (pose proof (lin_len _ _ _ L2 w LU); pose proof (lin_len _ _ _ ML (c2 w) H); auto with len). apply (vadd_zero L n). now apply (lin_len _ _ _ L3). }
      intros x y Hx Hy. unfold K_of, stages. fold n Mr. replace (nsteps - 1) with 0 by lia. cbn [repeat concat app P1 P2 map]. rewrite !E3 by (auto; now apply CL).
      pose proof (fun st back => CL st back r Hr) as CL'. pose proof (fun st => CA st r Hr) as CA'. fold n in CL', CA'.
      rewrite (adj_then L n (matvec Mr) (C LOC_PART_1 false r) (then_op (matvec Mr) (C EX_PART false r) (C LOC_PART_2 false r)) (C LOC_PART_1 true r) (then_op (matvec Mr) (C LOC_PART_2 true r) (C EX_PART true r)) ML (CL' _ _) (lin_then L n _ _ _ ML (CL' _ _) (CL' _ _)) (CL' _ _) (lin_then L n _ _ _ ML (CL' _ _) (CL' _ _)) MA (CA' _) (adj_then L n _ _ _ _ _ ML (CL' _ _) (CL' _ _) (CL' _ _) (CL' _ _) MA (CA' _) (CA' _)) x y Hx Hy).
      f_equal. apply (then_op_assoc L n); auto.
    Qed.
  End Kernels.
  Section GS.
    Variables (minv : M -> M) (mod_diag : nat -> list M) (subset : nat -> option (list bool)) (symm_loc : bool) (nsteps : nat).
    Hypothesis SA : forall r, r < np -> sym_mat (nd r) (nth r As []).
    Hypothesis HMD : forall r, r < np -> length (mod_diag r) = nd r.
    Notation Mr r := (fst (nth r MGs ([], None))).
    Definition gkres (st : stage) (back : bool) (r : nat) (x b res : vec) (xz : bool) := gs_kres dps r (Mr r) minv (mod_diag r) (subset r) symm_loc st back x res.
    Definition gkrhs (st : stage) (back : bool) (r : nat) (x b : vec) (xz : bool) := gs_krhs dps r (Mr r) minv (mod_diag r) (subset r) symm_loc st back x b.
    Definition grows (back : bool) (r : nat) : list nat := gs_all dps r (nd r) (Mr r) (subset r) symm_loc nsteps back.
    Definition gK (back : bool) (r : nat) : vec -> vec := gs_op (Mr r) (nd r) (fun k => minv (nth k (mod_diag r) m0)) (grows back r).
    Lemma Wm r : r < np -> wf_mat (nd r) (nd r) (Mr r). Proof. apply (WM CM dps key RM As HL MGs HD). Qed.
    Lemma Sm r : r < np -> sym_mat (nd r) (Mr r). Proof. intros Hr. apply (split_sym L dps key As SA CM r); auto. now apply (splits CM dps key RM As HL MGs HD). Qed.
    Lemma grows_iff back r k : r < np -> (In k (grows back r) <-> k < nd r /\ lowest dps r k /\ is_free (subset r) k = true).
    Proof.
      intros Hr. pose proof (Wm r Hr) as W. split.
      - intros H. unfold grows, gs_all in H. apply in_flat_map in H as (st & _ & H). apply (rows_stage dps r (nd r) (Mr r) (mod_diag r) (subset r) symm_loc W (HMD r Hr)) in H as (H1 & H2 & H3). split; auto. split; auto. unfold sdof in H2. apply andb_prop in H2 as (H2 & _). now apply (lowest_iff dps key RM).
      - intros (H1 & H2 & H3). apply (lowest_iff dps key RM) in H2; auto. assert (LMr : length (Mr r) = nd r) by apply W. unfold grows, gs_all. apply in_flat_map.
        assert (LI : dproc dps r k = [] -> is_free (Some (loc_dofs dps r (Mr r) (subset r))) k = true). { intros ED. unfold is_free, loc_dofs. rewrite LMr, nth_map_seq by auto. now rewrite H2, ED, H3. }
        assert (EI : dproc dps r k <> [] -> is_free (Some (ex_dofs dps r (Mr r) (subset r))) k = true). { intros ED. unfold is_free, ex_dofs. rewrite LMr, nth_map_seq by auto. rewrite H2, H3. now destruct (dproc dps r k). }
        assert (S1 : forall st, st = LOC_PART_1 \/ st = EX_PART \/ st = LOC_PART_2 -> In st (stages nsteps back)). { intros st HS. unfold stages. apply in_or_app. rewrite in_app_iff. destruct back; cbn [P1 P2 In]; intuition. }
        destruct (dproc dps r k) as [|d0 d] eqn:ED.
        + specialize (LI eq_refl). destruct symm_loc eqn:ES. { exists LOC_PART_1. split; auto. unfold gs_rows. apply in_sweep. split; auto. lia. }
          destruct (Nat.lt_ge_cases k (split_ind dps r (Mr r) (subset r))). { exists LOC_PART_1. split; auto. unfold gs_rows. apply in_sweep. split; auto. lia. } exists LOC_PART_2. split; auto. unfold gs_rows. apply in_sweep. split; auto.
        + assert (EI' := EI ltac:(discriminate)). exists EX_PART. split; auto. unfold gs_rows. destruct symm_loc; [apply in_or_app; left|]; apply in_sweep; split; auto; lia.
    Qed.
    Lemma g_kernels : stage_kernels dps (fun r => Mr r) gkres gkrhs (fun st back r => gs_C dps r (nd r) (Mr r) minv (mod_diag r) (subset r) symm_loc st back).
    Proof.
      intros st back r Hr. pose proof (Wm r Hr) as W. pose proof (Sm r Hr) as S. pose proof (HMD r Hr) as HMr. split; [|split].
      - destruct (gs_C_op L dps r (nd r) (Mr r) minv (mod_diag r) (subset r) symm_loc W HMr st back) as [C1 C2 C3]. split; auto. split.
        + intros u w Hu Hw H. apply C2; auto. intros k Hk E. apply H. now apply stage_dof_iff.
        + intros u k Hu Hk N. apply C3; auto. destruct (sdof dps st r k) eqn:E; auto. destruct N. now apply stage_dof_iff.
      - intros x b res xz Hx Hb Hres. now apply (gs_kres_ok L dps r (nd r)).
      - intros x b xz Hx Hb. now apply (gs_krhs_ok L dps r (nd r)).
    Qed.
    Lemma gK_eq back r u : r < np -> length u = nd r -> K_of dps MGs nsteps (fun st back r => gs_C dps r (nd r) (Mr r) minv (mod_diag r) (subset r) symm_loc st back) back r u = gK back r u.
    Proof.
      intros Hr Hu. unfold K_of. rewrite (seq_gs L dps r (nd r) (Mr r) minv (mod_diag r) (subset r) symm_loc (Wm r Hr)) by auto. unfold gK. apply gs_op_dext. intros k Hk. apply (grows_iff back r k Hr) in Hk as (Hk & _). unfold gdiag. rewrite HMD by auto. destruct (Nat.eqb_spec (nd r) 0); auto; lia.
    Qed.
    Lemma g_contract : hybrid_contract dps key As (SmoothImpl dps MG gkres gkrhs nsteps) gK.
    Proof. eapply contract_Kext; [|exact (kernels_contract _ _ nsteps _ g_kernels)]. intros back r u Hr Hu. cbv beta. now apply gK_eq. Qed.
    Lemma gK_len back r u : r < np -> length u = nd r -> length (gK back r u) = nd r.
    Proof. intros Hr Hu. unfold gK. apply (lin_len _ _ _ (gs_op_lin L (Mr r) (nd r) _ (grows back r) (Wm r Hr))); auto. Qed.
    Hypothesis DS : forall r k, r < np -> k < nd r -> mtr (minv (nth k (mod_diag r) m0)) = minv (nth k (mod_diag r) m0).
    Hypothesis N1 : nsteps <= 1.
    Lemma gK_adj bk1 bk2 r : r < np -> grows bk2 r = rev (grows bk1 r) -> adj (nd r) (nd r) (gK bk1 r) (gK bk2 r).
    Proof.
      intros Hr E. unfold gK. rewrite E. apply (gs_op_adj L). now apply Wm. now apply Sm. intros k Hk. apply (grows_iff bk1 r k Hr) in Hk as (Hk & _). split; auto.
    Qed.
    Lemma rev_symm back r : symm_loc = true -> grows back r = rev (grows back r).
    Proof.
      intros HS. unfold grows, gs_all, stages. replace (nsteps - 1) with 0 by lia. cbn [repeat concat app flat_map]. rewrite !app_nil_r, !rev_app_distr.
      assert (A1 : gs_rows dps r (nd r) (Mr r) (subset r) symm_loc (P1 back) back = rev (gs_rows dps r (nd r) (Mr r) (subset r) symm_loc (P2 back) back)). { unfold gs_rows. rewrite HS. destruct back; cbn [P1 P2]; now rewrite <- sweep_rev. }
      assert (A2 : gs_rows dps r (nd r) (Mr r) (subset r) symm_loc EX_PART back = rev (gs_rows dps r (nd r) (Mr r) (subset r) symm_loc EX_PART back)). { unfold gs_rows. rewrite HS. rewrite rev_app_distr. now rewrite <- !sweep_rev. }
      rewrite <- A2, A1, rev_involutive. now rewrite <- app_assoc.
    Qed.
  End GS.
End Final.

(** The residual contract, for all kernels that meet the local contract, numbers of local steps, overlap modes and flags *)
Theorem C37_hybrid_smoother : forall B, BlkLaws B -> CMon (@m0 B) madd -> forall dps key, rows_match dps dps key -> forall (As : list (@spmat B)) MGs, local_matrices dps As -> Decompose dps As = Ret MGs ->
  forall kres krhs C nsteps, stage_kernels dps (fun r => fst (nth r MGs ([], None))) kres krhs C ->
  exists K, hybrid_contract dps key As (SmoothImpl dps (fun r => nth r MGs ([], None)) kres krhs nsteps) K.
Proof. intros B L CM dps key RM As MGs HL HD kres krhs C nsteps HS. eexists. eapply (kernels_contract L CM dps key RM As HL MGs HD). exact HS. Qed.
(** Gauss-Seidel kernels on symmetric local matrices: the correction of a rank is a Gauss-Seidel pass over exactly the free dofs it is the lowest owner of *)
Theorem C37_gauss_seidel : forall B, BlkLaws B -> CMon (@m0 B) madd -> forall dps key, rows_match dps dps key -> forall (As : list (@spmat B)) MGs, local_matrices dps As -> Decompose dps As = Ret MGs ->
  (forall r, r < length dps -> sym_mat (length (nth r dps [])) (nth r As [])) ->
  forall minv mod_diag subset symm_loc nsteps, (forall r, r < length dps -> length (mod_diag r) = length (nth r dps [])) ->
  let M r := fst (nth r MGs ([], None)) in
  exists rows, (forall back r k, r < length dps -> (In k (rows back r) <-> k < length (nth r dps []) /\ lowest dps r k /\ is_free (subset r) k = true)) /\
    hybrid_contract dps key As
      (SmoothImpl dps (fun r => nth r MGs ([], None)) (fun st back r x b res xz => gs_kres dps r (M r) minv (mod_diag r) (subset r) symm_loc st back x res) (fun st back r x b xz => gs_krhs dps r (M r) minv (mod_diag r) (subset r) symm_loc st back x b) nsteps)
      (fun back r => gs_op (M r) (length (nth r dps [])) (fun k => minv (nth k (mod_diag r) m0)) (rows back r)).
Proof.
  intros B L CM dps key RM As MGs HL HD SA minv md sub sl ns HMD M. exists (grows dps MGs sub sl ns). split. { intros back r k Hr. now apply (grows_iff CM dps key RM As HL MGs HD md sub sl ns HMD). } now apply (g_contract L CM dps key RM As HL MGs HD).
Qed.
(** With at most one local step, a forward sweep from 0 with b1 and a backward one with b2, in whatever modes and with whatever flags, give <x1, b2> = <x2, b1>: for mutually adjoint kernels *)
Theorem C38_one_step : forall B, BlkLaws B -> CMon (@m0 B) madd -> forall dps key, rows_match dps dps key -> forall (As : list (@spmat B)) MGs, local_matrices dps As -> Decompose dps As = Ret MGs ->
  (forall r, r < length dps -> sym_mat (length (nth r dps [])) (nth r As [])) ->
  forall kres krhs C nsteps, stage_kernels dps (fun r => fst (nth r MGs ([], None))) kres krhs C -> nsteps <= 1 ->
  (forall st r, r < length dps -> let n := length (nth r dps []) in lin n n (C st false r) /\ lin n n (C st true r) /\ adj n n (C st false r) (C st true r)) ->
  let run := SmoothImpl dps (fun r => nth r MGs ([], None)) kres krhs nsteps in
  forall cm1 cm2 str1 str2 ru1 ru2 ur1 ur2 xz1 xz2 v1 v2 g m bg1 bg2, matching dps v1 -> matching dps v2 -> bufs (length dps) g -> bufs (length dps) m ->
    (forall r, r < length dps -> hx (v1 r) = vzero (length (nth r dps [])) /\ hx (v2 r) = vzero (length (nth r dps []))) ->
    represents dps key DISTRIBUTED (fun r => hb (v1 r)) bg1 -> represents dps key DISTRIBUTED (fun r => hb (v2 r)) bg2 ->
    (ur1 = true -> ru1 = true -> represents dps key str1 (fun r => hr (v1 r)) bg1) -> (ur2 = true -> ru2 = true -> represents dps key str2 (fun r => hr (v2 r)) bg2) ->
    always (length dps) (dcc_sends dps) (dcc_recvs dps) (run cm1 false DISTRIBUTED str1 ru1 ur1 xz1) v1 g m (fun w1 =>
    always (length dps) (dcc_sends dps) (dcc_recvs dps) (run cm2 true DISTRIBUTED str2 ru2 ur2 xz2) v2 g m (fun w2 =>
      par_dot dps (fun r => hx (w1 r)) (fun r => hb (v2 r)) = par_dot dps (fun r => hx (w2 r)) (fun r => hb (v1 r)))).
Proof.
  intros B L CM dps key RM As MGs HL HD SA kres krhs C ns HS N1 HC run. intros. apply (run_adj L dps key RM As HL run _ (kernels_contract L CM dps key RM As HL MGs HD kres krhs ns C HS)) with bg1 bg2; auto.
  - intros back r u Hr Hu. now apply (K_len CM dps key RM As HL MGs HD kres krhs ns C HS).
  - intros r Hr. apply (K_adj L CM dps key RM As HL MGs HD ns C); auto.
    + intros st back q Hq. destruct (HC st q Hq) as (A1 & A2 & _). now destruct back.
    + intros st q Hq. now destruct (HC st q Hq) as (_ & _ & A3).
Qed.
(** the same for the Gauss-Seidel kernels, if the inverses of the diagonal entries are symmetric *)
Theorem C38_gauss_seidel : forall B, BlkLaws B -> CMon (@m0 B) madd -> forall dps key, rows_match dps dps key -> forall (As : list (@spmat B)) MGs, local_matrices dps As -> Decompose dps As = Ret MGs ->
  (forall r, r < length dps -> sym_mat (length (nth r dps [])) (nth r As [])) ->
  forall minv mod_diag subset symm_loc nsteps bk1 bk2, (forall r, r < length dps -> length (mod_diag r) = length (nth r dps [])) ->
  (forall r k, r < length dps -> k < length (nth r dps []) -> mtr (minv (nth k (mod_diag r) m0)) = minv (nth k (mod_diag r) m0)) -> nsteps <= 1 ->
  bk2 = (if symm_loc : bool then bk1 else negb bk1) ->     (* symm_loc: each direction is self-adjoint *)
  let M r := fst (nth r MGs ([], None)) in
  let run := SmoothImpl dps (fun r => nth r MGs ([], None)) (fun st back r x b res xz => gs_kres dps r (M r) minv (mod_diag r) (subset r) symm_loc st back x res) (fun st back r x b xz => gs_krhs dps r (M r) minv (mod_diag r) (subset r) symm_loc st back x b) nsteps in
  forall cm1 cm2 str1 str2 ru1 ru2 ur1 ur2 xz1 xz2 v1 v2 g m bg1 bg2, matching dps v1 -> matching dps v2 -> bufs (length dps) g -> bufs (length dps) m ->
    (forall r, r < length dps -> hx (v1 r) = vzero (length (nth r dps [])) /\ hx (v2 r) = vzero (length (nth r dps []))) ->
    represents dps key DISTRIBUTED (fun r => hb (v1 r)) bg1 -> represents dps key DISTRIBUTED (fun r => hb (v2 r)) bg2 ->
    (ur1 = true -> ru1 = true -> represents dps key str1 (fun r => hr (v1 r)) bg1) -> (ur2 = true -> ru2 = true -> represents dps key str2 (fun r => hr (v2 r)) bg2) ->
    always (length dps) (dcc_sends dps) (dcc_recvs dps) (run cm1 bk1 DISTRIBUTED str1 ru1 ur1 xz1) v1 g m (fun w1 =>
    always (length dps) (dcc_sends dps) (dcc_recvs dps) (run cm2 bk2 DISTRIBUTED str2 ru2 ur2 xz2) v2 g m (fun w2 =>
      par_dot dps (fun r => hx (w1 r)) (fun r => hb (v2 r)) = par_dot dps (fun r => hx (w2 r)) (fun r => hb (v1 r)))).
Proof.
  intros B L CM dps key RM As MGs HL HD SA minv md sub sl ns bk1 bk2 HMD DS N1 EB M run. intros. apply (run_adj L dps key RM As HL run _ (g_contract L CM dps key RM As HL MGs HD minv md sub sl ns SA HMD)) with bg1 bg2; auto.
  - intros back r u Hr Hu. now apply (gK_len L CM dps key RM As HL MGs HD).
  - intros r Hr. apply (gK_adj L CM dps key RM As HL MGs HD); auto. destruct sl; rewrite EB.
    + now apply rev_symm.
    + unfold grows. destruct bk1; cbn [negb]; rewrite (gs_all_rev dps r (length (nth r dps [])) (fst (nth r MGs ([], None))) (md r)); auto. symmetry. apply rev_involutive.
Qed.

(** *** examples: two ranks; rank 0 has two dofs of its own and one it shares with rank 1, rank 1 has one of its own *)
Definition hd2 : list (list (list nat)) := [[[]; []; [1]]; [[0]; []]].
Definition hk2 (r k : nat) : nat := nth k (nth r [[0; 1; 2]; [2; 3]] []) 0.
Lemma hd2_ok : rows_match hd2 hd2 hk2.
Proof.
  constructor.
  - intros r k Hr Hk. do 2 (destruct r as [|r]; [cbn in Hk; do 3 (destruct k as [|k]; [cbn; split; [repeat constructor|split; [lia|intros q; lia]]|]); lia|]). cbn in Hr. lia.
  - intros r k k' Hr Hk Hk'. do 2 (destruct r as [|r]; [cbn in Hk, Hk'; do 3 (destruct k as [|k]; [do 3 (destruct k' as [|k']; [cbn; lia|]); lia|]); lia|]). cbn in Hr. lia.
  - intros r k q Hr Hk Hq. do 2 (destruct r as [|r]; [cbn in Hk; do 3 (destruct k as [|k]; [cbn in Hq; repeat (destruct Hq as [<-|Hq]; [first [exists 0; cbn; split; [lia|reflexivity] | exists 2; cbn; split; [lia|reflexivity]]|]); destruct Hq|]); lia|]). cbn in Hr. lia.
  - intros r k q k' Hr Hk Hq Hk'. do 2 (destruct r as [|r]; [cbn in Hk; do 3 (destruct k as [|k]; [do 2 (destruct q as [|q]; [cbn in Hk'; do 3 (destruct k' as [|k']; [cbn; try discriminate; intros _ x; unfold shares; cbn; lia|]); lia|]); cbn in Hq; lia|]); lia|]). cbn in Hr. lia.
  - intros r q i j i' j' Hr Hq Hi Hj Hi' Hj'. do 2 (destruct r as [|r]; [do 2 (destruct q as [|q]; [cbn in Hi, Hj, Hi', Hj'; do 3 (destruct i as [|i]; [do 3 (destruct i' as [|i']; [cbn; try discriminate; do 3 (destruct j as [|j]; [do 3 (destruct j' as [|j']; [cbn; lia|]); lia|]); lia|]); lia|]); lia|]); cbn in Hq; lia|]). cbn in Hr. lia.
Qed.
Definition hA2 : list (@spmat ZBlk) := [[[(0, 1%Z); (1, 2%Z)]; [(0, 2%Z); (1, 1%Z); (2, 3%Z)]; [(1, 3%Z); (2, 2%Z)]]; [[(0, -1%Z); (1, 5%Z)]; [(0, 5%Z); (1, 1%Z)]]].
Lemma hA2_ok : local_matrices hd2 hA2.
Proof. split; [reflexivity|]. intros r Hr. do 2 (destruct r as [|r]; [split; [apply wf_matb_ok; reflexivity|]; intros k; do 3 (destruct k as [|k]; [repeat constructor|]); destruct k; repeat constructor|]). cbn in Hr. lia. Qed.
Lemma hA2_sym r : r < length hd2 -> sym_mat (length (nth r hd2 [])) (nth r hA2 []).
Proof. intros Hr. do 2 (destruct r as [|r]; [sym_tac|]). cbn in Hr. lia. Qed.
Definition hMG2 : list (@spmat ZBlk * option (@spmat ZBlk)) := [([[(0, 1%Z); (1, 2%Z)]; [(0, 2%Z); (1, 1%Z); (2, 3%Z)]; [(1, 3%Z); (2, 1%Z)]], Some [[]; []; []]); ([[]; [(1, 1%Z)]], Some [[(1, 5%Z)]; [(0, 5%Z)]])].
(** the diagonal of M (all entries 1), its inverse 1 *)
Definition hmd (r : nat) : list Z := nth r [[1; 1; 1]; [1; 1]]%Z [].
Definition hrun (symm_loc : bool) (nsteps : nat) := let M r := fst (nth r hMG2 ([], None)) in
  SmoothImpl hd2 (fun r => nth r hMG2 ([], None)) (fun st back r x b res xz => gs_kres hd2 r (M r) (fun d => d) (hmd r) None symm_loc st back x res) (fun st back r x b xz => gs_krhs hd2 r (M r) (fun d => d) (hmd r) None symm_loc st back x b) nsteps.
Definition hv (x b res : nat -> list Z) (r : nat) : hvec ZBlk := mkHv ZBlk (x r) (b r) (res r) (nth r [[0; 0; 0]; [0; 0]]%Z []).
Definition hz (r : nat) : list Z := nth r [[0; 0; 0]; [0; 0]]%Z [].
Definition hbuf (_ : nat) : list (msg Z) := [[]; []].
Definition hb1 (r : nat) : list Z := nth r [[1; 0; 0]; [0; 0]]%Z [].
Definition hb2 (r : nat) : list Z := nth r [[0; 0; 1]; [0; 0]]%Z [].
Lemma hbufs : bufs (length hd2) hbuf. Proof. intros r Hr. reflexivity. Qed.
Lemma hmatch x b res : (forall r, r < 2 -> length (x r) = length (hz r)) -> (forall r, r < 2 -> length (b r) = length (hz r)) -> (forall r, r < 2 -> length (res r) = length (hz r)) -> matching hd2 (hv x b res).
Proof.
  intros A1 A2 A3 r Hr. change (length hd2) with 2 in Hr. assert (E : length (hz r) = length (nth r hd2 [])) by (do 2 (destruct r as [|r]; [reflexivity|]); lia).
  split; [|split; [|split]]. exact (eq_trans (A1 r Hr) E). exact (eq_trans (A2 r Hr) E). exact (eq_trans (A3 r Hr) E). exact E.
Qed.
Definition hglob (l : list Z) (i : nat) : Z := nth i l 0%Z.
Ltac all2 r k Hr Hk := do 2 (destruct r as [|r]; [cbn in Hk; do 3 (destruct k as [|k]; [first [lia|vm_compute; reflexivity]|]); lia|]); cbn in Hr; lia.
(** the hypotheses of the theorems are met, with a non-zero start vector *)
Definition hx1 (r : nat) : list Z := nth r [[1; 2; 3]; [3; 4]]%Z [].
Definition hbb (r : nat) : list Z := nth r [[5; 6; 7]; [8; 9]]%Z [].
Example C37_ex : rows_match hd2 hd2 hk2 /\ local_matrices hd2 hA2 /\ Decompose hd2 hA2 = Ret hMG2 /\ (forall r, r < length hd2 -> length (hmd r) = length (nth r hd2 [])) /\
  matching hd2 (hv hx1 hbb hz) /\ represents (B:=ZBlk) hd2 hk2 CUMULATED (fun r => hx (hv hx1 hbb hz r)) (hglob [1; 2; 3; 4]%Z) /\ represents (B:=ZBlk) hd2 hk2 DISTRIBUTED (fun r => hb (hv hx1 hbb hz r)) (hglob [5; 6; 15; 9]%Z) /\
  let w := lv (lockstep 2 (dcc_recvs hd2) (hrun false 1 (Thread (fun r => r) (fun r => 2 - r)) false DISTRIBUTED DISTRIBUTED false true false) (mkLst (hv hx1 hbb hz) hbuf hbuf)) in
  (hx (w 0), hx (w 1)) = ([1; 37; -11], [-11; -6])%Z /\ (hr (w 0), hr (w 1)) = ([-70; 0; -93], [38; 70])%Z.
Proof.
  split; [exact hd2_ok|]. split; [exact hA2_ok|]. split; [vm_compute; reflexivity|]. split. { intros r Hr. do 2 (destruct r as [|r]; [reflexivity|]). cbn in Hr. lia. } split. { apply hmatch; intros r Hr; do 2 (destruct r as [|r]; [reflexivity|]); lia. }
  split. { intros r k Hr Hk. all2 r k Hr Hk. } split. { intros r k Hr Hk. all2 r k Hr Hk. } split; vm_compute; reflexivity.
Qed.

(** residual updates that do not meet the contract: x = 0, b cumulated, residual asked for; and a cumulated residual. The residual that comes back stands for 37 at dof 2, but b - A x is 30 there *)
Definition hbc (r : nat) : list Z := nth r [[5; 6; 7]; [7; 9]]%Z [].
Lemma hreq k r q : r < 2 -> q < 2 -> dcc_sends hd2 k r q = dcc_recvs hd2 k q r. Proof. intros. now apply (req_match hd2 hk2 hd2_ok). Qed.
Theorem C37_cumulated_rhs_refuted :
  matching hd2 (hv hz hbc hbc) /\ represents (B:=ZBlk) hd2 hk2 CUMULATED (fun r => hb (hv hz hbc hbc r)) (hglob [5; 6; 7; 9]%Z) /\ (forall r, r < 2 -> hx (hv hz hbc hbc r) = vzero (B:=ZBlk) (length (nth r hd2 []))) /\
  (forall res_updated cm, cm = Sync \/ cm = Overlap -> always 2 (dcc_sends hd2) (dcc_recvs hd2) (hrun false 1 cm false CUMULATED CUMULATED res_updated true true) (hv hz hbc hbc) hbuf hbuf (fun w =>
     sum_of hd2 hk2 (fun r => hr (w r)) 2 = 37%Z /\ global_res hd2 hk2 hA2 (hglob [5; 6; 7; 9]%Z) (fun r => hx (w r)) 2 = 30%Z)).
Proof.
  split. { apply hmatch; intros r Hr; do 2 (destruct r as [|r]; [reflexivity|]); lia. } split. { intros r k Hr Hk. all2 r k Hr Hk. } split. { intros r Hr. do 2 (destruct r as [|r]; [reflexivity|]). lia. }
  intros ru cm HC. apply always_lock; [apply hreq|destruct ru, HC as [->| ->]; reflexivity|]. intros w Hw. split.
  - transitivity (sum_of (B:=ZBlk) hd2 hk2 (fun r => hr (lv (lockstep 2 (dcc_recvs hd2) (hrun false 1 cm false CUMULATED CUMULATED ru true true) (mkLst (hv hz hbc hbc) hbuf hbuf)) r)) 2). { apply total_ext. intros r k _ _. now rewrite Hw. } destruct ru, HC as [->| ->]; vm_compute; reflexivity.
  - transitivity (global_res (B:=ZBlk) hd2 hk2 hA2 (hglob [5; 6; 7; 9]%Z) (fun r => hx (lv (lockstep 2 (dcc_recvs hd2) (hrun false 1 cm false CUMULATED CUMULATED ru true true) (mkLst (hv hz hbc hbc) hbuf hbuf)) r)) 2). { unfold global_res. f_equal. f_equal. apply total_ext. intros r k _ _. now rewrite Hw. } destruct ru, HC as [->| ->]; vm_compute; reflexivity.
Qed.
(** two local steps: forward and backward are not adjoint; with symm_loc not even for one *)
Lemma par_dot_ext {B : Blk} dps (x y b : nat -> list (X B)) : (forall r, x r = y r) -> par_dot dps x b = par_dot dps y b.
Proof. intros H. apply ksum_ext. intros r _. now rewrite H. Qed.
Theorem C38_more_steps_refuted : rows_match hd2 hd2 hk2 /\ local_matrices hd2 hA2 /\ Decompose hd2 hA2 = Ret hMG2 /\ (forall r, r < length hd2 -> sym_mat (length (nth r hd2 [])) (nth r hA2 [])) /\ (forall r, r < length hd2 -> length (hmd r) = length (nth r hd2 [])) /\
  matching hd2 (hv hz hb2 hz) /\
  always 2 (dcc_sends hd2) (dcc_recvs hd2) (hrun false 2 Sync false DISTRIBUTED DISTRIBUTED false false true) (hv hz hb2 hz) hbuf hbuf (fun w1 =>
  always 2 (dcc_sends hd2) (dcc_recvs hd2) (hrun false 2 Sync true DISTRIBUTED DISTRIBUTED false false true) (hv hz hb2 hz) hbuf hbuf (fun w2 =>
    par_dot (B:=ZBlk) hd2 (fun r => hx (w1 r)) hb2 = 10%Z /\ par_dot (B:=ZBlk) hd2 (fun r => hx (w2 r)) hb2 = 1%Z)).
Proof.
  split; [exact hd2_ok|]. split; [exact hA2_ok|]. split; [vm_compute; reflexivity|]. split; [exact hA2_sym|]. split. { intros r Hr. do 2 (destruct r as [|r]; [reflexivity|]). cbn in Hr. lia. } split. { apply hmatch; intros r Hr; do 2 (destruct r as [|r]; [reflexivity|]); lia. }
  apply always_lock; [apply hreq|reflexivity|]. intros w1 H1. apply always_lock; [apply hreq|reflexivity|]. intros w2 H2. split.
  - erewrite par_dot_ext. 2:{ intros r. rewrite H1. reflexivity. } vm_compute. reflexivity.
  - erewrite par_dot_ext. 2:{ intros r. rewrite H2. reflexivity. } vm_compute. reflexivity.
Qed.
Theorem C38_symm_loc_refuted :
  matching hd2 (hv hz hb1 hz) /\ matching hd2 (hv hz hb2 hz) /\
  always 2 (dcc_sends hd2) (dcc_recvs hd2) (hrun true 1 Sync false DISTRIBUTED DISTRIBUTED false false true) (hv hz hb1 hz) hbuf hbuf (fun w1 =>
  always 2 (dcc_sends hd2) (dcc_recvs hd2) (hrun true 1 Sync true DISTRIBUTED DISTRIBUTED false false true) (hv hz hb2 hz) hbuf hbuf (fun w2 =>
    par_dot (B:=ZBlk) hd2 (fun r => hx (w1 r)) hb2 = 6%Z /\ par_dot (B:=ZBlk) hd2 (fun r => hx (w2 r)) hb1 = 0%Z)).
Proof.
  split. { apply hmatch; intros r Hr; do 2 (destruct r as [|r]; [reflexivity|]); lia. } split. { apply hmatch; intros r Hr; do 2 (destruct r as [|r]; [reflexivity|]); lia. }
  apply always_lock; [apply hreq|reflexivity|]. intros w1 H1. apply always_lock; [apply hreq|reflexivity|]. intros w2 H2. split.
  - erewrite par_dot_ext. 2:{ intros r. rewrite H1. reflexivity. } vm_compute. reflexivity.
  - erewrite par_dot_ext. 2:{ intros r. rewrite H2. reflexivity. } vm_compute. reflexivity.
Qed.
(** the hypotheses of C38_gauss_seidel are met by the same data with one step *)
Example C38_ex : (forall r, r < 2 -> hx (hv hz hb1 hz r) = vzero (B:=ZBlk) (length (nth r hd2 []))) /\ represents (B:=ZBlk) hd2 hk2 DISTRIBUTED (fun r => hb (hv hz hb1 hz r)) (hglob [1; 0; 0; 0]%Z) /\ represents (B:=ZBlk) hd2 hk2 DISTRIBUTED (fun r => hb (hv hz hbc hz r)) (hglob [5; 6; 14; 9]%Z) /\
  let x1 r := hx (lv (lockstep 2 (dcc_recvs hd2) (hrun false 1 Overlap false DISTRIBUTED DISTRIBUTED false true false) (mkLst (hv hz hb1 hz) hbuf hbuf)) r) in
  let x2 r := hx (lv (lockstep 2 (dcc_recvs hd2) (hrun false 1 Sync true DISTRIBUTED DISTRIBUTED false false true) (mkLst (hv hz hbc hz) hbuf hbuf)) r) in
  par_dot (B:=ZBlk) hd2 x1 hbc = (-7)%Z /\ par_dot (B:=ZBlk) hd2 x2 hb1 = (-7)%Z.
Proof. split. { intros r Hr. do 2 (destruct r as [|r]; [reflexivity|]). lia. } split. { intros r k Hr Hk. all2 r k Hr Hk. } split. { intros r k Hr Hk. all2 r k Hr Hk. } split; vm_compute; reflexivity. Qed.
Print Assumptions C37_hybrid_smoother.
Print Assumptions C37_gauss_seidel.
Print Assumptions C37_cumulated_rhs_refuted.
Print Assumptions C38_one_step.
Print Assumptions C38_gauss_seidel.
Print Assumptions C38_more_steps_refuted.
Print Assumptions C38_symm_loc_refuted.
