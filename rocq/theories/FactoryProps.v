(** Properties C50-C52 (level setup), C62 (groups of ranks), C63 (ranks agree on the hierarchy), C64 (slow coarsening). *)
From Verif Require Import Base FactoryModel FactoryProofs.
From Coq Require Import QArith Qround.
Local Open Scope nat_scope.

(** METIS returns one part number below the number of parts for each rank, QuickSortI sorts: [env_ok]; the redistribution factor is a number: [opts_ok] *)
Section Chains.
  Variables (O : options) (E : environ).
  Lemma chain_step lev meas size ls r0 : chain O lev meas size ls -> forall k a c sz r,
    nth_error (Some (meas, size, r0) :: ls) k = Some a -> nth_error ls k = Some (Some (c, sz, r)) ->
    exists m s q, a = Some (m, s, q) /\ 0 < c < m /\ min_meas O <= c /\ 0 < sz <= s /\ r < sz /\
      (enable_redist O = true -> (natQ c / natQ m < rd_crs_thresh O)%Q) /\ (S k < length ls -> max_meas O < c).
  Proof.
    intros H. revert r0. induction H as [| |lev meas size c' sz' r' ls H1 H2 H3 H4 H5 H6 H7 IH]; intros r0 k a c sz r Ha Hk.
    - destruct k; discriminate.
    - destruct k as [|[|k]]; discriminate.
    - destruct k as [|k].
      + cbn in Ha, Hk. injection Ha as <-. injection Hk as -> -> ->. exists meas, size, r0. split; [reflexivity|]. split; [exact H1|]. split; [exact H2|]. split; [exact H3|]. split; [exact H4|]. split; [exact H5|].
        intros HL. apply H6. destruct ls; [cbn in HL; lia|discriminate].
      + cbn [nth_error] in Ha, Hk. destruct (IH r' k a c sz r Ha Hk) as (m & s & q & X1 & X2 & X3 & X4 & X5 & X6 & X7). exists m, s, q. repeat (split; [now auto|]). intros HL. apply X7. cbn in HL. lia.
  Qed.
  Lemma chain_none lev meas size ls : chain O lev meas size ls -> forall k, nth_error ls k = Some None -> S k = length ls /\ enable_redist O = true.
  Proof.
    induction 1 as [| |lev meas size c' sz' r' ls H1 H2 H3 H4 H5 H6 H7 IH]; intros k Hk.
    - destruct k; discriminate.
    - destruct k as [|[|k]]; try discriminate. auto.
    - destruct k as [|k]; [discriminate|]. cbn in Hk |- *. destruct (IH k Hk). split; auto.
  Qed.
  Lemma chain_len lev meas size ls : chain O lev meas size ls -> length ls <= meas + (if enable_redist O then 1 else 0).
  Proof.
    induction 1 as [| lev meas size R|lev meas size c' sz' r' ls H1 H2 H3 H4 H5 H6 H7 IH]; cbn; try lia. rewrite R. lia.
  Qed.
  Lemma chain_max lev meas size ls : chain O lev meas size ls -> lev + 2 <= max_n_levels O -> lev + 1 + length ls <= max_n_levels O.
  Proof.
    induction 1 as [| |lev meas size c' sz' r' ls H1 H2 H3 H4 H5 H6 H7 IH]; cbn [length]; intros HM; try lia.
    destruct ls as [|x ls]; [cbn; lia|]. destruct (H6 ltac:(discriminate)). specialize (IH ltac:(lia)). lia.
  Qed.
  Lemma stops_last lev meas ls r0 size : stops O E lev meas ls -> forall k m sz r, nth_error (Some (meas, size, r0) :: ls) k = Some (Some (m, sz, r)) -> k = length ls ->
    (0 < k /\ (m <= max_meas O \/ lev + k + 1 = max_n_levels O)) \/ stuck O E (lev + k) m.
  Proof.
    intros H. revert r0 size. induction H as [lev meas H|lev meas|lev meas c sz' r' H|lev meas c sz' r' H|lev meas c sz' r' ls H IH]; intros r0 size k m sz r Hk Hl; cbn in Hl; subst k.
    - injection Hk as <- <- <-. right. now rewrite Nat.add_0_r.
    - discriminate.
    - injection Hk as <- <- <-. left. split; [lia|auto].
    - injection Hk as <- <- <-. left. split; [lia|]. right. lia.
    - cbn [nth_error] in Hk. destruct (IH r' sz' _ _ _ _ Hk eq_refl) as [(X1 & X2)|X].
      + left. split; [lia|]. destruct X2; auto. right. lia.
      + right. now rewrite Nat.add_succ_r, <- Nat.add_succ_l, <- (Nat.add_1_r lev).
  Qed.
End Chains.

(** *** C50: the setup ends after at most [meas] levels (one more may be listed on a rank that drops out); every level but the last is larger than the next, by the demanded factor *)
Theorem C50_setup_terminates : forall O E idle, env_ok E -> opts_ok O -> (forall l, e_free E l = false) ->
  forall meas size rank fuel, rank < size -> meas < fuel ->
  exists levels, SetUpLevels fuel O E idle meas size rank = Ret (levels, length levels - 1) /\
    0 < length levels <= S (S meas) /\ (enable_redist O = false -> length levels <= S meas) /\ nth_error levels 0 = Some (Some (meas, size, rank)) /\
    (* two consecutive levels *)
    (forall k a c sz r, nth_error levels k = Some a -> nth_error levels (S k) = Some (Some (c, sz, r)) ->
       exists m s q, a = Some (m, s, q) /\ 0 < c < m /\ min_meas O <= c /\ 0 < sz <= s /\ r < sz /\ (enable_redist O = true -> (natQ c / natQ m < rd_crs_thresh O)%Q) /\
                     (S (S k) < length levels -> max_meas O < c)) /\
    (* only the last level can be one in which the rank does not take part *)
    (forall k, nth_error levels k = Some None -> S k = length levels) /\
    (* why there is no further level *)
    (forall k m sz r, nth_error levels k = Some (Some (m, sz, r)) -> S k = length levels -> (0 < k /\ (m <= max_meas O \/ k + 1 = max_n_levels O)) \/ stuck O E k m).
Proof.
  intros O E idle HE HO HF meas size rank fuel Hr Hf. unfold SetUpLevels.
  destruct (RSU_ok O E idle HE HO HF fuel 0 meas size rank (mkState false false meas) Hf Hr) as (ls & El & Cl & Sl & Nl). rewrite El. cbn [bind fst snd].
  exists (Some (meas, size, rank) :: ls). split; [cbn; now rewrite Nat.sub_0_r|]. pose proof (chain_len O _ _ _ _ Cl) as LL. split; [cbn; destruct (enable_redist O); lia|].
  split; [intros R; rewrite R in LL; cbn; lia|]. split; [reflexivity|]. split; [|split].
  - intros k a c sz r Ha Hk. cbn [nth_error] in Hk. destruct (chain_step O 0 meas size ls rank Cl k a c sz r Ha Hk) as (m & s & q & X1 & X2 & X3 & X4 & X5 & X6 & X7).
    exists m, s, q. repeat (split; [now auto|]). intros HL. apply X7. cbn in HL. lia.
  - intros k Hk. destruct k as [|k]; [discriminate|]. cbn in Hk |- *. f_equal. now apply (chain_none O 0 meas size ls Cl k).
  - intros k m sz r Hk Hl. cbn in Hl. injection Hl as Hl. destruct (stops_last O E 0 meas ls rank size Sl k m sz r Hk Hl) as [(X1 & X2)|X]; auto.
Qed.
Print Assumptions C50_setup_terminates.
(** not vacuous: three ranks, two redistributions *)
Definition exO : options := mkOpts 10 0 5 true false (5 # 100) (25 # 1000) 1 (9 # 10) (5 # 10) (1 # 4) 500 500 100 (8 # 10).
Fixpoint insert_key (a : list nat) (i : nat) (l : list nat) : list nat := match l with [] => [i] | j :: l => if nth i a 0 <=? nth j a 0 then i :: j :: l else j :: insert_key a i l end.
Definition isort (a : list nat) : list nat := fold_right (insert_key a) [] (seq 0 (length a)).
Definition exE : environ := mkEnv (fun _ => 0) (fun l => nth l [Some 300; Some 120; Some 60; Some 40] None) (fun _ => false) (fun _ => Some (3 # 10)) (fun _ => 2)
  (fun _ p m => map (fun r => (p - 1 - r) mod m) (seq 0 p)) isort.
Lemma insert_perm a i l : Permutation (insert_key a i l) (i :: l).
Proof. induction l as [|j l IH]; cbn; auto. destruct (_ <=? _); auto. rewrite IH. apply perm_swap. Qed.
Lemma insert_sorted a i l : StronglySorted (fun i j => nth i a 0 <= nth j a 0) l -> StronglySorted (fun i j => nth i a 0 <= nth j a 0) (insert_key a i l).
Proof.
  induction 1 as [|j l H IH HF]; cbn. repeat constructor. destruct (Nat.leb_spec (nth i a 0) (nth j a 0)) as [L|L].
  - constructor. now constructor. constructor; auto. eapply Forall_impl; [|exact HF]. cbn. lia.
  - constructor; auto. apply Forall_forall. intros x Hx. apply (Permutation_in _ (insert_perm a i l)) in Hx. destruct Hx as [<-|Hx]; [lia|]. rewrite Forall_forall in HF. now apply HF.
Qed.
Lemma isort_ok : sort_ok isort.
Proof.
  intros a. unfold isort. assert (G : forall l, Permutation (fold_right (insert_key a) [] l) l /\ StronglySorted (fun i j => nth i a 0 <= nth j a 0) (fold_right (insert_key a) [] l)).
  { induction l as [|i l (IH1 & IH2)]; cbn. split; auto. constructor. split; [rewrite insert_perm; now constructor|now apply insert_sorted]. }
  destruct (G (seq 0 (length a))) as (G1 & G2). split; auto. intros i j (Hij & Hj). set (b := fold_right _ _ _) in *. assert (LB : length b = length a) by (rewrite (Permutation_length G1); apply seq_length). rewrite <- LB in Hj.
  clear G1 LB. clearbody b. revert i j Hij Hj. induction G2 as [|x b H IH HF]; intros i j Hij Hj; [cbn in Hj; lia|]. destruct i as [|i], j as [|j]; cbn in *; try lia.
  - rewrite Forall_forall in HF. apply HF, nth_In. lia.
  - apply IH; lia.
Qed.
Lemma exE_ok : env_ok exE.
Proof.
  split. apply isort_ok. intros lev p m Hp Hm. split; cbn. now rewrite map_length, seq_length. intros r Hr.
  rewrite nth_indep with (d' := (fun r => (p - 1 - r) mod m) 0) by (now rewrite map_length, seq_length). rewrite (map_nth (fun r => (p - 1 - r) mod m)). apply Nat.mod_upper_bound. lia.
Qed.
Example C50_ex : SetUpLevels 600 exO exE false 500 8 0 = Ret ([Some (500, 8, 0); Some (300, 2, 0); Some (120, 2, 0); Some (60, 1, 0); Some (40, 1, 0)], 4)
  /\ SetUpLevels 600 exO exE false 500 8 1 = Ret ([Some (500, 8, 1); Some (300, 2, 1); Some (120, 2, 1); None], 3)
  /\ SetUpLevels 600 exO exE false 500 8 5 = Ret ([Some (500, 8, 5); None], 1).
Proof. vm_compute. auto. Qed.
Example C50_ex_hyps : env_ok exE /\ opts_ok exO /\ (forall l, e_free exE l = false).
Proof. split; [apply exE_ok|]. split; [|reflexivity]. left. cbn. lia. Qed.

(** *** C51: the number of levels *)
Theorem C51_max_levels_partial : forall O E idle, env_ok E -> opts_ok O -> (forall l, e_free E l = false) -> 2 <= max_n_levels O ->
  forall meas size rank fuel, rank < size -> meas < fuel ->
  exists levels, SetUpLevels fuel O E idle meas size rank = Ret (levels, length levels - 1) /\ length levels <= max_n_levels O.
Proof.
  intros O E idle HE HO HF HM meas size rank fuel Hr Hf. unfold SetUpLevels.
  destruct (RSU_ok O E idle HE HO HF fuel 0 meas size rank (mkState false false meas) Hf Hr) as (ls & El & Cl & Sl & Nl). rewrite El. cbn [bind fst snd].
  exists (Some (meas, size, rank) :: ls). split; [cbn; now rewrite Nat.sub_0_r|]. cbn [length]. apply (chain_max O _ _ _ _ Cl). cbn. exact HM.
Qed.
Print Assumptions C51_max_levels_partial.
(** the option values 0 and 1 do not limit anything: there are coarsenings with any number of levels *)
Definition opts_max (mx : nat) : options := mkOpts mx 0 0 false false (5 # 100) (25 # 1000) 1 (9 # 10) (5 # 10) (1 # 4) 500 500 100 (8 # 10).
Definition env_slow (n : nat) : environ := mkEnv (fun _ => 0) (fun l => Some (n - 1 - l)) (fun _ => false) (fun _ => None) (fun _ => 0) (fun _ p _ => repeat 0 p) isort.
Lemma env_slow_ok n : env_ok (env_slow n).
Proof. split. apply isort_ok. intros lev p m Hp Hm. split; cbn. apply repeat_length. intros r Hr. now rewrite nth_repeat. Qed.
Lemma slow_RSU mx n : mx <= 1 -> forall fuel lev m s size r, m < fuel -> lev + m = n -> 0 < m ->
  exists ls, RSU fuel (opts_max mx) (env_slow n) false lev m size r s = Ret (ls, m - 1) /\ length ls = m - 1.
Proof.
  intros HX. induction fuel as [|fuel IH]; intros lev m s size r Hf Hn Hm; [lia|]. cbn [RSU]. unfold TryCoarseStep. cbn [e_coarse env_slow enable_redist opts_max negb orb]. replace (n - 1 - lev) with (m - 1) by lia.
  destruct (Nat.ltb_spec (m - 1) m); [|lia]. cbn [andb bind]. change (min_meas (opts_max mx)) with 0. change (max_meas (opts_max mx)) with 0. change (max_n_levels (opts_max mx)) with mx. destruct (Nat.eqb_spec (m - 1) 0) as [Z|Z]; cbn [orb].
  { exists []. replace (m - 1) with 0. auto. }
  destruct (Nat.ltb_spec (m - 1) 0); [lia|]. destruct (Nat.eqb_spec (m - 1) m); [lia|]. destruct (Nat.eqb_spec (lev + 2) mx); [lia|]. destruct (Nat.leb_spec (m - 1) 0); [lia|]. cbn [orb].
  match goal with |- context [RSU fuel _ _ _ _ _ _ _ ?s0] => destruct (IH (lev + 1) (m - 1) s0 size r ltac:(lia) ltac:(lia) ltac:(lia)) as (ls & El & Ll) end. rewrite El. cbn [bind fst snd].
  exists (Some (m - 1, size, r) :: ls). split; [apply f_equal, f_equal; lia|cbn; lia].
Qed.
Theorem C51_one_level_refuted : forall mx n, mx <= 1 -> 0 < n -> exists O E, max_n_levels O = mx /\ env_ok E /\ opts_ok O /\ (forall l, e_free E l = false) /\
  forall size rank fuel, n < fuel -> exists levels, SetUpLevels fuel O E false n size rank = Ret (levels, n - 1) /\ length levels = n.
Proof.
  intros mx n HX Hn. exists (opts_max mx), (env_slow n). split; [reflexivity|]. split; [apply env_slow_ok|]. split; [left; cbn; lia|]. split; [reflexivity|].
  intros size rank fuel Hf. unfold SetUpLevels. destruct (slow_RSU mx n HX fuel 0 n (mkState false false n) size rank Hf eq_refl Hn) as (ls & El & Ll). rewrite El. cbn [bind fst snd].
  eexists. split; [reflexivity|]. cbn. lia.
Qed.
Print Assumptions C51_one_level_refuted.

(** *** C52: the redistribution factor, and what it leads to *)
Lemma loc_fac_pos NP NF F g : (0 < loc_fac NP NF F g)%Q.
Proof. unfold loc_fac. repeat match goal with |- context [if ?b then _ else _] => destruct b end; reflexivity. Qed.
Lemma qmin2_pos a b : (0 < a)%Q -> (0 < b)%Q -> (0 < qmin2 a b)%Q.
Proof. unfold qmin2. destruct (Qltb a b); auto. Qed.
Lemma natQ_pos n : 0 < n -> (0 < natQ n)%Q.
Proof. intros H. unfold natQ, Qlt. cbn. lia. Qed.
Theorem C52_factor_range : forall O size (idle : bool) meas lf nf, 0 < rd_min_nv_gl O \/ 0 < rd_seq_nv O ->
  exists f, FindRDFac O size idle meas lf nf = Some f /\
    (size <= (if idle then 2 else 1) -> f = 1%Q) /\
    ((if idle then 2 else 1) < size -> meas < rd_seq_nv O -> f = (-1 # 1)%Q) /\
    ((if idle then 2 else 1) < size -> rd_seq_nv O <= meas -> (f <= 1 # 2)%Q /\ (0 < meas -> (0 < rd_pfac O)%Q -> (0 < f)%Q)).
Proof.
  intros O size idle meas lf nf HO. destruct (rdfac_some O size idle meas lf nf HO) as (f & Ef). exists f. split; auto. split; [|split].
  - intros H. rewrite rdfac_seq in Ef by auto. congruence.
  - intros H H'. rewrite rdfac_small in Ef by auto. congruence.
  - intros H H'. split; [now apply (rdfac_half O size idle meas lf nf)|]. intros Hm Hp. revert Ef. unfold FindRDFac. destruct (Nat.leb_spec size (if idle then 2 else 1)); [lia|].
    destruct (Nat.ltb_spec meas (rd_seq_nv O)); [lia|]. cbv zeta. destruct (Nat.eqb_spec meas 0); [lia|].
    assert (P : forall b, (0 < b)%Q -> match (match lf with Some F => if Qltb F (rd_loc_thresh O) then Some (qmin2 b (loc_fac size nf F (rd_loc_gl O))) else Some b | None => Some b end) with
       Some b => Some (qmin2 (1 # 2) b) | None => None end = Some f -> (0 < f)%Q).
    { intros b Hb. destruct lf as [F|]; [destruct (Qltb F (rd_loc_thresh O))|]; intros [= <-]; repeat apply qmin2_pos; auto using loc_fac_pos; reflexivity. }
    destruct (Nat.eqb_spec (rd_min_nv_gl O) 0); [now apply P|]. apply P. apply qmin2_pos; auto. unfold Qdiv.
    repeat apply Qmult_lt_0_compat; try apply Qinv_lt_0_compat; apply natQ_pos; lia.
Qed.
Print Assumptions C52_factor_range.
Example C52_ex_factor : exists f, FindRDFac exO 8 false 1000 (Some (3 # 10)%Q) 12 = Some f /\ (f == 1 # 4)%Q.
Proof. eexists. split. vm_compute. reflexivity. reflexivity. Qed.
(** a redistribution of more than two ranks uses fewer ranks; of a small mesh, a single rank (that is not idle) *)
Theorem C52_fewer_ranks_partial : forall O E (idle : bool), env_ok E -> opts_ok O -> (forall l, e_free E l = false) ->
  forall lev c size rank s s' size' r', rank < size -> TryContractStep O E idle lev c size rank s = Ret (Some (s', size', r')) ->
  enable_redist O = true /\ (if idle then 2 else 1) < size /\ 0 < size' <= size /\ (2 < size -> size' < size) /\ (c < rd_seq_nv O -> size' <= (if idle then 2 else 1)).
Proof.
  intros O E idle HE HO HF lev c size rank s s' size' r' Hr Ht. destruct (contract_all O E idle HE HO HF lev c size s) as [H|(X1 & X2 & groups & G & L & L2 & L3 & _ & _ & H)].
  - rewrite H in Ht. discriminate.
  - destruct (H rank Hr) as (o & Eo & Ht'). rewrite Ht' in Ht. injection Ht as <- <- <-. auto.
Qed.
Print Assumptions C52_fewer_ranks_partial.
(** two ranks: unless the mesh is small enough for one rank, "redistribution" builds two groups of one rank each: nothing is redistributed, although it was asked for *)
Theorem C52_two_ranks_refuted : forall O E, env_ok E -> opts_ok O -> (forall l, e_free E l = false) -> (forall lev, e_part E lev 2 2 = [0; 1]) -> enable_redist O = true -> (0 < rd_pfac O)%Q ->
  forall lev c s rank, rank < 2 -> 0 < c -> rd_seq_nv O <= c -> st_need_rd s = true ->
  TryContractStep O E false lev c 2 rank s = Ret (Some (mkState false true c, 2, Some rank)).
Proof.
  intros O E (HS & HE) HO HF HP HR Hpf lev c s rank Hr H0 Hc HN. unfold TryContractStep. rewrite HR, HN. cbn [negb orb Nat.ltb Nat.leb andb]. cbv zeta. cbn [negb].
  destruct (C52_factor_range O 2 false c (e_locfrac E lev) (e_nf E lev) HO) as (f & Ef & _ & _ & Hf). cbn in Hf. destruct (Hf ltac:(lia) Hc) as (Hf1 & Hf2). specialize (Hf2 H0 Hpf). rewrite Ef.
  destruct (n_groups 2 false (Some f)) as [n|] eqn:En; [|discriminate]. destruct (n_groups_ok 2 false f n) as (N1 & N2 & N3 & N4); auto.
  assert (Hn : n = 2). { assert (2 <= n); [|destruct (N2 eq_refl); lia]. apply N4. intros Q. rewrite Q in Hf2. discriminate. }
  subst n. cbn [bind]. rewrite HP.
  destruct (HS [0; 1]) as (P1 & P2). cbn in P1.
  assert (SS : e_sort E [0; 1] = [0; 1]).
  { assert (L : length (e_sort E [0; 1]) = 2) by now rewrite (Permutation_length P1). specialize (P2 0 1 ltac:(cbn; lia)). destruct (e_sort E [0; 1]) as [|x [|y [|? ?]]]; cbn in L; try lia.
    assert (Hx : In x [0; 1]) by (apply (Permutation_in _ P1); now left). assert (Hy : In y [0; 1]) by (apply (Permutation_in _ P1); right; now left).
    pose proof (Permutation_NoDup (Permutation_sym P1) ltac:(repeat constructor; cbn; intuition lia)) as ND. inversion ND as [|? ? N ?]. subst. cbn in Hx, Hy, N, P2.
    destruct Hx as [<-|[<-|[]]], Hy as [<-|[<-|[]]]; cbn in *; auto; try lia; exfalso; auto. }
  assert (PP : PartitionProcs 2 2 false [0; 1] (e_sort E) = Ret [[0]; [1]]).
  { unfold PartitionProcs. cbn [Nat.eqb orb andb]. change (min_ranks 2 2 0 [0; 1]) with (@Ret (list nat) [0; 1]). cbn [bind]. cbv zeta. rewrite SS. reflexivity. }
  rewrite PP. cbn [bind]. destruct rank as [|[|]]; [| |lia]; cbn; now rewrite HF.
Qed.
Print Assumptions C52_two_ranks_refuted.
(** with both thresholds 0, the factor of an empty mesh is 0/0, and the number of groups is that, converted to an integer *)
Theorem C52_nan_refuted : forall O, rd_min_nv_gl O = 0 -> rd_seq_nv O = 0 -> enable_redist O = true ->
  forall E (idle : bool) lev size rank s, (if idle then 2 else 1) < size -> e_locfrac E lev = None -> st_need_rd s = true -> TryContractStep O E idle lev 0 size rank s = Err Uninit.
Proof.
  intros O H1 H2 H3 E idle lev size rank s Hs HL HN. unfold TryContractStep. rewrite H3, HN, HL. destruct (Nat.ltb_spec (if idle then 2 else 1) size); [|lia]. cbn [negb orb andb].
  unfold FindRDFac. destruct (Nat.leb_spec size (if idle then 2 else 1)); [lia|]. rewrite H1, H2. reflexivity.
Qed.
Print Assumptions C52_nan_refuted.

(** *** C62: redistribution groups *)
(** the groups are disjoint, cover all ranks, none is empty; there are at most as many as wanted, rank 0 is the first rank of the first one, and with an idle rank 0 it is alone;
    exactly one rank of every group survives - its smallest - and becomes, in the new communicator, the rank of the group's number *)
Theorem C62_groups : forall p nparts sep part sort, sort_ok sort -> 0 < p -> 0 < nparts -> (sep = true -> 1 < p /\ 1 < nparts) -> part_ok p (if sep then nparts - 1 else nparts) part ->
  exists groups, PartitionProcs p nparts sep part sort = Ret groups /\ Permutation (concat groups) (seq 0 p) /\ ~ In [] groups /\ length groups <= nparts /\
    nth 0 (nth 0 groups []) 1 = 0 /\ (sep = true -> nth 0 groups [] = [0]) /\
    (forall r, r < p -> exists g, g < length groups /\ In r (nth g groups []) /\
       contract_rank p r groups = Ret (if forallb (fun x => r <=? x) (nth g groups []) then Some g else None)) /\
    (forall g, g < length groups -> exists r, r < p /\ contract_rank p r groups = Ret (Some g) /\ forall r', r' < p -> contract_rank p r' groups = Ret (Some g) -> r' = r).
Proof.
  intros p nparts sep part sort HS Hp Hn Hi HP. destruct (partition_ok p nparts sep part sort HS Hp Hn Hi HP) as (groups & Eg & G & Lg & Z & I). exists groups. split; auto.
  pose proof G as (G1 & G2 & G3). split; auto. split; [intros X; now destruct (G2 [] X)|]. split; auto. split; auto. split; auto. split.
  - intros r Hr. destruct (gg_find p groups G r Hr) as (g & Hg & Ig). exists g. split; auto. split; auto. rewrite (contract_rank_ok p groups G r g Hg Ig). f_equal.
    destruct (G2 (nth g groups []) (nth_In _ _ Hg)) as (NE & SS). set (row := nth g groups []) in *. destruct row as [|h row]; [now elim NE|]. cbn [hd]. inversion SS as [|? ? _ HF]; subst.
    rewrite Forall_forall in HF. destruct (Nat.eqb_spec h r) as [->|NEQ].
    + replace (forallb (fun x => r <=? x) (r :: row)) with true; auto. symmetry. apply forallb_forall. intros x [<-|Hx]; apply Nat.leb_le; auto. specialize (HF x Hx). lia.
    + cbn [forallb]. destruct Ig as [->|Ig]; [easy|]. specialize (HF r Ig). destruct (Nat.leb_spec r h); [lia|]. reflexivity.
  - intros g Hg. apply (contract_bij p groups G g Hg).
Qed.
Print Assumptions C62_groups.
Example C62_ex : PartitionProcs 7 3 false [2; 0; 2; 1; 0; 0; 1] isort = Ret [[0; 2]; [1; 4; 5]; [3; 6]]
  /\ map (fun r => contract_rank 7 r [[0; 2]; [1; 4; 5]; [3; 6]]) (seq 0 7) = [Ret (Some 0); Ret (Some 1); Ret None; Ret (Some 2); Ret None; Ret None; Ret None].
Proof. vm_compute. auto. Qed.
Example C62_ex_idle : PartitionProcs 5 3 true [7; 1; 1; 0; 1] isort = Ret [[0]; [1; 2; 4]; [3]].
Proof. reflexivity. Qed.

(** *** C63: all ranks build the same hierarchy *)
Lemma follows_firstn l l0 : follows l l0 -> forall k, nth_error l k = Some None \/ (exists c sz r r0, nth_error l k = Some (Some (c, sz, r)) /\ nth_error l0 k = Some (Some (c, sz, r0))) \/ nth_error l k = None.
Proof.
  induction 1 as [|x ls0|c sz r r0 ls ls0 H IH]; intros [|k]; cbn; auto. destruct k; auto. right; left. exists c, sz, r, r0. auto.
Qed.
Lemma follows_len l l0 : follows l l0 -> ~ In None l -> length l = length l0.
Proof. induction 1 as [|x ls0|c sz r r0 ls ls0 H IH]; intros N; auto. elim N. now left. cbn. f_equal. apply IH. intros X. apply N. now right. Qed.
Lemma follows_le l l0 : follows l l0 -> length l <= length l0.
Proof. induction 1; cbn; lia. Qed.
Theorem C63_ranks_agree : forall O E idle, env_ok E -> opts_ok O -> (forall l, e_free E l = false) ->
  forall meas size rank fuel, rank < size -> meas < fuel ->
  exists levels levels0, SetUpLevels fuel O E idle meas size rank = Ret (levels, length levels - 1) /\ SetUpLevels fuel O E idle meas size 0 = Ret (levels0, length levels0 - 1) /\
    (* rank 0 takes part in all levels *)
    ~ In None levels0 /\
    (* on every level in which the other rank takes part, it sees the measure and the number of ranks that rank 0 sees *)
    (forall k c sz r, nth_error levels k = Some (Some (c, sz, r)) -> exists r0, nth_error levels0 k = Some (Some (c, sz, r0))) /\
    (* it has all of rank 0's levels, unless it dropped out *)
    length levels <= length levels0 /\ (~ In None levels -> length levels = length levels0).
Proof.
  intros O E idle HE HO HF meas size rank fuel Hr Hf. unfold SetUpLevels.
  destruct (RSU_follows O E idle HE HO HF fuel 0 meas size rank (mkState false false meas) Hf Hr) as (ls & ls0 & E1 & E2 & F).
  destruct (RSU_ok O E idle HE HO HF fuel 0 meas size 0 (mkState false false meas) Hf ltac:(lia)) as (ls0' & E0 & _ & _ & Nl). rewrite E0 in E2. injection E2 as <- _.
  rewrite E1, E0. cbn [bind fst snd]. exists (Some (meas, size, rank) :: ls), (Some (meas, size, 0) :: ls0'). split; [cbn; now rewrite Nat.sub_0_r|]. split; [cbn; now rewrite Nat.sub_0_r|].
  split. { intros [X|X]; [discriminate|]. now apply Nl. }
  split. { intros [|k] c sz r Hk; cbn in Hk. injection Hk as <- <- <-. exists 0. reflexivity. destruct (follows_firstn _ _ F k) as [X|[(c' & sz' & r' & r0 & X & Y)|X]]; try congruence.
    rewrite X in Hk. injection Hk as -> -> ->. exists r0. exact Y. }
  split. { pose proof (follows_le _ _ F). cbn. lia. } intros N. cbn. f_equal. apply (follows_len _ _ F). intros X. apply N. now right.
Qed.
Print Assumptions C63_ranks_agree.
(** see C50_ex for three ranks of a setup with two redistributions *)

(** *** C64: what happens when coarsening misses its goal *)
(** accepted coarse step, coarse measure above the goal, and there is something to redistribute: the ranks are regrouped on this level *)
Theorem C64_goal_missed_partial : forall O E (idle : bool), env_ok E -> opts_ok O -> (forall l, e_free E l = false) -> enable_redist O = true ->
  forall lev meas size c s, TryCoarseStep O E lev meas = Some c -> (if idle then 2 else 1) < size -> st_need_rd s || (e_goal E lev <? c) = true ->
  exists groups, good_groups size groups /\ (2 < size -> length groups < size) /\
  forall rank fuel, rank < size -> exists o, contract_rank size rank groups = Ret o /\
    RSU (S fuel) O E idle lev meas size rank s =
      if (c =? 0) || (c <? min_meas O) then Ret ([], 0)
      else match o with
           | None => Ret ([None], 1)
           | Some r' => if (lev + 2 =? max_n_levels O) || (c <=? max_meas O) then Ret ([Some (c, length groups, r')], 1)
                        else ' p <- RSU fuel O E idle (lev + 1) c (length groups) r' (mkState false true c) ;; Ret (Some (c, length groups, r') :: fst p, S (snd p))
           end.
Proof.
  intros O E idle HE HO HF HR lev meas size c s Ht Hs Hn. destruct (coarse_some O E idle lev meas c Ht) as (_ & Hc & _).
  set (s0 := if lev =? 0 then mkState (st_need_rd s) (st_first_used s) meas else s).
  set (mf := if meas =? 0 then 0%Q else (natQ c / natQ meas)%Q).
  set (s1 := mkState (st_need_rd s0 || (e_goal E lev <? c) || Qltb (rd_crs_thresh O) mf) (st_first_used s0) (st_last s0)).
  assert (W : st_need_rd s1 = true). { unfold s1. cbn [st_need_rd]. assert (st_need_rd s0 = st_need_rd s) as -> by (unfold s0; now destruct (lev =? 0)). now rewrite Hn. }
  destruct (contract_all O E idle HE HO HF lev c size s1) as [H|(X1 & X2 & groups & G & L & L2 & L3 & _ & _ & H)].
  - exfalso. specialize (H 0). unfold TryContractStep in H. rewrite HR, W in H. destruct (Nat.ltb_spec (if idle then 2 else 1) size); [|lia]. cbn [negb orb andb] in H. cbv zeta in H. cbn [negb] in H.
    revert H. destruct (n_groups _ _ _); cbn [bind]; [|discriminate]. destruct (PartitionProcs _ _ _ _ _); cbn [bind]; [|discriminate]. destruct (contract_rank _ _ _); cbn [bind]; [|discriminate]. rewrite HF. discriminate.
  - exists groups. split; auto. split; auto. intros rank fuel Hr. destruct (H rank Hr) as (o & Eo & Ht'). exists o. split; auto. cbn [RSU]. fold s0. rewrite Ht. cbv zeta. fold mf. fold s1. rewrite HR, Ht'. cbn [bind].
    destruct (Nat.eqb_spec c meas); [lia|]. now rewrite Bool.orb_false_r.
Qed.
Print Assumptions C64_goal_missed_partial.
Example C64_ex : TryCoarseStep exO exE 0 500 = Some 300 /\ 1 < 8 /\ (e_goal exE 0 <? 300) = true.
Proof. split; [reflexivity|]. split; [lia|reflexivity]. Qed.
(** slow coarsening does not trigger a redistribution: the coarse mesh is thrown away and the setup ends at this level, however many ranks there are *)
Theorem C64_slow_coarsening_refuted : forall O E idle lev meas size rank s c fuel, enable_redist O = true -> 0 < meas -> e_coarse E lev = Some c -> (rd_crs_thresh O <= natQ c / natQ meas)%Q ->
  RSU (S fuel) O E idle lev meas size rank s = Ret ([], 0).
Proof.
  intros O E idle lev meas size rank s c fuel HR Hm Hc Hq. cbn [RSU]. assert (TryCoarseStep O E lev meas = None) as ->; [|reflexivity].
  unfold TryCoarseStep. rewrite Hc, HR. destruct (Nat.eqb_spec meas 0); [lia|]. apply Qltb_ge in Hq. rewrite Hq. cbn [negb orb]. now rewrite Bool.andb_false_r.
Qed.
Print Assumptions C64_slow_coarsening_refuted.
