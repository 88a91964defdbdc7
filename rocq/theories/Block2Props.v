(** Property C23: the block smoother with precomputed block rows (BSmoother2). *)
From Verif Require Import Base AGroup LinAlg LinTools GSSpec GSModel GSProofs GSProofs2 Shm BlockModel BlockProofs BlockProofs2 Instances GSProps BlockProps Block2Model Block2Proofs Block2Proofs2.
From Coq Require Import Permutation ZArith.
Open Scope nat_scope.

(** symmetric matrix; no dof twice in one block *)
Definition block2_input {B : Blk} (n : nat) (A : @spmat B) (groups : list (list (list nat))) : Prop :=
  wf_mat n n A /\ sym_mat n A /\ forall bl, In bl (concat groups) -> NoDup bl /\ forall i, In i bl -> i < n.
(** every dof lies in some block *)
Definition covers (n : nat) (groups : list (list (list nat))) : Prop := forall i, i < n -> exists bl, In bl (concat groups) /\ In i bl.
(** in how many blocks a dof lies *)
Definition times_in (groups : list (list (list nat))) (i : nat) : nat := length (filter (existsb (Nat.eqb i)) (concat groups)).

Section Common.
  Context {B : Blk} (L : BlkLaws B).
  Local Notation vec := (list (X B)).
  (** what both set-ups give: a valid smoother whose corrections are those of the reference smoother *)
  Record same_as (n : nat) (A : @spmat B) (minv : @dense B -> @dense B) (md : list (M B)) (blocks : list (list nat)) (S : BS2 B) : Prop := mkSame {
    sa_len : length (s2_blocks S) = length blocks;
    sa_sum : list_sum (s2_groups S) = length blocks;
    sa_blk : forall k, k < length blocks -> b2_dofs (b2_at S k) = sort_nat (nth k blocks []) /\
         b2_inv (b2_at S k) = minv (diag_block A md (sort_nat (nth k blocks []))) /\ b2_diag (b2_at S k) = diag_block A [] (sort_nat (nth k blocks [])) }.
  Lemma ref_order (S : BSmoother B) back : bs_parallel S = false ->
    bs_order S back = (if back then @rev nat else fun l => l) (seq 0 (length (bs_blocks S))).
  Proof.
    intros E. unfold bs_order, bs_phases. rewrite E.
    assert (G : forall (f : nat -> nat) l, concat (map (fun k => [f k]) l) = map f l) by (induction l; simpl; congruence).
    rewrite G. destruct back.
    - set (m := length (bs_blocks S)). rewrite <- (map_nth_seq' (rev (seq 0 m)) 0), rev_length, seq_length.
      apply map_ext_in. intros k Hk. apply in_seq in Hk. rewrite rev_nth by (rewrite seq_length; lia). rewrite seq_length, seq_nth by lia. lia.
    - apply map_id.
  Qed.
  Lemma same_C n (A : @spmat B) minv md blocks (S : BS2 B) coloring (S' : BSmoother B) back : same_as n A minv md blocks S -> keeps_size minv -> wf_mat n n A ->
    (forall bl i, In bl blocks -> In i bl -> i < n) ->
    bs_make minv coloring A blocks false md = Ret S' -> b2_Cs n A S (sweep_order S back) = bs_C n S' back.
  Proof.
    intros HS Hm W Hb E. destruct (bs_make_ok minv coloring A n blocks false md S' Hm W Hb E) as (OK & EA & EB & ED & EP).
    unfold b2_Cs, bs_C, sweep_order. rewrite (ref_order S' back EP), EA, EB, map_length, (sa_len _ _ _ _ _ _ HS). f_equal.
    apply map_ext_in. intros k Hk. assert (Hk' : k < length blocks) by (destruct back; rewrite <- ?in_rev in Hk; apply in_seq in Hk; lia).
    destruct (sa_blk _ _ _ _ _ _ HS k Hk') as (E1 & E2 & _). unfold b2_C, b_C, b_blk, b_D. rewrite E1, E2, ED, EB.
    assert (E3 : nth k (map sort_nat blocks) [] = sort_nat (nth k blocks [])) by (change (@nil nat) with (sort_nat []) at 1; apply map_nth).
    rewrite E3. f_equal. rewrite nth_indep with (d' := (fun bl => minv (diag_block A md bl)) []) by now rewrite !map_length.
    now rewrite (map_nth (fun bl => minv (diag_block A md bl))), E3.
  Qed.
  Lemma same_order n (A : @spmat B) minv md blocks (S : BS2 B) back : same_as n A minv md blocks S -> b2_order S (allgroups S) back = sweep_order S back.
  Proof. intros H. unfold sweep_order. now rewrite b2_order_all, (sa_sum _ _ _ _ _ _ H), (sa_len _ _ _ _ _ _ H). Qed.
  Lemma no_covered n (A : @spmat B) minv md blocks (S : BS2 B) t : same_as n A minv md blocks S -> dof2block n blocks = Ret t ->
    (forall i, i < n -> exists bl, In bl blocks /\ In i bl) -> covered n S (fun i => nth i t None).
  Proof.
    intros H Et Hc. destruct (dof2block_ok _ _ _ Et) as (T1 & T2 & T3). rewrite <- (sa_len _ _ _ _ _ _ H) in *. repeat split.
    - intros j k Hj. now apply (T3 j k).
    - intros j Hj EN. destruct (Hc j Hj) as (bl & H1 & H2). destruct (In_nth _ _ [] H1) as (k & Hk & <-).
      rewrite <- (sa_len _ _ _ _ _ _ H) in Hk. destruct (T2 k Hk) as (_ & T4). destruct (T4 j H2). congruence.
    - intros Ej. destruct (sa_blk _ _ _ _ _ _ H k) as (-> & _). rewrite <- (sa_len _ _ _ _ _ _ H); auto.
      apply (Permutation_in _ (Permutation_sym (sort_nat_perm _))). now apply (T3 j k).
    - intros Ej. destruct (sa_blk _ _ _ _ _ _ H k) as (E1 & _). rewrite <- (sa_len _ _ _ _ _ _ H); auto. rewrite E1 in Ej.
      apply (Permutation_in _ (sort_nat_perm _)) in Ej. destruct (T2 k H0) as (_ & T4). now destruct (T4 j Ej).
  Qed.
  Lemma make_same n minv (A : @spmat B) groups no md (S : BS2 B) : block2_input n A groups -> keeps_size minv -> bs2_make minv A groups no md = Ret S ->
    same_as n A minv md (concat groups) S /\ s2_no S = no /\ exists fL fU, bs2_ok n A S fL fU /\
    (no = true -> exists t, dof2block n (concat groups) = Ret t /\ fL = in_L (fun i => nth i t None) /\ fU = in_U (fun i => nth i t None)).
  Proof.
    intros (W & HS & Hb) Hm E. destruct no.
    - destruct (bs2_make_no minv A n groups md S Hm W E) as (t & Et & OK & H1 & H2 & H3 & _ & H5).
      split; [now constructor|]. split; auto. eexists _, _. split; [exact OK|]. intros _. exists t. auto.
    - destruct (bs2_make_wo minv A n groups md S Hm W Hb E) as (OK & H1 & H2 & H3 & H5).
      split; [now constructor|]. split; auto. eexists _, _. split; [exact OK|]. discriminate.
  Qed.
  (** what one call does *)
  Lemma bs2_call n minv (A : @spmat B) groups no md (S : BS2 B) u0 back (x b res : vec) ru ur xz C :
    block2_input n A groups -> keeps_size minv -> bs2_make minv A groups no md = Ret S ->
    flags_ok n (matvec A) x b res ru xz -> length u0 = n ->
    (no = true -> ru = false -> xz = false) -> (no = true -> ru = true -> ur = true -> covers n groups) ->
    b2_Cs n A S (sweep_order S back) = C ->
    let s := bs2_smooth S u0 1 back x b res ru ur xz in
    fst s = x +v C (residual (matvec A) b x) /\ length (fst s) = n /\
    (ru = false -> ur = true -> snd s = b2_residual S (fst s) b) /\ (ru = true -> ur = true -> no = false -> snd s = residual (matvec A) b (fst s)).
  Proof.
    intros HI Hm E F Hu Hz Hc EC. destruct (make_same _ _ _ _ _ _ _ HI Hm E) as (SA & EN & fL & fU & OK & Hno).
    destruct HI as (W & HS & Hb). destruct F as (Hx & Hbb & Hres & Hr & Hxz). assert (HA : length A = n) by apply W.
    pose proof (matvec_lin L n n A W) as AL. pose proof (b2_Cs_lin L n A S fL fU (sweep_order S back) OK (order_range S back)) as CL. rewrite EC in CL.
    assert (HR : length (residual (matvec A) b x) = n) by (unfold residual; auto with len).
    assert (RHS : forall x b, length x = n -> length b = n -> fold_left (fun x k => rupd (b2_at S k) b x) (sweep_order S back) x
               = x +v C (residual (matvec A) b x)).
    { intros y c Hy Hcc. rewrite <- EC. now apply (fold_rupd L n A S fL fU c _ y OK (order_range S back)). }
    assert (HX : length (x +v C (residual (matvec A) b x)) = n) by auto with len.
    unfold bs2_smooth. rewrite EN. unfold smoothNO, smoothWO, smooth2, smooth2_CR, b2_fold. rewrite !(same_order n A minv md _ S back SA).
    destruct no.
    - destruct (Hno eq_refl) as (t & Et & -> & ->).
      destruct ru; [destruct ur|]; cbn [fst snd].
      + pose proof (no_covered n A minv md _ S t SA Et (Hc eq_refl eq_refl eq_refl)) as CV. rewrite (Hr eq_refl).
        set (r := residual (matvec A) b x) in *. destruct back.
        * assert (G : forall ks u rs, fst (fold_left (fun s k => rupd_BW_zig_saveL (b2_at S k) r s) ks (u, rs)) = fold_left (fun u k => zig true (b2_at S k) r u) ks u).
          { induction ks as [|k ks IH]; intros u rs; auto. cbn [fold_left]. unfold rupd_BW_zig_saveL at 2. now rewrite IH. }
          rewrite G. rewrite (zig_sweep L n A S _ true r u0 OK CV HR Hu), EC. repeat split; auto; discriminate.
        * assert (G : forall ks u rs, fst (fold_left (fun s k => rupd_FW_zig_saveU (b2_at S k) r s) ks (u, rs)) = fold_left (fun u k => zig false (b2_at S k) r u) ks u).
          { induction ks as [|k ks IH]; intros u rs; auto. cbn [fold_left]. unfold rupd_FW_zig_saveU at 2. now rewrite IH. }
          rewrite G. rewrite (zig_sweep L n A S _ false r u0 OK CV HR Hu), EC. repeat split; auto; discriminate.
      + rewrite (Hr eq_refl), Hu, RHS by auto with len.
        assert (E0 : vzero n +v C (residual (matvec A) (residual (matvec A) b x) (vzero n)) = C (residual (matvec A) b x)).
        { unfold residual at 1. rewrite (lin_zero L n n), (vsub_zero L n), (vzero_add L n); auto with len. }
        rewrite E0. repeat split; auto; discriminate.
      + rewrite (Hz eq_refl eq_refl). rewrite RHS by auto. repeat split; auto; try discriminate. destruct ur; [auto|discriminate].
    - destruct ru; cbn [andb]; [destruct ur; cbn [Nat.iter nat_rect]|]; cbn [fst snd].
      + rewrite (Hr eq_refl). pose proof (fold_rupd_RES L n A S fL fU b (sweep_order S back) x OK HS (order_range S back) Hx Hbb) as FR.
        cbv zeta in FR. rewrite FR, EC. cbn [fst snd]. repeat split; auto; discriminate.
      + rewrite RHS by auto. repeat split; auto; discriminate.
      + unfold Nat.iter, nat_rect. rewrite RHS by auto. repeat split; auto; try discriminate. destruct ur; [auto|discriminate].
  Qed.
  Lemma residual_times n minv (A : @spmat B) groups no md (S : BS2 B) (x b : vec) j : block2_input n A groups -> keeps_size minv -> bs2_make minv A groups no md = Ret S ->
    length x = n -> length b = n -> j < n -> length (b2_residual S x b) = n /\
    ent (b2_residual S x b) j = Nat.iter (times_in groups j) (fun s => xadd s (xopp (ent (matvec A x) j))) (ent b j).
  Proof.
    intros HI Hm E Hx Hbb Hj. destruct (make_same _ _ _ _ _ _ _ HI Hm E) as (SA & EN & fL & fU & OK & _).
    destruct (b2_residual_ent L n A S fL fU x b j OK Hx Hbb Hj) as (H1 & H2). split; auto. rewrite H2.
    assert (ED : map (@b2_dofs B) (s2_blocks S) = map sort_nat (concat groups)).
    { apply nth_ext with (d := []) (d' := sort_nat []). rewrite !map_length. apply (sa_len _ _ _ _ _ _ SA). rewrite map_length. intros k Hk.
      rewrite nth_indep with (d' := @b2_dofs B (@mkB2 B [] [] [] [] [])) by now rewrite map_length. rewrite (map_nth (@b2_dofs B)).
      rewrite (map_nth sort_nat). rewrite (sa_len _ _ _ _ _ _ SA) in Hk. now apply (sa_blk _ _ _ _ _ _ SA). }
    rewrite ED. unfold times_in. generalize (ent b j). generalize (ent (matvec A x) j). intros a.
    assert (EM : forall bl, mem_nat j (sort_nat bl) = existsb (Nat.eqb j) bl).
    { intros bl. fold (mem_nat j bl). destruct (mem_nat j bl) eqn:Em.
      - apply mem_nat_in in Em. apply mem_nat_in. now apply (Permutation_in _ (Permutation_sym (sort_nat_perm bl))).
      - apply mem_nat_out in Em. apply mem_nat_out. intros H. apply Em. now apply (Permutation_in _ (sort_nat_perm bl)). }
    clear SA ED. induction (concat groups) as [|bl bls IH]; intros s; auto. simpl map. cbn [fold_left filter]. rewrite EM.
    destruct (existsb (Nat.eqb j) bl); [|apply IH]. cbn [length]. rewrite IH.
    assert (G : forall m s, Nat.iter m (fun s => xadd s (xopp a)) (xadd s (xopp a)) = xadd (Nat.iter m (fun s => xadd s (xopp a)) s) (xopp a)).
    { induction m; intros; simpl; auto. now rewrite IHm. }
    simpl. apply G.
  Qed.
End Common.

(** *** the new iterate: what the reference block smoother (C21) with the same blocks computes, for both versions, both directions and all
    flags but one: in the non-overlapping version x_zero may only be set if the residual is supplied, and with
    res_updated && update_res every dof must lie in a block *)
Theorem C23_iterate_partial :
  forall (B : Blk) (L : BlkLaws B) n minv coloring (A : @spmat B) groups no md S S' u0 back x b res res_updated update_res x_zero,
  block2_input n A groups -> keeps_size minv -> bs2_make minv A groups no md = Ret S ->
  bs_make minv coloring A (concat groups) false md = Ret S' ->
  flags_ok n (matvec A) x b res res_updated x_zero -> length u0 = n ->
  (no = true -> res_updated = false -> x_zero = false) ->
  (no = true -> res_updated = true -> update_res = true -> covers n groups) ->
  fst (bs2_smooth S u0 1 back x b res res_updated update_res x_zero) = fst (bs_smooth S' back x b res res_updated update_res x_zero).
Proof.
  intros B L n minv coloring A groups no md S S' u0 back x b res ru ur xz HI Hm E E' F Hu Hz Hc.
  destruct (make_same n minv A groups no md S HI Hm E) as (SA & _). pose proof HI as (W & HS & Hb).
  assert (Hb' : forall bl i, In bl (concat groups) -> In i bl -> i < n) by (intros bl i H; now apply Hb).
  destruct (bs_make_ok minv coloring A n _ false md S' Hm W Hb' E') as (OK' & EA & _).
  pose proof (same_C n A minv md _ S coloring S' back SA Hm W Hb' E') as EC.
  destruct (bs2_call L n minv A groups no md S u0 back x b res ru ur xz _ HI Hm E F Hu Hz Hc EC) as (-> & _).
  pose proof (bs_contract L n S' back OK') as C. rewrite EA in C. specialize (C HS x b res ru ur xz F).
  destruct (bs_smooth _ _ _ _ _ _ _ _) as [x' res']. destruct C as (-> & _). reflexivity.
Qed.
Print Assumptions C23_iterate_partial.

(** the overlapping version with several steps, any flags *)
Theorem C23_overlapping_version_steps :
  forall (B : Blk) (L : BlkLaws B) n minv coloring (A : @spmat B) groups md S S' u0 steps back x b res update_res x_zero,
  block2_input n A groups -> keeps_size minv -> bs2_make minv A groups false md = Ret S ->
  bs_make minv coloring A (concat groups) false md = Ret S' -> length x = n -> length b = n ->
  fst (bs2_smooth S u0 steps back x b res false update_res x_zero) = bs_rhs S' steps back x b /\
  bs2_smooth S u0 steps back x b (residual (matvec A) b x) true true x_zero = bs_res S' steps back x (residual (matvec A) b x).
Proof.
  intros B L n minv coloring A groups md S S' u0 steps back x b res ur xz HI Hm E E' Hx Hbb.
  destruct (make_same n minv A groups false md S HI Hm E) as (SA & EN & fL & fU & OK & _). pose proof HI as (W & HS & Hb).
  assert (Hb' : forall bl i, In bl (concat groups) -> In i bl -> i < n) by (intros bl i H; now apply Hb).
  destruct (bs_make_ok minv coloring A n _ false md S' Hm W Hb' E') as (OK' & EA & _).
  pose proof (same_C n A minv md _ S coloring S' back SA Hm W Hb' E') as EC. assert (HA : length A = n) by apply W.
  pose proof (matvec_lin L n n A W) as AL. pose proof (bs_C_lin L n S' back OK') as CL.
  unfold bs2_smooth. rewrite EN. unfold smoothWO, b2_fold, bs_rhs, bs_res. rewrite !(same_order n A minv md _ S back SA). cbn [andb fst].
  split.
  - assert (G : forall x, length x = n ->
       fold_left (fun x k => rupd (b2_at S k) b x) (sweep_order S back) x = fold_left (fun x k => block_rhs (bs_A S') (nth k (bs_blocks S') []) (nth k (bs_dinv S') []) b x) (bs_order S' back) x
       /\ length (fold_left (fun x k => rupd (b2_at S k) b x) (sweep_order S back) x) = n).
    { intros y Hy. pose proof (bs_rhs_fold L n S' b (bs_order S' back) y OK' Hy Hbb) as R. unfold b_blk, b_D in R. rewrite R.
      rewrite (fold_rupd L n A S fL fU b _ y OK (order_range S back) Hy Hbb), EC. rewrite EA. split. unfold bs_C. now rewrite EA. unfold residual; auto 6 with len. }
    clear - G Hx. induction steps as [|m IH]; auto. simpl.
    assert (IL : length (Nat.iter m (fun x => fold_left (fun t k => rupd (b2_at S k) b t) (sweep_order S back) x) x) = n).
    { clear IH. induction m; auto. simpl. now apply G. }
    rewrite (proj1 (G _ IL)). f_equal. exact IH.
  - assert (G : forall x, length x = n -> let x' := x +v bs_C n S' back (residual (matvec A) b x) in length x' = n /\
       fold_left (fun s k => rupd_RES (b2_at S k) s) (sweep_order S back) (x, residual (matvec A) b x) = (x', residual (matvec A) b x') /\
       fold_left (fun s k => block_res (bs_A S') (nth k (bs_blocks S') []) (nth k (bs_dinv S') []) s) (bs_order S' back) (x, residual (matvec A) b x) = (x', residual (matvec A) b x')).
    { intros y Hy x'. split. unfold x', residual; auto 6 with len. split.
      - pose proof (fold_rupd_RES L n A S fL fU b _ y OK HS (order_range S back) Hy Hbb) as FR. cbv zeta in FR. now rewrite FR, EC.
      - assert (HS' : sym_mat n (bs_A S')) by now rewrite EA.
        pose proof (bs_res_fold L n S' b (bs_order S' back) y OK' HS' Hy Hbb) as R. cbv zeta in R. unfold b_blk, b_D in R. rewrite EA in R |- *. rewrite R.
        unfold x', bs_C. now rewrite EA. }
    clear - G Hx.
    assert (Q : exists y, length y = n /\ Nat.iter steps (fun s => fold_left (fun s k => rupd_RES (b2_at S k) s) (sweep_order S back) s) (x, residual (matvec A) b x) = (y, residual (matvec A) b y)
       /\ Nat.iter steps (fun s => fold_left (fun s k => block_res (bs_A S') (nth k (bs_blocks S') []) (nth k (bs_dinv S') []) s) (bs_order S' back) s) (x, residual (matvec A) b x) = (y, residual (matvec A) b y)).
    { induction steps as [|m (y & Hy & E1 & E2)]. exists x; auto. destruct (G y Hy) as (H1 & H2 & H3). eexists. split; [exact H1|].
      simpl. rewrite E1, E2. split; [exact H2|exact H3]. }
    destruct Q as (y & _ & E1 & E2). rewrite E2. exact E1.
Qed.
Print Assumptions C23_overlapping_version_steps.

(** *** the residual handed back when none was supplied: exactly what is computed *)
Theorem C23_residual_counts_blocks :
  forall (B : Blk) (L : BlkLaws B) n minv (A : @spmat B) groups no md S u0 back x b res x_zero i,
  block2_input n A groups -> keeps_size minv -> bs2_make minv A groups no md = Ret S ->
  flags_ok n (matvec A) x b res false x_zero -> length u0 = n -> (no = true -> x_zero = false) -> i < n ->
  let (x', res') := bs2_smooth S u0 1 back x b res false true x_zero in
  ent res' i = Nat.iter (times_in groups i) (fun r => xadd r (xopp (ent (matvec A x') i))) (ent b i).
Proof.
  intros B L n minv A groups no md S u0 back x b res xz i HI Hm E F Hu Hz Hi.
  destruct (bs2_call L n minv A groups no md S u0 back x b res false true xz (b2_Cs n A S (sweep_order S back)) HI Hm E F Hu) as (_ & H1 & H2 & _);
    auto; try discriminate. destruct (bs2_smooth _ _ _ _ _ _ _ _ _ _) as [x' res']. cbn [fst snd] in *. rewrite H2 by auto.
  destruct F as (_ & Hb & _). now apply (residual_times L n minv A groups no md S).
Qed.
Print Assumptions C23_residual_counts_blocks.

(** *** the residual handed back is the true one: (a) none supplied, every dof in exactly one block; (b) supplied, overlapping version;
    (c) supplied, non-overlapping version, FORWARD, all dofs covered, symmetric matrix entries, exact block inverses *)
Theorem C23_residual_partial :
  forall (B : Blk) (L : BlkLaws B) n minv (A : @spmat B) groups no md S u0 back x b res res_updated x_zero,
  block2_input n A groups -> keeps_size minv -> bs2_make minv A groups no md = Ret S ->
  flags_ok n (matvec A) x b res res_updated x_zero -> length u0 = n ->
  (res_updated = false /\ (no = true -> x_zero = false) /\ forall i, i < n -> times_in groups i = 1) \/
  (res_updated = true /\ no = false) \/
  (res_updated = true /\ no = true /\ back = false /\ covers n groups /\ (forall i p, In p (getrow A i) -> mtr (snd p) = snd p) /\
   (forall bl v, In bl (map sort_nat (concat groups)) -> length v = length bl -> dmul (diag_block A [] bl) (dmul (minv (diag_block A [] bl)) v) = v)) ->
  let (x', res') := bs2_smooth S u0 1 back x b res res_updated true x_zero in res' = residual (matvec A) b x'.
Proof.
  intros B L n minv A groups no md S u0 back x b res ru xz HI Hm E F Hu H.
  pose proof F as (Hx & Hbb & Hres & Hr & Hxz). pose proof HI as (W & HS & Hb). assert (HA : length A = n) by apply W.
  destruct H as [(-> & Hz & Ht)|[(-> & ->)|(-> & -> & -> & Hc & Hsym & Hinv)]].
  - pose proof (fun i Hi => C23_residual_counts_blocks B L n minv A groups no md S u0 back x b res xz i HI Hm E F Hu Hz Hi) as HC.
    destruct (bs2_call L n minv A groups no md S u0 back x b res false true xz (b2_Cs n A S (sweep_order S back)) HI Hm E F Hu) as (_ & H1 & H2 & _);
      auto; try discriminate. destruct (bs2_smooth _ _ _ _ _ _ _ _ _ _) as [x' res']. cbn [fst snd] in *.
    assert (Hl : length res' = n).
    { rewrite H2 by auto. destruct (Nat.eq_dec n 0) as [->|Hn]; [|apply (residual_times L n minv A groups no md S x' b 0); auto; lia].
      unfold b2_residual. clear - Hbb. revert b Hbb. induction (s2_blocks S) as [|k l IH]; intros b Hb; simpl; auto.
      apply IH. unfold b2_sub_mat. now rewrite !scatter_length. }
    apply (vec_ext n); auto. unfold residual; auto with len. intros i Hi. rewrite HC, Ht by auto. simpl.
    unfold residual. now rewrite (ent_vsub L) by (side_len n).
  - destruct (bs2_call L n minv A groups false md S u0 back x b res true true xz (b2_Cs n A S (sweep_order S back)) HI Hm E F Hu) as (_ & _ & _ & H3);
      auto; try discriminate. destruct (bs2_smooth _ _ _ _ _ _ _ _ _ _) as [x' res']. cbn [fst snd] in *. auto.
  - destruct (make_same n minv A groups true md S HI Hm E) as (SA & EN & fL & fU & OK & Hno).
    destruct (Hno eq_refl) as (t & Et & -> & ->).
    pose proof (no_covered n A minv md _ S t SA Et Hc) as CV.
    pose proof (matvec_lin L n n A W) as AL. pose proof (b2_Cs_lin L n A S _ _ (sweep_order S false) OK (order_range S false)) as CL.
    assert (HR : length (residual (matvec A) b x) = n) by (unfold residual; auto with len).
    unfold bs2_smooth. rewrite EN. unfold smoothNO, smooth2_CR, b2_fold. rewrite (same_order n A minv md _ S false SA).
    rewrite (Hr eq_refl). rewrite (CR_sweep L n A S (fun i => nth i t None) (residual (matvec A) b x) u0 _ OK HS CV HR Hsym); auto.
    + cbn [fst snd]. symmetry. apply (residual_step L n (matvec A) (b2_Cs n A S (sweep_order S false))); auto.
    + intros k v Hk Hv. rewrite (sa_len _ _ _ _ _ _ SA) in Hk. destruct (sa_blk _ _ _ _ _ _ SA k Hk) as (E1 & E2 & E3). rewrite E1 in Hv. rewrite E2, E3.
      assert (md = []).
      { destruct (bs2_make_no minv A n groups md S Hm W E) as (? & _ & _ & _ & _ & _ & [?|Hn] & _); auto. rewrite Hn in Hk. simpl in Hk. lia. }
      subst md. apply Hinv; auto. apply in_map. now apply nth_In.
Qed.
Print Assumptions C23_residual_partial.

(** *** refutations *)
Definition zid (D : @dense ZBlk) : @dense ZBlk := D.
Lemma zid_size : keeps_size zid. Proof. intros m D H; exact H. Qed.
Definition z11 : @spmat ZBlk := [[(0, 1%Z); (1, 1%Z)]; [(0, 1%Z); (1, 1%Z)]].
Definition zI : @spmat ZBlk := [[(0, 1%Z)]; [(1, 1%Z)]].
Ltac b2in := split; [apply wf_matb_ok; reflexivity|]; split; [sym_tac|];
  let bl := fresh in let Hbl := fresh in intros bl Hbl; simpl in Hbl; decompose [or] Hbl; subst; try easy;
  (split; [repeat constructor; simpl; intuition congruence|]; let i := fresh in let Hi := fresh in intros i Hi; simpl in Hi; decompose [or] Hi; subst; try easy; lia).
Lemma z11_in : block2_input 2 z11 [[[0]; [1]]]. Proof. b2in. Qed.
Lemma zI_in : block2_input 2 zI [[[0]; [1; 0]]]. Proof. b2in. Qed.
Lemma zI_in2 : block2_input 2 zI [[[0]]]. Proof. b2in. Qed.

(** declaring the zero initial guess changes the result: forward and backward *)
Theorem C23_declared_zero_refuted :
  exists minv (A : @spmat ZBlk) groups S b, block2_input 2 A groups /\ keeps_size minv /\ covers 2 groups /\ bs2_make minv A groups true [] = Ret S /\
  forall back, fst (bs2_smooth S (vzero 2) 1 back (vzero 2) b (vzero 2) false false true)
            <> fst (bs2_smooth S (vzero 2) 1 back (vzero 2) b (vzero 2) false false false).
Proof.
  exists zid, z11, [[[0]; [1]]]. eexists. exists [1; 1]%Z. split; [exact z11_in|]. split; [exact zid_size|]. split.
  - intros [|[|i]] Hi; [exists [0]|exists [1]|lia]; simpl; auto.
  - split; [reflexivity|]. intros [|]; vm_compute; discriminate.
Qed.
Print Assumptions C23_declared_zero_refuted.

(** overlapping blocks: the residual is wrong if it was not supplied *)
Theorem C23_overlapping_residual_refuted :
  exists minv (A : @spmat ZBlk) groups S b, block2_input 2 A groups /\ keeps_size minv /\ bs2_make minv A groups false [] = Ret S /\
  let (x', res') := bs2_smooth S (vzero 2) 1 false (vzero 2) b (vzero 2) false true true in res' <> residual (matvec A) b x'.
Proof.
  exists zid, zI, [[[0]; [1; 0]]]. eexists. exists [1; 1]%Z. split; [exact zI_in|]. split; [exact zid_size|]. split; [reflexivity|].
  vm_compute. discriminate.
Qed.
Print Assumptions C23_overlapping_residual_refuted.

(** a dof in no block is changed by whatever an earlier call left in the work vector *)
Theorem C23_stale_work_vector_refuted :
  exists minv (A : @spmat ZBlk) groups S x b u0, block2_input 2 A groups /\ keeps_size minv /\ bs2_make minv A groups true [] = Ret S /\
  (forall bl, In bl (concat groups) -> ~ In 1 bl) /\
  ent (fst (bs2_smooth S u0 1 false x b (residual (matvec A) b x) true true false)) 1 <> ent x 1.
Proof.
  exists zid, zI, [[[0]]]. eexists. exists [0; 0]%Z, [1; 1]%Z, [0; 5]%Z. split; [exact zI_in2|]. split; [exact zid_size|]. split; [reflexivity|].
  split. simpl. intros bl [<-|[]] [|[]]; discriminate. vm_compute. discriminate.
Qed.
Print Assumptions C23_stale_work_vector_refuted.

(** SmoothBack with a supplied residual hands back a wrong residual *)
Definition z3 : @spmat ZBlk := [[(0, 1%Z); (2, 1%Z)]; [(1, 1%Z)]; [(0, 1%Z); (2, 1%Z)]].
Lemma z3_in : block2_input 3 z3 [[[0; 1]; [2]]]. Proof. b2in. Qed.
Theorem C23_back_residual_refuted :
  exists minv (A : @spmat ZBlk) groups S x b, block2_input 3 A groups /\ keeps_size minv /\ covers 3 groups /\ bs2_make minv A groups true [] = Ret S /\
  let (x', res') := bs2_smooth S (vzero 3) 1 true x b (residual (matvec A) b x) true true false in res' <> residual (matvec A) b x'.
Proof.
  exists zid, z3, [[[0; 1]; [2]]]. eexists. exists [0; 0; 0]%Z, [1; 1; 1]%Z. split; [exact z3_in|]. split; [exact zid_size|]. split.
  - intros [|[|[|i]]] Hi; [exists [0; 1]|exists [0; 1]|exists [2]|lia]; simpl; auto.
  - split; [reflexivity|]. vm_compute. discriminate.
Qed.
Print Assumptions C23_back_residual_refuted.

(** SmoothGroups over all groups, forward, is not Smooth *)
Theorem C23_smooth_groups_direction_refuted :
  exists minv (A : @spmat ZBlk) groups S x b, block2_input 2 A groups /\ keeps_size minv /\ bs2_make minv A groups false [] = Ret S /\
  fst (bs2_smooth_groups S (vzero 2) (allgroups S) 1 false x b (vzero 2) false false false)
  <> fst (bs2_smooth S (vzero 2) 1 false x b (vzero 2) false false false).
Proof.
  exists zid, z11, [[[0]; [1]]]. eexists. exists [0; 0]%Z, [1; 1]%Z. split; [exact z11_in|]. split; [exact zid_size|]. split; [reflexivity|].
  vm_compute. discriminate.
Qed.
Print Assumptions C23_smooth_groups_direction_refuted.

(** the non-overlapping version refuses overlapping blocks *)
Theorem C23_overlap_detected :
  forall (B : Blk) minv (A : @spmat B) groups md S, bs2_make minv A groups true md = Ret S ->
  forall k l i, k < length (concat groups) -> l < length (concat groups) -> In i (nth k (concat groups) []) -> In i (nth l (concat groups) []) -> k = l.
Proof.
  intros B minv A groups md S E k l i Hk Hl H1 H2. unfold bs2_make in E. destruct (dof2block (length A) (concat groups)) as [t|] eqn:Et; [|discriminate].
  destruct (dof2block_ok _ _ _ Et) as (_ & T2 & _). destruct (T2 k Hk) as (_ & Tk). destruct (T2 l Hl) as (_ & Tl).
  destruct (Tk i H1), (Tl i H2). congruence.
Qed.
Print Assumptions C23_overlap_detected.

(** *** the hypotheses of the positive theorems: two groups, three blocks, one 2x2 block that is its own inverse *)
Definition y_A : @spmat ZBlk := [[(0, 1%Z); (2, 3%Z)]; [(1, (-1)%Z); (3, 2%Z)]; [(0, 3%Z); (2, 1%Z); (3, 4%Z)]; [(1, 2%Z); (2, 4%Z); (3, 1%Z)]].
Definition y_groups : list (list (list nat)) := [[[1; 0]; [3]]; [[2]]].
Example y_in : block2_input 4 y_A y_groups. Proof. b2in. Qed.
Example y_cov : covers 4 y_groups.
Proof. intros [|[|[|[|i]]]] Hi; [exists [1; 0]|exists [1; 0]|exists [2]|exists [3]|lia]; simpl; auto 6. Qed.
Example y_once : forall i, i < 4 -> times_in y_groups i = 1.
Proof. intros [|[|[|[|i]]]] Hi; auto; lia. Qed.
Example y_inv : forall bl v, In bl (map sort_nat (concat y_groups)) -> length v = length bl -> dmul (diag_block y_A [] bl) (dmul (zid (diag_block y_A [] bl)) v) = v.
Proof.
  intros bl v H Hv. simpl in H. decompose [or] H; subst; simpl in Hv; try easy.
  - destruct v as [|a [|c [|]]]; try discriminate. cbn. f_equal; [|f_equal]; destruct a, c; reflexivity.
  - destruct v as [|a [|]]; try discriminate. cbn. f_equal; destruct a; reflexivity.
  - destruct v as [|a [|]]; try discriminate. cbn. f_equal; destruct a; reflexivity.
Qed.
Example y_run : match bs2_make zid y_A y_groups true [] with
  | Ret Sm => let (x', res') := bs2_smooth Sm [7; 7; 7; 7]%Z 1 false [1; 0; 2; 0]%Z [5; 5; 5; 5]%Z (residual (matvec y_A) [5;5;5;5]%Z [1; 0; 2; 0]%Z) true true false in
             res' = residual (matvec y_A) [5;5;5;5]%Z x' /\ x' <> [1; 0; 2; 0]%Z
  | _ => False end.
Proof. vm_compute. split; [reflexivity|discriminate]. Qed.
