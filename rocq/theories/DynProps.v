(** Properties C69, C70: dynamic block matrices and their smoother. *)
From Verif Require Import Base AGroup ArraysModel LinAlg LinTools GSSpec GSModel GSProofs SparseModel BlockModel EQCModel CtrModel BlockProofs BlockProofs2 CtrProofs CtrProofs2 AggMapProofs DynModel DynProofs DynProofs2 DynProofs3 DynProofs4 DynProofs5 DynProofs6 DynProofs7 Instances.
From Coq Require Import ZArith.
Open Scope nat_scope.

(** *** specification vocabulary *)
(** every row stores its columns in increasing order *)
Definition increasing {B : Blk} (A : @spmat B) : Prop := forall r, StronglySorted lt (map fst (getrow A r)).
(** structurally symmetric: (i,j) is stored iff (j,i) is *)
Definition sym_pattern {B : Blk} (A : @spmat B) : Prop := forall i j, In j (map fst (getrow A i)) -> In i (map fst (getrow A j)).
(** the consecutive groups of columns o_0 = 0 < o_1 < ... < o_k = m given by a column blocking *)
Definition groups (m : nat) (cb : blocking) : Prop :=
  exists sizes, Forall (lt 0) sizes /\ list_sum sizes = m /\ bk_size cb = length sizes /\ bk_scal cb = m /\
                bk_off cb = map (fun k => list_sum (firstn k sizes)) (seq 0 (S (length sizes))).
(** a row stores all the columns of a group or none *)
Definition whole_groups {B : Blk} (A : @spmat B) (cb : blocking) : Prop :=
  forall r b c d, b < bk_size cb -> In c (map fst (getrow A r)) ->
    nth b (bk_off cb) 0 <= c < nth (S b) (bk_off cb) 0 -> nth b (bk_off cb) 0 <= d < nth (S b) (bk_off cb) 0 -> In d (map fst (getrow A r)).

(** *** an implementation of the sorting contract *)
Fixpoint isort_ins (less : nat -> nat -> bool) (a : nat) (l : list nat) : list nat :=
  match l with [] => [a] | b :: l' => if less b a then b :: isort_ins less a l' else a :: b :: l' end.
Fixpoint isort (less : nat -> nat -> bool) (l : list nat) : list nat :=
  match l with [] => [] | a :: l' => isort_ins less a (isort less l') end.
Lemma go_trans a : forall b c, length a = length b -> length b = length c ->
  lexiLess_go b a = false -> lexiLess_go c b = false -> lexiLess_go c a = false.
Proof.
  induction a as [|x a IH]; intros [|y b] [|z c] L1 L2 H1 H2; cbn [length lexiLess_go] in *; try lia; auto.
  destruct (Nat.ltb_spec y x), (Nat.ltb_spec x y), (Nat.ltb_spec z y), (Nat.ltb_spec y z), (Nat.ltb_spec z x), (Nat.ltb_spec x z); try discriminate; try lia; auto.
  apply (IH b); auto; lia.
Qed.
Lemma lexi_trans a b c : lexiLess b a = false -> lexiLess c b = false -> lexiLess c a = false.
Proof.
  unfold lexiLess. destruct (Nat.eqb_spec (length b) (length a)), (Nat.eqb_spec (length c) (length b)), (Nat.eqb_spec (length c) (length a)); try lia;
  intros H1 H2; try (apply Nat.ltb_ge in H1); try (apply Nat.ltb_ge in H2); try (apply Nat.ltb_ge); try lia.
  apply (go_trans a b c); auto.
Qed.
Lemma go_asym a : forall b, lexiLess_go a b = true -> lexiLess_go b a = false.
Proof.
  induction a as [|x a IH]; intros [|y b] H; cbn [lexiLess_go] in *; try discriminate; auto.
  destruct (Nat.ltb_spec x y), (Nat.ltb_spec y x); try discriminate; try lia; auto.
Qed.
Lemma lexi_asym a b : lexiLess a b = true -> lexiLess b a = false.
Proof.
  unfold lexiLess. destruct (Nat.eqb_spec (length a) (length b)), (Nat.eqb_spec (length b) (length a)); try lia.
  apply go_asym. intros H. apply Nat.ltb_lt in H. apply Nat.ltb_ge. lia.
Qed.
Lemma isort_ok : qsort_ok isort.
Proof.
  intros key l. set (less := fun i j => lexiLess (key i) (key j)).
  assert (P : forall a l, Permutation (isort_ins less a l) (a :: l)).
  { intros a. induction l0 as [|b l0 IH]; cbn; auto. destruct (less b a); auto. rewrite IH. apply perm_swap. }
  assert (P2 : forall l, Permutation (isort less l) l) by (induction l0; cbn; auto; rewrite P, IHl0; auto).
  split; auto. assert (I : forall a l, StronglySorted (fun i j => less j i = false) l -> StronglySorted (fun i j => less j i = false) (isort_ins less a l)).
  { intros a. induction 1 as [|b l0 H IH F]; cbn; [repeat constructor|]. rewrite Forall_forall in F. destruct (less b a) eqn:E.
    - constructor; auto. apply Forall_forall. intros z Hz. apply (Permutation_in _ (P a l0)) in Hz as [<-|Hz]; auto. now apply lexi_asym.
    - constructor. constructor; auto. now apply Forall_forall. apply Forall_forall. intros z [<-|Hz]; auto. unfold less in *. eapply lexi_trans; eauto. }
  clear P P2. induction l as [|a l IH]; cbn. constructor. apply I, IH.
Qed.

(** *** C69 *)
Lemma offs_map ls : forall a, offs a ls = map (fun k => a + list_sum (firstn k ls)) (seq 0 (S (length ls))).
Proof.
  induction ls as [|x ls IH]; intros a. cbn. now rewrite Nat.add_0_r. cbn [offs length]. rewrite IH. change (seq 0 (S (S (length ls)))) with (0 :: seq 1 (S (length ls))).
  cbn [map firstn list_sum fold_right]. f_equal. lia. rewrite <- (seq_shift (S (length ls)) 0), map_map. apply map_ext. intros k. cbn [firstn list_sum fold_right]. unfold list_sum. lia.
Qed.
Lemma groups_valid m cb : groups m cb -> valid_bk m cb.
Proof.
  intros (sizes & H1 & H2 & H3 & H4 & H5). exists sizes. split; auto. split; auto. destruct cb as [a b c]. cbn in *. subst. f_equal. now rewrite offs_map.
Qed.
Lemma cols_lt {B : Blk} n m (A : @spmat B) : wf_mat n m A -> forall r c, In c (rcols (getrow A r)) -> c < m.
Proof. intros [_ W] r c H. unfold rcols in H. apply in_map_iff in H as (p & <- & H). eapply W; eauto. Qed.
(** the block matrix built from A, and what its storage means *)
Lemma built {B : Blk} qsort n m (A : @spmat B) cbo : qsort_ok qsort -> wf_mat n m A -> increasing A ->
  match cbo with None => n = m /\ sym_pattern A | Some cb => groups m cb /\ whole_groups A cb end ->
  exists D bl pt, DynBlockSparseMatrix qsort A cbo = Ret D /\ rep A D bl pt /\
    forall k r, k < length bl -> In r (nth k bl []) -> nth k bl [] = pclass A r.
Proof.
  intros Q W I Hc. assert (Ln : length A = n) by apply W. destruct (row_blocking_ok A) as (rb & E & V & S1 & _). unfold DynBlockSparseMatrix. rewrite E. cbn [bind].
  assert (VC : valid_bk m (match cbo with None => rb | Some cb => cb end)). { destruct cbo. now apply groups_valid. destruct Hc as [<- _]. now rewrite <- Ln. }
  assert (CL : forall r, closed_cols (match cbo with None => rb | Some cb => cb end) (rcols (getrow A r))).
  { intros r b c d Hcr Hb Hc1 Hd. unfold bnums in *. destruct cbo as [cb|].
    - destruct Hc as [_ Wg]. apply in_seq in Hc1. apply in_seq in Hd. apply (Wg r b c d); auto; lia.
    - destruct Hc as [_ Sy]. apply Sy. apply Sy in Hcr. change (In r (rcols (getrow A c))) in Hcr. change (In r (rcols (getrow A d))).
      rewrite (S1 b d); auto. rewrite <- (S1 b c); auto. }
  destruct (Finalize_rep qsort Q A m rb _ V VC S1 I (cols_lt n m A W) CL) as (D & gs & EF & _ & _ & G & R).
  exists D, (map (grows rb) gs), (map (gkey A rb) gs). split; auto. split; auto. intros k r Hk Hr. rewrite map_length in Hk.
  apply (blocks_are_classes qsort Q A rb D gs); auto.
Qed.

(** a square matrix with increasing columns and symmetric pattern is converted, and the result multiplies like the matrix *)
Theorem C69_convert_mult :
  forall (B : Blk) qsort n (A : @spmat B),
  qsort_ok qsort -> wf_mat n n A -> increasing A -> sym_pattern A ->
  exists D, ConvertToDynSPM qsort A = Ret D /\
    forall x y, length x = n -> length y = n ->
      DMult D x y = Ret (matvec A x) /\
      forall s, exists y', DMultAdd D s x y = Ret y' /\ length y' = n /\
        forall i, i < n -> ent y' i = xadd (ent y i) (xsc s (ent (matvec A x) i)).
Proof.
  intros B qsort n A Q W I Sy. destruct (built qsort n n A None Q W I (conj eq_refl Sy)) as (D & bl & pt & E & R & _). exists D. split; auto.
  assert (Ln : length A = n) by apply W. intros x y Hx Hy. split.
  - destruct (Mult_ent A D bl pt n R (cols_lt n n A W) (fun _ s => s) x y Hx ltac:(congruence)) as (y' & E' & L' & H'). unfold DMult. rewrite E'. f_equal.
    apply (vec_ext n); auto. congruence. rewrite matvec_length; auto. intros i Hi. apply H'. lia.
  - intros s. destruct (Mult_ent A D bl pt n R (cols_lt n n A W) (fun o v => xadd o (xsc s v)) x y Hx ltac:(congruence)) as (y' & E' & L' & H').
    exists y'. split; auto. split. congruence. intros i Hi. apply H'. lia.
Qed.
Print Assumptions C69_convert_mult.

(** rectangular matrices with a given column blocking *)
Theorem C69_given_columns :
  forall (B : Blk) qsort n m (A : @spmat B) cb,
  qsort_ok qsort -> wf_mat n m A -> increasing A -> groups m cb -> whole_groups A cb ->
  exists D, DynBlockSparseMatrix qsort A (Some cb) = Ret D /\
    forall x y, length x = m -> length y = n ->
      DMult D x y = Ret (matvec A x) /\
      forall s, exists y', DMultAdd D s x y = Ret y' /\ length y' = n /\
        forall i, i < n -> ent y' i = xadd (ent y i) (xsc s (ent (matvec A x) i)).
Proof.
  intros B qsort n m A cb Q W I G Wg. destruct (built qsort n m A (Some cb) Q W I (conj G Wg)) as (D & bl & pt & E & R & _). exists D. split; auto.
  assert (Ln : length A = n) by apply W. intros x y Hx Hy. split.
  - destruct (Mult_ent A D bl pt m R (cols_lt n m A W) (fun _ s => s) x y Hx ltac:(congruence)) as (y' & E' & L' & H'). unfold DMult. rewrite E'. f_equal.
    apply (vec_ext n); auto. congruence. rewrite matvec_length; auto. intros i Hi. apply H'. lia.
  - intros s. destruct (Mult_ent A D bl pt m R (cols_lt n m A W) (fun o v => xadd o (xsc s v)) x y Hx ltac:(congruence)) as (y' & E' & L' & H').
    exists y'. split; auto. split. congruence. intros i Hi. apply H'. lia.
Qed.
Print Assumptions C69_given_columns.

(** the row blocks are the classes of rows with the same stored columns: GetBlockRCV hands out, for every block, the rows of
    one class in increasing order, their common columns, and their values; every row is in exactly one block *)
Theorem C69_blocks :
  forall (B : Blk) qsort n (A : @spmat B) D,
  qsort_ok qsort -> wf_mat n n A -> increasing A -> sym_pattern A -> ConvertToDynSPM qsort A = Ret D ->
  (forall k, k < d_num D -> exists rows columns,
      GetBlockRCV D k = Ret (rows, columns, map (fun r => map snd (getrow A r)) rows) /\
      rows <> [] /\ StronglySorted lt rows /\
      forall r, In r rows <-> r < n /\ map fst (getrow A r) = columns) /\
  (forall r, r < n -> exists k, k < d_num D /\ (exists rows columns vals, GetBlockRCV D k = Ret (rows, columns, vals) /\ In r rows) /\
      forall k' rows columns vals, k' < d_num D -> GetBlockRCV D k' = Ret (rows, columns, vals) -> In r rows -> k' = k).
Proof.
  intros B qsort n A D Q W I Sy E. destruct (built qsort n n A None Q W I (conj eq_refl Sy)) as (D' & bl & pt & E' & R & Hcl). unfold ConvertToDynSPM in E. rewrite E in E'. injection E' as <-.
  assert (Ln : length A = n) by apply W. rewrite (r_num _ _ _ _ R).
  assert (G := rcv_ok A D bl pt R). split.
  - intros k Hk. exists (nth k bl []), (nth k pt []). split. now apply G. split. now apply (r_ne _ _ _ _ R). split. now apply (r_ss _ _ _ _ R). intros r. split.
    + intros Hr. split. rewrite <- Ln. eapply bl_lt; eauto. now apply (r_pat _ _ _ _ R).
    + intros [Hr Ep]. destruct (nth k bl []) as [|s l] eqn:Eb. now apply (r_ne _ _ _ _ R) in Eb. assert (Hs : In s (nth k bl [])) by (rewrite Eb; now left).
      rewrite <- Eb, (Hcl k s Hk Hs). unfold pclass. apply filter_In. split. apply in_seq; lia. apply leqb_iff. rewrite (r_pat _ _ _ _ R k s Hk Hs). exact Ep.
  - intros r Hr. assert (Hi : In r (concat bl)) by (apply (Permutation_in _ (Permutation_sym (r_perm _ _ _ _ R))), in_seq; lia).
    apply in_concat in Hi as (b & Hb & Hrb). destruct (In_nth _ _ [] Hb) as (k & Hk & Ek). exists k. split; auto. split.
    + exists (nth k bl []), (nth k pt []), (map (fun r => map snd (getrow A r)) (nth k bl [])). split. now apply G. now rewrite Ek.
    + intros k' rows columns vals Hk' E' Hr'. rewrite G in E' by auto. injection E' as <- _ _.
      assert (ND : NoDup (concat bl)) by (apply (Permutation_NoDup (Permutation_sym (r_perm _ _ _ _ R))), seq_NoDup).
      assert (Hk2 : In r (nth k bl [])) by now rewrite Ek.
      clear - ND Hk Hk' Hr' Hk2. revert k k' Hk Hk' Hr' Hk2. induction bl as [|b bl IH]; intros k k' Hk Hk' H1 H2; cbn [length] in *; try lia. cbn [concat] in ND.
      assert (NI : forall j, j < length bl -> In r (nth j bl []) -> ~ In r b).
      { intros j Hj Hin Hb. clear - ND Hin Hb Hj. assert (Hc : In r (concat bl)) by (apply in_concat; exists (nth j bl []); split; auto; now apply nth_In).
        induction b as [|a b IHb]; [destruct Hb|]. cbn in ND. inversion ND; subst. destruct Hb as [->|Hb]; auto. apply H1. apply in_or_app. now right. }
      destruct k, k'; cbn [nth] in *; auto.
      * exfalso. apply (NI k'); auto; lia.
      * exfalso. apply (NI k); auto; lia.
      * f_equal. apply IH; auto; try lia. clear - ND. induction b; auto. cbn in ND. inversion ND; auto.
Qed.
Print Assumptions C69_blocks.

(** non-vacuity, and the conversion of a matrix whose pattern is not symmetric gives a matrix that cannot be applied *)
Definition exA : @spmat ZBlk := [[(0, (1)%Z); (1, (1)%Z)]; [(0, (1)%Z); (1, (2)%Z)]; [(2, (3)%Z); (3, (5)%Z)]; [(2, (5)%Z); (3, (7)%Z)]].
Lemma forall_lt4 (P : nat -> Prop) : P 0 -> P 1 -> P 2 -> P 3 -> (forall r, 4 <= r -> P r) -> forall r, P r.
Proof. intros. destruct r as [|[|[|[|r]]]]; auto. apply H3. lia. Qed.
Lemma exA_wf : wf_mat 4 4 exA.
Proof. split. reflexivity. apply (forall_lt4 (fun i => forall p, In p (getrow exA i) -> fst p < 4)); [cbn; intros p [<-|[<-|[]]]; cbn; lia ..|].
  intros r Hr p H. unfold getrow in H. rewrite nth_overflow in H by (cbn; lia). destruct H. Qed.
Lemma exA_inc : increasing exA.
Proof. unfold increasing. apply (forall_lt4 (fun i => StronglySorted lt (map fst (getrow exA i)))); [cbn; repeat constructor; lia ..|].
  intros r Hr. unfold getrow. rewrite nth_overflow by (cbn; lia). constructor. Qed.
Lemma exA_sym : sym_storage exA.
Proof.
  intros i j v H. destruct (Nat.lt_ge_cases i 4) as [Hi|Hi]. 2:{ unfold getrow in H. rewrite nth_overflow in H by (cbn; lia). destruct H. }
  do 4 (destruct i as [|i]; [cbn in H; destruct H as [[= <- <-]|[[= <- <-]|[]]]; cbn; tauto|]). lia.
Qed.
Lemma sym_storage_pattern {B : Blk} (A : @spmat B) : sym_storage A -> sym_pattern A.
Proof. intros H i j Hj. apply in_map_iff in Hj as ([c v] & E & Hj). cbn in E. subst c. apply H in Hj. apply in_map_iff. exists (i, mtr v). auto. Qed.
Example C69_nonvacuous : qsort_ok isort /\ wf_mat 4 4 exA /\ increasing exA /\ sym_pattern exA /\
  exists D, ConvertToDynSPM isort exA = Ret D /\ d_num D = 2 /\ DMult D [1;2;3;4]%Z [0;0;0;0]%Z = Ret [3;5;29;43]%Z.
Proof.
  split. apply isort_ok. split. apply exA_wf. split. apply exA_inc. split. apply sym_storage_pattern, exA_sym. eexists. split; [vm_compute; reflexivity|]. split; vm_compute; reflexivity.
Qed.
Theorem C69_unsymmetric_pattern_refuted :
  exists (A : @spmat ZBlk) D, wf_mat 2 2 A /\ increasing A /\ ConvertToDynSPM isort A = Ret D /\
    forall x y, length x = 2 -> length y = 2 -> DMult D x y = Err OutOfBounds.
Proof.
  exists [[(0, (1)%Z)]; [(0, (1)%Z)]]. eexists. split.
  { split. reflexivity. intros i p H. destruct i as [|[|[|i]]]; cbn in H; try tauto; destruct H as [<-|[]]; cbn; lia. }
  split. { intros [|[|[|r]]]; cbn; repeat constructor. }
  split. vm_compute. reflexivity. intros x y Hx Hy. destruct x as [|x1 [|x2 [|]]]; cbn in Hx; try lia. destruct y as [|y1 [|y2 [|]]]; cbn in Hy; try lia. reflexivity.
Qed.
Print Assumptions C69_unsymmetric_pattern_refuted.

(** *** C70 *)
(** input of the smoother: square symmetric matrix with increasing columns; a bit per dof; a replacement diagonal or none; the
    diagonal is stored in every row (with free dofs given, a row may also be empty) *)
Definition dsm_input {B : Blk} (n : nat) (A : @spmat B) (fd : option (list bool)) (md : list (M B)) : Prop :=
  wf_mat n n A /\ increasing A /\ sym_storage A /\
  match fd with None => True | Some f => length f = n end /\ (md = [] \/ length md = n) /\
  forall r, r < n -> In r (map fst (getrow A r)) \/ (map fst (getrow A r) = [] /\ fd <> None).
(** the dense inversion keeps the size *)
Definition size_kept {B : Blk} (minv : @dense B -> @dense B) : Prop := forall m D, dims m D -> dims m (minv D).

Lemma made_input {B : Blk} (L : BlkLaws B) qsort minv m1 n (A : @spmat B) fd md D om S :
  qsort_ok qsort -> size_kept minv -> dsm_input n A fd md -> ConvertToDynSPM qsort A = Ret D -> DynBlockSmoother minv m1 D fd md om = Ret S ->
  exists bl pt, rep A D bl pt /\ (forall k r, k < length bl -> In r (nth k bl []) -> nth k bl [] = pclass A r) /\
    S = mkDsm D (dsl minv m1 A bl pt fd md) (frl minv m1 A bl pt fd md) om.
Proof.
  intros Q Hs (W & I & Sy & Hf & Hm & Hd) E ES. destruct (built qsort n n A None Q W I (conj eq_refl (sym_storage_pattern A Sy))) as (D' & bl & pt & E' & R & Hcl).
  unfold ConvertToDynSPM in E. rewrite E in E'. injection E' as <-. assert (Ln : length A = n) by apply W. exists bl, pt. split; auto. split; auto.
  rewrite (made minv m1 Hs A D bl pt R I) in ES; subst n; auto. now injection ES.
Qed.

Theorem C70_setup_total :
  forall (B : Blk) (L : BlkLaws B) qsort minv m1 n (A : @spmat B) fd md om,
  qsort_ok qsort -> size_kept minv -> dsm_input n A fd md ->
  exists D S, ConvertToDynSPM qsort A = Ret D /\ DynBlockSmoother minv m1 D fd md om = Ret S.
Proof.
  intros B L qsort minv m1 n A fd md om Q Hs (W & I & Sy & Hf & Hm & Hd).
  destruct (built qsort n n A None Q W I (conj eq_refl (sym_storage_pattern A Sy))) as (D & bl & pt & E & R & Hcl).
  assert (Ln : length A = n) by apply W. exists D. eexists. split; [exact E|]. subst n. apply (made minv m1 Hs A D bl pt R I); auto.
Qed.
Print Assumptions C70_setup_total.

Lemma cols_in {B : Blk} n (A : @spmat B) : wf_mat n n A -> forall r c, In c (rcols (getrow A r)) -> c < length A.
Proof. intros W r c H. destruct (proj1 W). eapply (cols_lt (length A) (length A)); eauto. Qed.
(** whatever the flags, a call terminates without error, hands back the true residual if asked to, and the new iterate does not
    depend on the flags *)
Theorem C70_residual :
  forall (B : Blk) (L : BlkLaws B) qsort minv m1 n (A : @spmat B) fd md om D S back x b res res_updated update_res x_zero,
  qsort_ok qsort -> size_kept minv -> dsm_input n A fd md -> ConvertToDynSPM qsort A = Ret D -> DynBlockSmoother minv m1 D fd md om = Ret S ->
  flags_ok n (matvec A) x b res res_updated x_zero ->
  exists x' res', SmoothImpl S back x b res res_updated update_res x_zero = Ret (x', res') /\ length x' = n /\ length res' = n /\
    (update_res = true -> forall i, i < n -> ent res' i = xadd (ent b i) (xopp (ent (matvec A x') i))).
Proof.
  intros B L qsort minv m1 n A fd md om D S back x b r ru ur xz Q Hs In0 E ES F. destruct (made_input L qsort minv m1 n A fd md D om S Q Hs In0 E ES) as (bl & pt & R & Hcl & ->).
  destruct In0 as (W & I & Sy & Hf & Hm & Hd). pose proof (cols_in n A W) as Cl. assert (Ln : length A = n) by apply W. subst n.
  destruct (smooth_ok L A D bl pt R I Cl (storage_sym_mat L A I Sy _) (dsl minv m1 A bl pt fd md) (frl minv m1 A bl pt fd md) om back x b r ru ur xz) as (r' & H); auto.
  { intros k Hk. eapply (visited_usable minv m1 Hs A D bl pt R fd md Hf Hm Hd); eauto. }
  cbv zeta in H. destruct H as (E1 & L1 & L2 & H). exists (x +v op A bl (dsl minv m1 A bl pt fd md) om (dsm_order (mkDsm D (dsl minv m1 A bl pt fd md) (frl minv m1 A bl pt fd md) om) back) (residual (matvec A) b x)), r'.
  split; [exact E1|]. split; auto. split; auto. intros U i Hi. rewrite (H U). unfold residual at 1. destruct F as (_ & Hb & _). rewrite (ent_vsub L) by (rewrite matvec_length; auto). reflexivity.
Qed.
Print Assumptions C70_residual.

(** the iteration: x' = x + C (b - A x) with a fixed linear C per direction *)
Lemma contract_of {B : Blk} (L : BlkLaws B) qsort minv m1 n (A : @spmat B) fd md om D S :
  qsort_ok qsort -> size_kept minv -> dsm_input n A fd md -> ConvertToDynSPM qsort A = Ret D -> DynBlockSmoother minv m1 D fd md om = Ret S ->
  exists bl pt, rep A D bl pt /\ (forall k r, k < length bl -> In r (nth k bl []) -> nth k bl [] = pclass A r) /\ S = mkDsm D (dsl minv m1 A bl pt fd md) (frl minv m1 A bl pt fd md) om /\
  forall back, lin n n (op A bl (dsl minv m1 A bl pt fd md) om (dsm_order S back)) /\ forall x b res ru ur xz, flags_ok n (matvec A) x b res ru xz ->
    exists res', SmoothImpl S back x b res ru ur xz = Ret (x +v op A bl (dsl minv m1 A bl pt fd md) om (dsm_order S back) (residual (matvec A) b x), res').
Proof.
  intros Q Hs In0 E ES. destruct (made_input L qsort minv m1 n A fd md D om S Q Hs In0 E ES) as (bl & pt & R & Hcl & ES'). exists bl, pt. split; auto. split; auto. split; auto. intros back. subst S.
  destruct In0 as (W & I & Sy & Hf & Hm & Hd). pose proof (cols_in n A W) as Cl. assert (Ln : length A = n) by apply W. subst n.
  assert (U : forall k, In k (dsm_order (mkDsm D (dsl minv m1 A bl pt fd md) (frl minv m1 A bl pt fd md) om) back) -> usable bl pt (dsl minv m1 A bl pt fd md) k).
  { intros k Hk. eapply (visited_usable minv m1 Hs A D bl pt R fd md Hf Hm Hd); eauto. }
  split. apply (op_lin L A bl pt Cl); auto. intros x b r ru ur xz F.
  destruct (smooth_ok L A D bl pt R I Cl (storage_sym_mat L A I Sy _) (dsl minv m1 A bl pt fd md) (frl minv m1 A bl pt fd md) om back x b r ru ur xz U F) as (r' & H). exists r'. apply H.
Qed.
Theorem C70_flags_do_not_change_iterate :
  forall (B : Blk) (L : BlkLaws B) qsort minv m1 n (A : @spmat B) fd md om D S back x b res1 res2 ru1 ru2 ur1 ur2 xz1 xz2 x1 x2 r1 r2,
  qsort_ok qsort -> size_kept minv -> dsm_input n A fd md -> ConvertToDynSPM qsort A = Ret D -> DynBlockSmoother minv m1 D fd md om = Ret S ->
  flags_ok n (matvec A) x b res1 ru1 xz1 -> flags_ok n (matvec A) x b res2 ru2 xz2 ->
  SmoothImpl S back x b res1 ru1 ur1 xz1 = Ret (x1, r1) -> SmoothImpl S back x b res2 ru2 ur2 xz2 = Ret (x2, r2) -> x1 = x2.
Proof.
  intros B L qsort minv m1 n A fd md om D S back x b res1 res2 ru1 ru2 ur1 ur2 xz1 xz2 x1 x2 r1 r2 Q Hs In0 E ES F1 F2 E1 E2.
  destruct (contract_of L qsort minv m1 n A fd md om D S Q Hs In0 E ES) as (bl & pt & R & _ & _ & C). destruct (C back) as [_ C'].
  destruct (C' x b res1 ru1 ur1 xz1 F1) as (s1 & H1). destruct (C' x b res2 ru2 ur2 xz2 F2) as (s2 & H2). congruence.
Qed.
Print Assumptions C70_flags_do_not_change_iterate.

(** the diagonal blocks that are inverted: for every class of rows with equal columns, its submatrix with the (replaced)
    diagonal, the rows and columns of constrained dofs exchanged for those of the identity *)
Definition exact_inverse {B : Blk} (minv : @dense B -> @dense B) (m1 : M B) (A : @spmat B) fd md : Prop :=
  (forall x, act m1 x = x) /\
  forall r, r < length A -> inverts (length (pclass A r)) (fix_block m1 A fd md (pclass A r)) (minv (fix_block m1 A fd md (pclass A r))).
Theorem C70_constrained_dofs_untouched :
  forall (B : Blk) (L : BlkLaws B) qsort minv m1 n (A : @spmat B) fd md om D S back x b res res_updated update_res x_zero x' res' j,
  qsort_ok qsort -> size_kept minv -> dsm_input n A fd md -> exact_inverse minv m1 A fd md ->
  ConvertToDynSPM qsort A = Ret D -> DynBlockSmoother minv m1 D fd md om = Ret S -> flags_ok n (matvec A) x b res res_updated x_zero ->
  SmoothImpl S back x b res res_updated update_res x_zero = Ret (x', res') ->
  j < n -> is_free fd j = false -> ent x' j = ent x j.
Proof.
  intros B L qsort minv m1 n A fd md om D S back x b r ru ur xz x' r' j Q Hs In0 [X1 X2] E ES F ER Hj Hf.
  destruct (contract_of L qsort minv m1 n A fd md om D S Q Hs In0 E ES) as (bl & pt & R & Hcl & ES' & C). destruct (C back) as [OL C']. destruct (C' x b r ru ur xz F) as (s & H). rewrite ER in H. injection H as -> _.
  destruct In0 as (W & I & Sy & Hfd & Hm & Hd). pose proof (cols_in n A W) as Cl. assert (Ln : length A = n) by apply W. subst n. destruct F as (Hx & Hb & _).
  assert (HR : length (residual (matvec A) b x) = length A) by (unfold residual; auto with len).
  rewrite (ent_vadd L) by (rewrite (lin_len _ _ _ OL); auto). subst S.
  rewrite (con_untouched L minv m1 Hs A D bl pt R Cl fd md Hfd Hm Hd om Hcl X1 X2) by auto. ag (lawX B L).
Qed.
Print Assumptions C70_constrained_dofs_untouched.

Theorem C70_solution_is_fixed_point :
  forall (B : Blk) (L : BlkLaws B) qsort minv m1 n (A : @spmat B) fd md om D S back x b res res_updated update_res x_zero x' res',
  qsort_ok qsort -> size_kept minv -> dsm_input n A fd md -> exact_inverse minv m1 A fd md ->
  ConvertToDynSPM qsort A = Ret D -> DynBlockSmoother minv m1 D fd md om = Ret S -> flags_ok n (matvec A) x b res res_updated x_zero ->
  SmoothImpl S back x b res res_updated update_res x_zero = Ret (x', res') ->
  (forall i, i < n -> is_free fd i = true -> ent (matvec A x) i = ent b i) -> x' = x.
Proof.
  intros B L qsort minv m1 n A fd md om D S back x b r ru ur xz x' r' Q Hs In0 [X1 X2] E ES F ER Hsol.
  destruct (contract_of L qsort minv m1 n A fd md om D S Q Hs In0 E ES) as (bl & pt & R & Hcl & ES' & C). destruct (C back) as [OL C']. destruct (C' x b r ru ur xz F) as (s & H). rewrite ER in H. injection H as -> _.
  destruct In0 as (W & I & Sy & Hfd & Hm & Hd). pose proof (cols_in n A W) as Cl. assert (Ln : length A = n) by apply W. subst n. destruct F as (Hx & Hb & _).
  assert (HR : length (residual (matvec A) b x) = length A) by (unfold residual; auto with len). subst S.
  rewrite (fixed_point L minv m1 Hs A D bl pt R Cl fd md Hfd Hm Hd om Hcl X1 X2); auto. now apply (vadd_zero L).
  intros i Hi Hf. unfold residual. rewrite (ent_vsub L) by (rewrite matvec_length; auto). rewrite Hsol by auto. ag (lawX B L).
Qed.
Print Assumptions C70_solution_is_fixed_point.

(** SmoothBack is the adjoint of Smooth, if inverting keeps symmetric matrices symmetric *)
Theorem C70_back_is_adjoint :
  forall (B : Blk) (L : BlkLaws B) qsort minv m1 n (A : @spmat B) fd md om D S b c res1 res2 ur1 ur2 xf rf xb rb,
  qsort_ok qsort -> size_kept minv -> dsm_input n A fd md -> ConvertToDynSPM qsort A = Ret D -> DynBlockSmoother minv m1 D fd md om = Ret S ->
  mtr m1 = m1 -> (forall r, mtr (nth r md m0) = nth r md m0) -> (forall m F, dims m F -> dsym m F -> dsym m (minv F)) ->
  length b = n -> length c = n -> length res1 = n -> length res2 = n ->
  SmoothImpl S false (vzero n) b res1 false ur1 true = Ret (xf, rf) ->
  SmoothImpl S true (vzero n) c res2 false ur2 true = Ret (xb, rb) ->
  vdot xf c = vdot b xb.
Proof.
  intros B L qsort minv m1 n A fd md om D S b c res1 res2 ur1 ur2 xf rf xb rb Q Hs In0 E ES M1 Md Ms Hb Hc H1 H2 E1 E2.
  destruct (contract_of L qsort minv m1 n A fd md om D S Q Hs In0 E ES) as (bl & pt & R & Hcl & ES' & C).
  assert (F1 : flags_ok n (matvec A) (vzero n) b res1 false true) by (repeat split; auto with len; discriminate).
  assert (F2 : flags_ok n (matvec A) (vzero n) c res2 false true) by (repeat split; auto with len; discriminate).
  destruct (C false) as [OL1 C1]. destruct (C true) as [OL2 C2]. destruct (C1 _ _ _ _ ur1 _ F1) as (s1 & K1). destruct (C2 _ _ _ _ ur2 _ F2) as (s2 & K2).
  rewrite E1 in K1. injection K1 as -> _. rewrite E2 in K2. injection K2 as -> _.
  destruct In0 as (W & I & Sy & Hfd & Hm & Hd). pose proof (matvec_lin L n n A W) as AL.
  assert (Er : forall v, length v = n -> residual (matvec A) v (vzero n) = v). { intros v Hv. unfold residual. rewrite (lin_zero L n n _ AL). now apply (vsub_zero L). }
  rewrite !Er by auto. rewrite !(vzero_add L n) by auto with len. pose proof (cols_in n A W) as Cl. assert (Ln : length A = n) by apply W. clear E1 E2 F1 F2 H1 H2 Er. rewrite <- Ln in Hb, Hc. subst n. subst S.
  apply (op_adj L minv m1 Hs A D bl pt R I Cl Sy fd md Hfd Hm Hd om M1 Md Ms); auto.
Qed.
Print Assumptions C70_back_is_adjoint.

(** non-vacuity: dof 1 constrained, exact integer inverses *)
Definition exinv (D : @dense ZBlk) : @dense ZBlk :=
  match D with [[a; b]; [c; d]] => if ((a * d - b * c) =? -1)%Z then [[(-d)%Z; b]; [c; (-a)%Z]] else [[d; (-b)%Z]; [(-c)%Z; a]] | _ => D end.
Definition exA2 : @spmat ZBlk := [[(0, (1)%Z); (1, (1)%Z)]; [(0, (1)%Z); (1, (2)%Z)]; [(2, (3)%Z); (3, (4)%Z)]; [(2, (4)%Z); (3, (5)%Z)]].
Lemma exinv_size : size_kept exinv.
Proof.
  intros m D [H1 H2]. unfold exinv. destruct D as [|r1 [|r2 [|r3 D]]]; try (split; auto; fail).
  - destruct r1 as [|a [|b [|]]]; try (split; auto; fail).
  - destruct r1 as [|a [|b [|c r1]]]; try (split; auto; fail). destruct r2 as [|c [|d [|e r2]]]; try (split; auto; fail).
    cbn in H1. subst m. destruct (_ =? _)%Z; split; auto; intros [|[|i]] Hi; cbn; auto; lia.
  - destruct r1 as [|a [|b [|c r1]]]; try (split; auto; fail). destruct r2 as [|c [|d [|e r2]]]; split; auto.
Qed.
Lemma exA2_input : dsm_input 4 exA2 (Some [true; false; true; true]) [].
Proof.
  split; [|split; [|split; [|split; [|split]]]]; auto.
  - split. reflexivity. apply (forall_lt4 (fun i => forall p, In p (getrow exA2 i) -> fst p < 4)); [cbn; intros p [<-|[<-|[]]]; cbn; lia ..|].
    intros r Hr p H. unfold getrow in H. rewrite nth_overflow in H by (cbn; lia). destruct H.
  - unfold increasing. apply (forall_lt4 (fun i => StronglySorted lt (map fst (getrow exA2 i)))); [cbn; repeat constructor; lia ..|]. intros r Hr. unfold getrow. rewrite nth_overflow by (cbn; lia). constructor.
  - intros i j v H. destruct (Nat.lt_ge_cases i 4) as [Hi|Hi]. 2:{ unfold getrow in H. rewrite nth_overflow in H by (cbn; lia). destruct H. }
    do 4 (destruct i as [|i]; [cbn in H; destruct H as [[= <- <-]|[[= <- <-]|[]]]; cbn; tauto|]). lia.
  - intros r Hr. left. do 4 (destruct r as [|r]; [cbn; tauto|]). lia.
Qed.
Lemma exA2_inv : exact_inverse exinv (1%Z : M ZBlk) exA2 (Some [true; false; true; true]) [].
Proof.
  split. intros x. cbn. destruct x; reflexivity.
  intros r Hr. cbn in Hr. assert (C : pclass exA2 r = [0; 1] /\ r < 2 \/ pclass exA2 r = [2; 3] /\ 2 <= r).
  { do 4 (destruct r as [|r]; [first [left; split; [vm_compute; reflexivity|lia] | right; split; [vm_compute; reflexivity|lia]]|]). lia. }
  assert (E1 : fix_block (1%Z : M ZBlk) exA2 (Some [true; false; true; true]) [] [0; 1] = [[(1)%Z; (0)%Z]; [(0)%Z; (1)%Z]]) by reflexivity.
  assert (E2 : fix_block (1%Z : M ZBlk) exA2 (Some [true; false; true; true]) [] [2; 3] = [[(3)%Z; (4)%Z]; [(4)%Z; (5)%Z]]) by reflexivity.
  destruct C as [[-> _]|[-> _]]; rewrite ?E1, ?E2; intros h Hh; destruct h as [|u [|v [|]]]; cbn in Hh; try lia; change Z in u, v.
  - change (exinv [[(1)%Z; (0)%Z]; [(0)%Z; (1)%Z]]) with [[(1)%Z; (0)%Z]; [(0)%Z; (1)%Z]].
    change ([((0 + 1 * (0 + 1 * u + 0 * v)) + 0 * (0 + 0 * u + 1 * v)); ((0 + 0 * (0 + 1 * u + 0 * v)) + 1 * (0 + 0 * u + 1 * v))]%Z = [u; v] /\
            [((0 + 1 * (0 + 1 * u + 0 * v)) + 0 * (0 + 0 * u + 1 * v)); ((0 + 0 * (0 + 1 * u + 0 * v)) + 1 * (0 + 0 * u + 1 * v))]%Z = [u; v]).
    split; f_equal; try ring; f_equal; ring.
  - change (exinv [[(3)%Z; (4)%Z]; [(4)%Z; (5)%Z]]) with [[(-5)%Z; (4)%Z]; [(4)%Z; (-3)%Z]].
    change ([((0 + 3 * (0 + -5 * u + 4 * v)) + 4 * (0 + 4 * u + -3 * v)); ((0 + 4 * (0 + -5 * u + 4 * v)) + 5 * (0 + 4 * u + -3 * v))]%Z = [u; v] /\
            [((0 + -5 * (0 + 3 * u + 4 * v)) + 4 * (0 + 4 * u + 5 * v)); ((0 + 4 * (0 + 3 * u + 4 * v)) + -3 * (0 + 4 * u + 5 * v))]%Z = [u; v]).
    split; f_equal; try ring; f_equal; ring.
Qed.
Example C70_nonvacuous : exists D S, ConvertToDynSPM isort exA2 = Ret D /\ DynBlockSmoother exinv (1%Z : M ZBlk) D (Some [true; false; true; true]) [] 1%Z = Ret S /\
  SmoothImpl S false [0;7;0;0]%Z [1;2;3;4]%Z [0;0;0;0]%Z false true false = Ret ([-6;7;1;0]%Z, [0;-6;0;0]%Z).
Proof. eexists. eexists. split; [vm_compute; reflexivity|]. split; vm_compute; reflexivity. Qed.
