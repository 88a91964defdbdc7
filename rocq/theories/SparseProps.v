(** Properties C04 (MergeArrays) and C08-C14: sparse matrix kernels. *)
From Verif Require Import Base ArraysModel AGroup LinAlg LinTools Instances SparseModel SparseSpec SparseProofs SparseProofs2 SparseProofs3 MergeModel MergeProofs.
Open Scope nat_scope.

(** *** C04: the hashed queue merge for any number of rows *)
Theorem C04_MergeArrays : forall rows : list (list Z), (forall r, In r rows -> StronglySorted Z.lt r) ->
  (forall r v, In r rows -> In v r -> (0 <= v < INT_MAX)%Z) ->
  exists out, MergeArrays rows = Ret out /\ StronglySorted Z.lt out /\ (forall v, In v out <-> exists r, In r rows /\ In v r).
Proof. exact MergeArrays_ok. Qed.
Print Assumptions C04_MergeArrays.
(** for more than 16 rows the upper bound is not needed *)
Theorem C04_MergeArrays_queue : forall rows : list (list Z), 16 < length rows -> (forall r, In r rows -> StronglySorted Z.lt r) ->
  (forall r v, In r rows -> In v r -> (0 <= v)%Z) ->
  exists out, MergeArrays rows = Ret out /\ StronglySorted Z.lt out /\ (forall v, In v out <-> exists r, In r rows /\ In v r).
Proof.
  intros rows H S P. unfold MergeArrays. destruct (Nat.leb_spec (length rows) 16); [lia|]. now apply MergeArraysQ_ok.
Qed.
Print Assumptions C04_MergeArrays_queue.
Definition ex_rows17 : list (list Z) := ([[5;1029;2000];[];[0;7;2053];[3;1027]] ++ repeat [4;5;6;1028] 14)%Z.
Example C04_MergeArrays_ex : 16 < length ex_rows17 /\ MergeArrays ex_rows17 = Ret [0;3;4;5;6;7;1027;1028;1029;2000;2053]%Z.
Proof. split; [vm_compute; lia|vm_compute; reflexivity]. Qed.
(** non-negativity is needed: the hash array is initialised with -1, a value -1 is lost *)
Theorem C04_MergeArrays_negative_refuted : exists rows : list (list Z), (forall r, In r rows -> StronglySorted Z.lt r) /\
  exists out, MergeArrays rows = Ret out /\ exists r v, In r rows /\ In v r /\ ~ In v out.
Proof.
  exists ([-1] :: repeat [] 16)%Z. split.
  - intros r [<-|H]; [repeat constructor|]. apply repeat_spec in H. subst. constructor.
  - exists []. split; [vm_compute; reflexivity|]. exists [(-1)%Z], (-1)%Z. repeat split; simpl; auto.
Qed.
Print Assumptions C04_MergeArrays_negative_refuted.

(** *** C08: transpose *)
Theorem C08_transpose_entries : forall (E F : Type) (tr : E -> F) (w : nat) (A : smat E),
  width_ok w A -> (forall r, In r A -> StronglySorted lt (cols r)) ->
  exists T, TransposeSPM tr w A = Ret T /\ length T = w /\
    (forall r, In r T -> StronglySorted lt (cols r)) /\
    (forall i j v, In (i, v) (nth j T []) <-> exists u, In (j, u) (nth i A []) /\ v = tr u).
Proof.
  intros E F tr w A W S. rewrite (TransposeSPM_ok tr w A) by exact W. eexists. split; [reflexivity|].
  split; [now rewrite map_length, seq_length|].
  assert (ND : forall r, In r A -> NoDup (cols r)).
  { intros r Hr. specialize (S r Hr). clear -S. induction S; constructor; auto. intros C. rewrite Forall_forall in H. specialize (H _ C). lia. }
  split.
  - intros r Hr. apply in_map_iff in Hr as (c & <- & _). apply (trans_row_sorted tr A c ND).
  - intros i j v. destruct (Nat.lt_ge_cases j w) as [H|H].
    + rewrite nth_map_seq by auto. rewrite in_bucket, in_trans_items. split; [intros (_ & u & Hu); eauto|].
      intros (u & Hu & ->). split; [|eauto]. destruct (Nat.lt_ge_cases i (length A)); auto. rewrite nth_overflow in Hu by auto. destruct Hu.
    + rewrite nth_overflow by now rewrite map_length, seq_length. split; [intros []|]. intros (u & Hu & _).
      destruct (Nat.lt_ge_cases i (length A)) as [C|C]; [|rewrite nth_overflow in Hu by auto; destruct Hu].
      specialize (W _ _ (nth_In A [] C) Hu). simpl in W. lia.
Qed.
Print Assumptions C08_transpose_entries.
Theorem C08_transpose_twice : forall (E F : Type) (tr : E -> F) (rt : F -> E) (w : nat) (A : smat E),
  (forall e, rt (tr e) = e) -> width_ok w A -> (forall r, In r A -> StronglySorted lt (cols r)) ->
  exists T, TransposeSPM tr w A = Ret T /\ TransposeSPM rt (length A) T = Ret A.
Proof. intros E F tr rt w A H W S. apply Transpose_twice; auto. intros r Hr. split; [now apply S|]. intros p Hp. now apply (W r p). Qed.
Print Assumptions C08_transpose_twice.
(** a stored column at or above the declared width makes the counting loop leave its array *)
Theorem C08_transpose_out_of_bounds : forall (E F : Type) (tr : E -> F) (w : nat) (A : smat E) (r : srow E) (p : nat * E),
  In r A -> In p r -> w <= fst p -> TransposeSPM tr w A = Err OutOfBounds.
Proof.
  intros E F tr w A r [c v] Hr Hp Hw. unfold TransposeSPM, count_fill. apply (In_nth _ _ []) in Hr as (i & Hi & <-).
  rewrite (count_items_oob w (trans_items tr A) (c, (i, tr v))); auto. apply in_trans_items. split; auto. eauto.
Qed.
Print Assumptions C08_transpose_out_of_bounds.
Example C08_ex : TransposeSPM (fun v : Z => v) 3 [[(0, 1%Z);(2, 2%Z)];[];[(0, 3%Z);(1, 4%Z);(2, 5%Z)];[(1, 6%Z)]] =
   Ret [[(0, 1%Z);(2, 3%Z)];[(2, 4%Z);(3, 6%Z)];[(0, 2%Z);(2, 5%Z)]].
Proof. vm_compute. reflexivity. Qed.

(** *** C09: product *)
Section Product.
  Context {EA EB EC : Type} (a0 : EA) (aadd : EA -> EA -> EA) (b0 : EB) (badd : EB -> EB -> EB) (c0 : EC) (cadd : EC -> EC -> EC) (mul : EA -> EB -> EC).
  (** [sizes]: any cut of the rows into tasks; [garbage]: any content of the uninitialised hash arrays *)
  Theorem C09_product : CMon c0 cadd -> Bilin a0 aadd b0 badd c0 cadd mul ->
    forall (w : nat) (sizes : list nat) (garbage : nat -> nat -> hash) (A : smat EA) (Bm : smat EB),
    (forall t n, length (garbage t n) = n) -> list_sum sizes = length A -> (Z.of_nat w <= INT_MAX)%Z ->
    width_ok (length Bm) A -> width_ok w Bm -> (forall r, In r Bm -> StronglySorted lt (cols r)) ->
    exists C, MatMultAB mul c0 cadd MergeCols sizes garbage A Bm = Ret C /\ length C = length A /\
      (forall r, In r C -> StronglySorted lt (cols r)) /\
      (forall i j, i < length A -> (In j (cols (nth i C [])) <-> exists k, In k (cols (nth i A [])) /\ In j (cols (nth k Bm [])))) /\
      (forall i j, i < length A -> sent c0 cadd C i j = sumN c0 cadd (length Bm) (fun k => mul (sent a0 aadd A i k) (sent b0 badd Bm k j))) /\
      (forall sizes' garbage' old, (forall t n, length (garbage' t n) = n) -> list_sum sizes' = length A -> map cols old = map cols C ->
         MatMultABUpdateVals mul c0 cadd sizes' garbage' A Bm old = Ret C).
  Proof.
    intros CM BL w sizes garbage A Bm G S IM WA WB SB.
    destruct (MatMultAB_ok mul c0 cadd CM w MergeCols (MergeCols_ok w IM) a0 aadd b0 badd BL sizes garbage A Bm) as (C & E & LC & P & V & U); auto.
    exists C. split; auto. split; auto. split; [|split; [|split; auto]].
    - intros r Hr. apply (In_nth _ _ []) in Hr as (i & Hi & <-). apply P. rewrite <- LC. exact Hi.
    - intros i j Hi. apply P. exact Hi.
  Qed.
End Product.
Print Assumptions C09_product.
Definition ZCM : CMon 0%Z Z.add. Proof. constructor; intros; ring. Qed.
Definition ZBL : Bilin 0%Z Z.add 0%Z Z.add 0%Z Z.add Z.mul. Proof. constructor; intros; ring. Qed.
Definition ex_pA : smat Z := [[(0, 1%Z);(2, 2%Z)];[(1, (-1)%Z)];[]].
Definition ex_pB : smat Z := [[(0, 3%Z);(3, 1%Z)];[(1, 5%Z)];[(0, 7%Z);(1, 1%Z);(3, 2%Z)]].
Definition ex_garb : nat -> nat -> hash := fun t n => repeat (0%Z, 3) n.
Example C09_ex : MatMultAB Z.mul 0%Z Z.add MergeCols [2;1] ex_garb ex_pA ex_pB = Ret [[(0, 17%Z);(1, 2%Z);(3, 5%Z)];[(1, (-5)%Z)];[]] /\
  (forall t n, length (ex_garb t n) = n) /\ width_ok (length ex_pB) ex_pA /\ width_ok 4 ex_pB /\ (forall r, In r ex_pB -> StronglySorted lt (cols r)).
Proof.
  split; [vm_compute; reflexivity|]. split; [intros; apply repeat_length|]. split; [|split].
  - intros r p Hr Hp; simpl in Hr; decompose [or] Hr; subst; simpl in Hp; decompose [or] Hp; subst; simpl; try lia; try tauto.
  - intros r p Hr Hp; simpl in Hr; decompose [or] Hr; subst; simpl in Hp; decompose [or] Hp; subst; simpl; try lia; try tauto.
  - intros r Hr; simpl in Hr; decompose [or] Hr; subst; try tauto; simpl; repeat constructor; lia.
Qed.

Local Ltac ilia := unfold srow, smat in *; lia.
(** *** C10: Galerkin restriction *)
(** multiplication of block entries: compatible with addition, with the action on vectors and with transposition *)
Record MMulLaws (B : Blk) (mmul : M B -> M B -> M B) : Prop := {
  mm_mon : CMon (@m0 B) madd; mm_bilin : Bilin (@m0 B) madd m0 madd m0 madd mmul;
  mm_act : forall a b x, act (mmul a b) x = act a (act b x);
  mm_assoc : forall a b c, mmul a (mmul b c) = mmul (mmul a b) c;
  mm_tr : forall a b, mtr (mmul a b) = mmul (mtr b) (mtr a);
  mm_trtr : forall a : M B, mtr (mtr a) = a }.
Theorem C10_restrict_acts_as_PTAP : forall (B : Blk), BlkLaws B -> forall (mmul : M B -> M B -> M B), MMulLaws B mmul ->
  forall (n m : nat) (s1 s2 : list nat) (g1 g2 : nat -> nat -> hash) (PT A P : smat (M B)),
  (forall t k, length (g1 t k) = k) -> (forall t k, length (g2 t k) = k) -> list_sum s1 = m -> list_sum s2 = m ->
  length PT = m -> length A = n -> length P = n -> (Z.of_nat n <= INT_MAX)%Z -> (Z.of_nat m <= INT_MAX)%Z ->
  width_ok n PT -> width_ok n A -> width_ok m P ->
  (forall r, In r A -> StronglySorted lt (cols r)) -> (forall r, In r P -> StronglySorted lt (cols r)) ->
  exists C, RestrictMatrix mmul m0 madd MergeCols s1 s2 g1 g2 PT A P = Ret C /\ length C = m /\ width_ok m C /\
    (forall r, In r C -> StronglySorted lt (cols r)) /\
    (forall y : list (X B), matvec C y = matvec PT (matvec A (matvec P y))) /\
    (sym_mat n A -> (forall i k, i < m -> k < n -> entry PT i k = mtr (entry P k i)) -> sym_mat m C).
Proof.
  intros B L mmul [L1 L2 L3 L4 L5 L6] n m s1 s2 g1 g2 PT A P G1 G2 S1 S2 LP LA LPP IN IM W1 W2 W3 SA SP. destruct LP. destruct LA.
  rewrite <- LPP in W2 at 1.
  destruct (Restrict_ok L mmul L1 L2 L3 (Nat.max (length PT) (length A)) MergeCols (MergeCols_ok (Nat.max (length PT) (length A)) ltac:(ilia)) s1 s2 g1 g2 PT A P)
    as (C & E & LC & _ & SC & AC & VC); auto; try lia.
  { intros r p Hr Hp. specialize (W3 r p Hr Hp). lia. }
  exists C. split; auto. split; auto. split; [|split; [auto|split; auto]].
  - (* the columns of C are columns of P *)
    unfold RestrictMatrix in E. destruct (MatMultAB mmul m0 madd MergeCols s1 g1 PT A) as [D|] eqn:ED; [|discriminate]. cbn [bind] in E.
    assert (WAw : width_ok (length P) A) by exact W2.
    destruct (MatMultAB_ok mmul m0 madd L1 (length P) MergeCols (MergeCols_ok (length P) ltac:(ilia)) m0 madd m0 madd L2 s1 g1 PT A) as (D' & E' & LD & PD & _); auto.
    rewrite ED in E'. inversion E'; subst D'. clear E'.
    assert (WD : width_ok (length P) D).
    { intros r p Hr Hp. apply (In_nth _ _ []) in Hr as (i & Hi0 & <-). assert (Hi : i < length PT) by (rewrite <- LD; exact Hi0). destruct (PD i Hi) as [_ PI].
      assert (Hj : In (fst p) (cols (nth i D []))) by (now apply in_map). apply PI in Hj as (k & Hk & Hj).
      unfold cols in Hj. apply in_map_iff in Hj as (q & <- & Hq). unfold cols in Hk. apply in_map_iff in Hk as (pa & Ek & Hpa).
      assert (fst pa < length A) by (apply (W1 (nth i PT [])); auto; apply nth_In; auto).
      apply (W2 (nth k A [])); auto. apply nth_In. lia. }
    destruct (MatMultAB_act L mmul L1 L2 L3 (length PT) MergeCols (MergeCols_ok (length PT) ltac:(ilia)) s2 g2 D P) as (C' & E' & _ & WC & _); auto; try congruence.
    rewrite E in E'. inversion E'; subst. exact WC.
  - intros SY HT. apply (restrict_sym L mmul L1 L2 L5 L6 L4 (length A) (length PT) PT A P C); auto.
    intros i j Hi. rewrite VC by auto. rewrite LPP. reflexivity.
Qed.
Print Assumptions C10_restrict_acts_as_PTAP.
Theorem C10_restrict_keep_factor : forall (B : Blk), BlkLaws B -> forall (mmul : M B -> M B -> M B), MMulLaws B mmul ->
  forall (n m : nat) (s1 s2 : list nat) (g1 g2 : nat -> nat -> hash) (PT A P : smat (M B)),
  (forall t k, length (g1 t k) = k) -> (forall t k, length (g2 t k) = k) -> list_sum s1 = n -> list_sum s2 = m ->
  length PT = m -> length A = n -> length P = n -> (Z.of_nat m <= INT_MAX)%Z ->
  width_ok n PT -> width_ok n A -> width_ok m P -> (forall r, In r P -> StronglySorted lt (cols r)) ->
  exists AP C, RestrictMatrixKeepFactor mmul m0 madd MergeCols s1 s2 g1 g2 A P PT = Ret (AP, C) /\ length AP = n /\ length C = m /\ width_ok m C /\
    (forall y : list (X B), matvec AP y = matvec A (matvec P y)) /\
    (forall y : list (X B), matvec C y = matvec PT (matvec A (matvec P y))).
Proof.
  intros B L mmul [L1 L2 L3 L4 L5 L6] n m s1 s2 g1 g2 PT A P G1 G2 S1 S2 LP LA LPP IM W1 W2 W3 SP. destruct LP. destruct LA.
  rewrite <- LPP in W2 at 1.
  destruct (RestrictKeep_ok L mmul L1 L2 L3 (length PT) MergeCols (MergeCols_ok (length PT) ltac:(ilia)) s1 s2 g1 g2 PT A P) as (AP & C & E & LAP & LC & WC & A1 & A2); auto; try lia.
  exists AP, C. repeat (split; auto).
Qed.
Print Assumptions C10_restrict_keep_factor.
Lemma Z_mmul : MMulLaws ZBlk Z.mul.
Proof. constructor; simpl; intros; try ring; constructor; intros; ring. Qed.
(** 2x2 blocks (non-commuting products) *)
Definition zmmul (a b : ZM) : ZM :=
  ((zmact (zmtr b) (fst a)), (zmact (zmtr b) (snd a))).
Lemma Z2_mmul : MMulLaws Z2Blk zmmul.
Proof.
  constructor; [constructor|constructor|..]; cbn [Z2Blk M X m0 madd mtr act]; unfold ZM, Z2; intros;
  repeat match goal with a : (_ * _)%type |- _ => destruct a end; unfold zmmul, zmact, zmtr, zmadd, z2add, z2dot; cbn [fst snd];
  repeat apply (f_equal2 pair); ring.
Qed.
Definition ex_P : smat Z := [[(0, 1%Z)];[(0, 1%Z)];[(1, 2%Z)]].
Definition ex_PT : smat Z := [[(0, 1%Z);(1, 1%Z)];[(2, 2%Z)]].
Definition ex_fA : smat Z := [[(0, 2%Z);(1, (-1)%Z)];[(0, (-1)%Z);(1, 2%Z);(2, (-1)%Z)];[(1, (-1)%Z);(2, 2%Z)]].
Example C10_ex : RestrictMatrix Z.mul 0%Z Z.add MergeCols [1;1] [2] ex_garb ex_garb ex_PT ex_fA ex_P = Ret [[(0, 2%Z);(1, (-2)%Z)];[(0, (-2)%Z);(1, 8%Z)]] /\
  @sym_mat ZBlk 3 ex_fA /\ (forall i k, i < 2 -> k < 3 -> @entry ZBlk ex_PT i k = mtr (@entry ZBlk ex_P k i)).
Proof.
  split; [vm_compute; reflexivity|]. split; [sym_tac|].
  intros i k Hi Hk. destruct i as [|[|i]]; [| |lia]; destruct k as [|[|[|k]]]; try lia; reflexivity.
Qed.

(** *** C11 *)
Theorem C11_permutation_matrix : forall (B : Blk), BlkLaws B -> forall (one : M B), (forall x, act one x = x) ->
  forall (sort : list nat) (x : list (X B)), matvec (BuildPermutationMatrix one sort) x = map (fun s => nth s x x0) sort.
Proof.
  intros B L one H sort x. unfold matvec, BuildPermutationMatrix. rewrite map_map. apply map_ext. intros s.
  rewrite (row_times_cons L), (row_times_nil), H. cbn [fst snd]. unfold ent. ag (lawX B L).
Qed.
Print Assumptions C11_permutation_matrix.
Theorem C11_embed : forall (E : Type) (off bigH : nat) (A : smat E), off + length A <= bigH ->
  exists C, EmbedSparseMatrix off bigH A = Ret C /\ length C = bigH /\
    (forall i, i < length A -> nth (off + i) C [] = nth i A []) /\
    (forall k, k < off \/ off + length A <= k -> nth k C [] = []).
Proof. intros E. exact (Embed_ok (E:=E)). Qed.
Print Assumptions C11_embed.
Theorem C11_embed_out_of_bounds : forall (E : Type) (off bigH : nat) (A : smat E), A <> [] -> bigH < off + length A ->
  EmbedSparseMatrix off bigH A = Err OutOfBounds.
Proof. intros E. exact (Embed_oob (E:=E)). Qed.
Print Assumptions C11_embed_out_of_bounds.
Theorem C11_AddSPM : forall (E S : Type) (e0 : E) (eadd : E -> E -> E) (esc : S -> E -> E), CMon e0 eadd ->
  (forall c, esc c e0 = e0) -> (forall c a b, esc c (eadd a b) = eadd (esc c a) (esc c b)) ->
  forall (alpha beta : S) (A Bm : smat E), map cols A = map cols Bm ->
  exists C, AddSPM eadd esc alpha beta A Bm = Ret C /\ map cols C = map cols A /\
    forall i j, sent e0 eadd C i j = eadd (esc alpha (sent e0 eadd A i j)) (esc beta (sent e0 eadd Bm i j)).
Proof. intros E S e0 eadd esc CM H1 H2. exact (AddSPM_ok e0 eadd CM esc H1 H2). Qed.
Print Assumptions C11_AddSPM.
Example C11_ex : AddSPM Z.add Z.mul 2%Z 3%Z [[(0, 1%Z);(4, 2%Z)];[]] [[(0, 10%Z);(4, 20%Z)];[]] = Ret [[(0, 32%Z);(4, 64%Z)];[]] /\
  EmbedSparseMatrix 1 4 [[(0, 1%Z);(4, 2%Z)];[(1, 7%Z)]] = Ret [[];[(0, 1%Z);(4, 2%Z)];[(1, 7%Z)];[]].
Proof. split; reflexivity. Qed.

(** *** C12: AddMergeSPM does not compute alpha A + beta B *)
Theorem C12_addmerge_refuted : exists (alpha beta : Z) (A Bm C : smat Z),
  (forall r, In r A -> StronglySorted lt (cols r)) /\ (forall r, In r Bm -> StronglySorted lt (cols r)) /\
  AddMergeSPM Z.add alpha beta A Bm = Ret C /\ alpha = 1%Z /\ beta = 1%Z /\
  exists i j, sent 0%Z Z.add C i j <> (alpha * sent 0%Z Z.add A i j + beta * sent 0%Z Z.add Bm i j)%Z.
Proof.
  exists 1%Z, 1%Z, [[(0, 1%Z);(1, 2%Z)]], [[(0, 10%Z);(2, 30%Z)]]. eexists. split; [|split; [|split; [vm_compute; reflexivity|split; [auto|split; [auto|]]]]].
  - intros r [<-|[]]; simpl; repeat constructor; lia.
  - intros r [<-|[]]; simpl; repeat constructor; lia.
  - exists 0, 0. vm_compute. discriminate.
Qed.
Print Assumptions C12_addmerge_refuted.
(** it can also leave the row of A *)
Theorem C12_addmerge_out_of_bounds_refuted : exists (A Bm : smat Z),
  (forall r, In r A -> StronglySorted lt (cols r)) /\ (forall r, In r Bm -> StronglySorted lt (cols r)) /\ AddMergeSPM Z.add 1%Z 1%Z A Bm = Err OutOfBounds.
Proof.
  exists [[(0, 1%Z)]], [[(1, 10%Z);(2, 30%Z)]]. split; [|split; [|vm_compute; reflexivity]]; intros r [<-|[]]; simpl; repeat constructor; lia.
Qed.
Print Assumptions C12_addmerge_out_of_bounds_refuted.
(** the scalars are ignored *)
Theorem C12_addmerge_scalars_ignored : forall (E S : Type) (eadd : E -> E -> E) (alpha beta alpha' beta' : S) (A Bm : smat E),
  AddMergeSPM eadd alpha beta A Bm = AddMergeSPM eadd alpha' beta' A Bm.
Proof.
  intros. revert Bm. induction A as [|ra A IH]; intros [|rb Bm]; auto. cbn [AddMergeSPM]. rewrite IH. reflexivity.
Qed.
Print Assumptions C12_addmerge_scalars_ignored.
(** what does hold: the sum is right for alpha = beta = 1 if in every row one of the two matrices stores nothing *)
Theorem C12_addmerge_partial : forall (E S : Type) (e0 : E) (eadd : E -> E -> E), CMon e0 eadd ->
  forall (alpha beta : S) (A Bm : smat E), length A = length Bm -> (forall i, nth i A [] = [] \/ nth i Bm [] = []) ->
  exists C, AddMergeSPM eadd alpha beta A Bm = Ret C /\ forall i j, sent e0 eadd C i j = eadd (sent e0 eadd A i j) (sent e0 eadd Bm i j).
Proof.
  intros E S e0 eadd [C0 CC CA] alpha beta A. induction A as [|ra A IH]; intros [|rb Bm] HL HE; try discriminate.
  - exists []. split; auto. intros i j. unfold sent. destruct i; simpl; now rewrite C0.
  - destruct (IH Bm) as (C & E1 & E2); [simpl in HL; lia|intros i; apply (HE (Datatypes.S i))|].
    cbn [AddMergeSPM]. pose proof (HE 0) as H0. simpl in H0.
    assert (R : exists rc, add_merge_row eadd ra rb = Ret rc /\ forall j, rent e0 eadd rc j = eadd (rent e0 eadd ra j) (rent e0 eadd rb j)).
    { unfold add_merge_row. destruct H0 as [-> | ->].
      - destruct rb; [exists []|eexists]; (split; [reflexivity|]); intros; simpl; now rewrite C0.
      - exists ra. split; auto. intros. simpl. now rewrite CC, C0. }
    destruct R as (rc & -> & R). cbn [bind]. rewrite E1. cbn [bind]. exists (rc :: C). split; auto.
    intros [|i] j; unfold sent; simpl; auto. apply E2.
Qed.
Print Assumptions C12_addmerge_partial.
Example C12_ex : AddMergeSPM Z.add tt tt [[(0, 1%Z)];[];[(2, 5%Z)]] [[];[(1, 4%Z);(3, 6%Z)];[]] = Ret [[(0, 1%Z)];[(1, 4%Z);(3, 6%Z)];[(2, 5%Z)]].
Proof. reflexivity. Qed.

(** *** C13: CompressA *)
Theorem C13_compress_exact : forall (E : Type) (keep : E -> bool) (A : smat E),
  CompressA keep A = Ret (map (filter (fun p => keep (snd p))) A).
Proof. intros E. exact (Compress_ok (E:=E)). Qed.
Print Assumptions C13_compress_exact.
(** block entries: sum of absolute values; with tolerance 0 nothing but zero blocks is dropped *)
Lemma abssum_pos (x : list Z) : (abssum_mat x >? 0)%Z = false -> x = repeat 0%Z (length x).
Proof.
  unfold abssum_mat. assert (G : forall x s, (0 <= s)%Z -> (s <= fold_left (fun s a => s + Z.abs a) x s)%Z).
  { induction x0 as [|a x0 IH]; simpl; intros s Hs; [lia|]. specialize (IH (s + Z.abs a)%Z ltac:(lia)). lia. }
  assert (G2 : forall s, (0 <= s)%Z -> (fold_left (fun s a => s + Z.abs a) x s <= s)%Z -> x = repeat 0%Z (length x)).
  { induction x as [|a x IH]; simpl; intros s Hs Hf; auto. pose proof (G x (s + Z.abs a)%Z ltac:(lia)).
    assert (a = 0%Z) by lia. subst. f_equal. apply (IH s); auto. now rewrite Z.abs_0, Z.add_0_r in Hf. }
  intros H. apply (G2 0%Z); [lia|]. destruct (Z.gtb_spec (fold_left (fun s a => s + Z.abs a) x 0) 0)%Z; [discriminate|lia].
Qed.
Definition vadd4 (a b : list Z) : list Z := map (fun p => (fst p + snd p)%Z) (combine a b).
Theorem C13_compress_blocks : forall (k : nat) (A : smat (list Z)), (forall r p, In r A -> In p r -> length (snd p) = k) ->
  exists C, CompressA (fun v => (abssum_mat v >? 0)%Z) A = Ret C /\ length C = length A /\
    (forall i c v, In (c, v) (nth i C []) <-> In (c, v) (nth i A []) /\ v <> repeat 0%Z k).
Proof.
  intros k A HK. rewrite Compress_ok. eexists. split; [reflexivity|]. split; [apply map_length|].
  intros i c v. change (@nil (nat * list Z)) with (filter (fun p : nat * list Z => (abssum_mat (snd p) >? 0)%Z) []) at 1.
  rewrite map_nth, filter_In. simpl. split; intros [H1 H2]; split; auto.
  - intros ->. clear - H2. unfold abssum_mat in H2. assert (G : fold_left (fun s a => (s + Z.abs a)%Z) (repeat 0%Z k) 0%Z = 0%Z) by (induction k; simpl; auto).
    rewrite G in H2. discriminate.
  - destruct (abssum_mat v >? 0)%Z eqn:E; auto. exfalso. apply H2. apply abssum_pos in E.
    assert (L : length v = k). { destruct (Nat.lt_ge_cases i (length A)) as [C|C]; [exact (HK _ _ (nth_In A [] C) H1)|]. rewrite nth_overflow in H1 by auto. destruct H1. }
    now rewrite L in E.
Qed.
Print Assumptions C13_compress_blocks.
(** scalar matrices: abssum_tm(double x) returns x, so the matrix loses all negative entries *)
Theorem C13_compress_scalar_refuted : exists (A C : smat Z), (forall r, In r A -> StronglySorted lt (cols r)) /\
  CompressA (fun v => (abssum_scal v >? 0)%Z) A = Ret C /\ exists i j, sent 0%Z Z.add C i j <> sent 0%Z Z.add A i j.
Proof.
  exists ex_fA. eexists. split; [|split; [vm_compute; reflexivity|]].
  - intros r Hr; simpl in Hr; decompose [or] Hr; subst; try tauto; simpl; repeat constructor; lia.
  - exists 0, 1. vm_compute. discriminate.
Qed.
Print Assumptions C13_compress_scalar_refuted.
(** scalar matrices: exactly the positive entries survive, so the operator is kept when no entry is negative *)
Theorem C13_compress_scalar_partial : forall (A : smat Z), (forall r p, In r A -> In p r -> (0 <= snd p)%Z) ->
  exists C, CompressA (fun v => (abssum_scal v >? 0)%Z) A = Ret C /\ length C = length A /\ forall i j, sent 0%Z Z.add C i j = sent 0%Z Z.add A i j.
Proof.
  intros A H. apply (Compress_entries 0%Z Z.add ZCM). intros r p Hr Hp K. specialize (H r p Hr Hp). unfold abssum_scal in K.
  destruct (Z.gtb_spec (snd p) 0); [discriminate|lia].
Qed.
Print Assumptions C13_compress_scalar_partial.
Example C13_ex : CompressA (fun v => (abssum_mat v >? 0)%Z) [[(0, [0;0]%Z);(2, [-1;1]%Z)];[(1, [0;3]%Z);(2, [0;0]%Z)]] = Ret [[(2, [-1;1]%Z)];[(1, [0;3]%Z)]].
Proof. reflexivity. Qed.

(** *** C14: the "identity" has all its entries in column 1 *)
Theorem C14_identity_actual : forall (B : Blk), BlkLaws B -> forall (one : M B), (forall x, act one x = x) -> forall (n : nat) (x : list (X B)),
  matvec (createSparseIdentity one n None) x = repeat (nth 1 x x0) n.
Proof.
  intros B L one H n x. unfold createSparseIdentity, matvec. rewrite map_map. rewrite (map_ext _ (fun _ => nth 1 x x0)).
  - clear. rewrite <- (seq_length n 0) at 2. induction (seq 0 n); simpl; auto. now f_equal.
  - intros k. rewrite (row_times_cons L), row_times_nil, H. cbn [fst snd]. unfold ent. ag (lawX B L).
Qed.
Print Assumptions C14_identity_actual.
Theorem C14_identity_refuted : forall n, 2 <= n -> exists x : list Z, length x = n /\ @matvec ZBlk (createSparseIdentity 1%Z n None) x <> x.
Proof.
  intros n H. exists (1%Z :: repeat 0%Z (n - 1)). split; [simpl; rewrite repeat_length; lia|].
  assert (O1 : forall x : X ZBlk, act (b:=ZBlk) 1%Z x = x) by (intros; simpl; destruct x; reflexivity).
  rewrite (C14_identity_actual ZBlk ZLaws 1%Z O1). destruct n as [|[|n]]; try lia. simpl. discriminate.
Qed.
Print Assumptions C14_identity_refuted.
(** for one row the only column index (1) is outside the matrix *)
Theorem C14_identity_one_row_refuted : ~ width_ok 1 (createSparseIdentity 1%Z 1 None).
Proof. intros H. specialize (H [(1, 1%Z)] (1, 1%Z)). simpl in H. specialize (H (or_introl eq_refl) (or_introl eq_refl)). lia. Qed.
Print Assumptions C14_identity_one_row_refuted.
(** block assembly: after the offset loops no column offset has been written and the total width is 0, for every layout;
    the row offsets of the first block columns hold values at or above the true total height *)
Lemma offs_ok : forall (l : list nat) (off : list (option nat)) tot s, s + length l <= length off ->
  exists off', foldM (fun st ih => let '(off, tot) := st in off <- wr off (fst ih) (Some tot) ;; Ret (off, tot + snd ih)) (combine (seq s (length l)) l) (off, tot) = Ret (off', tot + list_sum l) /\
    length off' = length off /\ (forall k, k < s \/ s + length l <= k -> nth k off' None = nth k off None) /\
    (forall k, k < length l -> nth (s + k) off' None = Some (tot + list_sum (firstn k l))).
Proof.
  induction l as [|a l IH]; intros off tot s H; cbn [length seq combine foldM list_sum fold_right].
  - exists off. rewrite Nat.add_0_r. repeat split; auto. intros; simpl in *; lia.
  - cbn [fst snd]. simpl in H. rewrite wr_ok by lia. cbn [bind]. destruct (IH (upd off s (Some tot)) (tot + a) (S s)) as (off' & E & L' & N1 & N2).
    { rewrite upd_length. lia. }
    rewrite E. exists off'. split; [f_equal; f_equal; change (fold_right Nat.add 0 l) with (list_sum l); lia|]. rewrite upd_length in L'. split; auto. split.
    + intros k Hk. rewrite N1 by lia. apply nth_upd_neq. lia.
    + intros [|k] Hk. * rewrite Nat.add_0_r, N1, nth_upd_eq by lia. simpl. f_equal. lia.
      * replace (s + S k) with (S s + k) by lia. rewrite N2 by lia. cbn [firstn]. change (list_sum (a :: firstn k l)) with (a + list_sum (firstn k l)). f_equal. lia.
Qed.
Theorem C14_block_offsets_refuted : forall hs ws : list nat, length ws <= length hs ->
  exists rowOff totalH, block_offsets hs ws = Ret (rowOff, repeat None (length ws + 1), totalH, 0) /\
    totalH = list_sum hs + list_sum ws /\
    (forall k, k < length ws -> nth k rowOff None = Some (list_sum hs + list_sum (firstn k ws))).
Proof.
  intros hs ws H. unfold block_offsets, numbered.
  destruct (offs_ok hs (repeat None (length hs + 1)) 0 0) as (o1 & E1 & L1 & _ & N1). { rewrite repeat_length. lia. }
  rewrite E1. cbn [bind]. rewrite repeat_length in L1.
  destruct (offs_ok ws o1 (0 + list_sum hs) 0) as (o2 & E2 & L2 & _ & N2). { lia. }
  rewrite E2. cbn [bind]. exists o2, (0 + list_sum hs + list_sum ws). split; auto.
Qed.
Print Assumptions C14_block_offsets_refuted.
Example C14_ex : block_offsets [3;2] [4] = Ret ([Some 5; Some 3; None], [None; None], 9, 0).
Proof. reflexivity. Qed.
