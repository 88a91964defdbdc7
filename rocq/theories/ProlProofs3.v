(** Proofs about the vertex prolongations: classic rows, improvement, rows of the smoothing matrix (C73). *)
From Verif Require Import Base ArraysModel ArraysProofs ArraysProofs2 AGroup LinAlg SparseModel SparseProofs ProlModel ProlSpec ProlProofs ProlProofs2.
From Coq Require Import QArith.
Local Open Scope nat_scope.

(** position of an element *)
Fixpoint zpos (x : Z) (b : list Z) : option nat :=
  match b with [] => None | y :: b' => if (x =? y)%Z then Some 0 else option_map S (zpos x b') end.
Lemma zpos_none x b : ~ In x b -> zpos x b = None.
Proof.
  induction b as [|y b IH]; intros H; [reflexivity|]. cbn [zpos]. destruct (Z.eqb_spec x y) as [->|]; [exfalso; apply H; simpl; auto|].
  rewrite IH by (intros Hi; apply H; simpl; auto). reflexivity.
Qed.
Lemma zpos_some x b k : zpos x b = Some k -> nth_error b k = Some x.
Proof.
  revert k. induction b as [|y b IH]; intros k H; [discriminate|]. cbn [zpos] in H. destruct (Z.eqb_spec x y) as [->|].
  - inversion H; subst. reflexivity.
  - destruct (zpos x b) as [k'|]; inversion H; subst. simpl. auto.
Qed.
Lemma zpos_in x b : In x b -> exists k, zpos x b = Some k.
Proof.
  induction b as [|y b IH]; intros H; [destruct H|]. cbn [zpos]. destruct (Z.eqb_spec x y) as [->|]; [eauto|].
  destruct H as [->|H]; [congruence|]. destruct (IH H) as (k & ->). simpl. eauto.
Qed.
Definition call_of (b : list Z) (i2 : nat) (q : nat * Z) : abc_call :=
  match zpos (snd q) b with Some k => INTERSECTION (fst q) (i2 + k) | None => A_NOT_B (fst q) end.
Lemma iterate_AC_map : forall a b i1 i2, StronglySorted Z.lt a -> StronglySorted Z.lt b ->
  iterate_AC_from a i1 b i2 = map (call_of b i2) (combine (seq i1 (length a)) a).
Proof.
  apply (two_ind (fun a b => forall i1 i2, StronglySorted Z.lt a -> StronglySorted Z.lt b ->
    iterate_AC_from a i1 b i2 = map (call_of b i2) (combine (seq i1 (length a)) a))).
  - intros b i1 i2 _ _. destruct b; reflexivity.
  - intros x a i1 i2 _ _. change (iterate_AC_from (x :: a) i1 [] i2) with (map A_NOT_B (seq i1 (length (x :: a)))).
    generalize (x :: a). intros l. revert i1. induction l as [|y l IH]; intros i1; [reflexivity|]. cbn [length seq map combine]. rewrite IH. reflexivity.
  - intros x a y b H1 H2 H3 i1 i2 Sa Sb.
    change (iterate_AC_from (x :: a) i1 (y :: b) i2) with
      (if (x =? y)%Z then INTERSECTION i1 i2 :: iterate_AC_from a (S i1) b (S i2)
        else if (x <? y)%Z then A_NOT_B i1 :: iterate_AC_from a (S i1) (y :: b) i2
        else iterate_AC_from (x :: a) i1 b (S i2)).
    assert (Sa' : StronglySorted Z.lt a) by (inversion Sa; auto). assert (Sb' : StronglySorted Z.lt b) by (inversion Sb; auto).
    assert (Fa : forall z, In z a -> (x < z)%Z) by (inversion Sa; subst; apply Forall_forall; auto).
    assert (Fb : forall z, In z b -> (y < z)%Z) by (inversion Sb; subst; apply Forall_forall; auto).
    assert (SH : forall q, snd q <> y -> call_of b (S i2) q = call_of (y :: b) i2 q).
    { intros q Hq. unfold call_of. cbn [zpos]. destruct (Z.eqb_spec (snd q) y); [contradiction|]. destruct (zpos (snd q) b); cbn [option_map]; auto.
      f_equal. lia. }
    assert (IN : forall (l : list Z) i q, In q (combine (seq i (length l)) l) -> In (snd q) l) by (intros l i [u v] Hq; apply in_combine_r in Hq; auto).
    destruct (Z.eqb_spec x y) as [<-|E].
    + cbn [length seq combine map]. f_equal.
      * unfold call_of. cbn [snd zpos fst]. rewrite Z.eqb_refl. f_equal. lia.
      * etransitivity; [apply H1; auto|]. apply map_ext_in. intros q Hq. apply SH. apply IN in Hq. apply Fa in Hq. lia.
    + destruct (Z.ltb_spec x y).
      * cbn [length seq combine map]. f_equal; [|apply H2; auto]. unfold call_of. cbn [snd fst]. rewrite zpos_none; auto.
        intros [->|Hi]; [lia|]. apply Fb in Hi. lia.
      * etransitivity; [apply H3; auto|]. apply map_ext_in. intros q Hq. apply SH. apply IN in Hq.
        destruct Hq as [<-|Hq]; [auto|]. apply Fa in Hq. lia.
Qed.

Section V.
  Context {B : Blk} (L : BlkLaws B).
  Local Notation M := (M B). Local Notation K := (K B). Local Notation X := (X B).
  Let LX := lawX B L.
  Ltac agx := ag LX.
  Variable mmul : M -> M -> M.
  Variable msc : K -> M -> M.
  Variable mid : M.
  Hypothesis Hmm : forall a b x, act (mmul a b) x = act a (act b x).
  Hypothesis Hsc : forall c a x, act (msc c a) x = xsc c (act a x).
  Hypothesis Hid : forall x, act mid x = x.

  Variable VD : Type.
  Variable CalcQs : VD -> VD -> M * M.
  Variable CalcQHh : VD -> VD -> M.
  Variable QiToj_MQ : VD -> VD -> K -> M -> M.
  Variable vmap : nat -> Z.
  Variable fecon : nat -> list (nat * nat).
  Variable fedge : nat -> nat * nat.
  Variable fvd : nat -> VD.
  Variable cvd : Z -> VD.
  Variable ceqc : Z -> nat.
  Variable leq : nat -> nat -> bool.
  Variable NV : nat.
  Variable omega : K.
  Hypothesis VOK : vmap_ok vmap.
  Local Notation pw := (PWProlMap VD CalcQHh vmap fvd cvd NV).
  Local Notation pwvec := (pwvec VD CalcQHh vmap fvd cvd).

  (** *** the classic rows: columns *)
  Definition images (row : list (nat * M)) : list Z := map (fun p => vmap (fst p)) row.

  Lemma classic_columns (fmat : smat M) maxc V : has_partner vmap fecon V ->
    exists ok cls, get_cols_classic vmap fecon ceqc leq fmat maxc 0 V = Ret (ok, cls) /\
      (ok = true <-> (forall p, In p (nth V fmat []) -> mapped vmap (fst p) /\ leq 0 (ceqc (vmap (fst p))) = true) /\
                     ((maxc < 0)%Z \/ (Z.of_nat (length (nodup Z.eq_dec (images (nth V fmat [])))) <= maxc)%Z)) /\
      (ok = true -> StronglySorted Z.lt cls /\ (forall c, In c cls <-> In c (images (nth V fmat [])))).
  Proof using VOK.
    clear - VOK.
    intros HP. unfold get_cols_classic. cbn [Nat.eqb negb].
    destruct (nniscv vmap fecon V =? 0) eqn:E0.
    { apply Nat.eqb_eq, nniscv_iff in E0. contradiction. }
    set (row := nth V fmat []). match goal with |- context [foldM ?F0 _ _] => set (F := F0) end.
    enough (G : forall todo done ok brk cls,
      (brk = false -> StronglySorted Z.lt cls /\ (ok = true -> forall c, In c cls <-> In c (images done)) /\
         (ok = true <-> forall p, In p done -> mapped vmap (fst p) /\ leq 0 (ceqc (vmap (fst p))) = true)) ->
      (brk = true -> ok = false /\ ~ (forall p, In p done -> mapped vmap (fst p) /\ leq 0 (ceqc (vmap (fst p))) = true)) ->
      exists ok' brk' cls', foldM F todo (ok, brk, cls) = Ret (ok', brk', cls') /\
      (brk' = false -> StronglySorted Z.lt cls' /\ (ok' = true -> forall c, In c cls' <-> In c (images (done ++ todo))) /\
         (ok' = true <-> forall p, In p (done ++ todo) -> mapped vmap (fst p) /\ leq 0 (ceqc (vmap (fst p))) = true)) /\
      (brk' = true -> ok' = false /\ ~ (forall p, In p (done ++ todo) -> mapped vmap (fst p) /\ leq 0 (ceqc (vmap (fst p))) = true))).
    { destruct (G row [] true false []) as (ok & brk & cls & E & H1 & H2).
      - intros _. repeat split; try constructor; try (intros []; fail); auto; intros; contradiction.
      - discriminate.
      - rewrite E. cbn [bind]. cbn [app] in *. eexists _, cls. split; [reflexivity|]. destruct brk.
        + destruct (H2 eq_refl) as [-> H]. cbn [andb]. split; [|discriminate]. split; [discriminate|]. intros [H' _]. contradiction.
        + destruct (H1 eq_refl) as (S1 & S2 & S3). destruct ok; cbn [andb].
          * specialize (S2 eq_refl). split; [|intros _; auto].
            assert (LL : length cls = length (nodup Z.eq_dec (images row))).
            { apply Permutation_length, NoDup_Permutation; [apply SSorted_lt_NoDup; auto|apply NoDup_nodup|]. intros c. rewrite nodup_In. auto. }
            rewrite LL, Bool.orb_true_iff, Z.ltb_lt, Z.leb_le. tauto.
          * split; [|discriminate]. split; [discriminate|]. intros [H _]. apply S3 in H. discriminate. }
    induction todo as [|p todo IH]; intros done ok brk cls H1 H2.
    { exists ok, brk, cls. rewrite app_nil_r. auto. }
    replace (done ++ p :: todo) with ((done ++ [p]) ++ todo) by (rewrite <- app_assoc; auto).
    cbn [foldM]. unfold F at 1.
    assert (IA : forall P : nat * M -> Prop, (forall q, In q (done ++ [p]) -> P q) <-> (forall q, In q done -> P q) /\ P p).
    { intros P. split; [intros H; split; intros; apply H, in_app_iff; simpl; auto|]. intros [H H'] q Hq. apply in_app_iff in Hq. destruct Hq as [Hq|[<-|[]]]; auto. }
    destruct brk.
    { cbn [bind]. destruct (H2 eq_refl) as [-> Hn]. apply IH; [discriminate|]. intros _. split; auto. rewrite IA. tauto. }
    destruct (H1 eq_refl) as (S1 & S2 & S3). cbv zeta.
    assert (VP := VOK (fst p)).
    destruct (Z.eqb_spec (vmap (fst p)) (-1)) as [E1|E1]; cbn [negb].
    { cbn [bind]. apply IH; [|discriminate]. intros _. split; [auto|]. split; [discriminate|]. split; [discriminate|].
      rewrite IA. intros (_ & H & _). unfold mapped in H. lia. }
    destruct (leq 0 (ceqc (vmap (fst p)))) eqn:E2; cbn [negb].
    2:{ cbn [bind]. apply IH; [discriminate|]. intros _. split; auto. rewrite IA. intros (_ & _ & H). congruence. }
    destruct (insert_nodups_spec (vmap (fst p)) cls S1) as [I1 I2].
    assert (S3' : ok = true <-> forall q, In q (done ++ [p]) -> mapped vmap (fst q) /\ leq 0 (ceqc (vmap (fst q))) = true).
    { rewrite IA, S3. unfold mapped. intuition lia. }
    assert (IM : forall c, In c (images (done ++ [p])) <-> In c (images done) \/ c = vmap (fst p)).
    { intros c. unfold images. rewrite map_app, in_app_iff. simpl. intuition. }
    destruct (in_dec Z.eq_dec (vmap (fst p)) cls) as [Hi|Hi].
    - rewrite (I1 Hi). cbn [bind]. apply IH; [|discriminate]. intros _. split; [auto|]. split; [|auto].
      intros Ho c. rewrite IM, <- (S2 Ho). intuition congruence.
    - destruct (I2 Hi) as (cls' & -> & S1' & PP). cbn [bind]. apply IH; [|discriminate]. intros _. split; [auto|]. split; [|auto].
      intros Ho c. rewrite IM, <- (S2 Ho), (Permutation_in' eq_refl PP). simpl. intuition.
  Qed.

  (** *** the classic rows: values *)
  Lemma nat_cols_Z (row : list (nat * M)) : StronglySorted lt (cols row) -> StronglySorted Z.le (map (fun p => Z.of_nat (fst p)) row).
  Proof.
    unfold cols. induction row as [|p row IH]; intros H; cbn [map] in *; constructor; inversion H; subst; auto.
    apply Forall_forall. intros z Hz. apply in_map_iff in Hz. destruct Hz as (q & <- & Hq). rewrite Forall_forall in H3.
    specialize (H3 (fst q) (in_map fst _ _ Hq)). lia.
  Qed.
  Lemma diag_found (row : list (nat * M)) V a : StronglySorted lt (cols row) -> In (V, a) row ->
    exists k, find_in_sorted_array (Z.of_nat V) (map (fun p => Z.of_nat (fst p)) row) = Ret (Some k) /\ rd row k = Ret (V, a).
  Proof.
    intros HS Hi. destruct (find_in_sorted_array_spec (Z.of_nat V) _ (nat_cols_Z row HS)) as [F1 _].
    destruct F1 as (k & E & N). { apply in_map_iff. exists (V, a). auto. }
    exists k. split; [auto|]. rewrite nth_error_map in N. destruct (nth_error row k) as [[v b]|] eqn:NE; [|discriminate].
    cbn in N. inversion N as [N']. apply Nat2Z.inj in N'. subst v.
    assert (b = a).
    { apply nth_error_In in NE. clear - HS Hi NE. unfold cols in HS. induction row as [|q row IH]; [destruct Hi|]. cbn [map] in HS. inversion HS; subst.
      rewrite Forall_forall in H2. destruct Hi as [->|Hi], NE as [NE|NE].
      - congruence.
      - apply (in_map fst) in NE. apply H2 in NE. cbn in NE. lia.
      - subst q. apply (in_map fst) in Hi. apply H2 in Hi. cbn in Hi. lia.
      - auto. }
    subst b. unfold rd. rewrite NE. reflexivity.
  Qed.

  Lemma fill_classic_ok cinv (fmat : smat M) V ris a : V < NV -> mapped vmap V ->
    StronglySorted Z.lt ris -> In (vmap V) ris ->
    (length ris <> 1 -> StronglySorted lt (cols (nth V fmat [])) /\ In (V, a) (nth V fmat []) /\
       (forall p, In p (nth V fmat []) -> fst p < NV /\ mapped vmap (fst p) /\ In (vmap (fst p)) ris)) ->
    exists rvs, fill_classic mmul msc vmap cinv omega fmat pw V ris = Ret rvs /\ length rvs = length ris /\
      forall uc, row_apply (combine ris rvs) uc =
        if length ris =? 1 then pwvec uc V
        else xadd (pwvec uc V) (xopp (xsc omega (act (cinv a) (xtotal (fun p => act (snd p) (pwvec uc (fst p))) (nth V fmat []))))).
  Proof.
    intros HV HM HS HI HC. unfold fill_classic. destruct ris as [|c [|c2 ris']].
    - destruct HI.
    - destruct HI as [->|[]]. exists [pwprol pw V (vmap V)]. repeat split. intros uc. cbn [length Nat.eqb combine row_apply fold_right fst snd].
      rewrite (pw_act VD CalcQHh vmap fvd cvd NV) by auto. agx.
    - set (ris := c :: c2 :: ris') in *. destruct HC as (SC & HD & HC); [simpl; lia|]. set (row := nth V fmat []) in *.
      destruct (diag_found row V a SC HD) as (k0 & -> & R). cbn [bind]. rewrite R. cbn [bind snd].
      match goal with |- context [foldM ?F0 _ _] => set (F := F0) end.
      pose (dsum := fun uc (l : list (nat * M)) => xtotal (fun p => if fst p =? V then pwvec uc V else x0) l).
      pose (rsum := fun uc (l : list (nat * M)) => xtotal (fun p => act (snd p) (pwvec uc (fst p))) l).
      assert (G : forall l rvs, (forall p, In p l -> In p row) -> length rvs = length ris ->
        exists rvs', foldM F l rvs = Ret rvs' /\ length rvs' = length ris /\ forall uc,
          lap rvs' (map uc ris) = xadd (lap rvs (map uc ris)) (xadd (dsum uc l) (xopp (xsc omega (act (cinv a) (rsum uc l)))))).
      { induction l as [|p l IH]; intros rvs Hl HLr.
        { exists rvs. repeat split; auto. intros uc. cbn. rewrite (act_x0 L), (xsc_0 L). agx. }
        destruct (HC p (Hl p (or_introl eq_refl))) as (U1 & U2 & U3).
        cbn [foldM]. unfold F at 1. cbv zeta. destruct (find_in_sorted_array_spec (vmap (fst p)) ris (ss_lt_le_Z _ HS)) as [F1 _].
        destruct (F1 U3) as (k & Ek & Nk). rewrite Ek. cbn [bind].
        assert (Hk : k < length ris) by (apply nth_error_Some; congruence).
        assert (STEP1 : exists r1, (if fst p =? V then add_to rvs (Some k) (pwprol pw (fst p) (vmap (fst p))) else Ret rvs) = Ret r1 /\ length r1 = length ris /\
          forall uc, lap r1 (map uc ris) = xadd (lap rvs (map uc ris)) (if fst p =? V then pwvec uc V else x0)).
        { destruct (Nat.eqb_spec (fst p) V) as [EwV|].
          - rewrite EwV in Nk. rewrite EwV. destruct (add_to_ok L rvs k (pwprol pw V (vmap V))) as (r1 & E1 & L1 & T1); [lia|]. exists r1. rewrite E1. repeat split; [congruence|].
            intros uc. rewrite (T1 _ x0) by (rewrite map_length; lia). rewrite (nth_error_map_uc ris k _ uc Nk), (pw_act VD CalcQHh vmap fvd cvd NV) by auto. reflexivity.
          - exists rvs. repeat split; auto. intros uc. agx. }
        destruct STEP1 as (r1 & -> & L1 & T1). cbn [bind].
        destruct (add_to_ok L r1 k (mneg msc (mmul (msc omega (cinv a)) (mmul (snd p) (pwprol pw (fst p) (vmap (fst p))))))) as (r2 & E3 & L2 & T2); [lia|].
        rewrite E3. cbn [bind]. destruct (IH r2) as (r3 & E4 & L3 & T3); [intros; apply Hl; simpl; auto|congruence|].
        exists r3. split; [auto|]. split; [auto|]. intros uc. rewrite T3, (T2 _ x0) by (rewrite map_length; lia). rewrite T1.
        rewrite (nth_error_map_uc ris k _ uc Nk), (act_neg L msc Hsc), Hmm, Hsc, Hmm, (pw_act VD CalcQHh vmap fvd cvd NV) by auto.
        unfold dsum, rsum. cbn [xtotal fold_right].
        rewrite (act_add B L), (sc_add B L). unfold rsum, dsum, xtotal. agx. }
      destruct (G row (repeat m0 (length ris)) (fun p H => H)) as (rvs & E5 & L5 & T5). { apply repeat_length. }
      exists rvs. split; [auto|]. split; [auto|]. intros uc. rewrite row_apply_lap, T5, (lap_zero L).
      replace (length ris =? 1) with false by reflexivity.
      assert (DS : dsum uc row = pwvec uc V).
      { unfold dsum. clear - L LX SC HD. unfold cols in SC. induction row as [|q row IH]; [destruct HD|]. cbn [map] in SC. inversion SC; subst. cbn [xtotal fold_right].
        fold (xtotal (fun p : nat * M => if fst p =? V then pwvec uc V else x0) row).
        rewrite Forall_forall in H2. destruct HD as [->|HD].
        - cbn [fst]. rewrite Nat.eqb_refl.
          assert (Z1 : xtotal (fun p : nat * M => if fst p =? V then pwvec uc V else x0) row = x0).
          { cbn [fst] in H2. clear - L LX H2. induction row as [|q row IH]; [reflexivity|]. cbn [xtotal fold_right].
            fold (xtotal (fun p : nat * M => if fst p =? V then pwvec uc V else x0) row). rewrite IH by (intros; apply H2; simpl; auto).
            destruct (Nat.eqb_spec (fst q) V) as [E|]; [|agx]. specialize (H2 (fst q) (or_introl eq_refl)). lia. }
          rewrite Z1. agx.
        - rewrite IH by auto. destruct (Nat.eqb_spec (fst q) V) as [E|]; [|agx]. apply (in_map fst) in HD. apply H2 in HD. cbn in HD. lia. }
      rewrite DS. unfold rsum. agx.
  Qed.

  (** *** improvement of a row *)
  Definition improve_term (omega : K) (dInv : M) (ext : Z) (prolCols : list Z) (uc : Z -> X) (p : Z * M) : X :=
    if existsb (Z.eqb (fst p)) prolCols then xopp (xsc omega (act dInv (act (snd p) (uc (fst p)))))
    else act (QiToj_MQ (cvd ext) (cvd (fst p)) (kopp omega) (mmul dInv (snd p))) (uc ext).
  Lemma ImproveSProlRow_ok om dInv ext prolCols apRow : StronglySorted Z.lt prolCols -> StronglySorted Z.lt (map fst apRow) -> In ext prolCols ->
    exists up, ImproveSProlRow mmul msc VD QiToj_MQ cvd om dInv ext prolCols apRow = Ret up /\ length up = length prolCols /\
      forall uc, lap up (map uc prolCols) = xtotal (improve_term om dInv ext prolCols uc) apRow.
  Proof.
    intros SP SA HE. unfold ImproveSProlRow. destruct (find_in_sorted_array_spec ext prolCols (ss_lt_le_Z _ SP)) as [F1 _].
    destruct (F1 HE) as (ke & -> & NE). cbn [bind]. clear F1.
    assert (Hke : ke < length prolCols) by (apply nth_error_Some; congruence).
    match goal with |- context [foldM ?F0 _ _] => set (F := F0) end.
    unfold iterate_AC. rewrite iterate_AC_map by auto. rewrite map_length.
    assert (G : forall todo done up, apRow = done ++ todo -> length up = length prolCols ->
      exists up', foldM F (map (call_of prolCols 0) (combine (seq (length done) (length todo)) (map fst todo))) up = Ret up' /\ length up' = length prolCols /\
        forall uc, lap up' (map uc prolCols) = xadd (lap up (map uc prolCols)) (xtotal (improve_term om dInv ext prolCols uc) todo)).
    { induction todo as [|p todo IH]; intros done up HA HL.
      { exists up. repeat split; auto. intros uc. simpl. agx. }
      cbn [length seq combine map foldM]. unfold F at 1. unfold call_of at 1. cbn [fst snd].
      assert (R : rd apRow (length done) = Ret p) by (unfold rd; rewrite HA, nth_error_app2, Nat.sub_diag by lia; reflexivity).
      assert (NX : forall up1, length up1 = length prolCols ->
         (forall uc, lap up1 (map uc prolCols) = xadd (lap up (map uc prolCols)) (improve_term om dInv ext prolCols uc p)) ->
         exists up', foldM F (map (call_of prolCols 0) (combine (seq (S (length done)) (length todo)) (map fst todo))) up1 = Ret up' /\ length up' = length prolCols /\
           forall uc, lap up' (map uc prolCols) = xadd (lap up (map uc prolCols)) (xtotal (improve_term om dInv ext prolCols uc) (p :: todo))).
      { intros up1 HL1 HU1. destruct (IH (done ++ [p]) up1) as (up' & E & HL' & HU); [rewrite <- app_assoc; auto|auto|].
        rewrite app_length in E. cbn [length] in E. rewrite Nat.add_1_r in E. exists up'. repeat split; auto. intros uc. rewrite HU, HU1. cbn [xtotal fold_right].
        unfold xtotal. agx. }
      destruct (in_dec Z.eq_dec (fst p) prolCols) as [Hi|Hi].
      - destruct (zpos_in _ _ Hi) as (k & Ek). rewrite Ek. cbn [Nat.add]. apply zpos_some in Ek.
        assert (Hk : k < length prolCols) by (apply nth_error_Some; congruence).
        rewrite R. cbn [bind]. rewrite (rd_ok up k m0) by lia. cbn [bind]. rewrite wr_ok by lia. cbn [bind]. apply NX; [rewrite upd_length; auto|].
        intros uc. rewrite (lap_upd L up _ k _ m0 x0) by (rewrite ?map_length; lia). rewrite (nth_error_map_uc _ _ _ uc Ek).
        rewrite (act_sub L msc Hsc), Hmm, Hsc. unfold improve_term. rewrite (proj2 (existsb_Z _ _) Hi). agx.
      - rewrite zpos_none by auto. rewrite R. cbn [bind].
        destruct (add_to_ok L up ke (QiToj_MQ (cvd ext) (cvd (fst p)) (kopp om) (mmul dInv (snd p)))) as (u1 & -> & HL1 & HU1); [lia|]. cbn [bind].
        apply NX; [congruence|]. intros uc. rewrite (HU1 _ x0) by (rewrite map_length; lia). rewrite (nth_error_map_uc _ _ _ uc NE).
        unfold improve_term. destruct (existsb (Z.eqb (fst p)) prolCols) eqn:EX; [apply existsb_Z in EX; contradiction|]. reflexivity. }
    destruct (G apRow [] (repeat m0 (length prolCols)) eq_refl) as (up & E & HL & HU). { apply repeat_length. }
    exists up. split; [exact E|]. split; [auto|]. intros uc. rewrite HU, (lap_zero L). agx.
  Qed.
End V.
