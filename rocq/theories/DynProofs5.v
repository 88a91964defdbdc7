From Verif Require Import Base AGroup ArraysModel ArraysProofs ArraysProofs2 LinAlg LinTools GSSpec GSModel GSProofs SparseModel BlockModel EQCModel CtrModel BlockProofs BlockProofs2 CtrProofs CtrProofs2 AggMapProofs HybMatProofs DynModel DynProofs DynProofs2 DynProofs3 DynProofs4.
Open Scope nat_scope.

(** the stored value of A at (r, c), zero if there is none *)
Definition stored {B : Blk} (A : @spmat B) (r c : nat) : M B :=
  match find (fun p => fst p =? c) (getrow A r) with Some p => snd p | None => m0 end.
(** the diagonal block of the rows bl, the rows and columns of constrained dofs replaced by those of the identity *)
Definition fix_block {B : Blk} (m1 : M B) (A : @spmat B) (fd : option (list bool)) (md : list (M B)) (bl : list nat) : @dense B :=
  map (fun i => map (fun j => if is_free fd (nth i bl 0) && is_free fd (nth j bl 0)
                              then (if (i =? j) && negb (length md =? 0) then nth (nth i bl 0) md m0 else stored A (nth i bl 0) (nth j bl 0))
                              else if i =? j then m1 else m0) (seq 0 (length bl))) (seq 0 (length bl)).

Section DMap.
  Context {B : Blk}.
  Definition dmap (f : nat -> nat -> M B -> M B) (D : @dense B) : @dense B :=
    map (fun ir => map (fun jv => f (fst ir) (fst jv) (snd jv)) (numbered (snd ir))) (numbered D).
  Lemma nth_numbered {T U} (f : nat -> T -> U) (l : list T) i d e : i < length l -> nth i (map (fun p => f (fst p) (snd p)) (numbered l)) d = f i (nth i l e).
  Proof.
    intros H. rewrite (numbered_seq l e), map_map. cbn [fst snd].
    rewrite nth_indep with (d' := (fun x => f x (nth x l e)) 0) by now rewrite map_length, seq_length. rewrite (map_nth (fun x => f x (nth x l e))). now rewrite seq_nth.
  Qed.
  Lemma numbered_len {T} (l : list T) : length (numbered l) = length l.
  Proof. unfold numbered. rewrite combine_length, seq_length. lia. Qed.
  Lemma dmap_row f D i : i < length D -> nth i (dmap f D) [] = map (fun jv => f i (fst jv) (snd jv)) (numbered (nth i D [])).
  Proof. intros H. unfold dmap. apply (nth_numbered (fun i r => map (fun jv => f i (fst jv) (snd jv)) (numbered r)) D i [] []). auto. Qed.
  Lemma dmap_dims m f D : dims m D -> dims m (dmap f D).
  Proof.
    intros [H1 H2]. split. unfold dmap. now rewrite map_length, numbered_len. intros i Hi. rewrite dmap_row by lia. rewrite map_length, numbered_len. auto.
  Qed.
  Lemma dmap_ent m f D i j : dims m D -> i < m -> j < m -> dent (dmap f D) i j = f i j (dent D i j).
  Proof.
    intros [H1 H2] Hi Hj. unfold dent. rewrite dmap_row by lia. apply (nth_numbered (f i)). rewrite H2; auto.
  Qed.
  Lemma dense_ext m (D E : @dense B) : dims m D -> dims m E -> (forall i j, i < m -> j < m -> dent D i j = dent E i j) -> D = E.
  Proof.
    intros [D1 D2] [E1 E2] H. apply (nth_ext_len _ _ []). congruence. intros i Hi. rewrite D1 in Hi. apply (nth_ext_len _ _ m0). rewrite D2, E2; auto.
    intros j Hj. rewrite D2 in Hj by auto. now apply H.
  Qed.
  Lemma unit_rc_dmap m1 l (D : @dense B) : unit_rc m1 l D = dmap (fun i j v => if (i =? l) || (j =? l) then (if i =? j then m1 else m0) else v) D. Proof. reflexivity. Qed.
  Lemma zero_diag_dmap l (D : @dense B) : zero_diag l D = dmap (fun i j v => if (i =? l) && (j =? l) then m0 else v) D. Proof. reflexivity. Qed.
  Lemma fold_unit m m1 (bad : nat -> bool) : forall ls (D : @dense B), dims m D ->
    dims m (fold_left (fun d l => if bad l then unit_rc m1 l d else d) ls D) /\
    forall i j, i < m -> j < m -> dent (fold_left (fun d l => if bad l then unit_rc m1 l d else d) ls D) i j
      = if existsb (fun l => bad l && ((i =? l) || (j =? l))) ls then (if i =? j then m1 else m0) else dent D i j.
  Proof.
    induction ls as [|l ls IH]; intros D HD; cbn [fold_left existsb]. split; auto.
    assert (HD' : dims m (if bad l then unit_rc m1 l D else D)) by (destruct (bad l); auto; rewrite unit_rc_dmap; now apply dmap_dims).
    destruct (IH _ HD') as [I1 I2]. split; auto. intros i j Hi Hj. rewrite I2 by auto.
    destruct (existsb _ ls); [now rewrite orb_true_r|]. rewrite orb_false_r. destruct (bad l); auto. rewrite unit_rc_dmap, (dmap_ent m) by auto. reflexivity.
  Qed.
  Lemma fold_zero m (bad : nat -> bool) : forall ls (D : @dense B), dims m D ->
    dims m (fold_left (fun d l => if bad l then zero_diag l d else d) ls D) /\
    forall i j, i < m -> j < m -> dent (fold_left (fun d l => if bad l then zero_diag l d else d) ls D) i j
      = if existsb (fun l => bad l && ((i =? l) && (j =? l))) ls then m0 else dent D i j.
  Proof.
    induction ls as [|l ls IH]; intros D HD; cbn [fold_left existsb]. split; auto.
    assert (HD' : dims m (if bad l then zero_diag l D else D)) by (destruct (bad l); auto; rewrite zero_diag_dmap; now apply dmap_dims).
    destruct (IH _ HD') as [I1 I2]. split; auto. intros i j Hi Hj. rewrite I2 by auto.
    destruct (existsb _ ls); [now rewrite orb_true_r|]. rewrite orb_false_r. destruct (bad l); auto. rewrite zero_diag_dmap, (dmap_ent m) by auto. reflexivity.
  Qed.
  Lemma exist_seq m (p : nat -> bool) : existsb p (seq 0 m) = true <-> exists l, l < m /\ p l = true.
  Proof. rewrite existsb_exists. split; intros (l & H1 & H2); exists l; split; auto. apply in_seq in H1; lia. apply in_seq; lia. Qed.
  Lemma sq_dims m (f : nat -> nat -> M B) : dims m (map (fun i => map (f i) (seq 0 m)) (seq 0 m)).
  Proof.
    split. now rewrite map_length, seq_length. intros i Hi. rewrite nth_indep with (d' := (fun i => map (f i) (seq 0 m)) 0) by now rewrite map_length, seq_length.
    rewrite (map_nth (fun i => map (f i) (seq 0 m))). now rewrite map_length, seq_length.
  Qed.
  Lemma sq_ent m (f : nat -> nat -> M B) i j : i < m -> j < m -> dent (map (fun i => map (f i) (seq 0 m)) (seq 0 m)) i j = f i j.
  Proof.
    intros Hi Hj. unfold dent. rewrite nth_indep with (d' := (fun i => map (f i) (seq 0 m)) 0) by now rewrite map_length, seq_length.
    rewrite (map_nth (fun i => map (f i) (seq 0 m))). rewrite seq_nth by auto. cbn [plus].
    rewrite nth_indep with (d' := f i 0) by now rewrite map_length, seq_length. rewrite map_nth. now rewrite seq_nth.
  Qed.
  Lemma fix_dims m1 (A : @spmat B) fd md bl : @dims B (length bl) (fix_block m1 A fd md bl). Proof. apply sq_dims. Qed.
  (** zeroing the diagonal of the constrained rows of an inverted block *)
  Definition zero_bad (fd : option (list bool)) (bl : list nat) (D : @dense B) : @dense B :=
    dmap (fun i j v => if (i =? j) && negb (is_free fd (nth i bl 0)) then m0 else v) D.
End DMap.

Lemma ss_lt_nd (l : list nat) : StronglySorted lt l -> NoDup l.
Proof. induction 1 as [|a l H IH F]; constructor; auto. intros X. rewrite Forall_forall in F. specialize (F a X). lia. Qed.
Section Setup.
  Context {B : Blk}.
  Variables (minv : @dense B -> @dense B) (m1 : M B).
  Hypothesis Hsz : forall m D, dims m D -> dims m (minv D).
  Variables (A : @spmat B) (D : dyn B) (bl pt : list (list nat)).
  Hypothesis R : rep A D bl pt.
  Hypothesis Sorted : forall r, StronglySorted lt (rcols (getrow A r)).
  Variables (fd : option (list bool)) (md : list (M B)).
  Hypothesis Hfd : match fd with None => True | Some f => length f = length A end.
  Hypothesis Hmd : md = [] \/ length md = length A.
  (** the rows that matter store their diagonal entry *)
  Hypothesis Hdiag : forall r, r < length A -> In r (rcols (getrow A r)) \/ rcols (getrow A r) = [].

  Lemma find_nth (r : @row B) p c v : NoDup (rcols r) -> nth_error r p = Some (c, v) -> find (fun q => fst q =? c) r = Some (c, v).
  Proof.
    revert p. induction r as [|q r IH]; intros p N H; destruct p; cbn in H; try discriminate; cbn [find].
    - injection H as ->. cbn. now rewrite Nat.eqb_refl.
    - cbn in N. inversion N; subst. destruct (Nat.eqb_spec (fst q) c); [|eauto]. subst c. exfalso. apply H2. apply nth_error_In in H. apply (in_map fst) in H. exact H.
  Qed.
  Lemma wr_pairs (ps : list (nat * nat)) : forall l : list (option nat), (forall p, In p ps -> fst p < length l) -> (forall i j j', In (i, j) ps -> In (i, j') ps -> j = j') ->
    exists l', foldM (fun dp ij => wr dp (fst ij) (Some (snd ij))) ps l = Ret l' /\ length l' = length l /\
      (forall i j, In (i, j) ps -> nth i l' None = Some j) /\ (forall i, (forall j, ~ In (i, j) ps) -> nth i l' None = nth i l None).
  Proof.
    induction ps as [|[i j] ps IH]; intros l Hl Hu; cbn [foldM].
    - exists l. repeat split; auto. intros i j [].
    - rewrite wr_ok by (apply (Hl (i, j)); now left). cbn [bind fst snd].
      destruct (IH (upd l i (Some j))) as (l' & E & L & I1 & I2).
      { intros p Hp. rewrite upd_length. apply Hl. now right. }
      { intros a b b' H1 H2. apply (Hu a); now right. }
      exists l'. rewrite upd_length in L. split; auto. split; auto. split.
      + intros a b [H|H]; [|auto]. injection H as <- <-. destruct (in_dec Nat.eq_dec i (map fst ps)) as [Hin|Hout].
        * apply in_map_iff in Hin as ((a & b) & Ea & Hp). cbn in Ea. subst a. rewrite (I1 _ _ Hp). f_equal. symmetry. apply (Hu i); [now left|now right].
        * rewrite I2. apply nth_upd_eq. apply (Hl (i, j)). now left. intros b Hb. apply Hout. apply in_map_iff. exists (i, b). auto.
      + intros a Ha. rewrite I2 by (intros b Hb; apply (Ha b); now right). apply nth_upd_neq. intros ->. apply (Ha j). now left.
  Qed.
  Lemma diagPos_ok (srows scols : list nat) : StronglySorted lt srows -> StronglySorted lt scols -> (forall r, In r srows -> In r scols) ->
    exists dp, foldM (fun dp ij => wr dp (fst ij) (Some (snd ij))) (iterate_intersection (map Z.of_nat srows) (map Z.of_nat scols)) (repeat None (length srows)) = Ret dp /\
      length dp = length srows /\ forall j, j < length srows -> exists p, cell dp j = Ret p /\ nth_error scols p = Some (nth j srows 0).
  Proof.
    intros H1 H2 Hin. assert (SZ : forall l, StronglySorted lt l -> ssorted (map Z.of_nat l)).
    { clear. intros l. induction 1 as [|a l H IH F]; cbn; constructor; auto. rewrite Forall_forall in *. intros z Hz. apply in_map_iff in Hz as (b & <- & Hb). specialize (F b Hb). lia. }
    destruct (iterate_intersection_spec (map Z.of_nat srows) (map Z.of_nat scols) (SZ _ H1) (SZ _ H2)) as [I _].
    assert (NE : forall l i z, nth_error (map Z.of_nat l) i = Some z <-> exists c, nth_error l i = Some c /\ z = Z.of_nat c).
    { clear. induction l as [|a l IH]; intros [|i] z; cbn; split; try discriminate; try (intros (c & Hc & _); discriminate).
      - intros [= <-]. eauto. - intros (c & [= <-] & ->). auto. - apply IH. - apply IH. }
    assert (I' : forall i j, In (i, j) (iterate_intersection (map Z.of_nat srows) (map Z.of_nat scols)) <-> exists c, nth_error srows i = Some c /\ nth_error scols j = Some c).
    { intros i j. rewrite I. split.
      - intros (z & Z1 & Z2). apply NE in Z1 as (c & C1 & ->). apply NE in Z2 as (c' & C2 & E). apply Nat2Z.inj in E. subst c'. eauto.
      - intros (c & C1 & C2). exists (Z.of_nat c). split; apply NE; eauto. }
    pose proof (ss_lt_nd _ H2) as N2.
    destruct (wr_pairs (iterate_intersection (map Z.of_nat srows) (map Z.of_nat scols)) (repeat None (length srows))) as (dp & E & L & W1 & W2).
    { intros [i j] Hp. apply I' in Hp as (c & C1 & _). cbn. rewrite repeat_length. apply nth_error_Some. congruence. }
    { intros i j j' Hj Hj'. apply I' in Hj as (c & C1 & C2). apply I' in Hj' as (c' & C1' & C2'). assert (c = c') by congruence. subst c'.
      apply (proj1 (NoDup_nth_error scols) N2). apply nth_error_Some. congruence. congruence. }
    exists dp. split; auto. rewrite repeat_length in L. split; auto. intros j Hj.
    assert (Hs : In (nth j srows 0) scols) by (apply Hin, nth_In; auto). destruct (In_nth_error _ _ Hs) as (p & Hp). exists p. split; auto.
    unfold cell. rewrite (rd_nth _ _ None) by lia. cbn [bind]. rewrite (W1 j p); auto. apply I'. exists (nth j srows 0). split; auto. now apply nth_error_nth'.
  Qed.

  Lemma rcv_ok k : k < length bl -> GetBlockRCV D k = Ret (nth k bl [], nth k pt [], map (fun r => map snd (getrow A r)) (nth k bl [])).
  Proof.
    intros Hk. unfold GetBlockRCV. destruct (r_rows _ _ _ _ R k Hk) as (br & -> & ER). cbn [bind]. destruct (r_cols _ _ _ _ R k Hk) as (bc & -> & EC). cbn [bind].
    rewrite ER. cbn [bind]. rewrite EC. cbn [bind]. pose proof (r_maxR _ _ _ _ R k Hk) as H1. pose proof (r_maxC _ _ _ _ R k Hk) as H2.
    apply Nat.leb_le in H1. apply Nat.leb_le in H2. rewrite H1, H2. cbn [andb]. destruct (r_data _ _ _ _ R k Hk) as (df & -> & _ & EF). cbn [bind]. rewrite EF. reflexivity.
  Qed.
  (** what SetUp computes for a block: nothing for an empty one, otherwise the inverted block, and the block bit *)
  Definition blk_res (k : nat) : @dense B * bool :=
    let b := nth k bl [] in
    if length (nth k pt []) =? 0 then ([], false)
    else match fd with
         | None => (minv (fix_block m1 A fd md b), false)
         | Some f => if existsb (is_free fd) b then (zero_bad fd b (minv (fix_block m1 A fd md b)), true) else (fix_block m1 A fd md b, false)
         end.
  Lemma setup_block_ok k : k < length bl -> setup_block minv m1 D fd md k = Ret (blk_res k).
  Proof.
    intros Hk. unfold setup_block, blk_res. destruct (r_rows _ _ _ _ R k Hk) as (br & -> & ER). cbn [bind]. destruct (r_cols _ _ _ _ R k Hk) as (bc & -> & EC). cbn [bind].
    rewrite ER. cbn [bind]. rewrite EC. cbn [bind].
    pose proof (r_ne _ _ _ _ R k Hk) as NE. assert (L1 : 0 <? length (nth k bl []) = true) by (apply Nat.ltb_lt; destruct (nth k bl []); cbn; [congruence|lia]).
    rewrite L1, andb_true_r. destruct (Nat.eqb_spec (length (nth k pt [])) 0) as [Z|NZ]. rewrite Z. reflexivity.
    assert (L2 : 0 <? length (nth k pt []) = true) by (apply Nat.ltb_lt; lia). rewrite L2. rewrite rcv_ok by auto. cbn [bind].
    set (b := nth k bl []) in *. set (p := nth k pt []) in *.
    assert (Hb : forall r, In r b -> r < length A /\ rcols (getrow A r) = p) by (intros r Hr; split; [eapply bl_lt; eauto|now apply (r_pat _ _ _ _ R)]).
    assert (Sp : StronglySorted lt p). { destruct b as [|r b'] eqn:Eb; [congruence|]. destruct (Hb r ltac:(now left)) as [_ <-]. apply Sorted. }
    assert (Hin : forall r, In r b -> In r p). { intros r Hr. destruct (Hb r Hr) as [Hr1 Hr2]. destruct (Hdiag r Hr1) as [H|H]. now rewrite Hr2 in H. rewrite H in Hr2. rewrite <- Hr2 in NZ. cbn in NZ. congruence. }
    destruct (diagPos_ok b p (r_ss _ _ _ _ R k Hk) Sp Hin) as (dp & -> & Ldp & Hdp). cbn [bind].
    set (m := length b) in *.
    set (v0 := fun i j => if (i =? j) && negb (length md =? 0) then nth (nth i b 0) md m0 else stored A (nth i b 0) (nth j b 0)).
    assert (Ed : mapM (fun lr => row <- rd (map (fun r => map (@snd nat (M B)) (getrow A r)) b) (fst lr) ;;
                              r <- mapM (fun j => q <- cell dp j ;; rd row q) (seq 0 m) ;;
                              (if 0 <? length md then d <- rd md (snd lr) ;; wr r (fst lr) d else Ret r)) (numbered b) = Ret (map (fun i => map (v0 i) (seq 0 m)) (seq 0 m))).
    { rewrite (mapM_ok _ (fun lr => map (v0 (fst lr)) (seq 0 m))). { f_equal. rewrite (numbered_seq b 0), map_map. reflexivity. }
      intros [l r] Hlr. rewrite (numbered_seq b 0) in Hlr. apply in_map_iff in Hlr as (i & [= <- <-] & Hi). apply in_seq in Hi. fold m in Hi. cbn [fst snd].
      rewrite (rd_nth _ _ (map snd (getrow A (nth 0 b 0)))) by (rewrite map_length; fold m; lia).
      assert (E0 : nth i (map (fun r => map (@snd nat (M B)) (getrow A r)) b) (map snd (getrow A (nth 0 b 0))) = map snd (getrow A (nth i b 0))).
      { rewrite nth_indep with (d' := (fun r => map (@snd nat (M B)) (getrow A r)) 0) by (rewrite map_length; fold m; lia). apply (map_nth (fun r => map (@snd nat (M B)) (getrow A r))). }
      rewrite E0. cbn [bind]. set (r := nth i b 0). assert (Hr : In r b) by (apply nth_In; fold m; lia). destruct (Hb r Hr) as [Hr1 Hr2].
      rewrite (mapM_ok _ (fun j => stored A r (nth j b 0))).
      2:{ intros j Hj. apply in_seq in Hj. destruct (Hdp j ltac:(lia)) as (q & -> & Hq). cbn [bind].
          rewrite <- Hr2 in Hq. unfold rcols in Hq. rewrite nth_error_map in Hq. destruct (nth_error (getrow A r) q) as [[c v]|] eqn:Eq; [|discriminate]. cbn in Hq. injection Hq as ->.
          unfold rd. rewrite nth_error_map, Eq. cbn. unfold stored. erewrite find_nth; [reflexivity| |exact Eq]. rewrite Hr2. now apply ss_lt_nd. }
      cbn [bind]. destruct Hmd as [E|E].
      - rewrite E. cbn [length Nat.ltb Nat.leb]. f_equal. apply map_ext. intros j. unfold v0. rewrite E. cbn. now rewrite andb_false_r.
      - assert (L0 : 0 <? length md = true) by (apply Nat.ltb_lt; lia). rewrite L0. rewrite (rd_nth _ _ m0) by lia. cbn [bind]. rewrite wr_ok by (rewrite map_length, seq_length; lia).
        f_equal. apply (nth_ext_len _ _ m0); rewrite ?upd_length, !map_length, !seq_length; auto. intros j Hj.
        assert (Em : negb (length md =? 0) = true) by (apply negb_true_iff, Nat.eqb_neq; lia).
        assert (N : forall f, nth j (map f (seq 0 m)) (@m0 B) = f j).
        { intros f. rewrite nth_indep with (d' := f 0) by now rewrite map_length, seq_length. rewrite map_nth. now rewrite seq_nth. }
        rewrite N. unfold v0. rewrite Em, andb_true_r. destruct (Nat.eqb_spec i j).
        + subst j. rewrite nth_upd_eq by (rewrite map_length, seq_length; auto). reflexivity.
        + rewrite nth_upd_neq by auto. rewrite N. reflexivity. }
    rewrite Ed. cbn [bind]. pose proof (sq_dims m v0) as Dv.
    destruct fd as [f|] eqn:Efd.
    2:{ reflexivity. }
    assert (Eb : mapM (rd f) b = Ret (map (fun r => nth r f false) b)).
    { apply mapM_ok. intros r Hr. apply rd_nth. rewrite Hfd. now apply Hb. }
    rewrite Eb. cbn [bind].
    set (bad := fun i => negb (nth (nth i b 0) f false)).
    assert (Nb : numbered (map (fun r => nth r f false) b) = map (fun i => (i, nth (nth i b 0) f false)) (seq 0 m)).
    { rewrite (numbered_seq _ false), map_length. apply map_ext_in. intros i Hi. apply in_seq in Hi. f_equal.
      rewrite nth_indep with (d' := (fun r => nth r f false) 0) by (rewrite map_length; fold m in Hi; lia). apply (map_nth (fun r => nth r f false)). }
    rewrite Nb.
    assert (F1 : forall (T : Type) (g : nat -> T -> T) ls d, fold_left (fun d (lb : nat * bool) => if snd lb then d else g (fst lb) d) (map (fun i => (i, nth (nth i b 0) f false)) ls) d
        = fold_left (fun d l => if bad l then g l d else d) ls d).
    { clear. induction ls as [|l ls IH]; intros d; cbn [map fold_left]; auto. cbn [fst snd]. rewrite <- IH. unfold bad. destruct (nth (nth l b 0) f false); reflexivity. }
    rewrite (F1 _ (unit_rc m1)), (F1 _ zero_diag).
    destruct (fold_unit m m1 bad (seq 0 m) _ Dv) as [U1 U2].
    assert (EX : forall i j, i < m -> j < m -> existsb (fun l => bad l && ((i =? l) || (j =? l))) (seq 0 m) = negb (nth (nth i b 0) f false && nth (nth j b 0) f false)).
    { intros i j Hi Hj. destruct (existsb _ (seq 0 m)) eqn:E.
      - apply exist_seq in E as (l & Hl & E). apply andb_true_iff in E as [E1 E2]. unfold bad in E1. apply negb_true_iff in E1. apply orb_true_iff in E2 as [E2|E2]; apply Nat.eqb_eq in E2; subst l; rewrite E1; cbn; now rewrite ?andb_false_r.
      - destruct (nth (nth i b 0) f false) eqn:Ei. destruct (nth (nth j b 0) f false) eqn:Ej; auto.
        + exfalso. assert (X : existsb (fun l => bad l && ((i =? l) || (j =? l))) (seq 0 m) = true) by (apply exist_seq; exists j; split; auto; unfold bad; rewrite Ej, Nat.eqb_refl; cbn; apply orb_true_r). congruence.
        + exfalso. assert (X : existsb (fun l => bad l && ((i =? l) || (j =? l))) (seq 0 m) = true) by (apply exist_seq; exists i; split; auto; unfold bad; rewrite Ei, Nat.eqb_refl; reflexivity). congruence. }
    assert (EF : fold_left (fun d l => if bad l then unit_rc m1 l d else d) (seq 0 m) (map (fun i => map (v0 i) (seq 0 m)) (seq 0 m)) = fix_block m1 A (Some f) md b).
    { apply (dense_ext m); auto. apply fix_dims. intros i j Hi Hj. rewrite U2, EX, sq_ent by auto. unfold fix_block. fold m. rewrite sq_ent by auto. cbn [is_free].
      unfold v0. destruct (nth (nth i b 0) f false && nth (nth j b 0) f false); reflexivity. }
    rewrite EF. assert (EQ : existsb (fun b => b) (map (fun r => nth r f false) b) = existsb (is_free (Some f)) b).
    { clear. induction b; cbn; auto. now rewrite IHb. }
    rewrite EQ. destruct (existsb (is_free (Some f)) b); auto. f_equal. f_equal.
    pose proof (Hsz m _ (fix_dims m1 A (Some f) md b)) as DI. destruct (fold_zero m bad (seq 0 m) _ DI) as [Z1 Z2].
    apply (dense_ext m); auto. now apply dmap_dims. intros i j Hi Hj. rewrite Z2 by auto. unfold zero_bad. rewrite (dmap_ent m) by auto. cbn [is_free].
    destruct (existsb _ (seq 0 m)) eqn:E.
    - apply exist_seq in E as (l & Hl & E). apply andb_true_iff in E as [E1 E2]. apply andb_true_iff in E2 as [E2 E3]. apply Nat.eqb_eq in E2. apply Nat.eqb_eq in E3. subst. rewrite Nat.eqb_refl. unfold bad in E1. now rewrite E1.
    - destruct (Nat.eqb_spec i j); cbn [andb]; auto. subst j. destruct (negb (nth (nth i b 0) f false)) eqn:Ei; auto. exfalso.
      assert (X : existsb (fun l => bad l && ((i =? l) && (i =? l))) (seq 0 m) = true) by (apply exist_seq; exists i; split; auto; unfold bad; rewrite Ei, Nat.eqb_refl; reflexivity). congruence.
  Qed.
  Lemma smoother_ok om : DynBlockSmoother minv m1 D fd md om = Ret (mkDsm D (map (fun k => fst (blk_res k)) (seq 0 (length bl)))
     (match fd with None => None | Some _ => Some (map (fun k => snd (blk_res k)) (seq 0 (length bl))) end) om).
  Proof.
    unfold DynBlockSmoother. rewrite (r_num _ _ _ _ R). rewrite (mapM_ok _ blk_res). cbn [bind]. rewrite !map_map. reflexivity.
    intros k Hk. apply in_seq in Hk. apply setup_block_ok. lia.
  Qed.
End Setup.
