(** Proofs about the edge connectivity and the auxiliary matrix. *)
From Verif Require Import Base AGroup LinAlg ArraysModel ArraysProofs SparseModel SparseSpec SparseProofs ProlProofs2 AuxModel AuxSpec.
Local Open Scope nat_scope.

(** *** edge connectivity *)
Lemma in_econ_items edges v w e : In (v, (w, e)) (econ_items edges) <-> joins edges e v w.
Proof.
  unfold econ_items, joins. rewrite in_flat_map. split.
  - intros ((i, (a, b)) & Hi & H). apply (in_numbered _ _ _ (0, 0)) in Hi as [Hi Ei]. cbn [fst snd In] in H.
    assert (N : nth_error edges i = Some (a, b)) by (rewrite (nth_error_nth' _ (0, 0) Hi); congruence).
    destruct H as [H|[H|[]]]; injection H as <- <- <-; auto.
  - assert (G : forall a b, nth_error edges e = Some (a, b) -> In (e, (a, b)) (numbered edges)).
    { intros a b H. apply (in_numbered _ _ _ (0, 0)). split; [apply nth_error_Some; congruence|]. now apply nth_error_nth. }
    intros [H|H]; [exists (e, (v, w))|exists (e, (w, v))]; (split; [apply G; auto|cbn [fst snd In]; auto]).
Qed.

Lemma joins_in edges e v w : joins edges e v w -> In (v, w) edges \/ In (w, v) edges.
Proof. intros [H|H]; apply nth_error_In in H; auto. Qed.

Lemma numbered_nodup_fst {A} (l : list A) : NoDup (map fst (numbered l)).
Proof.
  unfold numbered. assert (E : forall (a : list nat) (b : list A), length a = length b -> map fst (combine a b) = a).
  { induction a; intros [|y b] H; cbn in *; try lia; auto. f_equal. apply IHa; lia. }
  rewrite E by now rewrite seq_length. apply seq_NoDup.
Qed.

Lemma econ_items_nodup edges : (forall a b, In (a, b) edges -> a <> b) -> NoDup (econ_items edges).
Proof.
  intros H. unfold econ_items.
  assert (Hn : forall i a b, In (i, (a, b)) (numbered edges) -> a <> b).
  { intros i a b Hi. apply (in_numbered _ _ _ (0, 0)) in Hi as [Hi Ei]. apply H. rewrite <- Ei. now apply nth_In. }
  pose proof (numbered_nodup_fst edges) as ND. revert Hn ND. generalize (numbered edges) as l. clear.
  induction l as [|(i, (a, b)) l IH]; cbn [map flat_map fst snd]; intros Hn ND; [constructor|].
  inversion ND as [|? ? N1 N2]; subst.
  assert (F : forall v w, ~ In (v, (w, i)) (flat_map (fun ie : nat * (nat * nat) => [(fst (snd ie), (snd (snd ie), fst ie)); (snd (snd ie), (fst (snd ie), fst ie))]) l)).
  { intros v w Hi. apply in_flat_map in Hi as ((j, (c, d)) & Hj & Hi). apply N1. apply in_map_iff. exists (j, (c, d)). split; auto.
    cbn [fst snd In] in Hi. destruct Hi as [Hi|[Hi|[]]]; injection Hi; auto. }
  cbn [app]. constructor; [|constructor].
  - cbn [In]. intros [E|E]; [|eapply F; eauto]. injection E as E1 E2. apply (Hn i a b); [now left|congruence].
  - apply F.
  - apply IH; auto. intros. eapply Hn. right; eauto.
Qed.

Lemma nodup_bucket {T} (l : list (nat * T)) c : NoDup l -> NoDup (bucket l c).
Proof.
  induction 1 as [|p l N ND IH]; [constructor|]. rewrite bucket_cons. destruct (Nat.eqb_spec (fst p) c) as [E|E]; auto.
  constructor; auto. rewrite in_bucket. intros H. apply N. destruct p; cbn in *; subst; auto.
Qed.

Lemma ss_strict (l : list (nat * nat)) : StronglySorted (fun a b => fst a <= fst b) l -> NoDup (map fst l) -> StronglySorted lt (map fst l).
Proof.
  induction 1 as [|p l SS IH F]; cbn; intros ND; constructor; inversion ND as [|? ? N1 N2]; subst; auto.
  apply Forall_forall. intros x Hx. rewrite Forall_forall in F. apply in_map_iff in Hx as (q & <- & Hq).
  specialize (F q Hq). assert (fst q <> fst p). { intros E. apply N1. rewrite <- E. now apply in_map. } lia.
Qed.

Lemma nodup_map_fst {A C} (l : list (A * C)) : NoDup l -> (forall a x y, In (a, x) l -> In (a, y) l -> x = y) -> NoDup (map fst l).
Proof.
  induction 1 as [|(a, x) l N ND IH]; cbn; intros H; constructor.
  - intros Hi. apply in_map_iff in Hi as ((a', y) & E & Hy). cbn in E; subst a'. apply N.
    rewrite (H a x y) by auto. auto.
  - apply IH. intros; eapply H; eauto.
Qed.

Theorem GetEdgeCM_any sortn nv edges : sortn_ok sortn -> (forall a b, In (a, b) edges -> a < nv /\ b < nv) ->
  GetEdgeCM sortn nv edges = Ret (map (fun v => sortn (bucket (econ_items edges) v)) (seq 0 nv)).
Proof.
  intros HS HE. unfold GetEdgeCM. rewrite count_fill_ok.
  - cbn [bind]. now rewrite map_map.
  - intros (v, (w, e)) Hp. apply in_econ_items, joins_in in Hp. cbn [fst]. destruct Hp as [Hp|Hp]; apply HE in Hp; tauto.
Qed.

Theorem GetEdgeCM_ok sortn nv edges : sortn_ok sortn -> simple_mesh nv edges ->
  exists econ, GetEdgeCM sortn nv edges = Ret econ /\ connectivity nv edges econ.
Proof.
  intros HS [HE HD]. exists (map (fun v => sortn (bucket (econ_items edges) v)) (seq 0 nv)). split; [|split; [|split]].
  - apply GetEdgeCM_any; auto. intros a b H. apply HE in H. tauto.
  - now rewrite map_length, seq_length.
  - intros v Hv. rewrite (nth_map_seq (fun v => sortn (bucket (econ_items edges) v))) by auto.
    destruct (HS (bucket (econ_items edges) v)) as [P SS]. apply ss_strict; auto.
    apply (Permutation_NoDup (l := map fst (bucket (econ_items edges) v))); [now apply Permutation_map|].
    apply nodup_map_fst.
    + apply nodup_bucket, econ_items_nodup. intros a b H. apply HE in H. tauto.
    + intros w e e' H1 H2. apply in_bucket, in_econ_items in H1. apply in_bucket, in_econ_items in H2. eapply HD; eauto.
  - intros v w e Hv. rewrite (nth_map_seq (fun v => sortn (bucket (econ_items edges) v))) by auto.
    destruct (HS (bucket (econ_items edges) v)) as [P _]. rewrite <- in_econ_items.
    rewrite <- (in_bucket (econ_items edges) v (w, e)). split; apply Permutation_in; auto using Permutation_sym.
Qed.

(** *** the auxiliary matrix *)
Lemma nd_of_ss (l : list nat) : StronglySorted lt l -> NoDup l.
Proof. induction 1 as [|a l SS IH F]; constructor; auto. rewrite Forall_forall in F. intros H. apply F in H. lia. Qed.
Lemma ssZ_of_nat (l : list nat) : StronglySorted lt l -> StronglySorted Z.le (map Z.of_nat l).
Proof.
  induction 1 as [|a l SS IH F]; cbn; constructor; auto. rewrite Forall_forall in *. intros x Hx.
  apply in_map_iff in Hx as (y & <- & Hy). apply F in Hy. lia.
Qed.

Section Mat.
  Context {B : Blk} (L : BlkLaws B).
  Local Notation M := (M B). Local Notation X := (X B). Local Notation K := (K B).
  Let LX := lawX B L.
  Ltac agx := ag LX.

  Lemma xsumf_cons {A} (f : A -> X) a l : xsumf f (a :: l) = xadd (f a) (xsumf f l). Proof. reflexivity. Qed.
  Lemma xsumf_nil {A} (f : A -> X) : xsumf f [] = x0. Proof. reflexivity. Qed.
  (** a matrix with given pattern and values *)
  Definition mat_of (NV : nat) (pat : nat -> list nat) (f : nat -> nat -> M) : smat M :=
    map (fun i => map (fun c => (c, f i c)) (pat i)) (seq 0 NV).
  Definition fadd (f : nat -> nat -> M) (r c : nat) (v : M) : nat -> nat -> M :=
    fun i j => if (i =? r) && (j =? c) then madd (f i j) v else f i j.

  Lemma mat_of_length NV pat f : length (mat_of NV pat f) = NV.
  Proof. unfold mat_of. now rewrite map_length, seq_length. Qed.
  Lemma mat_of_row NV pat f i : i < NV -> nth i (mat_of NV pat f) [] = map (fun c => (c, f i c)) (pat i).
  Proof. intros H. unfold mat_of. apply (nth_map_seq (fun i => map (fun c => (c, f i c)) (pat i))); auto. Qed.
  Lemma mat_of_ext NV pat f g : (forall i j, i < NV -> In j (pat i) -> f i j = g i j) -> mat_of NV pat f = mat_of NV pat g.
  Proof.
    intros H. unfold mat_of. apply map_ext_in. intros i Hi. apply in_seq in Hi. apply map_ext_in. intros c Hc. now rewrite H by (auto; lia).
  Qed.

  Lemma upd_map_in {T U} (g g' : T -> U) (l : list T) k c : nth_error l k = Some c -> NoDup l -> (forall d, In d l -> d <> c -> g d = g' d) ->
    upd (map g l) k (g' c) = map g' l.
  Proof.
    revert k. induction l as [|x l IH]; intros [|k]; cbn; intros Hk ND H; try discriminate.
    - injection Hk as ->. inversion ND as [|? ? N1 N2]; subst. f_equal. apply map_ext_in. intros d Hd. apply H; auto. intros ->. auto.
    - inversion ND as [|? ? N1 N2]; subst. f_equal.
      + apply H; auto. intros ->. apply N1. eapply nth_error_In; eauto.
      + apply IH; auto.
  Qed.

  Lemma add_at_ok NV pat f r c v : r < NV -> StronglySorted lt (pat r) -> In c (pat r) ->
    add_at (mat_of NV pat f) r c v = Ret (mat_of NV pat (fadd f r c v)).
  Proof.
    intros Hr SS Hc. unfold add_at.
    rewrite (rd_ok (mat_of NV pat f) r []) by now rewrite mat_of_length. cbn [bind]. rewrite mat_of_row by auto.
    rewrite map_map. change (fun x => Z.of_nat (fst (x, f r x))) with Z.of_nat.
    destruct (find_in_sorted_array_spec (Z.of_nat c) (map Z.of_nat (pat r)) (ssZ_of_nat _ SS)) as [F _].
    destruct F as (k & Ek & Nk). { now apply in_map. }
    rewrite Ek. cbn [bind]. rewrite nth_error_map in Nk. destruct (nth_error (pat r) k) as [c'|] eqn:Ec; [|discriminate].
    cbn in Nk. injection Nk as Nk. assert (c' = c) by lia. subst c'. clear Nk Ek.
    assert (Hk : k < length (pat r)) by (apply nth_error_Some; congruence).
    rewrite (rd_ok (map (fun c => (c, f r c)) (pat r)) k (0, m0)) by now rewrite map_length. cbn [bind].
    assert (E0 : nth k (map (fun c => (c, f r c)) (pat r)) (0, m0) = (c, f r c)).
    { apply nth_error_nth. rewrite nth_error_map, Ec. reflexivity. }
    rewrite E0. cbn [fst snd]. rewrite wr_ok by now rewrite map_length. cbn [bind]. rewrite wr_ok by now rewrite mat_of_length.
    f_equal. unfold mat_of at 2.
    assert (ER : upd (map (fun c0 => (c0, f r c0)) (pat r)) k (c, madd (f r c) v) = map (fun c0 => (c0, fadd f r c v r c0)) (pat r)).
    { assert (EV : (c, madd (f r c) v) = (fun c0 => (c0, fadd f r c v r c0)) c) by (cbn beta; unfold fadd; now rewrite !Nat.eqb_refl).
      rewrite EV. apply (upd_map_in (fun c0 => (c0, f r c0)) (fun c0 => (c0, fadd f r c v r c0))); auto using nd_of_ss.
      intros d _ Hd. unfold fadd. rewrite Nat.eqb_refl. destruct (Nat.eqb_spec d c); [congruence|reflexivity]. }
    rewrite ER. clear ER.
    apply (upd_map_in (fun i => map (fun c0 => (c0, f i c0)) (pat i)) (fun i => map (fun c0 => (c0, fadd f r c v i c0)) (pat i))).
    - rewrite (nth_error_nth' _ 0) by now rewrite seq_length. rewrite seq_nth by auto. reflexivity.
    - apply seq_NoDup.
    - intros d _ Hd. apply map_ext. intros c0. unfold fadd. destruct (Nat.eqb_spec d r); [congruence|reflexivity].
  Qed.

  Section Assemble.
    Variables (NV : nat) (edges : list (nat * nat)) (econ : smat nat).
    Hypothesis HM : simple_mesh NV edges.
    Hypothesis HC : connectivity NV edges econ.

    Definition pat (k : nat) : list nat :=
      let n := map fst (nth k econ []) in
      match merge_pos_in_sorted_array (Z.of_nat k) (map Z.of_nat n) with
      | Ret (Some p) => firstn p n ++ k :: skipn p n
      | _ => []
      end.

    Lemma pat_ok k : k < NV -> ahat_row (B := B) (map fst (nth k econ [])) k = Ret (map (fun c => (c, m0)) (pat k)) /\
      StronglySorted lt (pat k) /\ (forall c, In c (pat k) <-> c = k \/ exists e, joins edges e k c).
    Proof using HM HC.
      intros Hk. destruct HC as (_ & HC1 & HC2). unfold ahat_row, pat. set (n := map fst (nth k econ [])).
      assert (SS : StronglySorted lt n) by (apply HC1; auto).
      destruct (merge_pos_spec (Z.of_nat k) (map Z.of_nat n) (ssZ_of_nat _ SS)) as (p & E & Hp & Hlo & Hhi). rewrite E. cbn [bind].
      assert (Hin : forall c, In c n <-> exists e, joins edges e k c).
      { intros c. unfold n. rewrite in_map_iff. split.
        - intros ((w, e) & <- & H). exists e. apply HC2 in H; auto.
        - intros (e & H). exists (c, e). split; auto. apply HC2; auto. }
      assert (Hne : ~ In k n).
      { intros H. apply Hin in H as (e & [H|H]); apply nth_error_In in H; apply (proj1 HM) in H; tauto. }
      split; [reflexivity|]. split.
      - assert (S2 : StronglySorted lt (firstn p n ++ skipn p n)) by now rewrite firstn_skipn.
        assert (A1 : forall x, In x (firstn p n) -> x < k).
        { intros x Hx. assert (x <> k). { intros ->. apply Hne. rewrite <- (firstn_skipn p n). apply in_or_app; auto. }
          assert (Z.of_nat x <= Z.of_nat k)%Z; [|lia]. apply Hlo. rewrite firstn_map. now apply in_map. }
        assert (A2 : forall x, In x (skipn p n) -> k < x).
        { intros x Hx. assert (Z.of_nat k < Z.of_nat x)%Z; [|lia]. apply Hhi. rewrite skipn_map. now apply in_map. }
        revert S2 A1 A2. clear. generalize (firstn p n) as a. generalize (skipn p n) as b. induction a as [|x a IH]; cbn; intros SS A1 A2.
        + constructor; auto. apply Forall_forall. auto.
        + inversion SS as [|? ? S1 S2]; subst. constructor; [apply IH; auto|]. rewrite Forall_forall in *. intros y Hy.
          apply in_app_or in Hy as [Hy|[<-|Hy]]; [apply S2, in_or_app; auto|apply A1; auto|]. specialize (A2 _ Hy). assert (x < k) by auto. lia.
      - intros c. rewrite in_app_iff. cbn [In]. rewrite <- Hin.
        assert (EQ : In c n <-> In c (firstn p n) \/ In c (skipn p n)) by (rewrite <- in_app_iff, firstn_skipn; tauto).
        rewrite EQ. intuition.
    Qed.
    Lemma pat_ss k : k < NV -> StronglySorted lt (pat k). Proof using B HM HC. intros H. apply pat_ok; auto. Qed.
    Lemma pat_in k c : k < NV -> In c (pat k) <-> c = k \/ exists e, joins edges e k c. Proof using B HM HC. intros H. apply pat_ok; auto. Qed.

    Lemma rows_ok : foldM (fun A k => n <- rd econ k ;; r <- ahat_row (map fst n) k ;; Ret (A ++ [r])) (seq 0 NV) []
      = Ret (mat_of NV pat (fun _ _ => m0)).
    Proof using HM HC.
      enough (G : forall n a acc, a + n <= NV -> foldM (fun A k => n <- rd econ k ;; r <- ahat_row (map fst n) k ;; Ret (A ++ [r])) (seq a n) acc
        = Ret (acc ++ map (fun i => map (fun c => (c, @m0 B)) (pat i)) (seq a n))).
      { rewrite (G NV 0 []) by lia. reflexivity. }
      induction n as [|n IH]; intros a acc Ha; cbn [seq map foldM]; [now rewrite app_nil_r|].
      assert (HL : length econ = NV) by exact (proj1 HC).
      rewrite (rd_ok econ a []) by lia. cbn [bind]. rewrite (proj1 (pat_ok a ltac:(lia))). cbn [bind].
      rewrite IH by lia. now rewrite <- app_assoc.
    Qed.

    Variable rmb : nat -> nat -> nat -> M.
    Variable vmatr : nat -> M.
    (** the values after one edge *)
    Definition fedge (excl : option (nat -> bool)) (f : nat -> nat -> M) (e : nat) : nat -> nat -> M :=
      match nth_error edges e with
      | None => f
      | Some (a, b) => if not_excluded edges excl e then
          fadd (fadd (fadd (fadd f a a (rmb e 0 0)) a b (rmb e 0 1)) b a (rmb e 1 0)) b b (rmb e 1 1) else f
      end.

    Lemma add_edge_ok excl f e : e < length edges ->
      add_edge edges rmb excl (mat_of NV pat f) e = Ret (mat_of NV pat (fedge excl f e)).
    Proof using HM HC.
      intros He. unfold add_edge, fedge. destruct (nth_error edges e) as [[a b]|] eqn:E; [|apply nth_error_None in E; lia].
      assert (Hin := nth_error_In _ _ E). apply (proj1 HM) in Hin as (Ha & Hb & Hab).
      assert (ER : rd edges e = Ret (a, b)). { unfold rd. now rewrite E. }
      rewrite ER. cbn [bind].
      assert (Paa : In a (pat a)) by (apply pat_in; auto). assert (Pbb : In b (pat b)) by (apply pat_in; auto).
      assert (Pab : In b (pat a)). { apply pat_in; auto. right. exists e. now left. }
      assert (Pba : In a (pat b)). { apply pat_in; auto. right. exists e. now right. }
      unfold not_excluded. destruct excl as [ex|].
      - rewrite E. rewrite <- negb_orb. destruct (ex a || ex b); cbn [negb]; [reflexivity|].
        do 3 (rewrite add_at_ok by auto using pat_ss; cbn [bind]). rewrite add_at_ok by auto using pat_ss. reflexivity.
      - do 3 (rewrite add_at_ok by auto using pat_ss; cbn [bind]). rewrite add_at_ok by auto using pat_ss. reflexivity.
    Qed.

    Definition fverts (inclv : bool) (f : nat -> nat -> M) (vs : list nat) : nat -> nat -> M :=
      if inclv then fold_left (fun f v => fadd f v v (vmatr v)) vs f else f.
    Definition ffinal (inclv : bool) excl (es vs : list nat) : nat -> nat -> M :=
      fverts inclv (fold_left (fedge excl) es (fun _ _ => m0)) vs.

    Lemma Assemble_ok eqe eqv inclv excl : (forall e, In e (master_nodes eqe) -> e < length edges) -> (forall v, In v (master_nodes eqv) -> v < NV) ->
      AssembleAhatSparse edges rmb vmatr NV econ eqe eqv inclv excl = Ret (mat_of NV pat (ffinal inclv excl (master_nodes eqe) (master_nodes eqv))).
    Proof using HM HC.
      intros HE HV. unfold AssembleAhatSparse. rewrite rows_ok. cbn [bind].
      assert (G : forall es f, (forall e, In e es -> e < length edges) ->
        foldM (add_edge edges rmb excl) es (mat_of NV pat f) = Ret (mat_of NV pat (fold_left (fedge excl) es f))).
      { induction es as [|e es IH]; intros f H; cbn [foldM fold_left]; auto. rewrite add_edge_ok by (apply H; now left). cbn [bind]. apply IH. intros; apply H; now right. }
      rewrite G by auto. cbn [bind]. unfold ffinal, fverts. destruct inclv; auto.
      generalize (fold_left (fedge excl) (master_nodes eqe) (fun _ _ => m0)) as f.
      assert (G2 : forall vs f, (forall v, In v vs -> v < NV) -> foldM (fun A v => add_at A v v (vmatr v)) vs (mat_of NV pat f)
        = Ret (mat_of NV pat (fold_left (fun f v => fadd f v v (vmatr v)) vs f))).
      { induction vs as [|v vs IH]; intros f H; cbn [foldM fold_left]; auto.
        rewrite add_at_ok; [|apply H; now left|apply pat_ss, H; now left|apply pat_in; [apply H; now left|auto]]. cbn [bind]. apply IH. intros; apply H; now right. }
      intros f. apply G2; auto.
    Qed.

    (** action of a row *)
    Lemma row_times_pat g (l : list nat) (u : list X) : row_times (map (fun c => (c, g c)) l) u = xsumf (fun c => act (g c) (ent u c)) l.
    Proof using L.
      induction l as [|c l IH]; cbn [map xsumf fold_right]; [reflexivity|].
      rewrite (row_times_cons L). cbn [fst snd]. rewrite IH. reflexivity.
    Qed.
    Lemma xsumf_fadd f r c v (u : list X) i : NoDup (pat i) -> 
      xsumf (fun j => act (fadd f r c v i j) (ent u j)) (pat i)
      = xadd (xsumf (fun j => act (f i j) (ent u j)) (pat i)) (if (i =? r) && existsb (Nat.eqb c) (pat i) then act v (ent u c) else x0).
    Proof using L.
      clear HM HC. intros ND. unfold fadd. destruct (Nat.eqb_spec i r) as [->|Hr]; cbn [andb]; [|agx].
      induction (pat r) as [|j l IH]; cbn [xsumf fold_right existsb]; [agx|].
      inversion ND as [|? ? N1 N2]; subst. unfold xsumf in IH. rewrite IH by auto. rewrite (Nat.eqb_sym c j). destruct (Nat.eqb_spec j c) as [->|Hj]; cbn [orb].
      - assert (E : existsb (Nat.eqb c) l = false).
        { destruct (existsb (Nat.eqb c) l) eqn:E; auto. exfalso. apply N1. apply existsb_exists in E as (x & Hx & E). apply Nat.eqb_eq in E. now subst. }
        rewrite E. rewrite (act_madd B L). agx.
      - destruct (existsb (Nat.eqb c) l); agx.
    Qed.
    Lemma existsb_pat c i : i < NV -> In c (pat i) -> existsb (Nat.eqb c) (pat i) = true.
    Proof using . clear. intros _ H. apply existsb_exists. exists c. now rewrite Nat.eqb_refl. Qed.

    Lemma fedge_action excl f e u i : i < NV -> e < length edges ->
      xsumf (fun j => act (fedge excl f e i j) (ent u j)) (pat i)
      = xadd (xsumf (fun j => act (f i j) (ent u j)) (pat i)) (if not_excluded edges excl e then edge_action rmb edges u i e else x0).
    Proof using HM HC L.
      intros Hi He. unfold fedge, edge_action. destruct (nth_error edges e) as [[a b]|] eqn:E; [|apply nth_error_None in E; lia].
      assert (Hin := nth_error_In _ _ E). apply (proj1 HM) in Hin as (Ha & Hb & Hab).
      destruct (not_excluded edges excl e); [|agx].
      assert (ND : NoDup (pat i)) by (apply nd_of_ss, pat_ss; auto).
      rewrite !xsumf_fadd by auto.
      assert (Paa : In a (pat a)) by (apply pat_in; auto). assert (Pbb : In b (pat b)) by (apply pat_in; auto).
      assert (Pab : In b (pat a)). { apply pat_in; auto. right. exists e. now left. }
      assert (Pba : In a (pat b)). { apply pat_in; auto. right. exists e. now right. }
      destruct (Nat.eqb_spec i a) as [->|Ea].
      - destruct (Nat.eqb_spec a b); [congruence|]. rewrite !existsb_pat by auto. cbn [andb]. agx.
      - destruct (Nat.eqb_spec i b) as [->|Eb]; cbn [andb]; [|agx]. rewrite !existsb_pat by auto. agx.
    Qed.

    Lemma ffinal_action inclv excl es vs u i : i < NV -> (forall e, In e es -> e < length edges) -> (forall v, In v vs -> v < NV) ->
      xsumf (fun j => act (ffinal inclv excl es vs i j) (ent u j)) (pat i)
      = xadd (xsumf (edge_action rmb edges u i) (filter (not_excluded edges excl) es))
             (if inclv then xsumf (fun v => if v =? i then act (vmatr v) (ent u v) else x0) vs else x0).
    Proof using HM HC L.
      intros Hi HE HV. unfold ffinal, fverts.
      assert (ND : NoDup (pat i)) by (apply nd_of_ss, pat_ss; auto).
      assert (G : forall es f, (forall e, In e es -> e < length edges) ->
        xsumf (fun j => act (fold_left (fedge excl) es f i j) (ent u j)) (pat i)
        = xadd (xsumf (fun j => act (f i j) (ent u j)) (pat i)) (xsumf (edge_action rmb edges u i) (filter (not_excluded edges excl) es))).
      { clear es HE. induction es as [|e es IH]; intros f H; cbn [fold_left filter]. { rewrite xsumf_nil. agx. }
        rewrite IH by (intros; apply H; now right). rewrite fedge_action by (auto; apply H; now left).
        destruct (not_excluded edges excl e); rewrite ?xsumf_cons; agx. }
      assert (Z0 : xsumf (fun j => act (@m0 B) (ent u j)) (pat i) = x0).
      { clear - L LX. induction (pat i); cbn [xsumf fold_right]; auto. unfold xsumf in IHl. rewrite IHl, (act_m0 B L). agx. }
      destruct inclv; [|rewrite G, Z0 by auto; agx].
      assert (G2 : forall vs f, (forall v, In v vs -> v < NV) ->
        xsumf (fun j => act (fold_left (fun f v => fadd f v v (vmatr v)) vs f i j) (ent u j)) (pat i)
        = xadd (xsumf (fun j => act (f i j) (ent u j)) (pat i)) (xsumf (fun v => if v =? i then act (vmatr v) (ent u v) else x0) vs)).
      { clear vs HV. induction vs as [|v vs IH]; intros f H; cbn [fold_left]. { rewrite xsumf_nil. agx. }
        rewrite IH by (intros; apply H; now right). rewrite xsumf_fadd by auto. rewrite xsumf_cons.
        rewrite (Nat.eqb_sym i v). destruct (Nat.eqb_spec v i) as [->|Hv]; cbn [andb]; [|agx].
        rewrite existsb_pat by (auto; apply pat_in; auto). agx. }
      rewrite G2, G, Z0 by auto. agx.
    Qed.

    (** symmetry *)
    Lemma pat_sym i j : i < NV -> j < NV -> In j (pat i) <-> In i (pat j).
    Proof using B HM HC.
      intros Hi Hj. rewrite !pat_in by auto. unfold joins.
      split; (intros [->|(e & [H|H])]; [auto|right; exists e; auto|right; exists e; auto]).
    Qed.
    Lemma ffinal_sym inclv excl es vs : (forall e i j, In e es -> i < 2 -> j < 2 -> rmb e j i = mtr (rmb e i j)) -> (forall v, In v vs -> vmatr v = mtr (vmatr v)) ->
      forall i j, ffinal inclv excl es vs j i = mtr (ffinal inclv excl es vs i j).
    Proof using HM L.
      intros HB HV. unfold ffinal, fverts.
      assert (G : forall es f, (forall e i j, In e es -> i < 2 -> j < 2 -> rmb e j i = mtr (rmb e i j)) -> (forall i j, f j i = mtr (f i j)) ->
        forall i j, fold_left (fedge excl) es f j i = mtr (fold_left (fedge excl) es f i j)).
      { clear - L HM. induction es as [|e es IH]; intros f HB Hf; cbn [fold_left]; auto.
        apply IH; [intros; apply HB; auto; now right|]. unfold fedge. destruct (nth_error edges e) as [[a b]|] eqn:E; auto.
        assert (Hin := nth_error_In _ _ E). apply (proj1 HM) in Hin as (Ha & Hb & Hab).
        destruct (not_excluded edges excl e); auto.
        assert (HB' := fun i j => HB e i j (or_introl eq_refl)).
        intros i j. unfold fadd.
        destruct (Nat.eqb_spec i a), (Nat.eqb_spec i b), (Nat.eqb_spec j a), (Nat.eqb_spec j b); subst; cbn [andb]; try congruence; auto;
          rewrite (mtr_madd B L), <- Hf, <- HB' by lia; reflexivity. }
      assert (G0 := G es (fun _ _ => m0) HB). destruct inclv.
      - assert (G2 : forall vs f, (forall v, In v vs -> vmatr v = mtr (vmatr v)) -> (forall i j, f j i = mtr (f i j)) ->
          forall i j, fold_left (fun f v => fadd f v v (vmatr v)) vs f j i = mtr (fold_left (fun f v => fadd f v v (vmatr v)) vs f i j)).
        { clear - L. induction vs as [|v vs IH]; intros f HV Hf; cbn [fold_left]; auto. apply IH; [intros; apply HV; now right|].
          intros i j. unfold fadd. assert (HV0 := HV v (or_introl eq_refl)).
          destruct (Nat.eqb_spec i v), (Nat.eqb_spec j v); subst; cbn [andb]; auto. rewrite (mtr_madd B L), <- Hf, <- HV0. reflexivity. }
        apply G2; auto. apply G0. intros; symmetry; apply (mtr_m0 B L).
      - apply G0. intros; symmetry; apply (mtr_m0 B L).
    Qed.
    Lemma row_ent_pat g (l : list nat) c : NoDup l -> row_ent (map (fun c => (c, g c)) l) c = if existsb (Nat.eqb c) l then madd (g c) m0 else (@m0 B).
    Proof using .
      clear. induction 1 as [|x l N ND IH]; cbn [map row_ent fold_right existsb fst snd]; auto. rewrite (Nat.eqb_sym c x).
      unfold row_ent in IH. rewrite IH. destruct (Nat.eqb_spec x c) as [->|Hx]; cbn [orb]; auto.
      destruct (existsb (Nat.eqb c) l) eqn:E; auto. exfalso. apply N. apply existsb_exists in E as (y & Hy & E). apply Nat.eqb_eq in E. now subst.
    Qed.
    Lemma mat_of_sym f : (forall i j, f j i = mtr (f i j)) -> sym_mat NV (mat_of NV pat f).
    Proof using HM HC L.
      intros Hf i j Hi Hj. unfold entry, getrow. rewrite !mat_of_row by auto.
      rewrite !row_ent_pat by (apply nd_of_ss, pat_ss; auto).
      assert (E : existsb (Nat.eqb i) (pat j) = existsb (Nat.eqb j) (pat i)).
      { apply Bool.eq_true_iff_eq. rewrite !existsb_exists. split.
        - intros (x & Hx & E). apply Nat.eqb_eq in E; subst x. exists j. rewrite Nat.eqb_refl. split; auto. apply pat_sym; auto.
        - intros (x & Hx & E). apply Nat.eqb_eq in E; subst x. exists i. rewrite Nat.eqb_refl. split; auto. apply pat_sym; auto. }
      rewrite E. destruct (existsb (Nat.eqb j) (pat i)).
      - rewrite (mtr_madd B L), <- Hf, (mtr_m0 B L). reflexivity.
      - now rewrite (mtr_m0 B L).
    Qed.
  End Assemble.
End Mat.
