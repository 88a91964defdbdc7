(** Buckets and duplicates *)
From Verif Require Import Base ArraysModel ArraysProofs ArraysProps LoopModel LoopProofs2 LoopProofs3 SMapModel SMapProofs.
Import ListNotations.

Definition fv (l : list pt) : pt := hd d0 l.
Lemma rd_first (l : list pt) : l <> [] -> rd l 0 = Ret (fv l).
Proof. destruct l; [congruence|reflexivity]. Qed.

(** *** the arrays *)
Definition ainv (vs : list pt) (ids mins nexts : list Z) : Prop :=
  length mins = length ids /\ length nexts = length ids /\ StronglySorted Z.lt ids /\
  (forall i, (i < length ids)%nat -> (nth i mins 0 < nth i nexts 0)%Z) /\
  (forall v, In v vs -> exists i, (i < length ids)%nat /\ nth i ids 0%Z = fst v /\ (nth i mins 0 <= snd v < nth i nexts 0)%Z).

Lemma nth_insert (pos : nat) (x : Z) (l : list Z) i : (pos <= length l)%nat ->
  nth i (array_insert pos x l) 0%Z = if (i <? pos)%nat then nth i l 0%Z else if (i =? pos)%nat then x else nth (i - 1) l 0%Z.
Proof.
  intros H. unfold array_insert. destruct (Nat.ltb_spec i pos).
  - rewrite app_nth1 by (rewrite firstn_length; lia). apply nth_firstn; auto.
  - rewrite app_nth2 by (rewrite firstn_length; lia). rewrite firstn_length, Nat.min_l by lia. destruct (Nat.eqb_spec i pos) as [->|]; [rewrite Nat.sub_diag; reflexivity|].
    replace (i - pos)%nat with (S (i - pos - 1)) by lia. cbn [nth]. rewrite nth_skipn. f_equal. lia.
Qed.
Lemma insert_length pos (x : Z) l : (pos <= length l)%nat -> length (array_insert pos x l) = S (length l).
Proof. intros H. unfold array_insert. rewrite app_length, firstn_length. cbn. rewrite skipn_length. lia. Qed.
Lemma sorted_lt_nth l : StronglySorted Z.lt l <-> forall i j, (i < j < length l)%nat -> (nth i l 0 < nth j l 0)%Z.
Proof.
  split.
  - induction 1 as [|a l H IH F]; intros i j [Hi Hj]; [cbn in Hj; lia|]. destruct j; [lia|]. destruct i as [|i]; cbn [nth length] in *.
    + rewrite Forall_forall in F. apply F, nth_In. lia.
    + apply IH; lia.
  - induction l as [|a l IH]; intros H; constructor.
    + apply IH. intros i j Hij. apply (H (S i) (S j)). cbn. lia.
    + apply Forall_forall. intros x Hx. destruct (In_nth _ _ 0%Z Hx) as (j & Hj & <-). apply (H 0%nat (S j)). cbn. lia.
Qed.

Lemma eq_entry_ok vs ids mins nexts (l : list pt) : ainv vs ids mins nexts -> l <> [] ->
  exists ids' mins' nexts', eq_entry (ids, mins, nexts) l = Ret (ids', mins', nexts') /\ ainv (fv l :: vs) ids' mins' nexts'.
Proof.
  intros (L1 & L2 & SS & MN & V) NE. unfold eq_entry. rewrite rd_first by auto. cbn [bind]. set (v := fv l).
  destruct (C02_merge_pos (fst v) ids (lt_le _ SS)) as (pos & -> & Hp & A & B). cbn [bind].
  assert (SM : exists same : bool, (if (0 <? pos)%nat then y <- rd ids (pos - 1) ;; Ret (y =? fst v)%Z else Ret false) = Ret same /\
     (same = true -> (0 < pos)%nat /\ nth (pos - 1) ids 0%Z = fst v) /\ (same = false -> forall i, (i < pos)%nat -> (nth i ids 0 < fst v)%Z)).
  { destruct (Nat.ltb_spec 0 pos).
    - rewrite (rd_ok ids (pos - 1) 0%Z) by lia. cbn [bind]. eexists. split; [reflexivity|]. split; [rewrite Z.eqb_eq; auto|]. rewrite Z.eqb_neq. intros NEQ i Hi.
      assert (Q : (nth (pos - 1) ids 0 <= fst v)%Z). { apply A. rewrite <- (nth_firstn 0%Z pos (pos - 1)) by lia. apply nth_In. rewrite firstn_length. lia. }
      destruct (Nat.eq_dec i (pos - 1)) as [->|]; [lia|]. pose proof (proj1 (sorted_lt_nth ids) SS i (pos - 1)%nat ltac:(lia)). lia.
    - eexists. split; [reflexivity|]. split; [discriminate|]. intros _ i Hi. lia. }
  destruct SM as (same & -> & T & F). cbn [bind]. destruct same.
  - destruct (T eq_refl) as [P0 Ep]. rewrite (rd_ok mins (pos - 1) 0%Z), (rd_ok nexts (pos - 1) 0%Z) by lia. cbn [bind]. rewrite !wr_ok by lia. cbn [bind].
    do 3 eexists. split; [reflexivity|]. split; [rewrite upd_length; auto|]. split; [rewrite upd_length; auto|]. split; auto. split.
    + intros i Hi. destruct (Nat.eq_dec i (pos - 1)) as [->|]; [rewrite !nth_upd_eq by lia|rewrite !nth_upd_neq by auto; apply MN; auto]. specialize (MN (pos - 1)%nat ltac:(lia)). lia.
    + intros w Hw. destruct Hw as [<-|Hw].
      * exists (pos - 1)%nat. split; [lia|]. split; [auto|]. rewrite !nth_upd_eq by lia. lia.
      * destruct (V w Hw) as (i & Hi & Ei & Ri). exists i. split; auto. split; auto. destruct (Nat.eq_dec i (pos - 1)) as [->|]; [rewrite !nth_upd_eq by lia; lia|rewrite !nth_upd_neq by auto; auto].
  - specialize (F eq_refl). unfold zinsert. do 3 eexists. split; [reflexivity|].
    split; [rewrite !insert_length by lia; lia|]. split; [rewrite !insert_length by lia; lia|].
    assert (BB : forall i, (pos <= i < length ids)%nat -> (fst v < nth i ids 0)%Z).
    { intros i Hi. apply B. replace i with (pos + (i - pos))%nat by lia. rewrite <- (nth_skipn 0%Z). apply nth_In. rewrite skipn_length. lia. }
    assert (IX : forall i, (i < length (array_insert pos (fst v) ids))%nat -> (i < pos \/ i = pos \/ (pos < i /\ i - 1 < length ids))%nat) by (intros i; rewrite insert_length by lia; lia).
    assert (CV : forall w i, (i < length ids)%nat -> nth i ids 0%Z = fst w -> (nth i mins 0 <= snd w < nth i nexts 0)%Z -> exists j, (j < length (array_insert pos (fst v) ids))%nat /\
       nth j (array_insert pos (fst v) ids) 0%Z = fst w /\ (nth j (array_insert pos (snd v) mins) 0 <= snd w < nth j (array_insert pos (snd v + 1) nexts) 0)%Z).
    { intros w i Hi Ei Ri. rewrite insert_length by lia. destruct (Nat.ltb_spec i pos) as [H|H].
      - exists i. rewrite !nth_insert by lia. destruct (Nat.ltb_spec i pos); [|lia]. auto.
      - exists (S i). rewrite !nth_insert by lia. destruct (Nat.ltb_spec (S i) pos); [lia|]. destruct (Nat.eqb_spec (S i) pos); [lia|]. cbn [Nat.sub]. rewrite Nat.sub_0_r. split; [lia|auto]. }
    split; [|split].
    + apply sorted_lt_nth. intros i j [Hij Hj]. rewrite insert_length in Hj by lia. rewrite !nth_insert by lia.
      destruct (Nat.ltb_spec i pos), (Nat.ltb_spec j pos); try lia.
      * apply (proj1 (sorted_lt_nth ids) SS). lia.
      * destruct (Nat.eqb_spec j pos); [apply F; auto|]. apply (proj1 (sorted_lt_nth ids) SS). lia.
      * destruct (Nat.eqb_spec j pos); [lia|]. destruct (Nat.eqb_spec i pos); [apply BB; lia|]. apply (proj1 (sorted_lt_nth ids) SS). lia.
    + intros i Hi. rewrite insert_length in Hi by lia. rewrite !nth_insert by lia. destruct (Nat.ltb_spec i pos); [apply MN; lia|]. destruct (Nat.eqb_spec i pos); [lia|]. apply MN. lia.
    + intros w Hw. destruct Hw as [<-|Hw].
      * exists pos. rewrite insert_length by lia. rewrite !nth_insert by lia. rewrite Nat.ltb_irrefl, Nat.eqb_refl. split; [lia|]. split; [auto|]. lia.
      * destruct (V w Hw) as (i & Hi & Ei & Ri). apply (CV w i); auto.
Qed.
Lemma eq_arrays_ok cl : Forall (fun l : list pt => l <> []) cl -> exists ids mins nexts, eq_arrays cl = Ret (ids, mins, nexts) /\ ainv (map fv cl) ids mins nexts.
Proof.
  intros F. unfold eq_arrays. assert (G : forall cl vs ids mins nexts, Forall (fun l : list pt => l <> []) cl -> ainv vs ids mins nexts ->
    exists ids' mins' nexts', foldM eq_entry cl (ids, mins, nexts) = Ret (ids', mins', nexts') /\ ainv (rev (map fv cl) ++ vs) ids' mins' nexts').
  { clear. induction cl as [|l cl IH]; intros vs ids mins nexts F I; [do 3 eexists; split; [reflexivity|auto]|]. inversion F; subst. destruct (eq_entry_ok vs ids mins nexts l I ltac:(auto)) as (a & b & c & E & I1).
    cbn [foldM]. rewrite E. cbn [bind]. destruct (IH _ _ _ _ ltac:(eauto) I1) as (a' & b' & c' & E' & I'). do 3 eexists. split; [exact E'|]. cbn [map rev]. rewrite <- app_assoc. exact I'. }
  destruct (G cl [] [] [] []) as (a & b & c & E & I); auto.
  - split; [auto|]. split; [auto|]. split; [constructor|]. split; [intros i Hi; cbn in Hi; lia|]. intros v [].
  - do 3 eexists. split; [exact E|]. destruct I as (L1 & L2 & SS & MN & V). split; auto. split; auto. split; auto. split; auto. intros v Hv. apply V. rewrite app_nil_r. apply in_rev in Hv. auto.
Qed.

(** *** bucket numbers *)
Lemma offsets_ok : forall mins nexts os, length nexts = length mins -> (forall i, (i < length mins)%nat -> (nth i mins 0 < nth i nexts 0)%Z) ->
  length (offsets_from os mins nexts) = S (length mins) /\ nth 0 (offsets_from os mins nexts) 0%Z = os /\
  (forall i, (i < length mins)%nat -> nth (S i) (offsets_from os mins nexts) 0%Z = (nth i (offsets_from os mins nexts) 0 + (nth i nexts 0 - nth i mins 0))%Z).
Proof.
  induction mins as [|m mins IH]; intros [|n nexts] os L H; try discriminate; cbn [offsets_from].
  - split; auto. split; auto. intros i Hi. cbn in Hi. lia.
  - destruct (IH nexts (os + (n - m))%Z) as (A & B & C); [cbn in L; lia|intros i Hi; apply (H (S i)); cbn; lia|]. split; [cbn; lia|]. split; auto. intros [|i] Hi; [cbn [nth]; rewrite B; reflexivity|]. cbn [nth]. apply C. cbn in Hi. lia.
Qed.

Section B.
  Variables (vs : list pt) (ids mins nexts : list Z).
  Hypothesis HI : ainv vs ids mins nexts.
  Let offs := offsets_from 0 mins nexts.
  Lemma offs_mono i j : (i <= j <= length ids)%nat -> (nth i offs 0 <= nth j offs 0)%Z.
  Proof.
    destruct HI as (L1 & L2 & _ & MN & _). destruct (offsets_ok mins nexts 0 ltac:(lia) ltac:(intros; apply MN; lia)) as (A & B & C). fold offs in A, B, C.
    intros [H1 H2]. induction j as [|j IH]; [assert (i = 0)%nat by lia; subst; lia|]. destruct (Nat.eq_dec i (S j)) as [->|]; [lia|]. specialize (IH ltac:(lia) ltac:(lia)). rewrite C by lia. specialize (MN j ltac:(lia)). lia.
  Qed.
  Definition bk (v : pt) : Z := match tup2bucket ids mins offs v with Ret b => b | _ => 0%Z end.
  Lemma bk_ok v : In v vs -> exists i, (i < length ids)%nat /\ nth i ids 0%Z = fst v /\ tup2bucket ids mins offs v = Ret (bk v) /\
    bk v = (nth i offs 0 + (snd v - nth i mins 0))%Z /\ (nth i offs 0 <= bk v < nth (S i) offs 0)%Z.
  Proof.
    intros Hv. destruct HI as (L1 & L2 & SS & MN & V). destruct (V v Hv) as (i & Hi & Ei & Ri). exists i. split; auto. split; auto.
    destruct (offsets_ok mins nexts 0 ltac:(lia) ltac:(intros; apply MN; lia)) as (A & B & C). fold offs in A, B, C.
    assert (E : tup2bucket ids mins offs v = Ret (nth i offs 0 + (snd v - nth i mins 0))%Z).
    { unfold tup2bucket. rewrite (posn_at (fst v) ids i) by auto. cbn [bind]. rewrite (rd_ok mins i 0%Z), (rd_ok offs i 0%Z) by lia. reflexivity. }
    unfold bk. rewrite E. split; auto. split; auto. rewrite C by lia. lia.
  Qed.
  Lemma offs_last : last offs 0%Z = nth (length ids) offs 0%Z.
  Proof. destruct HI as (L1 & L2 & _ & MN & _). destruct (offsets_ok mins nexts 0 ltac:(lia) ltac:(intros; apply MN; lia)) as (A & B & C). fold offs in A, B, C. rewrite last_nth. f_equal. lia. Qed.
  Lemma bk_range v : In v vs -> (0 <= bk v < last offs 0)%Z.
  Proof.
    intros Hv. destruct (bk_ok v Hv) as (i & Hi & _ & _ & _ & R). rewrite offs_last. pose proof (offs_mono 0 i ltac:(lia)). pose proof (offs_mono (S i) (length ids) ltac:(lia)).
    destruct HI as (L1 & L2 & _ & MN & _). destruct (offsets_ok mins nexts 0 ltac:(lia) ltac:(intros; apply MN; lia)) as (A & B & C). fold offs in A, B, C. lia.
  Qed.
  Lemma bk_inj v w : In v vs -> In w vs -> bk v = bk w -> v = w.
  Proof.
    intros Hv Hw E. destruct (bk_ok v Hv) as (i & Hi & Ei & _ & Ev & Rv), (bk_ok w Hw) as (j & Hj & Ej & _ & Ew & Rw).
    assert (i = j). { destruct (lt_eq_lt_dec i j) as [[H|H]|H]; auto; exfalso.
      - pose proof (offs_mono (S i) j ltac:(lia)). lia.
      - pose proof (offs_mono (S j) i ltac:(lia)). lia. }
    subst j. destruct v, w. cbn in *. f_equal; lia.
  Qed.
End B.

(** *** the bucket table *)
Definition nums (b : list Z) (x : Z) : list nat := filter (fun k => (nth k b (-1) =? x)%Z) (seq 0 (length b)).
Lemma nums_snoc b y x : nums (b ++ [y]) x = nums b x ++ (if (y =? x)%Z then [length b] else []).
Proof.
  unfold nums. rewrite app_length, Nat.add_comm. cbn [length Nat.add]. rewrite seq_S, filter_app. f_equal.
  - apply filter_ext_in. intros k Hk. apply in_seq in Hk. rewrite app_nth1 by lia. reflexivity.
  - cbn [Nat.add filter]. rewrite app_nth2, Nat.sub_diag by lia. cbn [nth]. destruct (y =? x)%Z; reflexivity.
Qed.
Lemma bucket_fold ids mins offs (bkf : pt -> Z) nb : forall cl done t, length t = nb -> Forall (fun l : list pt => l <> [] /\ tup2bucket ids mins offs (fv l) = Ret (bkf (fv l)) /\ (0 <= bkf (fv l) < Z.of_nat nb)%Z) cl ->
  (forall i, (i < nb)%nat -> nth i t [] = nums done (Z.of_nat i)) ->
  exists t', foldM (bucket_entry ids mins offs) cl (length done, t) = Ret ((length done + length cl)%nat, t') /\ length t' = nb /\ forall i, (i < nb)%nat -> nth i t' [] = nums (done ++ map (fun l => bkf (fv l)) cl) (Z.of_nat i).
Proof.
  induction cl as [|l cl IH]; intros done t L F H; [exists t; cbn [foldM length map]; rewrite Nat.add_0_r, app_nil_r; auto|]. inversion F as [|? ? (NE & E & R) F']; subst.
  cbn [foldM]. unfold bucket_entry at 1. rewrite rd_first by auto. cbn [bind]. rewrite E. cbn [bind]. unfold rdz. destruct (Z.ltb_spec (bkf (fv l)) 0); [lia|]. rewrite (rd_ok t _ []) by lia. cbn [bind]. rewrite wr_ok by lia. cbn [bind].
  destruct (IH (done ++ [bkf (fv l)]) (upd t (Z.to_nat (bkf (fv l))) (nth (Z.to_nat (bkf (fv l))) t [] ++ [length done]))) as (t' & E' & L' & H').
  - rewrite upd_length; auto.
  - auto.
  - intros i Hi. rewrite nums_snoc. destruct (Nat.eq_dec i (Z.to_nat (bkf (fv l)))) as [->|].
    + rewrite nth_upd_eq by lia. rewrite H by lia. rewrite Z2Nat.id by lia. rewrite Z.eqb_refl. reflexivity.
    + rewrite nth_upd_neq by auto. destruct (Z.eqb_spec (bkf (fv l)) (Z.of_nat i)); [lia|]. rewrite app_nil_r. auto.
  - rewrite app_length in E'. cbn [length] in E'. rewrite Nat.add_1_r in E'. exists t'. split; [rewrite E'; f_equal; f_equal; cbn; lia|]. split; auto. intros i Hi. rewrite H' by auto. rewrite <- app_assoc. reflexivity.
Qed.
Lemma buckets_ok cl : Forall (fun l : list pt => l <> []) cl -> exists t (bkf : pt -> Z), buckets cl = Ret t /\
  (forall k l, (k < length cl)%nat -> (l < length cl)%nat -> bkf (fv (nth k cl [])) = bkf (fv (nth l cl [])) -> fv (nth k cl []) = fv (nth l cl [])) /\
  (forall k, (k < length cl)%nat -> (0 <= bkf (fv (nth k cl [])) < Z.of_nat (length t))%Z) /\
  forall i, (i < length t)%nat -> nth i t [] = nums (map (fun l => bkf (fv l)) cl) (Z.of_nat i).
Proof.
  intros F. destruct (eq_arrays_ok cl F) as (ids & mins & nexts & E & I). unfold buckets. rewrite E. cbn [bind]. set (offs := offsets_from 0 mins nexts).
  assert (IN : forall l, In l cl -> In (fv l) (map fv cl)) by (intros; apply in_map; auto).
  destruct (bucket_fold ids mins offs (bk ids mins nexts) (Z.to_nat (last offs 0%Z)) cl [] (repeat [] (Z.to_nat (last offs 0%Z)))) as (t & E' & L & H).
  - apply repeat_length.
  - rewrite Forall_forall in *. intros l Hl. split; auto. destruct (bk_ok _ _ _ _ I (fv l) (IN l Hl)) as (i & _ & _ & X & _). split; [exact X|]. pose proof (bk_range _ _ _ _ I (fv l) (IN l Hl)) as Y. fold offs in Y. lia.
  - intros i Hi. rewrite nth_repeat. reflexivity.
  - cbn [length Nat.add] in E'. rewrite E'. cbn [bind]. exists t, (bk ids mins nexts). split; auto. split; [|split].
    + intros k l Hk Hl X. apply (bk_inj _ _ _ _ I); auto; apply IN, nth_In; auto.
    + intros k Hk. pose proof (bk_range _ _ _ _ I _ (IN _ (nth_In cl [] Hk))) as Y. fold offs in Y. lia.
    + intros i Hi. apply H. lia.
Qed.

(** *** the duplicates *)
Lemma loopeqb_ok a : forall b, loopeqb a b = true <-> a = b.
Proof.
  induction a as [|x a IH]; intros [|y b]; cbn; split; try congruence; intros H.
  - apply andb_true_iff in H. destruct H as [H1 H2]. apply pteqb_ok in H1. apply IH in H2. congruence.
  - injection H as -> ->. rewrite pteqb_refl. apply IH. reflexivity.
Qed.
Section D.
  Variable cl : list (list pt).
  Notation n := (length cl).
  Lemma find_dup_ok mine : forall before, (forall l, In l before -> (l < n)%nat) ->
    match find_dup cl mine before with Ret (Some l) => In l before /\ nth l cl [] = mine | Ret None => forall l, In l before -> nth l cl [] <> mine | Err _ => False end.
  Proof.
    induction before as [|l before IH]; intros H; cbn [find_dup]; [intros l []|]. rewrite (rd_ok cl l []) by (apply H; cbn; auto). cbn [bind]. destruct (loopeqb mine (nth l cl [])) eqn:E.
    - apply loopeqb_ok in E. split; cbn; auto.
    - specialize (IH ltac:(intros; apply H; cbn; auto)). destruct (find_dup cl mine before) as [[x|]|]; auto.
      + destruct IH; split; cbn; auto.
      + intros y [<-|Hy]; auto. intros X. rewrite X in E. assert (loopeqb mine mine = true) by (apply loopeqb_ok; auto). congruence.
  Qed.
  (** after the bucket: entries outside are unchanged, inside they tell the first equal member before *)
  Definition told (before : list nat) (k : nat) (x : Z) : Prop :=
    (x = (-1)%Z /\ forall l, In l before -> nth l cl [] <> nth k cl []) \/ exists l, x = Z.of_nat l /\ In l before /\ nth l cl [] = nth k cl [].
  Lemma dup_bucket_ok : forall rest before dups, length dups = n -> NoDup rest -> (forall l, In l (before ++ rest) -> (l < n)%nat) -> (forall k, In k rest -> nth k dups (-2)%Z = (-1)%Z) ->
    exists dups', dup_bucket cl before rest dups = Ret dups' /\ length dups' = n /\ (forall k, ~ In k rest -> nth k dups' (-2)%Z = nth k dups (-2)%Z) /\
      forall a k b, rest = a ++ k :: b -> told (before ++ a) k (nth k dups' (-2)%Z).
  Proof.
    induction rest as [|j rest IH]; intros before dups L N R I; cbn [dup_bucket].
    - exists dups. split; auto. split; auto. split; auto. intros [|] ? ? E; discriminate.
    - inversion N as [|? ? N1 N2]; subst. assert (Hj : (j < n)%nat) by (apply R; apply in_or_app; cbn; auto). rewrite (rd_ok cl j []) by auto. cbn [bind].
      pose proof (find_dup_ok (nth j cl []) before ltac:(intros; apply R; apply in_or_app; auto)) as FD. destruct (find_dup cl (nth j cl []) before) as [o|]; [|destruct FD]. cbn [bind].
      assert (D : exists dups1, (match o with None => Ret dups | Some l => wr dups j (Z.of_nat l) end) = Ret dups1 /\ length dups1 = n /\ (forall k, k <> j -> nth k dups1 (-2)%Z = nth k dups (-2)%Z) /\ told before j (nth j dups1 (-2)%Z)).
      { destruct o as [l|].
        - rewrite wr_ok by lia. eexists. split; [reflexivity|]. split; [rewrite upd_length; auto|]. split; [intros k Hk; apply nth_upd_neq; auto|]. rewrite nth_upd_eq by lia. right. exists l. tauto.
        - exists dups. split; auto. split; auto. split; auto. left. split; auto. apply I. cbn; auto. }
      destruct D as (dups1 & -> & L1 & K1 & T1). cbn [bind].
      destruct (IH (before ++ [j]) dups1) as (dups' & E & L' & K' & T'); auto.
      + intros l Hl. apply R. rewrite <- app_assoc in Hl. exact Hl.
      + intros k Hk. rewrite K1 by (intros ->; auto). apply I. cbn; auto.
      + exists dups'. split; auto. split; auto. split.
        * intros k Hk. rewrite K' by (intros X; apply Hk; cbn; auto). apply K1. intros ->. apply Hk. cbn; auto.
        * intros a k b X. destruct a as [|a0 a]; cbn in X; injection X as <- X.
          -- rewrite app_nil_r. rewrite K' by auto. auto.
          -- specialize (T' a k b X). rewrite <- app_assoc in T'. exact T'.
  Qed.
  Theorem ce_dups_ok : Forall (fun l : list pt => l <> []) cl -> exists dups, ce_dups cl = Ret dups /\ length dups = n /\
    forall k, (k < n)%nat -> (nth k dups (-2) = -1 /\ forall l, (l < k)%nat -> nth l cl [] <> nth k cl [])%Z \/
      exists l, nth k dups (-2)%Z = Z.of_nat l /\ (l < k)%nat /\ nth l cl [] = nth k cl [].
  Proof.
    intros F. destruct (buckets_ok cl F) as (t & bkf & E & INJ & RG & TB). unfold ce_dups. rewrite E. cbn [bind].
    set (bs := map (fun l => bkf (fv l)) cl) in *. assert (Lb : length bs = n) by (unfold bs; apply map_length).
    assert (NB : forall k, (k < n)%nat -> nth k bs (-1)%Z = bkf (fv (nth k cl []))).
    { intros k Hk. unfold bs. rewrite (nth_indep _ (-1)%Z (bkf (fv []))) by (rewrite map_length; auto). apply (map_nth (fun l => bkf (fv l))). }
    assert (IN : forall k x, In k (nums bs x) <-> (k < n)%nat /\ nth k bs (-1)%Z = x).
    { intros k x. unfold nums. rewrite filter_In, in_seq, Z.eqb_eq, Lb. split; intros [A B]; split; auto; lia. }
    assert (G : forall m j dups, (j + m = length t)%nat -> length dups = n ->
      (forall k, (k < n)%nat -> (nth k bs (-1) < Z.of_nat j)%Z -> told (filter (fun l => (nth l bs (-1) =? nth k bs (-1))%Z) (seq 0 k)) k (nth k dups (-2)%Z)) ->
      (forall k, (k < n)%nat -> (Z.of_nat j <= nth k bs (-1))%Z -> nth k dups (-2)%Z = (-1)%Z) ->
      exists dups', foldM (fun d b => dup_bucket cl [] b d) (skipn j t) dups = Ret dups' /\ length dups' = n /\
        forall k, (k < n)%nat -> told (filter (fun l => (nth l bs (-1) =? nth k bs (-1))%Z) (seq 0 k)) k (nth k dups' (-2)%Z)).
    { induction m as [|m IH]; intros j dups Hm L H1 H2.
      - rewrite skipn_all2 by lia. exists dups. split; auto. split; auto. intros k Hk. apply H1; auto. rewrite NB by auto. specialize (RG k Hk). lia.
      - assert (SK : skipn j t = nth j t [] :: skipn (S j) t).
        { assert (HJ : (j < length t)%nat) by lia. revert HJ. clear. revert j. induction t as [|a t IH]; intros j H; [cbn in H; lia|]. destruct j; [reflexivity|]. cbn [skipn nth]. rewrite IH by (cbn in H; lia). reflexivity. }
        rewrite SK. cbn [foldM]. rewrite TB by lia.
        destruct (dup_bucket_ok (nums bs (Z.of_nat j)) [] dups L) as (d1 & E1 & L1 & K1 & T1).
        + unfold nums. apply NoDup_filter, seq_NoDup.
        + intros l Hl. apply IN in Hl. tauto.
        + intros k Hk. apply IN in Hk. apply H2; [tauto|]. lia.
        + rewrite E1. cbn [bind]. apply IH; [lia|auto| |].
          * intros k Hk Hb. destruct (Z.eq_dec (nth k bs (-1)%Z) (Z.of_nat j)) as [EQ|NEQ].
            -- destruct (T1 (filter (fun l => (nth l bs (-1) =? nth k bs (-1))%Z) (seq 0 k)) k (filter (fun l => (nth l bs (-1) =? Z.of_nat j)%Z) (seq (S k) (length bs - S k)))) as [T|T]; [| left; auto | right; auto].
               unfold nums. replace (length bs) with (k + S (length bs - S k))%nat at 1 by lia. rewrite seq_app, filter_app. cbn [Nat.add seq filter]. rewrite EQ, Z.eqb_refl. reflexivity.
            -- rewrite K1 by (intros X; apply IN in X; tauto). apply H1; auto. lia.
          * intros k Hk Hb. rewrite K1 by (intros X; apply IN in X; lia). apply H2; auto. lia. }
    destruct (G (length t) 0%nat (repeat (-1)%Z n)) as (dups & E' & L & T).
    - lia.
    - apply repeat_length.
    - intros k Hk Hb. rewrite NB in Hb by auto. specialize (RG k Hk). lia.
    - intros k Hk _. apply (@repeat_spec Z n (-1)%Z). apply nth_In. rewrite repeat_length; auto.
    - exists dups. split; [exact E'|]. split; auto. intros k Hk. destruct (T k Hk) as [[X Y]|(l & X & I & Y)].
      + left. split; auto. intros l Hl EQ. apply (Y l); auto. apply filter_In. split; [apply in_seq; lia|]. rewrite !NB by lia. rewrite EQ. apply Z.eqb_refl.
      + right. exists l. split; auto. apply filter_In in I. destruct I as [I _]. apply in_seq in I. split; auto. lia.
  Qed.
End D.
