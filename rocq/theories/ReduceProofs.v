(** Proofs about ReduceTable. *)
From Verif Require Import Base EQCModel ReduceModel UtilProofs MISProofs FactoryProofs EQCProofs EQCProofs2 EQCProofs3.
Local Open Scope nat_scope.

Lemma mapM_map {A B} (f : A -> res B) (g : A -> B) l : (forall x, In x l -> f x = Ret (g x)) -> mapM f l = Ret (map g l).
Proof. induction l as [|x l IH]; intros H; auto. cbn [mapM map]. rewrite (H x) by now left. cbn [bind]. rewrite IH by (intros; apply H; now right). reflexivity. Qed.
Lemma transfer_ok {A} n (bl : list (list A)) : n = length bl -> transfer n bl = Ret (map (@length A) bl, concat bl).
Proof.
  intros ->. unfold transfer. destruct bl as [|b bl]; [reflexivity|]. change (0 <? length (b :: bl)) with true. unfold msg at 1. cbn [bind]. change (0 <? length (b :: bl)) with true. unfold msg at 1. cbn [bind].
  destruct (concat (b :: bl)) as [|x c] eqn:E; cbn [length]; unfold msg; cbn [Nat.ltb Nat.leb bind]; reflexivity.
Qed.
Lemma concat_nil_len {A} (bl : list (list A)) : concat bl = [] -> map (@length A) bl = repeat 0 (length bl).
Proof. induction bl as [|b bl IH]; auto. cbn. intros E. apply app_eq_nil in E as (-> & E). cbn. f_equal. auto. Qed.
Lemma transfer_back_ok {A} n (bl : list (list A)) : n = length bl -> transfer_back n bl = Ret (map (@length A) bl, concat bl).
Proof.
  intros ->. unfold transfer_back. destruct bl as [|b bl]; [reflexivity|]. change (0 <? length (b :: bl)) with true. unfold msg at 1. cbn [bind].
  destruct (concat (b :: bl)) as [|x c] eqn:E; unfold msg; change (0 <? length (@nil A)) with false; try change (0 <? length (x :: c)) with true; cbn [bind].
  now rewrite concat_nil_len. reflexivity.
Qed.
Definition total {A} (bl : list (list A)) : nat := length (concat bl).
Lemma slice_mid {A} (b1 : list (list A)) x b2 : slice (concat (b1 ++ x :: b2)) (total b1) (length x) = Ret x.
Proof.
  unfold slice, total. rewrite concat_app. cbn [concat]. rewrite !app_length. destruct (Nat.leb_spec (length (concat b1) + length x) (length (concat b1) + (length x + length (concat b2)))); [|lia].
  rewrite skipn_app, skipn_all, Nat.sub_diag. cbn [skipn app]. rewrite firstn_app, firstn_all, Nat.sub_diag. cbn [firstn]. now rewrite app_nil_r.
Qed.
Lemma slice_ok {A} (bl : list (list A)) t : t < length bl -> (if length (nth t bl []) =? 0 then Ret [] else slice (concat bl) (total (firstn t bl)) (length (nth t bl []))) = Ret (nth t bl []).
Proof.
  intros Ht. destruct (Nat.eqb_spec (length (nth t bl [])) 0) as [E|E]. apply length_zero_iff_nil in E. now rewrite E.
  destruct (nth_split bl [] Ht) as (b1 & b2 & E1 & E2). assert (EF : firstn t bl = b1) by (rewrite E1, <- E2, firstn_app, firstn_all, Nat.sub_diag; apply app_nil_r). rewrite EF. set (x := nth t bl []) in *. rewrite E1. apply slice_mid.
Qed.
Lemma total_S {A} (bl : list (list A)) t : t < length bl -> total (firstn (S t) bl) = total (firstn t bl) + length (nth t bl []).
Proof. intros Ht. rewrite (firstn_S_nth [] t bl) by auto. unfold total. rewrite concat_app, app_length. cbn. now rewrite app_nil_r. Qed.
(** filtered ranges *)
Definition cntf (f : nat -> bool) (k : nat) : nat := length (filter f (seq 0 k)).
Lemma cntf_S f k : cntf f (S k) = cntf f k + (if f k then 1 else 0).
Proof. unfold cntf. rewrite seq_S, filter_app, app_length. cbn. destruct (f k); reflexivity. Qed.
Lemma cntf_nth f n k : k < n -> f k = true -> cntf f k < length (filter f (seq 0 n)) /\ nth (cntf f k) (filter f (seq 0 n)) 0 = k.
Proof.
  intros Hk Hf. replace n with (k + (S (n - S k))) by lia. rewrite seq_app, filter_app. cbn [seq filter Nat.add]. rewrite Hf. unfold cntf. rewrite app_length. cbn [length]. split; [lia|]. now rewrite nth_middle.
Qed.
Lemma pos_of_mid p l1 l2 : ~ In p l1 -> pos_of p (l1 ++ p :: l2) = length l1.
Proof. induction l1 as [|x l1 IH]; intros H; cbn. now rewrite Nat.eqb_refl. destruct (Nat.eqb_spec x p). subst. destruct H; now left. rewrite IH; auto. intros X. apply H. now right. Qed.
Lemma pos_of_nth l t d : NoDup l -> t < length l -> pos_of (nth t l d) l = t.
Proof. intros HN Ht. destruct (nth_split l d Ht) as (l1 & l2 & E & L). rewrite E at 2. rewrite pos_of_mid; auto. rewrite E in HN. apply NoDup_remove in HN as (_ & X). intros Y. apply X. apply in_or_app. now left. Qed.
Lemma pos_of_in p l d : In p l -> pos_of p l < length l /\ nth (pos_of p l) l d = p.
Proof. induction l as [|x l IH]; intros H; [destruct H|]. cbn. destruct (Nat.eqb_spec x p). split; auto. lia. destruct H as [|H]; [contradiction|]. destruct (IH H). split; auto. lia. Qed.

Section Red.
  Context {T TR : Type}.
  Variables (dps : list (list (list nat))) (tabs : list (list (list T))) (lam : nat -> nat -> list (list T) -> list TR).
  Notation np := (np tabs).
  Notation nrows r := (nrows tabs r).
  Notation dp r k := (dp dps r k).
  Notation trow r k := (trow tabs r k).
  Notation mast me p := (master_of_rows dps tabs me p).
  Notation slav me p := (slave_of_rows dps tabs me p).
  Variable key : nat -> nat -> nat.
  Hypothesis HR : forall r k, r < np -> k < nrows r -> sset (dp r k) /\ ~ In r (dp r k) /\ forall q, In q (dp r k) -> q < np.
  Hypothesis HI : forall r k k', r < np -> k < nrows r -> k' < nrows r -> key r k = key r k' -> k = k'.
  Hypothesis HK : forall r k q, r < np -> k < nrows r -> In q (dp r k) -> exists k', k' < nrows q /\ key q k' = key r k.
  Hypothesis HS : forall r k q k', r < np -> k < nrows r -> q < np -> k' < nrows q -> key r k = key q k' -> members r (dp r k) = members q (dp q k').
  Hypothesis HO : forall r q i j i' j', r < np -> q < np -> i < nrows r -> j < nrows r -> i' < nrows q -> j' < nrows q -> key r i = key q i' -> key r j = key q j' -> i < j -> i' < j'.

  (** rows sent by the master [me] *)
  Definition owner (me k : nat) : bool := match dp me k with [] => true | d0 :: _ => me <? d0 end.
  Lemma owner_spec me k : me < np -> k < nrows me -> (owner me k = true <-> forall x, In x (dp me k) -> me < x).
  Proof.
    intros Hm Hk. destruct (HR me k Hm Hk) as (S1 & N1 & _). unfold owner. destruct (dp me k) as [|d0 d]. { split; auto. intros _ x []. } rewrite Nat.ltb_lt. split; [|intros H; apply H; now left].
    intros B x X. pose proof (sset_hd d x d0 S1 X). lia.
  Qed.
  Definition sl (me p k : nat) : bool := match dp me k with [] => false | d0 :: _ => (me <? d0) && has p (dp me k) end.
  Lemma sl_spec me p k : me < np -> k < nrows me -> (sl me p k = true <-> owner me k = true /\ In p (dp me k)).
  Proof. intros Hm Hk. unfold sl, owner. destruct (dp me k) as [|d0 d]. split; [discriminate|]. intros (_ & []). rewrite andb_true_iff, has_in. tauto. Qed.
  Lemma in_slav me p k : me < np -> (In k (slav me p) <-> k < nrows me /\ owner me k = true /\ In p (dp me k)).
  Proof.
    intros Hm. unfold slave_of_rows. rewrite filter_In, in_seq. fold (sl me p k). split; intros (H1 & H2); (split; [lia|]).
    apply sl_spec; auto. lia. apply sl_spec; auto. 
  Qed.
  Lemma in_mast me p k : me < np -> p <> me -> (In k (mast me p) <-> k < nrows me /\ owner me k = false /\ exists d, dp me k = p :: d).
  Proof.
    intros Hm Hp. unfold master_of_rows. rewrite filter_In, in_seq. unfold owner. destruct (dp me k) as [|d0 d] eqn:E.
    - destruct (Nat.eqb_spec p me); [contradiction|]. split; [intros (_ & [=])|]. intros (_ & [=] & _).
    - destruct (me <? d0). destruct (Nat.eqb_spec p me); [contradiction|]. split; [intros (_ & [=])|]. intros (_ & [=] & _). rewrite Nat.eqb_eq. split. intros (H & ->). split; [lia|]. split; auto. exists d. auto. intros (H & _ & d' & [= -> ->]). split; auto. lia.
  Qed.
  Lemma in_mast_self me k : me < np -> (In k (mast me me) <-> k < nrows me /\ owner me k = true).
  Proof.
    intros Hm. unfold master_of_rows. rewrite filter_In, in_seq. unfold owner. destruct (dp me k) as [|d0 d] eqn:E. rewrite Nat.eqb_refl. split; intros; split; auto; lia.
    destruct (Nat.ltb_spec me d0). rewrite Nat.eqb_refl. split; intros; split; auto; lia. destruct (Nat.eqb_spec me d0) as [->|]. 2:{ split; intros (? & [=]). }
    split; [|intros (? & [=])]. intros (H1 & _). exfalso. destruct (HR d0 k Hm ltac:(lia)) as (_ & N1 & _). apply N1. rewrite E. now left.
  Qed.
  (** the rows that [me] sends to its master [p] are those for which [p] waits, in the same order *)
  Lemma corr m q : m < q -> q < np -> map (key m) (slav m q) = map (key q) (mast q m).
  Proof.
    intros Hmq Hq. assert (Hm : m < np) by lia.
    set (R := fun x y => exists i j, i < j /\ j < nrows m /\ key m i = x /\ key m j = y).
    assert (IRR : forall x, ~ R x x). { intros x (i & j & A & B & C & D). assert (i = j) by (apply (HI m); auto; try lia; congruence). lia. }
    assert (TR' : forall x y z, R x y -> R y z -> R x z). { intros x y z (i & j & A & B & C & D) (i' & j' & A' & B' & C' & D'). assert (j = i') by (apply (HI m); auto; try lia; congruence). subst i'. exists i, j'. split; [lia|]. auto. }
    assert (FWD : forall k, In k (slav m q) -> exists k', In k' (mast q m) /\ key q k' = key m k).
    { intros k Hk. apply in_slav in Hk as (K1 & K2 & K3); auto. destruct (HK m k q Hm K1 K3) as (k' & K' & E). exists k'. split; auto. apply in_mast; auto. lia. split; auto.
      pose proof (HS m k q k' Hm K1 Hq K' (eq_sym E)) as EM. destruct (HR q k' Hq K') as (S2 & N2 & _). pose proof (proj1 (owner_spec m k Hm K1) K2) as OW.
      assert (MI : In m (dp q k')). { assert (X : In m (members q (dp q k'))) by (rewrite <- EM; apply in_members; auto). apply in_members in X as [X|]; auto. lia. }
      assert (MX : forall x, In x (dp q k') -> m <= x). { intros x X. assert (Y : In x (members m (dp m k))) by (rewrite EM; apply in_members; auto). apply in_members in Y as [->|Y]; auto. specialize (OW x Y). lia. }
      unfold owner. destruct (dp q k') as [|d0 d]; [destruct MI|]. assert (d0 = m). { pose proof (sset_hd d m d0 S2 MI). specialize (MX d0 (or_introl eq_refl)). lia. } subst d0. split; [apply Nat.ltb_ge; lia|]. exists d. auto. }
    assert (BWD : forall k', In k' (mast q m) -> exists k, In k (slav m q) /\ key q k' = key m k).
    { intros k' Hk. apply in_mast in Hk as (K1 & K2 & d & K3); auto; [|lia]. destruct (HK q k' m Hq K1) as (k & K & E). rewrite K3. now left. exists k. split; auto. apply in_slav; auto. split; auto.
      pose proof (HS q k' m k Hq K1 Hm K (eq_sym E)) as EM. destruct (HR q k' Hq K1) as (S2 & N2 & _). destruct (HR m k Hm K) as (S1 & N1 & _). split.
      - apply owner_spec; auto. intros x X. assert (Y : In x (members q (dp q k'))) by (rewrite EM; apply in_members; auto). apply in_members in Y as [->|Y]; auto. rewrite K3 in Y, S2. pose proof (sset_hd d x m S2 Y). enough (x <> m) by lia. intros ->. contradiction.
      - assert (X : In q (members m (dp m k))) by (rewrite <- EM; apply in_members; auto). apply in_members in X as [X|]; auto. lia. }
    apply (ss_ext R IRR TR').
    - assert (G : forall l, (forall k, In k l -> k < nrows m) -> StronglySorted lt l -> StronglySorted R (map (key m) l)).
      { intros l HL Hl. induction Hl as [|x l Hl IH HF]; cbn; constructor. apply IH. intros; apply HL; now right. rewrite Forall_forall in *. intros y Y. apply in_map_iff in Y as (z & <- & Z). exists x, z. split; auto. split; auto. apply HL. now right. }
      apply G. intros k Hk. now apply in_slav in Hk. apply ss_filter_r. apply ss_seq.
    - assert (G : forall l, (forall k, In k l -> In k (mast q m)) -> StronglySorted lt l -> StronglySorted R (map (key q) l)).
      { intros l HL Hl. induction Hl as [|x l Hl IH HF]; cbn; constructor. apply IH. intros; apply HL; now right. rewrite Forall_forall in *. intros y Y. apply in_map_iff in Y as (z & <- & Z). specialize (HF z Z).
        pose proof (HL x (or_introl eq_refl)) as X1. pose proof (HL z (or_intror Z)) as Z1. destruct (BWD x X1) as (i & I1 & I2), (BWD z Z1) as (j & J1 & J2). apply in_slav in I1 as (I1 & _), J1 as (J1 & _); auto. apply in_mast in X1 as (X1 & _), Z1 as (Z1 & _); auto; try lia.
        exists i, j. split; auto. destruct (Nat.lt_trichotomy i j) as [|[->|B]]; auto. assert (x = z) by (apply (HI q); auto; congruence). lia. assert (z < x) by (apply (HO m q j i); auto). lia. }
      apply G; auto. apply ss_filter_r. apply ss_seq.
    - intros x. rewrite !in_map_iff. split.
      + intros (k & <- & Hk). destruct (FWD k Hk) as (k' & K1 & K2). eauto.
      + intros (k' & <- & Hk). destruct (BWD k' Hk) as (k & K1 & K2). eauto.
  Qed.
  Lemma corr_len m q : m < q -> q < np -> length (slav m q) = length (mast q m).
  Proof. intros A B. pose proof (f_equal (@length nat) (corr m q A B)) as X. now rewrite !map_length in X. Qed.
  Lemma corr_nth m q t : m < q -> q < np -> t < length (slav m q) -> key m (nth t (slav m q) 0) = key q (nth t (mast q m) 0).
  Proof.
    intros A B C. pose proof (f_equal (fun l => nth t l 0) (corr m q A B)) as X. cbv beta in X. rewrite (nth_indep (map (key m) _) 0 (key m 0)) in X by now rewrite map_length. rewrite (nth_indep (map (key q) _) 0 (key q 0)) in X by (rewrite map_length, <- corr_len; auto). now rewrite !map_nth in X.
  Qed.

  (** *** gather *)
  Definition blk (p me : nat) : list (list T) := map (fun k => trow p k) (mast p me).
  Lemma blk_len p me : length (blk p me) = length (mast p me). Proof. apply map_length. Qed.
  Definition inbox (me p : nat) : list nat * list T := if me <? p then (map (@length T) (blk p me), concat (blk p me)) else ([], []).
  Lemma gather_ok me : me < np -> gather dps tabs me = Ret (map (inbox me) (seq 0 np)).
  Proof.
    intros Hm. unfold gather. apply mapM_map. intros p Hp. apply in_seq in Hp. unfold inbox. destruct (Nat.ltb_spec me p) as [B|B]; auto. fold (blk p me). apply transfer_ok. rewrite blk_len. apply corr_len; auto. lia.
  Qed.
  (** the row that rank [p] contributes to row [k] of its owner [me] *)
  Definition contrib (me k p : nat) : list T := nth (cntf (sl me p) k) (blk p me) [].
  Lemma slav_cnt me p k : k < nrows me -> sl me p k = true -> cntf (sl me p) k < length (slav me p) /\ nth (cntf (sl me p) k) (slav me p) 0 = k.
  Proof. intros Hk Hs. apply (cntf_nth (sl me p)); auto. Qed.
  Lemma contrib_ok me k p k' : me < np -> k < nrows me -> owner me k = true -> In p (dp me k) -> k' < nrows p -> key p k' = key me k -> contrib me k p = trow p k'.
  Proof.
    intros Hm Hk HOw Hp Hk' E. assert (Hs : sl me p k = true) by (apply sl_spec; auto). destruct (HR me k Hm Hk) as (_ & _ & L1). pose proof (proj1 (owner_spec me k Hm Hk) HOw p Hp) as LT. destruct (slav_cnt me p k Hk Hs) as (C1 & C2).
    pose proof (corr_nth me p _ LT (L1 p Hp) C1) as CN. rewrite C2 in CN. rewrite corr_len in C1 by auto. unfold contrib. rewrite (nth_indep (blk p me) [] (trow p 0)) by now rewrite blk_len. unfold blk. rewrite (map_nth (fun k => trow p k)). f_equal. apply (HI p); auto.
    - pose proof (nth_In (mast p me) 0 C1) as X. apply in_mast in X; auto. tauto. lia.
    - congruence.
  Qed.

  (** *** picking the rows *)
  Definition st_ok (me k : nat) (st : list nat * list nat) : Prop :=
    length (fst st) = np /\ length (snd st) = np /\ forall p, me < p -> p < np -> nth p (fst st) 0 = cntf (sl me p) k /\ nth p (snd st) 0 = total (firstn (cntf (sl me p) k) (blk p me)).
  Lemma pick_row_ok me k st : me < np -> k < nrows me -> st_ok me k st ->
    exists st', pick_row dps tabs me (map (inbox me) (seq 0 np)) k st = Ret (if owner me k then trow me k :: map (contrib me k) (dp me k) else [], st') /\ st_ok me (S k) st'.
  Proof.
    intros Hm Hk (L1 & L2 & HP). destruct (HR me k Hm Hk) as (S1 & N1 & R1). unfold pick_row. destruct (owner me k) eqn:EO.
    - assert (OW := proj1 (owner_spec me k Hm Hk) EO). replace (match dp me k with [] => false | d0 :: _ => d0 <? me end) with false.
      2:{ destruct (dp me k) as [|d0 d] eqn:E; auto. symmetry. apply Nat.ltb_ge. specialize (OW d0 (or_introl eq_refl)). lia. }
      assert (SO : sset (me :: dp me k)) by (constructor; auto; now apply Forall_forall). rewrite sort_nat_id by auto. cbv zeta. replace (pos_of me (me :: dp me k)) with 0 by (cbn; now rewrite Nat.eqb_refl).
      rewrite wr_ok by (rewrite repeat_length; lia). cbn [bind repeat upd].
      (* the loop over the other ranks *)
      match goal with |- context [foldM ?f _ _] => set (F := f) end.
      assert (LOOP : forall d2 d1 s dl, dp me k = d1 ++ d2 -> length s = np -> length dl = np ->
        (forall p, me < p -> p < np -> if has p d1 then nth p s 0 = cntf (sl me p) (S k) /\ nth p dl 0 = total (firstn (cntf (sl me p) (S k)) (blk p me)) else nth p s 0 = cntf (sl me p) k /\ nth p dl 0 = total (firstn (cntf (sl me p) k) (blk p me))) ->
        exists s' dl', foldM F d2 (trow me k :: map (contrib me k) d1 ++ repeat [] (length d2), (s, dl)) = Ret (trow me k :: map (contrib me k) (d1 ++ d2), (s', dl')) /\ length s' = np /\ length dl' = np /\
        (forall p, me < p -> p < np -> if has p (d1 ++ d2) then nth p s' 0 = cntf (sl me p) (S k) /\ nth p dl' 0 = total (firstn (cntf (sl me p) (S k)) (blk p me)) else nth p s' 0 = cntf (sl me p) k /\ nth p dl' 0 = total (firstn (cntf (sl me p) k) (blk p me)))).
      { induction d2 as [|p d2 IH]; intros d1 s dl ED LS LD HQ. { exists s, dl. cbn [foldM repeat length]. rewrite !app_nil_r. auto. }
        cbn [foldM]. assert (Hp : In p (dp me k)) by (rewrite ED; apply in_or_app; right; now left). assert (LP : me < p) by auto. assert (NPp : p < np) by auto. assert (Hs : sl me p k = true) by (apply sl_spec; auto). destruct (slav_cnt me p k Hk Hs) as (C1 & C2). rewrite corr_len in C1 by auto.
        assert (ND : ~ In p d1). { pose proof (sset_nodup _ S1) as X. rewrite ED in X. apply NoDup_remove in X as (_ & X). intros Y. apply X. apply in_or_app. now left. }
        pose proof (HQ p LP NPp) as HQp. rewrite (proj2 (has_out p d1) ND) in HQp. destruct HQp as (Q1 & Q2). set (c := cntf (sl me p) k) in *.
        unfold F at 1. cbv beta iota. rewrite (rd_ok (map (inbox me) _) p ([], [])) by (rewrite map_length, seq_length; auto). rewrite (nth_indep _ ([], []) (inbox me 0)) by (rewrite map_length, seq_length; auto). rewrite map_nth, seq_nth by auto. cbn [Nat.add bind]. unfold inbox at 1. destruct (Nat.ltb_spec me p); [|lia].
        rewrite (rd_ok s p 0) by lia. cbn [bind]. rewrite Q1. rewrite (rd_ok _ c 0) by (rewrite map_length, blk_len; auto). cbn [bind]. rewrite wr_ok by lia. cbn [bind]. rewrite (rd_ok dl p 0) by lia. cbn [bind]. rewrite Q2.
        replace (nth c (map (@length T) (blk p me)) 0) with (length (nth c (blk p me) [])) by (rewrite <- (map_nth (@length T)); reflexivity). rewrite slice_ok by (rewrite blk_len; auto). cbn [bind].
        assert (PO : pos_of p (me :: dp me k) = S (length d1)). { rewrite ED. change (me :: d1 ++ p :: d2) with ((me :: d1) ++ p :: d2). rewrite pos_of_mid. reflexivity. intros [X|X]; [lia|contradiction]. }
        rewrite PO. rewrite wr_ok by (cbn [length repeat]; rewrite app_length, map_length; cbn [length repeat]; lia). cbn [bind]. rewrite wr_ok by lia. cbn [bind]. cbn [upd length repeat].
        assert (EU : upd (map (contrib me k) d1 ++ [] :: repeat [] (length d2)) (length d1) (nth c (blk p me) []) = map (contrib me k) (d1 ++ [p]) ++ repeat [] (length d2)).
        { rewrite map_app, <- app_assoc. cbn [map app]. clear. rewrite <- (map_length (contrib me k) d1) at 1. induction (map (contrib me k) d1) as [|x l IH]; cbn [app length upd]; [reflexivity|]. now rewrite IH. }
        rewrite EU. destruct (IH (d1 ++ [p]) (upd s p (S c)) (upd dl p (total (firstn c (blk p me)) + length (nth c (blk p me) [])))) as (s' & dl' & E' & A1 & A2 & A3).
        - rewrite <- app_assoc. exact ED.
        - now rewrite upd_length.
        - now rewrite upd_length.
        - intros x X1 X2. destruct (Nat.eq_dec x p) as [->|NE].
          + replace (has p (d1 ++ [p])) with true by (symmetry; apply has_in; apply in_or_app; right; now left). rewrite !nth_upd_eq by lia. rewrite cntf_S, Hs. fold c. rewrite Nat.add_1_r. split; auto. rewrite total_S; auto. rewrite blk_len; auto.
          + rewrite !nth_upd_neq by auto. replace (has x (d1 ++ [p])) with (has x d1). apply HQ; auto. apply Bool.eq_iff_eq_true. rewrite !has_in, in_app_iff. cbn. intuition. congruence.
        - exists s', dl'. rewrite E'. replace (d1 ++ p :: d2) with ((d1 ++ [p]) ++ d2) by now rewrite <- app_assoc. auto. }
      destruct st as (s, dl). destruct (LOOP (dp me k) [] s dl) as (s' & dl' & E & A1 & A2 & A3); auto. exists (s', dl'). cbn [map app] in E. split; [exact E|]. split; auto. split; auto. intros p P1 P2. specialize (A3 p P1 P2). cbn [app fst snd] in *. destruct (has p (dp me k)) eqn:EH; auto. rewrite cntf_S. replace (sl me p k) with false. now rewrite Nat.add_0_r.
      symmetry. apply Bool.not_true_iff_false. rewrite sl_spec by auto. intros (_ & X). apply has_in in X. congruence.
    - assert (B : match dp me k with [] => false | d0 :: _ => d0 <? me end = true).
      { unfold owner in EO. destruct (dp me k) as [|d0 d]; [discriminate|]. apply Nat.ltb_ge in EO. apply Nat.ltb_lt. enough (d0 <> me) by lia. intros ->. apply N1. now left. }
      rewrite B. exists st. split; auto. split; auto. split; auto. intros p P1 P2. rewrite cntf_S. replace (sl me p k) with false. rewrite Nat.add_0_r. auto. symmetry. apply Bool.not_true_iff_false. rewrite sl_spec by auto. intros (X & _). congruence.
  Qed.
  Definition red_row (me k : nat) : list TR := if owner me k then lam me k (trow me k :: map (contrib me k) (dp me k)) else [].
  Lemma reduce_rank_ok me : me < np -> reduce_rank dps tabs lam me = Ret (map (red_row me) (seq 0 (nrows me))).
  Proof.
    intros Hm. unfold reduce_rank. rewrite gather_ok by auto. cbn [bind]. match goal with |- context [foldM ?f _ _] => set (F := f) end.
    assert (G : forall n, n <= nrows me -> exists st, foldM F (seq 0 n) ([], (repeat 0 np, repeat 0 np)) = Ret (map (red_row me) (seq 0 n), st) /\ st_ok me n st).
    { induction n as [|n IH]; intros Hn. { exists (repeat 0 np, repeat 0 np). split; auto. split; [apply repeat_length|]. split; [apply repeat_length|]. intros p P1 P2. cbn [fst snd]. rewrite !nth_repeat. split; reflexivity. }
      destruct IH as (st & E & S1); [lia|]. rewrite seq_S, foldM_app, E. cbn [bind foldM Nat.add]. unfold F at 1. destruct (pick_row_ok me n st Hm Hn S1) as (st' & E' & S2). rewrite E'. cbn [bind]. exists st'. split; auto. rewrite map_app. cbn [map]. unfold red_row. destruct (owner me n); reflexivity. }
    destruct (G (nrows me) (le_n _)) as (st & E & _). rewrite E. reflexivity.
  Qed.

  (** *** scatter *)
  Definition red : list (list (list TR)) := map (fun r => map (red_row r) (seq 0 (nrows r))) (seq 0 np).
  Lemma red_nth r k : r < np -> k < nrows r -> nth k (nth r red []) [] = red_row r k.
  Proof.
    intros Hr Hk. unfold red. rewrite (nth_indep _ [] (map (red_row 0) (seq 0 (nrows 0)))) by (rewrite map_length, seq_length; auto). rewrite (map_nth (fun r => map (red_row r) (seq 0 (nrows r)))), seq_nth by auto. cbn [Nat.add].
    rewrite (nth_indep _ [] (red_row r 0)) by (rewrite map_length, seq_length; auto). rewrite map_nth, seq_nth by auto. reflexivity.
  Qed.
  Definition back (p me : nat) : list (list TR) := map (fun k => nth k (nth p red []) []) (slav p me).
  Definition final (me k : nat) : list TR := if owner me k then red_row me k else match dp me k with [] => [] | p :: _ => nth (pos_of k (mast me p)) (back p me) [] end.
  Lemma mast_nd me p : NoDup (mast me p). Proof. apply NoDup_filter, seq_NoDup. Qed.
  Lemma final_back me p t : p < me -> me < np -> t < length (mast me p) -> final me (nth t (mast me p) 0) = nth t (back p me) [].
  Proof.
    intros Hp Hm Ht. pose proof (nth_In (mast me p) 0 Ht) as X. apply in_mast in X as (X1 & X2 & d & X3); auto; [|lia]. unfold final. rewrite X2, X3. now rewrite pos_of_nth by auto using mast_nd.
  Qed.
  Lemma finish_ok me : me < np -> finish_rank dps tabs red me = Ret (map (final me) (seq 0 (nrows me))).
  Proof.
    intros Hm. unfold finish_rank. assert (LR : length red = np) by (unfold red; rewrite map_length, seq_length; auto). rewrite (rd_ok red me []) by lia. cbn [bind].
    set (IB := fun p => if p <? me then (map (@length TR) (back p me), concat (back p me)) else ([], [])).
    rewrite (mapM_map _ IB). 2:{ intros p Hp. apply in_seq in Hp. unfold IB. destruct (Nat.ltb_spec p me); auto. fold (back p me). apply transfer_back_ok. unfold back. rewrite map_length. symmetry. apply corr_len; auto. }
    cbn [bind]. match goal with |- context [foldM ?f (seq 0 me) _] => set (FP := f) end.
    set (done := fun (D : nat -> Prop) (out : list (option (list TR))) => length out = nrows me /\ forall k, k < nrows me -> D k -> nth k out None = Some (final me k)).
    assert (WR : forall D out i, done D out -> i < nrows me -> done (fun k => D k \/ k = i) (upd out i (Some (final me i)))).
    { intros D out i (A1 & A2) Hi. split. now rewrite upd_length. intros k Hk [HD| ->]. destruct (Nat.eq_dec i k) as [->|]. rewrite nth_upd_eq; auto; lia. rewrite nth_upd_neq; auto. rewrite nth_upd_eq; auto; lia. }
    assert (INNER : forall p out, p < me -> done (fun k => owner me k = false /\ hd 0 (dp me k) < p) out -> exists out', FP out p = Ret out' /\ done (fun k => owner me k = false /\ hd 0 (dp me k) < S p) out').
    { intros p out Hp HD. unfold FP. rewrite (rd_ok _ p ([], [])) by (rewrite map_length, seq_length; lia). rewrite (nth_indep _ ([], []) (IB 0)) by (rewrite map_length, seq_length; lia). rewrite map_nth, seq_nth by lia. cbn [Nat.add bind]. unfold IB. destruct (Nat.ltb_spec p me); [|lia].
      match goal with |- context [foldM ?f _ _] => set (FK := f) end.
      assert (LB : length (back p me) = length (mast me p)) by (unfold back; rewrite map_length; apply corr_len; auto).
      assert (G : forall t, t <= length (mast me p) -> exists out', foldM FK (seq 0 t) (out, 0) = Ret (out', total (firstn t (back p me))) /\ done (fun k => (owner me k = false /\ hd 0 (dp me k) < p) \/ In k (firstn t (mast me p))) out').
      { induction t as [|t IH]; intros Ht. { exists out. split; auto. destruct HD as (A1 & A2). split; auto. intros k Hk [X|[]]; auto. }
        destruct IH as (o & E & D1); [lia|]. rewrite seq_S, foldM_app, E. cbn [bind foldM Nat.add]. unfold FK at 1. rewrite (rd_ok _ t 0) by (rewrite map_length; lia). cbn [bind]. rewrite (rd_ok (mast me p) t 0) by lia. cbn [bind].
        replace (nth t (map (@length TR) (back p me)) 0) with (length (nth t (back p me) [])) by (rewrite <- (map_nth (@length TR)); reflexivity). rewrite slice_ok by lia. cbn [bind].
        pose proof (nth_In (mast me p) 0 Ht) as X. apply in_mast in X as (X1 & _); auto; [|lia]. rewrite wr_ok by (destruct D1; lia). cbn [bind]. rewrite <- (final_back me p t) by auto. eexists. split. { rewrite total_S by lia. rewrite <- (final_back me p t) by auto. reflexivity. }
        destruct (WR _ _ _ D1 X1) as (B1 & B2). split; auto. intros k Hk [HDk|HDk]; apply B2; auto. rewrite (firstn_S_nth 0) in HDk by auto. apply in_app_or in HDk as [|[<-|[]]]; auto. }
      destruct (G (length (mast me p)) (le_n _)) as (o & E & D1). rewrite E. cbn [bind]. exists o. split; auto. rewrite firstn_all in D1. destruct D1 as (B1 & B2). split; auto. intros k Hk (O1 & O2). apply B2; auto. destruct (Nat.eq_dec (hd 0 (dp me k)) p) as [E1|]; [|left; split; auto; lia]. right. apply in_mast; auto. lia. split; auto. split; auto. unfold owner in O1. destruct (dp me k) as [|d0 d]; [discriminate|]. cbn in E1. subst d0. eauto. }
    assert (OUTER : forall n, n <= me -> exists out, foldM FP (seq 0 n) (repeat None (nrows me)) = Ret out /\ done (fun k => owner me k = false /\ hd 0 (dp me k) < n) out).
    { induction n as [|n IH]; intros Hn. { eexists. split; [reflexivity|]. split. apply repeat_length. intros k Hk (_ & X). lia. }
      destruct IH as (o & E & D1); [lia|]. rewrite seq_S, foldM_app, E. cbn [bind foldM Nat.add]. destruct (INNER n o) as (o' & E' & D2); auto. rewrite E'. cbn [bind]. eauto. }
    destruct (OUTER me (le_n _)) as (o & E & D1). rewrite E. cbn [bind].
    assert (OWN : forall l, incl l (mast me me) -> forall D out, done D out -> exists out', foldM (fun out i => row <- rd (nth me red []) i ;; wr out i (Some row)) l out = Ret out' /\ done (fun k => D k \/ In k l) out').
    { induction l as [|i l IH]; intros HL D out HD. { exists out. split; auto. destruct HD as (A1 & A2). split; auto. intros k Hk [|[]]; auto. }
      cbn [foldM]. pose proof (HL i (or_introl eq_refl)) as X. apply in_mast_self in X as (X1 & X2); auto. rewrite (rd_ok _ i []). 2:{ unfold red. rewrite (nth_indep _ [] (map (red_row 0) (seq 0 (nrows 0)))) by (rewrite map_length, seq_length; auto). rewrite (map_nth (fun r => map (red_row r) (seq 0 (nrows r)))), seq_nth by auto. cbn [Nat.add]. now rewrite map_length, seq_length. }
      cbn [bind]. rewrite wr_ok by (destruct HD; lia). cbn [bind]. rewrite red_nth by auto. replace (red_row me i) with (final me i) by (unfold final; now rewrite X2). destruct (IH (fun x Y => HL x (or_intror Y)) _ _ (WR _ _ _ HD X1)) as (o' & E' & D2). exists o'. split; auto. destruct D2 as (B1 & B2). split; auto. intros k Hk [|[->|]]; apply B2; auto. }
    destruct (OWN (mast me me) (incl_refl _) _ _ D1) as (o' & E' & D2). rewrite E'. cbn [bind]. destruct D2 as (B1 & B2).
    assert (EO : o' = map (fun k => Some (final me k)) (seq 0 (nrows me))).
    { apply nth_ext with (d := None) (d' := None). now rewrite map_length, seq_length. intros k Hk. rewrite B1 in Hk. rewrite B2; auto.
      - rewrite (nth_indep _ None (Some (final me 0))) by (rewrite map_length, seq_length; auto). rewrite (map_nth (fun k => Some (final me k))), seq_nth; auto.
      - destruct (owner me k) eqn:EO. right. apply in_mast_self; auto. left. split; auto. unfold owner in EO. destruct (dp me k) as [|d0 d] eqn:ED; [discriminate|]. apply Nat.ltb_ge in EO. cbn. destruct (HR me k Hm Hk) as (_ & N1 & _). rewrite ED in N1. enough (d0 <> me) by lia. intros ->. apply N1. now left. }
    subst o'. induction (seq 0 (nrows me)) as [|x l IH]; auto. cbn [map mapM bind]. cbn [map] in IH. clear - x l.
    assert (G : forall l, mapM (fun o => match o with Some row => Ret row | None => Err Uninit end) (map (fun k => Some (final me k)) l) = Ret (map (final me) l)). { induction l0 as [|y l0 IH]; auto. cbn [map mapM bind]. now rewrite IH. }
    now rewrite G.
  Qed.
  Lemma ReduceTable_ok : ReduceTable dps tabs lam = Ret (map (fun r => map (final r) (seq 0 (nrows r))) (seq 0 np)).
  Proof.
    unfold ReduceTable. rewrite (mapM_map _ (fun r => map (red_row r) (seq 0 (nrows r)))). 2:{ intros r Hr. apply in_seq in Hr. apply reduce_rank_ok. lia. } cbn [bind]. fold red. apply mapM_map. intros r Hr. apply in_seq in Hr. apply finish_ok. lia.
  Qed.
  (** the row of every member is what lambda gives on the lowest one *)
  Lemma final_ok r k m km : r < np -> k < nrows r -> m < np -> km < nrows m -> key r k = key m km -> owner m km = true -> final r k = red_row m km.
  Proof.
    intros Hr Hk Hm Hkm E OM. pose proof (HS r k m km Hr Hk Hm Hkm E) as EM. pose proof (proj1 (owner_spec m km Hm Hkm) OM) as OW. unfold final. destruct (owner r k) eqn:OR.
    - pose proof (proj1 (owner_spec r k Hr Hk) OR) as OW'. assert (r = m). { assert (X : In r (members m (dp m km))) by (rewrite <- EM; apply in_members; auto). assert (Y : In m (members r (dp r k))) by (rewrite EM; apply in_members; auto). apply in_members in X as [|X]; auto. apply in_members in Y as [|Y]; auto. specialize (OW r X). specialize (OW' m Y). lia. }
      subst m. replace km with k by now apply (HI r). reflexivity.
    - destruct (HR r k Hr Hk) as (S1 & N1 & L1). assert (NR : r <> m). { intros ->. assert (k = km) by now apply (HI m). subst km. congruence. }
      assert (Y : In m (dp r k)) by (assert (Y : In m (members r (dp r k))) by (rewrite EM; apply in_members; auto); apply in_members in Y as [|Y]; auto; congruence).
      assert (MX : forall x, In x (dp r k) -> m <= x). { intros x X. assert (Z : In x (members m (dp m km))) by (rewrite <- EM; apply in_members; auto). apply in_members in Z as [->|Z]; auto. specialize (OW x Z). lia. }
      destruct (dp r k) as [|d0 d] eqn:ED; [destruct Y|]. assert (d0 = m). { pose proof (sset_hd d m d0 S1 Y). specialize (MX d0 (or_introl eq_refl)). lia. } subst d0.
      assert (LT : m < r). { assert (Z : In r (members m (dp m km))) by (rewrite <- EM; apply in_members; auto). apply in_members in Z as [|Z]; auto; try congruence. }
      assert (IK : In k (mast r m)) by (apply in_mast; auto; split; auto; split; auto; eauto). destruct (pos_of_in k _ 0 IK) as (P1 & P2). set (t := pos_of k (mast r m)) in *. unfold back. assert (P1' : t < length (slav m r)) by (rewrite corr_len; auto).
      rewrite (nth_indep _ [] ((fun k => nth k (nth m red []) []) 0)) by now rewrite map_length. rewrite (map_nth (fun k => nth k (nth m red []) [])). pose proof (corr_nth m r t LT Hr P1') as CN. rewrite P2 in CN. pose proof (nth_In (slav m r) 0 P1') as X. apply in_slav in X as (X1 & _); auto. replace (nth t (slav m r) 0) with km. now apply red_nth. apply (HI m); auto. congruence.
  Qed.
End Red.
