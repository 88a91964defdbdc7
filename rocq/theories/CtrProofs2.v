From Verif Require Import Base ArraysModel ArraysProofs SparseModel SparseSpec SparseProofs SparseProofs2 SparseProofs3 MergeModel BlockModel BlockProofs2 CtrModel CtrProofs.
From Coq Require Import Permutation.
Open Scope nat_scope.

Lemma rd_nth {A} (a : list A) i d : i < length a -> rd a i = Ret (nth i a d).
Proof. apply rd_ok. Qed.
Lemma ss_lt_of_le (l : list nat) : StronglySorted Nat.le l -> NoDup l -> StronglySorted lt l.
Proof.
  induction 1 as [|a l H IH F]; intros N; constructor; inversion N; subst; auto. rewrite Forall_forall in *. intros x Hx.
  specialize (F x Hx). unfold Nat.le in F. assert (a <> x) by (intros ->; tauto). lia.
Qed.
Lemma ss_lt_nodup (l : list nat) : StronglySorted lt l -> NoDup l.
Proof. induction 1; constructor; auto. rewrite Forall_forall in H0. intros C. specialize (H0 _ C). lia. Qed.
Lemma ss_snoc_le (l : list nat) x : StronglySorted Nat.le l -> (forall y, In y l -> y <= x) -> StronglySorted Nat.le (l ++ [x]).
Proof.
  induction 1 as [|a l H IH F]; intros B; simpl. repeat constructor. constructor.
  - apply IH. intros; apply B; now right.
  - apply Forall_app. split; auto. constructor; auto. apply B. now left.
Qed.
Lemma nodup_app2 {A} (l l' : list A) : NoDup l -> NoDup l' -> (forall x, In x l -> In x l' -> False) -> NoDup (l ++ l').
Proof. induction 1 as [|x l H1 H2 IH]; cbn; auto. intros H3 H4. constructor. { intros X. apply in_app_or in X as [X|X]; auto. apply (H4 x); auto. } apply IH; auto. intros y Y. apply H4. now right. Qed.
Lemma nodup_flat_cl {T} (s : nat -> list T) (cl : T -> nat) n : (forall c, NoDup (s c)) -> (forall c x, In x (s c) -> cl x = c) -> NoDup (flat_map s (seq 0 n)).
Proof.
  intros H1 H2. induction n as [|n IH]. constructor. rewrite seq_S, flat_map_app. cbn [flat_map Nat.add]. rewrite app_nil_r. apply nodup_app2; auto.
  intros x Hx Hy. apply in_flat_map in Hx as (c & Hc & Hx). apply in_seq in Hc. apply H2 in Hx. apply H2 in Hy. lia.
Qed.
(** *** QuickSortI *)
Lemma ins_key_perm key i l : Permutation (ins_key key i l) (i :: l).
Proof. induction l as [|j l IH]; simpl; auto. destruct (key i <=? key j); auto. rewrite IH. apply perm_swap. Qed.
Lemma ins_key_sorted key i l : StronglySorted (fun a b => key a <= key b) l -> StronglySorted (fun a b => key a <= key b) (ins_key key i l).
Proof.
  induction 1 as [|b l Hs IH Hf]; simpl. repeat constructor. destruct (Nat.leb_spec (key i) (key b)).
  - constructor. constructor; auto. constructor; auto. eapply Forall_impl; [|exact Hf]. simpl. intros; lia.
  - constructor; auto. rewrite Forall_forall in *. intros x Hx. apply (Permutation_in _ (ins_key_perm key i l)) in Hx as [->|Hx]; auto. lia.
Qed.
Lemma QuickSortI_perm data : Permutation (QuickSortI data) (seq 0 (length data)).
Proof. unfold QuickSortI. induction (seq 0 (length data)); simpl; auto. rewrite ins_key_perm. now apply perm_skip. Qed.
Lemma QuickSortI_sorted data : StronglySorted (fun a b => nth a data 0 <= nth b data 0) (QuickSortI data).
Proof. unfold QuickSortI. induction (seq 0 (length data)); simpl. constructor. now apply (ins_key_sorted (fun i => nth i data 0)). Qed.

Section Rows.
  Context {E : Type}.
  Notation row := (srow E).
  Definition renum (map : list nat) (r : row) : row := List.map (fun e => (nth (fst e) map 0, snd e)) r.
  Lemma cols_renum map r : cols (renum map r) = List.map (fun c => nth c map 0) (cols r).
  Proof. unfold cols, renum. rewrite !map_map. reflexivity. Qed.
  Lemma cols_nodup map (r : row) : NoDup map -> NoDup (cols r) -> (forall c, In c (cols r) -> c < length map) -> NoDup (cols (renum map r)).
  Proof.
    intros Hm Hr Hc. rewrite cols_renum. induction (cols r) as [|c l IH]; simpl; constructor.
    - intros C. apply in_map_iff in C as (c' & E1 & E2). inversion Hr; subst. apply (NoDup_nth map 0) in E1; auto.
      + subst. tauto. + apply Hc. now right. + apply Hc. now left.
    - apply IH. now inversion Hr. intros; apply Hc; now right.
  Qed.
  Lemma remap_gen map (r : row) : (forall c, In c (cols r) -> c < length map) -> forall out last needs,
    exists last' needs', foldM (fun st e => let '(out, last, needs) := st in c <- rd map (fst e) ;; Ret (out ++ [(c, snd e)], c, needs || (c <? last))) r (out, last, needs)
      = Ret (out ++ renum map r, last', needs') /\
    (needs' = false -> needs = false /\ (StronglySorted Nat.le (cols out) -> (forall y, In y (cols out) -> y <= last) -> StronglySorted Nat.le (cols (out ++ renum map r)))).
  Proof.
    induction r as [|e r IH]; intros H out last needs.
    - exists last, needs. simpl. rewrite app_nil_r. auto.
    - cbn [foldM]. rewrite (rd_nth map (fst e) 0) by (apply H; now left). cbn [bind].
      destruct (IH ltac:(intros; apply H; now right) (out ++ [(nth (fst e) map 0, snd e)]) (nth (fst e) map 0) (needs || (nth (fst e) map 0 <? last))) as (l' & n' & E1 & E2).
      exists l', n'. rewrite <- app_assoc in E1, E2. split; [exact E1|]. intros Hn. destruct (E2 Hn) as (E3 & E4). apply orb_false_iff in E3 as (-> & E3).
      apply Nat.ltb_ge in E3. split; auto. intros S Bd. apply E4.
      + unfold cols. rewrite map_app. apply ss_snoc_le; auto. intros y Hy. specialize (Bd y Hy). simpl. lia.
      + unfold cols. rewrite map_app. intros y Hy. apply in_app_iff in Hy as [Hy|[<-|[]]]; simpl; auto. specialize (Bd y Hy). lia.
  Qed.
  Lemma remap_ok map (r : row) : (forall c, In c (cols r) -> c < length map) ->
    exists needs, remap map r = Ret (renum map r, needs) /\ (needs = false -> StronglySorted Nat.le (cols (renum map r))).
  Proof.
    intros H. destruct (remap_gen map r H [] 0 false) as (l' & n' & E1 & E2). exists n'. unfold remap. rewrite E1. cbn [bind app].
    split; auto. intros Hn. apply (proj2 (E2 Hn)). constructor. intros y [].
  Qed.
  Lemma QS_COL_VAL_ok (r : row) : NoDup (cols r) -> exists r', QS_COL_VAL r = Ret r' /\ Permutation r' r /\ StronglySorted lt (cols r').
  Proof.
    intros N. unfold QS_COL_VAL. destruct r as [|d r0] eqn:Er; [exists []; split; [reflexivity|split; constructor]|]. rewrite <- Er in *. clear Er r0.
    assert (IP : is_perm (length r) (List.map Z.of_nat (QuickSortI (cols r)))).
    { unfold is_perm. apply Permutation_map. replace (length r) with (length (cols r)) by apply map_length. apply QuickSortI_perm. }
    rewrite (ApplyPermutation_spec d r _ IP). cbn [bind fst]. rewrite map_map.
    rewrite (map_ext (fun x => nth (Z.to_nat (Z.of_nat x)) r d) (fun x => nth x r d)) by (intros; now rewrite Nat2Z.id).
    exists (List.map (fun x => nth x r d) (QuickSortI (cols r))). split; [reflexivity|].
    assert (P : Permutation (List.map (fun x => nth x r d) (QuickSortI (cols r))) r).
    { rewrite (Permutation_map _ (QuickSortI_perm (cols r))). replace (length (cols r)) with (length r) by (symmetry; apply map_length).
      rewrite <- (list_ext_seq r (fun x => nth x r d) (length r) d); auto. }
    split; auto. apply ss_lt_of_le.
    - unfold cols at 1. rewrite map_map. pose proof (QuickSortI_sorted (cols r)) as S.
      assert (Hb : forall i, In i (QuickSortI (cols r)) -> i < length r).
      { intros i Hi. apply (Permutation_in _ (QuickSortI_perm _)) in Hi. apply in_seq in Hi. unfold cols in Hi. rewrite map_length in Hi. lia. }
      assert (K : forall i, i < length r -> nth i (cols r) 0 = fst (nth i r d)).
      { intros i Hi. unfold cols. rewrite (nth_indep _ 0 (fst d)) by now rewrite map_length. apply map_nth. }
      clear IP P. induction S as [|a l S IH F]; simpl; constructor. apply IH; intros; apply Hb; now right.
      rewrite Forall_forall in *. intros x Hx. apply in_map_iff in Hx as (b & <- & Hbl). specialize (F b Hbl).
      rewrite !K in F by (apply Hb; simpl; auto). exact F.
    - unfold cols. apply (Permutation_NoDup (Permutation_sym (Permutation_map fst P))). exact N.
  Qed.
  Lemma sorted_row (r : row) needs : NoDup (cols r) -> (needs = false -> StronglySorted Nat.le (cols r)) ->
    exists r', (if needs : bool then QS_COL_VAL r else Ret r) = Ret r' /\ Permutation r' r /\ StronglySorted lt (cols r').
  Proof. intros N S. destruct needs. now apply QS_COL_VAL_ok. exists r. split; auto. split; auto. apply ss_lt_of_le; auto. Qed.
  Lemma sorted_cols (l : list nat) needs : NoDup l -> (needs = false -> StronglySorted Nat.le l) ->
    Permutation (if needs : bool then sort_nat l else l) l /\ StronglySorted lt (if needs then sort_nat l else l).
  Proof.
    intros N S. destruct needs.
    - split. apply sort_nat_perm. apply ss_lt_of_le. apply sort_nat_sorted. apply (Permutation_NoDup (Permutation_sym (sort_nat_perm l)) N).
    - split; auto. apply ss_lt_of_le; auto.
  Qed.
End Rows.

Lemma find_pos_ok c ris : StronglySorted lt ris -> In c ris -> exists p, find_pos c ris = Ret p /\ p < length ris /\ nth p ris 0 = c.
Proof.
  intros S H. unfold find_pos. assert (SZ : StronglySorted Z.le (map Z.of_nat ris)).
  { apply sorted_Z. clear H. induction S; constructor; auto. eapply Forall_impl; [|exact H]. unfold Nat.le. intros; lia. }
  destruct (proj1 (find_in_sorted_array_spec (Z.of_nat c) _ SZ) (in_map _ _ _ H)) as (i & E & N). rewrite E. cbn [bind]. exists i. split; auto.
  assert (Hi : i < length ris) by (rewrite <- (map_length Z.of_nat); apply nth_error_Some; congruence). split; auto.
  rewrite (map_nth_error Z.of_nat i ris (d := nth i ris 0)) in N by (now apply nth_error_nth'). injection N as N. lia.
Qed.

Section Asm.
  Context {E : Type} (e0 : E) (eadd : E -> E -> E) (CM : CMon e0 eadd).
  Notation row := (srow E). Notation mat := (smat E).
  Notation rent := (rent e0 eadd).
  Lemma rent_perm (r1 r2 : row) j : Permutation r1 r2 -> rent r1 j = rent r2 j.
  Proof.
    destruct CM. induction 1; simpl; auto. - destruct (fst x =? j); congruence.
    - destruct (fst x =? j), (fst y =? j); auto. rewrite !cm_assoc. f_equal. apply cm_comm. - congruence.
  Qed.
  Lemma cm_0r a : eadd a e0 = a. Proof. destruct CM. now rewrite cm_comm. Qed.
  Lemma rent_in (r : row) c v : NoDup (cols r) -> In (c, v) r -> rent r c = v.
  Proof.
    induction r as [|p r IH]; [intros _ []|]. intros N H. inversion N; subst. simpl. destruct (Nat.eqb_spec (fst p) c) as [<-|Hn].
    - rewrite (rent_none e0 eadd) by exact H2. destruct H as [->|H]; [apply cm_0r|]. exfalso. apply H2. change (fst p) with (fst (fst p, v)). now apply in_map.
    - destruct H as [->|H]; [simpl in Hn; congruence|]. auto.
  Qed.
  Lemma rent_app' (r1 r2 : row) j : rent (r1 ++ r2) j = eadd (rent r1 j) (rent r2 j).
  Proof. destruct CM. induction r1 as [|p r IH]; simpl; [now rewrite cm_0|]. destruct (fst p =? j); auto. now rewrite IH, cm_assoc. Qed.

  (** *** filling the values of one row *)
  Lemma fill_single_ok dmap ris (r : row) : StronglySorted lt ris -> NoDup (cols (renum dmap r)) -> (forall c, In c (cols r) -> c < length dmap) ->
    (forall c, In c ris <-> In c (cols (renum dmap r))) ->
    fill_single dmap ris r = Ret (map (rent (renum dmap r)) ris).
  Proof.
    intros S N Hc Hr. unfold fill_single.
    assert (G : forall done todo cells, renum dmap r = done ++ renum dmap todo -> (forall c, In c (cols todo) -> c < length dmap) -> length cells = length ris ->
       (forall p c v, p < length ris -> nth p ris 0 = c -> In (c, v) done -> nth p cells None = Some v) ->
       exists cells', foldM (fun cells e => c <- rd dmap (fst e) ;; pos <- find_pos c ris ;; wr cells pos (Some (snd e))) todo cells = Ret cells' /\ length cells' = length ris /\
       (forall p c v, p < length ris -> nth p ris 0 = c -> In (c, v) (renum dmap r) -> nth p cells' None = Some v)).
    { intros done todo. revert done. induction todo as [|e todo IH]; intros done cells Hd Ht Hl Hi.
      - exists cells. split; [reflexivity|]. split; auto. simpl in Hd. rewrite app_nil_r in Hd. rewrite Hd. exact Hi.
      - cbn [foldM]. rewrite (rd_nth dmap (fst e) 0) by (apply Ht; now left). cbn [bind].
        assert (Hin : In (nth (fst e) dmap 0) ris). { apply Hr. rewrite Hd. unfold cols. rewrite map_app. apply in_app_iff. right. now left. }
        destruct (find_pos_ok _ _ S Hin) as (p & Ep & Hp & Hpc). rewrite Ep. cbn [bind]. rewrite wr_ok by lia. cbn [bind].
        apply (IH (done ++ [(nth (fst e) dmap 0, snd e)])).
        + rewrite <- app_assoc. exact Hd. + intros; apply Ht; now right. + now rewrite upd_length.
        + intros q c v Hq Hqc Hcv. apply in_app_iff in Hcv as [Hcv|[Hcv|[]]].
          * rewrite nth_upd_neq. now apply (Hi q c v). intros ->. rewrite Hpc in Hqc.
            rewrite Hd in N. unfold cols in N. rewrite map_app in N. simpl in N. apply NoDup_remove_2 in N. apply N.
            apply in_app_iff. left. rewrite Hqc. change c with (fst (c, v)). now apply in_map.
          * injection Hcv as Hc1 Hc2. subst v. rewrite <- Hc1 in Hqc. assert (q = p). { apply (NoDup_nth ris 0); auto. now apply ss_lt_nodup. congruence. } subst q. now rewrite nth_upd_eq by lia. }
    destruct (G [] r (repeat None (length ris))) as (cells' & E1 & Hl & Hv); auto. { apply repeat_length. } { intros p c v _ _ []. }
    rewrite E1. cbn [bind]. replace cells' with (map Some (map (rent (renum dmap r)) ris)). apply freeze_row_some.
    symmetry. apply nth_ext with (d := None) (d' := None). now rewrite !map_length.
    intros p Hp. rewrite Hl in Hp. assert (Hin : In (nth p ris 0) (cols (renum dmap r))) by (apply Hr; now apply nth_In).
    apply in_map_iff in Hin as ((c & v) & Ec & Hcv). simpl in Ec. rewrite (Hv p c v); auto.
    rewrite map_map. rewrite (nth_indep _ None (Some (rent (renum dmap r) 0))) by now rewrite map_length.
    rewrite (map_nth (fun x => Some (rent (renum dmap r) x))). rewrite <- Ec. f_equal. symmetry. now apply rent_in.
  Qed.
  Definition acc1 (ris : list nat) (vals : list E) (e : nat * E) : res (list E) :=
    pos <- find_pos (fst e) ris ;; v <- rd vals pos ;; wr vals pos (eadd v (snd e)).
  Lemma acc1_ok ris items : StronglySorted lt ris -> (forall e, In e items -> In (fst e) ris) -> forall vals, length vals = length ris ->
    exists vals', foldM (acc1 ris) items vals = Ret vals' /\ length vals' = length ris /\
      forall k, k < length ris -> nth k vals' e0 = eadd (nth k vals e0) (rent items (nth k ris 0)).
  Proof.
    intros S. induction items as [|e items IH]; intros H vals Hl.
    - exists vals. split; [reflexivity|]. split; auto. intros k _. simpl. now rewrite cm_0r.
    - cbn [foldM]. unfold acc1 at 1. destruct (find_pos_ok _ _ S (H e (or_introl eq_refl))) as (p & -> & Hp & Hpc). cbn [bind].
      rewrite (rd_nth vals p e0) by lia. cbn [bind]. rewrite wr_ok by lia. cbn [bind].
      destruct (IH ltac:(intros; apply H; now right) (upd vals p (eadd (nth p vals e0) (snd e)))) as (v' & -> & Hl' & Hv). now rewrite upd_length.
      exists v'. split; auto. split; auto. intros k Hk. rewrite Hv by auto. simpl.
      destruct (Nat.eqb_spec (fst e) (nth k ris 0)) as [Ek|Ek].
      + assert (k = p). { apply (NoDup_nth ris 0); auto. now apply ss_lt_nodup. congruence. } subst k. rewrite nth_upd_eq by lia. now rewrite <- (cm_assoc _ _ CM).
      + rewrite nth_upd_neq; auto. intros ->. congruence.
  Qed.

  (** *** the matrices of the group *)
  Variables (maps : list (list nat)) (mats : list mat) (w : nat).
  Hypothesis Hlen : length mats = length maps.
  Hypothesis Hrows : forall k, length (nth k mats []) = length (nth k maps []).
  Hypothesis Hcols : forall k j c, In c (cols (nth j (nth k mats []) [])) -> c < length (nth k maps []).
  Hypothesis Hnd : forall k j, NoDup (cols (nth j (nth k mats []) [])).
  Hypothesis Hmap : forall m, In m maps -> NoDup m.
  Hypothesis Hw : forall m d, In m maps -> In d m -> d < w.
  Hypothesis HwI : (Z.of_nat w <= INT_MAX)%Z.

  Definition R (s : nat * nat) : row := nth (snd s) (nth (fst s) mats []) [].
  Definition RM (s : nat * nat) : row := renum (nth (fst s) maps []) (R s).
  Definition valid (s : nat * nat) : Prop := fst s < length maps /\ snd s < length (nth (fst s) maps []).
  Definition rmi (i : nat) : list (nat * nat) := bucket (reverse_items maps) i.
  Lemma Hmapn k : NoDup (nth k maps []).
  Proof. destruct (Nat.lt_ge_cases k (length maps)). apply Hmap. now apply nth_In. rewrite nth_overflow by auto. constructor. Qed.
  Lemma Hwn k j : k < length maps -> j < length (nth k maps []) -> nth j (nth k maps []) 0 < w.
  Proof. intros Hk Hj. apply (Hw (nth k maps [])). now apply nth_In. now apply nth_In. Qed.
  Lemma in_items i s : In (i, s) (reverse_items maps) <-> valid s /\ nth (snd s) (nth (fst s) maps []) 0 = i.
  Proof.
    unfold reverse_items. rewrite in_flat_map. destruct s as [k j]. unfold valid. simpl. split.
    - intros ((k' & m) & H1 & H2). apply in_map_iff in H2 as ((j' & d) & H2 & H3). injection H2 as <- <- <-.
      simpl in *. apply (in_numbered _ _ _ []) in H1 as (H1 & <-). apply (in_numbered _ _ _ 0) in H3 as (H3 & <-). auto.
    - intros ((H1 & H2) & <-). exists (k, nth k maps []). split; [now apply (in_numbered _ _ _ [])|]. apply in_map_iff.
      exists (j, nth j (nth k maps []) 0). split; auto. apply (in_numbered _ _ _ 0). auto.
  Qed.
  Lemma in_rmi i s : In s (rmi i) <-> valid s /\ nth (snd s) (nth (fst s) maps []) 0 = i.
  Proof. unfold rmi. rewrite in_bucket. apply in_items. Qed.
  Lemma items_nodup : NoDup (map snd (reverse_items maps)).
  Proof.
    unfold reverse_items. rewrite flat_map_concat_map, concat_map, map_map, <- flat_map_concat_map.
    rewrite (numbered_seq maps []), flat_map_concat_map, map_map, <- flat_map_concat_map. cbn [fst snd].
    apply (nodup_flat_cl _ fst).
    - intros k. rewrite map_map. cbn [snd]. rewrite (numbered_seq _ 0), map_map. cbn [fst].
      apply FinFun.Injective_map_NoDup; [|apply seq_NoDup]. intros a b Hab. congruence.
    - intros k s H1. rewrite map_map in H1. apply in_map_iff in H1 as (x & <- & _). reflexivity.
  Qed.
  Lemma rmi_nodup i : NoDup (rmi i).
  Proof.
    unfold rmi, bucket. pose proof items_nodup as H. induction (reverse_items maps) as [|p l IH]; simpl; [constructor|].
    simpl in H. inversion H; subst. destruct (fst p =? i); auto. simpl. constructor; auto. intros C. apply H2.
    apply in_map_iff in C as (q & <- & Hq). apply filter_In in Hq as (Hq & _). now apply in_map.
  Qed.
  Lemma RM_nodup s : NoDup (cols (RM s)).
  Proof. unfold RM. apply cols_nodup. apply Hmapn. apply Hnd. intros c Hc. now apply (Hcols _ (snd s)). Qed.
  Lemma RM_lt s c : fst s < length maps -> In c (cols (RM s)) -> c < w.
  Proof.
    intros Hs Hc. unfold RM in Hc. rewrite cols_renum in Hc. apply in_map_iff in Hc as (b & <- & Hb). apply Hwn; auto. now apply (Hcols _ (snd s)).
  Qed.

  (** the state of the (partly renumbered) matrices: exactly the rows in D have been renumbered and sorted *)
  Definition minv (D : list (nat * nat)) (ms : list mat) : Prop :=
    length ms = length maps /\ (forall k, length (nth k ms []) = length (nth k maps [])) /\
    forall s, valid s -> (In s D -> Permutation (nth (snd s) (nth (fst s) ms []) []) (RM s) /\ StronglySorted lt (cols (nth (snd s) (nth (fst s) ms []) []))) /\
                         (~ In s D -> nth (snd s) (nth (fst s) ms []) [] = R s).
  Lemma minv_start : minv [] mats.
  Proof. split; auto. split; auto. intros s _. split; [intros []|reflexivity]. Qed.
  Lemma get_row_ok D ms s : minv D ms -> valid s -> get_row ms (fst s) (snd s) = Ret (nth (snd s) (nth (fst s) ms []) []).
  Proof.
    intros (H1 & H2 & _) (V1 & V2). unfold get_row. rewrite (rd_nth ms (fst s) []) by lia. cbn [bind]. apply rd_nth. now rewrite H2.
  Qed.
  Lemma set_row_ok D ms s r : minv D ms -> valid s -> Permutation r (RM s) -> StronglySorted lt (cols r) ->
    exists ms', set_row ms (fst s) (snd s) r = Ret ms' /\ minv (D ++ [s]) ms'.
  Proof.
    intros (H1 & H2 & H3) (V1 & V2) P S. unfold set_row. rewrite (rd_nth ms (fst s) []) by lia. cbn [bind].
    rewrite wr_ok by now rewrite H2. cbn [bind]. rewrite wr_ok by lia. eexists. split; [reflexivity|]. split; [now rewrite upd_length|]. split.
    - intros k. destruct (Nat.eq_dec (fst s) k) as [<-|N]. rewrite nth_upd_eq by lia. now rewrite upd_length. now rewrite nth_upd_neq by auto.
    - intros t V. destruct (Nat.eq_dec (fst s) (fst t)) as [Ek|N].
      + rewrite <- Ek. rewrite nth_upd_eq by lia. destruct (Nat.eq_dec (snd s) (snd t)) as [Ej|N].
        * rewrite <- Ej. rewrite nth_upd_eq by now rewrite H2. assert (s = t) by (destruct s, t; simpl in *; congruence). subst t.
          split; auto. intros C. exfalso. apply C. apply in_app_iff. right. now left.
        * rewrite nth_upd_neq by auto. rewrite Ek. specialize (H3 t V). split; intros Q; apply H3; rewrite in_app_iff in Q; [|tauto].
          destruct Q as [Q|[<-|[]]]; auto. congruence.
      + rewrite nth_upd_neq by auto. specialize (H3 t V). split; intros Q; apply H3; rewrite in_app_iff in Q; [|tauto].
        destruct Q as [Q|[<-|[]]]; auto. congruence.
  Qed.
  Definition resolve (mc : list nat) (o : option (list nat)) : list nat := match o with Some l => l | None => mc end.
  Definition ptr_ok (mc : list nat) (s : nat * nat) (o : option (list nat)) : Prop :=
    (fst s = 0 <-> o = None) /\ Permutation (resolve mc o) (cols (RM s)) /\ StronglySorted lt (resolve mc o).
  Lemma merge_sources_ok srcs : NoDup srcs -> (forall s, In s srcs -> valid s) -> (forall s t, In s srcs -> In t srcs -> fst s = fst t -> s = t) ->
    forall D ms, minv D ms -> (forall s, In s srcs -> ~ In s D) ->
    exists ms' mc ptrs, foldM (merge_source maps) srcs (ms, [], []) = Ret (ms', mc, ptrs) /\
      minv (D ++ filter (fun s => negb (fst s =? 0)) srcs) ms' /\ Forall2 (ptr_ok mc) srcs ptrs.
  Proof.
    induction srcs as [|s srcs IH] using rev_ind; intros N V U D ms MI ND.
    - exists ms, [], []. simpl. rewrite app_nil_r. auto.
    - destruct (IH) with (D := D) (ms := ms) as (ms1 & mc & ptrs & E1 & MI1 & F); auto.
          { apply NoDup_remove_1 in N. now rewrite app_nil_r in N. } { intros; apply V; apply in_app_iff; auto. }
          { intros; apply U; auto; apply in_app_iff; auto. } { intros; apply ND; apply in_app_iff; auto. }
          rewrite foldM_app, E1. cbn [bind foldM].
          assert (Vs : valid s) by (apply V; apply in_app_iff; right; now left).
          assert (Ns : ~ In s srcs). { intros C. apply NoDup_remove_2 in N. apply N. now rewrite app_nil_r. }
          assert (NDs : ~ In s (D ++ filter (fun s => negb (fst s =? 0)) srcs)).
          { rewrite in_app_iff, filter_In. intros [C|[C _]]; auto. apply (ND s); auto. apply in_app_iff. right. now left. }
          unfold merge_source at 1. destruct s as [km jm] eqn:Es. rewrite <- Es in *.
          replace km with (fst s) by now rewrite Es. replace jm with (snd s) by now rewrite Es.
          rewrite (rd_nth maps (fst s) []) by apply Vs. cbn [bind]. rewrite (get_row_ok _ _ _ MI1 Vs). cbn [bind].
          rewrite (proj2 (proj2 (proj2 MI1) s Vs) NDs).
          destruct (remap_ok (nth (fst s) maps []) (R s)) as (needs & E2 & SN). { intros c Hc. now apply (Hcols _ (snd s)). }
          rewrite E2. cbn [bind]. fold (RM s) in *. rewrite filter_app. cbn [filter]. destruct (Nat.eqb_spec (fst s) 0) as [Z|Z]; cbn [negb].
          * eexists ms1, _, _. split; [reflexivity|]. split; [now rewrite app_nil_r|]. apply Forall2_app.
            -- (* earlier pointers do not point to mc_buffer *)
              assert (G : forall t, In t srcs -> fst t <> 0). { intros t Ht C. apply Ns. rewrite <- (U t s); auto; [apply in_app_iff; auto|apply in_app_iff; right; now left|congruence]. }
              clear -F G. induction F as [|t o l l' P F IH]; constructor.
              ++ destruct P as (P1 & P2 & P3). assert (o <> None) by (intros C; apply P1 in C; apply (G t); simpl; auto). destruct o as [l0|]; [|congruence]. split; auto.
              ++ apply IH. intros; apply G; now right.
            -- constructor; [|constructor]. split; [tauto|]. simpl. destruct (sorted_cols (cols (RM s)) needs); auto. apply RM_nodup.
          * destruct (sorted_row (RM s) needs (RM_nodup s) SN) as (r' & -> & P & S). cbn [bind].
            destruct (set_row_ok _ _ s r' MI1 Vs P S) as (ms2 & -> & MI2). cbn [bind]. eexists ms2, mc, _. split; [reflexivity|]. split; [now rewrite app_assoc|].
            apply Forall2_app; auto. constructor; [|constructor]. split; [split; [tauto|discriminate]|]. simpl. split; auto. unfold cols. now apply Permutation_map.
  Qed.

  (** *** symbolic phase *)
  Definition W (i : nat) : nat := list_sum (map (fun s => length (R s)) (rmi i)).
  Definition Dn (i : nat) : list (nat * nat) := flat_map (fun i' => if 2 <=? length (rmi i') then filter (fun s => negb (fst s =? 0)) (rmi i') else []) (seq 0 i).
  Definition row_cols (i : nat) (cs : list nat) : Prop :=
    StronglySorted lt cs /\ (forall c, In c cs <-> exists s, In s (rmi i) /\ In c (cols (RM s))).
  Definition css_ok (css : list (list nat)) : Prop := forall i, i < length css -> row_cols i (nth i css []) /\ length (nth i css []) <= W i.
  Lemma rmi_unique i s t : In s (rmi i) -> In t (rmi i) -> fst s = fst t -> s = t.
  Proof.
    intros Hs Ht Hk. apply in_rmi in Hs as ((V1 & V2) & H1). apply in_rmi in Ht as ((V3 & V4) & H2).
    rewrite <- Hk in *. assert (snd s = snd t). { apply (NoDup_nth (nth (fst s) maps []) 0); auto. apply Hmapn. congruence. }
    destruct s, t; simpl in *; congruence.
  Qed.
  Lemma in_Dn i s : In s (Dn i) -> exists i', i' < i /\ In s (rmi i').
  Proof.
    unfold Dn. intros H. apply in_flat_map in H as (i' & Hi & H). apply in_seq in Hi. exists i'. split; [lia|].
    destruct (2 <=? length (rmi i')); [|destruct H]. now apply filter_In in H.
  Qed.
  Lemma rmi_notD i s : In s (rmi i) -> ~ In s (Dn i).
  Proof. intros H C. apply in_Dn in C as (i' & Hi & C). apply in_rmi in H as (_ & H). apply in_rmi in C as (_ & C). lia. Qed.
  Lemma Dn_S i : Dn (S i) = Dn i ++ (if 2 <=? length (rmi i) then filter (fun s => negb (fst s =? 0)) (rmi i) else []).
  Proof. unfold Dn. rewrite seq_S, flat_map_app. cbn [flat_map Nat.add]. now rewrite app_nil_r. Qed.
  Lemma cols_bound i cs : row_cols i cs -> length cs <= W i.
  Proof.
    intros (S & H). replace (W i) with (length (flat_map (fun s => cols (RM s)) (rmi i))).
    - apply NoDup_incl_length. now apply ss_lt_nodup. intros c Hc. apply H in Hc as (s & Hs & Hc). apply in_flat_map. eauto.
    - unfold W. clear H. induction (rmi i) as [|s l IH]; simpl; auto. rewrite app_length, IH. f_equal. unfold cols, RM, renum. now rewrite !map_length.
  Qed.
  Lemma sym_row_ok cap i ms css : css_ok css -> length css = i -> i < w -> minv (Dn i) ms -> length (concat css) + W i <= cap ->
    exists ms' cs, sym_row maps (map rmi (seq 0 w)) cap (ms, concat css, map (@length _) css) i = Ret (ms', concat (css ++ [cs]), map (@length _) (css ++ [cs])) /\
      minv (Dn (S i)) ms' /\ css_ok (css ++ [cs]).
  Proof.
    intros CO Hl Hi MI Hcap.
    assert (Fin : forall cs, row_cols i cs -> css_ok (css ++ [cs])).
    { intros cs RC i' Hi'. rewrite app_length in Hi'. simpl in Hi'. destruct (Nat.lt_ge_cases i' (length css)).
      - rewrite app_nth1 by auto. now apply CO. - replace i' with i by lia. rewrite app_nth2 by lia. replace (i - length css) with 0 by lia. simpl. split; auto. now apply cols_bound. }
    unfold sym_row. rewrite (rd_nth _ i []) by now rewrite map_length, seq_length. rewrite (nth_map_seq rmi) by auto. cbn [bind].
    destruct (rmi i) as [|s rm] eqn:Erm.
    - exists ms, []. rewrite concat_app, map_app. simpl. rewrite app_nil_r. split; [reflexivity|]. split.
      + rewrite Dn_S, Erm. simpl. now rewrite app_nil_r. + apply Fin. split; [constructor|]. intros c. rewrite Erm. simpl. split; [tauto|]. intros (s & [] & _).
    - assert (Vs : forall t, In t (s :: rm) -> valid t) by (intros t Ht; rewrite <- Erm in Ht; now apply in_rmi in Ht).
      destruct rm as [|s2 rm2].
      + destruct s as [km jm] eqn:Es. rewrite <- Es in *. replace km with (fst s) by now rewrite Es. replace jm with (snd s) by now rewrite Es.
        pose proof (Vs s (or_introl eq_refl)) as V. rewrite (rd_nth maps (fst s) []) by apply V. cbn [bind]. rewrite (get_row_ok _ _ _ MI V). cbn [bind].
        rewrite (proj2 (proj2 (proj2 MI) s V)) by (apply rmi_notD; rewrite Erm; now left).
        destruct (remap_ok (nth (fst s) maps []) (R s)) as (needs & -> & SN). { intros c Hc. now apply (Hcols _ (snd s)). }
        cbn [bind]. fold (RM s) in *. destruct (sorted_cols (cols (RM s)) needs (RM_nodup s) SN) as (P & S). set (cs := if needs then _ else _) in *.
        assert (RC : row_cols i cs).
        { split; auto. intros c. rewrite Erm. split.
          - intros Hc. exists s. split; [now left|]. apply (Permutation_in _ P Hc). - intros (t & [<-|[]] & Hc). apply (Permutation_in _ (Permutation_sym P) Hc). }
        pose proof (cols_bound i cs RC). destruct (Nat.leb_spec (length (concat css) + length cs) cap); [|lia].
        exists ms, cs. rewrite concat_app, map_app. simpl. rewrite app_nil_r. split; [reflexivity|]. split; auto. rewrite Dn_S, Erm. simpl. now rewrite app_nil_r.
      + destruct (merge_sources_ok (s :: s2 :: rm2)) with (D := Dn i) (ms := ms) as (ms' & mc & ptrs & E1 & MI' & F); auto.
        { rewrite <- Erm. apply rmi_nodup. } { rewrite <- Erm. intros a b Ha Hb. now apply (rmi_unique i). } { rewrite <- Erm. intros a Ha. now apply rmi_notD. }
        destruct s as [km jm]. cbn [bind]. rewrite E1. cbn [bind]. 
        assert (Fr : forall r, In r (map (resolve mc) ptrs) -> exists t, In t (rmi i) /\ Permutation r (cols (RM t)) /\ StronglySorted lt r).
        { rewrite Erm. intros r Hr. clear -F Hr. induction F as [|t o l l' P F IH]; [destruct Hr|]. destruct Hr as [<-|Hr].
          - exists t. split; [now left|]. split; apply P. - destruct (IH Hr) as (t' & Ht & H). exists t'. split; auto. now right. }
        assert (Fr2 : forall t, In t (rmi i) -> exists r, In r (map (resolve mc) ptrs) /\ Permutation r (cols (RM t))).
        { rewrite Erm. intros r Hr. clear -F Hr. induction F as [|t o l l' P F IH]; [destruct Hr|]. destruct Hr as [<-|Hr].
          - exists (resolve mc o). split; [now left|]. apply P. - destruct (IH Hr) as (t' & Ht & H). exists t'. split; auto. now right. }
        destruct (MergeCols_ok w HwI (map (resolve mc) ptrs)) as (cs & E2 & S & I).
        { intros r Hr. now destruct (Fr r Hr) as (t & _ & _ & St). }
        { intros r c Hr Hc. destruct (Fr r Hr) as (t & Ht & P & _). apply (RM_lt t). apply Vs. now rewrite <- Erm. apply (Permutation_in _ P Hc). }
        change (map (fun o : option (list nat) => match o with Some l => l | None => mc end) ptrs) with (map (resolve mc) ptrs). rewrite E2. cbn [bind].
        assert (RC : row_cols i cs).
        { split; auto. intros c. rewrite I. split.
          - intros (r & Hr & Hc). destruct (Fr r Hr) as (t & Ht & P & _). exists t. split; auto. apply (Permutation_in _ P Hc).
          - intros (t & Ht & Hc). destruct (Fr2 t Ht) as (r & Hr & P). exists r. split; auto. apply (Permutation_in _ (Permutation_sym P) Hc). }
        pose proof (cols_bound i cs RC). destruct (Nat.leb_spec (length (concat css) + length cs) cap); [|lia].
        exists ms', cs. rewrite concat_app, map_app. simpl concat. simpl (map _ [cs]). rewrite app_nil_r. split; [reflexivity|]. split; auto. now rewrite Dn_S, Erm.
  Qed.
  Lemma concat_bound css : css_ok css -> length (concat css) <= list_sum (map W (seq 0 (length css))).
  Proof.
    induction css as [|cs css IH] using rev_ind; intros H; [simpl; lia|]. rewrite concat_app, !app_length. simpl. rewrite app_nil_r.
    rewrite Nat.add_1_r, seq_S, map_app, list_sum_app. simpl.
    assert (css_ok css). { intros i Hi. specialize (H i). rewrite app_length in H. rewrite app_nth1 in H by auto. apply H. lia. }
    specialize (IH H0). destruct (H (length css)) as (_ & Hb). { rewrite app_length. simpl. lia. } rewrite app_nth2, Nat.sub_diag in Hb by lia. simpl in Hb. lia.
  Qed.
  Lemma sym_phase cap : list_sum (map W (seq 0 w)) <= cap -> forall n, n <= w ->
    exists ms css, foldM (sym_row maps (map rmi (seq 0 w)) cap) (seq 0 n) (mats, [], []) = Ret (ms, concat css, map (@length _) css) /\
      length css = n /\ minv (Dn n) ms /\ css_ok css.
  Proof.
    intros Hcap. induction n as [|n IH]; intros Hn.
    - exists mats, []. simpl. split; [reflexivity|]. split; auto. split; [apply minv_start|]. intros i Hi. simpl in Hi. lia.
    - destruct IH as (ms & css & E1 & Hl & MI & CO); [lia|]. rewrite seq_S, foldM_app, E1. cbn [bind foldM Nat.add].
      destruct (sym_row_ok cap n ms css CO Hl) as (ms' & cs & E2 & MI' & CO'); auto.
      { pose proof (concat_bound css CO) as Hb. rewrite Hl in Hb.
        assert (list_sum (map W (seq 0 (S n))) <= list_sum (map W (seq 0 w))).
        { replace w with (S n + (w - S n)) by lia. rewrite seq_app, map_app, list_sum_app. lia. }
        rewrite seq_S, map_app, list_sum_app in H. simpl in H. lia. }
      rewrite E2. cbn [bind]. exists ms', (css ++ [cs]). split; [reflexivity|]. split; [rewrite app_length; simpl; lia|]. auto.
  Qed.
  (** the column buffer is large enough *)
  Lemma list_sum_bucket (f : nat * nat -> nat) (items : list (nat * (nat * nat))) n :
    list_sum (map (fun i => list_sum (map f (bucket items i))) (seq 0 n)) <= list_sum (map (fun p => f (snd p)) items).
  Proof.
    induction items as [|p items IH].
    - simpl. induction (seq 0 n); simpl; auto.
    - simpl. assert (G : forall l, NoDup l -> list_sum (map (fun i => list_sum (map f (bucket (p :: items) i))) l) <= f (snd p) + list_sum (map (fun i => list_sum (map f (bucket items i))) l) /\
                        (~ In (fst p) l -> list_sum (map (fun i => list_sum (map f (bucket (p :: items) i))) l) <= list_sum (map (fun i => list_sum (map f (bucket items i))) l))).
      { induction 1 as [|a l Ha Hl G]; simpl; [split; lia|]. rewrite bucket_cons. destruct (Nat.eqb_spec (fst p) a) as [<-|Hn]; simpl.
        - split; [|intros C; exfalso; apply C; now left]. destruct G as (_ & G). specialize (G Ha). lia.
        - destruct G as (G1 & G2). split; [lia|]. intros C. assert (~ In (fst p) l) by tauto. specialize (G2 H). lia. }
      pose proof (proj1 (G (seq 0 n) (seq_NoDup n 0))). lia.
  Qed.
  Lemma cap_ok : exists cap, foldM (fun s k => A <- rd mats k ;; Ret (s + nze A)) (seq 0 (length maps)) 0 = Ret cap /\ list_sum (map W (seq 0 w)) <= cap.
  Proof.
    exists (list_sum (map (fun k => nze (nth k mats [])) (seq 0 (length maps)))). split.
    - assert (G : forall l s, (forall k, In k l -> k < length maps) -> foldM (fun s k => A <- rd mats k ;; Ret (s + nze A)) l s = Ret (s + list_sum (map (fun k => nze (nth k mats [])) l))).
      { induction l as [|k l IH]; intros s H; simpl; [now rewrite Nat.add_0_r|]. rewrite (rd_nth mats k []) by (rewrite Hlen; apply H; now left). cbn [bind].
        rewrite IH by (intros; apply H; now right). f_equal. lia. }
      rewrite G by (intros k Hk; apply in_seq in Hk; lia). reflexivity.
    - etransitivity; [apply (list_sum_bucket (fun s => length (R s)))|]. unfold reverse_items. rewrite (numbered_seq maps []).
      rewrite flat_map_concat_map, map_map, <- flat_map_concat_map. cbn [fst snd]. induction (seq 0 (length maps)) as [|k l IH]; simpl; auto.
      rewrite map_app, list_sum_app. apply Nat.add_le_mono; auto. rewrite map_map. cbn [snd]. rewrite (numbered_seq _ 0), map_map. cbn [fst].
      unfold nze. rewrite <- Hrows. apply Nat.eq_le_incl. f_equal. unfold R. cbn [fst snd]. symmetry. apply (list_ext_seq _ _ _ 0). apply map_length.
      intros i Hi. change 0 with (length (@nil (nat * E))). now rewrite (map_nth (@length (nat * E))).
  Qed.

  (** *** fill phase *)
  Definition items_of (i : nat) : row := flat_map RM (rmi i).
  Lemma fill_multi_ok i ms cs : minv (Dn w) ms -> i < w -> length (rmi i) <> 1 -> row_cols i cs ->
    fill_multi e0 eadd maps ms cs (rmi i) = Ret (map (rent (items_of i)) cs).
  Proof.
    intros MI Hi H1 (S & I). unfold fill_multi.
    assert (HD : forall s, In s (rmi i) -> fst s <> 0 -> In s (Dn w)).
    { intros s Hs H0. unfold Dn. apply in_flat_map. exists i. split; [apply in_seq; lia|]. destruct (Nat.leb_spec 2 (length (rmi i))).
      - apply filter_In. split; auto. destruct (Nat.eqb_spec (fst s) 0); auto.
      - destruct (rmi i) as [|? [|]]; simpl in *; [destruct Hs|lia|lia]. }
    assert (H0D : forall s, fst s = 0 -> ~ In s (Dn w)).
    { intros s H0 C. unfold Dn in C. apply in_flat_map in C as (i' & _ & C). destruct (2 <=? length (rmi i')); [|destruct C].
      apply filter_In in C as (_ & C). rewrite H0 in C. discriminate. }
    assert (G : forall srcs vals, (forall s, In s srcs -> In s (rmi i)) -> length vals = length cs ->
      exists vals', foldM (fun vals s => let '(km, jm) := s in dmap <- rd maps km ;; r <- get_row ms km jm ;;
             foldM (fun vals e => c <- (if km =? 0 then rd dmap (fst e) else Ret (fst e)) ;; pos <- find_pos c cs ;; v <- rd vals pos ;; wr vals pos (eadd v (snd e))) r vals) srcs vals = Ret vals' /\
        length vals' = length cs /\ forall k, k < length cs -> nth k vals' e0 = eadd (nth k vals e0) (rent (flat_map RM srcs) (nth k cs 0))).
    { induction srcs as [|s srcs IH]; intros vals Hs Hl.
      - exists vals. split; [reflexivity|]. split; auto. intros k _. simpl. now rewrite cm_0r.
      - cbn [foldM]. destruct s as [km jm] eqn:Es. rewrite <- Es in *. replace km with (fst s) by now rewrite Es. replace jm with (snd s) by now rewrite Es.
        pose proof (Hs s (or_introl eq_refl)) as Hin. assert (V : valid s) by (now apply in_rmi in Hin).
        rewrite (rd_nth maps (fst s) []) by apply V. cbn [bind]. rewrite (get_row_ok _ _ _ MI V). cbn [bind].
        set (r' := nth (snd s) (nth (fst s) ms []) []).
        assert (X : exists r'', Permutation r'' (RM s) /\ foldM (fun vals e => c <- (if fst s =? 0 then rd (nth (fst s) maps []) (fst e) else Ret (fst e)) ;; pos <- find_pos c cs ;; v <- rd vals pos ;; wr vals pos (eadd v (snd e))) r' vals
            = foldM (acc1 cs) r'' vals).
        { destruct (Nat.eqb_spec (fst s) 0) as [Z|Z].
          - exists (RM s). split; auto. unfold r'. rewrite (proj2 (proj2 (proj2 MI) s V) (H0D s Z)). unfold RM.
            assert (Hc : forall c, In c (cols (R s)) -> c < length (nth (fst s) maps [])) by (intros c Hc; now apply (Hcols _ (snd s))).
            clear -Hc. revert vals. induction (R s) as [|e l IHl]; intros vals; [reflexivity|]. cbn [foldM renum List.map]. rewrite (rd_nth _ (fst e) 0) by (apply Hc; now left). cbn [bind]. unfold acc1 at 1.
            cbn [fst snd]. destruct (find_pos _ cs); cbn [bind]; auto. destruct (rd vals _); cbn [bind]; auto. destruct (wr vals _ _); cbn [bind]; auto. apply IHl. intros; apply Hc; now right.
          - exists r'. split; [apply (proj1 (proj2 (proj2 MI) s V)); auto|]. reflexivity. }
        destruct X as (r'' & P & ->).
        destruct (acc1_ok cs r'' S) with (vals := vals) as (v1 & -> & Hl1 & Hv1); auto.
        { intros e He. apply I. exists s. split; auto. unfold cols. apply in_map. apply (Permutation_in _ P He). }
        cbn [bind]. destruct (IH v1) as (v2 & E2 & Hl2 & Hv2); auto. { intros; apply Hs; now right. }
        exists v2. split; [exact E2|]. split; auto. intros k Hk. rewrite Hv2, Hv1 by auto. simpl. rewrite rent_app'. rewrite (rent_perm _ _ _ P). now rewrite (cm_assoc _ _ CM). }
    destruct (G (rmi i) (repeat e0 (length cs))) as (vals & E1 & Hl & Hv); auto. { apply repeat_length. }
    rewrite E1. f_equal. apply nth_ext with (d := e0) (d' := rent (items_of i) 0). now rewrite map_length.
    intros k Hk. rewrite Hl in Hk. rewrite Hv by auto. rewrite nth_repeat_d, (cm_0 _ _ CM). now rewrite (map_nth (rent (items_of i))).
  Qed.
  Lemma fill_single_i i ms cs s : minv (Dn w) ms -> rmi i = [s] -> row_cols i cs ->
    fill_single (nth (fst s) maps []) cs (nth (snd s) (nth (fst s) ms []) []) = Ret (map (rent (items_of i)) cs).
  Proof.
    intros MI Hs (S & I). assert (V : valid s). { assert (In s (rmi i)) by (rewrite Hs; now left). now apply in_rmi in H. }
    assert (ND : ~ In s (Dn w)).
    { intros C. unfold Dn in C. apply in_flat_map in C as (i' & _ & C). destruct (Nat.leb_spec 2 (length (rmi i'))); [|destruct C].
      apply filter_In in C as (C & _). apply in_rmi in C as (_ & C). assert (In s (rmi i)) by (rewrite Hs; now left). apply in_rmi in H0 as (_ & H0).
      rewrite H0 in C. subst i'. rewrite Hs in H. simpl in H. lia. }
    rewrite (proj2 (proj2 (proj2 MI) s V) ND). unfold items_of. rewrite Hs. simpl. rewrite app_nil_r. unfold RM. apply fill_single_ok; auto.
    - apply RM_nodup. - intros c Hc. now apply (Hcols _ (snd s)).
    - intros c. rewrite I, Hs. split. + intros (t & [<-|[]] & Hc). exact Hc. + intros Hc. exists s. split; [now left|exact Hc].
  Qed.
  Lemma segment (css : list (list nat)) i : i < length css -> mapM (fun j => rd (concat css) (length (concat (firstn i css)) + j)) (seq 0 (length (nth i css []))) = Ret (nth i css []).
  Proof.
    intros Hi. assert (E1 : concat css = concat (firstn i css) ++ nth i css [] ++ concat (skipn (S i) css)).
    { rewrite <- (firstn_skipn i css) at 1. rewrite concat_app. f_equal. clear -Hi. revert i Hi. induction css as [|c css IH]; intros i Hi; simpl in *; [lia|]. destruct i; simpl; auto. rewrite IH by lia. reflexivity. }
    rewrite (mapM_ok _ (fun j => nth j (nth i css []) 0)).
    - f_equal. symmetry. apply (list_ext_seq _ _ _ 0); auto.
    - intros j Hj. apply in_seq in Hj. rewrite E1. rewrite (rd_nth _ _ 0) by (rewrite !app_length; lia). f_equal. rewrite app_nth2 by lia.
      rewrite app_nth1 by lia. f_equal. lia.
  Qed.
  Lemma fill_phase ms css : minv (Dn w) ms -> css_ok css -> length css = w -> forall n, n <= w ->
    foldM (fill_row e0 eadd maps ms (map rmi (seq 0 w)) (concat css) (map (@length _) css)) (seq 0 n) ([], 0) =
    Ret (map (fun i => combine (nth i css []) (map (rent (items_of i)) (nth i css []))) (seq 0 n), length (concat (firstn n css))).
  Proof.
    intros MI CO Hl. induction n as [|n IH]; intros Hn; [reflexivity|]. rewrite seq_S, foldM_app, IH by lia. cbn [bind foldM Nat.add].
    unfold fill_row. rewrite (rd_nth _ n (length (@nil nat))) by (rewrite map_length; lia). rewrite (map_nth (@length nat)). cbn [bind].
    rewrite segment by lia. cbn [bind]. rewrite (rd_nth _ n []) by (rewrite map_length, seq_length; lia). rewrite (nth_map_seq rmi) by lia. cbn [bind].
    destruct (CO n) as (RC & _); [lia|].
    assert (X : (match rmi n with [(km, jm)] => dmap <- rd maps km ;; r <- get_row ms km jm ;; fill_single dmap (nth n css []) r | _ => fill_multi e0 eadd maps ms (nth n css []) (rmi n) end) = Ret (map (rent (items_of n)) (nth n css []))).
    { destruct (rmi n) as [|[km jm] [|s2 rm]] eqn:Erm.
      - rewrite <- Erm. apply fill_multi_ok; auto. rewrite Erm. simpl. lia.
      - assert (V : valid (km, jm)). { assert (In (km, jm) (rmi n)) by (rewrite Erm; now left). now apply in_rmi in H. }
        rewrite (rd_nth maps km []) by apply V. cbn [bind]. pose proof (get_row_ok _ _ (km, jm) MI V) as Gr. cbn [fst snd] in Gr. rewrite Gr. cbn [bind]. apply (fill_single_i n ms _ (km, jm)); auto.
      - rewrite <- Erm. apply fill_multi_ok; auto. rewrite Erm. simpl. lia. }
    rewrite X. cbn [bind]. f_equal. f_equal.
    - rewrite map_app. reflexivity.
    - assert (E1 : firstn (S n) css = firstn n css ++ [nth n css []]).
      { clear -Hl Hn. assert (H : n < length css) by lia. clear Hl Hn. revert n H. induction css as [|c css IH]; intros n H; simpl in *; [lia|]. destruct n; simpl; auto. rewrite IH by lia. reflexivity. }
      rewrite E1, concat_app, app_length. simpl. now rewrite app_nil_r.
  Qed.
  Theorem Assemble_ok : exists C, AssembleMatrix e0 eadd w maps mats = Ret C /\ length C = w /\
    (forall i, i < w -> StronglySorted lt (cols (nth i C [])) /\ (forall j, In j (cols (nth i C [])) <-> exists s, In s (rmi i) /\ In j (cols (RM s))) /\
       forall j, rent (nth i C []) j = rent (items_of i) j).
  Proof.
    unfold AssembleMatrix, reverse_map. rewrite count_fill_ok.
    2:{ intros [i s] H. apply in_items in H as ((V1 & V2) & <-). now apply Hwn. }
    cbn [bind]. fold rmi. destruct cap_ok as (cap & E1 & Hcap). rewrite E1. cbn [bind].
    destruct (sym_phase cap Hcap w (le_n w)) as (ms & css & E2 & Hl & MI & CO). fold rmi in E2.
    change (map (bucket (reverse_items maps)) (seq 0 w)) with (map rmi (seq 0 w)). rewrite E2. cbn [bind].
    rewrite (fill_phase ms css MI CO Hl w (le_n w)). cbn [bind fst]. eexists. split; [reflexivity|]. split; [now rewrite map_length, seq_length|].
    intros i Hi. rewrite (nth_map_seq (fun i => combine (nth i css []) (map (rent (items_of i)) (nth i css [])))) by auto. destruct (CO i) as ((S & I) & _); [lia|].
    rewrite cols_combine by apply map_length. split; auto. split; auto. intros j.
    rewrite (rent_combine e0 eadd CM (nth i css []) (rent (items_of i))) by now apply ss_lt_nodup. destruct (in_dec Nat.eq_dec j (nth i css [])) as [|N]; auto.
    symmetry. apply rent_none. intros C. apply N. apply I. unfold items_of, cols in C. apply in_map_iff in C as (e & <- & He). apply in_flat_map in He as (s & Hs & He).
    exists s. split; auto. now apply in_map.
  Qed.
  (** the entries as a sum over the members and their rows and columns *)
  Notation sum := (sumN e0 eadd).
  Definition msum {T} (l : list T) (f : T -> E) : E := fold_right (fun a s => eadd (f a) s) e0 l.
  Lemma msum_app {T} (l1 l2 : list T) f : msum (l1 ++ l2) f = eadd (msum l1 f) (msum l2 f).
  Proof. destruct CM. induction l1; simpl; [now rewrite cm_0|]. now rewrite IHl1, cm_assoc. Qed.
  Lemma msum_seq n f : msum (seq 0 n) f = sum n f.
  Proof. induction n; auto. rewrite seq_S, msum_app, IHn. simpl. now rewrite cm_0r. Qed.
  Lemma msum_flat {T U} (l : list T) (g : T -> list U) f : msum (flat_map g l) f = msum l (fun a => msum (g a) f).
  Proof. induction l; simpl; auto. now rewrite msum_app, IHl. Qed.
  Lemma msum_map {T U} (l : list T) (g : T -> U) f : msum (map g l) f = msum l (fun a => f (g a)).
  Proof. induction l; simpl; auto. now rewrite IHl. Qed.
  Lemma msum_ext {T} (l : list T) f g : (forall a, f a = g a) -> msum l f = msum l g.
  Proof. intros H. induction l; simpl; auto. now rewrite IHl, H. Qed.
  Lemma rent_bucket (g : nat * nat -> row) (items : list (nat * (nat * nat))) i j :
    rent (flat_map g (bucket items i)) j = msum items (fun p => if fst p =? i then rent (g (snd p)) j else e0).
  Proof.
    induction items as [|p l IH]; auto. rewrite bucket_cons. simpl. destruct (fst p =? i); simpl; rewrite <- IH; [apply rent_app'|now rewrite (cm_0 _ _ CM)].
  Qed.
  Lemma rent_renum map (r : row) j : (forall c, In c (cols r) -> c < length map) ->
    rent (renum map r) j = sum (length map) (fun b => if nth b map 0 =? j then rent r b else e0).
  Proof.
    induction r as [|e r IH]; intros H.
    - simpl. rewrite (sumN_ext e0 eadd _ _ (fun _ => e0)); [symmetry; apply (sumN_0 _ _ CM)|]. intros k _. now destruct (nth k map 0 =? j).
    - simpl. rewrite IH by (intros; apply H; now right).
      rewrite (sumN_ext e0 eadd (length map) (fun b => if nth b map 0 =? j then if fst e =? b then eadd (snd e) (rent r b) else rent r b else e0)
        (fun b => eadd (if fst e =? b then (if nth b map 0 =? j then snd e else e0) else e0) (if nth b map 0 =? j then rent r b else e0))).
      + rewrite (sumN_add _ _ CM). rewrite (sumN_single _ _ CM (length map) (fst e) (fun b => if nth b map 0 =? j then snd e else e0)) by (apply H; now left).
        destruct (nth (fst e) map 0 =? j); auto. now rewrite (cm_0 _ _ CM).
      + intros b Hb. destruct (nth b map 0 =? j), (fst e =? b); rewrite ?(cm_0 _ _ CM); auto.
  Qed.
  Lemma items_entry i j : rent (items_of i) j =
    sum (length maps) (fun k => let m := nth k maps [] in
      sum (length m) (fun a => if nth a m 0 =? i then sum (length m) (fun b => if nth b m 0 =? j then rent (nth a (nth k mats []) []) b else e0) else e0)).
  Proof.
    unfold items_of, rmi. rewrite rent_bucket. unfold reverse_items. rewrite msum_flat. rewrite (numbered_seq maps []), msum_map, msum_seq.
    apply (sumN_ext e0 eadd). intros k Hk. cbn [fst snd]. rewrite msum_map. rewrite (numbered_seq _ 0), msum_map, msum_seq. cbn [fst snd].
    apply (sumN_ext e0 eadd). intros a Ha. destruct (_ =? i); auto. unfold RM. apply rent_renum. intros c Hc. now apply (Hcols _ a).
  Qed.
End Asm.
