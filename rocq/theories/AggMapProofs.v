(** Proofs about the vertex map of an agglomeration step. *)
From Verif Require Import Base ArraysModel ArraysProofs EQCModel UtilProofs EQCProofs EQCProofs2 AggMapModel.
Local Open Scope nat_scope.

(** *** classes of consecutive numbers *)
Fixpoint cls (n : list nat) (v : nat) : nat := match n with [] => 0 | c :: n => if v <? c then 0 else S (cls n (v - c)) end.
Definition off (n : list nat) (e : nat) : nat := sum (firstn e n).
Lemma sum_cons c n : sum (c :: n) = c + sum n. Proof. reflexivity. Qed.
Lemma sum_app a b : sum (a ++ b) = sum a + sum b.
Proof. induction a as [|x a IH]; cbn [app]; auto. rewrite !sum_cons, IH. lia. Qed.
Lemma off_cons c n e : off (c :: n) (S e) = c + off n e. Proof. reflexivity. Qed.
Lemma off_0 n : off n 0 = 0. Proof. reflexivity. Qed.
Lemma off_S n e : e < length n -> off n (S e) = off n e + nth e n 0.
Proof. revert e. induction n as [|c n IH]; intros [|e] H; cbn [length] in H; try lia; rewrite off_cons; cbn [nth]. unfold off. cbn. lia. rewrite off_cons, IH by lia. lia. Qed.
Lemma off_nil e : off [] e = 0. Proof. unfold off. now rewrite firstn_nil. Qed.
Lemma off_le n e e' : e <= e' -> off n e <= off n e'.
Proof. revert e e'. induction n as [|c n IH]; intros [|e] [|e'] H; rewrite ?off_nil, ?off_0, ?off_cons; try lia. specialize (IH e e' ltac:(lia)). lia. Qed.
Lemma off_all n : off n (length n) = sum n. Proof. unfold off. now rewrite firstn_all. Qed.
Lemma cls_ok n : forall v, v < sum n -> cls n v < length n /\ off n (cls n v) <= v < off n (cls n v) + nth (cls n v) n 0.
Proof.
  induction n as [|c n IH]; intros v H. cbn in H; lia. rewrite sum_cons in H. cbn [cls length].
  destruct (Nat.ltb_spec v c). { rewrite off_0. cbn [nth]. lia. }
  specialize (IH (v - c)). rewrite off_cons. cbn [nth]. lia.
Qed.
Lemma cls_unique n : forall e v, e < length n -> off n e <= v < off n e + nth e n 0 -> cls n v = e.
Proof.
  induction n as [|c n IH]; intros [|e] v He H; cbn [length] in He; try lia; cbn [cls]; rewrite ?off_0, ?off_cons in H; cbn [nth] in H. { destruct (Nat.ltb_spec v c); auto. lia. }
  destruct (Nat.ltb_spec v c). lia.
  f_equal. apply IH; lia.
Qed.
Lemma off_lt n e j : e < length n -> j < nth e n 0 -> off n e + j < sum n.
Proof. intros. rewrite <- off_all. pose proof (off_S n e ltac:(lia)). pose proof (off_le n (S e) (length n) ltac:(lia)). lia. Qed.
Lemma prefix_length n : forall s, length (prefix_from s n) = S (length n).
Proof. induction n; intros; cbn; auto. Qed.
Lemma disps_length n : length (disps_of n) = S (length n). Proof. apply prefix_length. Qed.
Lemma prefix_nth n : forall s e, e <= length n -> nth e (prefix_from s n) 0 = s + off n e.
Proof. induction n as [|c n IH]; intros s [|e] H; cbn [length] in H; try lia; cbn [prefix_from nth]; rewrite ?off_0; try lia. rewrite IH, off_cons by lia. lia. Qed.
Lemma disps_nth n e : e <= length n -> nth e (disps_of n) 0 = off n e.
Proof. intros. unfold disps_of. now rewrite prefix_nth. Qed.
Lemma disps_rd n e : e <= length n -> rd (disps_of n) e = Ret (off n e).
Proof. intros. rewrite (rd_ok _ _ 0), disps_nth; auto. unfold disps_of. rewrite prefix_length. lia. Qed.
Lemma last_nth {A} (l : list A) d : last l d = nth (length l - 1) l d.
Proof. induction l as [|x l IH]; auto. destruct l as [|y l]; auto. change (last (x :: y :: l) d) with (last (y :: l) d). rewrite IH. cbn [length]. now replace (S (length l) - 1) with (length l) by lia. Qed.
Lemma disps_last n : last (disps_of n) 0 = sum n.
Proof. rewrite last_nth. unfold disps_of at 1. rewrite prefix_length. replace (S (length n) - 1) with (length n) by lia. now rewrite disps_nth, off_all. Qed.
Lemma prefix_sorted n : forall s, StronglySorted Z.le (map Z.of_nat (prefix_from s n)) /\ Forall (Z.le (Z.of_nat s)) (map Z.of_nat (prefix_from s n)).
Proof.
  induction n as [|c n IH]; intros s; cbn. { split; repeat constructor; lia. }
  destruct (IH (s + c)) as (A & B). split. constructor; auto. eapply Forall_impl; [|exact B]. cbn. intros; lia. constructor. lia. eapply Forall_impl; [|exact B]. cbn. intros; lia.
Qed.
Lemma eqc_of_vertex n v : v < sum n -> GetEQCOfVertex (disps_of n) v = Ret (cls n v).
Proof.
  intros H. unfold GetEQCOfVertex. rewrite disps_last. destruct (Nat.ltb_spec v (sum n)); [|lia].
  destruct (merge_pos_spec (Z.of_nat v) (map Z.of_nat (disps_of n))) as (p & E & Q). { apply prefix_sorted. }
  rewrite E. cbn [bind]. destruct (cls_ok n v H) as (C1 & C2). unfold is_merge_pos in Q. rewrite map_length in Q. destruct Q as (Q1 & Q2 & Q3). rewrite disps_length in Q1.
  assert (N : forall i, i <= length n -> nth i (map Z.of_nat (disps_of n)) 0%Z = Z.of_nat (off n i)). { intros i Hi. change 0%Z with (Z.of_nat 0). rewrite map_nth. now rewrite disps_nth. }
  assert (P : p = S (cls n v)).
  { destruct (Nat.lt_trichotomy p (S (cls n v))) as [L|[L|L]]; auto; exfalso.
    - assert (X := Q3 (Z.of_nat (off n (cls n v)))). assert (Y : In (Z.of_nat (off n (cls n v))) (skipn p (map Z.of_nat (disps_of n)))).
      { rewrite <- N by lia. rewrite <- (firstn_skipn p (map Z.of_nat (disps_of n))) at 1. rewrite app_nth2; rewrite firstn_length, map_length, ?disps_length. 2: lia.
        apply nth_In. rewrite skipn_length, map_length, disps_length. lia. }
      specialize (X Y). lia.
    - assert (X := Q2 (Z.of_nat (off n (S (cls n v))))). assert (Y : In (Z.of_nat (off n (S (cls n v)))) (firstn p (map Z.of_nat (disps_of n)))).
      { rewrite <- N by lia. rewrite <- (firstn_skipn p (map Z.of_nat (disps_of n))) at 1. rewrite app_nth1; rewrite ?firstn_length, ?map_length, ?disps_length. 2: lia.
        apply nth_In. rewrite firstn_length, map_length, disps_length. lia. }
      specialize (X Y). rewrite off_S in X by lia. lia. }
  now rewrite P.
Qed.
Lemma everts_ok n e : e < length n -> GetEVerts (disps_of n) e = Ret (seq (off n e) (nth e n 0)).
Proof. intros. unfold GetEVerts. rewrite !disps_rd by lia. cbn [bind]. do 2 f_equal. rewrite off_S by auto. lia. Qed.

(** *** positions *)
Section Posb.
  Context {A : Type} (eqb : A -> A -> bool) (He : forall x y, eqb x y = true <-> x = y).
  Fixpoint posb (x : A) (l : list A) : nat := match l with [] => 0 | y :: l => if eqb x y then 0 else S (posb x l) end.
  Lemma posb_in x l d : In x l -> posb x l < length l /\ nth (posb x l) l d = x.
  Proof. induction l as [|y l IH]; intros H. destruct H. cbn [posb length]. destruct (eqb x y) eqn:E. apply He in E as ->. cbn. split; auto; lia. destruct H as [->|H]. rewrite (proj2 (He x x) eq_refl) in E. discriminate. cbn [nth]. specialize (IH H). split; try tauto. lia. Qed.
  Lemma posb_app x l l' : In x l -> posb x (l ++ l') = posb x l.
  Proof. induction l as [|y l IH]; intros H. destruct H. cbn [posb app]. destruct (eqb x y) eqn:E; auto. destruct H as [->|H]. rewrite (proj2 (He x x) eq_refl) in E. discriminate. now rewrite IH. Qed.
  Lemma posb_nth l d : NoDup l -> forall k, k < length l -> posb (nth k l d) l = k.
  Proof.
    induction 1 as [|y l N ND IH]; intros k H; cbn [length] in H. lia. destruct k as [|k]; cbn [nth posb]. now rewrite (proj2 (He y y) eq_refl).
    destruct (eqb (nth k l d) y) eqn:E. apply He in E. exfalso. apply N. rewrite <- E. apply nth_In. lia. f_equal. apply IH. lia.
  Qed.
  Lemma posb_inj x y l : In x l -> In y l -> posb x l = posb y l -> x = y.
  Proof. intros Hx Hy E. destruct (posb_in x l x Hx) as (_ & <-). destruct (posb_in y l x Hy) as (_ & F). now rewrite E. Qed.
  Lemma posb_last x l : ~ In x l -> posb x (l ++ [x]) = length l.
  Proof. induction l as [|y l IH]; intros H; cbn [posb app length]. now rewrite (proj2 (He x x) eq_refl). destruct (eqb x y) eqn:E. apply He in E as ->. exfalso. apply H. now left. rewrite IH; auto. intros X. apply H. now right. Qed.
End Posb.
Lemma eqb_iff x y : (x =? y) = true <-> x = y. Proof. apply Nat.eqb_eq. Qed.
Lemma leqb_iff (x y : list nat) : list_eqb x y = true <-> x = y. Proof. destruct (list_eqb_eq x y). split; auto. Qed.
Notation pos := (posb Nat.eqb).
Notation idx := (posb list_eqb).

(** *** the first pass on one rank *)
Section Phase1.
  Variable tabs : list (list (list nat)).
  Hypothesis HW : world tabs.
  Variable m : nat.
  Hypothesis Hm : m < length tabs.
  Variable F : fine.
  Notation tab := (nth m tabs []).
  Notation nq := (length tab).
  Notation na := (length (aggs F)).
  Notation nv := (sum (nverts F)).
  Definition cent (F : fine) (a : nat) : nat := fst (nth a (aggs F) (0, [])).
  Definition mems (F : fine) (a : nat) : list nat := snd (nth a (aggs F) (0, [])).
  Definition ce (F : fine) (a : nat) : nat := cls (nverts F) (cent F a).
  Definition agg_of (F : fine) (v : nat) : option nat := nth v (v_to_agg F) None.
  Record rank_ok (tab : list (list nat)) (m : nat) (F : fine) : Prop := {
    k_len : length (nverts F) = length tab;
    k_v2a : length (v_to_agg F) = sum (nverts F);
    k_agg : forall v a, v < sum (nverts F) -> (agg_of F v = Some a <-> a < length (aggs F) /\ In v (mems F a));
    k_mem : forall a v, a < length (aggs F) -> In v (mems F a) -> v < sum (nverts F);
    k_cen : forall a, a < length (aggs F) -> In (cent F a) (mems F a);
    k_leq : forall a v, a < length (aggs F) -> In v (mems F a) -> is_master m (nth (cls (nverts F) v) tab []) = true /\ incl (nth (cls (nverts F) v) tab []) (nth (ce F a) tab []) }.
  Hypothesis HK : rank_ok tab m F.
  Hypothesis H0 : tab <> [] -> nth 0 tab [] = [].

  Lemma ce_lt a : a < na -> ce F a < nq.
  Proof. intros Ha. rewrite <- (k_len _ _ _ HK). apply cls_ok. apply (k_mem _ _ _ HK a); auto. now apply (k_cen _ _ _ HK). Qed.
  Lemma ce_0 a v : a < na -> In v (mems F a) -> ce F a = 0 -> cls (nverts F) v = 0.
  Proof.
    intros Ha Hv E. destruct (k_leq _ _ _ HK a v Ha Hv) as (_ & I1). rewrite E in I1.
    assert (V : v < nv) by (apply (k_mem _ _ _ HK a); auto). destruct (cls_ok _ _ V) as (L & _). rewrite (k_len _ _ _ HK) in L.
    rewrite H0 in I1. 2: { intros X. rewrite X in L. cbn in L. lia. }
    assert (N : nth (cls (nverts F) v) tab [] = []). { destruct (nth (cls (nverts F) v) tab []) as [|x l]; auto. exfalso. apply (I1 x). now left. }
    rewrite <- (posb_nth list_eqb leqb_iff tab [] (tab_nodup tabs HW m Hm) (cls (nverts F) v) L), N. replace (@nil nat) with (nth 0 tab []) by (apply H0; intros X; rewrite X in L; cbn in L; lia). apply posb_nth. apply leqb_iff. now apply tab_nodup. lia.
  Qed.
  Lemma gid_id e : e < nq -> GetEQCID tabs m e = Ret (gid tabs (nth e (classes tabs m) [])).
  Proof. intros He. unfold GetEQCID. rewrite eqc_ids_ok by auto. cbn [bind]. rewrite (rd_ok _ _ (gid tabs [])). now rewrite map_nth. rewrite map_length. unfold classes. now rewrite map_length. Qed.
  Lemma of_id k : k < nq -> GetEQCOfID tabs m (gid tabs (nth k (classes tabs m) [])) = Ret (Some k).
  Proof.
    intros Hk. pose proof (eqc_ids_ok tabs HW m Hm) as EI. destruct (idf_ok tabs HW m Hm) as (t & T1 & T2). unfold GetEQCOfID. rewrite EI. cbn [bind]. rewrite T1. cbn [bind]. specialize (T2 k Hk). unfold rd.
    destruct (nth_error t (gid tabs (nth k (classes tabs m) []))) eqn:X. now apply nth_error_nth with (d := None) in X; rewrite <- T2, X. apply nth_error_None in X. rewrite nth_overflow in T2 by auto. discriminate.
  Qed.

  (** the agglomerates in the order of the first visit *)
  Definition add_agg (F : fine) (O : list nat) (v : nat) : list nat := match agg_of F v with None => O | Some a => if existsb (Nat.eqb a) O then O else O ++ [a] end.
  Definition inclass (O : list nat) (e : nat) : list nat := filter (fun b => ce F b =? e) O.
  Definition entry (O : list nat) (v : nat) : loc_entry := match agg_of F v with None => None | Some a => Some (pos a (inclass O (ce F a)), gid tabs (nth (ce F a) (classes tabs m) [])) end.
  Record st_ok (O : list nat) (cnt : list nat) (am : list (option (nat * nat))) : Prop := {
    s_nd : NoDup O;
    s_lt : forall a, In a O -> a < na /\ ce F a <> 0;
    s_cl : length cnt = nq;
    s_al : length am = na;
    s_cnt : forall e, e < nq -> nth e cnt 0 = length (inclass O e);
    s_am : forall a, a < na -> nth a am None = if existsb (Nat.eqb a) O then Some (pos a (inclass O (ce F a)), ce F a) else None }.
  Lemma eqb_in a O : existsb (Nat.eqb a) O = true <-> In a O.
  Proof. rewrite existsb_exists. split. intros (x & I1 & E). apply Nat.eqb_eq in E as ->. auto. intros. exists a. split; auto. apply Nat.eqb_refl. Qed.
  Lemma eqb_out a O : existsb (Nat.eqb a) O = false <-> ~ In a O.
  Proof. rewrite <- eqb_in. destruct (existsb (Nat.eqb a) O); intuition congruence. Qed.
  Lemma in_inclass a e O : In a (inclass O e) <-> In a O /\ ce F a = e.
  Proof. unfold inclass. rewrite filter_In, Nat.eqb_eq. tauto. Qed.
  Lemma inclass_app O O' e : inclass (O ++ O') e = inclass O e ++ inclass O' e. Proof. unfold inclass. apply filter_app. Qed.
  Lemma entry_ext O O' v : (forall a, agg_of F v = Some a -> In a O) -> entry (O ++ O') v = entry O v.
  Proof. intros H. unfold entry. destruct (agg_of F v) as [a|]; auto. rewrite inclass_app, (posb_app Nat.eqb eqb_iff); auto. apply in_inclass. auto. Qed.
  Lemma add_ext O v : exists O', add_agg F O v = O ++ O'.
  Proof. unfold add_agg. destruct (agg_of F v) as [a|]; [|exists []; now rewrite app_nil_r]. destruct (existsb _ O). exists []; now rewrite app_nil_r. now exists [a]. Qed.
  Lemma add_in O v a : agg_of F v = Some a -> In a (add_agg F O v).
  Proof. intros E. unfold add_agg. rewrite E. destruct (existsb (Nat.eqb a) O) eqn:X. now apply eqb_in. apply in_app_iff. right. now left. Qed.
  Lemma fold_ext vs : forall O, exists O', fold_left (add_agg F) vs O = O ++ O'.
  Proof. induction vs as [|v vs IH]; intros O; cbn [fold_left]. exists []; now rewrite app_nil_r. destruct (add_ext O v) as (O1 & ->). destruct (IH (O ++ O1)) as (O2 & ->). exists (O1 ++ O2). now rewrite app_assoc. Qed.
  Lemma fold_in vs : forall O v a, In v vs -> agg_of F v = Some a -> In a (fold_left (add_agg F) vs O).
  Proof.
    induction vs as [|w vs IH]; intros O v a Hv E; cbn [fold_left]. destruct Hv. destruct Hv as [->|Hv].
    - destruct (fold_ext vs (add_agg F O v)) as (O' & ->). apply in_app_iff. left. now apply add_in.
    - now apply (IH _ v).
  Qed.
  Lemma visit_ok O cnt am row v : st_ok O cnt am -> v < nv -> cls (nverts F) v <> 0 -> exists cnt' am', visit tabs m F (cnt, am, row) v = Ret (cnt', am', row ++ [entry (add_agg F O v) v]) /\ st_ok (add_agg F O v) cnt' am'.
  Proof.
    intros S1 Hv Hc. unfold visit, entry, add_agg. rewrite (rd_ok _ _ None) by (rewrite (k_v2a _ _ _ HK); auto). cbn [bind]. fold (agg_of F v).
    destruct (agg_of F v) as [a|] eqn:EA. 2: { exists cnt, am. auto. }
    apply (k_agg _ _ _ HK v a Hv) in EA as (Ha & Hva). assert (Hce : ce F a < nq) by now apply ce_lt.
    rewrite (rd_ok _ _ None) by (rewrite (s_al _ _ _ S1); auto). cbn [bind]. rewrite (s_am _ _ _ S1) by auto.
    destruct (existsb (Nat.eqb a) O) eqn:EO.
    - cbn [bind]. rewrite gid_id by auto. cbn [bind]. exists cnt, am. auto.
    - rewrite (rd_ok _ _ (0, [])) by auto. cbn [bind]. fold (cent F a). rewrite eqc_of_vertex by (apply (k_mem _ _ _ HK a); auto; now apply (k_cen _ _ _ HK)). fold (ce F a). cbn [bind].
      rewrite (rd_ok _ _ 0) by (rewrite (s_cl _ _ _ S1); auto). cbn [bind]. rewrite !wr_ok by (rewrite ?(s_cl _ _ _ S1), ?(s_al _ _ _ S1); auto). cbn [bind]. rewrite gid_id by auto. cbn [bind].
      apply eqb_out in EO. assert (IE : inclass (O ++ [a]) (ce F a) = inclass O (ce F a) ++ [a]). { rewrite inclass_app. f_equal. unfold inclass. cbn. now rewrite Nat.eqb_refl. }
      rewrite (s_cnt _ _ _ S1) by auto. assert (PE : pos a (inclass (O ++ [a]) (ce F a)) = length (inclass O (ce F a))). { rewrite IE. apply posb_last. apply eqb_iff. rewrite in_inclass. tauto. }
      exists (upd cnt (ce F a) (S (length (inclass O (ce F a))))), (upd am a (Some (length (inclass O (ce F a)), ce F a))). rewrite PE. split; auto.
      constructor.
      + apply nodup_app. apply (s_nd _ _ _ S1). repeat constructor. auto. intros x X [->|[]]. auto.
      + intros b X. apply in_app_iff in X as [X|[->|[]]]. now apply (s_lt _ _ _ S1). split; auto. intros E. apply Hc. now apply (ce_0 b v).
      + rewrite upd_length. apply S1.
      + rewrite upd_length. apply S1.
      + intros e He. destruct (Nat.eq_dec e (ce F a)) as [->|N]. rewrite nth_upd_eq by (rewrite (s_cl _ _ _ S1); auto). rewrite IE, app_length. cbn. lia.
        rewrite nth_upd_neq by auto. rewrite (s_cnt _ _ _ S1) by auto. rewrite inclass_app, app_length. replace (inclass [a] e) with (@nil nat). cbn. lia. unfold inclass. cbn. destruct (Nat.eqb_spec (ce F a) e); auto. congruence.
      + intros b Hb. destruct (Nat.eq_dec b a) as [->|N].
        * rewrite nth_upd_eq by (rewrite (s_al _ _ _ S1); auto). rewrite (proj2 (eqb_in a (O ++ [a]))) by (apply in_app_iff; right; now left). now rewrite PE.
        * rewrite nth_upd_neq by auto. rewrite (s_am _ _ _ S1) by auto. rewrite existsb_app. cbn [existsb]. destruct (Nat.eqb_spec b a); [congruence|]. rewrite !orb_false_r. destruct (existsb (Nat.eqb b) O) eqn:EB; auto. do 2 f_equal. rewrite inclass_app. symmetry. apply posb_app. apply eqb_iff. apply in_inclass. split; auto. now apply eqb_in.
  Qed.
  Lemma visits_ok vs : (forall v, In v vs -> v < nv /\ cls (nverts F) v <> 0) -> forall O cnt am row, st_ok O cnt am ->
    exists cnt' am', foldM (visit tabs m F) vs (cnt, am, row) = Ret (cnt', am', row ++ map (entry (fold_left (add_agg F) vs O)) vs) /\ st_ok (fold_left (add_agg F) vs O) cnt' am'.
  Proof.
    induction vs as [|v vs IH]; intros HV O cnt am row S1; cbn [foldM fold_left map]. { exists cnt, am. rewrite app_nil_r. auto. }
    destruct (HV v (or_introl eq_refl)) as (V1 & V2). destruct (visit_ok O cnt am row v S1 V1 V2) as (c1 & a1 & -> & S2). cbn [bind].
    destruct (IH (fun w h => HV w (or_intror h)) _ c1 a1 (row ++ [entry (add_agg F O v) v]) S2) as (c2 & a2 & -> & S3). exists c2, a2. split; auto. do 2 f_equal. rewrite <- app_assoc. cbn [app]. do 2 f_equal.
    destruct (fold_ext vs (add_agg F O v)) as (O' & ->). symmetry. apply entry_ext. intros a E. now apply add_in.
  Qed.

  (** the vertices of the shared classes the rank is master of *)
  Definition own_verts (e : nat) : list nat := if is_master m (nth e tab []) then seq (off (nverts F) e) (nth e (nverts F) 0) else [].
  Definition visited (es : list nat) : list nat := flat_map own_verts es.
  Lemma own_verts_in e v : e < nq -> In v (own_verts e) -> v < nv /\ cls (nverts F) v = e.
  Proof. intros He H. unfold own_verts in H. destruct (is_master m _); [|destruct H]. apply in_seq in H. rewrite <- (k_len _ _ _ HK) in He. split. replace v with (off (nverts F) e + (v - off (nverts F) e)) by lia. apply off_lt; auto. lia. now apply cls_unique. Qed.
  Lemma classes_ok es : (forall e, In e es -> e <> 0 /\ e < nq) -> forall O cnt am rows, st_ok O cnt am ->
    exists cnt' am', foldM (visit_class tabs m F) es (cnt, am, rows) = Ret (cnt', am', rows ++ map (fun e => map (entry (fold_left (add_agg F) (visited es) O)) (own_verts e)) es) /\ st_ok (fold_left (add_agg F) (visited es) O) cnt' am'.
  Proof.
    induction es as [|e es IH]; intros HE O cnt am rows S1; cbn [foldM map]. { exists cnt, am. rewrite app_nil_r. auto. }
    destruct (HE e (or_introl eq_refl)) as (E1 & E2). unfold visited. cbn [flat_map]. rewrite fold_left_app. fold (visited es).
    assert (X : exists c1 a1, visit_class tabs m F (cnt, am, rows) e = Ret (c1, a1, rows ++ [map (entry (fold_left (add_agg F) (own_verts e) O)) (own_verts e)]) /\ st_ok (fold_left (add_agg F) (own_verts e) O) c1 a1).
    { unfold visit_class. rewrite (rd_ok _ _ []) by auto. cbn [bind]. destruct (is_master m (nth e tab [])) eqn:EM.
      - rewrite everts_ok by (rewrite (k_len _ _ _ HK); auto). cbn [bind]. replace (seq (off (nverts F) e) (nth e (nverts F) 0)) with (own_verts e) by (unfold own_verts; now rewrite EM).
        destruct (visits_ok (own_verts e)) with (O := O) (cnt := cnt) (am := am) (row := @nil loc_entry) as (c1 & a1 & E & S2); auto. { intros v Hv. destruct (own_verts_in e v E2 Hv). split; auto. congruence. }
        rewrite E. cbn [bind app]. exists c1, a1. auto.
      - exists cnt, am. unfold own_verts. rewrite EM. cbn [map fold_left]. auto. }
    destruct X as (c1 & a1 & -> & S2). cbn [bind]. destruct (IH (fun w h => HE w (or_intror h)) _ c1 a1 (rows ++ [map (entry (fold_left (add_agg F) (own_verts e) O)) (own_verts e)]) S2) as (c2 & a2 & -> & S3).
    exists c2, a2. split; auto. do 2 f_equal. rewrite <- app_assoc. cbn [app]. do 2 f_equal. apply map_ext_in. intros v Hv. destruct (fold_ext (visited es) (fold_left (add_agg F) (own_verts e) O)) as (O' & ->). symmetry. apply entry_ext. intros a E. now apply (fold_in _ _ v).
  Qed.
  Definition order : list nat := fold_left (add_agg F) (visited (seq 1 (nq - 1))) [].
  Lemma init_ok : st_ok [] (repeat 0 nq) (repeat None na).
  Proof.
    constructor; try apply repeat_length. constructor. intros a []. intros e He. now rewrite nth_repeat. intros a Ha. cbn. now rewrite nth_repeat.
  Qed.
  Lemma phase1_ok : exists cnt am, phase1 tabs m F = Ret (cnt, match nq with 0 => [] | _ => (0, []) :: combine (skipn 1 cnt) (map (fun e => map (entry order) (own_verts e)) (seq 1 (nq - 1))) end) /\ st_ok order cnt am.
  Proof.
    unfold phase1. cbv zeta. destruct (classes_ok (seq 1 (nq - 1))) with (O := @nil nat) (cnt := repeat 0 nq) (am := @repeat (option (nat * nat)) None na) (rows := @nil (list loc_entry)) as (cnt & am & E & S1).
    { intros e He. apply in_seq in He. lia. } { apply init_ok. }
    rewrite E. cbn [bind app]. exists cnt, am. auto.
  Qed.
  (** an agglomerate with a shared centre is numbered in the first pass *)
  Lemma order_in a : a < na -> ce F a <> 0 -> In a order.
  Proof.
    intros Ha Hc. unfold order. pose proof (k_cen _ _ _ HK a Ha) as HC. pose proof (k_mem _ _ _ HK a _ Ha HC) as HV. apply (fold_in _ _ (cent F a)).
    - unfold visited. apply in_flat_map. exists (ce F a). split. apply in_seq. pose proof (ce_lt a Ha). lia. unfold own_verts. destruct (k_leq _ _ _ HK a _ Ha HC) as (M & _). unfold ce at 1. rewrite M. apply in_seq. destruct (cls_ok _ _ HV). unfold ce. lia.
    - apply (k_agg _ _ _ HK); auto.
  Qed.
End Phase1.
