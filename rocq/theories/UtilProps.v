(** Properties C07 (tuple order), C30 (basis functions), C53 (level dependent options), C54 and C61 (block filtering), C55 (packing). *)
From Verif Require Import Base UtilModel UtilProofs.
From Coq Require Import ZArith Permutation.

(** *** C07 *)
Theorem C07_pairs_and_triples : forall (T : Type) (ltb : T -> T -> bool), strict_total ltb -> strict_total (iv2_lt ltb) /\ strict_total (iv3_lt ltb).
Proof.
  intros T ltb H. pose proof (lexp_total ltb ltb H H) as H2. pose proof (lexp_total ltb _ H H2) as H3. split.
  - destruct H2 as (I & TR & W). split; [|split].
    + intros (a0 & a1). apply (I (a0, a1)).
    + intros (a0 & a1) (b0 & b1) (c0 & c1). apply (TR (a0, a1) (b0, b1) (c0, c1)).
    + intros (a0 & a1) (b0 & b1). apply (W (a0, a1) (b0, b1)).
  - destruct H3 as (I & TR & W).
    assert (E : forall a0 a1 a2 b0 b1 b2, iv3_lt ltb (a0, a1, a2) (b0, b1, b2) = lexp ltb (lexp ltb ltb) (a0, (a1, a2)) (b0, (b1, b2))) by reflexivity.
    split; [|split].
    + intros ((a0 & a1) & a2). rewrite E. apply I.
    + intros ((a0 & a1) & a2) ((b0 & b1) & b2) ((c0 & c1) & c2). rewrite !E. apply TR.
    + intros ((a0 & a1) & a2) ((b0 & b1) & b2) N. rewrite !E. apply W. congruence.
Qed.
Print Assumptions C07_pairs_and_triples.
(** arrays as keys *)
Theorem C07_arrays : forall (T : Type) (ltb neqb : T -> T -> bool), strict_total ltb -> neqb_ok neqb -> strict_total (lex_smaller ltb neqb).
Proof. intros T ltb neqb H HN. now apply lex_total. Qed.
Print Assumptions C07_arrays.
Lemma Zltb_total : strict_total Z.ltb.
Proof. split; [|split]. intros; apply Z.ltb_irrefl. intros a b c H1 H2; apply Z.ltb_lt in H1, H2; apply Z.ltb_lt; lia. intros a b N. rewrite !Z.ltb_lt. lia. Qed.
Example C07_Z : strict_total (iv3_lt Z.ltb) /\ strict_total (lex_smaller Z.ltb (fun a b => negb (Z.eqb a b))).
Proof.
  split. now apply C07_pairs_and_triples, Zltb_total. apply C07_arrays. apply Zltb_total. intros a b. rewrite Bool.negb_true_iff, Z.eqb_neq. tauto.
Qed.
(** five components: each of two tuples is smaller than the other; and the order is not transitive *)
Theorem C07_five_refuted : exists a b : Z * Z * Z * Z * Z, a <> b /\ iv5_lt Z.ltb a b = true /\ iv5_lt Z.ltb b a = true.
Proof. exists (0, 0, 0, 0, 1)%Z, (0, 0, 0, 1, 0)%Z. repeat split; try reflexivity. discriminate. Qed.
Print Assumptions C07_five_refuted.
Theorem C07_five_not_transitive_refuted : exists a b c : Z * Z * Z * Z * Z, iv5_lt Z.ltb a b = true /\ iv5_lt Z.ltb b c = true /\ iv5_lt Z.ltb a c = false.
Proof. exists (0, 0, 0, 2, 5)%Z, (0, 0, 0, 1, 6)%Z, (0, 0, 0, 2, 0)%Z. repeat split; reflexivity. Qed.
Print Assumptions C07_five_not_transitive_refuted.
(** unless the first three components agree and the fourth do not, it is the lexicographic order; all tuples with one fourth component are ordered *)
Theorem C07_five_partial : forall (T : Type) (ltb : T -> T -> bool), strict_total ltb ->
  (forall a0 a1 a2 a3 a4 b0 b1 b2 b3 b4, ltb b3 a3 = false \/ iv3_lt ltb (a0, a1, a2) (b0, b1, b2) = true \/ iv3_lt ltb (b0, b1, b2) (a0, a1, a2) = true ->
     iv5_lt ltb (a0, a1, a2, a3, a4) (b0, b1, b2, b3, b4) = lexp (iv3_lt ltb) (iv2_lt ltb) ((a0, a1, a2), (a3, a4)) ((b0, b1, b2), (b3, b4))) /\
  forall d, strict_total (fun a b : T * T * T * T => let '(a0, a1, a2, a4) := a in let '(b0, b1, b2, b4) := b in iv5_lt ltb (a0, a1, a2, d, a4) (b0, b1, b2, d, b4)).
Proof.
  intros T ltb H. pose proof H as (I & TR & W). assert (AS : forall a b, ltb a b = true -> ltb b a = false) by (intros; now apply (st_asym ltb)).
  assert (F : forall a0 a1 a2 a3 a4 b0 b1 b2 b3 b4, ltb b3 a3 = false \/ iv3_lt ltb (a0, a1, a2) (b0, b1, b2) = true \/ iv3_lt ltb (b0, b1, b2) (a0, a1, a2) = true ->
     iv5_lt ltb (a0, a1, a2, a3, a4) (b0, b1, b2, b3, b4) = lexp (iv3_lt ltb) (iv2_lt ltb) ((a0, a1, a2), (a3, a4)) ((b0, b1, b2), (b3, b4))).
  { intros. unfold lexp, iv5_lt, iv3_lt, iv2_lt in *. cbn.
    destruct (ltb a0 b0) eqn:E0; auto. destruct (ltb b0 a0) eqn:E0'; auto. destruct (ltb a1 b1) eqn:E1; auto. destruct (ltb b1 a1) eqn:E1'; auto.
    destruct (ltb a2 b2) eqn:E2; auto. destruct (ltb b2 a2) eqn:E2'; auto. destruct (ltb a3 b3) eqn:E3; auto. destruct (ltb b3 a3) eqn:E3'; auto.
    destruct H0 as [|[|]]; discriminate. }
  split; auto. intros d.
  pose proof (lexp_total (iv3_lt ltb) ltb (proj2 (C07_pairs_and_triples T ltb H)) H) as (I' & T' & W').
  assert (E : forall a0 a1 a2 a4 b0 b1 b2 b4, iv5_lt ltb (a0, a1, a2, d, a4) (b0, b1, b2, d, b4) = lexp (iv3_lt ltb) ltb ((a0, a1, a2), a4) ((b0, b1, b2), b4)).
  { intros. rewrite F by (left; apply I). unfold lexp, iv2_lt. cbn. now rewrite I. }
  split; [|split].
  - intros (((a0 & a1) & a2) & a4). rewrite E. apply I'.
  - intros (((a0 & a1) & a2) & a4) (((b0 & b1) & b2) & b4) (((c0 & c1) & c2) & c4). rewrite !E. apply T'.
  - intros (((a0 & a1) & a2) & a4) (((b0 & b1) & b2) & b4) N. rewrite !E. apply W'. congruence.
Qed.
Print Assumptions C07_five_partial.
(** four components: the right operand has only three; whenever the first three agree the comparison reads behind it *)
Theorem C07_four_refuted : forall (T : Type) (ltb : T -> T -> bool), strict_total ltb -> forall a0 a1 a2 a3, iv4_lt ltb (a0, a1, a2, a3) (a0, a1, a2) = Err OutOfBounds.
Proof. intros T ltb (I & _) a0 a1 a2 a3. cbn. now rewrite !I. Qed.
Print Assumptions C07_four_refuted.

(** *** C53 *)
Lemma nth_skipn_u {A} (l : list A) : forall k i d, nth i (skipn k l) d = nth (k + i) l d.
Proof. induction l as [|x l IH]; intros [|k] i d; cbn; auto. now destruct i. Qed.
(** the level specific value if one was given, the default otherwise, for every int level *)
Theorem C53_get_opt : forall (OC : Type) (d : OC) (sp : list OC) (level : Z), (- 2 ^ 31 <= level < 2 ^ 31)%Z -> (Z.of_nat (length sp) <= 2 ^ 63)%Z ->
  so_get (so_of2 d sp) level = Ret (if (0 <=? level)%Z then nth (Z.to_nat level) sp d else d).
Proof.
  intros OC d sp level Hl Hs. unfold so_get, so_of2. cbn [so_spec so_default]. destruct (Z.leb_spec 0 level).
  - rewrite Z.mod_small by lia. destruct (Z.ltb_spec level (Z.of_nat (length sp))).
    + apply rd_ok. lia.
    + now rewrite nth_overflow by lia.
  - replace (level mod 2 ^ 64)%Z with (level + 2 ^ 64)%Z by (rewrite <- (Z_mod_plus_full level 1); rewrite Z.mod_small; lia).
    destruct (Z.ltb_spec (level + 2 ^ 64) (Z.of_nat (length sp))); [lia|reflexivity].
Qed.
Print Assumptions C53_get_opt.
Definition reads {OC} (o : specopt OC) (d : OC) (sp : list OC) : Prop := so_default o = Some d /\ so_spec o = sp.
(** numbers and strings from flags: the flag replaces the default, the list flag gives the first levels *)
Theorem C53_from_flags : forall (OC A : Type) (conv : A -> OC) flag lst o d, so_default o = Some d ->
  reads (so_set_flags A conv flag lst o) (match flag with Some v => conv v | None => d end) (map conv lst).
Proof. intros OC A conv flag lst o d E. unfold reads, so_set_flags. cbn. rewrite E. destruct flag; auto. Qed.
Print Assumptions C53_from_flags.
(** booleans: an unset flag keeps the default *)
Theorem C53_bool_from_flags : forall flag lst o d, so_default o = Some d ->
  exists o', so_set_bool flag lst o = Ret o' /\ reads o' (match flag with XFalse => false | XTrue => true | XMaybe => d end) lst.
Proof. intros flag lst o d E. unfold so_set_bool. rewrite E. eexists. split; [reflexivity|]. split; [|reflexivity]. cbn. destruct d, flag; reflexivity. Qed.
Print Assumptions C53_bool_from_flags.
(** enumerations: known strings are translated, unknown ones mean "the default" *)
Section Enum.
  Context {OC Str : Type} (eqb : Str -> Str -> bool).
  Hypothesis eqb_ok : forall a b, eqb a b = true <-> a = b.
  Lemma enum_pos_some keys v i : enum_pos Str eqb keys v = Some i -> nth_error keys i = Some v.
  Proof.
    revert i. induction keys as [|k ks IH]; cbn; intros i H; [discriminate|]. destruct (eqb k v) eqn:E.
    - injection H as <-. apply eqb_ok in E. now subst.
    - destruct (enum_pos Str eqb ks v); [|discriminate]. cbn in H. injection H as <-. cbn. now apply IH.
  Qed.
  Lemma enum_pos_none keys v : enum_pos Str eqb keys v = None -> ~ In v keys.
  Proof.
    induction keys as [|k ks IH]; cbn; auto. destruct (eqb k v) eqn:E; [discriminate|]. destruct (enum_pos Str eqb ks v); [discriminate|].
    intros _ [->|H]; [|now apply IH]. assert (eqb v v = true) by now apply eqb_ok. congruence.
  Qed.
  (** what a string means *)
  Definition means (keys : list Str) (vals : list OC) (d : OC) (v : Str) (r : OC) : Prop :=
    (~ In v keys /\ r = d) \/ exists i, nth_error keys i = Some v /\ nth_error vals i = Some r.
  Lemma setoc_ok keys vals d v : length keys = length vals -> exists r, so_setoc Str eqb keys vals (Some d) v = Ret (Some r) /\ means keys vals d v r.
  Proof.
    intros HL. unfold so_setoc. destruct (enum_pos Str eqb keys v) as [i|] eqn:E.
    - apply enum_pos_some in E. assert (Hi : i < length vals) by (rewrite <- HL; apply nth_error_Some; congruence).
      rewrite (rd_ok vals i d Hi). cbn. eexists. split; [reflexivity|]. right. exists i. split; auto. now apply nth_error_nth'.
    - apply enum_pos_none in E. eexists. split; [reflexivity|]. now left.
  Qed.
End Enum.
Theorem C53_enum_from_flags : forall (OC Str : Type) (eqb : Str -> Str -> bool), (forall a b, eqb a b = true <-> a = b) ->
  forall keys (vals : list OC) str strs o d, length keys = length vals -> so_default o = Some d ->
  exists o' d' sp, so_set_enum Str eqb keys vals str strs o = Ret o' /\ reads o' d' sp /\ means keys vals d str d' /\ Forall2 (means keys vals d') strs sp.
Proof.
  intros OC Str eqb He keys vals str strs o d HL E. unfold so_set_enum. rewrite E. destruct (setoc_ok eqb He keys vals d str HL) as (d' & E1 & M1). rewrite E1. cbn [bind].
  assert (G : forall strs acc, exists sp, foldM (fun acc s => x <- so_setoc Str eqb keys vals (Some d') s ;; match x with Some x => Ret (acc ++ [x]) | None => Err Uninit end) strs acc = Ret (acc ++ sp)
     /\ Forall2 (means keys vals d') strs sp).
  { clear str strs E E1 M1. induction strs as [|s strs IH]; intros acc. exists []. split; [cbn; now rewrite app_nil_r|constructor].
    destruct (setoc_ok eqb He keys vals d' s HL) as (r & E1 & M1). destruct (IH (acc ++ [r])) as (sp & E2 & M2). exists (r :: sp). split; [|now constructor].
    cbn [foldM]. rewrite E1. cbn [bind]. rewrite E2, <- app_assoc. reflexivity. }
  destruct (G strs []) as (sp & E2 & M2). rewrite E2. cbn. eexists _, d', sp. split; [reflexivity|]. split; [split; reflexivity|]. auto.
Qed.
Print Assumptions C53_enum_from_flags.
(** assignment and moving keep everything; the copy constructor loses the default *)
Theorem C53_assign_move : forall (OC : Type) (this other : specopt OC) level, so_get (so_assign this other) level = so_get other level /\ so_get (so_move other) level = so_get other level.
Proof. intros. split; destruct other; reflexivity. Qed.
Print Assumptions C53_assign_move.
Theorem C53_copy_refuted : forall (OC : Type) (d : OC) sp level, (Z.of_nat (length sp) <= level < 2 ^ 31)%Z -> (Z.of_nat (length sp) <= 2 ^ 63)%Z ->
  so_get (so_of2 d sp) level = Ret d /\ so_get (so_copy (so_of2 d sp)) level = Err Uninit.
Proof.
  intros OC d sp level Hl Hs. split.
  - rewrite C53_get_opt by lia. destruct (Z.leb_spec 0 level); auto. now rewrite nth_overflow by lia.
  - unfold so_get, so_copy. cbn [so_spec so_default so_of2]. rewrite Z.mod_small by lia. destruct (Z.ltb_spec level (Z.of_nat (length sp))); [lia|reflexivity].
Qed.
Print Assumptions C53_copy_refuted.
(** merging: an option is on, on a level, iff one of the two has it on there - if the left one specifies at least as many levels *)
Definition on (d : bool) (sp : list bool) (l : nat) : bool := nth l sp d.
Theorem C53_merge_partial : forall da spa db spb, length spb <= length spa ->
  exists o, so_or (so_of2 da spa) (so_of2 db spb) = Ret o /\ exists sp, reads o (da || db) sp /\
  forall l, on (da || db) sp l = on da spa l || on db spb l.
Proof.
  intros da spa db spb HL. unfold so_or. cbn [so_default so_spec so_of2]. eexists. split; [reflexivity|]. eexists. split; [split; reflexivity|]. intros l. cbn [so_spec]. rewrite Nat.min_r by lia.
  set (P := map _ (seq 0 (length spb))). assert (LP : length P = length spb) by (unfold P; now rewrite map_length, seq_length).
  assert (NP : forall k d, k < length spb -> nth k P d = nth k spa false || nth k spb false).
  { intros k d Hk. unfold P. set (f := fun k => nth k spa false || nth k spb false). rewrite nth_indep with (d' := f 0) by (now rewrite map_length, seq_length).
    rewrite map_nth, seq_nth by auto. reflexivity. }
  unfold on. destruct (Nat.ltb_spec (length spb) (length spa)) as [H|H].
  - rewrite firstn_app, LP, Nat.sub_diag. cbn [firstn]. rewrite app_nil_r, firstn_all2 by lia. rewrite skipn_app, LP, Nat.sub_diag. cbn [skipn].
    rewrite (skipn_all2 P) by lia. cbn [app]. destruct (Nat.lt_ge_cases l (length spb)) as [H1|H1].
    + rewrite app_nth1, NP by lia. f_equal; apply nth_indep; lia.
    + rewrite app_nth2, LP by lia. rewrite (nth_overflow spb) by lia.
      destruct (Nat.lt_ge_cases l (length spa)) as [H2|H2].
      * rewrite nth_indep with (d' := (fun x => x || db) false) by (rewrite map_length, skipn_length; lia). rewrite (map_nth (fun x => x || db)). f_equal.
        rewrite nth_skipn_u. replace (length spb + (l - length spb)) with l by lia. apply nth_indep. lia.
      * rewrite (nth_overflow spa), nth_overflow by (rewrite ?map_length, ?skipn_length; lia). reflexivity.
  - rewrite (skipn_all2 spa) by lia. rewrite app_nil_r. destruct (Nat.lt_ge_cases l (length spb)) as [H1|H1].
    + rewrite NP by auto. f_equal; apply nth_indep; lia.
    + now rewrite !nth_overflow by lia.
Qed.

Print Assumptions C53_merge_partial.
(** otherwise the levels that only the right one specifies are lost *)
Theorem C53_merge_refuted : exists da spa db spb l o sp, so_or (so_of2 da spa) (so_of2 db spb) = Ret o /\ reads o (da || db) sp /\
  on da spa l || on db spb l = true /\ on (da || db) sp l = false.
Proof. exists false, [], false, [true], 0. eexists _, _. split; [reflexivity|]. split; [split; reflexivity|]. split; reflexivity. Qed.
Print Assumptions C53_merge_refuted.
Example C53_merge_ex : exists o, so_or (so_of2 false [true; false; false]) (so_of2 true [false; true]) = Ret o /\ so_spec o = [true; true; true] /\ so_default o = Some true.
Proof. eexists. split; [reflexivity|]. now split. Qed.
Example C53_enum_ex : so_set_enum nat Nat.eqb [7; 8] [true; false] 8 [7; 9; 8] (so_of true) = Ret (mkSO (Some false) [true; false; false]).
Proof. reflexivity. Qed.

(** *** C54 *)
(** what a rank keeps: the dofs it is master of, block by block, without the blocks that become empty *)
Definition kept (master : nat -> bool) (blocks : list (list nat)) : list (list nat) := filter (fun b => negb (length b =? 0)) (map (filter master) blocks).
Definition is_ex (shared : nat -> bool) (b : list nat) : Prop := exists i, In i b /\ shared i = true.
Lemma kept_eq master blocks : filter nonempty (map (filter master) blocks) = kept master blocks.
Proof. unfold kept. apply filter_ext. intros [|]; reflexivity. Qed.
Lemma ex_spec shared b : existsb shared b = true <-> is_ex shared b.
Proof. apply existsb_exists. Qed.
Lemma perm_parts {A} (f : A -> bool) (l : list A) : Permutation (filter (fun x => negb (f x)) l ++ filter f l) l.
Proof. induction l as [|a l IH]; cbn; auto. destruct (f a); cbn. rewrite <- Permutation_middle. now constructor. now constructor. Qed.
Theorem C54_filter_blocks : forall master shared blocks,
  exists l1 ex l2, FilterBlocks master shared false blocks = Ret [l1; ex; l2] /\
    Permutation (l1 ++ ex ++ l2) (kept master blocks) /\
    (forall b, In b ex -> is_ex shared b) /\ (forall b, In b (l1 ++ l2) -> ~ is_ex shared b) /\
    length l1 <= length l2 <= S (length l1) /\
    (exists f, l1 ++ l2 = filter f (kept master blocks) /\ ex = filter (fun b => negb (f b)) (kept master blocks)) /\
    (forall b i, In b (l1 ++ ex ++ l2) -> In i b -> master i = true) /\
    (forall b i, In b blocks -> In i b -> master i = true -> exists b', In b' (l1 ++ ex ++ l2) /\ In i b') /\
    (NoDup (concat blocks) -> NoDup (concat (l1 ++ ex ++ l2))).
Proof.
  intros master shared blocks. pose proof (FilterBlocks_eq master shared false blocks) as E. cbv zeta in E. rewrite kept_eq in E.
  set (K := kept master blocks) in *. set (loc := filter (fun fb => negb (existsb shared fb)) K) in *. set (n := length loc / 2) in *.
  exists (firstn n loc), (filter (existsb shared) K), (skipn n loc). split; [exact E|].
  assert (P : Permutation (firstn n loc ++ filter (existsb shared) K ++ skipn n loc) K).
  { rewrite (Permutation_app_comm (filter _ K)), app_assoc, firstn_skipn. apply perm_parts. }
  assert (HK : forall b i, In b K -> In i b -> master i = true).
  { intros b i Hb Hi. apply filter_In in Hb. destruct Hb as (Hb & _). apply in_map_iff in Hb. destruct Hb as (b0 & <- & _). now apply filter_In in Hi. }
  split; [exact P|]. split; [|split; [|split; [|split; [|split; [|split]]]]].
  - intros b Hb. apply filter_In in Hb. now apply ex_spec.
  - intros b. rewrite firstn_skipn. intros Hb HE. apply filter_In in Hb. apply ex_spec in HE. rewrite HE in Hb. now destruct Hb.
  - assert (n <= length loc) by (unfold n; apply Nat.div_le_upper_bound; lia). rewrite firstn_length_le, skipn_length by lia.
    pose proof (Nat.div_mod (length loc) 2 ltac:(lia)) as D. pose proof (Nat.mod_upper_bound (length loc) 2 ltac:(lia)). fold n in D. lia.
  - exists (fun fb => negb (existsb shared fb)). rewrite firstn_skipn. split; auto. apply filter_ext. intros; now rewrite Bool.negb_involutive.
  - intros b i Hb. apply (Permutation_in _ P) in Hb. now apply HK.
  - intros b i Hb Hi Hm. exists (filter master b). assert (Hi' : In i (filter master b)) by (apply filter_In; auto). split; auto.
    apply (Permutation_in _ (Permutation_sym P)). apply filter_In. split. now apply in_map. destruct (filter master b); [contradiction|reflexivity].
  - intros ND. assert (PC : forall a c : list (list nat), Permutation a c -> Permutation (concat a) (concat c)).
    { intros a c Hp. induction Hp; cbn; auto. now apply Permutation_app_head. rewrite !app_assoc. apply Permutation_app_tail, Permutation_app_comm. now rewrite IHHp1. }
    eapply Permutation_NoDup; [apply PC, Permutation_sym, P|].
    assert (EK : concat K = filter master (concat blocks)).
    { subst K. clear. unfold kept. induction blocks as [|b bs IH]; auto. cbn [map filter]. rewrite concat_cons, filter_app, <- IH. destruct (filter master b) eqn:F; cbn; reflexivity. }
    rewrite EK. now apply NoDup_filter.
Qed.
Print Assumptions C54_filter_blocks.
(** with symmetric local sweeps there are two groups *)
Theorem C54_filter_blocks_symm : forall master shared blocks,
  exists loc ex, FilterBlocks master shared true blocks = Ret [loc; ex] /\
    Permutation (loc ++ ex) (kept master blocks) /\ (forall b, In b ex -> is_ex shared b) /\ (forall b, In b loc -> ~ is_ex shared b).
Proof.
  intros master shared blocks. pose proof (FilterBlocks_eq master shared true blocks) as E. cbv zeta in E. rewrite kept_eq in E.
  eexists _, _. split; [exact E|]. split; [|split].
  - apply perm_parts.
  - intros b Hb. apply filter_In in Hb. now apply ex_spec.
  - intros b Hb HE. apply filter_In in Hb. apply ex_spec in HE. rewrite HE in Hb. now destruct Hb.
Qed.
Print Assumptions C54_filter_blocks_symm.
(** six blocks, dofs below 3 belong to another rank, dofs from 9 on are shared *)
Example C54_ex : FilterBlocks (fun i => 3 <=? i) (fun i => 9 <=? i) false [[0; 3]; [4; 9]; [1; 2]; [5; 6]; [10; 2; 7]; [8]] = Ret [[[3]]; [[4; 9]; [7; 10]]; [[5; 6]; [8]]]
  \/ FilterBlocks (fun i => 3 <=? i) (fun i => 9 <=? i) false [[0; 3]; [4; 9]; [1; 2]; [5; 6]; [10; 2; 7]; [8]] = Ret [[[3]]; [[4; 9]; [10; 7]]; [[5; 6]; [8]]].
Proof. right. reflexivity. Qed.

(** *** C61 *)
(** the smoother filters whenever more than two ranks take part, and never when there is one *)
Theorem C61_many_ranks_partial : forall master shared sl p idle blocks, 2 < p -> hybrid_blocks master shared sl p idle blocks = FilterBlocks master shared sl blocks.
Proof. intros master shared sl p idle blocks H. unfold hybrid_blocks. destruct idle; destruct (Nat.ltb_spec 1 p), (Nat.ltb_spec 2 p); try reflexivity; lia. Qed.
Print Assumptions C61_many_ranks_partial.
Theorem C61_one_rank_partial : forall master shared sl idle blocks, hybrid_blocks master shared sl 1 idle blocks = Ret [blocks; []; []].
Proof. intros. destruct idle; reflexivity. Qed.
Print Assumptions C61_one_rank_partial.
(** two working ranks: no filtering, so a rank keeps blocks with dofs it is not master of, and shared blocks are treated as local ones *)
Theorem C61_two_ranks_refuted : forall master shared sl blocks,
  hybrid_blocks master shared sl 2 false blocks = Ret [blocks; []; []] /\
  (forall b, In b blocks -> is_ex shared b -> exists l1, hybrid_blocks master shared sl 2 false blocks = Ret [l1; []; []] /\ In b l1) /\
  (forall b i, In b blocks -> In i b -> master i = false -> exists l1, hybrid_blocks master shared sl 2 false blocks = Ret [l1; []; []] /\ exists b', In b' l1 /\ In i b').
Proof. intros. split; [reflexivity|]. split; intros; exists blocks; split; try reflexivity; eauto. Qed.
Print Assumptions C61_two_ranks_refuted.

(** *** C55 *)
(** a message of doubles, vectors, matrices and tuples: the receiver gets exactly the items that were packed, nothing outside of the message is touched,
    and the advertised size is the number of doubles *)
Theorem C55_roundtrip : forall (D : Type) (items : list (bty * bval D)) (a old b : list D),
  (forall it, In it items -> plain (fst it) /\ shaped (fst it) (snd it)) -> length old = list_sum (map (fun it => size_in_buffer (fst it)) items) ->
  exists msg, length msg = length old /\ pack_all items (a ++ old ++ b) (length a) = Ret (a ++ msg ++ b, length a + length msg) /\
  unpack_all (map fst items) (a ++ msg ++ b) (length a) = Ret (map snd items, length a + length msg).
Proof.
  intros D items a old b H HO. exists (concat (map (fun it => flat (snd it)) items)).
  assert (L : length (concat (map (fun it => flat (snd it)) items)) = length old).
  { rewrite HO. clear old HO. induction items as [|(t & v) items IH]; auto. cbn [map concat list_sum fold_right fst snd] in *. rewrite app_length, IH by (intros; apply H; now right). unfold list_sum. f_equal.
    destruct (H (t, v) ltac:(now left)) as (HP & HS). rewrite (flat_len t v HS). destruct t; try reflexivity. contradiction. }
  split; [exact L|]. split.
  - rewrite pack_all_gen by auto. now rewrite L.
  - unfold unpack_all. rewrite unpack_all_gen by auto. cbn [app]. now rewrite L, <- HO.
Qed.
Print Assumptions C55_roundtrip.
Example C55_ex : exists msg, pack_all [(TDouble, BDouble 1%Z); (TMat 2, BMat [[2; 3]; [4; 5]]%Z); (TVec 3, BVec [6; 7; 8]%Z)] (repeat 0%Z 10) 1 = Ret ([0%Z] ++ msg ++ [0%Z], 9)
  /\ unpack_all [TDouble; TMat 2; TVec 3] ([0%Z] ++ msg ++ [0%Z]) 1 = Ret ([BDouble 1%Z; BMat [[2; 3]; [4; 5]]%Z; BVec [6; 7; 8]%Z], 9).
Proof. exists [1;2;3;4;5;6;7;8]%Z. split; reflexivity. Qed.
(** the vertex data of the elasticity meshes: one item survives if there is room behind it *)
Theorem C55_vertex_data_partial : forall (D : Type) dim (v : bval D) (a old b : list D), shaped (TElast dim) v -> length old = 1 + dim + etm dim * etm dim ->
  exists msg, length msg = length old /\ pack (TElast dim) v (a ++ old ++ b) (length a) = Ret (a ++ msg ++ b, 1 + dim + dim * dim) /\
  unpack (TElast dim) (a ++ msg ++ b) (length a) = Ret (v, 1 + dim + dim * dim).
Proof. intros D dim v a old b HS HO. exists (flat v). split. rewrite (flat_len _ _ HS). now rewrite HO. split. now apply (pack_ok (TElast dim)). now apply (unpack_ok (TElast dim)). Qed.
Print Assumptions C55_vertex_data_partial.
(** but the advertised size is too small: a buffer of that size overflows, whatever the data, ... *)
Ltac fixlen l := match goal with H : length l = ?n |- _ => first [ (let E := eval cbv in n in match E with 0 => destruct l; [|discriminate H]; clear H end)
  | (let x := fresh "x" in let l' := fresh "l" in destruct l as [|x l']; [discriminate H|]; cbn in H; apply Nat.succ_inj in H; fixlen l') ] end.
Ltac fixrows m HR := match type of HR with forall r, In r ?l -> _ => match l with
  | ?r :: ?l' => let H := fresh "H" in let H' := fresh "H" in assert (H : length r = _) by (apply HR; now left); assert (H' : forall r, In r l' -> length r = _) by (intros ? ?; apply HR; now right); clear HR; fixrows l' H'; cbn in H
  | [] => clear HR end end.
Theorem C55_vertex_data_refuted : forall (D : Type) dim (v : bval D) (buf : list D), dim = 2 \/ dim = 3 -> shaped (TElast dim) v -> length buf = size_in_buffer (TElast dim) ->
  pack (TElast dim) v buf 0 = Err OutOfBounds.
Proof.
  intros D dim v buf HD HS HB. destruct v as [| | |rot pos wt]; try contradiction. destruct HS as (HP & HW & HR).
  destruct HD as [-> | ->]; cbn in HP, HW, HR, HB.
  - fixlen buf. fixlen pos. fixlen wt. fixrows wt HR.
    repeat match goal with H : length ?l = _ |- _ => fixlen l end. vm_compute. reflexivity.
  - fixlen buf. fixlen pos. fixlen wt. fixrows wt HR.
    repeat match goal with H : length ?l = _ |- _ => fixlen l end. vm_compute. reflexivity.
Qed.
Print Assumptions C55_vertex_data_refuted.
(** ... and in a message of two items the second one overwrites the end of the first: unpacking gives other data *)
Theorem C55_two_vertices_refuted : exists (v w : bval Z) buf, shaped (TElast 2) v /\ shaped (TElast 2) w /\
  pack_all [(TElast 2, v); (TElast 2, w)] (repeat 0%Z 24) 0 = Ret buf /\
  exists v' w', unpack_all [TElast 2; TElast 2] (fst buf) 0 = Ret ([v'; w'], 14) /\ v' <> v /\ w' = w.
Proof.
  exists (BElast 1 [1; 1] [[1; 1; 1]; [1; 1; 1]; [1; 1; 1]])%Z, (BElast 2 [2; 2] [[2; 2; 2]; [2; 2; 2]; [2; 2; 2]])%Z. eexists.
  split; [|split; [|split; [vm_compute; reflexivity|]]].
  1,2: split; [reflexivity|split; [reflexivity|]]; intros r Hr; cbn in Hr; repeat destruct Hr as [<-|Hr]; reflexivity || contradiction.
  eexists _, _. split; [vm_compute; reflexivity|]. split; [discriminate|reflexivity].
Qed.
Print Assumptions C55_two_vertices_refuted.

(** *** C30 *)
Local Open Scope Z_scope.
(** a valid request: an existing rank that takes part in the level, one of its dofs (or, for rank 0, a global dof number), a component *)
Definition valid_request (levs : list (option levdofs)) (ndglob dof comp arank : Z) : Prop :=
  0 <= arank < Z.of_nat (length levs) /\
  (exists l, nth (Z.to_nat arank) levs None = Some l /\ (0 < arank -> 0 <= dof < Z.of_nat (lv_nd l))) /\
  (arank = 0 -> 0 <= dof < ndglob) /\
  (forall r l, nth r levs None = Some l -> 0 <= comp < lv_bs l /\ length (lv_gdn l) = lv_nd l).
(** is local dof k of rank r the requested one? *)
Definition requested (levs : list (option levdofs)) (dof arank : Z) (r : nat) (l : levdofs) (k : nat) : Prop :=
  if ((length levs =? 1)%nat || (0 <? arank))%bool then Z.of_nat r = arank /\ Z.of_nat k = dof else nth k (lv_gdn l) (-1) = dof.
Lemma fold_max_zero l : (forall x, In x l -> x = 0) -> fold_left Z.max l 0 = 0.
Proof. induction l as [|x l IH]; intros H; auto. cbn. rewrite (H x) by now left. apply IH. intros; apply H; now right. Qed.
Lemma fold_max_ge l : forall a, a <= fold_left Z.max l a /\ forall x, In x l -> x <= fold_left Z.max l a.
Proof.
  induction l as [|y l IH]; intros a. split; [apply Z.le_refl|intros x []]. cbn [fold_left]. destruct (IH (Z.max a y)) as (H1 & H2). split; [lia|]. intros x [<-|Hx]; [lia|auto].
Qed.
Lemma status_zero levs ndglob dof comp arank : valid_request levs ndglob dof comp arank -> bf_status levs ndglob dof comp arank = 0.
Proof.
  intros (HA & (la & EA & HD) & H0 & HC). unfold bf_status. apply fold_max_zero. intros x Hx. apply in_map_iff in Hx. destruct Hx as (r & <- & Hr). apply in_seq in Hr.
  unfold bf_check. replace ((arank <? 0) || (Z.of_nat (length levs) <? arank)) with false by (symmetry; apply Bool.orb_false_iff; split; apply Z.ltb_ge; lia).
  destruct (nth r levs None) as [l|] eqn:E.
  - destruct (HC _ _ E) as (Hc & _). replace (lv_bs l <? comp) with false by (symmetry; apply Z.ltb_ge; lia).
    assert (E4 : ((Z.of_nat r =? arank) && (0 <? Z.of_nat r) && (Z.of_nat (lv_nd l) <? dof))%bool = false).
    { destruct (Z.eqb_spec (Z.of_nat r) arank) as [e|]; auto. destruct (Z.ltb_spec 0 (Z.of_nat r)); auto. cbn. apply Z.ltb_ge.
      subst arank. rewrite Nat2Z.id in EA. rewrite E in EA. injection EA as <-. lia. }
    rewrite E4. destruct (Z.eqb_spec arank 0); auto. cbn. replace (ndglob <? dof) with false; auto. symmetry; apply Z.ltb_ge; lia.
  - destruct (Z.eqb_spec (Z.of_nat r) arank); auto. subst arank. rewrite Nat2Z.id in EA. congruence.
Qed.
Section Setones.
  Variables (bs comp dof : Z) (nd : nat) (gdn : list Z).
  Hypotheses (Hc : 0 <= comp < bs) (HG : length gdn = nd).
  Let N := (Z.to_nat bs * nd)%nat.
  (** entry (k,c) *)
  Definition ent (v : list Z) (k : nat) (c : Z) : Z := nth (Z.to_nat (bs * Z.of_nat k + c)) v 0.
  Lemma idx_lt k c : (k < nd)%nat -> 0 <= c < bs -> (Z.to_nat (bs * Z.of_nat k + c) < N)%nat.
  Proof. intros Hk H. unfold N. apply Nat2Z.inj_lt. rewrite Z2Nat.id, Nat2Z.inj_mul, Z2Nat.id by nia. nia. Qed.
  Lemma idx_inj k c k' c' : 0 <= c < bs -> 0 <= c' < bs -> Z.to_nat (bs * Z.of_nat k + c) = Z.to_nat (bs * Z.of_nat k' + c') -> k = k' /\ c = c'.
  Proof.
    intros H1 H2 E. apply Z2Nat.inj in E; [|nia|nia]. assert (Z.of_nat k = Z.of_nat k') by nia. split; [lia|nia].
  Qed.
  Lemma setone_ok v k : length v = N -> (k < nd)%nat -> exists v', setone v (bs * Z.of_nat k + comp) = Ret v' /\ length v' = N /\
    forall k' c, 0 <= c < bs -> ent v' k' c = if (k' =? k)%nat && (c =? comp) then 1 else ent v k' c.
  Proof.
    intros L Hk. unfold setone. destruct (Z.ltb_spec (bs * Z.of_nat k + comp) 0); [nia|]. pose proof (idx_lt k comp Hk Hc) as HI. rewrite wr_ok by now rewrite L. eexists. split; [reflexivity|]. split.
    { now rewrite upd_length. } intros k' c Hcc. unfold ent. destruct (Nat.eq_dec (Z.to_nat (bs * Z.of_nat k' + c)) (Z.to_nat (bs * Z.of_nat k + comp))) as [e|n].
    - pose proof (idx_inj _ _ _ _ Hcc Hc e) as (-> & ->). rewrite nth_upd_eq by now rewrite L. now rewrite Nat.eqb_refl, Z.eqb_refl.
    - rewrite nth_upd_neq by auto. destruct (Nat.eqb_spec k' k) as [->|]; auto. destruct (Z.eqb_spec c comp) as [->|]; auto. congruence.
  Qed.
  Lemma setones_ok : forall m k0 v, length v = N -> (k0 + m <= nd)%nat ->
    exists v', foldM (fun v k => g <- rd gdn k ;; if g =? dof then setone v (bs * Z.of_nat k + comp) else Ret v) (seq k0 m) v = Ret v' /\ length v' = N /\
    forall k c, 0 <= c < bs -> ent v' k c = if (k0 <=? k)%nat && (k <? k0 + m)%nat && (c =? comp) && (nth k gdn (-1) =? dof) then 1 else ent v k c.
  Proof.
    induction m as [|m IH]; intros k0 v L H.
    - exists v. split; [reflexivity|]. split; auto. intros k c _. destruct (Nat.leb_spec k0 k), (Nat.ltb_spec k (k0 + 0)); auto; lia.
    - cbn [seq foldM]. rewrite (rd_ok gdn k0 (-1)) by lia. cbn [bind]. destruct (Z.eqb_spec (nth k0 gdn (-1)) dof) as [e|ne].
      + destruct (setone_ok v k0 L ltac:(lia)) as (v1 & E1 & L1 & S1). rewrite E1. cbn [bind]. destruct (IH (S k0) v1 L1 ltac:(lia)) as (v2 & E2 & L2 & S2). exists v2. split; auto. split; auto.
        intros k c Hcc. rewrite S2, S1 by auto. destruct (Nat.eqb_spec k k0) as [->|Hk].
        * replace (S k0 <=? k0)%nat with false by (symmetry; apply Nat.leb_gt; lia). rewrite Nat.leb_refl. replace (k0 <? k0 + S m)%nat with true by (symmetry; apply Nat.ltb_lt; lia).
          rewrite e, Z.eqb_refl. cbn. destruct (c =? comp); reflexivity.
        * cbn [andb]. replace (S k0 <=? k)%nat with (k0 <=? k)%nat by (destruct (Nat.leb_spec k0 k), (Nat.leb_spec (S k0) k); auto; lia). now replace (S k0 + m)%nat with (k0 + S m)%nat by lia.
      + destruct (IH (S k0) v L ltac:(lia)) as (v2 & E2 & L2 & S2). exists v2. split; auto. split; auto. intros k c Hcc. rewrite S2 by auto.
        destruct (Nat.eqb_spec k k0) as [->|Hk].
        * replace (S k0 <=? k0)%nat with false by (symmetry; apply Nat.leb_gt; lia). replace (nth k0 gdn (-1) =? dof) with false by (symmetry; now apply Z.eqb_neq). rewrite !Bool.andb_false_r. reflexivity.
        * replace (S k0 <=? k)%nat with (k0 <=? k)%nat by (destruct (Nat.leb_spec k0 k), (Nat.leb_spec (S k0) k); auto; lia). now replace (S k0 + m)%nat with (k0 + S m)%nat by lia.
  Qed.
End Setones.
Lemma ent_zero bs n k c : ent bs (repeat 0 n) k c = 0.
Proof. unfold ent. apply nth_repeat. Qed.
(** on every rank that takes part in the level, the vector on the level is the requested unit vector *)
Theorem C30_valid_partial : forall levs ndglob dof comp arank, valid_request levs ndglob dof comp arank ->
  forall r l, nth r levs None = Some l -> (length levs = 1%nat -> Z.of_nat (lv_nd l) = ndglob) ->
  exists v, bf_rank levs ndglob dof comp arank r = Ret (Some v) /\ length v = (Z.to_nat (lv_bs l) * lv_nd l)%nat /\
  forall k c, (k < lv_nd l)%nat -> 0 <= c < lv_bs l ->
    (c = comp /\ requested levs dof arank r l k -> ent (lv_bs l) v k c = 1) /\ (~ (c = comp /\ requested levs dof arank r l k) -> ent (lv_bs l) v k c = 0).
Proof.
  intros levs ndglob dof comp arank V r l El HN. unfold bf_rank. rewrite (status_zero _ _ _ _ _ V). cbn [Z.eqb negb andb]. rewrite El.
  destruct V as (HA & (la & EA & HD) & H0 & HC). destruct (HC _ _ El) as (Hc & HG). unfold requested.
  assert (LR : length (repeat 0 (Z.to_nat (lv_bs l) * lv_nd l)) = (Z.to_nat (lv_bs l) * lv_nd l)%nat) by apply repeat_length.
  destruct ((length levs =? 1)%nat || (0 <? arank))%bool eqn:B.
  - destruct (Z.eqb_spec (Z.of_nat r) arank) as [e|ne].
    + assert (HDof : 0 <= dof < Z.of_nat (lv_nd l)).
      { apply Bool.orb_true_iff in B. subst arank. rewrite Nat2Z.id, El in EA. injection EA as <-. destruct (Z.eq_dec (Z.of_nat r) 0) as [z|]; [|lia]. destruct B as [B|B]; [|apply Z.ltb_lt in B; lia].
        apply Nat.eqb_eq in B. rewrite HN by auto. lia. }
      pose proof (setone_ok (lv_bs l) comp (lv_nd l) (lv_gdn l) Hc HG _ (Z.to_nat dof) LR ltac:(lia)) as (v' & E1 & L1 & S1). rewrite Z2Nat.id in E1 by lia. rewrite E1. cbn [bind]. exists v'. split; auto. split; auto.
      intros k c Hk Hcc. rewrite S1, ent_zero by auto. destruct (Nat.eqb_spec k (Z.to_nat dof)) as [->|], (Z.eqb_spec c comp) as [->|]; cbn [andb]; split; intros X; try reflexivity.
      * exfalso. apply X. split; auto. split; auto. lia.
      * now destruct X.
      * destruct X as (_ & _ & X). lia.
      * now destruct X.
    + eexists. split; [reflexivity|]. split; auto. intros k c Hk Hcc. rewrite ent_zero. split; [|reflexivity]. intros (_ & X & _). contradiction.
  - destruct (setones_ok (lv_bs l) comp dof (lv_nd l) (lv_gdn l) Hc HG (lv_nd l) 0 _ LR ltac:(lia)) as (v' & E1 & L1 & S1). rewrite E1. cbn [bind]. exists v'. split; auto. split; auto.
    intros k c Hk Hcc. rewrite S1, ent_zero by auto. replace (0 <=? k)%nat with true by reflexivity. replace (k <? 0 + lv_nd l)%nat with true by (symmetry; apply Nat.ltb_lt; lia). cbn [andb].
    destruct (Z.eqb_spec c comp) as [->|], (Z.eqb_spec (nth k (lv_gdn l) (-1)) dof); cbn [andb]; split; intros X; try reflexivity; try (now destruct X); exfalso; apply X; auto.
Qed.
Print Assumptions C30_valid_partial.
(** what is rejected: a status other than 0 on all ranks, and rank 0 returns the zero vector *)
Theorem C30_rejected_partial : forall levs ndglob dof comp arank r, (r < length levs)%nat ->
  ((nth r levs None = None /\ (arank < 0 \/ Z.of_nat (length levs) < arank \/ Z.of_nat r = arank)) \/
   (exists l, nth r levs None = Some l /\ (arank < 0 \/ Z.of_nat (length levs) < arank \/ lv_bs l < comp \/ (Z.of_nat r = arank /\ 0 < arank /\ Z.of_nat (lv_nd l) < dof) \/ (arank = 0 /\ ndglob < dof)))) ->
  0 < bf_status levs ndglob dof comp arank /\ bf_rank levs ndglob dof comp arank 0 = Ret None.
Proof.
  intros levs ndglob dof comp arank r Hr H. assert (P : 0 < bf_status levs ndglob dof comp arank).
  { unfold bf_status. set (f := fun r => bf_check _ _ _ _ _ _ _). apply Z.lt_le_trans with (f r); [|apply fold_max_ge, in_map, in_seq; lia]. unfold f, bf_check. destruct H as [(E & H)|(l & E & H)]; rewrite E.
    - destruct (Z.eqb_spec (Z.of_nat r) arank); [lia|]. replace ((arank <? 0) || (Z.of_nat (length levs) <? arank))%bool with true; [lia|]. symmetry. apply Bool.orb_true_iff. rewrite !Z.ltb_lt. lia.
    - destruct ((arank =? 0) && (ndglob <? dof))%bool eqn:B5; [lia|].
      destruct ((Z.of_nat r =? arank) && (0 <? Z.of_nat r) && (Z.of_nat (lv_nd l) <? dof))%bool eqn:B4; [lia|].
      destruct (Z.ltb_spec (lv_bs l) comp) as [|B2]; [lia|]. destruct ((arank <? 0) || (Z.of_nat (length levs) <? arank))%bool eqn:B1; [lia|]. exfalso.
      apply Bool.orb_false_iff in B1. rewrite !Z.ltb_ge in B1. destruct H as [H|[H|[H|[(H1 & H2 & H3)|(H1 & H2)]]]]; try lia. }
  split; auto. unfold bf_rank. destruct (Z.eqb_spec (bf_status levs ndglob dof comp arank) 0); [lia|]. reflexivity.
Qed.
Print Assumptions C30_rejected_partial.
Definition bf2 : list (option levdofs) := [Some (mkLev 2 2 [0; 1]); Some (mkLev 2 2 [1; 2])].
Example C30_ex : valid_request bf2 3 1 1 0 /\ bf_rank bf2 3 1 1 0 0 = Ret (Some [0; 0; 0; 1]) /\ bf_rank bf2 3 1 1 0 1 = Ret (Some [0; 1; 0; 0]).
Proof.
  split; [|split; reflexivity]. split; [cbn; lia|]. split. { eexists. split; [reflexivity|]. lia. } split; [lia|]. intros [|[|r]] l E; cbn in E; try (injection E as <-; cbn; split; [lia|reflexivity]). destruct r; discriminate.
Qed.
(** the checks are off by one, and some cases are not checked: these requests are accepted although nothing valid is asked for *)
Theorem C30_component_refuted : forall levs ndglob dof arank r l, valid_request levs ndglob dof 0 arank -> nth r levs None = Some l -> Z.of_nat r = arank -> 0 < arank ->
  (forall q m, nth q levs None = Some m -> lv_bs m = lv_bs l) -> (* all ranks have one block size *)
  bf_status levs ndglob dof (lv_bs l) arank = 0 /\
  ((dof + 1 < Z.of_nat (lv_nd l) -> bf_rank levs ndglob dof (lv_bs l) arank r = bf_rank levs ndglob (dof + 1) 0 arank r) /\
   (dof + 1 = Z.of_nat (lv_nd l) -> bf_rank levs ndglob dof (lv_bs l) arank r = Err OutOfBounds)).
Proof.
  intros levs ndglob dof arank r l V El Er HA HB. pose proof V as (HA' & (la & EA & HD) & H0 & HC). assert (E0 : bf_status levs ndglob dof (lv_bs l) arank = 0).
  { unfold bf_status. apply fold_max_zero. intros x Hx. apply in_map_iff in Hx. destruct Hx as (q & <- & Hq). unfold bf_check.
    replace ((arank <? 0) || (Z.of_nat (length levs) <? arank))%bool with false by (symmetry; apply Bool.orb_false_iff; split; apply Z.ltb_ge; lia).
    destruct (nth q levs None) as [m|] eqn:E.
    - rewrite (HB _ _ E), Z.ltb_irrefl. destruct (Z.eqb_spec arank 0); [lia|]. cbn [andb]. destruct (Z.eqb_spec (Z.of_nat q) arank) as [e|]; auto. destruct (Z.ltb_spec 0 (Z.of_nat q)); auto. cbn [andb].
      rewrite <- e, Nat2Z.id, E in EA. injection EA as <-. destruct (Z.ltb_spec (Z.of_nat (lv_nd m)) dof); auto. lia.
    - destruct (Z.eqb_spec (Z.of_nat q) arank); auto. rewrite <- e, Nat2Z.id in EA. congruence. }
  split; auto. rewrite <- Er, Nat2Z.id, El in EA. injection EA as <-. destruct (HC _ _ El) as (Hc & _).
  assert (NZ : negb ((r =? 0)%nat) = true) by (destruct (Nat.eqb_spec r 0); auto; lia).
  unfold bf_rank. rewrite El. replace (0 <? arank) with true by (symmetry; now apply Z.ltb_lt). rewrite Bool.orb_true_r. rewrite Er, Z.eqb_refl. destruct (r =? 0)%nat; [discriminate|]. rewrite !Bool.andb_false_r. split; intros HX.
  - now replace (lv_bs l * dof + lv_bs l) with (lv_bs l * (dof + 1) + 0) by ring.
  - replace (setone _ _) with (Err OutOfBounds (A := list Z)); [reflexivity|]. symmetry. unfold setone. destruct (Z.ltb_spec (lv_bs l * dof + lv_bs l) 0); [reflexivity|].
    unfold wr. destruct (Nat.ltb_spec (Z.to_nat (lv_bs l * dof + lv_bs l)) (length (repeat 0 (Z.to_nat (lv_bs l) * lv_nd l)))) as [HL|]; auto. rewrite repeat_length in HL. exfalso.
    apply Nat2Z.inj_lt in HL. rewrite Nat2Z.inj_mul, !Z2Nat.id in HL by nia. nia.
Qed.
Print Assumptions C30_component_refuted.
Example C30_component_ex : valid_request bf2 3 1 0 1 /\ bf_rank bf2 3 1 2 1 1 = Err OutOfBounds /\ bf_rank bf2 3 0 2 1 1 = Ret (Some [0; 0; 1; 0]).
Proof.
  split; [|split; reflexivity]. split; [cbn; lia|]. split. { eexists. split; [reflexivity|]. cbn. lia. } split; [lia|]. intros [|[|r]] l E; cbn in E; try (injection E as <-; cbn; split; [lia|reflexivity]). destruct r; discriminate.
Qed.
(** dof number = number of dofs: accepted; out of bounds on the rank that is asked *)
Theorem C30_dof_refuted : exists levs ndglob dof comp arank, 0 < arank /\ (exists l, nth (Z.to_nat arank) levs None = Some l /\ dof = Z.of_nat (lv_nd l)) /\
  bf_status levs ndglob dof comp arank = 0 /\ bf_rank levs ndglob dof comp arank (Z.to_nat arank) = Err OutOfBounds.
Proof. exists bf2, 3, 2, 0, 1. split; [lia|]. split; [eexists; split; reflexivity|]. split; reflexivity. Qed.
Print Assumptions C30_dof_refuted.
(** rank = number of ranks: accepted, all ranks have the zero vector *)
Theorem C30_rank_refuted : exists levs ndglob dof comp arank, arank = Z.of_nat (length levs) /\ bf_status levs ndglob dof comp arank = 0 /\
  forall r, (r < length levs)%nat -> exists n, bf_rank levs ndglob dof comp arank r = Ret (Some (repeat 0 n)).
Proof. exists bf2, 3, 1, 0, 2. split; [reflexivity|]. split; [reflexivity|]. intros [|[|r]] H; cbn in H; try lia; exists 4%nat; reflexivity. Qed.
Print Assumptions C30_rank_refuted.
(** a negative component: accepted; the last component of the dof before, or a write before the vector *)
Theorem C30_negative_component_refuted : exists levs ndglob arank, 0 < arank /\ bf_status levs ndglob 1 (-1) arank = 0 /\ bf_rank levs ndglob 1 (-1) arank (Z.to_nat arank) = bf_rank levs ndglob 0 1 arank (Z.to_nat arank) /\
  bf_status levs ndglob 0 (-1) arank = 0 /\ bf_rank levs ndglob 0 (-1) arank (Z.to_nat arank) = Err OutOfBounds.
Proof. exists bf2, 3, 1. split; [lia|]. repeat split; reflexivity. Qed.
Print Assumptions C30_negative_component_refuted.
(** a rejected request: rank 0 returns, the others carry on (and communicate) *)
Theorem C30_rejected_ranks_refuted : exists levs ndglob dof comp arank v, bf_status levs ndglob dof comp arank = 4 /\ bf_rank levs ndglob dof comp arank 0 = Ret None /\ bf_rank levs ndglob dof comp arank 1 = Ret (Some v).
Proof. exists [Some (mkLev 2 2 [0; 1]); Some (mkLev 2 2 [1; 2]); Some (mkLev 2 1 [2])], 3, 2, 0, 2. eexists. split; [reflexivity|]. split; reflexivity. Qed.
Print Assumptions C30_rejected_ranks_refuted.
