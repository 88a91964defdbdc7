(** Proofs about the utilities. *)
From Verif Require Import Base UtilModel.
From Coq Require Import ZArith.

(** *** orders *)
Definition strict_total {A} (R : A -> A -> bool) : Prop :=
  (forall a, R a a = false) /\ (forall a b c, R a b = true -> R b c = true -> R a c = true) /\ (forall a b, a <> b -> R a b = true \/ R b a = true).
Definition lexp {A C} (R : A -> A -> bool) (Q : C -> C -> bool) (p q : A * C) : bool :=
  if R (fst p) (fst q) then true else if R (fst q) (fst p) then false else Q (snd p) (snd q).
Section Orders.
  Context {A C : Type} (R : A -> A -> bool) (Q : C -> C -> bool).
  Hypotheses (HR : strict_total R) (HQ : strict_total Q).
  Lemma st_asym a b : R a b = true -> R b a = false.
  Proof. destruct HR as (I & T & _). intros H. destruct (R b a) eqn:E; auto. now rewrite <- (T _ _ _ H E), I. Qed.
  Lemma st_eq a b : R a b = false -> R b a = false -> (forall x y : A, {x = y} + {x <> y}) -> a = b.
  Proof. destruct HR as (_ & _ & T). intros H1 H2 D. destruct (D a b) as [|N]; auto. destruct (T a b N); congruence. Qed.
  Lemma st_trans2 a b c : R a b = true -> R c b = false -> (a <> c -> R b c = false -> True) -> R a c = true \/ False -> R a c = true.
  Proof. tauto. Qed.
  (** two elements that are not comparable behave alike *)
  Lemma st_same a b c : R a b = false -> R b a = false -> R a c = R b c /\ R c a = R c b.
  Proof.
    destruct HR as (I & T & W). intros H1 H2.
    assert (NN : ~ (a <> b)) by (intros N; destruct (W a b N); congruence).
    split.
    - destruct (R a c) eqn:E1, (R b c) eqn:E2; auto.
      + exfalso. apply NN. intros ->. congruence.
      + exfalso. apply NN. intros ->. congruence.
    - destruct (R c a) eqn:E1, (R c b) eqn:E2; auto; exfalso; apply NN; intros ->; congruence.
  Qed.
  Lemma lexp_total : strict_total (lexp R Q).
  Proof.
    destruct HR as (I & T & W), HQ as (I' & T' & W'). unfold lexp. split; [|split].
    - intros (a & c). cbn. now rewrite I, I'.
    - intros (a1 & c1) (a2 & c2) (a3 & c3). cbn. intros H1 H2.
      destruct (R a1 a2) eqn:E1.
      + destruct (R a2 a3) eqn:E2; [now rewrite (T _ _ _ E1 E2)|]. destruct (R a3 a2) eqn:E3; [discriminate|].
        destruct (st_same a2 a3 a1 E2 E3) as (_ & E4). now rewrite <- E4, E1.
      + destruct (R a2 a1) eqn:E1'; [discriminate|]. destruct (st_same a1 a2 a3 E1 E1') as (-> & ->).
        destruct (R a2 a3); auto. destruct (R a3 a2); [discriminate|]. now apply (T' _ c2).
    - intros (a1 & c1) (a2 & c2) N. cbn. destruct (R a1 a2) eqn:E1; auto. destruct (R a2 a1) eqn:E2; auto.
      apply W'. intros ->. destruct (W a1 a2); try congruence.
  Qed.
End Orders.
Definition neqb_ok {A} (neqb : A -> A -> bool) : Prop := forall a b, neqb a b = true <-> a <> b.
Section Lex.
  Context {T : Type} (ltb neqb : T -> T -> bool).
  Hypotheses (HR : strict_total ltb) (HN : neqb_ok neqb).
  (** the loop on arrays of one length: the lexicographic product *)
  Lemma lex_loop_irr a d : lex_loop ltb neqb a a d = d.
  Proof.
    induction a as [|x a IH]; auto. cbn. rewrite (proj1 HR). destruct (neqb x x) eqn:E; auto. now apply HN in E.
  Qed.
  Lemma lex_loop_trans a : forall b c, length a = length b -> length b = length c ->
    lex_loop ltb neqb a b false = true -> lex_loop ltb neqb b c false = true -> lex_loop ltb neqb a c false = true.
  Proof.
    destruct HR as (I & TT & W). induction a as [|x a IH]; intros [|y b] [|z c] L1 L2; cbn in *; try discriminate; auto.
    destruct (ltb x y) eqn:E1.
    - intros _. destruct (ltb y z) eqn:E2. intros _. now rewrite (TT _ _ _ E1 E2).
      destruct (neqb y z) eqn:E3; [discriminate|]. assert (~ y <> z) by (intros N; apply HN in N; congruence).
      intros _. destruct (ltb x z) eqn:E4; auto. exfalso. apply H. intros ->. congruence.
    - destruct (neqb x y) eqn:E2; [discriminate|]. assert (NN : ~ x <> y) by (intros N; apply HN in N; congruence). intros H1.
      destruct (ltb y z) eqn:E3. { intros _. destruct (ltb x z) eqn:E4; auto. exfalso. apply NN. intros ->. congruence. }
      destruct (neqb y z) eqn:E4; [discriminate|]. intros H2. destruct (ltb x z) eqn:E5. exfalso. apply NN. intros ->. congruence.
      destruct (neqb x z) eqn:E6. exfalso. apply NN. intros ->. congruence. apply (IH b c); auto.
  Qed.
  Lemma lex_loop_total a : forall b, length a = length b -> a <> b -> lex_loop ltb neqb a b false = true \/ lex_loop ltb neqb b a false = true.
  Proof.
    destruct HR as (I & TT & W). induction a as [|x a IH]; intros [|y b] L N; cbn in *; try discriminate; [congruence|].
    destruct (ltb x y) eqn:E1; auto. destruct (ltb y x) eqn:E2; auto.
    destruct (neqb x y) eqn:E3. { apply HN in E3. destruct (W x y E3); congruence. }
    destruct (neqb y x) eqn:E4. { apply HN in E4. destruct (W y x E4); congruence. }
    apply IH. now injection L. intros ->. apply N. f_equal. 
    assert (~ x <> y) by (intros M; apply HN in M; congruence). assert (D : ~ (x :: b <> y :: b)) by (intros M; apply H; intros ->; now apply M).
    exfalso. apply D. exact N.
  Qed.
  Lemma lex_total : strict_total (lex_smaller ltb neqb).
  Proof.
    unfold lex_smaller. split; [|split].
    - intros a. rewrite Nat.eqb_refl, lex_loop_irr. apply Nat.ltb_irrefl.
    - intros a b c. destruct (Nat.eqb_spec (length a) (length b)) as [E1|E1], (Nat.eqb_spec (length b) (length c)) as [E2|E2], (Nat.eqb_spec (length a) (length c)) as [E3|E3];
        intros H1 H2; try lia.
      + rewrite E1, Nat.ltb_irrefl in H1. rewrite E2, Nat.ltb_irrefl in H2. rewrite E3, Nat.ltb_irrefl. apply (lex_loop_trans a b c); auto.
      + apply Nat.ltb_lt in H2. apply Nat.ltb_lt. lia.
      + apply Nat.ltb_lt in H1. apply Nat.ltb_lt. lia.
      + apply Nat.ltb_lt in H1, H2. lia.
      + apply Nat.ltb_lt in H1, H2. apply Nat.ltb_lt. lia.
    - intros a b N. destruct (Nat.eqb_spec (length a) (length b)) as [E|E].
      + rewrite E, Nat.eqb_refl, Nat.ltb_irrefl. now apply lex_loop_total.
      + rewrite (proj2 (Nat.eqb_neq (length b) (length a))) by lia. destruct (Nat.ltb_spec (length a) (length b)); auto. right. apply Nat.ltb_lt. lia.
  Qed.
End Lex.

(** *** block filtering *)
Section Filter.
  Variables (master shared : nat -> bool).
  Definition nonempty (l : list nat) : bool := 0 <? length l.
  Lemma filtered_eq blocks : filtered master shared blocks = map (fun fb => (fb, negb (existsb shared fb))) (filter nonempty (map (filter master) blocks)).
  Proof. induction blocks as [|b bs IH]; auto. unfold filtered in *. cbn [map concat filter]. unfold nonempty at 1. cbv zeta in IH |- *. rewrite IH. destruct (0 <? length (filter master b)); reflexivity. Qed.
  Lemma tab_add_ok (L : list (list nat)) k r : tab_add (L ++ repeat [] (S k)) (length L) r = Ret (L ++ r :: repeat [] k).
  Proof.
    unfold tab_add, rd. rewrite nth_error_app2, Nat.sub_diag by lia. cbn [repeat nth_error bind app].
    rewrite wr_ok by (rewrite app_length; cbn; lia). f_equal. induction L as [|x L IH]; cbn; [reflexivity|]. f_equal. exact IH.
  Qed.
  Definition locs (fl : list (list nat * bool)) := map fst (filter snd fl).
  Definition exs (fl : list (list nat * bool)) := map fst (filter (fun e => negb (snd e)) fl).
  Definition pad (n : nat) (l : list (list nat)) := l ++ repeat [] (n - length l).
  Lemma pad_add n L r : length L < n -> tab_add (pad n L) (length L) r = Ret (pad n (L ++ [r])).
  Proof.
    intros H. unfold pad. replace (n - length L) with (S (n - S (length L))) by lia. rewrite tab_add_ok, app_length, <- app_assoc. cbn.
    replace (n - (length L + 1)) with (n - S (length L)) by lia. reflexivity.
  Qed.
  Lemma filter_fold sl nl1 nl2 nx fl : forall pre,
    (sl = true -> nl1 = length (locs (pre ++ fl))) -> nl1 <= length (locs (pre ++ fl)) -> nl2 = length (locs (pre ++ fl)) - nl1 -> nx = length (exs (pre ++ fl)) ->
    let st l := ((pad nl1 (firstn nl1 (locs l)), pad nl2 (skipn nl1 (locs l)), pad nx (exs l)), (Nat.min (length (locs l)) nl1, length (locs l) - nl1, length (exs l))) in
    foldM (filter_step sl nl1) fl (st pre) = Ret (st (pre ++ fl)).
  Proof.
    induction fl as [|(fb & il) fl IH]; intros pre Hs H1 H2 H3; cbv beta zeta. now rewrite app_nil_r.
    assert (EL : locs (pre ++ (fb, il) :: fl) = locs pre ++ (if il then [fb] else []) ++ locs fl).
    { unfold locs. rewrite filter_app, map_app. cbn. destruct il; reflexivity. }
    assert (EX : exs (pre ++ (fb, il) :: fl) = exs pre ++ (if il then [] else [fb]) ++ exs fl).
    { unfold exs. rewrite filter_app, map_app. cbn. destruct il; reflexivity. }
    assert (EL' : locs (pre ++ [(fb, il)]) = locs pre ++ (if il then [fb] else [])).
    { unfold locs. rewrite filter_app, map_app. cbn. destruct il; reflexivity. }
    assert (EX' : exs (pre ++ [(fb, il)]) = exs pre ++ (if il then [] else [fb])).
    { unfold exs. rewrite filter_app, map_app. cbn. destruct il; reflexivity. }
    specialize (IH (pre ++ [(fb, il)])). rewrite <- app_assoc in IH. cbn [app] in IH. specialize (IH Hs H1 H2 H3). cbv beta zeta in IH.
    rewrite EL, !app_length in Hs, H1, H2. rewrite EX, !app_length in H3. rewrite EL', EX' in IH.
    set (L := locs pre) in *. set (X := exs pre) in *. rewrite <- IH. clear IH EL EX EL' EX'. cbn [foldM]. unfold filter_step at 1. cbn [fst snd].
    destruct il; cbn [length] in *.
    - rewrite app_nil_r. destruct (Nat.ltb_spec (Nat.min (length L) nl1) nl1) as [Hl|Hl].
      + rewrite orb_true_r. assert (Hl' : length L < nl1) by lia. rewrite Nat.min_l by lia. rewrite (firstn_all2 L) by lia.
        rewrite pad_add by lia. cbn [bind]. rewrite firstn_all2 by (rewrite app_length; cbn; lia).
        rewrite !skipn_all2 by (rewrite ?app_length; cbn; lia). rewrite app_length; cbn [length]. rewrite Nat.min_l by lia.
        replace (length L + 1) with (S (length L)) by lia. replace (S (length L) - nl1) with (length L - nl1) by lia. reflexivity.
      + assert (Hl' : nl1 <= length L) by lia. rewrite orb_false_r. destruct sl. specialize (Hs eq_refl). lia.
        replace (length L - nl1) with (length (skipn nl1 L)) at 1 by apply skipn_length. rewrite pad_add by (rewrite skipn_length; lia). cbn [bind].
        rewrite firstn_app. replace (nl1 - length L) with 0 by lia. cbn [firstn]. rewrite app_nil_r.
        rewrite skipn_app. replace (nl1 - length L) with 0 by lia. cbn [skipn]. rewrite app_length; cbn [length].
        rewrite !Nat.min_r by lia. replace (length L + 1 - nl1) with (S (length L - nl1)) by lia. reflexivity.
    - rewrite app_nil_r. rewrite pad_add by lia. cbn [bind]. rewrite app_length. cbn [length]. rewrite Nat.add_1_r. reflexivity.
  Qed.
  Lemma locs_exs l : locs (map (fun fb => (fb, negb (existsb shared fb))) l) = filter (fun fb => negb (existsb shared fb)) l /\
    exs (map (fun fb => (fb, negb (existsb shared fb))) l) = filter (existsb shared) l.
  Proof. unfold locs, exs. induction l as [|a l (IH1 & IH2)]; auto. cbn. destruct (existsb shared a); cbn; rewrite IH1, IH2; auto. Qed.
  Lemma FilterBlocks_eq (sl : bool) blocks : let kept := filter nonempty (map (filter master) blocks) in
    let loc := filter (fun fb => negb (existsb shared fb)) kept in let n := if sl then length loc else Nat.div (length loc) 2 in
    FilterBlocks master shared sl blocks = Ret (if sl then [loc; filter (existsb shared) kept] else [firstn n loc; filter (existsb shared) kept; skipn n loc]).
  Proof.
    intros kept loc n. unfold FilterBlocks. rewrite filtered_eq. fold kept. set (fl := map (fun fb => (fb, negb (existsb shared fb))) kept).
    assert (EL : length (filter snd fl) = length loc).
    { unfold loc. rewrite <- (proj1 (locs_exs kept)). unfold locs. now rewrite map_length. }
    assert (EX : length (filter (fun e => negb (snd e)) fl) = length (filter (existsb shared) kept)).
    { rewrite <- (proj2 (locs_exs kept)). unfold exs. now rewrite map_length. }
    rewrite EL, EX. fold n. destruct (locs_exs kept) as (F1 & F2). fold fl in F1, F2. fold loc in F1.
    pose proof (filter_fold sl n (length loc - n) (length (filter (existsb shared) kept)) fl []) as F. cbn [app] in F.
    assert (Hn : n <= length loc) by (unfold n; destruct sl; [lia|]; apply Nat.div_le_upper_bound; lia).
    cbv beta zeta in F. unfold pad in F. change (locs []) with (@nil (list nat)) in F. change (exs []) with (@nil (list nat)) in F.
    cbn [length firstn skipn app Nat.min Nat.sub] in F. rewrite firstn_nil, skipn_nil in F. cbn [app length] in F. rewrite !Nat.sub_0_r in F. rewrite F1, F2 in F.
    rewrite F; auto; [|intros ->; reflexivity]. clear F. cbn [bind fst].
    replace (n - length (firstn n loc)) with 0 by (rewrite firstn_length; lia). rewrite skipn_length, !Nat.sub_diag. cbn [repeat]. rewrite !app_nil_r.
    destruct sl; auto. unfold n. now rewrite firstn_all.
  Qed.
End Filter.

(** *** buffers *)
Section Buffer.
  Context {D : Type}.
  Lemma upd_mid (a : list D) old b v : upd (a ++ old :: b) (length a) v = a ++ v :: b.
  Proof. induction a; cbn; congruence. Qed.
  Lemma put_gen (g : nat -> nat) v : forall k (a old b : list D), length old = length v -> (forall i, i < length v -> g (k + i) = length a + i) ->
    foldM (fun bf p => wr bf (g (fst p)) (snd p)) (combine (seq k (length v)) v) (a ++ old ++ b) = Ret (a ++ v ++ b).
  Proof.
    induction v as [|x v IH]; intros k a [|o old] b HL Hg; try discriminate; auto. cbn [length seq combine foldM fst snd].
    pose proof (Hg 0 ltac:(cbn; lia)) as G0. rewrite !Nat.add_0_r in G0. rewrite G0. rewrite wr_ok by (rewrite !app_length; cbn; lia). cbn [bind].
    cbn [app]. rewrite upd_mid. change (a ++ x :: old ++ b) with (a ++ [x] ++ old ++ b). rewrite app_assoc, IH.
    - now rewrite <- app_assoc.
    - now injection HL.
    - intros i Hi. replace (S k + i) with (k + S i) by lia. rewrite Hg by (cbn; lia). rewrite app_length. cbn. lia.
  Qed.
  Lemma put_ok v (a old b : list D) : length old = length v -> put (a ++ old ++ b) (length a) v = Ret (a ++ v ++ b).
  Proof. intros H. unfold put. apply put_gen; auto. Qed.
  Lemma put_mat_gen n m : forall k (a old b : list D) off, (forall r, In r m -> length r = n) -> length old = length m * n -> length a = off + k * n ->
    foldM (fun b p => foldM (fun b q => wr b (off + (fst p * n + fst q)) (snd q)) (combine (seq 0 n) (snd p)) b) (combine (seq k (length m)) m) (a ++ old ++ b)
    = Ret (a ++ concat m ++ b).
  Proof.
    induction m as [|r m IH]; intros k a old b off Hr HL Ha; cbn [length] in HL. { destruct old; [|discriminate]. reflexivity. }
    cbn [length seq combine foldM fst snd concat].
    rewrite <- (firstn_skipn n old). rewrite <- (app_assoc (firstn n old)).
    assert (Hn : length r = n) by (apply Hr; now left).
    pose proof (put_gen (fun x => off + (k * n + x)) r 0 a (firstn n old) (skipn n old ++ b)) as P. rewrite Hn in P. cbv beta in P.
    rewrite P; [| rewrite firstn_length; lia | intros i Hi; lia]. cbn [bind]. clear P.
    rewrite app_assoc, (IH (S k) (a ++ r) (skipn n old) b off).
    - now rewrite !app_assoc.
    - intros r' H'. apply Hr. now right.
    - rewrite skipn_length. lia.
    - rewrite app_length. lia.
  Qed.
  Lemma put_mat_ok n m (a old b : list D) : length m = n -> (forall r, In r m -> length r = n) -> length old = n * n ->
    put_mat (a ++ old ++ b) (length a) n m = Ret (a ++ concat m ++ b).
  Proof.
    intros H1 H2 H3. unfold put_mat. pose proof (put_mat_gen n m 0 a old b (length a) H2) as P. rewrite H1 in P. apply P; auto; lia.
  Qed.
  Lemma get_gen v : forall k acc (a b : list D) off, length a = off + k ->
    foldM (fun acc i => x <- rd (a ++ v ++ b) (off + i) ;; Ret (acc ++ [x])) (seq k (length v)) acc = Ret (acc ++ v).
  Proof.
    induction v as [|x v IH]; intros k acc a b off Ha. cbn. now rewrite app_nil_r.
    cbn [length seq foldM]. assert (E : rd (a ++ (x :: v) ++ b) (off + k) = Ret x).
    { unfold rd. rewrite nth_error_app2 by lia. rewrite Ha, Nat.sub_diag. reflexivity. }
    rewrite E. cbn [bind]. change (a ++ (x :: v) ++ b) with (a ++ [x] ++ v ++ b). rewrite (app_assoc a).
    rewrite (IH (S k) (acc ++ [x]) (a ++ [x]) b off). now rewrite <- app_assoc. rewrite app_length. cbn. lia.
  Qed.
  Lemma get_ok v (a b : list D) : get (a ++ v ++ b) (length a) (length v) = Ret v.
  Proof. unfold get. rewrite get_gen; auto. Qed.
  Lemma get_mat_gen n m : forall k acc (a b : list D) off, (forall r, In r m -> length r = n) -> length a = off + k * n ->
    foldM (fun acc i => r <- get (a ++ concat m ++ b) (off + i * n) n ;; Ret (acc ++ [r])) (seq k (length m)) acc = Ret (acc ++ m).
  Proof.
    induction m as [|r m IH]; intros k acc a b off Hr Ha. cbn. now rewrite app_nil_r.
    assert (Hn : length r = n) by (apply Hr; now left). cbn [length seq foldM concat].
    rewrite <- (app_assoc r), <- Ha. pose proof (get_ok r a (concat m ++ b)) as P. rewrite Hn in P. rewrite P. clear P. cbn [bind]. rewrite app_assoc, (IH (S k) (acc ++ [r]) (a ++ r) b off).
    - now rewrite <- app_assoc.
    - intros r' H'. apply Hr. now right.
    - rewrite app_length. lia.
  Qed.
  Lemma get_mat_ok n m (a b : list D) : length m = n -> (forall r, In r m -> length r = n) -> get_mat (a ++ concat m ++ b) (length a) n = Ret m.
  Proof. intros H1 H2. unfold get_mat. pose proof (get_mat_gen n m 0 [] a b (length a) H2) as P. rewrite H1 in P. apply P. lia. Qed.
  Lemma concat_len n (m : list (list D)) : (forall r, In r m -> length r = n) -> length (concat m) = length m * n.
  Proof. induction m as [|r m IH]; intros H; auto. cbn [concat length]. rewrite app_length, IH by (intros; apply H; now right). rewrite (H r) by now left. reflexivity. Qed.

  (** the doubles of an item, and how many there are *)
  Definition flat (v : bval D) : list D := match v with BDouble x => [x] | BVec l => l | BMat m => concat m | BElast r p w => r :: p ++ concat w end.
  Definition plain (t : bty) : Prop := match t with TElast _ => False | _ => True end.
  Definition real_size (t : bty) : nat := match t with TElast dim => 1 + dim + etm dim * etm dim | _ => size_in_buffer t end.
  Lemma flat_len t v : shaped t v -> length (flat v) = real_size t.
  Proof.
    destruct t, v; cbn; try tauto; auto.
    - intros (H1 & H2). rewrite (concat_len n) by auto. now rewrite H1.
    - intros (H1 & H2 & H3). rewrite app_length, (concat_len (etm dim)) by auto. now rewrite H1, H2.
  Qed.
  Lemma pack_ok t v (a old b : list D) : shaped t v -> length old = real_size t -> pack t v (a ++ old ++ b) (length a) = Ret (a ++ flat v ++ b, size_in_buffer t).
  Proof.
    intros HS HO. pose proof (flat_len t v HS) as FL. destruct t, v; cbn in HS; try contradiction; unfold pack; cbn [flat] in *.
    - rewrite put_ok by (cbn in *; lia). reflexivity.
    - rewrite put_ok by (cbn in *; lia). reflexivity.
    - destruct HS. rewrite put_mat_ok by auto. reflexivity.
    - rewrite put_ok by (cbn in *; lia). reflexivity.
    - destruct HS as (H1 & H2 & H3). cbn in HO. destruct old as [|o old]; [discriminate|]. rewrite <- (firstn_skipn dim old).
      change (a ++ (o :: firstn dim old ++ skipn dim old) ++ b) with (a ++ [o] ++ (firstn dim old ++ skipn dim old) ++ b).
      rewrite put_ok by reflexivity. cbn [bind]. rewrite app_assoc, <- (app_assoc (firstn dim old)).
      replace (length a + 1) with (length (a ++ [rot])) by (rewrite app_length; reflexivity).
      rewrite put_ok by (rewrite firstn_length; cbn in *; lia). cbn [bind]. rewrite app_assoc.
      replace (length (a ++ [rot]) + dim) with (length ((a ++ [rot]) ++ pos)) by (rewrite (app_length (a ++ [rot])); lia).
      rewrite put_mat_ok; auto. cbn [bind]. rewrite <- !app_assoc. cbn [app]. now rewrite <- !app_assoc. rewrite skipn_length. cbn in *. lia.
  Qed.
  Lemma unpack_ok t v (a b : list D) : shaped t v -> unpack t (a ++ flat v ++ b) (length a) = Ret (v, size_in_buffer t).
  Proof.
    intros HS. destruct t, v; cbn in HS; try contradiction; unfold unpack; cbn [flat].
    - unfold rd. rewrite nth_error_app2, Nat.sub_diag by lia. reflexivity.
    - rewrite <- HS, get_ok. reflexivity.
    - destruct HS. rewrite get_mat_ok by auto. reflexivity.
    - rewrite <- HS, get_ok. reflexivity.
    - destruct HS as (H1 & H2 & H3). unfold rd. rewrite nth_error_app2, Nat.sub_diag by lia. cbn [app nth_error bind].
      change (a ++ rot :: (pos ++ concat wt) ++ b) with (a ++ [rot] ++ (pos ++ concat wt) ++ b). rewrite app_assoc, <- (app_assoc pos).
      replace (length a + 1) with (length (a ++ [rot])) by (rewrite app_length; reflexivity). pose proof (get_ok pos (a ++ [rot]) (concat wt ++ b)) as P. rewrite H1 in P. rewrite P. clear P. cbn [bind].
      rewrite app_assoc. replace (length (a ++ [rot]) + dim) with (length ((a ++ [rot]) ++ pos)) by (rewrite (app_length (a ++ [rot])); lia).
      rewrite get_mat_ok by auto. reflexivity.
  Qed.
  Lemma pack_all_gen items : forall (a old b : list D), (forall it, In it items -> plain (fst it) /\ shaped (fst it) (snd it)) ->
    length old = list_sum (map (fun it => size_in_buffer (fst it)) items) ->
    pack_all items (a ++ old ++ b) (length a) = Ret (a ++ concat (map (fun it => flat (snd it)) items) ++ b, length a + length old).
  Proof.
    induction items as [|(t & v) items IH]; intros a old b H HO; cbn [map list_sum fold_right concat] in *.
    - destruct old; [|discriminate]. cbn. now rewrite Nat.add_0_r.
    - destruct (H (t, v) ltac:(now left)) as (H1 & H2). cbn [fst snd] in *. unfold pack_all. cbn [foldM fst snd].
      assert (RS : real_size t = size_in_buffer t) by (destruct t; auto; contradiction).
      rewrite <- (firstn_skipn (size_in_buffer t) old). rewrite <- (app_assoc (firstn _ old)).
      fold (list_sum (map (fun it : bty * bval D => size_in_buffer (fst it)) items)) in HO.
      assert (FO : length (firstn (size_in_buffer t) old) = size_in_buffer t) by (rewrite firstn_length; lia).
      rewrite pack_ok by (auto; lia). cbn [bind fst snd]. rewrite app_assoc.
      pose proof (flat_len t v H2) as FL.
      replace (length a + size_in_buffer t) with (length (a ++ flat v)) by (rewrite app_length; lia).
      change (foldM _ items ?s) with (pack_all items (fst s) (snd s)). cbn [fst snd].
      rewrite IH.
      + rewrite app_length, <- !app_assoc. rewrite app_length, FO, skipn_length, FL, RS. do 2 f_equal. lia.
      + intros it Hi. apply H. now right.
      + rewrite skipn_length. lia.
  Qed.
  Lemma unpack_all_gen (items : list (bty * bval D)) : forall (acc : list (bval D)) a b, (forall it, In it items -> plain (fst it) /\ shaped (fst it) (snd it)) ->
    foldM (fun s t => ' p <- unpack t (a ++ concat (map (fun it => flat (snd it)) items) ++ b) (snd s) ;; Ret (fst s ++ [fst p], snd s + snd p)) (map fst items) (acc, length a)
    = Ret (acc ++ map snd items, length a + list_sum (map (fun it => size_in_buffer (fst it)) items)).
  Proof.
    induction items as [|(t & v) items IH]; intros acc a b H; cbn [map concat foldM fst snd].
    - rewrite app_nil_r. cbn. now rewrite Nat.add_0_r.
    - destruct (H (t, v) ltac:(now left)) as (H1 & H2). cbn [fst snd] in *.
      assert (RS : real_size t = size_in_buffer t) by (destruct t; auto; contradiction).
      pose proof (flat_len t v H2) as FL.
      rewrite <- (app_assoc (flat v)). rewrite unpack_ok by auto. cbn [bind fst snd]. rewrite app_assoc.
      replace (length a + size_in_buffer t) with (length (a ++ flat v)) by (rewrite app_length; lia).
      rewrite IH by (intros; apply H; now right). rewrite <- app_assoc, app_length, FL, RS. cbn [app]. do 2 f_equal. unfold list_sum. cbn [fold_right map]. lia.
  Qed.
End Buffer.
