(** C108: ProduceReducedTable. *)
From Verif Require Import Base UtilProofs MISProofs ReduceProofs PrtModel PrtSpec.
From Coq Require Import Lia.
Local Open Scope nat_scope.

Lemma wr_pad {A} (L : list A) z x k n : k = length L -> k < n -> wr (L ++ repeat z (n - k)) k x = Ret ((L ++ [x]) ++ repeat z (n - S k)).
Proof.
  intros -> H. rewrite wr_ok by (rewrite app_length, repeat_length; lia). f_equal. replace (n - length L) with (S (n - S (length L))) by lia. cbn [repeat]. generalize (repeat z (n - S (length L))). clear H. intros R. induction L as [|y L IH]; cbn; auto. f_equal. exact IH.
Qed.
Lemma put_mid {A} (L C : list (list A)) b row k : k = length L -> length b = length row -> put_row (L ++ b :: C) k row = Ret (L ++ row :: C).
Proof.
  intros -> H. unfold put_row. rewrite (rd_ok _ _ b) by (rewrite app_length; cbn; lia). rewrite nth_middle. cbn [bind]. rewrite H, Nat.eqb_refl. rewrite wr_ok by (rewrite app_length; cbn; lia). f_equal. clear H. induction L as [|y L IH]; cbn; auto. f_equal. exact IH.
Qed.
Lemma skipn_cons {A} (d : A) : forall k l, k < length l -> skipn k l = nth k l d :: skipn (S k) l.
Proof. induction k as [|k IH]; intros [|x l] H; cbn in *; try lia; auto. rewrite IH by lia. reflexivity. Qed.

Lemma skipn_mid {A} (x : A) L C : skipn (length L) (L ++ x :: C) = x :: C /\ skipn (S (length L)) (L ++ x :: C) = C.
Proof. induction L as [|y L IH]; cbn; auto. Qed.

Section P.
Context {D TEX TOUT : Type}.
Variables (gen : list (list D * list nat)) (enc : list D -> list TEX) (dec : list TEX -> list TOUT) (loct : list D -> list TOUT) (dex : TEX) (dout : TOUT).
Notation n := (length gen).
Notation d0 := (@nil D, @nil nat).
Definition isx (k : nat) : bool := shared (nth k gen d0).
Definition exr (j : nat) : list nat := filter isx (seq 0 j).
Definition LF (j : nat) := locals (firstn j gen).
Definition XF (j : nat) := exs (firstn j gen).
Lemma step_S j : j < n -> LF (S j) = LF j ++ (if isx j then [] else [nth j gen d0]) /\ XF (S j) = XF j ++ (if isx j then [nth j gen d0] else []) /\ exr (S j) = exr j ++ (if isx j then [j] else []).
Proof.
  intros H. unfold LF, XF, locals, exs, exr. rewrite (firstn_S_nth d0) by auto. rewrite seq_S, !filter_app. cbn [plus filter]. change (shared (nth j gen d0)) with (isx j). destruct (isx j); cbn [negb]; rewrite ?app_nil_r; auto.
Qed.
Lemma lens j : j <= n -> length (LF j) + length (XF j) = j /\ length (exr j) = length (XF j) /\ map (fun k => nth k gen d0) (exr j) = XF j.
Proof.
  induction j as [|j IH]; intros H. cbn. auto. destruct IH as (A & B & C). lia. destruct (step_S j) as (E1 & E2 & E3). lia. rewrite E1, E2, E3, map_app, !app_length, C. destruct (isx j); cbn; repeat split; lia.
Qed.
Definition len1 (r : list D * list nat) : nat := length (fst r).
Definition len2 (r : list D * list nat) : nat := length (snd r).
Lemma dps_nil j : isx j = false -> snd (nth j gen d0) = [].
Proof. unfold isx, shared. destruct (snd (nth j gen d0)); auto. discriminate. Qed.
Lemma sizes_run : prt_sizes gen = Ret (map len1 (locals gen) ++ repeat 0 (length (exs gen)), map len1 (exs gen), map len2 gen, exr n, length (locals gen), length (exs gen)).
Proof.
  unfold prt_sizes. match goal with |- context [foldM ?F _ ?v0] => assert (G : forall j, j <= n -> foldM F (seq 0 j) v0 = Ret (map len1 (LF j) ++ repeat 0 (n - length (LF j)), map len1 (XF j) ++ repeat 0 (n - length (XF j)), map len2 (firstn j gen) ++ repeat 0 (n - j), exr j ++ repeat 0 (n - length (exr j)), length (LF j), length (XF j))) end.
  { induction j as [|j IH]; intros H. cbn. now rewrite Nat.sub_0_r. rewrite seq_S, foldM_app, IH by lia. cbn [plus bind foldM]. rewrite (rd_ok gen j d0) by lia. cbn [bind]. destruct (lens j) as (A & B & _). lia. destruct (step_S j) as (E1 & E2 & E3). lia. rewrite E1, E2, E3, (firstn_S_nth d0 j) by lia. pose proof (dps_nil j) as DN. assert (PX : length (firstn j gen) = j) by (apply firstn_length_le; lia). destruct (nth j gen d0) as (data, dps) eqn:R. cbn [snd] in DN.
    destruct dps as [|p dps].
    - assert (X : isx j = false) by (unfold isx, shared; now rewrite R). rewrite X, !app_nil_r. rewrite wr_pad by (try rewrite map_length; lia). cbn [bind]. rewrite !map_app, app_length. cbn [map length]. rewrite Nat.add_1_r. unfold len2 at 2. cbn [snd length]. rewrite <- (app_assoc (map len2 (firstn j gen))). replace (n - j) with (S (n - S j)) by lia. reflexivity.
    - assert (X : isx j = true) by (unfold isx, shared; now rewrite R). rewrite X, !app_nil_r. rewrite wr_pad by (try rewrite map_length; lia). cbn [bind]. rewrite wr_pad by (try rewrite map_length; lia). cbn [bind]. rewrite <- B. rewrite wr_pad by lia. cbn [bind]. rewrite !map_app, !app_length, B. cbn [map length]. rewrite !Nat.add_1_r. reflexivity. }
  rewrite G by lia. cbn [bind]. destruct (lens n) as (A & B & _). lia. unfold LF, XF in *. rewrite firstn_all in *. rewrite Nat.sub_diag. cbn [repeat]. rewrite app_nil_r. replace (n - length (locals gen)) with (length (exs gen)) by lia. f_equal. f_equal. f_equal. f_equal.
  - f_equal. f_equal. rewrite firstn_app, map_length, Nat.sub_diag, app_nil_r. rewrite <- (map_length len1). apply firstn_all.
  - rewrite <- B at 1. rewrite firstn_app, Nat.sub_diag, app_nil_r. apply firstn_all.
Qed.
Lemma lens_n : length (locals gen) + length (exs gen) = n /\ length (exr n) = length (exs gen) /\ map (fun k => nth k gen d0) (exr n) = exs gen.
Proof. destruct (lens n (le_n _)) as (A & B & C). unfold LF, XF in *. now rewrite firstn_all in *. Qed.
Lemma exr_nth k : k < length (exs gen) -> rd (exr n) k = Ret (nth k (exr n) 0) /\ nth k (exr n) 0 < n /\ nth (nth k (exr n) 0) gen d0 = nth k (exs gen) d0.
Proof.
  destruct lens_n as (A & B & C). intros H. split. apply rd_ok. lia. split. { assert (I : In (nth k (exr n) 0) (exr n)) by (apply nth_In; lia). revert I. generalize (nth k (exr n) 0). intros x I. unfold exr in I. apply filter_In in I as (I & _). apply in_seq in I. lia. }
  rewrite <- C. rewrite (nth_indep (map (fun k => nth k gen d0) (exr n)) d0 (nth 0 gen d0)) by (rewrite map_length; lia). now rewrite (map_nth (fun k => nth k gen d0)).
Qed.
Lemma tables_run : (forall row, In row (exs gen) -> length (enc (fst row)) = length (fst row)) ->
  prt_tables gen enc dex = Ret (repeat [] (length (locals gen)) ++ map snd (exs gen), map (fun row => enc (fst row)) (exs gen)).
Proof.
  intros HE. unfold prt_tables. rewrite sizes_run. cbn [bind]. destruct lens_n as (A & B & C). set (nl := length (locals gen)) in *. set (ne := length (exs gen)) in *. destruct (Nat.ltb_spec 0 ne) as [L|L].
  2:{ assert (X : exs gen = []) by (destruct (exs gen); auto; unfold ne in L; cbn in L; lia). rewrite X. cbn [map]. rewrite app_nil_r. f_equal. f_equal. assert (Y : forall g : list (list D * list nat), exs g = [] -> new_table 0 (map len2 g) = repeat [] (length (locals g))). { clear. unfold new_table. induction g as [|r g IH]; auto. destruct r as [x [|p q]]; unfold exs, locals in *; cbn. intros E. f_equal. auto. discriminate. } now apply Y. }
  assert (SZ : forall l init, (forall k, In k l -> k < n) -> foldM (fun l k => x <- rd (map len2 gen) k ;; Ret (l ++ [x])) l init = Ret (init ++ map (fun k => len2 (nth k gen d0)) l)).
  { induction l as [|k l IH]; intros init H. cbn. now rewrite app_nil_r. cbn [foldM]. rewrite (rd_ok _ k (len2 d0)) by (rewrite map_length; apply H; now left). cbn [bind]. rewrite IH by (intros; apply H; now right). rewrite map_nth, <- app_assoc. reflexivity. }
  rewrite SZ. 2:{ intros k I. unfold exr in I. apply filter_In in I as (I & _). apply in_seq in I. lia. } cbn [bind app]. replace (map (fun k => len2 (nth k gen d0)) (exr n)) with (map len2 (exs gen)) by (rewrite <- C, map_map; reflexivity). replace (n - ne) with nl by lia.
  assert (T0 : forall m, @new_table nat 0 (repeat 0 m ++ map len2 (exs gen)) = repeat [] m ++ map (fun r => repeat 0 (len2 r)) (exs gen)). { intros m. unfold new_table. rewrite map_app, map_map. f_equal. induction m; cbn; f_equal; auto. } rewrite T0. unfold new_table. rewrite map_map.
  match goal with |- foldM ?F (seq 0 ne) ?v0 = _ => assert (G : forall k, k <= ne -> foldM F (seq 0 k) v0 = Ret ((repeat [] nl ++ map snd (firstn k (exs gen))) ++ map (fun r => repeat 0 (len2 r)) (skipn k (exs gen)), map (fun row => enc (fst row)) (firstn k (exs gen)) ++ map (fun r => repeat dex (len1 r)) (skipn k (exs gen)))) end.
  { induction k as [|k IH]; intros H. cbn [seq foldM firstn skipn map app]. now rewrite app_nil_r. rewrite seq_S, foldM_app, IH by lia. cbn [plus bind foldM]. destruct (exr_nth k) as (R1 & R2 & R3). unfold ne in H. lia. rewrite R1. cbn [bind]. rewrite (rd_ok gen _ d0) by auto. rewrite R3. cbn [bind]. rewrite (skipn_cons d0 k) by (unfold ne in H; lia). assert (HI : In (nth k (exs gen) d0) (exs gen)) by (apply nth_In; unfold ne in H; lia). specialize (HE _ HI). rewrite (firstn_S_nth d0 k) by (unfold ne in H; lia). destruct (nth k (exs gen) d0) as (data, dps). cbn [map fst snd] in *. unfold len1 at 1, len2 at 1. cbn [fst snd].
    assert (FL : length (firstn k (exs gen)) = k) by (apply firstn_length_le; unfold ne in H; lia).
    rewrite put_mid by (rewrite ?app_length, ?repeat_length, ?map_length, ?FL; lia). cbn [bind]. rewrite put_mid by (rewrite ?map_length, ?repeat_length; lia). cbn [bind]. rewrite !map_app. cbn [map fst snd]. rewrite <- !app_assoc. reflexivity. }
  rewrite G by lia. unfold ne. rewrite firstn_all, skipn_all. cbn [map]. now rewrite !app_nil_r.
Qed.
(** What goes into the reduction: the rows with distant ranks, in their order, encoded; the table of distant ranks has no entries for the local rows, then those of the shared rows *)
Theorem C108_tables : (forall row, In row (exs gen) -> length (enc (fst row)) = length (fst row)) ->
  prt_tables gen enc dex = Ret (repeat [] (length (locals gen)) ++ map snd (exs gen), map (fun row => enc (fst row)) (exs gen)).
Proof. exact tables_run. Qed.
(** What comes out: the transformed local rows, in their order, then the decoded results of the reduction, with the table of distant ranks *)
Theorem C108_out : forall red, (forall row, In row (exs gen) -> length (enc (fst row)) = length (fst row)) -> (forall row, In row (locals gen) -> length (loct (fst row)) = length (fst row)) ->
  length red = length (exs gen) -> (forall x, In x red -> length (dec x) <= length x) ->
  prt_out gen enc dec loct dex dout red = Ret (map (fun row => loct (fst row)) (locals gen) ++ map dec red, repeat [] (length (locals gen)) ++ map snd (exs gen)).
Proof.
  intros red HE HL HR HD. unfold prt_out. rewrite sizes_run. cbn [bind]. rewrite tables_run by auto. cbn [bind]. destruct lens_n as (A & B & C). set (nl := length (locals gen)) in *. set (ne := length (exs gen)) in *.
  match goal with |- context [foldM ?F (seq 0 ne) ?v0] => assert (G : forall k, k <= ne -> foldM F (seq 0 k) v0 = Ret ((map len1 (locals gen) ++ map (fun x => length (dec x)) (firstn k red)) ++ repeat 0 (ne - k))) end.
  { induction k as [|k IH]; intros H. cbn. now rewrite app_nil_r, Nat.sub_0_r. rewrite seq_S, foldM_app, IH by lia. cbn [plus bind foldM]. rewrite (rd_ok red k []) by lia. cbn [bind]. assert (HI : In (nth k red []) red) by (apply nth_In; lia). specialize (HD _ HI). destruct (Nat.leb_spec (length (dec (nth k red []))) (length (nth k red []))); [|lia].
    replace (ne - k) with ((nl + ne) - (nl + k)) by lia. rewrite wr_pad by (rewrite ?app_length, ?map_length, ?firstn_length_le by lia; lia). cbn [bind]. rewrite (firstn_S_nth [] k) by lia. rewrite map_app. cbn [map]. rewrite <- !app_assoc. replace (nl + ne - S (nl + k)) with (ne - S k) by lia. reflexivity. }
  rewrite G by lia. clear G. rewrite Nat.sub_diag. cbn [repeat bind]. rewrite app_nil_r. replace ne with (length red) at 1 by exact HR. rewrite firstn_all.
  match goal with |- context [foldM ?F (seq 0 n) ?v0] => assert (G : forall j, j <= n -> foldM F (seq 0 j) v0 = Ret ((map (fun row => loct (fst row)) (LF j) ++ map (fun r => repeat dout (len1 r)) (skipn (length (LF j)) (locals gen))) ++ map dec (firstn (length (XF j)) red) ++ map (fun x => repeat dout (length (dec x))) (skipn (length (XF j)) red), length (XF j), length (LF j))) end.
  { assert (SPL : forall j, j <= n -> (forall P : list D * list nat -> bool, filter P gen = filter P (firstn j gen) ++ filter P (skipn j gen))). { intros j H P. rewrite <- filter_app. now rewrite firstn_skipn. }
    induction j as [|j IH]; intros H. { cbn [seq foldM firstn LF XF locals exs filter length skipn map app]. unfold new_table. rewrite map_app, !map_map. reflexivity. }
    rewrite seq_S, foldM_app, IH by lia. clear IH. cbn [plus bind foldM]. destruct (step_S j) as (E1 & E2 & E3). lia. destruct (lens j) as (L1 & L2 & L3). lia.
    assert (SK : skipn j gen = nth j gen d0 :: skipn (S j) gen) by (apply skipn_cons; lia).
    assert (T : (if length (XF j) <? ne then r <- rd (exr n) (length (XF j)) ;; Ret (r =? j) else Ret false) = Ret (isx j)).
    { destruct (isx j) eqn:X. 
      - destruct (cntf_nth isx n j) as (Y1 & Y2); auto. assert (Q : cntf isx j = length (XF j)) by (rewrite <- L2; reflexivity). rewrite Q in *. fold (exr n) in Y1, Y2. rewrite B in Y1. destruct (Nat.ltb_spec (length (XF j)) ne); [|lia]. rewrite (rd_ok _ _ 0) by lia. cbn [bind]. rewrite Y2, Nat.eqb_refl. reflexivity.
      - destruct (Nat.ltb_spec (length (XF j)) ne); auto. rewrite (rd_ok _ _ 0) by lia. cbn [bind]. destruct (Nat.eqb_spec (nth (length (XF j)) (exr n) 0) j) as [Y|]; auto. assert (I : In j (exr n)) by (rewrite <- Y; apply nth_In; lia). unfold exr in I. apply filter_In in I as (_ & I). congruence. }
    rewrite T. cbn [bind]. rewrite E1, E2. destruct (isx j) eqn:X; rewrite app_nil_r, app_length; cbn [length]; rewrite Nat.add_1_r.
    - assert (XL : length (XF j) < ne). { unfold ne, exs. rewrite (SPL j ltac:(lia)), SK, app_length. cbn [filter]. unfold isx in X. rewrite X. cbn [length]. unfold XF, exs. lia. }
      rewrite (rd_ok red _ []) by lia. cbn [bind]. rewrite (skipn_cons [] (length (XF j)) red) by lia. cbn [map]. rewrite app_assoc. rewrite put_mid.
      2:{ assert (LL : length (LF j) <= nl). { unfold nl, locals. rewrite (SPL j ltac:(lia)), app_length. unfold LF, locals. lia. } rewrite !app_length, !map_length, skipn_length, firstn_length_le by lia. fold nl. lia. }
      2:{ apply repeat_length. }
      cbn [bind]. rewrite (firstn_S_nth [] (length (XF j)) red) by lia. rewrite map_app. cbn [map]. rewrite <- !app_assoc. reflexivity.
    - assert (LN : skipn (length (LF j)) (locals gen) = nth j gen d0 :: skipn (S (length (LF j))) (locals gen)).
      { assert (Q : locals gen = LF j ++ nth j gen d0 :: locals (skipn (S j) gen)). { unfold LF, locals. rewrite (SPL j ltac:(lia)) at 1. rewrite SK. cbn [filter]. unfold isx in X. rewrite X. reflexivity. } rewrite Q.
        rewrite (proj1 (skipn_mid (nth j gen d0) (LF j) (locals (skipn (S j) gen)))), (proj2 (skipn_mid (nth j gen d0) (LF j) (locals (skipn (S j) gen)))). reflexivity. }
      rewrite (rd_ok gen j d0) by lia. assert (HI : In (nth j gen d0) (locals gen)). { rewrite <- (firstn_skipn (length (LF j)) (locals gen)), LN. apply in_or_app. right. now left. } specialize (HL _ HI). rewrite LN. destruct (nth j gen d0) as (data, dps). cbn [fst] in HL. cbn [bind map]. unfold len1 at 1. cbn [fst]. rewrite <- app_assoc. cbn [app]. rewrite put_mid by (rewrite ?map_length, ?repeat_length; lia). cbn [bind]. rewrite map_app. cbn [map fst]. rewrite <- !app_assoc. reflexivity. }
  rewrite G by lia. cbn [bind]. destruct lens_n as (A' & _). unfold LF, XF. rewrite firstn_all. fold ne. rewrite skipn_all. rewrite <- HR. rewrite firstn_all, skipn_all. cbn [map]. now rewrite !app_nil_r.
Qed.
End P.
(** four rows, two of them shared; the reduction gives rows of other sizes; decodeData leaves out the last entry *)
Example C108_ex : let gen := [([1; 2], []); ([3], [1; 2]); ([4; 5; 6], [2]); ([7], [])] in let enc := map (Nat.mul 10) in let dec := fun l : list nat => removelast l in
  prt_tables gen enc 0 = Ret ([[]; []; [1; 2]; [2]], [[30]; [40; 50; 60]]) /\ prt_out gen enc dec (map S) 0 0 [[30; 31; 32]; [40]] = Ret ([[2; 3]; [8]; [30; 31]; []], [[]; []; [1; 2]; [2]]) /\
  (forall row, In row (exs gen) -> length (enc (fst row)) = length (fst row)) /\ (forall row, In row (locals gen) -> length (map S (fst row)) = length (fst row)).
Proof. cbv zeta. split. vm_compute. reflexivity. split. vm_compute. reflexivity. split; intros; apply map_length. Qed.
Print Assumptions C108_tables.
Print Assumptions C108_out.
