From Verif Require Import Base ArraysModel ArraysProofs AGroup LinAlg LinTools SparseModel SparseSpec SparseProofs SparseProofs2 SparseProofs3 MergeModel BlockModel BlockProofs2 CtrModel CtrProofs CtrProofs2 DofMapSpec.
From Coq Require Import Permutation Ring.
Open Scope nat_scope.

Lemma bitcount_upd (sp : list bool) c : c < length sp -> nth c sp false = false -> forall n a, a <= c < a + n ->
  length (filter (fun k => nth k (upd sp c true) false) (seq a n)) = S (length (filter (fun k => nth k sp false) (seq a n))).
Proof.
  intros Hc Hf. induction n as [|n IH]; intros a Ha; [lia|]. simpl. destruct (Nat.eq_dec a c) as [->|N].
  - rewrite nth_upd_eq, Hf by auto. simpl. f_equal. f_equal. apply filter_ext_in. intros k Hk. apply in_seq in Hk. now rewrite nth_upd_neq by lia.
  - rewrite nth_upd_neq by auto. destruct (nth a sp false); simpl; rewrite IH by lia; reflexivity.
Qed.

Lemma upd_mid {A} (x y : A) rest : forall pre, upd (pre ++ y :: rest) (length pre) x = pre ++ x :: rest.
Proof. induction pre; simpl; auto. now rewrite IHpre. Qed.

Section GetRows.
  Context {E : Type}.
  Notation row := (srow E). Notation mat := (smat E).
  Definition bits (sp : list bool) (w : nat) : list nat := filter (fun k => nth k sp false) (seq 0 w).
  Lemma space_row w (r : row) : (forall c, In c (cols r) -> c < w) -> forall sp, length sp = w ->
    exists sp', foldM (fun st e => let '(space, cnt) := st in b <- rd space (fst e) ;;
                  if b : bool then Ret (space, cnt) else space <- wr space (fst e) true ;; Ret (space, S cnt)) r (sp, length (bits sp w)) = Ret (sp', length (bits sp' w)) /\
      length sp' = w /\ forall c, nth c sp' false = true <-> nth c sp false = true \/ In c (cols r).
  Proof.
    induction r as [|e r IH]; intros H sp Hl.
    - exists sp. split; [reflexivity|]. split; auto. intros c. simpl. tauto.
    - cbn [foldM]. assert (He : fst e < w) by (apply H; now left). rewrite (rd_nth sp (fst e) false) by lia. cbn [bind].
      destruct (nth (fst e) sp false) eqn:Eb.
      + cbn [bind]. destruct (IH ltac:(intros; apply H; now right) sp Hl) as (sp' & E1 & Hl' & Hc). exists sp'. split; auto. split; auto.
        intros c. rewrite Hc. simpl. split; [tauto|]. intros [Q|[<-|Q]]; auto.
      + rewrite wr_ok by lia. cbn [bind]. unfold bits at 1. rewrite <- (bitcount_upd sp (fst e)) by (auto; lia). fold (bits (upd sp (fst e) true) w).
        destruct (IH ltac:(intros; apply H; now right) (upd sp (fst e) true) ltac:(now rewrite upd_length)) as (sp' & E1 & Hl' & Hc). exists sp'. split; auto. split; auto.
        intros c. rewrite Hc. simpl. destruct (Nat.eq_dec (fst e) c) as [<-|N].
        * rewrite nth_upd_eq by lia. tauto. * rewrite nth_upd_neq by auto. tauto.
  Qed.
  Lemma space_rows w (P : mat) dmap : width_ok w P -> (forall d, In d dmap -> d < length P) -> forall sp, length sp = w ->
    exists sp', foldM (fun st rownr => let '(space, cnt) := st in r <- rd P rownr ;;
               foldM (fun st e => let '(space, cnt) := st in b <- rd space (fst e) ;;
                        if b : bool then Ret (space, cnt) else space <- wr space (fst e) true ;; Ret (space, S cnt)) r (space, cnt)) dmap (sp, length (bits sp w)) = Ret (sp', length (bits sp' w)) /\
      length sp' = w /\ forall c, nth c sp' false = true <-> nth c sp false = true \/ exists d, In d dmap /\ In c (cols (nth d P [])).
  Proof.
    intros Hw. induction dmap as [|d dmap IH]; intros Hd sp Hl.
    - exists sp. split; [reflexivity|]. split; auto. intros c. split; auto. intros [Q|(d & [] & _)]; auto.
    - cbn [foldM]. assert (Hdd : d < length P) by (apply Hd; now left). rewrite (rd_nth P d []) by auto. cbn [bind].
      destruct (space_row w (nth d P [])) with (sp := sp) as (sp1 & E1 & Hl1 & Hc1); auto.
      { intros c Hc. apply in_map_iff in Hc as (e & <- & He). apply (Hw (nth d P [])); auto. now apply nth_In. }
      rewrite E1. cbn [bind]. destruct (IH ltac:(intros; apply Hd; now right) sp1 Hl1) as (sp2 & E2 & Hl2 & Hc2). exists sp2. split; auto. split; auto.
      intros c. rewrite Hc2, Hc1. split.
      + intros [[Q|Q]|(d' & H1 & H2)]; auto. right. exists d. split; auto. now left. right. exists d'. split; auto. now right.
      + intros [Q|(d' & [<-|H1] & H2)]; auto. right. eauto.
  Qed.
  Definition newnr (sp : list bool) (i : nat) : nat := length (bits sp i).
  Lemma bits_S sp k : bits sp (S k) = bits sp k ++ (if nth k sp false then [k] else []).
  Proof. unfold bits. rewrite seq_S, filter_app. simpl. destruct (nth k sp false); reflexivity. Qed.
  Lemma bits_app sp a b : bits sp (a + b) = bits sp a ++ filter (fun k => nth k sp false) (seq a b).
  Proof. unfold bits. now rewrite seq_app, filter_app. Qed.
  Lemma nth_newnr sp w i : i < w -> nth i sp false = true -> newnr sp i < length (bits sp w) /\ nth (newnr sp i) (bits sp w) 0 = i.
  Proof.
    intros Hi Hb. replace w with (i + (1 + (w - i - 1))) by lia. rewrite bits_app, seq_app, filter_app. simpl (filter _ (seq i 1)). rewrite Hb. unfold newnr. split.
    - rewrite !app_length. simpl. lia. - rewrite app_nth2, Nat.sub_diag by lia. reflexivity.
  Qed.
  Lemma rmap_loop w sp : length sp = w -> forall n, n <= w ->
    exists rmap, foldM (fun st k => let '(rmap, dm, cnt) := st in b <- rd sp k ;;
               if b : bool then rmap <- wr rmap k (Z.of_nat cnt) ;; dm <- wr dm cnt (Some k) ;; Ret (rmap, dm, S cnt)
               else Ret (rmap, dm, cnt)) (seq 0 n) (repeat (-1)%Z w, repeat None (length (bits sp w)), 0)
      = Ret (rmap, map Some (bits sp n) ++ repeat None (length (bits sp w) - length (bits sp n)), length (bits sp n)) /\ length rmap = w /\
      forall i, i < n -> nth i rmap 0%Z = if nth i sp false then Z.of_nat (newnr sp i) else (-1)%Z.
  Proof.
    intros Hl. 
    assert (G : forall n, n <= w -> exists rmap, foldM (fun st k => let '(rmap, dm, cnt) := st in b <- rd sp k ;;
               if b : bool then rmap <- wr rmap k (Z.of_nat cnt) ;; dm <- wr dm cnt (Some k) ;; Ret (rmap, dm, S cnt)
               else Ret (rmap, dm, cnt)) (seq 0 n) (repeat (-1)%Z w, repeat None (length (bits sp w)), 0)
      = Ret (rmap, map Some (bits sp n) ++ repeat None (length (bits sp w) - length (bits sp n)), length (bits sp n)) /\ length rmap = w /\
      forall i, i < w -> nth i rmap 0%Z = if (i <? n) && nth i sp false then Z.of_nat (newnr sp i) else (-1)%Z).
    { induction n as [|n IH]; intros Hn.
      - exists (repeat (-1)%Z w). cbn [seq foldM bits filter length map app]. rewrite Nat.sub_0_r. split; [reflexivity|]. split; [apply repeat_length|].
        intros i Hi. simpl. rewrite (nth_indep _ 0%Z (-1)%Z) by (rewrite repeat_length; auto). apply nth_repeat_d.
      - destruct (IH ltac:(lia)) as (rmap & E1 & Hlr & Hr). rewrite seq_S, foldM_app, E1. cbn [bind foldM Nat.add].
        rewrite (rd_nth sp n false) by lia. cbn [bind]. rewrite bits_S. destruct (nth n sp false) eqn:Eb.
        + rewrite wr_ok by lia. cbn [bind].
          assert (Hlt : length (bits sp n) < length (bits sp w)). { now apply (nth_newnr sp w n). }
          replace (length (bits sp w) - length (bits sp n)) with (S (length (bits sp w) - S (length (bits sp n)))) by lia. cbn [repeat].
          rewrite wr_ok by (rewrite app_length, map_length; simpl; lia). cbn [bind]. eexists. split; [|split].
          * rewrite app_length. cbn [length]. rewrite Nat.add_1_r. f_equal. f_equal. f_equal.
            rewrite map_app. cbn [map]. rewrite <- app_assoc. cbn [app].
            rewrite <- (upd_mid (Some n) None _ (map Some (bits sp n))). now rewrite map_length.
          * now rewrite upd_length.
          * intros i Hi. destruct (Nat.eq_dec n i) as [<-|N].
            -- rewrite nth_upd_eq by lia. rewrite Eb. destruct (Nat.ltb_spec n (S n)); [reflexivity|lia].
            -- rewrite nth_upd_neq, Hr by auto. replace (i <? S n) with (i <? n); auto. destruct (Nat.ltb_spec i n), (Nat.ltb_spec i (S n)); auto; lia.
        + cbn [bind]. exists rmap. rewrite app_nil_r. split; [reflexivity|]. split; auto. intros i Hi. rewrite Hr by auto.
          destruct (Nat.eq_dec n i) as [<-|N]. * rewrite Eb, !andb_false_r. reflexivity.
          * replace (i <? S n) with (i <? n); auto. destruct (Nat.ltb_spec i n), (Nat.ltb_spec i (S n)); auto; lia. }
    intros n Hn. destruct (G n Hn) as (rmap & E1 & H1 & H2). exists rmap. split; auto. split; auto. intros i Hi. rewrite H2 by lia.
    destruct (Nat.ltb_spec i n); [reflexivity|lia].
  Qed.
  Theorem get_rows_ok w (P : mat) dmap : width_ok w P -> (forall d, In d dmap -> d < length P) ->
    exists nd chunk, CtrModel.get_rows w P dmap = Ret (nd, chunk) /\ StronglySorted lt nd /\ (forall c, In c nd -> c < w) /\
      (forall c, In c nd <-> exists d, In d dmap /\ In c (cols (nth d P []))) /\ length chunk = length dmap /\ width_ok (length nd) chunk /\
      forall a, a < length dmap -> renum nd (nth a chunk []) = nth (nth a dmap 0) P [].
  Proof.
    intros Hw Hd. unfold CtrModel.get_rows. assert (Z0 : length (bits (repeat false w) w) = 0).
    { unfold bits. rewrite (filter_ext _ (fun _ => false)) by (intros; apply nth_repeat_d). induction (seq 0 w); simpl; auto. }
    destruct (space_rows w P dmap Hw Hd (repeat false w) (repeat_length _ _)) as (sp & E1 & Hl & Hc). rewrite Z0 in E1. rewrite E1. cbn [bind].
    destruct (rmap_loop w sp Hl w (le_n w)) as (rmap & E2 & Hlr & Hr). rewrite E2. cbn [bind].
    rewrite Nat.sub_diag. cbn [repeat]. rewrite app_nil_r, freeze_row_some. cbn [bind].
    assert (Sp : forall c, nth c sp false = true <-> exists d, In d dmap /\ In c (cols (nth d P []))).
    { intros c. rewrite Hc, nth_repeat_d. split; auto. intros [Q|Q]; auto. discriminate. }
    set (ch := fun d => map (fun e => (newnr sp (fst e), snd e)) (nth d P [])).
    assert (Hcw : forall d c, In d dmap -> In c (cols (nth d P [])) -> c < w /\ nth c sp false = true).
    { intros d c Hdd Hcc. split. - apply in_map_iff in Hcc as (e & <- & He). apply (Hw (nth d P [])); auto. apply nth_In. auto. - apply Sp. eauto. }
    rewrite (mapM_ok _ ch).
    2:{ intros d Hdd. rewrite (rd_nth P d []) by auto. cbn [bind].
        assert (G : forall done todo, nth d P [] = done ++ todo ->
          foldM (fun st e => let '(cells, c) := st in newcol <- rd rmap (fst e) ;;
                         if negb (newcol =? -1)%Z then cells <- wr cells c (Some (Z.to_nat newcol, snd e)) ;; Ret (cells, S c) else Ret (cells, c)) todo
            (map Some (map (fun e => (newnr sp (fst e), snd e)) done) ++ repeat None (length todo), length done) = Ret (map Some (ch d), length (nth d P []))).
        { intros done todo. revert done. induction todo as [|e todo IH]; intros done Hsplit.
          - rewrite app_nil_r in *. cbn [foldM repeat length]. unfold ch. rewrite Hsplit. rewrite ?app_nil_r. reflexivity.
          - cbn [foldM]. destruct (Hcw d (fst e)) as (H1 & H2); auto. { rewrite Hsplit. unfold cols. rewrite map_app. apply in_app_iff. right. now left. }
            rewrite (rd_nth rmap (fst e) 0%Z) by lia. cbn [bind]. rewrite Hr, H2 by auto. destruct (Z.eqb_spec (Z.of_nat (newnr sp (fst e))) (-1)); [lia|]. cbn [negb].
            rewrite wr_ok by (rewrite app_length, !map_length; simpl; lia). cbn [bind]. rewrite Nat2Z.id. rewrite <- (IH (done ++ [e])) by now rewrite <- app_assoc.
            rewrite app_length. cbn [length]. rewrite Nat.add_1_r. f_equal. f_equal. rewrite !map_app. cbn [map]. rewrite <- app_assoc. cbn [app repeat].
            match goal with |- _ = ?p ++ ?x :: _ => rewrite <- (upd_mid x None _ p) end. now rewrite !map_length. }
        specialize (G [] (nth d P []) eq_refl). cbn [map app length] in G. rewrite G. cbn [bind fst]. now rewrite freeze_row_some. }
    cbn [bind]. exists (bits sp w), (map ch dmap). split; [reflexivity|].
    assert (Hin : forall c, In c (bits sp w) <-> c < w /\ nth c sp false = true).
    { intros c. unfold bits. rewrite filter_In, in_seq. intuition lia. }
    split; [|split; [|split; [|split; [|split]]]].
    - unfold bits. clear. assert (S : forall a, StronglySorted lt (filter (fun k => nth k sp false) (seq a w))).
      { induction w as [|n IH]; intros a; simpl. constructor. specialize (IH (S a)). destruct (nth a sp false); auto. constructor; auto.
        apply Forall_forall. intros x Hx. apply filter_In in Hx as (Hx & _). apply in_seq in Hx. lia. } apply S.
    - intros c Hx. now apply Hin in Hx.
    - intros c. rewrite Hin, Sp. split; [tauto|]. intros (d & H1 & H2). split; [now apply (Hcw d)|eauto].
    - now rewrite map_length.
    - intros r p Hr' Hp. apply in_map_iff in Hr' as (d & <- & Hdd). unfold ch in Hp. apply in_map_iff in Hp as (e & <- & He). cbn [fst].
      destruct (Hcw d (fst e) Hdd) as (H1 & H2). { now apply in_map. } apply (nth_newnr sp w); auto.
    - intros a Ha. rewrite (nth_indep _ [] (ch 0)) by now rewrite map_length. rewrite (map_nth ch). unfold ch, renum. rewrite map_map. cbn [fst snd].
      rewrite <- (map_id (nth (nth a dmap 0) P [])) at 2. apply map_ext_in. intros e He. destruct (Hcw (nth a dmap 0) (fst e)) as (H1 & H2). { now apply nth_In. } { now apply in_map. }
      rewrite (proj2 (nth_newnr sp w (fst e) H1 H2)). now destruct e.
  Qed.
End GetRows.

Section Act.
  Context {B : Blk} (L : BlkLaws B).
  Let LX := lawX B L.
  Ltac agx := ag LX.
  Notation vec := (list (X B)). Notation mat := (smat (M B)).
  Lemma ent_scattered nd (y : vec) c : c < length nd -> ent (scattered nd y) c = ent y (nth c nd 0).
  Proof. intros H. unfold scattered, ent at 1. rewrite (nth_indep _ x0 (ent y 0)) by now rewrite map_length. apply (map_nth (ent y)). Qed.
  Lemma row_times_renum nd (r : srow (M B)) (y : vec) : (forall c, In c (cols r) -> c < length nd) -> row_times (renum nd r) y = row_times r (scattered nd y).
  Proof.
    induction r as [|e r IH]; intros H; [reflexivity|]. cbn [renum map]. rewrite !(row_times_cons L). cbn [fst snd]. rewrite ent_scattered by (apply H; now left).
    f_equal. apply IH. intros; apply H; now right.
  Qed.
  (** sums *)
  Definition lsum' := @lsum B.
  Lemma lsum_swap {A C} (l : list A) (m : list C) (f : A -> C -> X B) : lsum l (fun a => lsum m (f a)) = lsum m (fun c => lsum l (fun a => f a c)).
  Proof.
    induction l as [|a l IH]; simpl.
    - symmetry. apply (lsum_0 L). - rewrite IH. clear IH. induction m as [|c m IH]; simpl; [agx|]. rewrite <- IH. agx.
  Qed.
  Lemma lsum_act {A} (l : list A) (f : A -> X B) (a : M B) : act a (lsum l f) = lsum l (fun i => act a (f i)).
  Proof. induction l; simpl. apply (act_x0 L). now rewrite (act_add B L), IHl. Qed.
  Lemma lsum_add {A} (l : list A) (f g : A -> X B) : lsum l (fun a => xadd (f a) (g a)) = xadd (lsum l f) (lsum l g).
  Proof. induction l; simpl. agx. rewrite IHl. agx. Qed.
  Lemma lsum_delta n i (u : X B) : i < n -> lsum (seq 0 n) (fun j => if i =? j then u else x0) = u.
  Proof. intros H. change (xsum n (fun j => if i =? j then u else x0) = u). now apply (xsum_delta L). Qed.
End Act.
